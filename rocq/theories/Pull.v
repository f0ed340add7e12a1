(** [VectorLFA::update] with an iterator of errors, /repo/src/lib.rs:265-281.
    Lfa.v takes the errors as a list. Here they come from any iterator, which may
    be endless, return items again after [None], panic, or be one the caller
    keeps ([&mut it]). *)
From Coq Require Import List Arith Lia.
From Verif Require Import Base Scalar NdArray Features Optim Lfa LfaSpec LfaFacts.
Import ListNotations.

(** What a call of [next] can do. The caller keeps the iterator after [Some]
    and after [None]; what a panicking [next] leaves in it is not modelled. *)
Inductive pull (F X : Type) :=
| Item (e : F) (x : X)
| Done (x : X)
| Crash.
Arguments Item {F X}.
Arguments Done {F X}.
Arguments Crash {F X}.

(** How an update ends: it returns, with the iterator as it leaves it; [next]
    panics, with the optimiser and weights as they are then; or something else
    panics. *)
Inductive ended (X A : Type) :=
| Returned (x : X) (a : A) (r : result unit)
| Threw (a : A)
| Broke.
Arguments Returned {X A}.
Arguments Threw {X A}.
Arguments Broke {X A}.

Section Pull.
  Context {F I S X : Type} (opt : Optimiser F S) (next : X -> pull F X).

  (** lib.rs:274-279. [Zip::next] asks the errors first and the columns second:
      when the columns have run out, the error it has just got is dropped. [k]
      columns are left, the first of them being column [j]. (ndarray's iterators
      over columns are none of those for which [Zip] is specialised.) *)
  Fixpoint pull_columns (b : Features F) (k j : nat) (x : X) (wm : matrix F) (s : S) (acc : result unit)
      : ended X (S * matrix F) :=
    match next x with
    | Crash => Threw (s, wm)
    | Done x' => Returned x' (s, wm) acc
    | Item e x' =>
        match k with
        | O => Returned x' (s, wm) acc
        | Datatypes.S k' =>
            match column wm j with
            | Panic => Broke
            | Ret c =>
                match o_step_scaled opt s c b e with
                | Panic => Broke
                | Ret (s', c', r) =>
                    match set_column wm j c' with
                    | Panic => Broke
                    | Ret wm' => pull_columns b k' (Datatypes.S j) x' wm' s' (rand acc r)
                    end
                end
            end
        end
    end.

  (** lib.rs:265-281. [errors.into_iter()] is only called once the input has been
      projected. *)
  Definition v_update_from (a : VectorLFA F I S) (input : I) (errors : X) : ended X (VectorLFA F I S) :=
    match b_project (lfa_basis a) input with
    | Panic => Broke
    | Ret (Err e) => Returned errors a (Err e)
    | Ret (Ok b) =>
        match pull_columns b (ncols (lfa_weights a)) 0 errors (lfa_weights a) (lfa_optimiser a) (Ok tt) with
        | Returned x (s, wm) r => Returned x (with_state a wm s) r
        | Threw (s, wm) => Threw (with_state a wm s)
        | Broke => Broke
        end
    end.

  (** The next items of [x] are [es], and then it is [x']. *)
  Inductive gives : X -> list F -> X -> Prop :=
  | gives_none x : gives x [] x
  | gives_one x e y es z : next x = Item e y -> gives y es z -> gives x (e :: es) z.

  Lemma gives_app x es y : gives x es y -> forall fs z, gives y fs z -> gives x (es ++ fs) z.
  Proof. induction 1; intros; cbn [app]; auto. econstructor; eauto. Qed.

  Lemma set_column_ncols (wm wm' : matrix F) j c : set_column wm j c = Ret wm' -> ncols wm' = ncols wm.
  Proof. unfold set_column. destruct (set_rows _ _ _); cbn [obind]; intros E; [injection E as <-|discriminate]. reflexivity. Qed.

  (** How the pulling fold relates to the one over a list. *)
  Lemma pull_enough b : forall k es j x y wm s acc, gives x es y -> length es = Datatypes.S k -> j + k = ncols wm ->
    pull_columns b k j x wm s acc =
    match update_columns opt b es j wm s acc with
    | Ret (s', wm', r) => Returned y (s', wm') r
    | Panic => Broke
    end.
  Proof.
    induction k as [|k IH]; intros es j x y wm s acc G L K.
    - destruct es as [|e [|]]; try discriminate. inversion G as [|? ? ? ? ? N G']; subst. inversion G'; subst.
      cbn [pull_columns update_columns]. rewrite N. destruct (Nat.ltb_spec j (ncols wm)); [lia|reflexivity].
    - destruct es as [|e es]; [discriminate|]. inversion G as [|? ? y1 ? ? N G']; subst.
      cbn [pull_columns update_columns]. rewrite N. destruct (Nat.ltb_spec j (ncols wm)) as [Lj|Lj]; [|lia].
      destruct (column wm j) as [c|]; [|reflexivity]. cbn [obind].
      destruct (o_step_scaled opt s c b e) as [[[s' c'] r]|]; [|reflexivity]. cbn [obind].
      destruct (set_column wm j c') as [wm'|] eqn:Sc; [|reflexivity]. cbn [obind].
      apply IH; auto. rewrite (set_column_ncols _ _ _ _ Sc). lia.
  Qed.

  Lemma pull_short b : forall k es j x y wm s acc, gives x es y -> length es <= k -> j + k = ncols wm ->
    pull_columns b k j x wm s acc =
    match update_columns opt b es j wm s acc with
    | Ret (s', wm', r) => pull_columns b (k - length es) (j + length es) y wm' s' r
    | Panic => Broke
    end.
  Proof.
    intros k es. revert k. induction es as [|e es IH]; intros k j x y wm s acc G L K; cbn [length] in *.
    - inversion G; subst. cbn [update_columns]. rewrite Nat.sub_0_r, Nat.add_0_r. reflexivity.
    - destruct k as [|k]; [lia|]. inversion G as [|? ? y1 ? ? N G']; subst.
      cbn [pull_columns update_columns]. rewrite N. destruct (Nat.ltb_spec j (ncols wm)) as [Lj|Lj]; [|lia].
      destruct (column wm j) as [c|]; [|reflexivity]. cbn [obind].
      destruct (o_step_scaled opt s c b e) as [[[s' c'] r]|]; [|reflexivity]. cbn [obind].
      destruct (set_column wm j c') as [wm'|] eqn:Sc; [|reflexivity]. cbn [obind].
      rewrite (IH k (Datatypes.S j) y1 y); auto; [|lia|rewrite (set_column_ncols _ _ _ _ Sc); lia].
      replace (Datatypes.S j + length es) with (j + Datatypes.S (length es)) by lia. reflexivity.
  Qed.

  (** ** Every update, by what the iterator gives *)

  Definition as_returned (x : X) (u : outcome (VectorLFA F I S * result unit)) : ended X (VectorLFA F I S) :=
    match u with Ret (a, r) => Returned x a r | Panic => Broke end.

  Lemma from_enough a i es x y : (exists b, b_project (lfa_basis a) i = Ret (Ok b)) ->
    gives x es y -> length es = Datatypes.S (n_outputs a) ->
    v_update_from a i x = as_returned y (v_update opt a i es).
  Proof.
    intros [b P] G L. unfold v_update_from, v_update, as_returned. rewrite P. cbn [obind].
    rewrite (pull_enough b _ es 0 x y); auto. destruct (update_columns _ _ _ _ _ _ _) as [[[s wm] r]|]; reflexivity.
  Qed.

  Lemma from_done a i es x y z : (exists b, b_project (lfa_basis a) i = Ret (Ok b)) ->
    gives x es y -> length es <= n_outputs a -> next y = Done z ->
    v_update_from a i x = as_returned z (v_update opt a i es).
  Proof.
    intros [b P] G L N. unfold v_update_from, v_update, as_returned. rewrite P. cbn [obind].
    rewrite (pull_short b _ es 0 x y); auto. destruct (update_columns _ _ _ _ _ _ _) as [[[s wm] r]|]; [|reflexivity].
    cbn [obind]. unfold pull_columns. destruct (ncols (lfa_weights a) - length es); rewrite N; reflexivity.
  Qed.

  Lemma from_crash a i es x y : (exists b, b_project (lfa_basis a) i = Ret (Ok b)) ->
    gives x es y -> length es <= n_outputs a -> next y = Crash ->
    v_update_from a i x = match v_update opt a i es with Ret (a', _) => Threw a' | Panic => Broke end.
  Proof.
    intros [b P] G L N. unfold v_update_from, v_update. rewrite P. cbn [obind].
    rewrite (pull_short b _ es 0 x y); auto. destruct (update_columns _ _ _ _ _ _ _) as [[[s wm] r]|]; [|reflexivity].
    cbn [obind]. unfold pull_columns. destruct (ncols (lfa_weights a) - length es); rewrite N; reflexivity.
  Qed.

  Lemma from_untouched a i x : ~ (exists b, b_project (lfa_basis a) i = Ret (Ok b)) ->
    v_update_from a i x = match b_project (lfa_basis a) i with Ret (Err e) => Returned x a (Err e) | _ => Broke end.
  Proof.
    intros N. unfold v_update_from. destruct (b_project (lfa_basis a) i) as [[b|e]|]; try reflexivity. exfalso. eauto.
  Qed.

  (** Those cases are all. *)
  Lemma gives_cases n : forall x, (exists es y, gives x es y /\ length es = Datatypes.S n) \/
    (exists es y z, gives x es y /\ length es <= n /\ next y = Done z) \/
    (exists es y, gives x es y /\ length es <= n /\ next y = Crash).
  Proof.
    induction n as [|n IH]; intros x; destruct (next x) as [e y|z|] eqn:N.
    - left. exists [e], y. split; [econstructor; [exact N|constructor]|reflexivity].
    - right. left. exists [], x, z. split; [constructor|]. auto.
    - right. right. exists [], x. split; [constructor|]. auto.
    - destruct (IH y) as [(es & y' & G & L)|[(es & y' & z & G & L & D)|(es & y' & G & L & D)]].
      + left. exists (e :: es), y'. split; [econstructor; eauto|simpl; lia].
      + right. left. exists (e :: es), y', z. split; [econstructor; eauto|]. simpl. split; [lia|auto].
      + right. right. exists (e :: es), y'. split; [econstructor; eauto|]. simpl. split; [lia|auto].
    - right. left. exists [], x, z. split; [constructor|]. simpl. split; [lia|auto].
    - right. right. exists [], x. split; [constructor|]. simpl. split; [lia|auto].
  Qed.

  (** ** One iterator for many updates: [for x in inputs { fa.update(x, &mut it) }] *)

  Fixpoint run_from (is : list I) (a : VectorLFA F I S) (x : X) : ended X (VectorLFA F I S) :=
    match is with
    | [] => Returned x a (Ok tt)
    | i :: is' =>
        match v_update_from a i x with
        | Returned x' a' _ => run_from is' a' x'
        | Threw a' => Threw a'
        | Broke => Broke
        end
    end.
End Pull.

Arguments gives {F X}.
Arguments pull_columns {F S X}.
Arguments v_update_from {F I S X}.
Arguments run_from {F I S X}.

(** The iterators used below: a list, and an endless sequence from a position on. *)
Definition list_next {F} (l : list F) : pull F (list F) := match l with [] => Done [] | e :: l' => Item e l' end.
Definition seq_next {F} (f : nat -> F) (p : nat) : pull F nat := Item (f p) (S p).

Lemma list_gives {F} (es l : list F) : gives list_next (es ++ l) es l.
Proof. induction es as [|e es IH]; cbn [app]; [constructor|econstructor; [reflexivity|exact IH]]. Qed.

Lemma seq_gives {F} (f : nat -> F) n : forall p, gives (seq_next f) p (map f (seq p n)) (p + n).
Proof.
  induction n as [|n IH]; intros p; cbn [seq map].
  - rewrite Nat.add_0_r. constructor.
  - econstructor; [reflexivity|]. replace (p + S n) with (S p + n) by lia. apply IH.
Qed.

Section Lists.
  Context {F I S : Type} (opt : Optimiser F S).

  Lemma from_list (a : VectorLFA F I S) i es : (exists b, b_project (lfa_basis a) i = Ret (Ok b)) ->
    v_update_from opt list_next a i es = as_returned (skipn (Datatypes.S (n_outputs a)) es) (v_update opt a i (firstn (Datatypes.S (n_outputs a)) es)).
  Proof.
    intros P. pose proof (firstn_skipn (Datatypes.S (n_outputs a)) es) as E.
    destruct (Nat.le_gt_cases (length es) (n_outputs a)) as [L|L].
    - rewrite firstn_all2, skipn_all2 by lia. apply from_done with (y := []); auto.
      rewrite <- (app_nil_r es) at 1. apply list_gives.
    - apply from_enough; auto; [|rewrite firstn_length; lia]. rewrite <- E at 1. apply list_gives.
  Qed.

  Lemma from_list_surplus (a : VectorLFA F I S) i es :
    v_update opt a i (firstn (Datatypes.S (n_outputs a)) es) = v_update opt a i es.
  Proof.
    unfold v_update. destruct (b_project (lfa_basis a) i) as [[b|e]|]; try reflexivity. cbn [obind].
    assert (Q : forall k es j wm s acc, j + k = ncols wm ->
      update_columns opt b (firstn (Datatypes.S k) es) j wm s acc = update_columns opt b es j wm s acc).
    { induction k as [|k IH]; intros [|e es'] j wm s acc K; try reflexivity.
      - cbn [firstn update_columns]. destruct (Nat.ltb_spec j (ncols wm)); [lia|reflexivity].
      - remember (Datatypes.S k) as k' eqn:Ek. cbn [firstn update_columns]. destruct (j <? ncols wm); [|reflexivity].
        destruct (column wm j) as [c|]; [|reflexivity]. cbn [obind].
        destruct (o_step_scaled opt s c b e) as [[[s' c'] r]|]; [|reflexivity]. cbn [obind].
        destruct (set_column wm j c') as [wm'|] eqn:Sc; [|reflexivity]. cbn [obind]. subst k'.
        apply IH. rewrite (set_column_ncols _ _ _ _ Sc). lia. }
    unfold n_outputs. rewrite (Q (ncols (lfa_weights a)) es 0); auto.
  Qed.
End Lists.

(** ** Keeping the iterator *)

Section Shared.
  Context {F I S : Type} (opt : Optimiser F S).

  Lemma update_columns_ncols b : forall es j (wm : matrix F) (s : S) acc s' wm' r,
    update_columns opt b es j wm s acc = Ret (s', wm', r) -> ncols wm' = ncols wm.
  Proof.
    induction es as [|e es IH]; intros j wm s acc s' wm' r E; cbn [update_columns] in E; [injection E as <- <- <-; reflexivity|].
    destruct (j <? ncols wm); [|injection E as <- <- <-; reflexivity].
    destruct (column wm j) as [c|]; [|discriminate]. cbn [obind] in E.
    destruct (o_step_scaled opt s c b e) as [[[s1 c1] r1]|]; [|discriminate]. cbn [obind] in E.
    destruct (set_column wm j c1) as [wm1|] eqn:Sc; [|discriminate]. cbn [obind] in E.
    rewrite (IH _ _ _ _ _ _ _ E). exact (set_column_ncols _ _ _ _ Sc).
  Qed.

  Lemma v_update_keeps (a a' : VectorLFA F I S) i es r : v_update opt a i es = Ret (a', r) ->
    lfa_basis a' = lfa_basis a /\ n_outputs a' = n_outputs a.
  Proof.
    unfold v_update. destruct (b_project (lfa_basis a) i) as [[b|e]|]; cbn [obind]; intros E; try discriminate.
    - destruct (update_columns _ _ _ _ _ _ _) as [[[s wm] r']|] eqn:U; [|discriminate]. cbn [obind] in E. injection E as <- <-.
      split; [reflexivity|]. exact (update_columns_ncols _ _ _ _ _ _ _ _ _ U).
    - injection E as <- <-. auto.
  Qed.

  Lemma update_columns_last b : forall es e j (wm : matrix F) (s : S) acc, j + length es = ncols wm ->
    update_columns opt b (es ++ [e]) j wm s acc = update_columns opt b es j wm s acc.
  Proof.
    induction es as [|e' es IH]; intros e j wm s acc K; cbn [app update_columns length] in *.
    - destruct (Nat.ltb_spec j (ncols wm)); [lia|reflexivity].
    - destruct (j <? ncols wm); [|reflexivity].
      destruct (column wm j) as [c|]; [|reflexivity]. cbn [obind].
      destruct (o_step_scaled opt s c b e') as [[[s' c'] r]|]; [|reflexivity]. cbn [obind].
      destruct (set_column wm j c') as [wm'|] eqn:Sc; [|reflexivity]. cbn [obind].
      apply IH. rewrite (set_column_ncols _ _ _ _ Sc). lia.
  Qed.

  Lemma v_update_last (a : VectorLFA F I S) i es e : length es = n_outputs a -> v_update opt a i (es ++ [e]) = v_update opt a i es.
  Proof.
    intros L. unfold v_update. destruct (b_project (lfa_basis a) i) as [[b|er]|]; try reflexivity. cbn [obind].
    rewrite update_columns_last; [reflexivity|exact L].
  Qed.

  (** What the [k]-th update over an endless sequence is given: [n] errors from
      position [p + k (n + 1)] on. *)
  Fixpoint strides (f : nat -> F) (n p : nat) (is : list I) : list (v_call F I) :=
    match is with
    | [] => []
    | i :: is' => VUpdate i (map f (seq p n)) :: strides f n (p + Datatypes.S n) is'
    end.

  Lemma run_endless f : forall is (a : VectorLFA F I S) p,
    (forall i, In i is -> exists b, b_project (lfa_basis a) i = Ret (Ok b)) ->
    run_from opt (seq_next f) is a p =
    match ofold (fun a c => match c with VUpdate i es => omap fst (v_update opt a i es) | _ => Ret a end)
            (strides f (n_outputs a) p is) a with
    | Ret a' => Returned (p + length is * Datatypes.S (n_outputs a)) a' (Ok tt)
    | Panic => Broke
    end.
  Proof.
    induction is as [|i is IH]; intros a p P; cbn [run_from strides ofold].
    - f_equal. simpl. lia.
    - rewrite (from_enough opt (seq_next f) a i (map f (seq p (Datatypes.S (n_outputs a)))) p (p + Datatypes.S (n_outputs a)));
        [|apply P; left; reflexivity|apply seq_gives|rewrite map_length, seq_length; reflexivity].
      rewrite <- (from_list_surplus opt a i (map f (seq p (n_outputs a)))).
      replace (v_update opt a i (firstn (Datatypes.S (n_outputs a)) (map f (seq p (n_outputs a)))))
        with (v_update opt a i (map f (seq p (Datatypes.S (n_outputs a))))).
      + destruct (v_update opt a i (map f (seq p (Datatypes.S (n_outputs a))))) as [[a' r]|] eqn:U; cbn [as_returned omap obind fst]; [|reflexivity].
        destruct (v_update_keeps _ _ _ _ _ U) as [B N]. rewrite (IH a').
        * rewrite N. destruct (ofold _ _ _); [|reflexivity]. f_equal. cbn [length]. lia.
        * intros j J. rewrite B. apply P. right. exact J.
      + rewrite firstn_all2 by (rewrite map_length, seq_length; lia).
        rewrite seq_S, map_app. unfold v_update. destruct (b_project (lfa_basis a) i) as [[b|e]|]; try reflexivity. cbn [obind].
        cbn [map]. rewrite update_columns_last; [reflexivity|]. rewrite map_length, seq_length. reflexivity.
  Qed.

  (** [Iterator::take(n)] asks the iterator only while [n] is not 0. *)
  Definition take_next {X} (next : X -> pull F X) (p : X * nat) : pull F (X * nat) :=
    match snd p with
    | O => Done p
    | Datatypes.S n =>
        match next (fst p) with
        | Item e x => Item e (x, n)
        | Done x => Done (x, n)
        | Crash => Crash
        end
    end.

  Lemma take_gives {X} (next : X -> pull F X) es x y : gives next x es y -> forall n, gives (take_next next) (x, n + length es) es (y, n).
  Proof.
    induction 1 as [x|x e y es z N G IH]; intros n; cbn [length].
    - rewrite Nat.add_0_r. constructor.
    - econstructor; [|apply (IH n)]. unfold take_next. cbn [fst snd].
      replace (n + Datatypes.S (length es)) with (Datatypes.S (n + length es)) by lia. rewrite N. reflexivity.
  Qed.
End Shared.
