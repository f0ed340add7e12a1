(** C92: errors drawn from an iterator. Statements; the model and the proofs
    are in Pull.v. *)
From Coq Require Import String List Arith Lia Reals Lra.
From Verif Require Import Base Scalar ScalarR HMap NdArray VecFacts Features Spec FeatureFacts Optim Lfa LfaSpec LfaFacts PropLfa Pull.
Import ListNotations.

(** Every update, for every iterator. Let [n] be the number of outputs. An
    input that cannot be projected leaves the iterator as it was. Otherwise
    [next] is called until it has given [n + 1] errors or has ended. If it
    gives [n + 1], the update is the one with these, of which the last is lost;
    if it ends before that, the update is the one with what it gave; if it
    panics, the optimiser and the weights are left as that update leaves them. *)
Theorem C92_update : forall F I S X (o : Optimiser F S) (next : X -> pull F X) (a : VectorLFA F I S) i x,
  match b_project (lfa_basis a) i with
  | Panic => v_update_from o next a i x = Broke
  | Ret (Err e) => v_update_from o next a i x = Returned x a (Err e)
  | Ret (Ok _) =>
      (exists es y, gives next x es y /\ length es = n_outputs a + 1 /\
        v_update_from o next a i x = match v_update o a i es with Ret (a', r) => Returned y a' r | Panic => Broke end) \/
      (exists es y z, gives next x es y /\ length es <= n_outputs a /\ next y = Done z /\
        v_update_from o next a i x = match v_update o a i es with Ret (a', r) => Returned z a' r | Panic => Broke end) \/
      (exists es y, gives next x es y /\ length es <= n_outputs a /\ next y = Crash /\
        v_update_from o next a i x = match v_update o a i es with Ret (a', _) => Threw a' | Panic => Broke end)
  end.
Proof.
  intros F I S X o next a i x. destruct (b_project (lfa_basis a) i) as [[b|e]|] eqn:P.
  - destruct (gives_cases next (n_outputs a) x) as [(es & y & G & L)|[(es & y & z & G & L & D)|(es & y & G & L & D)]].
    + left. exists es, y. splits; auto; [lia|]. apply from_enough; eauto.
    + right. left. exists es, y, z. splits; auto. apply from_done with (y := y); eauto.
    + right. right. exists es, y. splits; auto. eapply from_crash; eauto.
  - unfold v_update_from. rewrite P. reflexivity.
  - unfold v_update_from. rewrite P. reflexivity.
Qed.
Print Assumptions C92_update.

(** A list of errors is the special case the other theorems are about. *)
Theorem C92_list : forall F I S (o : Optimiser F S) (a : VectorLFA F I S) i es b,
  b_project (lfa_basis a) i = Ret (Ok b) ->
  v_update_from o list_next a i es =
  match v_update o a i es with Ret (a', r) => Returned (skipn (n_outputs a + 1) es) a' r | Panic => Broke end.
Proof.
  intros F I S o a i es b P. rewrite from_list by eauto. rewrite from_list_surplus. rewrite Nat.add_1_r. reflexivity.
Qed.
Print Assumptions C92_list.

(** Endless errors are no obstacle, but one more is used up than is used. *)
Theorem C92_endless : forall F I S (o : Optimiser F S) (a : VectorLFA F I S) i b (f : nat -> F) p,
  b_project (lfa_basis a) i = Ret (Ok b) ->
  v_update_from o (seq_next f) a i p =
  match v_update o a i (map f (seq p (n_outputs a))) with
  | Ret (a', r) => Returned (p + n_outputs a + 1) a' r
  | Panic => Broke
  end.
Proof.
  intros F I S o a i b f p P.
  rewrite (from_enough o (seq_next f) a i (map f (seq p (Datatypes.S (n_outputs a)))) p (p + Datatypes.S (n_outputs a)));
    [|eauto|apply seq_gives|rewrite map_length, seq_length; reflexivity].
  rewrite seq_S, map_app. cbn [map]. rewrite v_update_last by (rewrite map_length, seq_length; reflexivity).
  unfold as_returned. replace (p + Datatypes.S (n_outputs a)) with (p + n_outputs a + 1) by lia. reflexivity.
Qed.
Print Assumptions C92_endless.

(** One iterator kept over many updates: the [k]-th update gets [n] errors from
    position [p + k (n + 1)] on. *)
Theorem C92_shared : forall F I S `{Scalar F} (o : Optimiser F S) (f : nat -> F) is (a : VectorLFA F I S) p,
  (forall i, In i is -> exists b, b_project (lfa_basis a) i = Ret (Ok b)) ->
  let n := n_outputs a in
  run_from o (seq_next f) is a p =
  match v_run o (map (fun ki => VUpdate (snd ki) (map f (seq (p + fst ki * (n + 1)) n))) (combine (seq 0 (length is)) is)) a with
  | Ret a' => Returned (p + length is * (n + 1)) a' (Ok tt)
  | Panic => Broke
  end.
Proof.
  intros F I S H o f is a p P n. rewrite (run_endless o f is a p P). fold n.
  replace (map (fun ki => VUpdate (snd ki) (map f (seq (p + fst ki * (n + 1)) n))) (combine (seq 0 (length is)) is))
    with (strides f n p is).
  - unfold v_run. replace (ofold (v_do o) (strides f n p is) a)
      with (ofold (fun a c => match c with VUpdate i es => omap fst (v_update o a i es) | _ => Ret a end) (strides f n p is) a).
    + rewrite Nat.add_1_r. reflexivity.
    + clear P. clearbody n. revert a p. induction is as [|i is IH]; intros a p; [reflexivity|]. cbn [strides ofold v_do].
      destruct (omap fst (v_update o a i (map f (seq p n)))); [|reflexivity]. apply IH.
  - clear P. clearbody n. enough (Q : forall m q, strides f n (q + m * (n + 1)) is =
      map (fun ki => VUpdate (snd ki) (map f (seq (q + fst ki * (n + 1)) n))) (combine (seq m (length is)) is)).
    { rewrite <- (Q 0 p). f_equal. lia. }
    clear. induction is as [|i is IH]; intros m q; [reflexivity|]. cbn [strides length seq combine map fst snd]. f_equal.
    rewrite <- IH. f_equal. lia.
Qed.
Print Assumptions C92_shared.

(** So two updates from one iterator of four errors are not, for two outputs, the
    update with the first two and the update with the last two: the third error is
    lost and the second output gets none the second time. *)
Theorem C92_shared_refuted : exists (a a1 a2 b1 b2 : VectorLFA R nat R) i es1 es2 r1 r2 r3 r4,
  n_outputs a = 2%nat /\ length es1 = 2%nat /\ length es2 = 2%nat /\
  v_update SGD a i es1 = Ret (a1, r1) /\ v_update SGD a1 i es2 = Ret (a2, r2) /\
  v_update_from SGD list_next a i (es1 ++ es2) = Returned (skipn 1 es2) b1 r3 /\
  v_update_from SGD list_next b1 i (skipn 1 es2) = Returned [] b2 r4 /\
  column (lfa_weights b2) 1 <> column (lfa_weights a2) 1.
Proof.
  exists (vector ex_basis 1%R 2). do 4 eexists. exists 1%nat, [1%R; 1%R], [1%R; 1%R]. do 4 eexists.
  split; [reflexivity|]. split; [reflexivity|]. split; [reflexivity|]. split; [reflexivity|]. split; [reflexivity|].
  split; [reflexivity|]. split; [reflexivity|].
  cbv - [Rplus Rmult Rminus Ropp IZR R]. intros E. injection E as E _ _. lra.
Qed.
Print Assumptions C92_shared_refuted.

(** [it.by_ref().take(n)] loses nothing: with [n] more errors in the iterator,
    the update is the one with these and the iterator is left just after them. *)
Theorem C92_take : forall F I S X (o : Optimiser F S) (next : X -> pull F X) (a : VectorLFA F I S) i b x es y,
  b_project (lfa_basis a) i = Ret (Ok b) -> gives next x es y -> length es = n_outputs a ->
  v_update_from o (take_next next) a i (x, n_outputs a) =
  match v_update o a i es with Ret (a', r) => Returned (y, 0) a' r | Panic => Broke end.
Proof.
  intros F I S X o next a i b x es y P G L. apply from_done with (y := (y, 0)); eauto; [|lia].
  rewrite <- L. exact (take_gives next es x y G 0).
Qed.
Print Assumptions C92_take.

(** Nothing after the first [None] is used, even if there is more. *)
Theorem C92_first_none : forall F I S X (o : Optimiser F S) (next next' : X -> pull F X) (a : VectorLFA F I S) i x es y z,
  gives next x es y -> gives next' x es y -> length es <= n_outputs a -> next y = Done z -> next' y = Done z ->
  v_update_from o next a i x = v_update_from o next' a i x.
Proof.
  intros F I S X o next next' a i x es y z G G' L D D'. pose proof (from_done o next a i es x y z) as A.
  pose proof (from_done o next' a i es x y z) as B.
  destruct (b_project (lfa_basis a) i) as [[b|e]|] eqn:P.
  - rewrite A, B; eauto.
  - unfold v_update_from. rewrite P. reflexivity.
  - unfold v_update_from. rewrite P. reflexivity.
Qed.
Print Assumptions C92_first_none.

(** An iterator that panics on its second error: the first output has been
    updated by then. *)
Example C92_throw_case : exists a', v_update_from SGD (fun k => match k with 0 => Item 1%R 1 | _ => Crash end) (vector ex_basis 1%R 2) 1 0 = Threw a' /\
  column (lfa_weights a') 0 <> column (lfa_weights (vector ex_basis 1%R 2)) 0 /\
  column (lfa_weights a') 1 = column (lfa_weights (vector ex_basis 1%R 2)) 1.
Proof.
  eexists. split; [reflexivity|]. cbv - [Rplus Rmult Rminus Ropp IZR R]. split; [|reflexivity].
  intros E. injection E as E _ _. lra.
Qed.

(** The three outcomes of [C92_update], and an input that is refused. *)
Example C92_case : b_project (lfa_basis (vector ex_basis 1%R 2)) 1 = Ret (Ok (Dense [1; 0; 3]%R)) /\
  gives (seq_next INR) 5 [INR 5; INR 6; INR 7] 8 /\
  gives list_next [1; 2]%R [1; 2]%R [] /\ list_next (F := R) [] = Done [] /\
  v_update_from SGD (seq_next INR) (vector ex_basis 1%R 2) 11 5 = Returned 5 (vector ex_basis 1%R 2) (Err ex_err).
Proof.
  splits; try reflexivity.
  - exact (seq_gives INR 3 5).
  - exact (list_gives [1; 2]%R []).
Qed.
