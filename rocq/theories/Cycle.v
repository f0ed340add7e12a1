(** Training on the same calls again and again, when a scalar has finitely many
    values. Facts for C82. *)
From Coq Require Import List Arith ZArith Lia Bool Reals Lra.
From Flocq Require Import Core.Core IEEE754.BinarySingleNaN.
From Flocq Require IEEE754.Binary IEEE754.Bits.
From Verif Require Import Base Scalar ScalarF64 F64Facts HMap NdArray VecFacts Features Spec FeatureFacts Optim OptimSpec Lfa LfaSpec LfaFacts.
Import ListNotations.

(** ** Pigeonhole *)

Lemma collision (g : nat -> nat) M : (forall k, k <= M -> g k < M) -> exists i j, i < j <= M /\ g i = g j.
Proof.
  intros B.
  assert (D : {ij | In ij (list_prod (seq 0 (S M)) (seq 0 (S M))) /\ fst ij < snd ij /\ g (fst ij) = g (snd ij)} +
              {forall ij, In ij (list_prod (seq 0 (S M)) (seq 0 (S M))) -> ~ (fst ij < snd ij /\ g (fst ij) = g (snd ij))}).
  { induction (list_prod (seq 0 (S M)) (seq 0 (S M))) as [|ij l IH]; [right; intros ? []|].
    destruct (lt_dec (fst ij) (snd ij)) as [L|L], (Nat.eq_dec (g (fst ij)) (g (snd ij))) as [E|E].
    - left. exists ij. split; [now left|auto].
    - destruct IH as [(x & I & P)|N]; [left; exists x; split; [now right|exact P]|right; intros x [<-|I]; [tauto|auto]].
    - destruct IH as [(x & I & P)|N]; [left; exists x; split; [now right|exact P]|right; intros x [<-|I]; [tauto|auto]].
    - destruct IH as [(x & I & P)|N]; [left; exists x; split; [now right|exact P]|right; intros x [<-|I]; [tauto|auto]]. }
  destruct D as [([i j] & I & L & E)|N].
  - exists i, j. apply in_prod_iff in I. rewrite !in_seq in I. cbn [fst snd] in *. split; [lia|exact E].
  - exfalso. assert (L : length (map g (seq 0 (S M))) <= length (seq 0 M)).
    { apply NoDup_incl_length.
      - assert (Inj : forall i j, i <= M -> j <= M -> g i = g j -> i = j).
        { intros i j Li Lj E. destruct (lt_eq_lt_dec i j) as [[L|L]|L]; auto; exfalso.
          - apply (N (i, j)); [apply in_prod_iff; rewrite !in_seq; lia|auto].
          - apply (N (j, i)); [apply in_prod_iff; rewrite !in_seq; lia|auto]. }
        clear N B. assert (G : forall s, s + S M <= S M + s -> forall n a, a + n <= S M -> NoDup (map g (seq a n))).
        { intros _ _. induction n as [|n IH]; intros a La; simpl; constructor.
          - intros I. apply in_map_iff in I. destruct I as (k & E & I). apply in_seq in I. apply Inj in E; lia.
          - apply IH. lia. }
        apply (G 0); lia.
      - intros x I. apply in_map_iff in I. destruct I as (k & <- & I). apply in_seq in I. apply in_seq. split; [lia|]. apply B. lia. }
    rewrite map_length, !seq_length in L. lia.
Qed.

(** ** Iterating a partial function on a finite set of states *)

Fixpoint iterate {A} (step : A -> outcome A) (k : nat) (a : A) : outcome A :=
  match k with 0 => Ret a | S k' => let* a' := step a in iterate step k' a' end.

Lemma iterate_add {A} (step : A -> outcome A) j : forall k a, iterate step (j + k) a = let* a' := iterate step j a in iterate step k a'.
Proof. induction j as [|j IH]; intros k a; simpl; [reflexivity|]. destruct (step a); simpl; auto. Qed.

Lemma cycle {A} (step : A -> outcome A) (P : A -> Prop) (key : A -> nat) M a0 :
  P a0 -> (forall a a', P a -> step a = Ret a' -> P a') -> (forall a, P a -> key a < M) ->
  (forall a b, P a -> P b -> key a = key b -> a = b) ->
  exists m p, 1 <= p /\ m + p <= S M /\ forall k, m <= k -> iterate step (k + p) a0 = iterate step k a0.
Proof.
  intros P0 PS KB KI.
  assert (Pi : forall k a, iterate step k a0 = Ret a -> P a).
  { intros k. induction k as [|k IH]; intros a E; [injection E as <-; exact P0|].
    replace (S k) with (k + 1) in E by lia. rewrite iterate_add in E. destruct (iterate step k a0) as [b|]; [|discriminate].
    simpl in E. destruct (step b) as [b'|] eqn:Eb; [|discriminate]. injection E as <-. eauto. }
  set (g k := match iterate step k a0 with Ret a => key a | Panic => 0 end).
  assert (D : (exists k, k <= M /\ iterate step k a0 = Panic) \/ forall k, k <= M -> exists a, iterate step k a0 = Ret a).
  { assert (G : forall n, (exists k, k <= n /\ iterate step k a0 = Panic) \/ forall k, k <= n -> exists a, iterate step k a0 = Ret a).
    { induction n as [|n [IH|IH]].
      - right. intros k L. replace k with 0 by lia. exists a0. reflexivity.
      - left. destruct IH as (k & L & E). exists k. split; [lia|exact E].
      - destruct (iterate step (S n) a0) as [a|] eqn:E.
        + right. intros k L. destruct (Nat.eq_dec k (S n)) as [->|N]; [eauto|apply IH; lia].
        + left. exists (S n). split; [lia|exact E]. }
    apply G. }
  destruct D as [(k & L & E)|D].
  - exists k, 1. split; [lia|]. split; [lia|]. intros j Lj. replace j with (k + (j - k)) by lia.
    replace (k + (j - k) + 1) with (k + (j - k + 1)) by lia. rewrite !iterate_add, E. reflexivity.
  - destruct (collision g M) as (i & j & L & E).
    { intros k Lk. unfold g. destruct (D k Lk) as (a & Ea). rewrite Ea. eauto. }
    destruct (D i ltac:(lia)) as (a & Ea), (D j ltac:(lia)) as (b & Eb). unfold g in E. rewrite Ea, Eb in E.
    apply KI in E; eauto. subst b. exists i, (j - i). split; [lia|]. split; [lia|]. intros k Lk.
    replace (k + (j - i)) with (j + (k - i)) by lia. replace k with (i + (k - i)) at 2 by lia. now rewrite !iterate_add, Ea, Eb.
Qed.

(** ** Keys for lists *)

Section Keys.
  Context {F : Type} (code : F -> nat) (N : nat).
  Hypothesis code_lt : forall x, code x < N.
  Hypothesis code_inj : forall x y, code x = code y -> x = y.

  Fixpoint key (l : list F) : nat := match l with [] => 0 | x :: l' => code x * N ^ length l' + key l' end.
  Lemma key_lt l : key l < N ^ length l.
  Proof.
    induction l as [|x l IH]; simpl; [lia|]. pose proof (code_lt x) as L.
    assert (code x * N ^ length l + N ^ length l <= N * N ^ length l) by nia. lia.
  Qed.
  Lemma key_inj l : forall l', length l = length l' -> key l = key l' -> l = l'.
  Proof.
    induction l as [|x l IH]; intros [|x' l'] L E; try discriminate; [reflexivity|]. simpl in L, E. injection L as L.
    rewrite <- L in E. pose proof (key_lt l) as B. pose proof (key_lt l') as B'. rewrite <- L in B'.
    assert (code x = code x' /\ key l = key l') as [C K].
    { destruct (lt_eq_lt_dec (code x) (code x')) as [[G|G]|G]; [exfalso; nia|split; [exact G|rewrite G in E; lia]|exfalso; nia]. }
    f_equal; auto.
  Qed.
End Keys.

(** ** The numbers in an optimiser *)

Ltac ostep E :=
  match type of E with
  | obind ?x _ = Ret _ => let H := fresh "Eo" in destruct x eqn:H; simpl in E; [|discriminate E]
  end.

Section Numbers.
  Context {F : Type} `{Scalar F}.

  Definition opt_numbers (o : lib_opt F) : list F :=
    match o with
    | LSGD lr | LISGD lr => [lr]
    | LMomentum s | LNAG s => mo_momentum s :: mo_lr s :: mo_velocity s
    | LAdagrad s => ag_lr s :: ag_acc s
    | LAdam s => ad_beta1 s :: ad_beta1_prod s :: ad_beta2 s :: ad_beta2_prod s :: ad_lr s :: ad_exp_avg s ++ ad_exp_avg_sq s
    | LAdaMax s => am_beta1 s :: am_beta1_prod s :: am_beta2 s :: am_lr s :: am_exp_avg s ++ am_exp_inf s
    end.

  (** Same kind, same lengths. *)
  Definition same_kind (o o' : lib_opt F) : Prop :=
    match o, o' with
    | LSGD _, LSGD _ | LISGD _, LISGD _ => True
    | LMomentum s, LMomentum s' | LNAG s, LNAG s' => length (mo_velocity s) = length (mo_velocity s')
    | LAdagrad s, LAdagrad s' => length (ag_acc s) = length (ag_acc s')
    | LAdam s, LAdam s' => length (ad_exp_avg s) = length (ad_exp_avg s') /\ length (ad_exp_avg_sq s) = length (ad_exp_avg_sq s')
    | LAdaMax s, LAdaMax s' => length (am_exp_avg s) = length (am_exp_avg s') /\ length (am_exp_inf s) = length (am_exp_inf s')
    | _, _ => False
    end.
  Lemma same_kind_refl o : same_kind o o.
  Proof. destruct o; simpl; auto. Qed.
  Lemma same_kind_trans o1 o2 o3 : same_kind o1 o2 -> same_kind o2 o3 -> same_kind o1 o3.
  Proof. destruct o1, o2; simpl; try tauto; destruct o3; simpl; try tauto; intuition congruence. Qed.
  Lemma same_kind_sym o1 o2 : same_kind o1 o2 -> same_kind o2 o1.
  Proof. destruct o1, o2; simpl; try tauto; intuition congruence. Qed.

  Lemma app_eq_len {A} (a b c d : list A) : length a = length c -> a ++ b = c ++ d -> a = c /\ b = d.
  Proof. revert c. induction a as [|x a IH]; intros [|y c] L E; try discriminate; [auto|]. simpl in *. injection E as -> E. injection L as L. destruct (IH c L E) as [-> ->]. auto. Qed.

  Lemma numbers_length o o' : same_kind o o' -> length (opt_numbers o) = length (opt_numbers o').
  Proof. destruct o, o'; simpl; try tauto; rewrite ?app_length; intuition congruence. Qed.
  Lemma numbers_inj o o' : same_kind o o' -> opt_numbers o = opt_numbers o' -> o = o'.
  Proof.
    destruct o as [?|?|s|s|s|s|s], o' as [?|?|s'|s'|s'|s'|s']; simpl; try tauto; try (intros _; congruence);
      destruct s, s'; simpl; intros L E; try (injection E as E1 E2 E3; subst; reflexivity).
    - injection E as E1 E2. subst. reflexivity.
    - injection E as E1 E2 E3 E4 E5 E6. apply app_eq_len in E6; [|tauto]. destruct E6. subst. reflexivity.
    - injection E as E1 E2 E3 E4 E6. apply app_eq_len in E6; [|tauto]. destruct E6. subst. reflexivity.
  Qed.

  Lemma vset_len {A} l i (v : A) l' : vset l i v = Ret l' -> length l' = length l.
  Proof. apply vupd_len. Qed.
  Lemma adam_coord_lens d lr b1 b2 p1 p2 e st ia st' : adam_coord d lr b1 b2 p1 p2 e st ia = Ret st' ->
    length (fst (fst st')) = length (fst (fst st)) /\ length (snd (fst st')) = length (snd (fst st)).
  Proof.
    destruct st as [[m1 m2] w], ia as [i a]. cbn [adam_coord]. intros E. repeat ostep E. injection E as <-. simpl.
    split; eapply vset_len; eauto.
  Qed.
  Lemma adamax_coord_lens d lr b1 b2 p1 e st ia st' : adamax_coord d lr b1 b2 p1 e st ia = Ret st' ->
    length (fst (fst st')) = length (fst (fst st)) /\ length (snd (fst st')) = length (snd (fst st)).
  Proof.
    destruct st as [[m1 m2] w], ia as [i a]. cbn [adamax_coord]. intros E. repeat ostep E. injection E as <-. simpl.
    split; eapply vset_len; eauto.
  Qed.
  Lemma velocity_update_len m v phi sf v' : velocity_update m v phi sf = Ret v' -> length v' = length v.
  Proof.
    unfold velocity_update. destruct phi as [da|sa]; [apply zip_mut_with_length|].
    apply (ofold_inv (fun x => length x = length v)); [|unfold mul_assign; apply map_length].
    intros b a b' L Eb. apply vupd_len in Eb. congruence.
  Qed.
  Lemma adagrad_dense_acc lr sf : forall da w ss, length (snd (adagrad_dense lr sf da w ss)) = length ss.
  Proof.
    induction da as [|a da IH]; intros w ss; [destruct w; reflexivity|]. destruct w as [|x w], ss as [|s ss]; try reflexivity.
    cbn [adagrad_dense]. specialize (IH w ss). destruct (adagrad_dense lr sf da w ss). simpl in *. congruence.
  Qed.
  Lemma adagrad_sparse_acc lr sf m : forall ss i w w' ss', adagrad_sparse lr sf m i ss w = Ret (w', ss') -> length ss' = length ss.
  Proof.
    induction ss as [|s ss IH]; intros i w w' ss' E; simpl in E; [injection E as <- <-; reflexivity|].
    destruct (vupd w i _) as [w1|]; simpl in E; [|discriminate].
    destruct (adagrad_sparse lr sf m (S i) ss w1) as [[w2 ss2]|] eqn:E2; simpl in E; [|discriminate]. injection E as <- <-.
    simpl. f_equal. eauto.
  Qed.

  Lemma lift_step_Ret' {S} (inj : S -> lib_opt F) r o' w' x : lift_step inj r = Ret (o', w', x) ->
    exists s', r = Ret (s', w', x) /\ o' = inj s'.
  Proof. destruct r as [[[s1 w1] x1]|]; simpl; [|discriminate]. injection 1 as <- <- <-. eauto. Qed.

  Lemma step_kind o w phi e o' w' r : o_step_scaled LibOptimiser o w phi e = Ret (o', w', r) -> same_kind o o'.
  Proof.
    destruct o as [lr|lr|s|s|s|s|s]; cbn [LibOptimiser o_step_scaled lib_step_scaled]; intros E; apply lift_step_Ret' in E; destruct E as (s' & E & ->); simpl in E.
    - unfold sgd_step_scaled in E. repeat ostep E. injection E as <- <- <-. exact I.
    - unfold isgd_step_scaled in E. repeat ostep E. injection E as <- <- <-. exact I.
    - unfold momentum_step_scaled in E. repeat ostep E. injection E as <- <- <-. simpl.
      symmetry. eapply velocity_update_len; eauto.
    - unfold nag_step_scaled in E. repeat ostep E. injection E as <- <- <-. simpl.
      symmetry. eapply velocity_update_len; eauto.
    - unfold adagrad_step_scaled in E. destruct phi as [da|sa].
      + simpl in E. pose proof (adagrad_dense_acc (ag_lr s) e da w (ag_acc s)) as L.
        destruct (adagrad_dense (ag_lr s) e da w (ag_acc s)). simpl in E, L. injection E as <- <- <-. simpl. auto.
      + destruct (adagrad_sparse _ _ _ _ _ _) as [[w2 ss2]|] eqn:Ea; simpl in E; [|discriminate].
        injection E as <- <- <-. simpl. symmetry. eapply adagrad_sparse_acc; eauto.
    - unfold adam_step_scaled in E.
      assert (X : forall d p1 p2 l st st',
        ofold (adam_coord d (ad_lr s) (ad_beta1 s) (ad_beta2 s) p1 p2 e) l st = Ret st' ->
        length (fst (fst st')) = length (fst (fst st)) /\ length (snd (fst st')) = length (snd (fst st))).
      { intros d p1 p2 l st st'. apply (ofold_inv (fun x => length (fst (fst x)) = length (fst (fst st)) /\ length (snd (fst x)) = length (snd (fst st)))); auto.
        intros b a b' [L1 L2] Ec. apply adam_coord_lens in Ec. destruct Ec. split; congruence. }
      destruct phi; simpl in E;
        (destruct (ofold _ _ _) as [[[m1 m2] w2]|] eqn:Eo; simpl in E; [|discriminate];
         injection E as <- <- <-; apply X in Eo; simpl in *; unfold mul_assign in Eo; rewrite ?map_length in Eo; intuition).
    - unfold adamax_step_scaled in E.
      assert (X : forall d p1 l st st',
        ofold (adamax_coord d (am_lr s) (am_beta1 s) (am_beta2 s) p1 e) l st = Ret st' ->
        length (fst (fst st')) = length (fst (fst st)) /\ length (snd (fst st')) = length (snd (fst st))).
      { intros d p1 l st st'. apply (ofold_inv (fun x => length (fst (fst x)) = length (fst (fst st)) /\ length (snd (fst x)) = length (snd (fst st)))); auto.
        intros b a b' [L1 L2] Ec. apply adamax_coord_lens in Ec. destruct Ec. split; congruence. }
      destruct phi; simpl in E;
        (destruct (ofold _ _ _) as [[[m1 m2] w2]|] eqn:Eo; simpl in E; [|discriminate];
         injection E as <- <- <-; apply X in Eo; simpl in *; unfold mul_assign in Eo; rewrite ?map_length in Eo; intuition).
  Qed.
End Numbers.

(** ** Training keeps the shape of all its numbers *)

Section Kinds.
  Context {F I : Type} `{Scalar F}.
  Notation LO := (LibOptimiser (F := F)).

  Lemma s_do_kind (a : ScalarLFA F I (lib_opt F)) c a' : s_do LO a c = Ret a' -> same_kind (lfa_optimiser a) (lfa_optimiser a').
  Proof.
    destruct c as [x|x e|x f]; cbn [s_do]; unfold omap.
    - destruct (s_evaluate a x); simpl; [|discriminate]. injection 1 as <-. apply same_kind_refl.
    - unfold s_update. destruct (b_project (lfa_basis a) x) as [[phi|er]|]; cbn [obind fst]; [| |discriminate].
      + destruct (o_step_scaled _ _ _ _ _) as [[[s1 w1] r]|] eqn:E; cbn [obind fst]; [|discriminate].
        injection 1 as <-. simpl. eapply step_kind; eauto.
      + injection 1 as <-. apply same_kind_refl.
    - unfold s_update_with. destruct (b_project (lfa_basis a) x) as [[phi|er]|]; cbn [obind fst]; [| |discriminate].
      + destruct (dot phi (lfa_weights a)); cbn [obind fst]; [|discriminate].
        destruct (o_step_scaled _ _ _ _ _) as [[[s1 w1] r]|] eqn:E; cbn [obind fst]; [|discriminate].
        injection 1 as <-. simpl. eapply step_kind; eauto.
      + injection 1 as <-. apply same_kind_refl.
  Qed.
  Lemma s_run_kind cs : forall a a' : ScalarLFA F I (lib_opt F), s_run LO cs a = Ret a' -> same_kind (lfa_optimiser a) (lfa_optimiser a').
  Proof.
    unfold s_run. induction cs as [|c cs IH]; cbn [ofold]; intros a a' E; [injection E as <-; apply same_kind_refl|].
    destruct (s_do LO a c) as [a1|] eqn:E1; cbn [obind] in E; [|discriminate]. eapply same_kind_trans; [eapply s_do_kind|]; eauto.
  Qed.

  Lemma columns_kind phi : forall es j wm s acc s' wm' r, update_columns LO phi es j wm s acc = Ret (s', wm', r) -> same_kind s s'.
  Proof.
    induction es as [|e es IH]; intros j wm s acc s' wm' r; cbn [update_columns]; [injection 1 as <- <- <-; apply same_kind_refl|].
    destruct (j <? ncols wm); [|injection 1 as <- <- <-; apply same_kind_refl].
    destruct (column wm j); cbn [obind]; [|discriminate].
    destruct (o_step_scaled _ _ _ _ _) as [[[s1 w1] r1]|] eqn:E; cbn [obind]; [|discriminate].
    destruct (set_column _ _ _); cbn [obind]; [|discriminate]. intros E'. eapply same_kind_trans; [eapply step_kind|]; eauto.
  Qed.
  Lemma v_do_kind (a : VectorLFA F I (lib_opt F)) c a' : v_do LO a c = Ret a' -> same_kind (lfa_optimiser a) (lfa_optimiser a').
  Proof.
    destruct c as [x|x j|x es|x j e|x f]; cbn [v_do]; unfold omap.
    - destruct (v_evaluate a x); cbn [obind]; [|discriminate]. injection 1 as <-. apply same_kind_refl.
    - destruct (v_evaluate_index a x j); cbn [obind]; [|discriminate]. injection 1 as <-. apply same_kind_refl.
    - unfold v_update. destruct (b_project (lfa_basis a) x) as [[phi|er]|]; cbn [obind fst]; [| |discriminate].
      + destruct (update_columns _ _ _ _ _ _ _) as [[[s1 w1] r]|] eqn:E; cbn [obind fst]; [|discriminate].
        injection 1 as <-. simpl. eapply columns_kind; eauto.
      + injection 1 as <-. apply same_kind_refl.
    - unfold v_update_index. destruct (b_project (lfa_basis a) x) as [[phi|er]|]; cbn [obind fst]; [| |discriminate].
      + destruct (column _ _); cbn [obind fst]; [|discriminate].
        destruct (o_step_scaled _ _ _ _ _) as [[[s1 w1] r]|] eqn:E; cbn [obind fst]; [|discriminate].
        destruct (set_column _ _ _); cbn [obind fst]; [|discriminate].
        injection 1 as <-. simpl. eapply step_kind; eauto.
      + injection 1 as <-. apply same_kind_refl.
    - unfold v_update_with. destruct (b_project (lfa_basis a) x) as [[phi|er]|]; cbn [obind fst]; [| |discriminate].
      + destruct (matmul _ _); cbn [obind fst]; [|discriminate].
        destruct (update_columns _ _ _ _ _ _ _) as [[[s1 w1] r]|] eqn:E; cbn [obind fst]; [|discriminate].
        injection 1 as <-. simpl. eapply columns_kind; eauto.
      + injection 1 as <-. apply same_kind_refl.
  Qed.
  Lemma v_run_kind cs : forall a a' : VectorLFA F I (lib_opt F), v_run LO cs a = Ret a' -> same_kind (lfa_optimiser a) (lfa_optimiser a').
  Proof.
    unfold v_run. induction cs as [|c cs IH]; cbn [ofold]; intros a a' E; [injection E as <-; apply same_kind_refl|].
    destruct (v_do LO a c) as [a1|] eqn:E1; cbn [obind] in E; [|discriminate]. eapply same_kind_trans; [eapply v_do_kind|]; eauto.
  Qed.

  (** Repeating a list of calls is iterating its effect. *)
  Lemma ofold_app {A B} (f : B -> A -> outcome B) l1 : forall l2 b, ofold f (l1 ++ l2) b = let* b' := ofold f l1 b in ofold f l2 b'.
  Proof. induction l1 as [|x l1 IH]; intros l2 b; simpl; [reflexivity|]. destruct (f b x); simpl; auto. Qed.
  Lemma ofold_repeat {A B} (f : B -> A -> outcome B) l k : forall b, ofold f (concat (repeat l k)) b = iterate (ofold f l) k b.
  Proof. induction k as [|k IH]; intros b; simpl; [reflexivity|]. rewrite ofold_app. destruct (ofold f l b); simpl; auto. Qed.

  Context (code : F -> nat) (N : nat).
  Hypothesis code_lt : forall x, code x < N.
  Hypothesis code_inj : forall x y, code x = code y -> x = y.

  Theorem s_cycle cs (a : ScalarLFA F I (lib_opt F)) : exists m p, 1 <= p /\
    m + p <= S (N ^ (length (lfa_weights a) + length (opt_numbers (lfa_optimiser a)))) /\
    forall k, m <= k -> s_run LO (concat (repeat cs (k + p))) a = s_run LO (concat (repeat cs k)) a.
  Proof.
    destruct (cycle (s_run LO cs)
      (fun b => lfa_basis b = lfa_basis a /\ length (lfa_weights b) = length (lfa_weights a) /\ same_kind (lfa_optimiser a) (lfa_optimiser b))
      (fun b => key code N (lfa_weights b ++ opt_numbers (lfa_optimiser b)))
      (N ^ (length (lfa_weights a) + length (opt_numbers (lfa_optimiser a)))) a) as (m & p & Lp & Lm & C).
    - splits; auto. apply same_kind_refl.
    - intros b b' (B & L & K) E. pose proof (s_run_kind _ _ _ E) as K'. apply s_run_shape in E; [|apply lib_keeps_length].
      destruct E. splits; try congruence. eapply same_kind_trans; eauto.
    - intros b (_ & L & K). eapply Nat.lt_le_trans; [apply key_lt; auto|].
      rewrite app_length, L, (numbers_length _ _ K). lia.
    - intros b b' (B & L & K) (B' & L' & K') E. apply key_inj in E; auto.
      + apply app_eq_len in E; [|congruence]. destruct E as [Ew Eo]. apply numbers_inj in Eo.
        * destruct b, b'. simpl in *. congruence.
        * eapply same_kind_trans; [apply same_kind_sym|]; eauto.
      + rewrite !app_length, L, L', <- (numbers_length _ _ K), <- (numbers_length _ _ K'). reflexivity.
    - exists m, p. splits; auto. intros k Lk. unfold s_run. rewrite !ofold_repeat. exact (C k Lk).
  Qed.

  Lemma concat_length (rows : list (list F)) n : Forall (fun r => length r = n) rows -> length (concat rows) = length rows * n.
  Proof. induction 1 as [|r rows L _ IH]; simpl; [reflexivity|]. rewrite app_length. lia. Qed.
  Lemma concat_inj (rows : list (list F)) n : Forall (fun r => length r = n) rows -> forall rows', Forall (fun r => length r = n) rows' ->
    length rows = length rows' -> concat rows = concat rows' -> rows = rows'.
  Proof.
    induction 1 as [|r rows L _ IH]; intros [|r' rows'] F' Ln E; try discriminate; [reflexivity|]. inversion F'; subst.
    simpl in E. apply app_eq_len in E; [|congruence]. destruct E as [-> E]. f_equal. apply IH; auto.
  Qed.

  Theorem v_cycle cs (a : VectorLFA F I (lib_opt F)) : matrix_ok (lfa_weights a) -> exists m p, 1 <= p /\
    m + p <= S (N ^ (nrows (lfa_weights a) * ncols (lfa_weights a) + length (opt_numbers (lfa_optimiser a)))) /\
    forall k, m <= k -> v_run LO (concat (repeat cs (k + p))) a = v_run LO (concat (repeat cs k)) a.
  Proof.
    intros OK. destruct (cycle (v_run LO cs)
      (fun b => lfa_basis b = lfa_basis a /\ same_shape (lfa_weights a) (lfa_weights b) /\ same_kind (lfa_optimiser a) (lfa_optimiser b))
      (fun b => key code N (concat (mrows (lfa_weights b)) ++ opt_numbers (lfa_optimiser b)))
      (N ^ (nrows (lfa_weights a) * ncols (lfa_weights a) + length (opt_numbers (lfa_optimiser a)))) a) as (m & p & Lp & Lm & C).
    - splits; auto; [unfold same_shape; auto|apply same_kind_refl].
    - intros b b' (B & (Ob & Lr & Lc) & K) E. pose proof (v_run_kind _ _ _ E) as K'. apply v_run_shape in E; [|apply lib_keeps_length|auto].
      destruct E as (B' & Ob' & Lr' & Lc'). split; [congruence|]. split; [unfold same_shape; splits; auto; congruence|]. eapply same_kind_trans; eauto.
    - intros b (_ & (Ob & Lr & Lc) & K). eapply Nat.lt_le_trans; [apply key_lt; auto|].
      rewrite app_length, (numbers_length _ _ K). unfold matrix_ok in Ob. rewrite (concat_length _ _ Ob). unfold nrows, ncols in *. rewrite Lr, Lc. lia.
    - intros b b' (B & (Ob & Lr & Lc) & K) (B' & (Ob' & Lr' & Lc') & K') E. unfold matrix_ok, nrows, ncols in *. apply key_inj in E; auto.
      + apply app_eq_len in E; [|rewrite (concat_length _ _ Ob), (concat_length _ _ Ob'); congruence].
        destruct E as [Ew Eo]. apply numbers_inj in Eo.
        * apply (concat_inj _ (mcols (lfa_weights a))) in Ew; [|rewrite <- Lc; exact Ob|rewrite <- Lc'; exact Ob'|congruence].
          destruct b as [? [? ?] ?], b' as [? [? ?] ?]. simpl in *. congruence.
        * eapply same_kind_trans; [apply same_kind_sym|]; eauto.
      + rewrite !app_length, (concat_length _ _ Ob), (concat_length _ _ Ob'), <- (numbers_length _ _ K), <- (numbers_length _ _ K'). congruence.
    - exists m, p. splits; auto. intros k Lk. unfold v_run. rewrite !ofold_repeat. exact (C k Lk).
  Qed.
End Kinds.

(** ** binary64 has at most 2^64 values *)

Definition f64_nan : {x : Binary.binary_float 53 1024 | Binary.is_nan 53 1024 x = true} :=
  exist _ (Binary.B754_nan 53 1024 false 1 eq_refl) eq_refl.
Definition f64_code (x : f64) : nat :=
  Z.to_nat (Bits.bits_of_binary_float 52 11 (Binary.BSN2B 53 1024 f64_nan x)).
Definition f64_count : nat := Z.to_nat (2 ^ 64).

Lemma f64_code_lt x : f64_code x < f64_count.
Proof.
  unfold f64_code, f64_count. pose proof (Bits.bits_of_binary_float_range 52 11 ltac:(lia) ltac:(lia) (Binary.BSN2B 53 1024 f64_nan x)) as R.
  change (2 ^ (52 + 11 + 1))%Z with (2 ^ 64)%Z in R. apply Z2Nat.inj_lt; lia.
Qed.
Lemma f64_code_inj x y : f64_code x = f64_code y -> x = y.
Proof.
  unfold f64_code. intros E.
  pose proof (Bits.bits_of_binary_float_range 52 11 ltac:(lia) ltac:(lia) (Binary.BSN2B 53 1024 f64_nan x)) as Rx.
  pose proof (Bits.bits_of_binary_float_range 52 11 ltac:(lia) ltac:(lia) (Binary.BSN2B 53 1024 f64_nan y)) as Ry.
  apply Z2Nat.inj in E; [|tauto|tauto].
  apply (f_equal (Bits.binary_float_of_bits 52 11 ltac:(lia) ltac:(lia) ltac:(lia))) in E.
  rewrite !Bits.binary_float_of_bits_of_binary_float in E.
  rewrite <- (Binary.B2BSN_BSN2B 53 1024 f64_nan x), E. apply Binary.B2BSN_BSN2B.
Qed.
Lemma f64_count_Z : Z.of_nat f64_count = (2 ^ 64)%Z.
Proof. unfold f64_count. apply Z2Nat.id. lia. Qed.
Global Opaque f64_count f64_code.

Lemma f64_values : exists f : f64 -> nat, (forall x, (Z.of_nat (f x) < 2 ^ 64)%Z) /\ forall x y, f x = f y -> x = y.
Proof.
  exists f64_code. split; [|exact f64_code_inj]. intros x. pose proof (f64_code_lt x) as L. apply Nat2Z.inj_lt in L.
  rewrite f64_count_Z in L. exact L.
Qed.

Lemma count_pow d : Z.of_nat (f64_count ^ d) = (2 ^ (64 * Z.of_nat d))%Z.
Proof. rewrite Nat2Z.inj_pow, f64_count_Z, <- Z.pow_mul_r by lia. reflexivity. Qed.

Theorem s_cycle64 : forall P I (a : ScalarLFA f64 I (lib_opt f64)) cs, let S := ScalarF64 P in
  let d := length (lfa_weights a) + length (opt_numbers (lfa_optimiser a)) in
  exists m p, 1 <= p /\ (Z.of_nat (m + p) <= 2 ^ (64 * Z.of_nat d) + 1)%Z /\
    forall k, m <= k ->
      s_run LibOptimiser (concat (repeat cs (k + p))) a = s_run LibOptimiser (concat (repeat cs k)) a.
Proof.
  intros P I a cs S d. destruct (s_cycle f64_code f64_count f64_code_lt f64_code_inj cs a) as (m & p & L & B & C).
  exists m, p. splits; auto. fold d in B. apply Nat2Z.inj_le in B. rewrite Nat2Z.inj_succ, count_pow in B. lia.
Qed.
Theorem v_cycle64 : forall P I (a : VectorLFA f64 I (lib_opt f64)) cs, let S := ScalarF64 P in
  matrix_ok (lfa_weights a) ->
  let d := nrows (lfa_weights a) * ncols (lfa_weights a) + length (opt_numbers (lfa_optimiser a)) in
  exists m p, 1 <= p /\ (Z.of_nat (m + p) <= 2 ^ (64 * Z.of_nat d) + 1)%Z /\
    forall k, m <= k ->
      v_run LibOptimiser (concat (repeat cs (k + p))) a = v_run LibOptimiser (concat (repeat cs k)) a.
Proof.
  intros P I a cs S OK d. destruct (v_cycle f64_code f64_count f64_code_lt f64_code_inj cs a OK) as (m & p & L & B & C).
  exists m, p. splits; auto. fold d in B. apply Nat2Z.inj_le in B. rewrite Nat2Z.inj_succ, count_pow in B. lia.
Qed.

(** A convergent run is eventually at its limit. *)
Theorem s_limit64 : forall P I (a : ScalarLFA f64 I (lib_opt f64)) cs (l : list f64), let S := ScalarF64 P in
  (forall k, exists b, s_run LibOptimiser (concat (repeat cs k)) a = Ret b) ->
  (forall eps, (0 < eps)%R -> exists k0, forall k b, k0 <= k -> s_run LibOptimiser (concat (repeat cs k)) a = Ret b ->
    Forall2 (fun x y => b_finite x = true /\ b_finite y = true /\ (Rabs (b_real x - b_real y) < eps)%R) (lfa_weights b) l) ->
  exists k0, forall k b, k0 <= k -> s_run LibOptimiser (concat (repeat cs k)) a = Ret b ->
    map b_real (lfa_weights b) = map b_real l.
Proof.
  intros P I a cs l S D Lim. destruct (s_cycle64 P I a cs) as (m & p & L & _ & C). fold S in C.
  exists m. intros k b Lk E.
  assert (Cy : forall j, s_run LibOptimiser (concat (repeat cs (k + j * p))) a = Ret b).
  { induction j as [|j IH]; [rewrite Nat.add_0_r; exact E|]. replace (k + Datatypes.S j * p) with (k + j * p + p) by lia.
    rewrite C by lia. exact IH. }
  assert (Near : forall eps, (0 < eps)%R -> Forall2 (fun x y => (Rabs (b_real x - b_real y) < eps)%R) (lfa_weights b) l).
  { intros eps Pe. destruct (Lim eps Pe) as [k0 Q]. specialize (Q (k + k0 * p) b ltac:(nia) (Cy k0)).
    clear - Q. induction Q as [|x y xs ys (_ & _ & X) Q IH]; constructor; auto. }
  clear - Near. revert l Near. induction (lfa_weights b) as [|x xs IH]; intros [|y ys] Near.
  - reflexivity.
  - specialize (Near 1%R Rlt_0_1). inversion Near.
  - specialize (Near 1%R Rlt_0_1). inversion Near.
  - cbn [map]. f_equal.
    + destruct (Req_dec (b_real x) (b_real y)) as [|N]; [assumption|exfalso].
      specialize (Near (Rabs (b_real x - b_real y)) ltac:(apply Rabs_pos_lt; lra)). inversion Near. lra.
    + apply IH. intros eps Pe. specialize (Near eps Pe). inversion Near. assumption.
Qed.
