(** Adam and AdaMax over the reals (C37, C38), and what the representation of
    the features does to each optimiser (C40). *)
From Coq Require Import List Arith Lia Reals Lra Bool.
From Verif Require Import Base Scalar ScalarR HMap HMapFacts NdArray VecFacts Features Spec
  FeatureFacts FeatureMore Optim OptimSpec OptimFacts OptimReal.
Import ListNotations.
Local Open Scope R_scope.

Lemma writes_get (phi : Features R) i :
  writes phi i = match get phi i with Some _ => true | None => false end.
Proof.
  destruct phi as [da|[d m]]; simpl.
  - destruct (nth_error da i) eqn:E.
    + apply Nat.ltb_lt, nth_error_Some. congruence.
    + apply Nat.ltb_ge, nth_error_None, E.
  - induction m as [|[k a] m IH]; simpl; auto. destruct (k =? i); simpl; auto.
Qed.

Lemma writes_stored (phi : Features R) i : keyed phi -> (writes phi i = true <-> stored phi i).
Proof.
  intros K. rewrite writes_get, get_stored by assumption.
  destruct (get phi i); split; try congruence; eauto. intros [v E]. discriminate.
Qed.

Lemma last_writes_snoc i h phi e : last_writes i (h ++ [(phi, e)]) = writes phi i.
Proof. unfold last_writes. rewrite rev_app_distr. reflexivity. Qed.

(** The first moment for gradients [gs], and the second. *)
Definition moment1 (b : R) (gs : list R) : R := (1 - b) * discounted b gs.
Definition moment2 (b : R) (gs : list R) : R := (1 - b) * discounted b (map sq gs).

(** What step number [t = length h] adds to weight [i]. *)
Definition adam_delta (lr b1 b2 : R) (i : nat) (h : history R) : R :=
  if last_writes i h then
    lr * (moment1 b1 (grads i h) / (1 - b1 ^ S (length h))) /
    (sqrt (moment2 b2 (grads i h) / (1 - b2 ^ S (length h))) + EPS)
  else 0.

Lemma moment1_snoc b gs g : moment1 b (gs ++ [g]) = b * moment1 b gs + (1 - b) * g.
Proof. unfold moment1. rewrite discounted_snoc. ring. Qed.

Lemma moment2_snoc b gs g : moment2 b (gs ++ [g]) = b * moment2 b gs + (1 - b) * g * g.
Proof. unfold moment2. rewrite map_app. simpl map. rewrite discounted_snoc. unfold sq. ring. Qed.

Lemma pow_snoc b (h : history R) p : b ^ S (length (h ++ [p])) = b ^ S (length h) * b.
Proof. rewrite app_length. simpl. rewrite Nat.add_1_r. simpl. ring. Qed.

Theorem adam_history n h lr b1 b2 w : well_sized n h -> length w = n ->
  exists s' w', train Adam h (adam_new n lr b1 b2) w = Ret (s', w') /\
    ad_lr s' = lr /\ ad_beta1 s' = b1 /\ ad_beta2 s' = b2 /\
    ad_beta1_prod s' = b1 ^ S (length h) /\ ad_beta2_prod s' = b2 ^ S (length h) /\
    length (ad_exp_avg s') = n /\ length (ad_exp_avg_sq s') = n /\ length w' = n /\
    forall i, (i < n)%nat ->
      at_ (ad_exp_avg s') i = moment1 b1 (grads i h) /\
      at_ (ad_exp_avg_sq s') i = moment2 b2 (grads i h) /\
      at_ w' i = at_ w i + prefix_sum (adam_delta lr b1 b2 i) h.
Proof.
  intros Wh L. induction h as [|[phi e] h IH] using rev_ind.
  - exists (adam_new n lr b1 b2), w. simpl. splits; auto; try lra; try apply repeat_length.
    intros i _. rewrite prefix_sum_nil. change (repeat fzero n) with (@zeros R _ n).
    rewrite at_zeros. unfold moment1, moment2. simpl. splits; lra.
  - apply well_sized_snoc in Wh. destruct Wh as [Wh Z].
    destruct (IH Wh) as (s1 & w1 & E & LR & B1 & B2 & P1 & P2 & L1 & L2 & Lw & N).
    rewrite train_snoc, E. subst n. rewrite <- Lw in Z.
    destruct (adam_step_spec s1 w1 phi e Z ltac:(congruence) ltac:(congruence))
      as (m1 & m2 & w2 & E2 & Lm1 & Lm2 & Lw2 & N2).
    simpl o_step_scaled. rewrite E2. eexists _, w2.
    splits; [reflexivity|cbn [ad_lr ad_beta1 ad_beta2 ad_beta1_prod ad_beta2_prod ad_exp_avg ad_exp_avg_sq]..]; try congruence.
    + rewrite P1, B1, pow_snoc. reflexivity.
    + rewrite P2, B2, pow_snoc. reflexivity.
    + intros i Li. destruct (N i Li) as (N1 & N1' & Nw).
      specialize (N2 i (at_ (ad_exp_avg s1) i) (at_ (ad_exp_avg_sq s1) i) (at_ w1 i)
        (at_nth_error (ad_exp_avg s1) i ltac:(lia)) (at_nth_error (ad_exp_avg_sq s1) i ltac:(lia))
        (at_nth_error w1 i ltac:(lia))).
      rewrite (grads_snoc i h phi e), moment1_snoc, moment2_snoc, prefix_sum_snoc.
      assert (D : adam_delta lr b1 b2 i (h ++ [(phi, e)]) =
        if writes phi i then
          lr * (moment1 b1 (grads i h ++ [coeff phi i * e]) / (1 - b1 ^ S (length h) * b1)) /
          (sqrt (moment2 b2 (grads i h ++ [coeff phi i * e]) / (1 - b2 ^ S (length h) * b2)) + EPS)
        else 0).
      { unfold adam_delta. rewrite last_writes_snoc, !pow_snoc, grads_snoc. reflexivity. }
      rewrite D, writes_get, get_coeff. rewrite B1, B2, P1, P2, LR, N1, N1', Nw in N2.
      destruct (get phi i) as [a|]; destruct N2 as (A1 & A2 & A3);
        rewrite (nth_error_at _ _ _ A1), (nth_error_at _ _ _ A2), (nth_error_at _ _ _ A3).
      * rewrite moment1_snoc, moment2_snoc. unfold adam_move, adam_m1, adam_m2, decayed.
        destruct (negb (is_sparse phi)); to_R; rewrite ?(Rmult_comm _ b1), ?(Rmult_comm _ b2); splits; auto; ring.
      * to_R. splits; ring.
Qed.

Lemma discounted_nonneg b gs : 0 <= b -> (forall g, In g gs -> 0 <= g) -> 0 <= discounted b gs.
Proof.
  intros B. induction gs as [|g gs IH]; simpl; intros G; [lra|].
  assert (0 <= b ^ length gs) by (apply pow_le, B).
  assert (0 <= g) by auto. assert (0 <= discounted b gs) by auto. nra.
Qed.

Lemma moment2_nonneg b gs : 0 <= b <= 1 -> 0 <= moment2 b gs.
Proof.
  intros B. unfold moment2. apply Rmult_le_pos; [lra|]. apply discounted_nonneg; [lra|].
  intros x I. apply in_map_iff in I. destruct I as (g & <- & _). unfold sq. nra.
Qed.

Lemma moment1_constant b g gs : (forall x, In x gs -> x = g) ->
  moment1 b gs = g * (1 - b ^ length gs).
Proof.
  unfold moment1. induction gs as [|x gs IH]; simpl; intros C; [lra|].
  rewrite (C x) by auto. rewrite Rmult_plus_distr_l, IH by auto. ring.
Qed.

Lemma pow_lt_1 b t : 0 <= b < 1 -> b ^ S t < 1.
Proof.
  intros B. simpl. assert (0 <= b ^ t <= 1); [|nra].
  split; [apply pow_le; lra|]. clear -B. induction t; simpl; [lra|].
  assert (0 <= b ^ t) by (apply pow_le; lra). nra.
Qed.

(** The first moment divided by the correction the code uses at step [t]. *)
Lemma corrected_constant b g gs : (forall x, In x gs -> x = g) ->
  moment1 b gs / (1 - b ^ S (length gs)) = g * ((1 - b ^ length gs) / (1 - b ^ S (length gs))).
Proof. intros C. rewrite (moment1_constant b g gs C). unfold Rdiv. ring. Qed.

(** ... falls short of [g], except when [beta1 = 0]. *)
Lemma correction_short b t : 0 < b < 1 -> (1 - b ^ t) / (1 - b ^ S t) < 1.
Proof.
  intros B. assert (L : b ^ S t < 1) by (apply pow_lt_1; lra).
  assert (P : 0 < b ^ t) by (apply pow_lt; lra).
  apply (Rmult_lt_reg_r (1 - b ^ S t)); [lra|]. unfold Rdiv. rewrite Rmult_assoc, Rinv_l by lra.
  simpl. nra.
Qed.

(** With the textbook correction the estimate is exactly [g]. *)
Lemma textbook_correction b g gs : gs <> [] -> 0 <= b < 1 -> (forall x, In x gs -> x = g) ->
  moment1 b gs / (1 - b ^ length gs) = g.
Proof.
  intros NE B C. rewrite (moment1_constant b g gs C). destruct gs as [|x gs]; [congruence|].
  assert (b ^ S (length gs) < 1) by (apply pow_lt_1; auto). simpl length. field. lra.
Qed.

(** ** AdaMax *)

Lemma peak_nonneg b gs : 0 <= peak b gs.
Proof. induction gs; simpl; [lra|]. eapply Rle_trans; [exact IHgs|apply Rmax_r]. Qed.

Lemma peak_snoc b gs g : 0 <= b -> peak b (gs ++ [g]) = Rmax (b * peak b gs) (Rabs g).
Proof.
  intros B. induction gs as [|x gs IH]; simpl.
  - rewrite Rmult_1_l, Rmult_0_r. rewrite Rmax_comm. reflexivity.
  - rewrite IH, app_length. simpl. rewrite Nat.add_1_r. simpl.
    rewrite Rmax_assoc. rewrite Rmult_assoc, RmaxRmult by assumption. reflexivity.
Qed.

Lemma peak_dominates b gs k g : nth_error gs k = Some g ->
  b ^ (length gs - 1 - k) * Rabs g <= peak b gs.
Proof.
  revert k. induction gs as [|x gs IH]; intros [|k] E; simpl in *; try discriminate.
  - inversion E; subst. rewrite !Nat.sub_0_r. apply Rmax_l.
  - eapply Rle_trans; [|apply Rmax_r]. rewrite Nat.sub_0_r. specialize (IH k E).
    replace (length gs - S k)%nat with (length gs - 1 - k)%nat by lia. exact IH.
Qed.

Lemma peak_attained b gs : 0 <= b -> gs <> [] -> exists k g, nth_error gs k = Some g /\
  peak b gs = b ^ (length gs - 1 - k) * Rabs g.
Proof.
  intros B. induction gs as [|x gs IH]; intros NE; [congruence|]. simpl.
  assert (P : 0 <= b ^ length gs * Rabs x).
  { apply Rmult_le_pos; [apply pow_le, B|apply Rabs_pos]. }
  destruct (Rle_dec (peak b gs) (b ^ length gs * Rabs x)) as [Le|Gt].
  - exists 0%nat, x. simpl. split; auto. rewrite !Nat.sub_0_r. apply Rmax_left, Le.
  - destruct gs as [|y gs]; [simpl in *; lra|]. destruct IH as (k & g & E & Q); [congruence|].
    exists (S k), g. split; auto. rewrite Rmax_right by lra. rewrite Q. f_equal. f_equal. simpl. lia.
Qed.

Definition adamax_delta (lr b1 b2 : R) (i : nat) (h : history R) : R :=
  if last_writes i h then
    lr * (moment1 b1 (grads i h) / (1 - b1 ^ S (length h))) / (peak b2 (grads i h) + EPS)
  else 0.

Theorem adamax_history n h lr b1 b2 w : 0 <= b2 -> well_sized n h -> length w = n ->
  exists s' w', train AdaMax h (adamax_new n lr b1 b2) w = Ret (s', w') /\
    am_lr s' = lr /\ am_beta1 s' = b1 /\ am_beta2 s' = b2 /\
    am_beta1_prod s' = b1 ^ S (length h) /\
    length (am_exp_avg s') = n /\ length (am_exp_inf s') = n /\ length w' = n /\
    forall i, (i < n)%nat ->
      at_ (am_exp_avg s') i = moment1 b1 (grads i h) /\
      at_ (am_exp_inf s') i = peak b2 (grads i h) /\
      at_ w' i = at_ w i + prefix_sum (adamax_delta lr b1 b2 i) h.
Proof.
  intros B0 Wh L. induction h as [|[phi e] h IH] using rev_ind.
  - exists (adamax_new n lr b1 b2), w. simpl. splits; auto; try lra; try apply repeat_length.
    intros i _. rewrite prefix_sum_nil. change (repeat fzero n) with (@zeros R _ n).
    rewrite at_zeros. unfold moment1. simpl. splits; lra.
  - apply well_sized_snoc in Wh. destruct Wh as [Wh Z].
    destruct (IH Wh) as (s1 & w1 & E & LR & B1 & B2 & P1 & L1 & L2 & Lw & N).
    rewrite train_snoc, E. subst n. rewrite <- Lw in Z.
    destruct (adamax_step_spec s1 w1 phi e Z ltac:(congruence) ltac:(congruence))
      as (m1 & m2 & w2 & E2 & Lm1 & Lm2 & Lw2 & N2).
    simpl o_step_scaled. rewrite E2. eexists _, w2.
    splits; [reflexivity|cbn [am_lr am_beta1 am_beta2 am_beta1_prod am_exp_avg am_exp_inf]..]; try congruence.
    + rewrite P1, B1, pow_snoc. reflexivity.
    + intros i Li. destruct (N i Li) as (N1 & N1' & Nw).
      specialize (N2 i (at_ (am_exp_avg s1) i) (at_ (am_exp_inf s1) i) (at_ w1 i)
        (at_nth_error (am_exp_avg s1) i ltac:(lia)) (at_nth_error (am_exp_inf s1) i ltac:(lia))
        (at_nth_error w1 i ltac:(lia))).
      rewrite (grads_snoc i h phi e), moment1_snoc, prefix_sum_snoc.
      assert (D : adamax_delta lr b1 b2 i (h ++ [(phi, e)]) =
        if writes phi i then
          lr * (moment1 b1 (grads i h ++ [coeff phi i * e]) / (1 - b1 ^ S (length h) * b1)) /
          (peak b2 (grads i h ++ [coeff phi i * e]) + EPS)
        else 0).
      { unfold adamax_delta. rewrite last_writes_snoc, pow_snoc, grads_snoc. reflexivity. }
      rewrite D, writes_get, get_coeff. rewrite B1, B2, P1, LR, N1, N1', Nw in N2.
      destruct (get phi i) as [a|]; destruct N2 as (A1 & A2 & A3);
        rewrite (nth_error_at _ _ _ A1), (nth_error_at _ _ _ A2), (nth_error_at _ _ _ A3);
        rewrite peak_snoc by assumption.
      * rewrite moment1_snoc. unfold adamax_move, adam_m1, adamax_u, decayed.
        destruct (negb (is_sparse phi)); to_R; rewrite ?(Rmult_comm _ b1), ?(Rmult_comm _ b2); splits; auto; ring.
      * to_R. splits; try ring. rewrite Rmult_0_l, Rabs_R0.
        rewrite Rmax_left; [ring|]. apply Rmult_le_pos; auto. apply peak_nonneg.
Qed.
