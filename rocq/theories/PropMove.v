(** C94: how far one step of Adam or AdaMax can move a weight, over the reals. *)
From Coq Require Import List Arith Lia Reals Lra.
From Verif Require Import Base Scalar ScalarR NdArray Features Spec FeatureFacts Optim OptimSpec OptimFacts OptimReal OptimAdam AdamMove.
Import ListNotations.
Local Open Scope R_scope.

(** [geo q t] is 1 + q + ... + q^(t-1). The step after [length h] others. *)
Theorem C94_adam : forall n h phi e lr b1 b2 w s1 w1, 0 <= lr -> 0 <= b1 < 1 -> 0 < b2 < 1 ->
  well_sized n (h ++ [(phi, e)]) -> length w = n -> train Adam h (adam_new n lr b1 b2) w = Ret (s1, w1) ->
  let t := S (length h) in
  exists s2 w2, o_step_scaled Adam s1 w1 phi e = Ret (s2, w2, Ok tt) /\ length w2 = n /\
    forall i, (i < n)%nat ->
      Rabs (at_ w2 i - at_ w1 i) <= lr * (sqrt (geo (b1 * b1 / b2) t * geo b2 (S t)) / geo b1 (S t)).
Proof.
  intros n h phi e lr b1 b2 w s1 w1 HL B1 B2 Wh L E t.
  destruct (adam_next n h phi e lr b1 b2 w s1 w1 Wh L E) as (s2 & w2 & E2 & L2 & D). exists s2, w2. splits; auto.
  intros i Li. rewrite (D i Li). pose proof (adam_delta_bound lr b1 b2 i (h ++ [(phi, e)]) HL B1 B2) as X.
  rewrite app_length, Nat.add_1_r in X. exact X.
Qed.
Print Assumptions C94_adam.

Theorem C94_adamax : forall n h phi e lr b1 b2 w s1 w1, 0 <= lr -> 0 <= b1 < 1 -> 0 < b2 ->
  well_sized n (h ++ [(phi, e)]) -> length w = n -> train AdaMax h (adamax_new n lr b1 b2) w = Ret (s1, w1) ->
  let t := S (length h) in
  exists s2 w2, o_step_scaled AdaMax s1 w1 phi e = Ret (s2, w2, Ok tt) /\ length w2 = n /\
    forall i, (i < n)%nat -> Rabs (at_ w2 i - at_ w1 i) <= lr * (geo (b1 / b2) t / geo b1 (S t)).
Proof.
  intros n h phi e lr b1 b2 w s1 w1 HL B1 B2 Wh L E t.
  destruct (adamax_next n h phi e lr b1 b2 w s1 w1 ltac:(lra) Wh L E) as (s2 & w2 & E2 & L2 & D). exists s2, w2. splits; auto.
  intros i Li. rewrite (D i Li). pose proof (adamax_delta_bound lr b1 b2 i (h ++ [(phi, e)]) HL B1 B2) as X.
  rewrite app_length, Nat.add_1_r in X. exact X.
Qed.
Print Assumptions C94_adamax.

(** No smaller bounds will do: for every number of steps some gradients move a
    weight further than any smaller number. *)
Theorem C94_adam_sharp : forall lr b1 b2 t c, 0 <= b1 < 1 -> 0 < b2 < 1 ->
  c < lr * (sqrt (geo (b1 * b1 / b2) (S t) * geo b2 (S (S t))) / geo b1 (S (S t))) ->
  exists h e s1 w1 s2 w2, length h = t /\ well_sized 1 (h ++ [(Dense [1], e)]) /\
    train Adam h (adam_new 1 lr b1 b2) [0] = Ret (s1, [w1]) /\
    o_step_scaled Adam s1 [w1] (Dense [1]) e = Ret (s2, [w2], Ok tt) /\ c < w2 - w1.
Proof. exact adam_sharp. Qed.
Print Assumptions C94_adam_sharp.

Theorem C94_adamax_sharp : forall lr b1 b2 t c, 0 <= b1 < 1 -> 0 < b2 ->
  c < lr * (geo (b1 / b2) (S t) / geo b1 (S (S t))) ->
  exists h e s1 w1 s2 w2, length h = t /\ well_sized 1 (h ++ [(Dense [1], e)]) /\
    train AdaMax h (adamax_new 1 lr b1 b2) [0] = Ret (s1, [w1]) /\
    o_step_scaled AdaMax s1 [w1] (Dense [1]) e = Ret (s2, [w2], Ok tt) /\ c < w2 - w1.
Proof. exact adamax_sharp. Qed.
Print Assumptions C94_adamax_sharp.

(** Bounds for every step of every history, and on what whole histories do. *)
Theorem C94_adam_travel : forall n h lr b1 b2 w s' w', 0 <= lr -> 0 <= b1 < 1 -> 0 < b2 < 1 -> b1 * b1 < b2 ->
  well_sized n h -> length w = n -> train Adam h (adam_new n lr b1 b2) w = Ret (s', w') ->
  forall i, (i < n)%nat ->
    Rabs (at_ w' i - at_ w i) <= INR (length h) * (lr / ((1 + b1) * sqrt ((1 - b2) * (1 - b1 * b1 / b2)))).
Proof. exact adam_travel. Qed.
Print Assumptions C94_adam_travel.

Theorem C94_adamax_travel : forall n h lr b1 b2 w s' w', 0 <= lr -> 0 <= b1 < 1 -> b1 < b2 ->
  well_sized n h -> length w = n -> train AdaMax h (adamax_new n lr b1 b2) w = Ret (s', w') ->
  forall i, (i < n)%nat ->
    Rabs (at_ w' i - at_ w i) <= INR (length h) * (lr / ((1 + b1) * (1 - b1 / b2))).
Proof. exact adamax_travel. Qed.
Print Assumptions C94_adamax_travel.

(** Without momentum AdaMax moves no weight by more than the learning rate. *)
Theorem C94_adamax_no_momentum : forall n h phi e lr b2 w s1 w1, 0 <= lr -> 0 < b2 ->
  well_sized n (h ++ [(phi, e)]) -> length w = n -> train AdaMax h (adamax_new n lr 0 b2) w = Ret (s1, w1) ->
  exists s2 w2, o_step_scaled AdaMax s1 w1 phi e = Ret (s2, w2, Ok tt) /\ length w2 = n /\
    forall i, (i < n)%nat -> Rabs (at_ w2 i - at_ w1 i) <= lr.
Proof.
  intros n h phi e lr b2 w s1 w1 HL B Wh L E.
  destruct (C94_adamax n h phi e lr 0 b2 w s1 w1 HL ltac:(lra) B Wh L E) as (s2 & w2 & E2 & L2 & D).
  exists s2, w2. splits; auto. intros i Li. eapply Rle_trans; [apply (D i Li)|].
  assert (Z : forall t, geo 0 (S t) = 1).
  { induction t as [|t IH]; [simpl; ring|]. change (geo 0 (S (S t))) with (0 ^ S t + geo 0 (S t)). rewrite IH. simpl. ring. }
  replace (0 / b2) with 0 by (unfold Rdiv; ring). rewrite !Z. lra.
Qed.
Print Assumptions C94_adamax_no_momentum.

(** The first step falls short of the learning rate for AdaMax with momentum. *)
Theorem C94_first_step : forall n phi e lr b1 b2 w, 0 < lr -> 0 < b1 < 1 -> 0 < b2 ->
  sized n phi -> length w = n ->
  exists s2 w2, o_step_scaled AdaMax (adamax_new n lr b1 b2) w phi e = Ret (s2, w2, Ok tt) /\
    forall i, (i < n)%nat -> Rabs (at_ w2 i - at_ w i) <= lr / (1 + b1) /\ lr / (1 + b1) < lr.
Proof.
  intros n phi e lr b1 b2 w HL B1 B2 Z L.
  destruct (C94_adamax n [] phi e lr b1 b2 w (adamax_new n lr b1 b2) w ltac:(lra) ltac:(lra) B2) as (s2 & w2 & E & _ & D); auto.
  { constructor; [exact Z|constructor]. }
  exists s2, w2. split; auto. intros i Li. split.
  - eapply Rle_trans; [apply (D i Li)|]. right. simpl. field. lra.
  - apply (Rmult_lt_reg_r (1 + b1)); [lra|]. unfold Rdiv. rewrite Rmult_assoc, Rinv_l by lra.
    assert (0 < lr * b1) by (apply Rmult_lt_0_compat; lra). lra.
Qed.
Print Assumptions C94_first_step.

(** The usual coefficients 0.9 and 0.999: a step can exceed the learning rate. *)
Theorem C94_rate_refuted : exists lr b1 b2, lr = 1 /\ b1 = 9 / 10 /\ b2 = 999 / 1000 /\
  (exists h phi e s1 w1 s2 w2, well_sized 1 (h ++ [(phi, e)]) /\ train Adam h (adam_new 1 lr b1 b2) [0] = Ret (s1, [w1]) /\
     o_step_scaled Adam s1 [w1] phi e = Ret (s2, [w2], Ok tt) /\ lr < w2 - w1) /\
  (exists h phi e s1 w1 s2 w2, well_sized 1 (h ++ [(phi, e)]) /\ train AdaMax h (adamax_new 1 lr b1 b2) [0] = Ret (s1, [w1]) /\
     o_step_scaled AdaMax s1 [w1] phi e = Ret (s2, [w2], Ok tt) /\ lr < w2 - w1).
Proof.
  exists 1, (9 / 10), (999 / 1000). splits; auto.
  - destruct (adam_sharp 1 (9 / 10) (999 / 1000) 9 1) as (h & e & s1 & w1 & s2 & w2 & _ & Wh & E1 & E2 & C); try lra.
    + unfold adam_reach. rewrite Rmult_1_l. apply (Rmult_lt_reg_r (geo (9 / 10) 11)); [simpl; lra|].
      unfold Rdiv at 2. rewrite Rmult_assoc, Rinv_l, Rmult_1_l, Rmult_1_r by (simpl; lra).
      apply Rsqr_incrst_0; [|simpl; lra|apply sqrt_pos]. rewrite Rsqr_sqrt; [unfold Rsqr; simpl; lra|simpl; lra].
    + exists h, (Dense [1]), e, s1, w1, s2, w2. auto.
  - destruct (adamax_sharp 1 (9 / 10) (999 / 1000) 49 1) as (h & e & s1 & w1 & s2 & w2 & _ & Wh & E1 & E2 & C); try lra.
    + unfold adamax_reach. rewrite Rmult_1_l. assert (G : 1 <= geo (9 / 10) 51) by (apply geo_1; lra).
      apply (Rmult_lt_reg_r (geo (9 / 10) 51)); [lra|].
      unfold Rdiv at 2. rewrite Rmult_assoc, Rinv_l, Rmult_1_l, Rmult_1_r by lra.
      simpl. lra.
    + exists h, (Dense [1]), e, s1, w1, s2, w2. auto.
Qed.
Print Assumptions C94_rate_refuted.

(** With beta2 <= beta1^2 (Adam) or beta2 <= beta1 (AdaMax) a step can be of any size. *)
Theorem C94_adam_unbounded : forall lr b1 b2 c, 0 < lr -> 0 <= b1 < 1 -> 0 < b2 < 1 -> b2 <= b1 * b1 ->
  exists h phi e s1 w1 s2 w2, well_sized 1 (h ++ [(phi, e)]) /\ train Adam h (adam_new 1 lr b1 b2) [0] = Ret (s1, [w1]) /\
    o_step_scaled Adam s1 [w1] phi e = Ret (s2, [w2], Ok tt) /\ c < w2 - w1.
Proof.
  intros lr b1 b2 c HL B1 B2 B. set (d := Rabs c / (lr * (1 - b1))).
  assert (P : 0 < lr * (1 - b1)) by (apply Rmult_lt_0_compat; lra).
  assert (D : 0 <= d) by (apply Rle_mult_inv_pos; [apply Rabs_pos|auto]).
  destruct (nat_above (d * d)) as [t T].
  destruct (adam_sharp lr b1 b2 t c B1 B2) as (h & e & s1 & w1 & s2 & w2 & _ & Wh & E1 & E2 & C).
  - apply Rlt_le_trans with (lr * ((1 - b1) * sqrt (INR (S t)))).
    + apply Rle_lt_trans with (Rabs c); [apply Rle_abs|]. replace (Rabs c) with (lr * (1 - b1) * d) by (unfold d; field; lra).
      rewrite <- Rmult_assoc. apply Rmult_lt_compat_l; auto.
      apply Rsqr_incrst_0; auto using sqrt_pos. rewrite Rsqr_sqrt by apply pos_INR. rewrite S_INR. unfold Rsqr. lra.
    + apply Rmult_le_compat_l; [lra|]. apply adam_reach_grows; auto.
  - exists h, (Dense [1]), e, s1, w1, s2, w2. auto.
Qed.
Print Assumptions C94_adam_unbounded.

Theorem C94_adamax_unbounded : forall lr b1 b2 c, 0 < lr -> 0 <= b1 < 1 -> 0 < b2 <= b1 ->
  exists h phi e s1 w1 s2 w2, well_sized 1 (h ++ [(phi, e)]) /\ train AdaMax h (adamax_new 1 lr b1 b2) [0] = Ret (s1, [w1]) /\
    o_step_scaled AdaMax s1 [w1] phi e = Ret (s2, [w2], Ok tt) /\ c < w2 - w1.
Proof.
  intros lr b1 b2 c HL B1 B2. set (d := Rabs c / (lr * (1 - b1))).
  assert (P : 0 < lr * (1 - b1)) by (apply Rmult_lt_0_compat; lra).
  destruct (nat_above d) as [t T].
  destruct (adamax_sharp lr b1 b2 t c B1) as (h & e & s1 & w1 & s2 & w2 & _ & Wh & E1 & E2 & C); [lra| |].
  - apply Rlt_le_trans with (lr * ((1 - b1) * INR (S t))).
    + apply Rle_lt_trans with (Rabs c); [apply Rle_abs|]. replace (Rabs c) with (lr * (1 - b1) * d) by (unfold d; field; lra).
      rewrite <- Rmult_assoc. apply Rmult_lt_compat_l; auto. rewrite S_INR. lra.
    + apply Rmult_le_compat_l; [lra|]. apply adamax_reach_grows; auto.
  - exists h, (Dense [1]), e, s1, w1, s2, w2. auto.
Qed.
Print Assumptions C94_adamax_unbounded.

Example C94_case : well_sized 2 [(Dense [1; -2], 3); (Sparse (MkSparse 2 [(1%nat, 4)]), -1)] /\
  (9 / 10) * (9 / 10) < 999 / 1000 /\ 1 / 4 <= 1 / 2 * (1 / 2).
Proof.
  split; [|lra]. constructor; [|constructor; [|constructor]].
  - split; [apply wf_dense|reflexivity].
  - split; [|reflexivity]. split; [repeat constructor; intros []|].
    intros i [v [E|[]]]. injection E as <- <-. cbn. lia.
Qed.
