(** How far one step of Adam or AdaMax can move a weight, over the reals. *)
From Coq Require Import List Arith ZArith Lia Reals Lra Psatz.
From Verif Require Import Base Scalar ScalarR NdArray Features Spec FeatureFacts Optim OptimSpec OptimFacts OptimReal OptimAdam.
Import ListNotations.
Local Open Scope R_scope.

(** 1 + q + ... + q^(t-1). *)
Fixpoint geo (q : R) (t : nat) : R := match t with O => 0 | S t' => q ^ t' + geo q t' end.

Lemma geo_nonneg q t : 0 <= q -> 0 <= geo q t.
Proof. intros Q. induction t; simpl; [lra|]. pose proof (pow_le q t Q). lra. Qed.

Lemma geo_1 q t : 0 <= q -> 1 <= geo q (S t).
Proof. intros Q. induction t as [|t IH]; [simpl; lra|]. change (geo q (S (S t))) with (q ^ S t + geo q (S t)). pose proof (pow_le q (S t) Q). lra. Qed.

Lemma geo_closed q t : (1 - q) * geo q t = 1 - q ^ t.
Proof. induction t; simpl; [ring|]. rewrite Rmult_plus_distr_l, IHt. ring. Qed.

Lemma geo_below q t : 0 <= q < 1 -> geo q t <= 1 / (1 - q).
Proof.
  intros Q. apply (Rmult_le_reg_l (1 - q)); [lra|]. rewrite geo_closed. pose proof (pow_le q t (proj1 Q)).
  replace ((1 - q) * (1 / (1 - q))) with 1 by (field; lra). lra.
Qed.

Lemma geo_above q t : 1 <= q -> INR t <= geo q t.
Proof.
  intros Q. induction t; [simpl; lra|]. rewrite S_INR. simpl. pose proof (pow_R1_Rle q t Q). lra.
Qed.

(** ** What gradients can do to the moments *)

Lemma cauchy2 x y p r G E : x * x = p * r -> y * y <= G * E -> 0 <= p -> 0 <= r -> 0 <= G -> 0 <= E ->
  (x + y) * (x + y) <= (p + G) * (r + E).
Proof.
  intros X Y P Hr HG HE.
  assert (PE : 0 <= p * E) by (apply Rmult_le_pos; auto). assert (GR : 0 <= G * r) by (apply Rmult_le_pos; auto).
  assert (Q : 2 * (x * y) <= p * E + G * r); [|lra].
  apply Rsqr_incr_0_var; [|lra]. unfold Rsqr.
  assert (A : (x * y) * (x * y) <= (p * E) * (G * r)).
  { replace ((x * y) * (x * y)) with ((x * x) * (y * y)) by ring. rewrite X.
    replace (p * E * (G * r)) with (p * r * (G * E)) by ring. apply Rmult_le_compat_l; auto. apply Rmult_le_pos; auto. }
  pose proof (Rle_0_sqr (p * E - G * r)) as S0. unfold Rsqr in S0. lra.
Qed.

Lemma squares_nonneg b gs : 0 <= b -> 0 <= discounted b (map sq gs).
Proof.
  intros B. apply discounted_nonneg; auto. intros g I. apply in_map_iff in I. destruct I as (x & <- & _).
  unfold sq. pose proof (Rle_0_sqr x) as S0. unfold Rsqr in S0. lra.
Qed.

Lemma discounted_cauchy b1 b2 gs : 0 < b2 ->
  discounted b1 gs * discounted b1 gs <= geo (b1 * b1 / b2) (length gs) * discounted b2 (map sq gs).
Proof.
  intros B. assert (Q : 0 <= b1 * b1 / b2).
  { unfold Rdiv. apply Rmult_le_pos; [pose proof (Rle_0_sqr b1) as S0; exact S0|]. left. apply Rinv_0_lt_compat, B. }
  induction gs as [|g gs IH]; [simpl; lra|]. cbn [discounted map length geo]. rewrite map_length.
  apply cauchy2; auto.
  - unfold Rdiv. rewrite !Rpow_mult_distr. unfold sq. set (n := length gs).
    assert (N : b2 ^ n <> 0) by (apply pow_nonzero; lra). rewrite pow_inv. field. exact N.
  - apply pow_le, Q.
  - apply Rmult_le_pos; [apply pow_le; lra|]. unfold sq. exact (Rle_0_sqr g).
  - apply geo_nonneg, Q.
  - apply squares_nonneg. lra.
Qed.

Lemma discounted_peak b1 b2 gs : 0 <= b1 -> 0 < b2 ->
  Rabs (discounted b1 gs) <= geo (b1 / b2) (length gs) * peak b2 gs.
Proof.
  intros B1 B2. assert (Q : 0 <= b1 / b2) by (apply Rle_mult_inv_pos; auto).
  induction gs as [|g gs IH]; [simpl; rewrite Rabs_R0; lra|]. cbn [discounted length geo peak].
  eapply Rle_trans; [apply Rabs_triang|]. rewrite Rmult_plus_distr_r. set (n := length gs) in *.
  apply Rplus_le_compat.
  - rewrite Rabs_mult, (Rabs_pos_eq (b1 ^ n)) by (apply pow_le; auto).
    replace (b1 ^ n * Rabs g) with ((b1 / b2) ^ n * (b2 ^ n * Rabs g)).
    + apply Rmult_le_compat_l; [apply pow_le, Q|apply Rmax_l].
    + unfold Rdiv. rewrite Rpow_mult_distr, pow_inv. field. apply pow_nonzero. lra.
  - eapply Rle_trans; [exact IH|]. apply Rmult_le_compat_l; [apply geo_nonneg, Q|apply Rmax_r].
Qed.

(** ** The bounds *)

Definition adam_reach (b1 b2 : R) (t : nat) : R := sqrt (geo (b1 * b1 / b2) t * geo b2 (S t)) / geo b1 (S t).
Definition adamax_reach (b1 b2 : R) (t : nat) : R := geo (b1 / b2) t / geo b1 (S t).

Lemma EPS_R : @EPS R _ = 1 / 10000000.
Proof. unfold EPS. cbn [flit ScalarR]. lra. Qed.

Lemma correction b t : b < 1 -> 1 - b ^ t = (1 - b) * geo b t.
Proof. intros _. rewrite geo_closed. reflexivity. Qed.

Lemma adam_quotient b1 b2 gs t : 0 <= b1 < 1 -> 0 < b2 < 1 -> length gs = t ->
  moment1 b1 gs / (1 - b1 ^ S t) = discounted b1 gs / geo b1 (S t) /\
  moment2 b2 gs / (1 - b2 ^ S t) = discounted b2 (map sq gs) / geo b2 (S t).
Proof.
  intros B1 B2 <-. unfold moment1, moment2. pose proof (geo_1 b1 (length gs) (proj1 B1)) as G1.
  assert (G2 : 1 <= geo b2 (S (length gs))) by (apply geo_1; lra).
  rewrite !correction by lra. split; field; split; lra.
Qed.

Lemma over_le a c d e : 0 <= a -> 0 <= d -> 0 < e -> a <= c * d -> 0 <= c -> a / (d + e) <= c.
Proof.
  intros A D E L C. apply (Rmult_le_reg_r (d + e)); [lra|]. unfold Rdiv. rewrite Rmult_assoc, Rinv_l by lra.
  rewrite Rmult_plus_distr_l. assert (0 <= c * e) by (apply Rmult_le_pos; lra). lra.
Qed.

Lemma adam_delta_bound lr b1 b2 i h : 0 <= lr -> 0 <= b1 < 1 -> 0 < b2 < 1 ->
  Rabs (adam_delta lr b1 b2 i h) <= lr * adam_reach b1 b2 (length h).
Proof.
  intros L B1 B2. set (t := length h). set (q := b1 * b1 / b2).
  assert (Q : 0 <= q).
  { unfold q, Rdiv. apply Rmult_le_pos; [apply Rmult_le_pos; lra|]. left. apply Rinv_0_lt_compat. lra. }
  assert (Gq : 0 <= geo q t) by (apply geo_nonneg, Q).
  assert (G1 : 1 <= geo b1 (S t)) by (apply geo_1; lra). assert (G2 : 1 <= geo b2 (S t)) by (apply geo_1; lra).
  assert (Re : 0 <= adam_reach b1 b2 t).
  { unfold adam_reach. apply Rle_mult_inv_pos; [apply sqrt_pos|lra]. }
  unfold adam_delta. destruct (last_writes i h); [|rewrite Rabs_R0; apply Rmult_le_pos; auto].
  fold t. destruct (adam_quotient b1 b2 (grads i h) t B1 B2 (grads_length i h)) as [-> ->].
  pose proof (discounted_cauchy b1 b2 (grads i h) (proj1 B2)) as C. rewrite grads_length in C. fold t q in C.
  assert (D2 : 0 <= discounted b2 (map sq (grads i h))) by (apply squares_nonneg; lra).
  set (d1 := discounted b1 (grads i h)) in *. set (d2 := discounted b2 (map sq (grads i h))) in *.
  assert (E0 : 0 < @EPS R _) by (rewrite EPS_R; lra).
  assert (S0 : 0 <= sqrt (d2 / geo b2 (S t))) by apply sqrt_pos.
  unfold Rdiv at 1. rewrite !Rabs_mult, (Rabs_pos_eq lr) by auto. rewrite Rabs_inv.
  rewrite (Rabs_pos_eq (sqrt _ + _)) by lra. rewrite Rmult_assoc. apply Rmult_le_compat_l; auto.
  change (Rabs (d1 / geo b1 (S t)) / (sqrt (d2 / geo b2 (S t)) + EPS) <= adam_reach b1 b2 t).
  apply over_le; auto using Rabs_pos. unfold adam_reach. fold q. unfold Rdiv at 1.
  rewrite Rabs_mult, Rabs_inv, (Rabs_pos_eq (geo b1 (S t))) by lra.
  unfold Rdiv at 1. rewrite Rmult_assoc, (Rmult_comm (/ _)), <- Rmult_assoc.
  apply Rmult_le_compat_r; [left; apply Rinv_0_lt_compat; lra|].
  rewrite <- sqrt_mult; [|apply Rmult_le_pos; lra|apply Rle_mult_inv_pos; lra].
  replace (geo q t * geo b2 (S t) * (d2 / geo b2 (S t))) with (geo q t * d2) by (field; lra).
  rewrite <- sqrt_Rsqr_abs. apply sqrt_le_1_alt. exact C.
Qed.

Lemma adamax_delta_bound lr b1 b2 i h : 0 <= lr -> 0 <= b1 < 1 -> 0 < b2 ->
  Rabs (adamax_delta lr b1 b2 i h) <= lr * adamax_reach b1 b2 (length h).
Proof.
  intros L B1 B2. set (t := length h). set (q := b1 / b2).
  assert (Q : 0 <= q) by (apply Rle_mult_inv_pos; lra).
  assert (Gq : 0 <= geo q t) by (apply geo_nonneg, Q). assert (G1 : 1 <= geo b1 (S t)) by (apply geo_1; lra).
  assert (Re : 0 <= adamax_reach b1 b2 t) by (apply Rle_mult_inv_pos; [exact Gq|lra]).
  unfold adamax_delta. destruct (last_writes i h); [|rewrite Rabs_R0; apply Rmult_le_pos; auto].
  fold t. unfold moment1. rewrite correction by lra.
  replace ((1 - b1) * discounted b1 (grads i h) / ((1 - b1) * geo b1 (S t))) with (discounted b1 (grads i h) / geo b1 (S t)) by (field; lra).
  pose proof (discounted_peak b1 b2 (grads i h) (proj1 B1) B2) as C. rewrite grads_length in C. fold t q in C.
  pose proof (peak_nonneg b2 (grads i h)) as P0. assert (E0 : 0 < @EPS R _) by (rewrite EPS_R; lra).
  set (d1 := discounted b1 (grads i h)) in *. set (d2 := peak b2 (grads i h)) in *.
  unfold Rdiv at 1. rewrite !Rabs_mult, (Rabs_pos_eq lr) by auto. rewrite Rabs_inv.
  rewrite (Rabs_pos_eq (d2 + _)) by lra. rewrite Rmult_assoc. apply Rmult_le_compat_l; auto.
  change (Rabs (d1 / geo b1 (S t)) / (d2 + EPS) <= adamax_reach b1 b2 t).
  apply over_le; auto using Rabs_pos. unfold adamax_reach. fold q. unfold Rdiv at 1.
  rewrite Rabs_mult, Rabs_inv, (Rabs_pos_eq (geo b1 (S t))) by lra.
  unfold Rdiv at 1. rewrite Rmult_assoc, (Rmult_comm (/ _)), <- Rmult_assoc.
  apply Rmult_le_compat_r; [left; apply Rinv_0_lt_compat; lra|exact C].
Qed.

(** ** One more step *)

Lemma adam_next n h phi e lr b1 b2 w s1 w1 : well_sized n (h ++ [(phi, e)]) -> length w = n ->
  train Adam h (adam_new n lr b1 b2) w = Ret (s1, w1) ->
  exists s2 w2, o_step_scaled Adam s1 w1 phi e = Ret (s2, w2, Ok tt) /\ length w2 = n /\
    forall i, (i < n)%nat -> at_ w2 i - at_ w1 i = adam_delta lr b1 b2 i (h ++ [(phi, e)]).
Proof.
  intros Wh L E. pose proof Wh as Wh'. apply well_sized_snoc in Wh'. destruct Wh' as [Wh1 Z].
  destruct (adam_history n h lr b1 b2 w Wh1 L) as (s' & w' & E' & _ & _ & _ & _ & _ & L1 & L2 & Lw & N).
  rewrite E in E'. injection E' as <- <-.
  destruct (adam_history n _ lr b1 b2 w Wh L) as (s2 & w2 & E2 & _ & _ & _ & _ & _ & _ & _ & Lw2 & N2).
  rewrite train_snoc, E in E2.
  destruct (adam_step_spec s1 w1 phi e) as (m1 & m2 & w3 & E3 & _); try congruence.
  cbn [o_step_scaled Adam] in *. rewrite E3 in E2. injection E2 as <- <-.
  exists (MkAdam (ad_beta1 s1) (fmul (ad_beta1_prod s1) (ad_beta1 s1)) (ad_beta2 s1) (fmul (ad_beta2_prod s1) (ad_beta2 s1)) (ad_lr s1) m1 m2), w3.
  splits; auto. intros i Li. destruct (N i Li) as (_ & _ & ->). destruct (N2 i Li) as (_ & _ & ->). rewrite prefix_sum_snoc. ring.
Qed.

Lemma adamax_next n h phi e lr b1 b2 w s1 w1 : 0 <= b2 -> well_sized n (h ++ [(phi, e)]) -> length w = n ->
  train AdaMax h (adamax_new n lr b1 b2) w = Ret (s1, w1) ->
  exists s2 w2, o_step_scaled AdaMax s1 w1 phi e = Ret (s2, w2, Ok tt) /\ length w2 = n /\
    forall i, (i < n)%nat -> at_ w2 i - at_ w1 i = adamax_delta lr b1 b2 i (h ++ [(phi, e)]).
Proof.
  intros B Wh L E. pose proof Wh as Wh'. apply well_sized_snoc in Wh'. destruct Wh' as [Wh1 Z].
  destruct (adamax_history n h lr b1 b2 w B Wh1 L) as (s' & w' & E' & _ & _ & _ & _ & L1 & L2 & Lw & N).
  rewrite E in E'. injection E' as <- <-.
  destruct (adamax_history n _ lr b1 b2 w B Wh L) as (s2 & w2 & E2 & _ & _ & _ & _ & _ & _ & Lw2 & N2).
  rewrite train_snoc, E in E2.
  destruct (adamax_step_spec s1 w1 phi e) as (m1 & m2 & w3 & E3 & _); try congruence.
  cbn [o_step_scaled AdaMax] in *. rewrite E3 in E2. injection E2 as <- <-.
  eexists _, w3.
  splits; [exact E3|auto|]. intros i Li. destruct (N i Li) as (_ & _ & ->). destruct (N2 i Li) as (_ & _ & ->). rewrite prefix_sum_snoc. ring.
Qed.

(** ** Histories that come as close to the bounds as one likes *)

(** The gradient [k] steps before the last is [M * r ^ k]. *)
Fixpoint ramp (r M : R) (t : nat) : list R := match t with O => [] | S t' => M * r ^ t' :: ramp r M t' end.
Definition ramp_history (r M : R) (t : nat) : history R := map (fun g => (Dense [1], g)) (ramp r M t).

Lemma ramp_length r M t : length (ramp r M t) = t.
Proof. induction t; simpl; auto. Qed.

Lemma ramp_history_length r M t : length (ramp_history r M t) = t.
Proof. unfold ramp_history. rewrite map_length. apply ramp_length. Qed.

Lemma ramp_grads r M t : grads 0 (ramp_history r M t) = ramp r M t.
Proof.
  unfold grads, ramp_history. rewrite map_map. rewrite <- (map_id (ramp r M t)) at 2. apply map_ext.
  intros g. cbn [fst snd coeff nth]. ring.
Qed.

Lemma ramp_sized r M t : well_sized 1 (ramp_history r M t).
Proof.
  unfold well_sized, ramp_history. apply Forall_forall. intros p I. apply in_map_iff in I. destruct I as (g & <- & _).
  split; [split; [exact Logic.I|apply bounded_dense]|reflexivity].
Qed.

Lemma ramp_writes r M t : last_writes 0 (ramp_history r M (S t)) = true.
Proof.
  destruct (@exists_last _ (ramp_history r M (S t))) as (h & p & E); [discriminate|].
  pose proof E as E'. rewrite E. destruct p as [phi e]. rewrite last_writes_snoc.
  assert (I : In (phi, e) (ramp_history r M (S t))) by (rewrite E'; apply in_or_app; right; left; reflexivity).
  unfold ramp_history in I. apply in_map_iff in I. destruct I as (g & Q & _). injection Q as <- _. reflexivity.
Qed.

Lemma ramp_discounted b r M t : discounted b (ramp r M t) = M * geo (b * r) t.
Proof.
  induction t as [|t IH]; [simpl; ring|]. cbn [ramp discounted geo]. rewrite ramp_length, IH, Rpow_mult_distr. ring.
Qed.

Lemma ramp_squares b r M t : discounted b (map sq (ramp r M t)) = M * M * geo (b * (r * r)) t.
Proof.
  induction t as [|t IH]; [simpl; ring|]. cbn [ramp map discounted geo]. rewrite map_length, ramp_length, IH.
  unfold sq. rewrite !Rpow_mult_distr. ring.
Qed.

Lemma ramp_peak b M t : 0 < b -> 0 <= M -> peak b (ramp (/ b) M (S t)) = M.
Proof.
  intros B HM. assert (P : forall t, peak b (ramp (/ b) M t) <= M).
  { clear t. induction t as [|t IH]; simpl; auto. rewrite ramp_length. apply Rmax_lub; auto.
    rewrite Rabs_mult, (Rabs_pos_eq M), Rabs_pos_eq by (auto; apply pow_le; left; apply Rinv_0_lt_compat, B).
    rewrite pow_inv. right. field. apply pow_nonzero. lra. }
  apply Rle_antisym; auto. cbn [ramp peak]. rewrite ramp_length. eapply Rle_trans; [|apply Rmax_l].
  rewrite Rabs_mult, (Rabs_pos_eq M), Rabs_pos_eq by (auto; apply pow_le; left; apply Rinv_0_lt_compat, B).
  rewrite pow_inv. right. field. apply pow_nonzero. lra.
Qed.

Lemma large_enough A B c e : 0 < B -> c * B < A -> 0 < e -> exists M, 0 < M /\ c < A * M / (B * M + e).
Proof.
  intros HB L E. set (d := A - c * B). assert (D : 0 < d) by (unfold d; lra).
  exists ((Rabs c * e + 1) / d). set (M := (Rabs c * e + 1) / d).
  assert (N : 0 < Rabs c * e + 1) by (pose proof (Rmult_le_pos _ _ (Rabs_pos c) (Rlt_le _ _ E)); lra).
  assert (HM : 0 < M) by (apply Rdiv_lt_0_compat; auto). split; auto.
  assert (P : 0 < B * M) by (apply Rmult_lt_0_compat; auto).
  apply (Rmult_lt_reg_r (B * M + e)); [lra|]. unfold Rdiv. rewrite Rmult_assoc, Rinv_l, Rmult_1_r by lra.
  assert (X : d * M = Rabs c * e + 1) by (unfold M; field; lra).
  assert (Y : c * e <= Rabs c * e) by (apply Rmult_le_compat_r; [lra|apply Rle_abs]).
  unfold d in X. lra.
Qed.

Lemma adam_ramp lr b1 b2 M t : 0 <= b1 < 1 -> 0 < b2 < 1 -> 0 < M ->
  adam_delta lr b1 b2 0 (ramp_history (b1 / b2) M (S t)) =
  lr * (geo (b1 * b1 / b2) (S t) / geo b1 (S (S t))) * M /
  (sqrt (geo (b1 * b1 / b2) (S t) / geo b2 (S (S t))) * M + EPS).
Proof.
  intros B1 B2 HM. unfold adam_delta. rewrite ramp_writes, ramp_history_length, ramp_grads.
  assert (G1 : 1 <= geo b1 (S (S t))) by (apply geo_1; lra). assert (G2 : 1 <= geo b2 (S (S t))) by (apply geo_1; lra).
  destruct (adam_quotient b1 b2 (ramp (b1 / b2) M (S t)) (S t) B1 B2 (ramp_length _ _ _)) as [-> ->].
  rewrite ramp_discounted, ramp_squares.
  replace (b1 * (b1 / b2)) with (b1 * b1 / b2) by (field; lra).
  replace (b2 * (b1 / b2 * (b1 / b2))) with (b1 * b1 / b2) by (field; lra).
  set (G := geo (b1 * b1 / b2) (S t)).
  replace (M * M * G / geo b2 (S (S t))) with (M * M * (G / geo b2 (S (S t)))) by (field; lra).
  assert (HG : 0 <= G).
  { apply geo_nonneg. unfold Rdiv. apply Rmult_le_pos; [apply Rmult_le_pos; lra|]. left. apply Rinv_0_lt_compat. lra. }
  rewrite sqrt_mult, sqrt_square by (try (apply Rle_mult_inv_pos); try lra; apply Rmult_le_pos; lra).
  rewrite (Rmult_comm M (sqrt _)). f_equal. field. lra.
Qed.

Lemma adamax_ramp lr b1 b2 M t : 0 <= b1 < 1 -> 0 < b2 -> 0 < M ->
  adamax_delta lr b1 b2 0 (ramp_history (/ b2) M (S t)) =
  lr * adamax_reach b1 b2 (S t) * M / (1 * M + EPS).
Proof.
  intros B1 B2 HM. unfold adamax_delta. rewrite ramp_writes, ramp_history_length, ramp_grads.
  assert (G1 : 1 <= geo b1 (S (S t))) by (apply geo_1; lra).
  unfold moment1. rewrite correction by lra. rewrite ramp_peak, ramp_discounted by lra. unfold adamax_reach.
  change (b1 * / b2) with (b1 / b2). rewrite Rmult_1_l. f_equal. field. lra.
Qed.

Lemma ramp_split r M t : exists g, ramp_history r M (S t) = removelast (ramp_history r M (S t)) ++ [(Dense [1], g)].
Proof.
  destruct (@exists_last _ (ramp_history r M (S t))) as (h & p & E); [discriminate|].
  assert (I : In p (ramp_history r M (S t))) by (rewrite E; apply in_or_app; right; left; reflexivity).
  unfold ramp_history in I. apply in_map_iff in I. destruct I as (g & Q & _). exists g. rewrite E, removelast_last, Q. reflexivity.
Qed.

Lemma adam_sharp lr b1 b2 t c : 0 <= b1 < 1 -> 0 < b2 < 1 -> c < lr * adam_reach b1 b2 (S t) ->
  exists h e s1 w1 s2 w2, length h = t /\ well_sized 1 (h ++ [(Dense [1], e)]) /\
    train Adam h (adam_new 1 lr b1 b2) [0] = Ret (s1, [w1]) /\
    o_step_scaled Adam s1 [w1] (Dense [1]) e = Ret (s2, [w2], Ok tt) /\ c < w2 - w1.
Proof.
  intros B1 B2 L. set (q := b1 * b1 / b2) in *.
  assert (Q : 0 <= q).
  { unfold q, Rdiv. apply Rmult_le_pos; [apply Rmult_le_pos; lra|]. left. apply Rinv_0_lt_compat. lra. }
  assert (G1 : 1 <= geo b1 (S (S t))) by (apply geo_1; lra). assert (G2 : 1 <= geo b2 (S (S t))) by (apply geo_1; lra).
  assert (Gq : 1 <= geo q (S t)) by (apply geo_1; lra).
  set (B := sqrt (geo q (S t) / geo b2 (S (S t)))).
  assert (HB : 0 < B) by (apply sqrt_lt_R0, Rdiv_lt_0_compat; lra).
  assert (BB : B * sqrt (geo q (S t) * geo b2 (S (S t))) = geo q (S t)).
  { unfold B. rewrite <- sqrt_mult by (try (apply Rle_mult_inv_pos); try lra; apply Rmult_le_pos; lra).
    replace (geo q (S t) / geo b2 (S (S t)) * (geo q (S t) * geo b2 (S (S t)))) with (geo q (S t) * geo q (S t)) by (field; lra).
    apply sqrt_square. lra. }
  destruct (large_enough (lr * (geo q (S t) / geo b1 (S (S t)))) B c EPS) as (M & HM & C); auto.
  { apply (Rmult_lt_compat_r B) in L; auto. unfold adam_reach in L. fold q in L.
    replace (lr * (sqrt (geo q (S t) * geo b2 (S (S t))) / geo b1 (S (S t))) * B)
      with (lr * (B * sqrt (geo q (S t) * geo b2 (S (S t))) / geo b1 (S (S t)))) in L by (field; lra).
    rewrite BB in L. exact L. }
  { rewrite EPS_R. lra. }
  unfold B, q in C. rewrite <- (adam_ramp lr b1 b2 M t B1 B2 HM) in C. clear L.
  set (hh := ramp_history (b1 / b2) M (S t)) in *. assert (Wh : well_sized 1 hh) by apply ramp_sized.
  assert (Lh : length hh = S t) by apply ramp_history_length.
  destruct (ramp_split (b1 / b2) M t) as (g & E). fold hh in E. rewrite E in C, Wh, Lh.
  rewrite app_length in Lh. cbn [length] in Lh.
  pose proof Wh as Wh'. apply well_sized_snoc in Wh'. destruct Wh' as [Wh1 _].
  destruct (adam_history 1 _ lr b1 b2 [0] Wh1 eq_refl) as (s1 & w1 & E1 & _ & _ & _ & _ & _ & _ & _ & Lw & _).
  destruct (adam_next 1 _ _ _ lr b1 b2 [0] s1 w1 Wh eq_refl E1) as (s2 & w2 & E2 & Lw2 & D).
  destruct w1 as [|x1 [|]]; try discriminate. destruct w2 as [|x2 [|]]; try discriminate.
  exists (removelast hh), g, s1, x1, s2, x2. splits; auto; [lia|]. specialize (D 0%nat ltac:(lia)). unfold at_ in D. cbn [nth] in D. lra.
Qed.

Lemma adamax_sharp lr b1 b2 t c : 0 <= b1 < 1 -> 0 < b2 -> c < lr * adamax_reach b1 b2 (S t) ->
  exists h e s1 w1 s2 w2, length h = t /\ well_sized 1 (h ++ [(Dense [1], e)]) /\
    train AdaMax h (adamax_new 1 lr b1 b2) [0] = Ret (s1, [w1]) /\
    o_step_scaled AdaMax s1 [w1] (Dense [1]) e = Ret (s2, [w2], Ok tt) /\ c < w2 - w1.
Proof.
  intros B1 B2 L. destruct (large_enough (lr * adamax_reach b1 b2 (S t)) 1 c EPS) as (M & HM & C); try lra.
  { rewrite EPS_R. lra. }
  rewrite <- (adamax_ramp lr b1 b2 M t B1 B2 HM) in C. clear L.
  set (hh := ramp_history (/ b2) M (S t)) in *. assert (Wh : well_sized 1 hh) by apply ramp_sized.
  assert (Lh : length hh = S t) by apply ramp_history_length.
  destruct (ramp_split (/ b2) M t) as (g & E). fold hh in E. rewrite E in C, Wh, Lh.
  rewrite app_length in Lh. cbn [length] in Lh.
  pose proof Wh as Wh'. apply well_sized_snoc in Wh'. destruct Wh' as [Wh1 _].
  destruct (adamax_history 1 _ lr b1 b2 [0] ltac:(lra) Wh1 eq_refl) as (s1 & w1 & E1 & _ & _ & _ & _ & _ & _ & Lw & _).
  destruct (adamax_next 1 _ _ _ lr b1 b2 [0] s1 w1 ltac:(lra) Wh eq_refl E1) as (s2 & w2 & E2 & Lw2 & D).
  destruct w1 as [|x1 [|]]; try discriminate. destruct w2 as [|x2 [|]]; try discriminate.
  exists (removelast hh), g, s1, x1, s2, x2. splits; auto; [lia|]. specialize (D 0%nat ltac:(lia)). unfold at_ in D. cbn [nth] in D. lra.
Qed.

(** ** The bounds for all times at once *)

Lemma geo_two b t : 0 <= b -> 1 + b <= geo b (S (S t)).
Proof.
  intros B. induction t as [|t IH]; [simpl; lra|].
  change (geo b (S (S (S t)))) with (b ^ S (S t) + geo b (S (S t))). pose proof (pow_le b (S (S t)) B). lra.
Qed.

Lemma adam_reach_all b1 b2 t : 0 <= b1 < 1 -> 0 < b2 < 1 -> b1 * b1 < b2 ->
  adam_reach b1 b2 (S t) <= 1 / ((1 + b1) * sqrt ((1 - b2) * (1 - b1 * b1 / b2))).
Proof.
  intros B1 B2 L. set (q := b1 * b1 / b2).
  assert (Q : 0 <= q < 1).
  { split; [apply Rle_mult_inv_pos; [apply Rmult_le_pos|]; lra|]. unfold q. apply (Rmult_lt_reg_r b2); [lra|].
    replace (b1 * b1 / b2 * b2) with (b1 * b1) by (field; lra). lra. }
  unfold adam_reach. fold q. pose proof (geo_two b1 t (proj1 B1)) as G1.
  pose proof (geo_below q (S t) Q) as Gq. pose proof (geo_below b2 (S (S t)) ltac:(lra)) as G2.
  pose proof (geo_nonneg q (S t) (proj1 Q)) as Pq. pose proof (geo_nonneg b2 (S (S t)) ltac:(lra)) as P2.
  assert (X : 0 < (1 - b2) * (1 - q)) by (apply Rmult_lt_0_compat; lra).
  assert (Sx := sqrt_lt_R0 _ X).
  assert (R : sqrt (geo q (S t) * geo b2 (S (S t))) <= / sqrt ((1 - b2) * (1 - q))).
  { rewrite <- sqrt_inv. apply sqrt_le_1_alt.
    replace (/ ((1 - b2) * (1 - q))) with (1 / (1 - q) * (1 / (1 - b2))) by (field; lra). apply Rmult_le_compat; auto. }
  unfold Rdiv. rewrite Rmult_1_l, Rinv_mult_distr by lra. rewrite (Rmult_comm (/ (1 + b1))).
  apply Rmult_le_compat; auto using sqrt_pos; [left; apply Rinv_0_lt_compat; lra|apply Rinv_le_contravar; lra].
Qed.

Lemma adamax_reach_all b1 b2 t : 0 <= b1 < 1 -> b1 < b2 ->
  adamax_reach b1 b2 (S t) <= 1 / ((1 + b1) * (1 - b1 / b2)).
Proof.
  intros B1 L. set (q := b1 / b2).
  assert (Q : 0 <= q < 1).
  { split; [apply Rle_mult_inv_pos; lra|]. unfold q. apply (Rmult_lt_reg_r b2); [lra|].
    replace (b1 / b2 * b2) with b1 by (field; lra). lra. }
  unfold adamax_reach. fold q. pose proof (geo_two b1 t (proj1 B1)) as G1.
  pose proof (geo_below q (S t) Q) as Gq. pose proof (geo_nonneg q (S t) (proj1 Q)) as Pq.
  unfold Rdiv in *. rewrite Rmult_1_l in *. rewrite Rinv_mult_distr by lra. rewrite (Rmult_comm (/ (1 + b1))).
  apply Rmult_le_compat; auto; [left; apply Rinv_0_lt_compat; lra|apply Rinv_le_contravar; lra].
Qed.

Lemma adam_reach_grows b1 b2 t : 0 <= b1 < 1 -> 0 < b2 < 1 -> b2 <= b1 * b1 ->
  (1 - b1) * sqrt (INR t) <= adam_reach b1 b2 t.
Proof.
  intros B1 B2 L. set (q := b1 * b1 / b2). assert (Q : 1 <= q).
  { apply (Rmult_le_reg_r b2); [lra|]. unfold q. replace (b1 * b1 / b2 * b2) with (b1 * b1) by (field; lra). lra. }
  unfold adam_reach. fold q. pose proof (geo_above q t Q) as Gq. assert (G2 : 1 <= geo b2 (S t)) by (apply geo_1; lra).
  assert (G1 : 1 <= geo b1 (S t)) by (apply geo_1; lra). pose proof (geo_below b1 (S t) B1) as G1'.
  assert (S1 : sqrt (INR t) <= sqrt (geo q t * geo b2 (S t))).
  { apply sqrt_le_1_alt. apply Rle_trans with (geo q t * 1); [lra|]. apply Rmult_le_compat_l; auto. pose proof (pos_INR t). lra. }
  rewrite Rmult_comm. apply Rmult_le_compat; auto using sqrt_pos; try lra.
  apply (Rmult_le_reg_r (geo b1 (S t))); [lra|]. rewrite Rinv_l by lra. rewrite geo_closed.
  pose proof (pow_le b1 (S t) (proj1 B1)). lra.
Qed.

Lemma adamax_reach_grows b1 b2 t : 0 <= b1 < 1 -> 0 < b2 <= b1 ->
  (1 - b1) * INR t <= adamax_reach b1 b2 t.
Proof.
  intros B1 B2. set (q := b1 / b2). assert (Q : 1 <= q).
  { apply (Rmult_le_reg_r b2); [lra|]. unfold q. replace (b1 / b2 * b2) with b1 by (field; lra). lra. }
  unfold adamax_reach. fold q. pose proof (geo_above q t Q) as Gq.
  assert (G1 : 1 <= geo b1 (S t)) by (apply geo_1; lra).
  rewrite Rmult_comm. apply Rmult_le_compat; auto using pos_INR; try lra.
  apply (Rmult_le_reg_r (geo b1 (S t))); [lra|]. rewrite Rinv_l by lra. rewrite geo_closed.
  pose proof (pow_le b1 (S t) (proj1 B1)). lra.
Qed.

(** ** Whole histories *)

Lemma prefix_sum_bound {A} (f : list A -> R) c h : (forall g, g <> [] -> Rabs (f g) <= c) ->
  Rabs (prefix_sum f h) <= INR (length h) * c.
Proof.
  intros B. induction h as [|p h IH] using rev_ind.
  - rewrite prefix_sum_nil, Rabs_R0. simpl. lra.
  - rewrite prefix_sum_snoc, app_length. cbn [length]. rewrite Nat.add_1_r, S_INR.
    eapply Rle_trans; [apply Rabs_triang|]. assert (Rabs (f (h ++ [p])) <= c) by (apply B; destruct h; discriminate). lra.
Qed.

Lemma adam_travel n h lr b1 b2 w s' w' : 0 <= lr -> 0 <= b1 < 1 -> 0 < b2 < 1 -> b1 * b1 < b2 ->
  well_sized n h -> length w = n -> train Adam h (adam_new n lr b1 b2) w = Ret (s', w') ->
  forall i, (i < n)%nat ->
    Rabs (at_ w' i - at_ w i) <= INR (length h) * (lr / ((1 + b1) * sqrt ((1 - b2) * (1 - b1 * b1 / b2)))).
Proof.
  intros HL B1 B2 B Wh L E i Li.
  destruct (adam_history n h lr b1 b2 w Wh L) as (s2 & w2 & E2 & _ & _ & _ & _ & _ & _ & _ & _ & N).
  rewrite E2 in E. injection E as -> ->. destruct (N i Li) as (_ & _ & ->).
  replace (at_ w i + _ - at_ w i) with (prefix_sum (adam_delta lr b1 b2 i) h) by ring.
  apply prefix_sum_bound. intros g G. eapply Rle_trans; [apply adam_delta_bound; auto|].
  unfold Rdiv at 1. apply Rmult_le_compat_l; auto. destruct g as [|p g]; [congruence|]. cbn [length].
  eapply Rle_trans; [apply adam_reach_all; auto|]. unfold Rdiv. rewrite Rmult_1_l. lra.
Qed.

Lemma adamax_travel n h lr b1 b2 w s' w' : 0 <= lr -> 0 <= b1 < 1 -> b1 < b2 ->
  well_sized n h -> length w = n -> train AdaMax h (adamax_new n lr b1 b2) w = Ret (s', w') ->
  forall i, (i < n)%nat ->
    Rabs (at_ w' i - at_ w i) <= INR (length h) * (lr / ((1 + b1) * (1 - b1 / b2))).
Proof.
  intros HL B1 B Wh L E i Li.
  destruct (adamax_history n h lr b1 b2 w ltac:(lra) Wh L) as (s2 & w2 & E2 & _ & _ & _ & _ & _ & _ & _ & N).
  rewrite E2 in E. injection E as -> ->. destruct (N i Li) as (_ & _ & ->).
  replace (at_ w i + _ - at_ w i) with (prefix_sum (adamax_delta lr b1 b2 i) h) by ring.
  apply prefix_sum_bound. intros g G. eapply Rle_trans; [apply adamax_delta_bound; lra|].
  unfold Rdiv at 1. apply Rmult_le_compat_l; auto. destruct g as [|p g]; [congruence|]. cbn [length].
  eapply Rle_trans; [apply adamax_reach_all; auto|]. unfold Rdiv. rewrite Rmult_1_l. lra.
Qed.

Lemma nat_above x : exists n, x < INR n.
Proof.
  exists (Z.to_nat (up x)). destruct (archimed x) as [A _]. destruct (Z_le_gt_dec 0 (up x)) as [P|N].
  - rewrite INR_IZR_INZ, Z2Nat.id by auto. lra.
  - apply Rlt_le_trans with 0; [|apply pos_INR]. assert (IZR (up x) <= 0) by (apply IZR_le; lia). lra.
Qed.
