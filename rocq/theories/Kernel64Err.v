(** The error of kernels in binary64. *)
From Coq Require Import List Arith ZArith Lia Reals Lra Bool.
From Flocq Require Import Core BinarySingleNaN.
From Verif Require Import Base Scalar ScalarR ScalarF64 F64Facts HMap NdArray Features Spec FeatureFacts
  Kernels Basis BasisReal NormF64 NonnegF64 BoundF64 TableF64 NormL2F64 Near64 Basis64 Kernel64.
Import ListNotations.
Local Open Scope R_scope.

(** ** Real estimates *)

(** [a] is [b] up to a relative error [p] and an absolute error [t]. *)
Definition near (a b p t : R) : Prop := 0 <= b /\ Rabs (a - b) <= p * b + t.

Lemma sqrt_near a b p t : 0 <= a -> 0 <= p -> 0 <= t -> near a b p t -> near (sqrt a) (sqrt b) p (sqrt t).
Proof.
  intros Pa Pp Pt [Pb D]. split; [apply sqrt_pos|].
  assert (Qa := sqrt_pos a). assert (Qb := sqrt_pos b). assert (Qt := sqrt_pos t).
  assert (Sa := sqrt_sqrt a Pa). assert (Sb := sqrt_sqrt b Pb). assert (St := sqrt_sqrt t Pt).
  set (x := sqrt a) in *. set (y := sqrt b) in *. set (z := sqrt t) in *. rewrite <- Sa, <- Sb, <- St in D.
  clearbody x y z. clear Sa Sb St Pa Pb Pt a b t.
  assert (P0 : 0 <= p * y) by (apply Rmult_le_pos; auto).
  apply Rabs_le_inv in D. apply Rabs_le.
  assert (P1 : 0 <= (p * y) * (p * y)) by (apply Rmult_le_pos; auto).
  assert (P2 : 0 <= (p * y) * y) by (apply Rmult_le_pos; auto).
  assert (P3 : 0 <= (p * y) * z) by (apply Rmult_le_pos; auto).
  assert (P4 : 0 <= y * z) by (apply Rmult_le_pos; auto).
  split.
  - destruct (Rle_or_lt (y - x) (p * y + z)) as [L|L]; [lra|exfalso].
    assert (H1 : (p * y + z) * y < (y - x) * (y + x)).
    { destruct (Req_dec y 0) as [Z|N]; [subst; nra|].
      assert (0 < y) by lra. assert ((p * y + z) * y < (y - x) * y) by (apply Rmult_lt_compat_r; lra).
      assert (0 <= (y - x) * x) by (apply Rmult_le_pos; lra). lra. }
    assert (H2 : z <= y) by lra. assert (z * z <= z * y) by (apply Rmult_le_compat_l; lra). lra.
  - destruct (Rle_or_lt (x - y) (p * y + z)) as [L|L]; [lra|exfalso].
    assert (H1 : (y + (p * y + z)) * (y + (p * y + z)) < x * x).
    { apply Rmult_le_0_lt_compat; lra. }
    assert (0 <= z * z) by (apply Rmult_le_pos; auto). lra.
Qed.

Lemma one_minus_exp x : 1 - exp (- x) <= x.
Proof. pose proof (exp_ineq1_le (- x)). lra. Qed.

Lemma exp_gap a b m : m <= a -> m <= b -> Rabs (exp (- a) - exp (- b)) <= Rabs (a - b) * exp (- m).
Proof.
  assert (G : forall a b, m <= a -> a <= b -> exp (- a) - exp (- b) <= (b - a) * exp (- m)).
  { clear. intros a b La L. replace (- b) with (- a + - (b - a)) by ring. rewrite exp_plus.
    assert (H := one_minus_exp (b - a)). assert (Ea := exp_pos (- a)).
    assert (Em : exp (- a) <= exp (- m)) by (destruct La as [La| ->]; [left; apply exp_increasing; lra|lra]).
    assert (exp (- a) * (1 - exp (- (b - a))) <= exp (- a) * (b - a)) by (apply Rmult_le_compat_l; lra).
    assert (exp (- a) * (b - a) <= exp (- m) * (b - a)) by (apply Rmult_le_compat_r; lra). lra. }
  assert (M : forall a b, a <= b -> exp (- b) <= exp (- a)).
  { clear. intros a b [L| ->]; [left; apply exp_increasing; lra|lra]. }
  intros La Lb. destruct (Rle_or_lt a b) as [L|L].
  - rewrite (Rabs_left1 (a - b)) by lra. rewrite Rabs_pos_eq by (specialize (M a b L); lra).
    specialize (G a b La L). lra.
  - rewrite (Rabs_pos_eq (a - b)) by lra. rewrite Rabs_left1 by (specialize (M b a (Rlt_le _ _ L)); lra).
    specialize (G b a Lb (Rlt_le _ _ L)). lra.
Qed.

Lemma exp_1_ge : 2 <= exp 1.
Proof. pose proof (exp_ineq1_le 1). lra. Qed.

(** [y exp(-k y) <= 1 / (2 k)]. *)
Lemma y_exp k y : 0 < k -> 0 <= y -> y * exp (- (k * y)) <= / (2 * k).
Proof.
  intros Pk Py. assert (E := exp_pos (- (k * y))).
  assert (H : 2 * (k * y) <= exp (k * y)).
  { replace (k * y) with (1 + (k * y - 1)) at 2 by ring. rewrite exp_plus.
    assert (B := exp_ineq1_le (k * y - 1)). assert (A := exp_1_ge).
    assert (0 <= k * y) by (apply Rmult_le_pos; lra).
    assert (exp 1 * (k * y) <= exp 1 * exp (k * y - 1)) by (apply Rmult_le_compat_l; lra).
    assert (2 * (k * y) <= exp 1 * (k * y)) by (apply Rmult_le_compat_r; lra). lra. }
  assert (I : exp (k * y) * exp (- (k * y)) = 1) by (rewrite <- exp_plus, Rplus_opp_r; apply exp_0).
  assert (H2 : 2 * (k * y) * exp (- (k * y)) <= 1) by (rewrite <- I; apply Rmult_le_compat_r; lra).
  apply Rmult_le_reg_r with (2 * k); [lra|]. rewrite Rinv_l by lra. lra.
Qed.

Lemma y1_exp y : 0 <= y -> y * exp (- (3 / 4 * y)) <= 2 / 3.
Proof. intros Py. pose proof (y_exp (3 / 4) y ltac:(lra) Py). lra. Qed.

Lemma y2_exp y : 0 <= y -> y * y * exp (- (3 / 4 * y)) <= 16 / 9.
Proof.
  intros Py. pose proof (y_exp (3 / 8) y ltac:(lra) Py) as H. assert (E := exp_pos (- (3 / 8 * y))).
  replace (- (3 / 4 * y)) with (- (3 / 8 * y) + - (3 / 8 * y)) by lra. rewrite exp_plus.
  assert (0 <= y * exp (- (3 / 8 * y))) by (apply Rmult_le_pos; lra).
  replace (y * y * (exp (- (3 / 8 * y)) * exp (- (3 / 8 * y)))) with ((y * exp (- (3 / 8 * y))) * (y * exp (- (3 / 8 * y)))) by ring.
  replace (16 / 9) with (/ (2 * (3 / 8)) * / (2 * (3 / 8))) by lra. apply Rmult_le_compat; lra.
Qed.

Lemma y3_exp y : 0 <= y -> y * y * y * exp (- (3 / 4 * y)) <= 8.
Proof.
  intros Py. pose proof (y_exp (1 / 4) y ltac:(lra) Py) as H. assert (E := exp_pos (- (1 / 4 * y))).
  replace (- (3 / 4 * y)) with (- (1 / 4 * y) + - (1 / 4 * y) + - (1 / 4 * y)) by lra. rewrite !exp_plus.
  set (e := exp (- (1 / 4 * y))) in *. assert (0 <= y * e) by (apply Rmult_le_pos; lra).
  replace (y * y * y * (e * e * e)) with ((y * e) * ((y * e) * (y * e))) by ring.
  replace 8 with (2 * (2 * 2)) by lra. repeat (apply Rmult_le_compat; try lra). apply Rmult_le_pos; lra.
Qed.

Lemma exp_small t : 0 <= t <= / 8 -> exp t <= 8 / 7.
Proof.
  intros L. assert (H := exp_ineq1_le (- t)). assert (E := exp_pos t).
  assert (I : exp t * exp (- t) = 1) by (rewrite <- exp_plus, Rplus_opp_r; apply exp_0).
  assert (exp t * (7 / 8) <= exp t * exp (- t)) by (apply Rmult_le_compat_l; lra). lra.
Qed.

Lemma exp_le x y : x <= y -> exp x <= exp y.
Proof. intros [L| ->]; [left; apply exp_increasing; auto|lra]. Qed.

(** [exp (- a)] and its distance from [exp (- b)], both against [exp (- 3/4 b)]. *)
Lemma near_exp_raw a b p t : near a b p t -> 0 <= p <= / 4 -> 0 <= t <= / 8 ->
  exp (- a) <= 8 / 7 * exp (- (3 / 4 * b)) /\
  Rabs (exp (- a) - exp (- b)) <= (p * b + t) * (8 / 7 * exp (- (3 / 4 * b))).
Proof.
  intros [Pb D] Lp Lt. set (m := 3 / 4 * b - t).
  assert (Hp : p * b <= / 4 * b) by (apply Rmult_le_compat_r; lra).
  assert (Ha : m <= a) by (apply Rabs_le_inv in D; unfold m; lra).
  assert (Hb : m <= b) by (unfold m; lra).
  assert (Em : exp (- m) <= 8 / 7 * exp (- (3 / 4 * b))).
  { unfold m. replace (- (3 / 4 * b - t)) with (t + - (3 / 4 * b)) by ring. rewrite exp_plus.
    apply Rmult_le_compat_r; [left; apply exp_pos|apply exp_small; lra]. }
  split.
  - eapply Rle_trans; [|exact Em]. apply exp_le. lra.
  - eapply Rle_trans; [apply (exp_gap a b m); auto|].
    apply Rmult_le_compat; auto using Rabs_pos. left; apply exp_pos.
Qed.

Lemma exp_le_1 x : 0 <= x -> exp (- x) <= 1.
Proof. intros L. rewrite <- exp_0. apply exp_le. lra. Qed.

Lemma near_exp a b p t : near a b p t -> 0 <= p <= / 4 -> 0 <= t <= / 8 ->
  Rabs (exp (- a) - exp (- b)) <= p + 2 * t.
Proof.
  intros N Lp Lt. destruct (near_exp_raw a b p t N Lp Lt) as [_ D]. destruct N as [Pb _].
  assert (Y := y1_exp b Pb). assert (E1 : exp (- (3 / 4 * b)) <= 1) by (apply exp_le_1; lra).
  assert (E0 := exp_pos (- (3 / 4 * b))). set (e := exp (- (3 / 4 * b))) in *.
  assert (p * (b * e) <= p * (2 / 3)) by (apply Rmult_le_compat_l; lra).
  assert (t * e <= t * 1) by (apply Rmult_le_compat_l; lra). lra.
Qed.

(** Rounding the approximation. *)
Lemma near_rnd a a' b p t u e : near a b p t -> 0 <= u -> Rabs (a' - a) <= u * Rabs a + e ->
  near a' b (p + u * (1 + p)) (t + u * t + e).
Proof.
  intros [Pb D] Pu R. split; auto.
  assert (A : Rabs a <= b + (p * b + t)).
  { replace a with (b + (a - b)) by ring. eapply Rle_trans; [apply Rabs_triang|]. rewrite (Rabs_pos_eq b); lra. }
  replace (a' - b) with ((a' - a) + (a - b)) by ring. eapply Rle_trans; [apply Rabs_triang|].
  assert (u * Rabs a <= u * (b + (p * b + t))) by (apply Rmult_le_compat_l; auto). lra.
Qed.

Lemma near_weak a b p t p' t' : near a b p t -> p <= p' -> t <= t' -> near a b p' t'.
Proof. intros [Pb D] Lp Lt. split; auto. assert (p * b <= p' * b) by (apply Rmult_le_compat_r; auto). lra. Qed.

Lemma near_scale a b p t k : near a b p t -> 0 <= k -> near (k * a) (k * b) p (k * t).
Proof.
  intros [Pb D] Pk. split; [apply Rmult_le_pos; auto|].
  replace (k * a - k * b) with (k * (a - b)) by ring. rewrite Rabs_mult, (Rabs_pos_eq k) by auto.
  assert (k * Rabs (a - b) <= k * (p * b + t)) by (apply Rmult_le_compat_l; auto). lra.
Qed.

Lemma near_square a b p t : near a b p t -> 0 <= p -> 0 <= t ->
  near (a * a) (b * b) (p * (2 + p) + t * (1 + p)) (t * (1 + p) + t * t).
Proof.
  intros [Pb D] Pp Pt. split; [apply Rmult_le_pos; auto|].
  replace (a * a - b * b) with ((a - b) * (a - b + 2 * b)) by ring. rewrite Rabs_mult.
  assert (S : Rabs (a - b + 2 * b) <= (p * b + t) + 2 * b).
  { eapply Rle_trans; [apply Rabs_triang|]. rewrite (Rabs_pos_eq (2 * b)); lra. }
  eapply Rle_trans; [apply Rmult_le_compat; [apply Rabs_pos|apply Rabs_pos|exact D|exact S]|].
  assert (Q : 0 <= (b - 1) * (b - 1)) by apply Rle_0_sqr.
  assert (T : 2 * (t * b) * (1 + p) <= t * (b * b + 1) * (1 + p)).
  { apply Rmult_le_compat_r; [lra|]. assert (0 <= t * ((b - 1) * (b - 1))) by (apply Rmult_le_pos; auto). lra. }
  lra.
Qed.

Lemma near_ln a b p t : near a b p t -> 0 <= a -> 0 <= p -> 0 <= t -> p + t <= / 16 ->
  near (ln (1 + a)) (ln (1 + b)) (11 / 10 * p) (11 / 10 * t).
Proof.
  intros [Pb D] Pa Pp Pt L.
  assert (Inv : forall x, 0 <= x -> x / (1 + x) <= ln (1 + x)).
  { intros x Px. assert (H := exp_ineq1_le (- ln (1 + x))). rewrite exp_Ropp, exp_ln in H by lra.
    replace (x / (1 + x)) with (1 - / (1 + x)) by (field; lra). lra. }
  assert (Gap : forall x y, 0 <= x -> x <= y -> 0 <= ln (1 + y) - ln (1 + x) <= (y - x) / (1 + x)).
  { intros x y Px Lxy. split.
    - destruct Lxy as [Lxy| ->]; [|lra]. assert (ln (1 + x) < ln (1 + y)) by (apply ln_increasing; lra). lra.
    - replace (ln (1 + y) - ln (1 + x)) with (ln ((1 + y) / (1 + x))).
      2: { unfold Rdiv. rewrite ln_mult, ln_Rinv by (try apply Rinv_0_lt_compat; lra). ring. }
      assert (H := exp_ineq1_le (ln ((1 + y) / (1 + x)))).
      rewrite exp_ln in H by (apply Rdiv_lt_0_compat; lra).
      replace ((y - x) / (1 + x)) with ((1 + y) / (1 + x) - 1) by (field; lra). lra. }
  assert (L0 : 0 <= ln (1 + b)).
  { assert (H := Inv b Pb). assert (0 <= b / (1 + b)) by (apply Rmult_le_pos; [auto|left; apply Rinv_0_lt_compat; lra]). lra. }
  split; auto.
  (* everything is divided by at least (1 + b) * 10/11 *)
  assert (Main : forall m, 10 / 11 * (1 + b) <= m -> 0 < m -> Rabs (a - b) / m <= 11 / 10 * p * ln (1 + b) + 11 / 10 * t).
  { intros m Lm Pm. apply Rmult_le_reg_r with m; auto. unfold Rdiv. rewrite Rmult_assoc, Rinv_l, Rmult_1_r by lra.
    eapply Rle_trans; [exact D|].
    assert (B : b <= ln (1 + b) * (1 + b)).
    { assert (H := Inv b Pb). apply (Rmult_le_compat_r (1 + b)) in H; [|lra]. unfold Rdiv in H.
      rewrite Rmult_assoc, Rinv_l in H by lra. lra. }
    assert (p * b <= p * (ln (1 + b) * (1 + b))) by (apply Rmult_le_compat_l; auto).
    assert (Q0 : 0 <= 11 / 10 * p * ln (1 + b) + 11 / 10 * t) by (assert (0 <= p * ln (1 + b)) by (apply Rmult_le_pos; auto); lra).
    assert ((11 / 10 * p * ln (1 + b) + 11 / 10 * t) * (10 / 11 * (1 + b)) <= (11 / 10 * p * ln (1 + b) + 11 / 10 * t) * m)
      by (apply Rmult_le_compat_l; auto).
    assert (0 <= t * b) by (apply Rmult_le_pos; auto). lra. }
  destruct (Rle_or_lt a b) as [Lab|Lab].
  - destruct (Gap a b Pa Lab) as [G0 G1]. rewrite Rabs_left1 by lra.
    assert (M := Main (1 + a)). rewrite Rabs_left1 in M by lra.
    assert (Lm : 10 / 11 * (1 + b) <= 1 + a).
    { rewrite Rabs_left1 in D by lra. assert (p * b <= / 16 * b) by (apply Rmult_le_compat_r; lra). lra. }
    specialize (M Lm ltac:(lra)). unfold Rdiv in *. lra.
  - destruct (Gap b a Pb (Rlt_le _ _ Lab)) as [G0 G1]. rewrite Rabs_pos_eq by lra.
    assert (M := Main (1 + b) ltac:(lra) ltac:(lra)). rewrite Rabs_pos_eq in M by lra. unfold Rdiv in *. lra.
Qed.

(** ** The scaled distance *)

Definition tiny : R := bpow radix2 (-500).

Lemma uro_fine : 0 < uro <= / 1000000.
Proof.
  split; [apply uro_pos|]. apply Rle_trans with (bpow radix2 (-20)); [apply bpow_le; lia|].
  change (bpow radix2 (-20)) with (/ 1048576). apply Rinv_le_contravar; lra.
Qed.

Lemma eta_fine : 0 < eta64 <= uro * / 1000000.
Proof.
  split; [apply eta64_pos|]. apply Rle_trans with (bpow radix2 (-53 + -20)); [apply bpow_le; lia|].
  rewrite bpow_plus. apply Rmult_le_compat_l; [left; apply uro_pos|].
  change (bpow radix2 (-20)) with (/ 1048576). apply Rinv_le_contravar; lra.
Qed.

Lemma tiny_fine : 0 < tiny <= uro * / 1000000.
Proof.
  split; [apply bpow_gt_0|]. apply Rle_trans with (bpow radix2 (-53 + -20)); [apply bpow_le; lia|].
  rewrite bpow_plus. apply Rmult_le_compat_l; [left; apply uro_pos|].
  change (bpow radix2 (-20)) with (/ 1048576). apply Rinv_le_contravar; lra.
Qed.

Lemma term_near a b l : b_finite a = true -> b_finite b = true -> scale_ok l ->
  let z := b_div (b_sub a b) l in let x := (b_real a - b_real b) / b_real l in
  b_finite (b_mul z z) = true -> near (b_real (b_mul z z)) (x * x) (8 * uro) (3 * eta64).
Proof.
  intros Fa Fb [Fl Nl] z x F. destruct (b_mul_finite_inv _ _ F) as (Fz & _ & E).
  destruct (b_div_finite_inv _ _ Fz Nl) as [Fs _].
  destruct (b_div_error _ _ Fz Nl) as (d & e & Dd & De & Ez). fold z in Ez.
  destruct (b_sub_err _ _ Fs) as (d' & Dd' & Es). rewrite Es in Ez. rewrite E. clear E Es.
  assert (Q : b_real z = x * (1 + d') * (1 + d) + e) by (rewrite Ez; unfold x; field; auto).
  destruct uro_fine as [U0 U1]. destruct eta_fine as [H0 H1].
  set (u := uro) in *. set (h := eta64) in *.
  assert (N1 : near (Rabs (b_real z)) (Rabs x) (3 * u) h).
  { split; [apply Rabs_pos|]. eapply Rle_trans; [apply Rabs_triang_inv2|].
    replace (b_real z - x) with (x * (d' + d + d' * d) + e) by (rewrite Q; ring).
    eapply Rle_trans; [apply Rabs_triang|]. rewrite Rabs_mult.
    assert (D2 : Rabs (d' + d + d' * d) <= 3 * u).
    { eapply Rle_trans; [apply Rabs_triang|]. rewrite Rabs_mult.
      assert (Rabs d' * Rabs d <= u * u) by (apply Rmult_le_compat; auto using Rabs_pos).
      assert (u * u <= u * / 1000000) by (apply Rmult_le_compat_l; lra).
      pose proof (Rabs_triang d' d). lra. }
    assert (Rabs x * Rabs (d' + d + d' * d) <= Rabs x * (3 * u)) by (apply Rmult_le_compat_l; auto using Rabs_pos). lra. }
  assert (N2 := near_square _ _ _ _ N1 ltac:(lra) ltac:(lra)).
  rewrite <- !Rabs_mult in N2. rewrite !(Rabs_pos_eq (_ * _)) in N2 by apply Rle_0_sqr.
  assert (N3 := near_rnd _ (rnd64 (b_real z * b_real z)) _ _ _ u h N2 ltac:(lra) (rnd64_off _)).
  assert (uu : 0 <= u * u <= u * / 1000000) by (split; [apply Rle_0_sqr|apply Rmult_le_compat_l; lra]).
  assert (hu : 0 <= h * u <= h * / 1000000) by (split; [apply Rmult_le_pos; lra|apply Rmult_le_compat_l; lra]).
  assert (hh : 0 <= h * h <= h * / 1000000) by (split; [apply Rle_0_sqr|apply Rmult_le_compat_l; lra]).
  assert (uuu : 0 <= u * u * u <= u * / 1000000) by (split; [apply Rmult_le_pos; lra|apply Rle_trans with (u * u * 1); [apply Rmult_le_compat_l; lra|lra]]).
  assert (huu : 0 <= h * u * u <= h * / 1000000) by (split; [apply Rmult_le_pos; lra|apply Rle_trans with (h * u * 1); [apply Rmult_le_compat_l; lra|lra]]).
  assert (hhu : 0 <= h * h * u <= h * / 1000000) by (split; [apply Rmult_le_pos; lra|apply Rle_trans with (h * h * 1); [apply Rmult_le_compat_l; lra|lra]]).
  eapply near_weak; [exact N3| |]; lra.
Qed.

Lemma pow_uro_near n : INR n * uro <= / 2 -> (1 + uro) ^ n - 1 <= 2 * (INR n * uro).
Proof.
  destruct uro_fine as [U0 U1]. induction n as [|n IH]; [simpl; lra|]. rewrite S_INR. intros L.
  assert (L' : INR n * uro <= / 2) by lra. specialize (IH L'). cbn [pow].
  assert ((1 + uro) * (1 + uro) ^ n <= (1 + uro) * (1 + 2 * (INR n * uro))) by (apply Rmult_le_compat_l; lra).
  assert (INR n * uro * uro <= / 2 * uro) by (apply Rmult_le_compat_r; lra). lra.
Qed.

Lemma terms_near (qs : list f64) (zs : list R) :
  Forall2 (fun (q : f64) z => near (b_real q) z (8 * uro) (3 * eta64)) qs zs ->
  let S := rsum zs in let n := INR (length qs) in
  0 <= S /\ Rabs (rsum (map (fun q : f64 => b_real q) qs) - S) <= 8 * uro * S + 3 * n * eta64 /\
  abs_sum (map (fun q : f64 => b_real q) qs) <= (1 + 8 * uro) * S + 3 * n * eta64.
Proof.
  intros H. cbv zeta. unfold abs_sum.
  induction H as [|q z qs zs [Pz Dz] H IH]; cbn [map length rsum fold_right].
  - simpl. rewrite Rminus_0_r, Rabs_R0. lra.
  - fold (rsum (map (fun q : f64 => b_real q) qs)) (rsum (map Rabs (map (fun q : f64 => b_real q) qs))) (rsum zs).
    destruct IH as (S0 & D & A). rewrite S_INR. splits; try lra.
    + replace (b_real q + rsum (map (fun q : f64 => b_real q) qs) - (z + rsum zs)) with
        ((b_real q - z) + (rsum (map (fun q : f64 => b_real q) qs) - rsum zs)) by ring.
      eapply Rle_trans; [apply Rabs_triang|]. lra.
    + assert (Rabs (b_real q) <= z + (8 * uro * z + 3 * eta64)).
      { replace (b_real q) with (z + (b_real q - z)) by ring. eapply Rle_trans; [apply Rabs_triang|]. rewrite (Rabs_pos_eq z); lra. }
      lra.
Qed.

Definition reals1 (x : list f64) : list R := map (fun v : f64 => b_real v) x.

(** The number of relative errors of 2^-53 in a distance over [n] coordinates. *)
Definition slack (n : nat) : R := INR (3 * n + 10) * uro.

Lemma fold_map_square l (z : f64) : fold_left (fun acc z => b_add acc (b_mul z z)) l z = fold_left b_add (map (fun z => b_mul z z) l) z.
Proof. revert z. induction l as [|a l IH]; intros z; cbn [map fold_left]; auto. Qed.

Lemma sum_near ls x y : Forall (fun v : f64 => b_finite v = true) x -> Forall (fun v : f64 => b_finite v = true) y ->
  Forall scale_ok ls ->
  let qs := map (fun z => b_mul z z) (map2 b_div (map2 b_sub x y) ls) in
  (length qs <= length ls)%nat /\
  ((forall q, In q qs -> b_finite q = true) ->
   Forall2 (fun (q : f64) z => near (b_real q) z (8 * uro) (3 * eta64)) qs
     (map (fun z => z * z) (map2 Rdiv (map2 Rminus (reals1 x) (reals1 y)) (reals1 ls)))).
Proof.
  intros Fx. revert y ls. unfold reals1. induction Fx as [|v x F Fx IH]; intros y ls Fy L; cbv zeta.
  { split; [simpl; lia|]. intros _. constructor. }
  destruct Fy as [|w y Fw Fy]; [split; [simpl; lia|intros _; constructor]|].
  destruct L as [|l ls Hl L]; [split; [simpl; lia|intros _; constructor]|]. cbn [map map2 length].
  destruct (IH y ls Fy L) as [Ln N]. split; [lia|]. intros G. constructor.
  - apply term_near; auto. apply G. left. reflexivity.
  - apply N. intros q I. apply G. right. exact I.
Qed.

Lemma slack_small n : INR n <= bpow radix2 40 -> 10 * uro <= slack n <= / 1000.
Proof.
  intros L. unfold slack. rewrite plus_INR, mult_INR. change (INR 3) with (2 + 1). replace (INR 10) with 10 by (simpl; lra).
  assert (P := pos_INR n). destruct uro_fine as [U0 U1]. split.
  - apply Rmult_le_compat_r; lra.
  - assert (H : INR n * uro <= bpow radix2 40 * uro) by (apply Rmult_le_compat_r; lra).
    unfold uro in H at 2. rewrite <- bpow_plus in H. change (bpow radix2 (40 + -53)) with (/ 8192) in H. lra.
Qed.

Section P.
Context (P : Platform).
Notation SP := (ScalarF64 P).

Theorem distance_near (k : kernel f64) x y :
  Forall (fun v : f64 => b_finite v = true) x -> Forall (fun v : f64 => b_finite v = true) y ->
  Forall scale_ok (k_lengthscales k) -> INR (length (k_lengthscales k)) <= bpow radix2 40 ->
  b_finite (@kernel_distance f64 SP k x y) = true ->
  near (b_real (@kernel_distance f64 SP k x y))
    (sqrt (sq_dist (reals1 (k_lengthscales k)) (reals1 x) (reals1 y))) (slack (length (k_lengthscales k))) tiny.
Proof.
  intros Fx Fy L Ln F. destruct (slack_small _ Ln) as [Sl0 Sl1]. unfold kernel_distance in *. cbn [fadd fsub fmul fdiv fsqrt ScalarF64] in *.
  rewrite fzero_f64 in *. rewrite fold_map_square in *.
  destruct (sum_near _ _ _ Fx Fy L) as [Lq N]. cbv zeta in Lq, N.
  set (qs := map (fun z => b_mul z z) _) in *. set (s := fold_left b_add qs b_zero) in *.
  destruct (Bsqrt_correct 53 1024 f64_prec f64_emax mode_NE s) as (Cr & Cf & _).
  fold (b_sqrt s) in Cr, Cf. fold (rnd64 (sqrt (b_real s))) in Cr.
  assert (Fs : b_finite s = true) by (destruct s as [|[]| |]; auto; try discriminate F; exfalso; clear -F; vm_compute in F; discriminate).
  destruct (fold_add_finite qs b_zero Fs) as [_ Fq]. specialize (N Fq).
  destruct (terms_near _ _ N) as (S0 & D & A). unfold sq_dist. fold (reals1 x) (reals1 y) in *.
  set (S := rsum (map (fun z => z * z) (map2 Rdiv (map2 Rminus (reals1 x) (reals1 y)) (reals1 (k_lengthscales k))))) in *.
  pose proof (fold_add_error qs b_zero Fs) as E. fold s in E.
  change (b_real b_zero) with 0 in E. rewrite Rabs_R0, !Rplus_0_l in E.
  change (map b_real qs) with (map (fun q : f64 => b_real q) qs) in E.
  set (sq := rsum (map (fun q : f64 => b_real q) qs)) in *. set (aq := abs_sum (map (fun q : f64 => b_real q) qs)) in *.
  destruct uro_fine as [U0 U1]. destruct eta_fine as [H0 H1].
  set (m := length (k_lengthscales k)) in *.
  assert (Lm : INR (length qs) <= INR m) by (apply le_INR; auto). assert (Pq := pos_INR (length qs)).
  assert (Mu : INR m * uro <= / 8192).
  { assert (H : INR m * uro <= bpow radix2 40 * uro) by (apply Rmult_le_compat_r; lra).
    unfold uro in H at 2. rewrite <- bpow_plus in H. exact H. }
  assert (Qu : INR (length qs) * uro <= INR m * uro) by (apply Rmult_le_compat_r; lra).
  assert (Pw := pow_uro_near (length qs) ltac:(lra)). assert (P1 := pow_1_uro (length qs)).
  set (n := INR (length qs)) in *. set (M := INR m) in *. set (u := uro) in *. set (h := eta64) in *.
  assert (Aq0 : 0 <= aq) by apply abs_sum_pos.
  assert (A3 : ((1 + u) ^ length qs - 1) * aq <= 2 * (M * u) * ((1 + 8 * u) * S + 3 * n * h)).
  { apply Rmult_le_compat; lra. }
  assert (M0 : 0 <= M) by lra.
  assert (MuS : 0 <= M * u * S) by (repeat apply Rmult_le_pos; lra).
  assert (X1 : M * u * (u * S) <= M * u * (/ 1000000 * S)) by (apply Rmult_le_compat_l; [apply Rmult_le_pos; lra|apply Rmult_le_compat_r; lra]).
  assert (nh : 0 <= n * h) by (apply Rmult_le_pos; lra).
  assert (X2 : M * u * (n * h) <= / 8192 * (n * h)) by (apply Rmult_le_compat_r; lra).
  assert (nM : n * h <= M * h) by (apply Rmult_le_compat_r; lra).
  assert (N1 : near (b_real s) S ((3 * M + 8) * u) (4 * (M * h))).
  { split; auto. replace (b_real s - S) with ((b_real s - sq) + (sq - S)) by ring.
    eapply Rle_trans; [apply Rabs_triang|]. lra. }
  assert (Ps : 0 <= b_real s).
  { destruct (b_l2_fold (map2 b_div (map2 b_sub x y) (k_lengthscales k)) b_zero 0) as (Ns & _).
    - intros z I. apply (in_map (fun z => b_mul z z)) in I. fold qs in I. apply Fq in I. apply b_mul_finite_inv in I. tauto.
    - right. simpl. split; [reflexivity|lra].
    - right. simpl. split; [reflexivity|lra].
    - rewrite fold_map_square in Ns. fold qs s in Ns. destruct Ns as [Q|[_ Q]]; [rewrite Q in Fs; discriminate|exact Q]. }
  assert (Mh : 0 <= 4 * (M * h)) by (assert (0 <= M * h) by (apply Rmult_le_pos; lra); lra).
  assert (Mu0 : 0 <= M * u) by (apply Rmult_le_pos; lra).
  assert (P8 : 0 <= (3 * M + 8) * u) by lra.
  assert (N2 := sqrt_near _ _ _ _ Ps P8 Mh N1).
  assert (Ht : 0 <= sqrt (4 * (M * h)) <= tiny * / 4).
  { split; [apply sqrt_pos|]. replace (tiny * / 4) with (sqrt ((tiny * / 4) * (tiny * / 4))).
    2: { apply sqrt_square. pose proof tiny_fine. lra. }
    apply sqrt_le_1_alt. assert (MM : M * h <= bpow radix2 40 * h) by (apply Rmult_le_compat_r; lra).
    assert (Z : bpow radix2 40 * h = bpow radix2 (-1035)) by (unfold h, eta64; rewrite <- bpow_plus; reflexivity). rewrite Z in MM.
    assert (T : tiny * / 4 * (tiny * / 4) = 4 * bpow radix2 (-1006)).
    { unfold tiny. change (/ 4) with (bpow radix2 (-2)). change 4 with (bpow radix2 2). rewrite <- !bpow_plus. reflexivity. }
    rewrite T. apply Rmult_le_compat_l; [lra|]. eapply Rle_trans; [exact MM|]. apply bpow_le. lia. }
  assert (N3 := near_rnd _ (rnd64 (sqrt (b_real s))) _ _ _ u h N2 ltac:(lra) (rnd64_off _)).
  assert (Cr' : b_real (b_sqrt s) = rnd64 (sqrt (b_real s))) by exact Cr. rewrite Cr'.
  destruct tiny_fine as [T0 T1].
  assert (Hh : h <= tiny * / 4).
  { unfold h, eta64, tiny. change (/ 4) with (bpow radix2 (-2)). rewrite <- bpow_plus. apply bpow_le. lia. }
  eapply near_weak; [exact N3| |].
  - unfold slack. fold u. rewrite plus_INR, mult_INR. fold M. change (INR 3) with (2 + 1). replace (INR 10) with 10 by (simpl; lra).
    assert (u * (M * u) <= u * / 8192) by (apply Rmult_le_compat_l; lra).
    assert (u * u <= u * / 1000000) by (apply Rmult_le_compat_l; lra). lra.
  - assert (u * sqrt (4 * (M * h)) <= 1 * sqrt (4 * (M * h))) by (apply Rmult_le_compat_r; lra). lra.
Qed.

(** ** Kernel values *)

(** [exp] on non-positive arguments: in [0, 1], to a relative error [eps] or one
    unit of the smallest number. *)
Definition exp_accurate (eps : R) : Prop := forall z : f64, b_finite z = true -> b_real z <= 0 ->
  b_finite (p_exp P z) = true /\ 0 <= b_real (p_exp P z) <= 1 /\
  Rabs (b_real (p_exp P z) - exp (b_real z)) <= eps * exp (b_real z) + bpow radix2 (-1074).

(** [ln_1p] on non-negative arguments. *)
Definition ln_accurate (eps : R) : Prop := forall z : f64, b_finite z = true -> 0 <= b_real z ->
  b_finite (p_ln1p P z) = true /\ Rabs (b_real (p_ln1p P z) - ln (1 + b_real z)) <= eps * ln (1 + b_real z).

(** [cos] on arguments up to 2^300. *)
Definition cos_accurate (eps : R) : Prop := forall z : f64, b_finite z = true -> Rabs (b_real z) <= bpow radix2 300 ->
  b_finite (p_cos P z) = true /\ Rabs (b_real (p_cos P z)) <= 1 /\ Rabs (b_real (p_cos P z) - cos (b_real z)) <= eps.

Lemma weigh (v e : f64) K D : b_finite v = true -> 0 <= b_real v -> b_finite e = true -> Rabs (b_real e) <= 1 ->
  Rabs (b_real e - K) <= D ->
  b_finite (b_mul v e) = true /\ Rabs (b_real (b_mul v e) - b_real v * K) <= b_real v * (D + uro) + eta64.
Proof.
  intros Fv Pv Fe Be De.
  destruct (b_mul_within v e (b_real v)) as [F _]; auto; [apply b_real_format|pose proof (b_real_small v) as Q; rewrite Rabs_pos_eq in Q; auto| |].
  { rewrite Rabs_mult, (Rabs_pos_eq (b_real v)) by auto. rewrite <- (Rmult_1_r (b_real v)) at 2. apply Rmult_le_compat_l; auto. }
  split; auto. destruct (b_mul_error v e F) as (d & h & Dd & Dh & ->).
  replace (b_real v * b_real e * (1 + d) + h - b_real v * K) with (b_real v * (b_real e - K) + b_real v * (b_real e * d) + h) by ring.
  eapply Rle_trans; [apply Rabs_triang|]. eapply Rle_trans; [apply Rplus_le_compat_r, Rabs_triang|].
  rewrite !Rabs_mult, (Rabs_pos_eq (b_real v)) by auto.
  assert (b_real v * Rabs (b_real e - K) <= b_real v * D) by (apply Rmult_le_compat_l; auto).
  assert (b_real v * (Rabs (b_real e) * Rabs d) <= b_real v * (1 * uro)).
  { apply Rmult_le_compat_l; auto. apply Rmult_le_compat; auto using Rabs_pos. }
  lra.
Qed.

Lemma opp_real (w : f64) : b_real (Bopp w) = - b_real w.
Proof. apply B2R_Bopp. Qed.
Lemma opp_finite (w : f64) : b_finite (Bopp w) = b_finite w.
Proof. apply is_finite_Bopp. Qed.

Lemma exp_kernel eps (w : f64) b p t : exp_accurate eps -> 0 <= eps -> b_finite w = true -> 0 <= b_real w ->
  near (b_real w) b p t -> 0 <= p <= / 4 -> 0 <= t <= / 8 ->
  b_finite (p_exp P (Bopp w)) = true /\ Rabs (b_real (p_exp P (Bopp w))) <= 1 /\
  Rabs (b_real (p_exp P (Bopp w)) - exp (- b)) <= eps + p + 2 * t + bpow radix2 (-1074).
Proof.
  intros A Pe Fw Pw N Lp Lt. destruct (A (Bopp w)) as (F & B & D); [rewrite opp_finite; auto|rewrite opp_real; lra|].
  rewrite opp_real in D. splits; auto; [rewrite Rabs_pos_eq; lra|].
  assert (E := near_exp _ _ _ _ N Lp Lt).
  replace (b_real (p_exp P (Bopp w)) - exp (- b)) with
    ((b_real (p_exp P (Bopp w)) - exp (- b_real w)) + (exp (- b_real w) - exp (- b))) by ring.
  eapply Rle_trans; [apply Rabs_triang|].
  assert (eps * exp (- b_real w) <= eps * 1) by (apply Rmult_le_compat_l; auto; apply exp_le_1; auto). lra.
Qed.

Lemma h2_fine : 0 < bpow radix2 (-1074) <= uro * / 1000000.
Proof.
  split; [apply bpow_gt_0|]. apply Rle_trans with (bpow radix2 (-53 + -20)); [apply bpow_le; lia|].
  rewrite bpow_plus. apply Rmult_le_compat_l; [left; apply uro_pos|].
  change (bpow radix2 (-20)) with (/ 1048576). apply Rinv_le_contravar; lra.
Qed.

Lemma eta_le_tiny : eta64 <= tiny.
Proof. apply bpow_le. lia. Qed.

(** The approximate distance [r] of the exact distance [x]. *)
Context (r : f64) (x m : R) (Fr : b_finite r = true) (Pr : 0 <= b_real r) (Br : b_real r <= bpow radix2 300)
  (Nr : near (b_real r) x m tiny) (Lm : 10 * uro <= m <= / 1000).

Lemma step a a' b al be : near a b (al * m) (be * tiny) -> 0 <= al <= 10 -> 0 <= be <= 100 ->
  Rabs (a' - a) <= uro * Rabs a + tiny -> near a' b ((al + / 5) * m) ((be + 2) * tiny).
Proof.
  intros N La Lb D. destruct uro_fine as [U0 U1]. destruct tiny_fine as [T0 T1].
  eapply near_weak; [apply (near_rnd a a' b (al * m) (be * tiny) uro tiny N); auto; lra| |].
  - assert (al * m <= 10 * m) by (apply Rmult_le_compat_r; lra).
    assert (uro * (1 + al * m) <= uro * 2) by (apply Rmult_le_compat_l; lra). lra.
  - assert (be * tiny <= 100 * tiny) by (apply Rmult_le_compat_r; lra). assert (0 <= be * tiny) by (apply Rmult_le_pos; lra).
    assert (uro * (be * tiny) <= / 1000000 * (be * tiny)) by (apply Rmult_le_compat_r; lra). lra.
Qed.

Lemma step_rnd a b al be : near a b (al * m) (be * tiny) -> 0 <= al <= 10 -> 0 <= be <= 100 ->
  near (rnd64 a) b ((al + / 5) * m) ((be + 2) * tiny).
Proof.
  intros N La Lb. apply (step a); auto. eapply Rle_trans; [apply rnd64_off|]. pose proof eta_le_tiny. lra.
Qed.

Lemma eta_r : eta64 * b_real r <= tiny.
Proof.
  apply Rle_trans with (eta64 * bpow radix2 300); [apply Rmult_le_compat_l; auto; left; apply eta64_pos|].
  unfold eta64. rewrite <- bpow_plus. apply bpow_le. lia.
Qed.

Lemma x_pos : 0 <= x.
Proof. apply Nr. Qed.

Lemma nr_1 : near (b_real r) x (1 * m) (1 * tiny).
Proof. rewrite !Rmult_1_l. exact Nr. Qed.

(** A constant, within one rounding, times the distance. *)
Lemma constant_times (c : f64) k : b_finite c = true -> 0 <= b_real c -> 1 <= k <= 2 -> Rabs (b_real c - k) <= uro * k + eta64 ->
  b_finite (b_mul c r) = true /\ 0 <= b_real (b_mul c r) <= bpow radix2 302 /\
  near (b_real (b_mul c r)) (k * x) (7 / 5 * m) (6 * tiny).
Proof.
  intros Fc Pc Lk D. destruct uro_fine as [U0 U1]. destruct tiny_fine as [T0 T1]. destruct eta_fine as [H0 H1].
  assert (Uk : uro * k <= uro * 2) by (apply Rmult_le_compat_l; lra).
  assert (Bc : b_real c <= 4) by (apply Rabs_le_inv in D; lra).
  assert (Bp : 0 <= b_real c * b_real r <= bpow radix2 302).
  { split; [apply Rmult_le_pos; auto|]. change 302%Z with (2 + 300)%Z. rewrite bpow_plus. change (bpow radix2 2) with 4.
    apply Rmult_le_compat; auto. }
  destruct (b_mul_within c r (bpow radix2 302)) as [F B]; auto; [apply fmt_bpow; lia|apply bpow_lt; lia|rewrite Rabs_pos_eq; lra|].
  destruct (b_mul_finite_inv _ _ F) as (_ & _ & E).
  split; auto. split. { split; [rewrite E; apply rnd64_pos; lra|apply Rabs_le_inv in B; lra]. }
  rewrite E.
  assert (N1 := near_scale _ _ _ _ k nr_1 ltac:(lra)).
  assert (N2 : near (k * b_real r) (k * x) (1 * m) (2 * tiny)).
  { eapply near_weak; [exact N1|lra|]. assert (k * tiny <= 2 * tiny) by (apply Rmult_le_compat_r; lra). lra. }
  assert (N3 := step (k * b_real r) (b_real c * b_real r) _ 1 2 N2 ltac:(lra) ltac:(lra)).
  assert (D2 : Rabs (b_real c * b_real r - k * b_real r) <= uro * Rabs (k * b_real r) + tiny).
  { replace (b_real c * b_real r - k * b_real r) with ((b_real c - k) * b_real r) by ring.
    rewrite Rabs_mult, (Rabs_pos_eq (b_real r)), (Rabs_pos_eq (k * b_real r)) by (auto; apply Rmult_le_pos; lra).
    assert (Rabs (b_real c - k) * b_real r <= (uro * k + eta64) * b_real r) by (apply Rmult_le_compat_r; auto).
    pose proof eta_r. lra. }
  specialize (N3 D2). assert (N4 := step_rnd _ _ _ _ N3 ltac:(lra) ltac:(lra)).
  eapply near_weak; [exact N4|right; field|right; ring].
Qed.

(** [r * r / 2], rounded twice. *)
Lemma square_near : near (b_real r * b_real r) (x * x) (21 / 10 * m) (2 * tiny).
Proof.
  destruct uro_fine as [U0 U1]. destruct tiny_fine as [T0 T1].
  assert (N := near_square _ _ _ _ Nr ltac:(lra) ltac:(lra)).
  assert (m * m <= m * / 1000) by (apply Rmult_le_compat_l; lra).
  assert (tiny * m <= tiny * / 1000) by (apply Rmult_le_compat_l; lra).
  assert (tiny * tiny <= tiny * / 1000) by (apply Rmult_le_compat_l; lra).
  eapply near_weak; [exact N|lra|lra].
Qed.

Lemma half_square_near : let w := b_mul (b_mul (@flit f64 SP 1 2) r) r in
  b_finite w = true /\ 0 <= b_real w /\ near (b_real w) (x ^ 2 / 2) (5 / 2 * m) (5 * tiny).
Proof.
  destruct uro_fine as [U0 U1]. destruct tiny_fine as [T0 T1].
  destruct (half_real P) as [Fh Vh]. intros w. set (h := b_mul (@flit f64 SP 1 2) r) in *.
  assert (W : within (bpow radix2 300) h).
  { apply b_mul_within; auto; [apply fmt_bpow; lia|apply bpow_lt; lia|]. rewrite Vh, Rabs_pos_eq; lra. }
  destruct W as [Ff Bh]. destruct (b_mul_finite_inv _ _ Ff) as (_ & _ & Eh). fold h in Eh. rewrite Vh in Eh.
  assert (Ph : 0 <= b_real h) by (rewrite Eh; apply rnd64_pos; lra). rewrite Rabs_pos_eq in Bh by auto.
  assert (W : within (bpow radix2 600) w).
  { apply b_mul_within; auto; [apply fmt_bpow; lia|apply bpow_lt; lia|]. rewrite Rabs_mult, !Rabs_pos_eq by auto.
    change 600%Z with (300 + 300)%Z. rewrite bpow_plus. apply Rmult_le_compat; auto. }
  destruct W as [Fw _]. destruct (b_mul_finite_inv _ _ Fw) as (_ & _ & Ew). fold w in Ew.
  split; auto. split. { rewrite Ew. apply rnd64_pos, Rmult_le_pos; auto. }
  rewrite Ew. assert (N1 := near_scale _ _ _ _ (/ 2) square_near ltac:(lra)).
  replace (/ 2 * (x * x)) with (x ^ 2 / 2) in N1 by field.
  assert (N2 : near (/ 2 * (b_real r * b_real r)) (x ^ 2 / 2) (21 / 10 * m) (1 * tiny)) by (eapply near_weak; [exact N1|lra|lra]).
  assert (D : Rabs (b_real h * b_real r - / 2 * (b_real r * b_real r)) <= uro * Rabs (/ 2 * (b_real r * b_real r)) + tiny).
  { replace (b_real h * b_real r - / 2 * (b_real r * b_real r)) with ((b_real h - / 2 * b_real r) * b_real r) by ring.
    rewrite Rabs_mult, (Rabs_pos_eq (b_real r)) by auto. rewrite (Rabs_pos_eq (/ 2 * (b_real r * b_real r))).
    2: { apply Rmult_le_pos; [lra|apply Rmult_le_pos; auto]. }
    assert (R := rnd64_off (/ 2 * b_real r)). rewrite <- Eh in R. rewrite (Rabs_pos_eq (/ 2 * b_real r)) in R by lra.
    assert (Rabs (b_real h - / 2 * b_real r) * b_real r <= (uro * (/ 2 * b_real r) + eta64) * b_real r) by (apply Rmult_le_compat_r; auto).
    pose proof eta_r. lra. }
  assert (N3 := step _ _ _ _ _ N2 ltac:(lra) ltac:(lra) D).
  assert (N4 := step_rnd _ _ _ _ N3 ltac:(lra) ltac:(lra)).
  eapply near_weak; [exact N4|right; field|right; ring].
Qed.

Lemma square_half_near : let w := b_div (b_mul r r) (@ftwo f64 SP) in
  b_finite w = true /\ 0 <= b_real w <= bpow radix2 600 /\ near (b_real w) (x ^ 2 / 2) (5 / 2 * m) (5 * tiny).
Proof.
  destruct uro_fine as [U0 U1]. destruct tiny_fine as [T0 T1].
  destruct (two_real P) as [Ft Vt]. intros w. set (q := b_mul r r) in *.
  assert (W : within (bpow radix2 600) q).
  { apply b_mul_within; auto; [apply fmt_bpow; lia|apply bpow_lt; lia|]. rewrite Rabs_mult, !Rabs_pos_eq by auto.
    change 600%Z with (300 + 300)%Z. rewrite bpow_plus. apply Rmult_le_compat; auto. }
  destruct W as [Fq Bq]. destruct (b_mul_finite_inv _ _ Fq) as (_ & _ & Eq). fold q in Eq.
  assert (Pq : 0 <= b_real q) by (rewrite Eq; apply rnd64_pos, Rmult_le_pos; auto). rewrite Rabs_pos_eq in Bq by auto.
  assert (W : within (bpow radix2 600) w).
  { apply b_div_within; auto; [rewrite Vt; lra|apply fmt_bpow; lia|apply bpow_lt; lia|]. rewrite Vt, Rabs_pos_eq; lra. }
  destruct W as [Fw Bw]. destruct (b_div_finite_inv _ _ Fw) as (_ & Ew); [rewrite Vt; lra|]. fold w in Ew. rewrite Vt in Ew.
  assert (Pw : 0 <= b_real w) by (rewrite Ew; apply rnd64_pos; lra). rewrite Rabs_pos_eq in Bw by auto.
  splits; auto. rewrite Ew, Eq.
  assert (N1 := step_rnd _ _ _ _ square_near ltac:(lra) ltac:(lra)).
  assert (N2 := near_scale _ _ _ _ (/ 2) N1 ltac:(lra)).
  replace (/ 2 * (x * x)) with (x ^ 2 / 2) in N2 by field.
  replace (/ 2 * rnd64 (b_real r * b_real r)) with (rnd64 (b_real r * b_real r) / 2) in N2 by field.
  assert (N3 : near (rnd64 (b_real r * b_real r) / 2) (x ^ 2 / 2) (23 / 10 * m) (3 * tiny)) by (eapply near_weak; [exact N2|lra|lra]).
  assert (N4 := step_rnd _ _ _ _ N3 ltac:(lra) ltac:(lra)).
  eapply near_weak; [exact N4|right; field|right; ring].
Qed.

Context (eps : R) (Pe : 0 <= eps <= 1) (Ae : exp_accurate eps)
  (v : f64) (Fv : b_finite v = true) (Pv : 0 <= b_real v).

Lemma exponential_near : let k := b_mul v (p_exp P (Bopp r)) in
  b_finite k = true /\ Rabs (b_real k - b_real v * exp (- x)) <= b_real v * (eps + 2 * m) + bpow radix2 (-1073).
Proof.
  destruct uro_fine as [U0 U1]. destruct tiny_fine as [T0 T1]. destruct h2_fine as [H0 H1].
  destruct (exp_kernel eps r x m tiny Ae ltac:(lra) Fr Pr Nr ltac:(lra) ltac:(lra)) as (Fe & Be & De).
  destruct (weigh v _ _ _ Fv Pv Fe Be De) as [F D]. split; auto. eapply Rle_trans; [exact D|].
  apply Rplus_le_compat; [apply Rmult_le_compat_l; lra|apply bpow_le; lia].
Qed.

Lemma expquad_near : let k := b_mul v (p_exp P (Bopp (b_mul (b_mul (@flit f64 SP 1 2) r) r))) in
  b_finite k = true /\ Rabs (b_real k - b_real v * exp (- (x ^ 2 / 2))) <= b_real v * (eps + 3 * m) + bpow radix2 (-1073).
Proof.
  destruct uro_fine as [U0 U1]. destruct tiny_fine as [T0 T1]. destruct h2_fine as [H0 H1].
  destruct half_square_near as (Fw & Pw & Nw).
  destruct (exp_kernel eps _ _ _ _ Ae ltac:(lra) Fw Pw Nw ltac:(lra) ltac:(lra)) as (Fe & Be & De).
  destruct (weigh v _ _ _ Fv Pv Fe Be De) as [F D]. split; auto. eapply Rle_trans; [exact D|].
  apply Rplus_le_compat; [apply Rmult_le_compat_l; lra|apply bpow_le; lia].
Qed.

Lemma cosine_near epsc : cos_accurate epsc -> let k := b_mul v (p_cos P r) in
  b_finite k = true /\ Rabs (b_real k - b_real v * cos x) <= b_real v * (epsc + m * (1 + x)) + bpow radix2 (-1073).
Proof.
  intros A. destruct uro_fine as [U0 U1]. destruct tiny_fine as [T0 T1].
  destruct (A r Fr) as (Fc & Bc & Dc); [rewrite Rabs_pos_eq; auto|].
  assert (D : Rabs (b_real (p_cos P r) - cos x) <= epsc + (m * x + tiny)).
  { replace (b_real (p_cos P r) - cos x) with ((b_real (p_cos P r) - cos (b_real r)) + (cos (b_real r) - cos x)) by ring.
    eapply Rle_trans; [apply Rabs_triang|]. apply Rplus_le_compat; auto.
    eapply Rle_trans; [apply cos_lipschitz|]. apply Nr. }
  destruct (weigh v _ _ _ Fv Pv Fc Bc D) as [F D']. split; auto. eapply Rle_trans; [exact D'|].
  apply Rplus_le_compat; [apply Rmult_le_compat_l; lra|apply bpow_le; lia].
Qed.

Lemma ln_upper y : 0 <= y -> 0 <= ln (1 + y) <= y.
Proof.
  intros Py. split.
  - rewrite <- ln_1. destruct Py as [Py| <-]; [left; apply ln_increasing; lra|rewrite Rplus_0_r; lra].
  - assert (H := exp_ineq1_le (ln (1 + y))). rewrite exp_ln in H by lra. lra.
Qed.

Lemma rq_near epsl (power : f64) : 0 <= epsl <= / 16 -> ln_accurate epsl ->
  b_finite power = true -> 0 <= b_real power <= bpow radix2 64 ->
  let k := b_mul v (p_exp P (Bopp (b_mul power (p_ln1p P (b_div (b_mul r r) (@ftwo f64 SP)))))) in
  b_finite k = true /\
  Rabs (b_real k - b_real v * Rpower (1 + x ^ 2 / 2) (- b_real power)) <= b_real v * (eps + 2 * epsl + 4 * m) + bpow radix2 (-1073).
Proof.
  intros Le Al Fp Pp. destruct uro_fine as [U0 U1]. destruct tiny_fine as [T0 T1]. destruct h2_fine as [H0 H1].
  destruct eta_fine as [E0 E1].
  destruct square_half_near as (Fw & Pw & Nw). set (w := b_div (b_mul r r) (@ftwo f64 SP)) in *.
  destruct (Al w Fw (proj1 Pw)) as (Fl & Dl). set (l := p_ln1p P w) in *.
  assert (Lw := ln_upper (b_real w) (proj1 Pw)).
  assert (N1 := near_ln _ _ _ _ Nw (proj1 Pw) ltac:(lra) ltac:(lra) ltac:(lra)).
  assert (N2 : near (b_real l) (ln (1 + x ^ 2 / 2)) (11 / 4 * m + 11 / 10 * epsl) (12 * tiny)).
  { eapply near_weak; [apply (near_rnd _ _ _ _ _ epsl 0 N1); [lra|rewrite (Rabs_pos_eq (ln (1 + b_real w))); lra]| |].
    - assert (epsl * m <= epsl * / 1000) by (apply Rmult_le_compat_l; lra). lra.
    - assert (epsl * tiny <= / 16 * tiny) by (apply Rmult_le_compat_r; lra). lra. }
  assert (Pl : 0 <= b_real l <= bpow radix2 601).
  { change 601%Z with (1 + 600)%Z. rewrite bpow_plus. change (bpow radix2 1) with 2.
    assert (epsl * ln (1 + b_real w) <= / 16 * ln (1 + b_real w)) by (apply Rmult_le_compat_r; lra).
    apply Rabs_le_inv in Dl. lra. }
  set (q := b_mul power l) in *.
  assert (Bq : 0 <= b_real power * b_real l <= bpow radix2 665).
  { split; [apply Rmult_le_pos; lra|]. change 665%Z with (64 + 601)%Z. rewrite bpow_plus. apply Rmult_le_compat; lra. }
  destruct (b_mul_within power l (bpow radix2 665)) as [Fq _]; auto; [apply fmt_bpow; lia|apply bpow_lt; lia|rewrite Rabs_pos_eq; lra|].
  fold q in Fq. destruct (b_mul_finite_inv _ _ Fq) as (_ & _ & Eq). fold q in Eq.
  assert (Pq : 0 <= b_real q) by (rewrite Eq; apply rnd64_pos; lra).
  assert (N3 := near_scale _ _ _ _ (b_real power) N2 (proj1 Pp)).
  assert (Tp : b_real power * (12 * tiny) <= uro * / 1000).
  { assert (b_real power * tiny <= bpow radix2 64 * tiny) by (apply Rmult_le_compat_r; lra).
    assert (bpow radix2 64 * tiny <= uro * / 1000000).
    { unfold tiny. rewrite <- bpow_plus. apply Rle_trans with (bpow radix2 (-53 + -20)); [apply bpow_le; lia|].
      rewrite bpow_plus. apply Rmult_le_compat_l; [left; apply uro_pos|].
      change (bpow radix2 (-20)) with (/ 1048576). apply Rinv_le_contravar; lra. }
    lra. }
  assert (Tp0 : 0 <= b_real power * (12 * tiny)) by (apply Rmult_le_pos; lra).
  assert (N4 := near_rnd _ (rnd64 (b_real power * b_real l)) _ _ _ uro eta64 N3 ltac:(lra) (rnd64_off _)).
  assert (N5 : near (b_real q) (b_real power * ln (1 + x ^ 2 / 2)) (3 * m + 3 / 2 * epsl) (uro * / 100)).
  { rewrite Eq. eapply near_weak; [exact N4| |].
    - assert (uro * (1 + (11 / 4 * m + 11 / 10 * epsl)) <= uro * 2) by (apply Rmult_le_compat_l; lra). lra.
    - assert (uro * (b_real power * (12 * tiny)) <= 1 * (b_real power * (12 * tiny))) by (apply Rmult_le_compat_r; lra). lra. }
  destruct (exp_kernel eps _ _ _ _ Ae ltac:(lra) Fq Pq N5 ltac:(lra) ltac:(lra)) as (Fe & Be & De).
  replace (exp (- (b_real power * ln (1 + x ^ 2 / 2)))) with (Rpower (1 + x ^ 2 / 2) (- b_real power)) in De
    by (unfold Rpower; f_equal; ring).
  destruct (weigh v _ _ _ Fv Pv Fe Be De) as [F D]. cbv zeta. split; auto. eapply Rle_trans; [exact D|].
  apply Rplus_le_compat; [apply Rmult_le_compat_l; lra|apply bpow_le; lia].
Qed.

(** A polynomial factor [g] times the exponential of [c]. *)
Lemma matern_near (c g : f64) y z G H : b_real v <= bpow radix2 400 ->
  b_finite c = true -> 0 <= b_real c -> near (b_real c) y (7 / 5 * m) (6 * tiny) ->
  b_finite g = true -> 0 <= b_real g <= bpow radix2 610 -> near (b_real g) z (3 * m) 0 ->
  z * exp (- (3 / 4 * y)) <= G -> z * y * exp (- (3 / 4 * y)) <= H -> 0 <= G <= 3 -> 0 <= H <= 8 ->
  let k := b_mul (b_mul v g) (p_exp P (Bopp c)) in
  b_finite k = true /\
  Rabs (b_real k - b_real v * (z * exp (- y))) <=
    b_real v * (8 / 7 * G * eps + (7 * G + 8 / 5 * H + 2) * m) + bpow radix2 (-1073).
Proof.
  intros Bv Fc Pc Nc Fg Pg Ng HG HH LG LH.
  destruct uro_fine as [U0 U1]. destruct tiny_fine as [T0 T1]. destruct h2_fine as [H0 H1]. destruct eta_fine as [E0 E1].
  destruct (Ae (Bopp c)) as (Fe & Be & De); [rewrite opp_finite; auto|rewrite opp_real; lra|]. rewrite opp_real in De.
  destruct (near_exp_raw _ _ _ _ Nc ltac:(lra) ltac:(lra)) as [X1 X2].
  destruct Nc as [Py _]. destruct Ng as [Pz Dg]. rewrite Rplus_0_r in Dg.
  set (e := exp (- (3 / 4 * y))) in *. assert (e0 : 0 < e) by apply exp_pos.
  set (ee := p_exp P (Bopp c)) in *. set (h2 := bpow radix2 (-1074)) in *.
  assert (Zh : z * h2 <= uro * / 1000).
  { assert (z <= 2 * bpow radix2 610).
    { apply Rabs_le_inv in Dg. assert (3 * m * z <= / 2 * z) by (apply Rmult_le_compat_r; lra). lra. }
    apply Rle_trans with (bpow radix2 611 * h2).
    - apply Rmult_le_compat_r; [lra|]. change 611%Z with (1 + 610)%Z. rewrite bpow_plus. change (bpow radix2 1) with 2. lra.
    - unfold h2. rewrite <- bpow_plus. apply Rle_trans with (bpow radix2 (-53 + -10)); [apply bpow_le; lia|].
      rewrite bpow_plus. apply Rmult_le_compat_l; [left; apply uro_pos|].
      change (bpow radix2 (-10)) with (/ 1024). apply Rinv_le_contravar; lra. }
  assert (Zh0 : 0 <= z * h2) by (apply Rmult_le_pos; lra).
  (* the exponential *)
  assert (Eu : b_real ee <= 16 / 7 * e + h2).
  { apply Rabs_le_inv in De. assert (eps * exp (- b_real c) <= 1 * exp (- b_real c)) by (apply Rmult_le_compat_r; [left; apply exp_pos|lra]). lra. }
  assert (Ed : Rabs (b_real ee - exp (- y)) <= eps * (8 / 7 * e) + h2 + (7 / 5 * m * y + 6 * tiny) * (8 / 7 * e)).
  { replace (b_real ee - exp (- y)) with ((b_real ee - exp (- b_real c)) + (exp (- b_real c) - exp (- y))) by ring.
    eapply Rle_trans; [apply Rabs_triang|].
    assert (eps * exp (- b_real c) <= eps * (8 / 7 * e)) by (apply Rmult_le_compat_l; lra). lra. }
  (* g times the exponential *)
  set (D := 8 / 7 * G * eps + (48 / 7 * G + 8 / 5 * H) * m + uro).
  assert (K : Rabs (b_real g * b_real ee - z * exp (- y)) <= D).
  { replace (b_real g * b_real ee - z * exp (- y)) with ((b_real g - z) * b_real ee + z * (b_real ee - exp (- y))) by ring.
    eapply Rle_trans; [apply Rabs_triang|]. rewrite !Rabs_mult, (Rabs_pos_eq z), (Rabs_pos_eq (b_real ee)) by lra.
    assert (A1 : Rabs (b_real g - z) * b_real ee <= 3 * m * z * (16 / 7 * e + h2)).
    { apply Rmult_le_compat; try lra. apply Rabs_pos. }
    assert (A2 : z * Rabs (b_real ee - exp (- y)) <= z * (eps * (8 / 7 * e) + h2 + (7 / 5 * m * y + 6 * tiny) * (8 / 7 * e)))
      by (apply Rmult_le_compat_l; auto).
    assert (B1 : m * (z * e) <= m * G) by (apply Rmult_le_compat_l; lra).
    assert (B2 : eps * (z * e) <= eps * G) by (apply Rmult_le_compat_l; lra).
    assert (B3 : m * (z * y * e) <= m * H) by (apply Rmult_le_compat_l; lra).
    assert (B4 : tiny * (z * e) <= tiny * G) by (apply Rmult_le_compat_l; lra).
    assert (B5 : m * (z * h2) <= / 1000 * (z * h2)) by (apply Rmult_le_compat_r; lra).
    assert (B6 : tiny * G <= tiny * 3) by (apply Rmult_le_compat_l; lra).
    unfold D. lra. }
  assert (Gm : G * m <= 3 * m) by (apply Rmult_le_compat_r; lra). assert (Gm0 : 0 <= G * m) by (apply Rmult_le_pos; lra).
  assert (Hm : H * m <= 8 * m) by (apply Rmult_le_compat_r; lra). assert (Hm0 : 0 <= H * m) by (apply Rmult_le_pos; lra).
  assert (Ge : G * eps <= 3 * 1) by (apply Rmult_le_compat; lra). assert (Ge0 : 0 <= G * eps) by (apply Rmult_le_pos; lra).
  assert (D4 : 0 <= D <= 4) by (unfold D; lra).
  assert (Ey : exp (- y) <= e) by (apply exp_le; lra).
  assert (Ze : 0 <= z * exp (- y) <= 3).
  { assert (z * exp (- y) <= z * e) by (apply Rmult_le_compat_l; auto). split; [apply Rmult_le_pos; auto; left; apply exp_pos|lra]. }
  assert (GE : 0 <= b_real g * b_real ee <= 7).
  { split; [apply Rmult_le_pos; lra|]. apply Rabs_le_inv in K. lra. }
  (* two roundings *)
  assert (Vg : 0 <= b_real v * b_real g <= bpow radix2 1010).
  { split; [apply Rmult_le_pos; lra|]. change 1010%Z with (400 + 610)%Z. rewrite bpow_plus. apply Rmult_le_compat; lra. }
  destruct (b_mul_within v g (bpow radix2 1010)) as [Fp Bp]; auto; [apply fmt_bpow; lia|apply bpow_lt; lia|rewrite Rabs_pos_eq; lra|].
  destruct (b_mul_finite_inv _ _ Fp) as (_ & _ & Ep). set (p := b_mul v g) in *.
  assert (Pp : 0 <= b_real p) by (rewrite Ep; apply rnd64_pos; lra). rewrite Rabs_pos_eq in Bp by auto.
  destruct (scaled_unit p ee Fp Pp Fe Be) as [Fk _].
  cbv zeta. split; auto. destruct (b_mul_finite_inv _ _ Fk) as (_ & _ & Ek). rewrite Ek.
  assert (R1 := rnd64_off (b_real v * b_real g)). rewrite <- Ep, (Rabs_pos_eq (b_real v * b_real g)) in R1 by lra.
  assert (R2 := rnd64_off (b_real p * b_real ee)). rewrite (Rabs_pos_eq (b_real p * b_real ee)) in R2 by (apply Rmult_le_pos; lra).
  set (k := rnd64 (b_real p * b_real ee)) in *. set (V := b_real v) in *. set (u := uro) in *. set (h := eta64) in *.
  assert (R3 : Rabs (b_real p * b_real ee - V * (b_real g * b_real ee)) <= u * (V * (b_real g * b_real ee)) + h).
  { replace (b_real p * b_real ee - V * (b_real g * b_real ee)) with ((b_real p - V * b_real g) * b_real ee) by ring.
    rewrite Rabs_mult, (Rabs_pos_eq (b_real ee)) by lra.
    assert (Rabs (b_real p - V * b_real g) * b_real ee <= (u * (V * b_real g) + h) * b_real ee) by (apply Rmult_le_compat_r; lra).
    assert (h * b_real ee <= h * 1) by (apply Rmult_le_compat_l; lra). lra. }
  assert (V7 : V * (b_real g * b_real ee) <= V * 7) by (apply Rmult_le_compat_l; lra).
  assert (V70 : 0 <= V * (b_real g * b_real ee)) by (apply Rmult_le_pos; lra).
  set (gee := V * (b_real g * b_real ee)) in *.
  assert (U7 : u * gee <= u * (V * 7)) by (apply Rmult_le_compat_l; lra).
  assert (R4 : u * (b_real p * b_real ee) <= u * (gee + (u * (V * 7) + h))).
  { apply Rmult_le_compat_l; [lra|]. apply Rabs_le_inv in R3. lra. }
  assert (R5 : Rabs (gee - V * (z * exp (- y))) <= V * D).
  { unfold gee. replace (V * (b_real g * b_real ee) - V * (z * exp (- y))) with (V * (b_real g * b_real ee - z * exp (- y))) by ring.
    rewrite Rabs_mult, (Rabs_pos_eq V) by auto. apply Rmult_le_compat_l; auto. }
  replace (k - V * (z * exp (- y))) with ((k - b_real p * b_real ee) + (b_real p * b_real ee - gee) + (gee - V * (z * exp (- y)))) by ring.
  eapply Rle_trans; [apply Rabs_triang|]. eapply Rle_trans; [apply Rplus_le_compat_r, Rabs_triang|].
  assert (Vu : 0 <= V * u) by (apply Rmult_le_pos; lra).
  assert (Vuu : u * (u * V) <= / 1000000 * (u * V)) by (apply Rmult_le_compat_r; lra).
  assert (Uh : u * h <= 1 * h) by (apply Rmult_le_compat_r; lra).
  assert (H3 : 3 * h <= bpow radix2 (-1073)).
  { replace (bpow radix2 (-1073)) with (4 * h); [lra|]. unfold h, eta64. change 4 with (bpow radix2 2). rewrite <- bpow_plus. reflexivity. }
  assert (Vm : V * (D + 15 * u) <= V * (8 / 7 * G * eps + (7 * G + 8 / 5 * H + 2) * m)).
  { apply Rmult_le_compat_l; auto. unfold D. lra. }
  lra.
Qed.

Lemma sqrt3_near : let c := b_sqrt (@flit f64 SP 3 1) in
  b_finite c = true /\ 0 <= b_real c /\ 1 <= sqrt 3 <= 2 /\ Rabs (b_real c - sqrt 3) <= uro * sqrt 3 + eta64.
Proof.
  destruct (lit_Z P 3) as [F V]; [lia|].
  destruct (Bsqrt_correct 53 1024 f64_prec f64_emax mode_NE (@flit f64 SP 3 1)) as (C & _ & _).
  fold (b_sqrt (@flit f64 SP 3 1)) in C. fold (rnd64 (sqrt (b_real (@flit f64 SP 3 1)))) in C.
  assert (C' : b_real (b_sqrt (@flit f64 SP 3 1)) = rnd64 (sqrt 3)) by (rewrite <- V; exact C).
  assert (S : 1 <= sqrt 3 <= 2).
  { split; [rewrite <- sqrt_1; apply sqrt_le_1_alt; lra|]. rewrite <- (sqrt_square 2) by lra. apply sqrt_le_1_alt. lra. }
  cbv zeta. rewrite C'. splits; try lra.
  - vm_compute. reflexivity.
  - apply rnd64_pos. lra.
  - eapply Rle_trans; [apply rnd64_off|]. rewrite (Rabs_pos_eq (sqrt 3)); lra.
Qed.

Lemma five_thirds_near : let c := b_div (@flit f64 SP 5 1) (@flit f64 SP 3 1) in
  b_finite c = true /\ 0 <= b_real c /\ Rabs (b_real c - 5 / 3) <= uro * (5 / 3) + eta64.
Proof.
  destruct (lit_Z P 3) as [F3 V3]; [lia|]. destruct (lit_Z P 5) as [F5 V5]; [lia|]. intros c.
  destruct (b_div_within (@flit f64 SP 5 1) (@flit f64 SP 3 1) 2) as [F _]; auto.
  - rewrite V3. lra.
  - apply (fmt_Z 2). lia.
  - apply (IZR_small 2). lia.
  - rewrite V3, V5, Rabs_pos_eq; lra.
  - destruct (b_div_finite_inv _ _ F) as [_ E]; [rewrite V3; lra|]. fold c in F, E. rewrite V3, V5 in E. rewrite E.
    splits; auto; [apply rnd64_pos; lra|]. eapply Rle_trans; [apply rnd64_off|]. rewrite (Rabs_pos_eq (5 / 3)); lra.
Qed.

Lemma b_one_finite : b_finite b_one = true.
Proof. reflexivity. Qed.

(** [1 + c]. *)
Lemma one_plus (c : f64) y : b_finite c = true -> 0 <= b_real c <= bpow radix2 302 ->
  near (b_real c) y (7 / 5 * m) (6 * tiny) ->
  b_finite (b_add b_one c) = true /\ 0 <= b_real (b_add b_one c) <= bpow radix2 303 /\
  near (b_real (b_add b_one c)) (1 + y) (8 / 5 * m) (8 * tiny).
Proof.
  intros Fc Pc [Py D]. destruct uro_fine as [U0 U1].
  assert (B : 0 <= b_real b_one + b_real c <= bpow radix2 303).
  { rewrite b_one_real. change 303%Z with (1 + 302)%Z. rewrite bpow_plus. change (bpow radix2 1) with 2.
    assert (1 <= bpow radix2 302) by (apply (bpow_le radix2 0); lia). lra. }
  destruct (b_add_rnd b_one c (bpow radix2 303)) as [F Bs]; auto; [|apply bpow_lt; lia|].
  { apply rnd64_abs; [apply fmt_bpow; lia|]. rewrite Rabs_pos_eq; lra. }
  destruct (b_add_finite_inv _ _ F) as (_ & _ & E).
  assert (P0 : 0 <= b_real (b_add b_one c)) by (rewrite E; apply rnd64_pos; lra). rewrite Rabs_pos_eq in Bs by auto.
  splits; auto. rewrite E, b_one_real.
  assert (N : near (1 + b_real c) (1 + y) (7 / 5 * m) (6 * tiny)).
  { split; [lra|]. replace (1 + b_real c - (1 + y)) with (b_real c - y) by ring. lra. }
  eapply near_weak; [apply (step_rnd _ _ _ _ N); lra|right; field|right; ring].
Qed.

Lemma absorb a b al be : near a b (al * m) (be * tiny) -> 1 <= b -> 0 <= be <= 100 -> near a b ((al + / 10) * m) 0.
Proof.
  intros [Pb D] Lb Le. split; auto. destruct uro_fine as [U0 U1]. destruct tiny_fine as [T0 T1].
  assert (be * tiny <= 100 * tiny) by (apply Rmult_le_compat_r; lra).
  assert (/ 10 * m * 1 <= / 10 * m * b) by (apply Rmult_le_compat_l; lra). lra.
Qed.

Lemma matern32_near : b_real v <= bpow radix2 400 ->
  let c := b_mul (b_sqrt (@flit f64 SP 3 1)) r in
  let k := b_mul (b_mul v (b_add b_one c)) (p_exp P (Bopp c)) in
  b_finite k = true /\
  Rabs (b_real k - b_real v * ((1 + sqrt 3 * x) * exp (- (sqrt 3 * x)))) <=
    b_real v * (2 * eps + 18 * m) + bpow radix2 (-1073).
Proof.
  intros Bv c k. destruct uro_fine as [U0 U1]. destruct sqrt3_near as (Fs & Ps & Ls & Ds).
  destruct (constant_times _ _ Fs Ps Ls Ds) as (Fc & Pc & Nc). fold c in Fc, Pc, Nc.
  destruct (one_plus c _ Fc Pc Nc) as (Fg & Pg & Ng).
  set (y := sqrt 3 * x) in *. assert (Py : 0 <= y) by apply Nc.
  assert (E0 := exp_pos (- (3 / 4 * y))). assert (E1 : exp (- (3 / 4 * y)) <= 1) by (apply exp_le_1; lra).
  assert (Y1 := y1_exp y Py). assert (Y2 := y2_exp y Py).
  assert (N : near (b_real (b_add b_one c)) (1 + y) (3 * m) 0).
  { eapply near_weak; [apply (absorb _ _ _ _ Ng); lra|lra|lra]. }
  assert (L : bpow radix2 303 <= bpow radix2 610) by (apply bpow_le; lia).
  destruct (matern_near c (b_add b_one c) y (1 + y) (5 / 3) (22 / 9) Bv Fc (proj1 Pc) Nc Fg ltac:(lra) N) as [F D]; try lra.
  fold k in F, D. split; auto. eapply Rle_trans; [exact D|]. apply Rplus_le_compat_r, Rmult_le_compat_l; auto. lra.
Qed.

Lemma matern52_near : b_real v <= bpow radix2 400 ->
  let c := b_mul (b_sqrt (@flit f64 SP 3 1)) r in
  let q := b_mul (b_mul (b_div (@flit f64 SP 5 1) (@flit f64 SP 3 1)) r) r in
  let k := b_mul (b_mul v (b_add (b_add b_one c) q)) (p_exp P (Bopp c)) in
  b_finite k = true /\
  Rabs (b_real k - b_real v * ((1 + sqrt 3 * x + 5 * x ^ 2 / 3) * exp (- (sqrt 3 * x)))) <=
    b_real v * (4 * eps + 32 * m) + bpow radix2 (-1073).
Proof.
  intros Bv c q k. destruct uro_fine as [U0 U1]. destruct tiny_fine as [T0 T1]. destruct sqrt3_near as (Fs & Ps & Ls & Ds).
  destruct (constant_times _ _ Fs Ps Ls Ds) as (Fc & Pc & Nc). fold c in Fc, Pc, Nc.
  destruct (one_plus c _ Fc Pc Nc) as (Fg & Pg & Ng).
  destruct five_thirds_near as (Ff & Pf & Df).
  destruct (constant_times _ (5 / 3) Ff Pf ltac:(lra) Df) as (Fy & Pyy & Ny).
  set (f := b_mul (b_div (@flit f64 SP 5 1) (@flit f64 SP 3 1)) r) in *.
  assert (Px := x_pos).
  (* the quadratic term *)
  assert (Bq : 0 <= b_real f * b_real r <= bpow radix2 602).
  { split; [apply Rmult_le_pos; lra|]. change 602%Z with (302 + 300)%Z. rewrite bpow_plus. apply Rmult_le_compat; lra. }
  destruct (b_mul_within f r (bpow radix2 602)) as [Fq Bq']; auto; [apply fmt_bpow; lia|apply bpow_lt; lia|rewrite Rabs_pos_eq; lra|].
  destruct (b_mul_finite_inv _ _ Fq) as (_ & _ & Eq). fold q in Fq, Bq', Eq.
  assert (Pq : 0 <= b_real q) by (rewrite Eq; apply rnd64_pos; lra). rewrite Rabs_pos_eq in Bq' by auto.
  assert (Nq : near (b_real q) (5 * x ^ 2 / 3) (27 / 10 * m) (8 * tiny)).
  { assert (N1 : near (b_real f * b_real r) (5 * x ^ 2 / 3) (5 / 2 * m) (6 * tiny)).
    { destruct Ny as [_ Dy]. destruct Nr as [_ Dr]. assert (xx : 0 <= x * x) by apply Rle_0_sqr.
      split; [simpl; lra|].
      set (Y := 5 / 3 * x) in *. assert (PY : 0 <= Y) by (unfold Y; lra).
      replace (b_real f * b_real r - 5 * x ^ 2 / 3) with ((b_real f - Y) * (b_real r - x) + Y * (b_real r - x) + (b_real f - Y) * x)
        by (unfold Y; field).
      eapply Rle_trans; [apply Rabs_triang|]. eapply Rle_trans; [apply Rplus_le_compat_r, Rabs_triang|].
      rewrite !Rabs_mult, (Rabs_pos_eq Y), (Rabs_pos_eq x) by auto.
      assert (A1 : Rabs (b_real f - Y) * Rabs (b_real r - x) <= (7 / 5 * m * Y + 6 * tiny) * (m * x + tiny))
        by (apply Rmult_le_compat; auto using Rabs_pos).
      assert (A2 : Y * Rabs (b_real r - x) <= Y * (m * x + tiny)) by (apply Rmult_le_compat_l; auto).
      assert (A3 : Rabs (b_real f - Y) * x <= (7 / 5 * m * Y + 6 * tiny) * x) by (apply Rmult_le_compat_r; auto).
      unfold Y in A1, A2, A3 |- *.
      assert (mxx : 0 <= m * (x * x)) by (apply Rmult_le_pos; lra).
      assert (mm : m * (m * (x * x)) <= / 1000 * (m * (x * x))) by (apply Rmult_le_compat_r; lra).
      assert (tx : tiny * (2 * x) <= tiny * (x * x + 1)).
      { apply Rmult_le_compat_l; [lra|]. assert (0 <= (x - 1) * (x - 1)) by apply Rle_0_sqr. lra. }
      assert (tx0 : 0 <= tiny * x) by (apply Rmult_le_pos; lra).
      assert (mtx : m * (tiny * x) <= / 1000 * (tiny * x)) by (apply Rmult_le_compat_r; lra).
      assert (tt : tiny * tiny <= / 1000 * tiny) by (apply Rmult_le_compat_r; lra).
      assert (txx : tiny * (x * x) <= / 1000 * m * (x * x)) by (apply Rmult_le_compat_r; lra).
      simpl (x ^ 2). lra. }
    rewrite Eq. eapply near_weak; [apply (step_rnd _ _ _ _ N1); lra|right; field|right; ring]. }
  (* the sum *)
  set (g1 := b_add b_one c) in *. set (y := sqrt 3 * x) in *. assert (Py : 0 <= y) by apply Nc.
  assert (Bs : 0 <= b_real g1 + b_real q <= bpow radix2 603).
  { split; [lra|]. change 603%Z with (1 + 602)%Z. rewrite bpow_plus. change (bpow radix2 1) with 2.
    assert (bpow radix2 303 <= bpow radix2 602) by (apply bpow_le; lia). lra. }
  destruct (b_add_rnd g1 q (bpow radix2 603)) as [Fs2 Bs']; auto; [|apply bpow_lt; lia|].
  { apply rnd64_abs; [apply fmt_bpow; lia|]. rewrite Rabs_pos_eq; lra. }
  destruct (b_add_finite_inv _ _ Fs2) as (_ & _ & Es).
  set (g := b_add g1 q) in *.
  assert (P0 : 0 <= b_real g) by (rewrite Es; apply rnd64_pos; lra). rewrite Rabs_pos_eq in Bs' by auto.
  set (z := 1 + y + 5 * x ^ 2 / 3) in *. assert (x2 : 0 <= 5 * x ^ 2 / 3) by apply Nq.
  assert (N : near (b_real g) z (3 * m) 0).
  { assert (N1 : near (b_real g1 + b_real q) z (27 / 10 * m) (16 * tiny)).
    { destruct Ng as [_ D1]. destruct Nq as [_ D2]. split; [unfold z; lra|].
      replace (b_real g1 + b_real q - z) with ((b_real g1 - (1 + y)) + (b_real q - 5 * x ^ 2 / 3)) by (unfold z; ring).
      eapply Rle_trans; [apply Rabs_triang|]. assert (8 / 5 * m * (1 + y) <= 27 / 10 * m * (1 + y)) by (apply Rmult_le_compat_r; lra).
      unfold z. lra. }
    assert (N2 := step_rnd _ _ _ _ N1 ltac:(lra) ltac:(lra)). rewrite <- Es in N2.
    eapply near_weak; [apply (absorb _ _ _ _ N2); unfold z; lra|lra|lra]. }
  assert (L : bpow radix2 603 <= bpow radix2 610) by (apply bpow_le; lia).
  assert (E0 := exp_pos (- (3 / 4 * y))). assert (E1 : exp (- (3 / 4 * y)) <= 1) by (apply exp_le_1; lra).
  assert (Y1 := y1_exp y Py). assert (Y2 := y2_exp y Py). assert (Y3 := y3_exp y Py).
  assert (Zy : z = 1 + y + 5 / 9 * (y * y)).
  { unfold z, y. replace (sqrt 3 * x * (sqrt 3 * x)) with (sqrt 3 * sqrt 3 * (x * x)) by ring. rewrite sqrt_sqrt by lra. field. }
  destruct (matern_near c g y z (8 / 3) 7 Bv Fc (proj1 Pc) Nc Fs2 ltac:(lra) N) as [F D]; try (rewrite ?Zy; lra).
  fold k in F, D. split; auto. eapply Rle_trans; [exact D|]. apply Rplus_le_compat_r, Rmult_le_compat_l; auto. lra.
Qed.
End P.
