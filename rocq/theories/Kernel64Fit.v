(** The error of every kernel in binary64, and a platform meeting the assumptions. *)
From Coq Require Import List Arith ZArith Lia Reals Lra Bool.
From Flocq Require Import Core BinarySingleNaN.
From Verif Require Import Base Scalar ScalarR ScalarF64 F64Facts HMap NdArray Features Spec FeatureFacts
  Kernels Basis BasisReal NormF64 NonnegF64 BoundF64 TableF64 NormL2F64 Near64 Basis64 Kernel64 Kernel64Err.
Import ListNotations.
Local Open Scope R_scope.

(** The kernel family with a real [power]. *)
Definition real_kind (kind : kernel_kind f64) : kernel_kind R :=
  match kind with
  | KExponential => KExponential
  | KMatern32 => KMatern32
  | KMatern52 => KMatern52
  | KExpQuad => KExpQuad
  | KCosine => KCosine
  | KRationalQuadratic power => KRationalQuadratic (b_real power)
  end.

(** Bounds that keep the Matern polynomials and the power away from overflow. *)
Definition moderate (k : kernel f64) : Prop :=
  b_finite (k_variance k) = true /\ 0 <= b_real (k_variance k) /\
  match k_kind k with
  | KMatern32 | KMatern52 => b_real (k_variance k) <= bpow radix2 400
  | KRationalQuadratic power => b_finite power = true /\ 0 <= b_real power <= bpow radix2 64
  | _ => True
  end.

(** The error allowed, relative to the variance: [eps] for the elementary
    functions, [m] for the distance, which is [x]. *)
Definition allowance (kind : kernel_kind f64) (eps m x : R) : R :=
  match kind with
  | KExponential => eps + 2 * m
  | KMatern32 => 2 * eps + 18 * m
  | KMatern52 => 4 * eps + 32 * m
  | KExpQuad => eps + 3 * m
  | KCosine => eps + m * (1 + x)
  | KRationalQuadratic _ => 3 * eps + 4 * m
  end.

Section P.
Context (P : Platform).
Notation SP := (ScalarF64 P).

Definition accurate (eps : R) : Prop :=
  0 <= eps <= / 16 /\ exp_accurate P eps /\ ln_accurate P eps /\ cos_accurate P eps.

Lemma stationary_error (k : kernel f64) eps (r : f64) x m : accurate eps -> moderate k ->
  b_finite r = true -> 0 <= b_real r <= bpow radix2 300 -> near (b_real r) x m tiny -> 10 * uro <= m <= / 1000 ->
  let v := @kernel_stationary f64 SP k r in
  b_finite v = true /\
  Rabs (b_real v - b_real (k_variance k) * shape (real_kind (k_kind k)) x) <=
    b_real (k_variance k) * allowance (k_kind k) eps m x + bpow radix2 (-1073).
Proof.
  intros (Le & Ae & Al & Ac) (Fv & Pv & Mk) Fr [Pr Br] N Lm v. subst v. unfold kernel_stationary, shape, real_kind, allowance.
  cbn [fadd fmul fdiv fneg fexp fcos fln1p fsqrt ScalarF64]. destruct (k_kind k) as [| | | | |power]; cbv zeta.
  - apply (exponential_near P r x m); auto; lra.
  - rewrite (b_mul_opp_l (b_sqrt _)), fone_f64. apply (matern32_near P r x m); auto; lra.
  - rewrite (b_mul_opp_l (b_sqrt _)), fone_f64. apply (matern52_near P r x m); auto; lra.
  - rewrite !b_mul_opp_l. apply (expquad_near P r x m); auto; lra.
  - apply (cosine_near P r x m); auto; lra.
  - rewrite b_mul_opp_l. destruct Mk as [Fp Bp].
    destruct (rq_near P r x m Fr Pr Br N Lm eps ltac:(lra) Ae (k_variance k) Fv Pv eps power Le Al Fp Bp) as [F D].
    split; auto. eapply Rle_trans; [exact D|]. lra.
Qed.

Theorem kernel64_error (k : kernel f64) eps x y : accurate eps -> moderate k ->
  Forall (fun v : f64 => b_finite v = true) x -> Forall (fun v : f64 => b_finite v = true) y ->
  Forall scale_ok (k_lengthscales k) -> INR (length (k_lengthscales k)) <= bpow radix2 40 ->
  b_finite (@kernel_distance f64 SP k x y) = true -> b_real (@kernel_distance f64 SP k x y) <= bpow radix2 300 ->
  let v := @kernel_slice f64 SP k x y in
  let d := sqrt (sq_dist (reals1 (k_lengthscales k)) (reals1 x) (reals1 y)) in
  b_finite v = true /\
  Rabs (b_real v - b_real (k_variance k) * shape (real_kind (k_kind k)) d) <=
    b_real (k_variance k) * allowance (k_kind k) eps (slack (length (k_lengthscales k))) d + bpow radix2 (-1073).
Proof.
  intros A M Fx Fy L Ln Fd Bd v d. subst v. unfold kernel_slice. apply stationary_error; auto.
  - split; auto. destruct (distance_pos P k x y Fx Fy L) as [E|[_ E]]; [rewrite E in Fd; discriminate|exact E].
  - apply distance_near; auto.
  - apply slack_small. auto.
Qed.

(** The scalar kernel. *)
Lemma scalar_distance (x y l : f64) : b_finite l = true -> 0 < b_real l ->
  let r := b_div (Babs (b_sub x y)) l in b_finite r = true ->
  0 <= b_real r /\ near (b_real r) (Rabs (b_real x - b_real y) / b_real l) (slack 0) tiny.
Proof.
  intros Fl Pl r F. assert (Nl : b_real l <> 0) by lra.
  destruct (b_div_finite_inv _ _ F Nl) as [Fs E]. fold r in E.
  assert (Fs' : b_finite (b_sub x y) = true) by (rewrite <- Fs; symmetry; apply is_finite_Babs).
  assert (Rs : b_real (Babs (b_sub x y)) = Rabs (b_real (b_sub x y))) by apply B2R_Babs.
  assert (Il : 0 < / b_real l) by (apply Rinv_0_lt_compat; auto).
  assert (P0 : 0 <= b_real r).
  { rewrite E. apply rnd64_pos. rewrite Rs. apply Rmult_le_pos; [apply Rabs_pos|lra]. }
  split; auto.
  destruct (b_sub_err _ _ Fs') as (d' & Dd' & Es). destruct uro_fine as [U0 U1]. destruct tiny_fine as [T0 T1].
  set (t := b_real x - b_real y) in *. assert (Pt := Rabs_pos t).
  assert (N1 : near (Rabs (b_real (b_sub x y)) / b_real l) (Rabs t / b_real l) (1 * slack 0) 0).
  { assert (Q : 0 <= Rabs t / b_real l) by (apply Rmult_le_pos; lra). split; auto.
    replace (Rabs (b_real (b_sub x y)) / b_real l - Rabs t / b_real l) with
      ((Rabs (b_real (b_sub x y)) - Rabs t) * / b_real l) by (unfold Rdiv; ring).
    rewrite Rabs_mult, (Rabs_pos_eq (/ b_real l)) by lra.
    apply Rle_trans with (uro * Rabs t * / b_real l).
    - apply Rmult_le_compat_r; [lra|]. eapply Rle_trans; [apply Rabs_triang_inv2|]. rewrite Es.
      replace (t * (1 + d') - t) with (d' * t) by ring. rewrite Rabs_mult. apply Rmult_le_compat_r; auto.
    - replace (uro * Rabs t * / b_real l) with (uro * (Rabs t / b_real l)) by (unfold Rdiv; ring).
      rewrite Rmult_1_l, Rplus_0_r. apply Rmult_le_compat_r; auto. unfold slack. change (INR (3 * 0 + 10)) with (INR 10).
      rewrite INR_IZR_INZ. change (Z.of_nat 10) with 10%Z. lra. }
  rewrite E, Rs.
  assert (N0 : near (Rabs (b_real (b_sub x y)) / b_real l) (Rabs t / b_real l) uro 0).
  { destruct N1 as [Q _]. split; auto.
    replace (Rabs (b_real (b_sub x y)) / b_real l - Rabs t / b_real l) with
      ((Rabs (b_real (b_sub x y)) - Rabs t) * / b_real l) by (unfold Rdiv; ring).
    rewrite Rabs_mult, (Rabs_pos_eq (/ b_real l)) by lra.
    replace (uro * (Rabs t / b_real l) + 0) with (uro * Rabs t * / b_real l) by (unfold Rdiv; ring).
    apply Rmult_le_compat_r; [lra|]. eapply Rle_trans; [apply Rabs_triang_inv2|]. rewrite Es.
    replace (t * (1 + d') - t) with (d' * t) by ring. rewrite Rabs_mult. apply Rmult_le_compat_r; auto. }
  eapply near_weak; [apply (near_rnd _ _ _ _ _ uro eta64 N0 ltac:(lra) (rnd64_off _))| |].
  - unfold slack. change (INR (3 * 0 + 10)) with (INR 10). rewrite INR_IZR_INZ. change (Z.of_nat 10) with 10%Z.
    assert (uro * uro <= uro * / 1000000) by (apply Rmult_le_compat_l; lra). lra.
  - pose proof eta_le_tiny. lra.
Qed.

Theorem kernel64_scalar_error (k : kernel f64) eps l ls x y : accurate eps -> moderate k ->
  k_lengthscales k = l :: ls -> b_finite l = true -> 0 < b_real l ->
  let r := b_div (Babs (b_sub x y)) l in
  b_finite r = true -> b_real r <= bpow radix2 300 ->
  let d := Rabs (b_real x - b_real y) / b_real l in
  exists v, @kernel_scalar f64 SP k x y = Ret v /\ b_finite v = true /\
  Rabs (b_real v - b_real (k_variance k) * shape (real_kind (k_kind k)) d) <=
    b_real (k_variance k) * allowance (k_kind k) eps (slack 0) d + bpow radix2 (-1073).
Proof.
  intros A M El Fl Pl r Fr Br d. exists (@kernel_stationary f64 SP k r). unfold kernel_scalar. rewrite El.
  split; [reflexivity|]. destruct (scalar_distance x y l Fl Pl Fr) as [P0 N].
  apply stationary_error; auto. apply slack_small. apply (bpow_ge_0 radix2 40).
Qed.
End P.

(** ** A platform meeting the assumptions *)

(** The correctly rounded functions of [RoundedPlatform], with the IEEE results
    at infinities, NaN and zeros ([ln_1p] below -1 does not occur). *)
Definition IeeePlatform : Platform := {|
  p_cos z := match z with B754_infinity _ | B754_nan => b_nan | _ => nearest (cos (b_real z)) end;
  p_exp z := match z with
             | B754_infinity true => b_zero | B754_infinity false => b_inf
             | B754_nan => b_nan | _ => nearest (exp (b_real z))
             end;
  p_ln1p z := match z with
              | B754_infinity false => b_inf | B754_infinity true | B754_nan => b_nan
              | B754_zero s => B754_zero s | _ => nearest (ln (1 + b_real z))
              end;
  p_powi := b_powi;
  p_sum l := fold_left b_add l b_zero;
  p_dot a b := fold_left b_add (map2 b_mul a b) b_zero
|}.

Lemma nearest_unit y : 0 <= y <= 1 -> b_finite (nearest y) = true /\ 0 <= b_real (nearest y) <= 1 /\
  b_real (nearest y) = rnd64 y.
Proof.
  intros B. assert (L : Rabs (rnd64 y) <= 1).
  { apply rnd64_abs; [apply (fmt_Z 1); lia|]. rewrite Rabs_pos_eq; lra. }
  destruct (nearest_spec y) as [F E].
  { eapply Rle_lt_trans; [exact L|]. apply (bpow_lt radix2 0). lia. }
  rewrite E. splits; auto; [apply rnd64_pos; lra|]. apply Rabs_le_inv in L. lra.
Qed.

Lemma nearest_one : nearest 1 = b_one.
Proof.
  destruct (nearest_unit 1) as (F & _ & E); [lra|]. apply B2R_inj; auto.
  - destruct (nearest 1); auto; try discriminate F.
    assert (Q : rnd64 1 = 1) by (apply round_generic; [apply valid_rnd_N|apply (fmt_Z 1); lia]). simpl in E. lra.
  - change (B2R b_one) with (b_real b_one). rewrite b_one_real. change (B2R (nearest 1)) with (b_real (nearest 1)). rewrite E.
    apply round_generic; [apply valid_rnd_N|apply (fmt_Z 1); lia].
Qed.

Lemma ieee_exp z : b_finite z = true -> p_exp IeeePlatform z = nearest (exp (b_real z)).
Proof. destruct z; auto; discriminate. Qed.
Lemma ieee_cos z : b_finite z = true -> p_cos IeeePlatform z = nearest (cos (b_real z)).
Proof. destruct z; auto; discriminate. Qed.

Lemma ieee_unit : unit_at_zero IeeePlatform.
Proof.
  split; [|split].
  - intros s. rewrite ieee_exp by reflexivity. change (b_real (B754_zero s)) with 0. rewrite exp_0. apply nearest_one.
  - intros s. rewrite ieee_cos by reflexivity. change (b_real (B754_zero s)) with 0. rewrite cos_0. apply nearest_one.
  - intros s. exists s. reflexivity.
Qed.

Lemma ieee_infinity : at_infinity IeeePlatform.
Proof. split; reflexivity. Qed.

Lemma nonpos_cases z : nonneg (Bopp z) -> z = b_neginf \/ b_finite z = true /\ b_real z <= 0.
Proof.
  intros [E|[F B]].
  - left. destruct z as [| [] | |]; try discriminate; reflexivity.
  - right. rewrite opp_finite in F. rewrite opp_real in B. split; auto. lra.
Qed.

Lemma ieee_exp_range : exp_range IeeePlatform.
Proof.
  intros z N. destruct (nonpos_cases z N) as [->|[F B]].
  - simpl. split; auto. lra.
  - rewrite ieee_exp by auto. destruct (nearest_unit (exp (b_real z))) as (Fn & Bn & _); auto.
    split; [left; apply exp_pos|]. rewrite <- (Ropp_involutive (b_real z)). apply exp_le_1. lra.
Qed.

Lemma ieee_ln z : b_finite z = true -> 0 <= b_real z ->
  b_finite (p_ln1p IeeePlatform z) = true /\ b_real (p_ln1p IeeePlatform z) = rnd64 (ln (1 + b_real z)).
Proof.
  intros F B. destruct (ln_upper (b_real z) B) as [L0 L1].
  assert (S : Rabs (rnd64 (ln (1 + b_real z))) < bpow radix2 1024).
  { eapply Rle_lt_trans; [apply (rnd64_abs _ (b_real z))|]; [apply b_real_format|rewrite Rabs_pos_eq; auto|].
    pose proof (b_real_small z) as Q. rewrite Rabs_pos_eq in Q; auto. }
  destruct z as [s| | |s m e Bz]; try discriminate.
  - simpl. split; auto. rewrite Rplus_0_r, ln_1. symmetry. apply round_0, valid_rnd_N.
  - apply (nearest_spec _ S).
Qed.

Lemma ieee_ln_range : ln_range IeeePlatform.
Proof.
  intros z [->|[F B]]; [left; reflexivity|]. destruct (ieee_ln z F B) as [Fl E]. right. split; auto. rewrite E.
  apply rnd64_pos. apply ln_upper. auto.
Qed.

Lemma ln_lower y : 0 <= y -> y / (1 + y) <= ln (1 + y).
Proof.
  intros Py. assert (H := exp_ineq1_le (- ln (1 + y))). rewrite exp_Ropp, exp_ln in H by lra.
  replace (y / (1 + y)) with (1 - / (1 + y)) by (field; lra). lra.
Qed.

Lemma ieee_accurate : accurate IeeePlatform (2 * uro).
Proof.
  destruct uro_fine as [U0 U1]. split; [lra|split; [|split]].
  - intros z F B. rewrite ieee_exp by auto.
    assert (Be : 0 <= exp (b_real z) <= 1).
    { split; [left; apply exp_pos|]. rewrite <- (Ropp_involutive (b_real z)). apply exp_le_1. lra. }
    destruct (nearest_unit _ Be) as (Fn & Bn & E). splits; try lra; auto. rewrite E.
    eapply Rle_trans; [apply rnd64_off|]. rewrite Rabs_pos_eq by lra.
    assert (uro * exp (b_real z) <= 2 * uro * exp (b_real z)) by (apply Rmult_le_compat_r; lra).
    assert (eta64 <= bpow radix2 (-1074)) by (apply bpow_le; lia). lra.
  - intros z F B. destruct (ieee_ln z F B) as [Fl E]. split; auto. rewrite E.
    destruct (ln_upper (b_real z) B) as [L0 L1]. assert (L2 := ln_lower (b_real z) B).
    set (w := b_real z) in *. destruct (Rle_lt_dec (bpow radix2 (-600)) w) as [G|G].
    + assert (H0 := bpow_gt_0 radix2 (-600)).
      assert (L3 : bpow radix2 (-601) <= ln (1 + w)).
      { apply Rle_trans with (ln (1 + bpow radix2 (-600))).
        - apply Rle_trans with (bpow radix2 (-600) / (1 + bpow radix2 (-600))); [|apply ln_lower; lra].
          change (-601)%Z with (-600 + -1)%Z. rewrite bpow_plus. change (bpow radix2 (-1)) with (/ 2).
          apply Rmult_le_compat_l; [lra|]. apply Rinv_le_contravar; [lra|].
          assert (bpow radix2 (-600) <= bpow radix2 0) by (apply bpow_le; lia). change (bpow radix2 0) with 1 in *. lra.
        - destruct G as [G|<-]; [left; apply ln_increasing; lra|lra]. }
      eapply Rle_trans; [apply rnd64_off|]. rewrite Rabs_pos_eq by lra.
      assert (eta64 <= uro * ln (1 + w)); [|lra].
      apply Rle_trans with (uro * bpow radix2 (-601)); [|apply Rmult_le_compat_l; lra].
      unfold uro, eta64. rewrite <- bpow_plus. apply bpow_le. lia.
    + assert (Q : Rabs (rnd64 (ln (1 + w)) - ln (1 + w)) <= Rabs (w - ln (1 + w))).
      { apply round_N_pt; [apply fexp_correct, f64_prec|apply b_real_format]. }
      eapply Rle_trans; [exact Q|]. rewrite Rabs_pos_eq by lra.
      assert (W1 : w <= / 1000000 * uro).
      { left. eapply Rlt_le_trans; [exact G|]. apply Rle_trans with (bpow radix2 (-20 + -53)); [apply bpow_le; lia|].
        rewrite bpow_plus. apply Rmult_le_compat_r; [lra|]. change (bpow radix2 (-20)) with (/ 1048576). apply Rinv_le_contravar; lra. }
      assert (L3 : w * (1 - w) <= w / (1 + w)).
      { apply Rmult_le_compat_l; auto. apply Rmult_le_reg_r with (1 + w); [lra|]. rewrite Rinv_l by lra.
        assert (0 <= w * w) by apply Rle_0_sqr. lra. }
      assert (W2 : w * w <= w * (/ 1000000 * uro)) by (apply Rmult_le_compat_l; auto).
      assert (L4 : w / 2 <= ln (1 + w)).
      { assert (w * w <= w * / 2) by (apply Rmult_le_compat_l; lra). lra. }
      assert (uro * (w / 2) <= uro * ln (1 + w)) by (apply Rmult_le_compat_l; lra).
      assert (0 <= w * uro) by (apply Rmult_le_pos; lra). lra.
  - intros z F _. rewrite ieee_cos by auto. assert (C : Rabs (cos (b_real z)) <= 1) by (apply Rabs_le, COS_bound).
    assert (L : Rabs (rnd64 (cos (b_real z))) <= 1) by (apply rnd64_abs; auto; apply (fmt_Z 1); lia).
    destruct (nearest_spec (cos (b_real z))) as [Fn ->].
    { eapply Rle_lt_trans; [exact L|]. apply (bpow_lt radix2 0). lia. }
    splits; auto. eapply Rle_trans; [apply rnd64_off|]. pose proof eta_uro.
    assert (uro * Rabs (cos (b_real z)) <= uro * 1) by (apply Rmult_le_compat_l; lra). lra.
Qed.
