(** C88: the covariance kernels in binary64. *)
From Coq Require Import Reals ZArith List Lia Lra Bool.
From Flocq Require Import Core BinarySingleNaN.
From Verif Require Import Base Scalar ScalarR ScalarF64 F64Facts HMap NdArray Features Spec FeatureFacts
  Kernels Coeffs Basis BasisReal BoundF64 TableF64 NormF64 NonnegF64 Near64 Basis64 Kernel64 Kernel64Err Kernel64Fit.
Import ListNotations.
Open Scope R_scope.

(** Symmetric bit for bit, on every input: NaN, infinities and overflowing
    differences included. *)
Theorem C88_symmetric P (k : kernel f64) : let S := ScalarF64 P in
  (forall x y, @kernel_slice f64 S k x y = @kernel_slice f64 S k y x) /\
  (forall x y, @kernel_scalar f64 S k x y = @kernel_scalar f64 S k y x).
Proof. exact (kernel64_symmetric P k). Qed.
Print Assumptions C88_symmetric.

(** At its own centre a kernel is its variance, exactly. *)
Theorem C88_self P (k : kernel f64) : let S := ScalarF64 P in
  (forall s, p_exp P (B754_zero s) = b_one) -> (forall s, p_cos P (B754_zero s) = b_one) ->
  (forall s, exists t, p_ln1p P (B754_zero s) = B754_zero t) ->
  Forall (fun l : f64 => b_finite l = true /\ b_real l <> 0) (k_lengthscales k) ->
  (forall power, k_kind k = KRationalQuadratic power -> b_finite power = true) ->
  (forall x, Forall (fun v : f64 => b_finite v = true) x -> @kernel_slice f64 S k x x = k_variance k) /\
  (forall l ls x, k_lengthscales k = l :: ls -> b_finite x = true -> @kernel_scalar f64 S k x x = Ret (k_variance k)).
Proof. intros S A B C. exact (kernel64_self P k (conj A (conj B C))). Qed.
Print Assumptions C88_self.

(** Exponential, ExpQuad and RationalQuadratic of a positive power: finite and
    between zero and the variance at any two finite points, near or far. *)
Theorem C88_range P (k : kernel f64) : let S := ScalarF64 P in
  (forall z, z = b_neginf \/ b_finite z = true /\ b_real z <= 0 -> b_finite (p_exp P z) = true /\ 0 <= b_real (p_exp P z) <= 1) ->
  (forall z, z = b_inf \/ b_finite z = true /\ 0 <= b_real z ->
     p_ln1p P z = b_inf \/ b_finite (p_ln1p P z) = true /\ 0 <= b_real (p_ln1p P z)) ->
  match k_kind k with
  | KExponential | KExpQuad => True
  | KRationalQuadratic power => b_finite power = true /\ 0 < b_real power
  | _ => False
  end ->
  b_finite (k_variance k) = true -> 0 <= b_real (k_variance k) ->
  (forall x y, Forall (fun v : f64 => b_finite v = true) x -> Forall (fun v : f64 => b_finite v = true) y ->
     Forall (fun l : f64 => b_finite l = true /\ b_real l <> 0) (k_lengthscales k) ->
     let v := @kernel_slice f64 S k x y in b_finite v = true /\ 0 <= b_real v <= b_real (k_variance k)) /\
  (forall l ls x y, k_lengthscales k = l :: ls -> b_finite l = true -> 0 < b_real l ->
     b_finite x = true -> b_finite y = true ->
     exists v, @kernel_scalar f64 S k x y = Ret v /\ b_finite v = true /\ 0 <= b_real v <= b_real (k_variance k)).
Proof.
  intros S E L D. apply (kernel64_range P k).
  - intros z N. apply E, nonpos_cases, N.
  - exact L.
  - destruct (k_kind k); exact D.
Qed.
Print Assumptions C88_range.

(** Two points some coordinate of which is 2^513 lengthscales apart: their
    scaled distance is infinite. Exponential, ExpQuad and RationalQuadratic
    are then zero, and both Matern kernels, infinity times zero, are NaN. *)
Theorem C88_far P (k : kernel f64) x y : let S := ScalarF64 P in
  p_exp P b_neginf = b_zero -> p_ln1p P b_inf = b_inf ->
  Forall (fun v : f64 => b_finite v = true) x -> Forall (fun v : f64 => b_finite v = true) y ->
  Forall (fun l : f64 => b_finite l = true /\ b_real l <> 0) (k_lengthscales k) ->
  (exists i a b l, nth_error x i = Some a /\ nth_error y i = Some b /\ nth_error (k_lengthscales k) i = Some l /\
     bpow radix2 513 * Rabs (b_real l) <= Rabs (b_real a - b_real b)) ->
  b_finite (k_variance k) = true ->
  let v := @kernel_slice f64 S k x y in
  match k_kind k with
  | KExponential | KExpQuad => b_finite v = true /\ b_real v = 0
  | KMatern32 | KMatern52 => v = b_nan
  | KCosine => v = b_mul (k_variance k) (p_cos P b_inf)
  | KRationalQuadratic power => b_finite power = true ->
      (0 < b_real power -> b_finite v = true /\ b_real v = 0) /\
      (b_real power = 0 -> p_exp P b_nan = b_nan -> v = b_nan)
  end.
Proof. intros S A B. exact (kernel64_far P k x y (conj A B)). Qed.
Print Assumptions C88_far.

(** Finite points, a finite variance and a usable lengthscale do not make a
    Matern kernel finite. *)
Theorem C88_matern_refuted : exists x y : list f64,
  Forall (fun v : f64 => b_finite v = true) x /\ Forall (fun v : f64 => b_finite v = true) y /\
  forall P kind, p_exp P b_neginf = b_zero -> p_ln1p P b_inf = b_inf -> kind = KMatern32 \/ kind = KMatern52 ->
    @kernel_slice f64 (ScalarF64 P) (MkKernel kind b_one [b_one]) x y = b_nan.
Proof.
  destruct (b_pow2 513) as [F V]; [lia|].
  exists [b_dyadic 1 513], [b_zero]. splits; auto.
  intros P kind A B D. set (k := MkKernel kind b_one [b_one]).
  pose proof (C88_far P k [b_dyadic 1 513] [b_zero] A B) as H. cbv zeta in H.
  assert (Q : @kernel_slice f64 (ScalarF64 P) k [b_dyadic 1 513] [b_zero] = b_nan); [|exact Q].
  assert (O : b_finite b_one = true /\ b_real b_one <> 0) by (rewrite b_one_real; split; [reflexivity|lra]).
  assert (W : exists i a b l, nth_error [b_dyadic 1 513] i = Some a /\ nth_error [b_zero] i = Some b /\ nth_error [b_one] i = Some l /\
    bpow radix2 513 * Rabs (b_real l) <= Rabs (b_real a - b_real b)).
  { exists 0%nat, (b_dyadic 1 513), b_zero, b_one; splits; auto; rewrite V, b_one_real, Rabs_R1;
    change (b_real b_zero) with 0; rewrite Rminus_0_r, Rmult_1_r; apply Rle_abs. }
  assert (H' := H ltac:(repeat constructor; auto) ltac:(repeat constructor; auto) ltac:(repeat constructor; apply O) W eq_refl).
  destruct D as [-> | ->]; exact H'.
Qed.
Print Assumptions C88_matern_refuted.

(** The computed distance, when finite: relative error 3n + 10 units of 2^-53
    over n lengthscales, and 2^-500 for underflow. *)
Theorem C88_distance P (k : kernel f64) x y : let S := ScalarF64 P in
  Forall (fun v : f64 => b_finite v = true) x -> Forall (fun v : f64 => b_finite v = true) y ->
  Forall (fun l : f64 => b_finite l = true /\ b_real l <> 0) (k_lengthscales k) ->
  INR (length (k_lengthscales k)) <= bpow radix2 40 ->
  b_finite (@kernel_distance f64 S k x y) = true ->
  let d := sqrt (sq_dist (reals1 (k_lengthscales k)) (reals1 x) (reals1 y)) in
  Rabs (b_real (@kernel_distance f64 S k x y) - d) <=
    INR (3 * length (k_lengthscales k) + 10) * bpow radix2 (-53) * d + bpow radix2 (-500).
Proof. intros S Fx Fy L Ln F. apply (distance_near P k x y Fx Fy L Ln F). Qed.
Print Assumptions C88_distance.

(** [C88_accurate P eps]: [exp], [ln_1p] and [cos] are within [eps] where the
    kernels use them. *)
Definition C88_accurate (P : Platform) (eps : R) : Prop :=
  0 <= eps <= / 16 /\
  (forall z : f64, b_finite z = true -> b_real z <= 0 ->
     b_finite (p_exp P z) = true /\ 0 <= b_real (p_exp P z) <= 1 /\
     Rabs (b_real (p_exp P z) - exp (b_real z)) <= eps * exp (b_real z) + bpow radix2 (-1074)) /\
  (forall z : f64, b_finite z = true -> 0 <= b_real z ->
     b_finite (p_ln1p P z) = true /\ Rabs (b_real (p_ln1p P z) - ln (1 + b_real z)) <= eps * ln (1 + b_real z)) /\
  (forall z : f64, b_finite z = true -> Rabs (b_real z) <= bpow radix2 300 ->
     b_finite (p_cos P z) = true /\ Rabs (b_real (p_cos P z)) <= 1 /\ Rabs (b_real (p_cos P z) - cos (b_real z)) <= eps).

(** The kernel value: within a constant times [eps + slack] of the formula, in
    units of the variance; for Cosine the distance error is multiplied by the
    distance. *)
Theorem C88_value P (k : kernel f64) eps x y : let S := ScalarF64 P in
  C88_accurate P eps -> moderate k ->
  Forall (fun v : f64 => b_finite v = true) x -> Forall (fun v : f64 => b_finite v = true) y ->
  Forall (fun l : f64 => b_finite l = true /\ b_real l <> 0) (k_lengthscales k) ->
  INR (length (k_lengthscales k)) <= bpow radix2 40 ->
  b_finite (@kernel_distance f64 S k x y) = true -> b_real (@kernel_distance f64 S k x y) <= bpow radix2 300 ->
  let m := INR (3 * length (k_lengthscales k) + 10) * bpow radix2 (-53) in
  let v := @kernel_slice f64 S k x y in
  let V := b_real (k_variance k) in
  let d := sqrt (sq_dist (reals1 (k_lengthscales k)) (reals1 x) (reals1 y)) in
  b_finite v = true /\
  match k_kind k with
  | KExponential => Rabs (b_real v - V * exp (- d)) <= V * (eps + 2 * m) + bpow radix2 (-1073)
  | KMatern32 => Rabs (b_real v - V * ((1 + sqrt 3 * d) * exp (- (sqrt 3 * d)))) <= V * (2 * eps + 18 * m) + bpow radix2 (-1073)
  | KMatern52 => Rabs (b_real v - V * ((1 + sqrt 3 * d + 5 * d ^ 2 / 3) * exp (- (sqrt 3 * d)))) <=
      V * (4 * eps + 32 * m) + bpow radix2 (-1073)
  | KExpQuad => Rabs (b_real v - V * exp (- (d ^ 2 / 2))) <= V * (eps + 3 * m) + bpow radix2 (-1073)
  | KCosine => Rabs (b_real v - V * cos d) <= V * (eps + m * (1 + d)) + bpow radix2 (-1073)
  | KRationalQuadratic power =>
      Rabs (b_real v - V * Rpower (1 + d ^ 2 / 2) (- b_real power)) <= V * (3 * eps + 4 * m) + bpow radix2 (-1073)
  end.
Proof.
  intros S A M Fx Fy L Ln Fd Bd. pose proof (kernel64_error P k eps x y A M Fx Fy L Ln Fd Bd) as H.
  cbv zeta in *. unfold real_kind, shape, allowance in H. destruct (k_kind k); exact H.
Qed.
Print Assumptions C88_value.

(** The same for kernels of scalars. *)
Theorem C88_scalar P (k : kernel f64) eps l ls x y : let S := ScalarF64 P in
  C88_accurate P eps -> moderate k ->
  k_lengthscales k = l :: ls -> b_finite l = true -> 0 < b_real l ->
  b_finite (b_div (Babs (b_sub x y)) l) = true -> b_real (b_div (Babs (b_sub x y)) l) <= bpow radix2 300 ->
  let V := b_real (k_variance k) in
  let d := Rabs (b_real x - b_real y) / b_real l in
  exists v, @kernel_scalar f64 S k x y = Ret v /\ b_finite v = true /\
  Rabs (b_real v - V * shape (real_kind (k_kind k)) d) <=
    V * allowance (k_kind k) eps (10 * bpow radix2 (-53)) d + bpow radix2 (-1073).
Proof.
  intros S A M El Fl Pl F B. pose proof (kernel64_scalar_error P k eps l ls x y A M El Fl Pl F B) as H. cbv zeta in *.
  replace (slack 0) with (10 * bpow radix2 (-53)) in H; [exact H|].
  unfold slack. change (INR (3 * 0 + 10)) with (INR 10). rewrite INR_IZR_INZ. reflexivity.
Qed.
Print Assumptions C88_scalar.

(** The features of a kernel basis, one prototype at a time. *)
Theorem C88_features P (ps : list (prototype f64)) eps x : let S := ScalarF64 P in
  C88_accurate P eps -> Forall (fun v : f64 => b_finite v = true) x ->
  Forall (fun p => let k := p_kernel p in moderate k /\ Forall (fun v : f64 => b_finite v = true) (p_centroid p) /\
    Forall (fun l : f64 => b_finite l = true /\ b_real l <> 0) (k_lengthscales k) /\
    INR (length (k_lengthscales k)) <= bpow radix2 40 /\
    b_finite (@kernel_distance f64 S k x (p_centroid p)) = true /\
    b_real (@kernel_distance f64 S k x (p_centroid p)) <= bpow radix2 300) ps ->
  exists l, @project f64 S (BKernel ps) x = Ret (Ok (Dense l)) /\
  Forall2 (fun (v : f64) p => let k := p_kernel p in
    let d := sqrt (sq_dist (reals1 (k_lengthscales k)) (reals1 x) (reals1 (p_centroid p))) in
    b_finite v = true /\
    Rabs (b_real v - b_real (k_variance k) * shape (real_kind (k_kind k)) d) <=
      b_real (k_variance k) * allowance (k_kind k) eps (INR (3 * length (k_lengthscales k) + 10) * bpow radix2 (-53)) d
        + bpow radix2 (-1073)) l ps.
Proof.
  intros S A Fx H. exists (map (fun p => @distance_from f64 S p x) ps). split; [reflexivity|].
  induction H as [|p ps (M & Fc & L & Ln & Fd & Bd) H IH]; [constructor|]. cbn [map]. constructor; auto.
  apply (kernel64_error P (p_kernel p) eps x (p_centroid p) A M Fx Fc L Ln Fd Bd).
Qed.
Print Assumptions C88_features.

(** A platform with correctly rounded functions meets every assumption; the
    Matern 3/2 kernel at distance one. *)
Definition k88 : kernel f64 := MkKernel KMatern32 b_one [b_one].

Example C88_case : let P := IeeePlatform in
  C88_accurate P (bpow radix2 (-52)) /\
  (forall s, p_exp P (B754_zero s) = b_one) /\ (forall s, p_cos P (B754_zero s) = b_one) /\
  (forall s, exists t, p_ln1p P (B754_zero s) = B754_zero t) /\
  p_exp P b_neginf = b_zero /\ p_ln1p P b_inf = b_inf /\
  (forall z, z = b_neginf \/ b_finite z = true /\ b_real z <= 0 -> b_finite (p_exp P z) = true /\ 0 <= b_real (p_exp P z) <= 1) /\
  (forall z, z = b_inf \/ b_finite z = true /\ 0 <= b_real z ->
     p_ln1p P z = b_inf \/ b_finite (p_ln1p P z) = true /\ 0 <= b_real (p_ln1p P z)) /\
  moderate k88 /\ @kernel_distance f64 (ScalarF64 P) k88 [b_one] [b_zero] = b_one /\
  Rabs (b_real (@kernel_slice f64 (ScalarF64 P) k88 [b_one] [b_zero]) - (1 + sqrt 3) * exp (- sqrt 3)) <= bpow radix2 (-44) /\
  @kernel_slice f64 (ScalarF64 P) k88 [b_one] [b_one] = b_one.
Proof.
  cbv zeta. assert (E2 : bpow radix2 (-52) = 2 * uro) by (unfold uro; change 2 with (bpow radix2 1); rewrite <- bpow_plus; reflexivity).
  assert (A : C88_accurate IeeePlatform (bpow radix2 (-52))) by (rewrite E2; exact ieee_accurate).
  assert (O : b_finite b_one = true /\ b_real b_one <> 0) by (rewrite b_one_real; split; [reflexivity|lra]).
  assert (M : moderate k88).
  { unfold moderate, k88. cbn [k_variance k_kind]. rewrite b_one_real. splits; auto; [lra|].
    apply (bpow_le radix2 0). lia. }
  assert (D : @kernel_distance f64 (ScalarF64 IeeePlatform) k88 [b_one] [b_zero] = b_one) by (apply B2SF_eq; vm_compute; reflexivity).
  destruct ieee_unit as (Ue & Uc & Ul).
  split; [exact A|]. split; [exact Ue|]. split; [exact Uc|]. split; [exact Ul|]. split; [reflexivity|]. split; [reflexivity|].
  split; [|split; [exact ieee_ln_range|]].
  { intros z Hz. apply ieee_exp_range. destruct Hz as [->|[F B]]; [left; reflexivity|]. right.
    rewrite opp_finite, opp_real. split; auto. lra. }
  split; [exact M|]. split; [exact D|]. split.
  - destruct (C88_value IeeePlatform k88 _ [b_one] [b_zero] A M) as [_ H]; [repeat constructor|repeat constructor|constructor; auto| | | |].
    + change (INR (length (k_lengthscales k88))) with (bpow radix2 0). apply bpow_le. lia.
    + rewrite D. reflexivity.
    + rewrite D, b_one_real. apply (bpow_le radix2 0). lia.
    + cbn [k88 k_kind k_variance k_lengthscales length] in H.
      assert (Q : sqrt (sq_dist (reals1 [b_one]) (reals1 [b_one]) (reals1 [b_zero])) = 1).
      { unfold sq_dist, reals1. cbn [map map2]. rewrite b_one_real. change (b_real b_zero) with 0.
        eapply eq_trans; [|exact sqrt_1]. f_equal. simpl. field. }
      rewrite Q, b_one_real, !Rmult_1_r, !Rmult_1_l in H. eapply Rle_trans; [exact H|].
      change (INR (3 * 1 + 10)) with (INR 13). rewrite INR_IZR_INZ. change (Z.of_nat 13) with 13%Z.
      assert (B1 : bpow radix2 (-1073) <= bpow radix2 (-53)) by (apply bpow_le; lia).
      replace (bpow radix2 (-44)) with (512 * bpow radix2 (-53)).
      * rewrite E2. unfold uro in *. pose proof (bpow_gt_0 radix2 (-53)). lra.
      * change 512 with (bpow radix2 9). rewrite <- bpow_plus. reflexivity.
  - destruct (C88_self IeeePlatform k88 Ue Uc Ul) as [H _]; [constructor; auto|discriminate|].
    apply (H [b_one]). repeat constructor.
Qed.
