(** C87: Polynomial, Chebyshev and Fourier features in binary64. *)
From Coq Require Import Reals ZArith List Lia Lra Bool.
From Flocq Require Import Core BinarySingleNaN.
From Verif Require Import Base Scalar ScalarR ScalarF64 F64Facts HMap NdArray Features Spec FeatureFacts
  Coeffs Basis BasisReal BoundF64 TableF64 NormF64 Near64 Basis64.
Import ListNotations.
Open Scope R_scope.

(** [powers P]: the platform's [powi] multiplies its way up to the exponent, in
    any order; [acc]/[rel] are not needed to read the statements below. *)

Theorem C87_powi P (x : f64) n : powers P -> b_finite x = true -> Rabs (b_real x) <= 1 ->
  b_finite (p_powi P x n) = true /\ Rabs (b_real (p_powi P x n)) <= 1 /\
  Rabs (b_real (p_powi P x n) - b_real x ^ n) <= INR (2 * (n - 1)) * bpow radix2 (-53).
Proof.
  intros Pw F B. destruct (acc_power x n _ F B (Pw x n)) as (Fp & Dp & Bp & _). splits; auto.
  rewrite INR_IZR_INZ. replace (Z.of_nat (2 * (n - 1))) with (2 * Z.of_nat (n - 1))%Z by lia. exact Dp.
Qed.
Print Assumptions C87_powi.

(** Inputs in [-1, 1]: the error of every feature is at most twice the number
    of multiplications, in units of 2^-53, and the feature stays in [-1, 1]. *)
Theorem C87_polynomial_unit P (x : list f64) e : powers P ->
  Forall (fun v : f64 => b_finite v = true /\ Rabs (b_real v) <= 1) x ->
  let v := @polynomial_feature f64 (ScalarF64 P) x e in
  b_finite v = true /\ Rabs (b_real v) <= 1 /\
  Rabs (b_real v - monomial (map (fun v : f64 => b_real v) x) e) <= INR (2 * (list_sum e + length x)) * bpow radix2 (-53).
Proof. exact (polynomial_f64_unit P x e). Qed.
Print Assumptions C87_polynomial_unit.

(** Other inputs, as long as nothing can overflow or underflow: the relative
    error is that of one rounding per multiplication. *)
Theorem C87_polynomial_relative P (x : list f64) e m : powers P -> (0 <= m)%Z ->
  Forall (fun v : f64 => b_finite v = true /\
    (b_real v = 0 \/ bpow radix2 (- m) <= Rabs (b_real v) <= bpow radix2 m)) x ->
  (Z.of_nat (list_sum e) * m <= 1000)%Z -> INR (list_sum e + length x) <= bpow radix2 52 ->
  let v := @polynomial_feature f64 (ScalarF64 P) x e in
  b_finite v = true /\ exists t, b_real v = monomial (map (fun v : f64 => b_real v) x) e * t /\
    (1 - bpow radix2 (-53)) ^ (list_sum e + length x) <= t <= (1 + bpow radix2 (-53)) ^ (list_sum e + length x).
Proof. exact (polynomial_f64_relative P x e m). Qed.
Print Assumptions C87_polynomial_relative.

(** The literal polynomials of cpfk.rs, evaluated in binary64 on [-1, 1]. *)
Theorem C87_literals P k : powers P -> (k <= 11)%nat -> exists f, @cheb_fn f64 (ScalarF64 P) k = Ret f /\
  forall x : f64, b_finite x = true -> Rabs (b_real x) <= 1 ->
    b_finite (f x) = true /\ Rabs (b_real (f x) - cheb k (b_real x)) <= bpow radix2 (-35).
Proof.
  intros Pw L. destruct (cheb_acc P k Pw L) as (f & E & C). exists f. split; auto.
  intros x F B. destruct (C x F B) as (A & Ff & D & _). split; auto.
  replace (bpow radix2 (-35)) with (IZR (2 ^ 18) * uro); [exact D|].
  change (IZR (2 ^ 18)) with (bpow radix2 18). unfold uro. rewrite <- bpow_plus. reflexivity.
Qed.
Print Assumptions C87_literals.

(** Chebyshev features of an input inside its limits. *)
Theorem C87_chebyshev P k limits es : powers P -> (k <= 11)%nat -> enumeration k (length limits) es ->
  INR (length limits) <= bpow radix2 32 ->
  exists b, @chebyshev_new f64 (ScalarF64 P) k limits = Ret b /\
    forall x, inside64 x limits -> exists l, @project f64 (ScalarF64 P) b x = Ret (Ok (Dense l)) /\
      Forall2 (fun (v : f64) e => b_finite v = true /\
        Rabs (b_real v - cheb_product (to_unit (map (fun v : f64 => b_real v) x) (reals limits)) e)
          <= INR (length limits) * bpow radix2 (-32)) l es.
Proof. exact (chebyshev_f64 P k limits es). Qed.
Print Assumptions C87_chebyshev.

(** The literal [PI] is within 2^-51 of pi. *)
Theorem C87_pi P : Rabs (b_real (@fpi f64 (ScalarF64 P)) - PI) <= bpow radix2 (-51).
Proof.
  destruct (acc_pi P) as (_ & D & _). replace (bpow radix2 (-51)) with (4 * uro); [exact D|].
  unfold uro. change 4 with (bpow radix2 2). rewrite <- bpow_plus. reflexivity.
Qed.
Print Assumptions C87_pi.

(** Fourier features of an input inside its limits, over a cosine accurate to
    [eps] on the arguments that occur. *)
Theorem C87_fourier P k limits es eps : enumeration k (length limits) es ->
  (Z.of_nat (k * length limits) <= 2 ^ 50)%Z ->
  (forall z : f64, b_finite z = true -> Rabs (b_real z) <= 4 * INR (k * length limits) ->
     b_finite (p_cos P z) = true /\ Rabs (b_real (p_cos P z) - cos (b_real z)) <= eps) ->
  forall x, inside64 x limits -> exists l, @project f64 (ScalarF64 P) (@fourier_new f64 (ScalarF64 P) k limits) x = Ret (Ok (Dense l)) /\
    Forall2 (fun (v : f64) e => b_finite v = true /\
      Rabs (b_real v - cosine (to_01 (map (fun v : f64 => b_real v) x) (reals limits)) e) <=
        eps + INR (28 * (k * length limits) + 4 * length limits * (k * length limits + 1) + 1) * bpow radix2 (-53)) l es.
Proof. exact (fourier_f64 P k limits es eps). Qed.
Print Assumptions C87_fourier.

(** The features are not exact: 0.1^2. *)
Theorem C87_exact_refuted : exists x : f64, b_finite x = true /\ Rabs (b_real x) <= 1 /\
  b_real (@polynomial_feature f64 (ScalarF64 RoundedPlatform) [x] [2%nat]) <> monomial [b_real x] [2%nat].
Proof.
  set (x := @B754_finite 53 1024 false 7205759403792794 (-56) eq_refl). exists x.
  assert (Vx : b_real x = 7205759403792794 * / 72057594037927936) by reflexivity.
  assert (E : @polynomial_feature f64 (ScalarF64 RoundedPlatform) [x] [2%nat] =
    @B754_finite 53 1024 false 5764607523034236 (-59) eq_refl) by (apply B2SF_inj; vm_compute; reflexivity).
  splits; auto.
  - rewrite Vx, Rabs_pos_eq; lra.
  - intros Q. apply (f_equal (fun v : f64 => b_real v)) in E. cbv beta in E. assert (Q' := eq_trans (eq_sym E) Q).
    unfold monomial in Q'. cbn [map2 rprod fold_right pow] in Q'. rewrite Vx in Q'.
    change (b_real (@B754_finite 53 1024 false 5764607523034236 (-59) eq_refl))
      with (5764607523034236 * / 576460752303423488) in Q'. lra.
Qed.
Print Assumptions C87_exact_refuted.

(** A platform with correctly rounded functions meets the assumptions, and the
    Chebyshev and Fourier bases of order 2 over [-1, 2] meet the others. *)
Definition limits87 : list (f64 * f64) := [(b_dyadic (-1) 0, b_dyadic 2 0)].
Definition x87 : list f64 := [b_dyadic 1 (-2)].

Example C87_case :
  powers RoundedPlatform /\ (forall B, cos_within RoundedPlatform (2 * uro) B) /\
  enumeration 2 (length limits87) [[1%nat]; [2%nat]] /\ inside64 x87 limits87 /\
  map (fun v : f64 => b_finite v) x87 = [true] /\
  (exists b, @chebyshev_new f64 (ScalarF64 RoundedPlatform) 2 limits87 = Ret b /\
     match @project f64 (ScalarF64 RoundedPlatform) b x87 with
     | Ret (Ok (Dense [v; w])) => b_finite v = true /\ b_finite w = true /\
         Rabs (b_real v - - / 6) <= bpow radix2 (-32) /\ Rabs (b_real w - - (17 / 18)) <= bpow radix2 (-32)
     | _ => False
     end).
Proof.
  assert (En : enumeration 2 (length limits87) [[1%nat]; [2%nat]]) by exact (coefficients_enumerate 2 1).
  assert (I : inside64 x87 limits87).
  { constructor; [|constructor]. cbn [fst snd].
    destruct (b_Z (-1)) as [F1 V1]; [lia|]. destruct (b_Z 2) as [F2 V2]; [lia|].
    destruct (b_pow2 (-2)) as [F3 V3]; [lia|]. rewrite V1, V2, V3. change (bpow radix2 (-2)) with (/ 4).
    splits; auto; try lra. }
  splits; auto.
  - exact rounded_powers.
  - exact rounded_cos.
  - destruct (C87_chebyshev RoundedPlatform 2 limits87 _ rounded_powers ltac:(lia) En) as (b & Eb & C).
    { change (INR (length limits87)) with (bpow radix2 0). apply bpow_le. lia. }
    exists b. split; auto. destruct (C x87 I) as (l & El & Hl). rewrite El.
    inversion Hl as [|v e l' es' (Fv & Dv) Hl1]; subst. inversion Hl1 as [|w e' l2 es2 (Fw & Dw) Hl2]; subst.
    inversion Hl2; subst.
    assert (S : to_unit (map (fun v : f64 => b_real v) x87) (reals limits87) = [- / 6]).
    { unfold to_unit, reals, limits87, x87. cbn [map map2 fst snd].
      destruct (b_Z (-1)) as [F1 V1]; [lia|]. destruct (b_Z 2) as [F2 V2]; [lia|].
      destruct (b_pow2 (-2)) as [F3 V3]; [lia|]. rewrite V1, V2, V3. change (bpow radix2 (-2)) with (/ 4). f_equal. field. }
    rewrite S in Dv, Dw. unfold cheb_product, cheb in Dv, Dw. simpl in Dv, Dw. splits; auto.
    + replace (- / 6) with (- / 6 * 1) by ring. rewrite Rmult_1_l in Dv. exact Dv.
    + rewrite Rmult_1_l in Dw. replace (- (17 / 18)) with ((2 * - / 6 * - / 6 - 1) * 1) by field. exact Dw.
Qed.
