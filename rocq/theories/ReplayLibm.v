(** The tests that call libm (Fourier features, kernels) pass on every platform
    whose cos and exp are accurate to 2^-30. Facts for C66. *)
From Coq Require Import List Arith ZArith Lia Bool Reals Lra QArith Qreals.
From Flocq Require Import Core.Core IEEE754.BinarySingleNaN.
From Verif Require Import Base Scalar ScalarR ScalarF64 F64Facts HMap NdArray VecFacts Features
  Coeffs Kernels TileCoding Basis NormF64 NonnegF64 BoundF64 SumOrder Replay ExpBounds ReplayFacts.
Import ListNotations.
Local Open Scope R_scope.

(** ** What is assumed of libm *)

Definition cos_accurate (P : Platform) : Prop := forall x : f64, b_finite x = true -> Rabs (b_real x) <= 16 ->
  b_finite (p_cos P x) = true /\ Rabs (b_real (p_cos P x) - cos (b_real x)) <= bpow radix2 (-30).

Definition exp_accurate (P : Platform) : Prop := forall x : f64, b_finite x = true -> -16 <= b_real x <= 0 ->
  b_finite (p_exp P x) = true /\ Rabs (b_real (p_exp P x) - exp (b_real x)) <= bpow radix2 (-30).

Lemma pow2R n : (0 <= n)%Z -> IZR (2 ^ n) = bpow radix2 n.
Proof. exact (IZR_Zpower radix2 n). Qed.

(** ** Values as multiples of 2^-200 *)

Definition scaled (a : f64) : option Z :=
  match a with
  | B754_zero _ => Some 0%Z
  | B754_finite s m e _ => if (0 <=? e + 200)%Z then Some (cond_Zopp s (Zpos m) * 2 ^ (e + 200))%Z else None
  | _ => None
  end.

Lemma scaled_is a z : scaled a = Some z -> b_finite a = true /\ b_real a = IZR z * bpow radix2 (-200).
Proof.
  destruct a as [s|s| |s m e B]; intros E; try discriminate.
  - injection E as <-. split; [reflexivity|]. simpl. ring.
  - unfold scaled in E. destruct (Z.leb_spec 0 (e + 200)) as [L|L]; [|discriminate].
    injection E as <-. split; [reflexivity|]. unfold B2R, F2R. cbn [Fnum Fexp].
    rewrite mult_IZR. rewrite pow2R by exact L. rewrite Rmult_assoc, <- bpow_plus. do 2 f_equal. lia.
Qed.

(** ** Within the tests' tolerance *)

Definition tol6 : f64 := b_div (b_dyadic 1 0) (b_dyadic 1000000 0).

Lemma near_passes (p y : f64) : b_finite p = true -> b_finite y = true ->
  Rabs (b_real p - b_real y) <= bpow radix2 (-21) -> Bltb (Babs (b_sub p y)) tol6 = true.
Proof.
  intros Fp Fy L.
  pose proof (Bminus_correct 53 1024 f64_prec f64_emax mode_NE p y Fp Fy) as C.
  fold (b_sub p y) in C. fold (rnd64 (b_real p - b_real y)) in C.
  assert (R : Rabs (rnd64 (b_real p - b_real y)) <= bpow radix2 (-21)) by (apply rnd64_abs; [apply fmt_bpow; lia|exact L]).
  rewrite Rlt_bool_true in C.
  2: { eapply Rle_lt_trans; [exact R|]. apply bpow_lt. reflexivity. }
  destruct C as (C1 & C2 & _).
  assert (T : b_finite tol6 = true /\ Bltb (b_dyadic 1 (-21)) tol6 = true) by (split; vm_compute; reflexivity).
  destruct T as [T1 T2]. destruct (b_pow2 (-21)) as [F2 E2]; [lia|].
  apply b_ltb_real in T2; auto. rewrite E2 in T2.
  apply b_ltb_real; auto; [rewrite b_abs_finite; exact C2|]. rewrite b_abs_real, C1. lra.
Qed.

(** ** cos at multiples of pi / 6 *)

Lemma cos_lipschitz x y : Rabs (cos x - cos y) <= Rabs (x - y).
Proof.
  assert (H : forall a b, a < b -> Rabs (cos b - cos a) <= Rabs (b - a)).
  { intros a b L. destruct (MVT_cor2 cos (fun c => - sin c) a b L (fun c _ => derivable_pt_lim_cos c)) as (c & E & _).
    rewrite E, Rabs_mult, Rabs_Ropp. rewrite <- (Rmult_1_l (Rabs (b - a))) at 2.
    apply Rmult_le_compat_r; [apply Rabs_pos|]. apply Rabs_le, SIN_bound. }
  destruct (Rtotal_order x y) as [L|[->|L]].
  - rewrite (Rabs_minus_sym (cos x)), (Rabs_minus_sym x). apply H, L.
  - rewrite !Rminus_diag_eq by reflexivity. lra.
  - apply H, L.
Qed.

(** Twice the cosine, where it is an integer. *)
Definition cos6 (n : Z) : option Z :=
  match (n mod 12)%Z with
  | 0 => Some 2 | 2 => Some 1 | 3 => Some 0 | 4 => Some (-1) | 6 => Some (-2)
  | 8 => Some (-1) | 9 => Some 0 | 10 => Some 1 | _ => None
  end%Z.

Lemma cos_turns x q : cos (x + IZR q * (2 * PI)) = cos x.
Proof.
  destruct (Z_le_dec 0 q) as [L|L].
  - rewrite <- (Z2Nat.id q L), <- INR_IZR_INZ. rewrite <- (cos_period x (Z.to_nat q)). f_equal. ring.
  - rewrite <- (cos_period (x + IZR q * (2 * PI)) (Z.to_nat (- q))). f_equal.
    rewrite INR_IZR_INZ, Z2Nat.id by lia. rewrite opp_IZR. ring.
Qed.

Lemma cos_third : cos (2 * (PI / 6)) = 1 / 2.
Proof. replace (2 * (PI / 6)) with (PI / 3) by field. apply cos_PI3. Qed.

Lemma cos6_is n z : cos6 n = Some z -> cos (IZR n * (PI / 6)) = IZR z / 2.
Proof.
  unfold cos6. intros E. rewrite (Z.div_mod n 12) at 1 by lia. rewrite plus_IZR, mult_IZR.
  replace ((12 * IZR (n / 12) + IZR (n mod 12)) * (PI / 6)) with (IZR (n mod 12) * (PI / 6) + IZR (n / 12) * (2 * PI)) by field.
  rewrite cos_turns. assert (R := Z.mod_pos_bound n 12 ltac:(lia)).
  remember (n mod 12)%Z as r eqn:Er. clear Er n.
  assert (D : (r = 0 \/ r = 1 \/ r = 2 \/ r = 3 \/ r = 4 \/ r = 5 \/ r = 6 \/ r = 7 \/ r = 8 \/ r = 9 \/ r = 10 \/ r = 11)%Z) by lia.
  repeat destruct D as [D|D]; try subst r; try discriminate; injection E as <-.
  - rewrite Rmult_0_l, cos_0. field.
  - exact cos_third.
  - replace (3 * (PI / 6)) with (PI / 2) by field. rewrite cos_PI2. field.
  - replace (4 * (PI / 6)) with (- (2 * (PI / 6)) + PI) by field. rewrite neg_cos, cos_neg, cos_third. field.
  - replace (6 * (PI / 6)) with PI by field. rewrite cos_PI. field.
  - replace (8 * (PI / 6)) with (2 * (PI / 6) + PI) by field. rewrite neg_cos, cos_third. field.
  - replace (9 * (PI / 6)) with (PI / 2 + PI) by field. rewrite neg_cos, cos_PI2. field.
  - replace (10 * (PI / 6)) with (- (2 * (PI / 6)) + 2 * PI) by field.
    replace (- (2 * (PI / 6)) + 2 * PI) with (- (2 * (PI / 6)) + IZR 1 * (2 * PI)) by ring.
    rewrite cos_turns, cos_neg, cos_third. field.
Qed.

(** f64's pi, in the same scale. *)
Definition PZ : Z := (7074237752028440 * 2 ^ 149)%Z.

Lemma PZ_close : Rabs (IZR PZ * bpow radix2 (-200) - PI) <= 1 / 100000000.
Proof.
  assert (E : IZR PZ * bpow radix2 (-200) = 7074237752028440 / 2251799813685248).
  { unfold PZ. rewrite mult_IZR. rewrite (pow2R 149) by lia. rewrite Rmult_assoc, <- bpow_plus.
    change (bpow radix2 (149 + -200)) with (/ 2251799813685248). reflexivity. }
  rewrite E. pose proof pi_bounds. apply Rabs_le. lra.
Qed.

(** [a] is within 2^-30 of a multiple of f64's pi / 6 whose cosine is [y]. *)
Definition cos_case (a y : f64) : bool :=
  match scaled a, scaled y with
  | Some A, Some Y =>
      let n := ((6 * A + PZ / 2) / PZ)%Z in
      match cos6 n with
      | Some z => (Z.abs n <=? 24)%Z && (Z.abs (6 * A - n * PZ) <=? 2 ^ 170)%Z && (2 * Y =? z * 2 ^ 200)%Z
      | None => false
      end
  | _, _ => false
  end.

Lemma bpow200 : 0 < bpow radix2 (-200).
Proof. apply bpow_gt_0. Qed.

Lemma two200 : IZR (2 ^ 200) * bpow radix2 (-200) = 1.
Proof. rewrite (pow2R 200) by lia. rewrite <- bpow_plus. reflexivity. Qed.
Lemma two170 : IZR (2 ^ 170) * bpow radix2 (-200) = bpow radix2 (-30).
Proof. rewrite (pow2R 170) by lia. rewrite <- bpow_plus. reflexivity. Qed.

Lemma small_bound : bpow radix2 (-30) + bpow radix2 (-30) / 6 + 24 / 6 * (1 / 100000000) <= bpow radix2 (-21).
Proof.
  change (bpow radix2 (-30)) with (/ 1073741824). change (bpow radix2 (-21)) with (/ 2097152). lra.
Qed.

Lemma cos_case_passes P a y : cos_accurate P -> cos_case a y = true -> Bltb (Babs (b_sub (p_cos P a) y)) tol6 = true.
Proof.
  intros CA E. unfold cos_case in E.
  destruct (scaled a) as [A|] eqn:Ea; [|discriminate]. destruct (scaled y) as [Y|] eqn:Ey; [|discriminate].
  destruct (scaled_is a A Ea) as [Fa Ra]. destruct (scaled_is y Y Ey) as [Fy Ry].
  set (n := ((6 * A + PZ / 2) / PZ)%Z) in *. destruct (cos6 n) as [z|] eqn:Ez; [|discriminate].
  apply andb_true_iff in E. destruct E as [E E3]. apply andb_true_iff in E. destruct E as [E1 E2].
  apply Z.leb_le in E1, E2. apply Z.eqb_eq in E3.
  apply cos6_is in Ez. pose proof bpow200 as B200.
  (* the expected value *)
  assert (Vy : b_real y = cos (IZR n * (PI / 6))).
  { rewrite Ez, Ry. assert (Q : 2 * IZR Y = IZR z * IZR (2 ^ 200)) by (rewrite <- !mult_IZR; f_equal; exact E3).
    apply (Rmult_eq_reg_l 2); [|lra]. replace (2 * (IZR Y * bpow radix2 (-200))) with (2 * IZR Y * bpow radix2 (-200)) by ring.
    rewrite Q, Rmult_assoc, two200. field. }
  (* the argument *)
  assert (Va : Rabs (b_real a - IZR n * (PI / 6)) <= bpow radix2 (-30) / 6 + 24 / 6 * (1 / 100000000)).
  { rewrite Ra. pose proof PZ_close as C.
    replace (IZR A * bpow radix2 (-200) - IZR n * (PI / 6)) with
      (IZR (6 * A - n * PZ) * bpow radix2 (-200) / 6 + IZR n / 6 * (IZR PZ * bpow radix2 (-200) - PI))
      by (rewrite minus_IZR, !mult_IZR; field).
    eapply Rle_trans; [apply Rabs_triang|]. apply Rplus_le_compat.
    - unfold Rdiv. rewrite !Rabs_mult, (Rabs_pos_eq (/ 6)) by lra. apply Rmult_le_compat_r; [lra|].
      rewrite (Rabs_pos_eq (bpow radix2 (-200))) by lra. rewrite <- two170. apply Rmult_le_compat_r; [lra|].
      rewrite <- abs_IZR. apply IZR_le, E2.
    - rewrite Rabs_mult. apply Rmult_le_compat; try apply Rabs_pos; [|exact C].
      unfold Rdiv. rewrite Rabs_mult, (Rabs_pos_eq (/ 6)) by lra. apply Rmult_le_compat_r; [lra|].
      rewrite <- abs_IZR. apply IZR_le, E1. }
  assert (Sm : bpow radix2 (-30) / 6 + 24 / 6 * (1 / 100000000) <= 1).
  { change (bpow radix2 (-30)) with (/ 1073741824). lra. }
  assert (Vb : Rabs (b_real a) <= 16).
  { replace (b_real a) with ((b_real a - IZR n * (PI / 6)) + IZR n * (PI / 6)) by ring.
    eapply Rle_trans; [apply Rabs_triang|]. pose proof pi_bounds as [_ PU]. pose proof PI_RGT_0.
    assert (Rabs (IZR n * (PI / 6)) <= 24 * (3.15 / 6)); [|lra].
    rewrite Rabs_mult, (Rabs_pos_eq (PI / 6)) by lra. apply Rmult_le_compat; try apply Rabs_pos; try lra.
    rewrite <- abs_IZR. apply IZR_le, E1. }
  destruct (CA a Fa Vb) as [Fc Vc].
  apply near_passes; auto. rewrite Vy.
  replace (b_real (p_cos P a) - cos (IZR n * (PI / 6))) with
    ((b_real (p_cos P a) - cos (b_real a)) + (cos (b_real a) - cos (IZR n * (PI / 6)))) by ring.
  eapply Rle_trans; [apply Rabs_triang|]. eapply Rle_trans; [|apply small_bound].
  pose proof (cos_lipschitz (b_real a) (IZR n * (PI / 6))). lra.
Qed.

(** ** The Fourier tests *)

Definition fourier_arg (ss cfs : list f64) : f64 :=
  b_mul (b_dyadic 7074237752028440 (-51))
    (fold_left (fun acc vc => b_add acc (b_mul (snd vc) (fst vc))) (combine ss cfs) b_zero).

Definition fourier_case (limits : list (f64 * f64)) (cs : list (list f64)) (c : list f64 * list f64) : bool :=
  let ss := map2 (fun v l => b_div (b_sub v (fst l)) (b_sub (snd l) (fst l))) (fst c) limits in
  forallb (fun zy => cos_case (fourier_arg ss (fst zy)) (snd zy)) (combine cs (snd c)).

Lemma fourier_features_pass P order limits cs cases tol : cos_accurate P -> tol = tol6 ->
  forallb (fourier_case limits cs) cases = true ->
  @assert_features f64 (ScalarF64 P) (BFourier order limits cs) tol cases = Ret true.
Proof.
  intros CA -> A. unfold assert_features. apply checks_true. intros t I. apply in_map_iff in I.
  destruct I as (c & <- & I). rewrite forallb_forall in A. specialize (A c I). unfold fourier_case in A.
  rewrite forallb_forall in A. cbn [project unwrap obind into_dense]. f_equal.
  apply (compare_floats_true P). intros i x y Ex Ey.
  rewrite nth_error_map in Ex. destruct (nth_error cs i) as [z|] eqn:Ez; [|discriminate]. injection Ex as <-.
  apply (cos_case_passes P (fourier_arg _ z) y CA). apply (A (z, y)).
  clear A I. revert i Ez Ey. generalize (snd c). induction cs as [|u us IH]; intros [|v vs] [|i] Ez Ey; try discriminate.
  - injection Ez as ->. injection Ey as ->. left. reflexivity.
  - right. apply (IH vs i); assumption.
Qed.

Lemma fourier_new_pass P order limits cases : cos_accurate P ->
  forallb (fourier_case limits (map (map (fun n => b_dyadic (Z.of_nat n) 0)) (compute_coefficients order (length limits)))) cases = true ->
  @assert_features f64 (on_platform P) (@fourier_new f64 (on_platform P) order limits) (@flit f64 (on_platform P) 1 1000000) cases = Ret true.
Proof. intros CA A. apply (fourier_features_pass P order limits _ cases _ CA (eq_refl tol6) A). Qed.

Lemma check_then b r : b = Ret true -> r = Ret true -> check b r = Ret true.
Proof. intros -> ->. reflexivity. Qed.

Ltac fourier CA := apply fourier_new_pass; [exact CA|vm_compute; reflexivity].

Theorem fourier_tests_pass P : cos_accurate P ->
  test_bounds P = Ret true /\ test_order1_1d P = Ret true /\ test_order2_1d P = Ret true /\
  test_order1_2d P = Ret true /\ test_order2_2d P = Ret true.
Proof.
  intros CA. refine (conj _ (conj _ (conj _ (conj _ _)))).
  - unfold test_bounds. fourier CA.
  - unfold test_order1_1d. apply check_then; [vm_compute; reflexivity|]. fourier CA.
  - unfold test_order2_1d. apply check_then; [vm_compute; reflexivity|]. fourier CA.
  - unfold test_order1_2d. apply check_then; [vm_compute; reflexivity|]. fourier CA.
  - unfold test_order2_2d. apply check_then; [vm_compute; reflexivity|]. fourier CA.
Qed.

(** ** The kernel tests *)

Definition q200 (z : Z) : Q := Qred (z # (2 ^ 200)).

Lemma q200_real z : Q2R (q200 z) = IZR z * bpow radix2 (-200).
Proof.
  unfold q200. rewrite Q2R_red. unfold Q2R. cbn [Qnum Qden]. f_equal.
Qed.

(** exp at [a] in [-16, 0] is within 2^-22 of [y], by 24 terms of its series. *)
Definition exp_case (a y : f64) : bool :=
  match scaled a, scaled y with
  | Some A, Some Y =>
      let x := q200 (- A) in
      Qle_bool 0 x && Qle_bool x 16 &&
      Qle_bool (q200 Y - (1 # 2 ^ 22)) (qexp 25 x) && Qle_bool (qexp 24 x) (q200 Y + (1 # 2 ^ 22))
  | _, _ => false
  end.

Lemma exp_case_passes P a y : exp_accurate P -> exp_case a y = true -> Bltb (Babs (b_sub (p_exp P a) y)) tol6 = true.
Proof.
  intros CA E. unfold exp_case in E.
  destruct (scaled a) as [A|] eqn:Ea; [|discriminate]. destruct (scaled y) as [Y|] eqn:Ey; [|discriminate].
  destruct (scaled_is a A Ea) as [Fa Ra]. destruct (scaled_is y Y Ey) as [Fy Ry].
  apply andb_true_iff in E. destruct E as [E E4]. apply andb_true_iff in E. destruct E as [E E3].
  apply andb_true_iff in E. destruct E as [E1 E2]. rewrite Qle_bool_iff in E1, E2, E3, E4.
  pose proof (qexp_bounds 12 _ E1) as B. change (S (2 * 12)) with 25%nat in B. change (2 * 12)%nat with 24%nat in B.
  apply Qle_Rle in E1, E2, E3, E4. rewrite Q2R_minus in E3. rewrite Q2R_plus in E4.
  rewrite q200_real in E3, E4. rewrite <- Ry in E3, E4.
  assert (X : Q2R (q200 (- A)) = - b_real a) by (rewrite q200_real, opp_IZR, Ra; ring).
  rewrite X in E1, E2, B. rewrite Ropp_involutive in B.
  assert (Z0 : Q2R 0 = 0) by (unfold Q2R; simpl; field). assert (Z16 : Q2R 16 = 16) by (unfold Q2R; simpl; field).
  assert (Z22 : Q2R (1 # 2 ^ 22) = bpow radix2 (-22)).
  { unfold Q2R. cbn [Qnum Qden]. rewrite Rmult_1_l. reflexivity. }
  rewrite Z0 in E1. rewrite Z16 in E2. rewrite Z22 in E3, E4.
  destruct (CA a Fa) as [Fe Ve]; [lra|]. apply near_passes; auto.
  apply Rabs_le. apply Rabs_le_inv in Ve.
  assert (bpow radix2 (-30) + bpow radix2 (-22) <= bpow radix2 (-21)).
  { change (bpow radix2 (-30)) with (/ 1073741824). change (bpow radix2 (-22)) with (/ 4194304).
    change (bpow radix2 (-21)) with (/ 2097152). lra. }
  lra.
Qed.

(** The argument given to [exp] by the squared-exponential kernel. *)
Definition quad_arg (ls x c : list f64) : f64 :=
  let r := b_sqrt (fold_left (fun acc z => b_add acc (b_mul z z)) (map2 b_div (map2 b_sub x c) ls) b_zero) in
  b_mul (b_mul (Bopp (b_div (b_dyadic 1 0) (b_dyadic 2 0))) r) r.

Lemma net_projection P centroids ls input :
  @project f64 (on_platform P) (make_net P centroids ls) input = Ret (Ok (Dense (map (fun c => p_exp P (quad_arg ls input c)) centroids))).
Proof.
  unfold make_net, kernel_homogeneous. cbn [project]. do 3 f_equal. rewrite map_map. apply map_ext. intros c.
  change (b_mul (@fone f64 (ScalarF64 P)) (p_exp P (quad_arg ls input c)) = p_exp P (quad_arg ls input c)).
  rewrite fone_f64. apply b_mul_one.
Qed.

Lemma near_case P l i a y : exp_accurate P -> nth_error l i = Some (p_exp P a) -> exp_case a y = true -> near P l i y = Ret true.
Proof.
  intros CA E C. unfold near, vget. rewrite E. cbn [obind]. f_equal. apply (exp_case_passes P a y CA C).
Qed.

Theorem kernel_tests_pass P : exp_accurate P -> test_projection_1d P = Ret true /\ test_projection_2d P = Ret true.
Proof.
  intros CA. split.
  - unfold test_projection_1d, make_net_1d. rewrite net_projection. cbn [unwrap obind into_dense].
    apply checks_true. intros t [<-|[<-|[<-|[]]]]; (eapply (near_case P); [exact CA|reflexivity|]); vm_compute; reflexivity.
  - unfold test_projection_2d. rewrite net_projection. cbn [unwrap obind into_dense].
    apply checks_true. intros t [<-|[<-|[<-|[]]]]; (eapply (near_case P); [exact CA|reflexivity|]); vm_compute; reflexivity.
Qed.

(** ** Such platforms exist *)

Lemma b_fixed z : (Z.abs z <= 2 ^ 40)%Z -> b_finite (b_dyadic z (-40)) = true /\ b_real (b_dyadic z (-40)) = IZR z * bpow radix2 (-40).
Proof.
  intros L. unfold b_dyadic. pose proof (binary_normalize_correct 53 1024 f64_prec f64_emax mode_NE z (-40) false) as C.
  cbv zeta in C. assert (E : F2R (Float radix2 z (-40)) = IZR z * bpow radix2 (-40)) by reflexivity.
  rewrite E in C. rewrite round_generic in C; [|apply valid_rnd_N|].
  - rewrite Rlt_bool_true in C; [split; apply C|].
    rewrite Rabs_mult, (Rabs_pos_eq (bpow radix2 (-40))) by apply bpow_ge_0. rewrite <- abs_IZR.
    apply Rle_lt_trans with (IZR (2 ^ 40) * bpow radix2 (-40)).
    + apply Rmult_le_compat_r; [apply bpow_ge_0|apply IZR_le, L].
    + rewrite pow2R by lia. rewrite <- bpow_plus. apply bpow_lt. reflexivity.
  - apply generic_format_FLT. exists (Float radix2 z (-40)); [symmetry; exact E| |]; cbn [Fnum Fexp]; [|discriminate].
    eapply Z.le_lt_trans; [exact L|]. reflexivity.
Qed.

Definition to_fixed (x : R) : f64 := b_dyadic (Int_part (x * bpow radix2 40)) (-40).

Lemma to_fixed_close x : -1 <= x <= 1 -> b_finite (to_fixed x) = true /\ Rabs (b_real (to_fixed x) - x) <= bpow radix2 (-30).
Proof.
  intros L. unfold to_fixed. set (z := Int_part (x * bpow radix2 40)).
  destruct (base_Int_part (x * bpow radix2 40)) as [B1 B2]. fold z in B1, B2.
  assert (P40 : bpow radix2 40 = IZR (2 ^ 40)) by (rewrite pow2R by lia; reflexivity).
  assert (Z1 : (z <= 2 ^ 40)%Z).
  { apply le_IZR. eapply Rle_trans; [exact B1|]. rewrite <- P40. pose proof (bpow_gt_0 radix2 40). nra. }
  assert (Z2 : (- 2 ^ 40 - 1 < z)%Z).
  { apply lt_IZR. rewrite minus_IZR, opp_IZR, <- P40. pose proof (bpow_gt_0 radix2 40). nra. }
  destruct (b_fixed z) as [F E]; [lia|]. split; [exact F|]. rewrite E.
  assert (I : bpow radix2 40 * bpow radix2 (-40) = 1) by (rewrite <- bpow_plus; reflexivity).
  replace (IZR z * bpow radix2 (-40) - x) with ((IZR z - x * bpow radix2 40) * bpow radix2 (-40))
    by (replace x with (x * (bpow radix2 40 * bpow radix2 (-40))) at 2 by (rewrite I; ring); ring).
  rewrite Rabs_mult, (Rabs_pos_eq (bpow radix2 (-40))) by apply bpow_ge_0.
  apply Rle_trans with (1 * bpow radix2 (-40)).
  - apply Rmult_le_compat_r; [apply bpow_ge_0|]. apply Rabs_le. lra.
  - rewrite Rmult_1_l. apply bpow_le. lia.
Qed.

(** ndarray's order of summation, and libm truncated to 40 binary places. *)
Definition AccuratePlatform : Platform := {|
  p_cos x := to_fixed (cos (b_real x));
  p_exp x := to_fixed (exp (b_real x));
  p_ln1p x := x;
  p_powi := b_powi;
  p_sum := unrolled_sum;
  p_dot a b := unrolled_sum (map2 b_mul a b)
|}.

Lemma accurate_platform : cos_accurate AccuratePlatform /\ exp_accurate AccuratePlatform /\
  unrolled_order AccuratePlatform /\ p_powi AccuratePlatform = b_powi.
Proof.
  refine (conj _ (conj _ (conj (conj eq_refl eq_refl) eq_refl))).
  - intros x _ _. apply to_fixed_close, COS_bound.
  - intros x _ [_ L]. apply to_fixed_close. pose proof (exp_pos (b_real x)). split; [lra|].
    destruct L as [L| ->]; [|rewrite exp_0; lra]. left. rewrite <- exp_0. apply exp_increasing, L.
Qed.

(** ** utils.rs:3-5 *)

Lemma below_tol (a b tol : f64) : b_finite a = true -> b_finite b = true -> b_finite tol = true ->
  Bltb (Babs (b_sub a b)) tol = true -> Rabs (b_real a - b_real b) < b_real tol.
Proof.
  intros Fa Fb Ft L.
  pose proof (Bminus_correct 53 1024 f64_prec f64_emax mode_NE a b Fa Fb) as C.
  fold (b_sub a b) in C. fold (rnd64 (b_real a - b_real b)) in C.
  destruct (Rlt_bool_spec (Rabs (rnd64 (b_real a - b_real b))) (bpow radix2 1024)) as [S|S].
  - destruct C as (C1 & C2 & _). apply b_ltb_real in L; auto; [|now rewrite b_abs_finite].
    rewrite b_abs_real, C1 in L. destruct (Rlt_le_dec (Rabs (b_real a - b_real b)) (b_real tol)) as [|G]; auto.
    exfalso. assert (b_real tol <= Rabs (rnd64 (b_real a - b_real b))); [|lra].
    unfold rnd64. apply abs_round_ge_generic; [apply fexp_correct; exact f64_prec|typeclasses eauto|apply b_real_format|exact G].
  - destruct C as [C _]. exfalso. destruct (b_sub a b); simpl in C; try discriminate.
    destruct tol; discriminate.
Qed.

Theorem eq_with_nan_meaning P (a b tol : f64) :
  let eq := @eq_with_nan_eq f64 (ScalarF64 P) in
  (b_is_nan a = true -> eq a b tol = b_is_nan b) /\
  (b_is_nan b = true -> eq a b tol = b_is_nan a) /\
  (b_finite a = true -> b_finite b = true -> b_finite tol = true -> eq a b tol = true ->
     Rabs (b_real a - b_real b) < b_real tol) /\
  (b_finite a = true -> b_finite tol = true -> 0 < b_real tol -> eq a a tol = true) /\
  (forall s, eq (B754_infinity s) (B754_infinity s) tol = false).
Proof.
  intros eq. unfold eq, eq_with_nan_eq. cbn [feqb fltb fabs fsub ScalarF64]. rewrite !b_eqb_refl, !negb_involutive.
  refine (conj _ (conj _ (conj _ (conj _ _)))).
  - intros N. destruct a; try discriminate. destruct b, tol; reflexivity.
  - intros N. destruct b; try discriminate. destruct a, tol; reflexivity.
  - intros Fa Fb Ft E. apply below_tol; auto. destruct a; try discriminate; exact E.
  - intros Fa Ft Pt. apply orb_true_iff. right.
    pose proof (Bminus_correct 53 1024 f64_prec f64_emax mode_NE a a Fa Fa) as C.
    rewrite Rminus_diag_eq in C by reflexivity. rewrite round_0 in C by typeclasses eauto.
    rewrite Rabs_R0, Rlt_bool_true in C by apply bpow_gt_0. destruct C as (C1 & C2 & _).
    apply b_ltb_real; auto; [rewrite b_abs_finite; exact C2|].
    fold (b_sub a a) in C1. rewrite b_abs_real, C1, Rabs_R0. exact Pt.
  - intros s. destruct s, tol; reflexivity.
Qed.
