(** Kernels in binary64: symmetry, the value at the centre, the range, and what
    happens far away. *)
From Coq Require Import List Arith ZArith Lia Reals Lra Bool.
From Flocq Require Import Core BinarySingleNaN.
From Verif Require Import Base Scalar ScalarR ScalarF64 F64Facts HMap NdArray Features Spec FeatureFacts
  Kernels Basis NormF64 NonnegF64 BoundF64 TableF64.
Import ListNotations.
Local Open Scope R_scope.

(** ** Equal up to sign *)

Definition pm (a b : f64) : Prop := a = b \/ a = Bopp b.

Lemma opp_zero s : Bopp (B754_zero s : f64) = B754_zero (negb s).
Proof. reflexivity. Qed.

Lemma pm_zero s t : pm (B754_zero s) (B754_zero t).
Proof. destruct s, t; [left|right|right|left]; reflexivity. Qed.

Lemma b_zero_form z : b_finite z = true -> b_real z = 0 -> exists s, z = B754_zero s.
Proof.
  destruct z as [s|s| |s m e B]; intros F R; try discriminate; [eauto|].
  exfalso. destruct (sign_real (B754_finite s m e B)) as [[_ Q]|[_ Q]]; auto; try lra.
  simpl. destruct s; [apply Rlt_not_eq, F2R_lt_0|apply Rgt_not_eq, F2R_gt_0]; reflexivity.
Qed.

Lemma finite_not_nan (z : f64) : b_finite z = true -> b_is_nan z = false.
Proof. destruct z; auto; discriminate. Qed.

Lemma b_opp_inj_real (a b : f64) : b_finite a = true -> b_finite b = true -> b_real a = - b_real b -> b_real b <> 0 -> a = Bopp b.
Proof.
  intros Fa Fb R N.
  assert (Ro : b_real (Bopp b) = - b_real b) by apply B2R_Bopp.
  assert (Fo : b_finite (Bopp b) = b_finite b) by apply is_finite_Bopp.
  apply B2R_Bsign_inj; [auto|congruence|congruence|].
  destruct (sign_real a Fa) as [[S1 P1]|[S1 P1]]; [lra| |];
    destruct (sign_real (Bopp b)) as [[S2 P2]|[S2 P2]]; try congruence; try lra.
Qed.

Lemma overflow_opp (a b : f64) s : B2SF a = binary_overflow 53 1024 mode_NE s ->
  B2SF b = binary_overflow 53 1024 mode_NE (negb s) -> a = Bopp b.
Proof.
  intros A B. assert (a = B754_infinity s) by (apply B2SF_eq; rewrite A; destruct s; reflexivity).
  assert (b = B754_infinity (negb s)) by (apply B2SF_eq; rewrite B; destruct s; reflexivity).
  subst. destruct s; reflexivity.
Qed.

Lemma b_sub_swap x y : pm (b_sub x y) (b_sub y x).
Proof.
  destruct (b_finite x) eqn:Fx.
  2: { destruct x as [|[]| |], y as [[]|[]| |[]]; try discriminate Fx; try (left; reflexivity); right; reflexivity. }
  destruct (b_finite y) eqn:Fy.
  2: { destruct y as [|[]| |], x as [[]|[]| |[]]; try discriminate Fy; try discriminate Fx; try (left; reflexivity); right; reflexivity. }
  pose proof (Bminus_correct 53 1024 f64_prec f64_emax mode_NE x y Fx Fy) as C.
  pose proof (Bminus_correct 53 1024 f64_prec f64_emax mode_NE y x Fy Fx) as D.
  fold (b_sub x y) (rnd64 (b_real x - b_real y)) in C. fold (b_sub y x) (rnd64 (b_real y - b_real x)) in D.
  assert (O : rnd64 (b_real x - b_real y) = - rnd64 (b_real y - b_real x)).
  { rewrite <- rnd64_opp. f_equal. ring. }
  rewrite O, Rabs_Ropp in C. destruct (Rlt_bool _ _).
  - destruct C as (C1 & C2 & _), D as (D1 & D2 & _).
    destruct (Req_dec (rnd64 (b_real y - b_real x)) 0) as [Z|N].
    + destruct (b_zero_form (b_sub x y)) as [s ->]; [auto|rewrite C1, Z; ring|].
      destruct (b_zero_form (b_sub y x)) as [t ->]; [auto|rewrite D1, Z; ring|]. apply pm_zero.
    + right. apply b_opp_inj_real; auto; congruence.
  - destruct C as (C1 & C2), D as (D1 & D2). right. apply overflow_opp with (Bsign x); auto.
    rewrite D1. f_equal. rewrite C2, negb_involutive. reflexivity.
Qed.

Lemma b_div_opp x l : b_div (Bopp x) l = Bopp (b_div x l).
Proof.
  destruct (b_finite x) eqn:Fx.
  2: { destruct x as [|[]| |], l as [[]|[]| |[]]; try discriminate Fx; reflexivity. }
  destruct (Req_dec (b_real l) 0) as [Z|N].
  { destruct l as [t|t| |t m e B]; [destruct x as [[]|[]| |[]], t; try discriminate; reflexivity| | |].
    - destruct x as [[]|[]| |[]], t; try discriminate; reflexivity.
    - destruct x as [[]|[]| |[]]; try discriminate; reflexivity.
    - destruct (b_zero_form (B754_finite t m e B) eq_refl Z) as [s Q]. discriminate. }
  assert (Fo : b_finite (Bopp x) = b_finite x) by apply is_finite_Bopp.
  assert (Ro : b_real (Bopp x) = - b_real x) by apply B2R_Bopp.
  pose proof (Bdiv_correct 53 1024 f64_prec f64_emax mode_NE x l N) as C.
  pose proof (Bdiv_correct 53 1024 f64_prec f64_emax mode_NE (Bopp x) l N) as D.
  fold (b_div x l) (rnd64 (b_real x / b_real l)) in C.
  fold (b_div (Bopp x) l) (rnd64 (b_real (Bopp x) / b_real l)) in D.
  assert (O : rnd64 (b_real (Bopp x) / b_real l) = - rnd64 (b_real x / b_real l)).
  { rewrite <- rnd64_opp. f_equal. rewrite Ro. field. auto. }
  rewrite O, Rabs_Ropp in D.
  assert (Sx : Bsign (Bopp x) = negb (Bsign x)) by (destruct x; try discriminate; reflexivity).
  destruct (Rlt_bool _ _).
  - destruct C as (C1 & C2 & C3), D as (D1 & D2 & D3).
    assert (Nn : b_is_nan (b_div x l) = false) by (apply finite_not_nan; congruence).
    assert (Nd : b_is_nan (b_div (Bopp x) l) = false) by (apply finite_not_nan; congruence).
    apply B2R_Bsign_inj; [congruence| |etransitivity; [exact D1|]|].
    + transitivity (b_finite (b_div x l)); [apply is_finite_Bopp|congruence].
    + transitivity (- b_real (b_div x l)); [rewrite C1; reflexivity|symmetry; apply B2R_Bopp].
    + rewrite D3, Sx by auto. assert (Bsign (Bopp (b_div x l)) = negb (Bsign (b_div x l))) as -> by (destruct (b_div x l); auto; discriminate).
      rewrite C3 by auto. destruct (Bsign x), (Bsign l); reflexivity.
  - rewrite Sx in D. apply overflow_opp with (xorb (negb (Bsign x)) (Bsign l)); auto.
    rewrite C. f_equal. destruct (Bsign x), (Bsign l); reflexivity.
Qed.

Lemma b_mul_opp_self x : b_mul (Bopp x) (Bopp x) = b_mul x x.
Proof.
  destruct (b_finite x) eqn:Fx; [|destruct x as [|[]| |]; try discriminate; reflexivity].
  assert (Fo : b_finite (Bopp x) = b_finite x) by apply is_finite_Bopp.
  assert (Ro : b_real (Bopp x) = - b_real x) by apply B2R_Bopp.
  pose proof (Bmult_correct 53 1024 f64_prec f64_emax mode_NE x x) as C.
  pose proof (Bmult_correct 53 1024 f64_prec f64_emax mode_NE (Bopp x) (Bopp x)) as D.
  fold (b_mul x x) (rnd64 (b_real x * b_real x)) in C.
  fold (b_mul (Bopp x) (Bopp x)) (rnd64 (b_real (Bopp x) * b_real (Bopp x))) in D.
  assert (O : rnd64 (b_real (Bopp x) * b_real (Bopp x)) = rnd64 (b_real x * b_real x)).
  { f_equal. rewrite Ro. ring. }
  rewrite O in D. destruct (Rlt_bool _ _).
  - destruct C as (C1 & C2 & C3), D as (D1 & D2 & D3). rewrite Fo in D2. rewrite Fx in C2, D2. cbn [andb] in C2, D2.
    apply B2R_Bsign_inj; try congruence.
    rewrite C3, D3; [destruct (Bsign x), (Bsign (Bopp x)); reflexivity| |];
      [destruct (b_mul (Bopp x) (Bopp x))|destruct (b_mul x x)]; auto; discriminate.
  - apply B2SF_eq. rewrite C, D. f_equal. destruct (Bsign x), (Bsign (Bopp x)); reflexivity.
Qed.

Lemma b_mul_opp_l x y : b_mul (Bopp x) y = Bopp (b_mul x y).
Proof.
  destruct (b_finite x) eqn:Fx.
  2: { destruct x as [|[]| |], y as [[]|[]| |[]]; try discriminate Fx; reflexivity. }
  destruct (b_finite y) eqn:Fy.
  2: { destruct y as [|[]| |], x as [[]|[]| |[]]; try discriminate Fx; try discriminate Fy; reflexivity. }
  assert (Fo : b_finite (Bopp x) = b_finite x) by apply is_finite_Bopp.
  assert (Ro : b_real (Bopp x) = - b_real x) by apply B2R_Bopp.
  pose proof (Bmult_correct 53 1024 f64_prec f64_emax mode_NE x y) as C.
  pose proof (Bmult_correct 53 1024 f64_prec f64_emax mode_NE (Bopp x) y) as D.
  fold (b_mul x y) (rnd64 (b_real x * b_real y)) in C.
  fold (b_mul (Bopp x) y) (rnd64 (b_real (Bopp x) * b_real y)) in D.
  assert (O : rnd64 (b_real (Bopp x) * b_real y) = - rnd64 (b_real x * b_real y)).
  { rewrite <- rnd64_opp. f_equal. rewrite Ro. ring. }
  rewrite O, Rabs_Ropp in D.
  assert (Sx : Bsign (Bopp x) = negb (Bsign x)) by (destruct x; try discriminate; reflexivity).
  destruct (Rlt_bool _ _).
  - destruct C as (C1 & C2 & C3), D as (D1 & D2 & D3). rewrite Fo in D2. rewrite Fx, Fy in C2, D2. cbn [andb] in C2, D2.
    assert (Nn := finite_not_nan _ C2). assert (Nd := finite_not_nan _ D2).
    apply B2R_Bsign_inj; [congruence| |etransitivity; [exact D1|]|].
    + transitivity (b_finite (b_mul x y)); [apply is_finite_Bopp|congruence].
    + transitivity (- b_real (b_mul x y)); [rewrite C1; reflexivity|symmetry; apply B2R_Bopp].
    + rewrite D3, Sx by auto. assert (Bsign (Bopp (b_mul x y)) = negb (Bsign (b_mul x y))) as -> by (destruct (b_mul x y); auto; discriminate).
      rewrite C3 by auto. destruct (Bsign x), (Bsign y); reflexivity.
  - rewrite Sx in D. apply overflow_opp with (xorb (negb (Bsign x)) (Bsign y)); auto.
    rewrite C. f_equal. destruct (Bsign x), (Bsign y); reflexivity.
Qed.

Lemma pm_square a b : pm a b -> b_mul a a = b_mul b b.
Proof. intros [->| ->]; auto using b_mul_opp_self. Qed.

Lemma pm_div a b l : pm a b -> pm (b_div a l) (b_div b l).
Proof. intros [->| ->]; [left; reflexivity|right; apply b_div_opp]. Qed.

Lemma pm_abs a b : pm a b -> Babs a = Babs b.
Proof. intros [->| ->]; auto. destruct b; reflexivity. Qed.

(** ** Symmetry *)

Section P.
Context (P : Platform).
Notation SP := (ScalarF64 P).

Theorem distance_symmetric (k : kernel f64) x y : @kernel_distance f64 SP k x y = @kernel_distance f64 SP k y x.
Proof.
  unfold kernel_distance. f_equal. cbn [fadd fsub fmul fdiv ScalarF64].
  generalize (@fzero f64 SP). generalize (k_lengthscales k). revert y.
  induction x as [|a x IH]; intros [|b y] [|l ls] z; cbn [map2 fold_left]; auto.
  rewrite (pm_square (b_div (b_sub a b) l) (b_div (b_sub b a) l)) by (apply pm_div, b_sub_swap). apply IH.
Qed.

Theorem kernel64_symmetric (k : kernel f64) :
  (forall x y, @kernel_slice f64 SP k x y = @kernel_slice f64 SP k y x) /\
  (forall x y, @kernel_scalar f64 SP k x y = @kernel_scalar f64 SP k y x).
Proof.
  split; intros x y.
  - unfold kernel_slice. rewrite distance_symmetric. reflexivity.
  - unfold kernel_scalar. cbn [fabs fsub fdiv ScalarF64]. rewrite (pm_abs _ _ (b_sub_swap x y)). reflexivity.
Qed.

(** ** Zero distance *)

(** [exp 0 = 1], [cos 0 = 1] and [ln_1p 0 = 0], for either zero. *)
Definition unit_at_zero : Prop :=
  (forall s, p_exp P (B754_zero s) = b_one) /\ (forall s, p_cos P (B754_zero s) = b_one) /\
  (forall s, exists t, p_ln1p P (B754_zero s) = B754_zero t).

(** A usable lengthscale. *)
Definition scale_ok (l : f64) : Prop := b_finite l = true /\ b_real l <> 0.

Lemma b_sub_self x : b_finite x = true -> exists s, b_sub x x = B754_zero s.
Proof.
  intros F. pose proof (Bminus_correct 53 1024 f64_prec f64_emax mode_NE x x F F) as C.
  fold (b_sub x x) in C. rewrite Rminus_diag_eq in C by reflexivity. rewrite round_0 in C by apply valid_rnd_N.
  rewrite Rabs_R0, Rlt_bool_true in C by apply bpow_gt_0. destruct C as (C1 & C2 & _). apply b_zero_form; auto.
Qed.

Lemma b_zero_div s l : scale_ok l -> exists t, b_div (B754_zero s) l = B754_zero t.
Proof.
  intros [F N]. destruct l as [t|t| |t m e B]; try discriminate; [destruct N; reflexivity|]. simpl. eauto.
Qed.

Lemma distance_self (k : kernel f64) x :
  Forall (fun v : f64 => b_finite v = true) x -> Forall scale_ok (k_lengthscales k) ->
  @kernel_distance f64 SP k x x = b_zero.
Proof.
  intros Fx L. unfold kernel_distance. cbn [fadd fsub fmul fdiv fsqrt ScalarF64]. rewrite fzero_f64.
  transitivity (b_sqrt b_zero); [f_equal|reflexivity].
  revert L. generalize (k_lengthscales k). induction Fx as [|v x F Fx IH]; intros ls L; auto.
  destruct L as [|l ls Hl L]; auto. cbn [map2 fold_left].
  destruct (b_sub_self v F) as [s ->]. destruct (b_zero_div s l Hl) as [t ->].
  assert (b_add b_zero (b_mul (B754_zero t) (B754_zero t)) = b_zero) as -> by (destruct t; reflexivity). auto.
Qed.

Lemma stationary_zero (k : kernel f64) s : unit_at_zero ->
  (forall power, k_kind k = KRationalQuadratic power -> b_finite power = true) ->
  @kernel_stationary f64 SP k (B754_zero s) = k_variance k.
Proof.
  intros (E & C & L) Q. unfold kernel_stationary. cbn [fadd fmul fdiv fneg fexp fcos fln1p fsqrt ScalarF64].
  destruct (k_kind k) as [| | | | |power] eqn:K.
  - cbn [Bopp]. rewrite E. apply b_mul_one_r.
  - assert (A : b_mul (Bopp (b_sqrt (@flit f64 SP 3 1))) (B754_zero s) = B754_zero (negb s)) by (apply B2SF_eq; destruct s; vm_compute; reflexivity).
    assert (B : b_add (@fone f64 SP) (b_mul (b_sqrt (@flit f64 SP 3 1)) (B754_zero s)) = b_one) by (apply B2SF_eq; destruct s; vm_compute; reflexivity).
    rewrite A, B, E, !b_mul_one_r. reflexivity.
  - assert (A : b_mul (Bopp (b_sqrt (@flit f64 SP 3 1))) (B754_zero s) = B754_zero (negb s)) by (apply B2SF_eq; destruct s; vm_compute; reflexivity).
    assert (B : b_add (b_add (@fone f64 SP) (b_mul (b_sqrt (@flit f64 SP 3 1)) (B754_zero s)))
      (b_mul (b_mul (b_div (@flit f64 SP 5 1) (@flit f64 SP 3 1)) (B754_zero s)) (B754_zero s)) = b_one) by (apply B2SF_eq; destruct s; vm_compute; reflexivity).
    rewrite A, B, E, !b_mul_one_r. reflexivity.
  - assert (A : exists t, b_mul (b_mul (Bopp (@flit f64 SP 1 2)) (B754_zero s)) (B754_zero s) = B754_zero t)
      by (exists true; apply B2SF_eq; destruct s; vm_compute; reflexivity).
    destruct A as [t ->]. rewrite E. apply b_mul_one_r.
  - rewrite C. apply b_mul_one_r.
  - assert (A : exists t, b_div (b_mul (B754_zero s) (B754_zero s)) (@ftwo f64 SP) = B754_zero t)
      by (exists false; apply B2SF_eq; destruct s; vm_compute; reflexivity).
    destruct A as [t ->]. destruct (L t) as [u ->].
    assert (A : exists v, b_mul (Bopp power) (B754_zero u) = B754_zero v).
    { specialize (Q power eq_refl). destruct power as [a|a| |a m e B]; try discriminate; simpl; eauto. }
    destruct A as [v ->]. rewrite E. apply b_mul_one_r.
Qed.

Theorem kernel64_self (k : kernel f64) : unit_at_zero -> Forall scale_ok (k_lengthscales k) ->
  (forall power, k_kind k = KRationalQuadratic power -> b_finite power = true) ->
  (forall x, Forall (fun v : f64 => b_finite v = true) x -> @kernel_slice f64 SP k x x = k_variance k) /\
  (forall l ls x, k_lengthscales k = l :: ls -> b_finite x = true -> @kernel_scalar f64 SP k x x = Ret (k_variance k)).
Proof.
  intros U L Q. split.
  - intros x Fx. unfold kernel_slice. rewrite distance_self; auto. apply (stationary_zero k false); auto.
  - intros l ls x El F. unfold kernel_scalar. rewrite El. cbn [vget obind nth_error fabs fsub fdiv ScalarF64].
    rewrite El in L. inversion L as [|? ? Hl _]; subst.
    destruct (b_sub_self x F) as [s ->]. cbn [Babs]. destruct (b_zero_div false l Hl) as [t ->].
    f_equal. apply stationary_zero; auto.
Qed.

(** ** Range *)

(** [exp] of a non-positive argument, minus infinity included, is in [0, 1],
    and [ln_1p] of a non-negative one is not negative. *)
Definition exp_range : Prop := forall z, nonneg (Bopp z) ->
  b_finite (p_exp P z) = true /\ 0 <= b_real (p_exp P z) <= 1.
Definition ln_range : Prop := forall z, nonneg z -> nonneg (p_ln1p P z).

Lemma b_square_pos z : b_is_nan z = false -> nonneg (b_mul z z).
Proof.
  intros N. destruct (b_finite z) eqn:F; [apply b_mul_self, F|].
  left. destruct z as [|[]| |]; try discriminate; reflexivity.
Qed.

Lemma b_sub_not_nan x y : b_finite x = true -> b_finite y = true -> b_is_nan (b_sub x y) = false.
Proof.
  intros Fx Fy. pose proof (Bminus_correct 53 1024 f64_prec f64_emax mode_NE x y Fx Fy) as C.
  fold (b_sub x y) in C. destruct (Rlt_bool _ _).
  - apply finite_not_nan, C.
  - destruct C as [C _]. destruct (b_sub x y); auto. destruct (Bsign x); discriminate.
Qed.

Lemma b_div_not_nan x l : b_is_nan x = false -> scale_ok l -> b_is_nan (b_div x l) = false.
Proof.
  intros N [F Z]. destruct (b_finite x) eqn:Fx.
  - pose proof (Bdiv_correct 53 1024 f64_prec f64_emax mode_NE x l Z) as C. fold (b_div x l) in C.
    destruct (Rlt_bool _ _).
    + apply finite_not_nan. destruct C as (_ & C & _). congruence.
    + destruct (b_div x l); auto. destruct (xorb _ _); discriminate.
  - destruct x as [|[]| |], l as [[]|[]| |[]]; try discriminate; reflexivity.
Qed.

Lemma distance_pos (k : kernel f64) x y : Forall (fun v : f64 => b_finite v = true) x ->
  Forall (fun v : f64 => b_finite v = true) y -> Forall scale_ok (k_lengthscales k) ->
  nonneg (@kernel_distance f64 SP k x y).
Proof.
  intros Fx Fy L. unfold kernel_distance. cbn [fadd fsub fmul fdiv fsqrt ScalarF64]. apply b_sqrt_pos. rewrite fzero_f64.
  assert (Z : nonneg b_zero) by (right; simpl; split; [reflexivity|lra]). revert Z. generalize b_zero.
  revert y Fy L. generalize (k_lengthscales k). induction Fx as [|v x F Fx IH]; intros ls y Fy L z Z; auto.
  destruct Fy as [|w y Fw Fy]; auto. destruct L as [|l ls Hl L]; auto. cbn [map2 fold_left].
  apply IH; auto. apply b_add_pos; auto. apply b_square_pos, b_div_not_nan; auto. apply b_sub_not_nan; auto.
Qed.

(** What can be said of a kernel's argument to [exp]. *)
Definition decaying (k : kernel_kind f64) : Prop :=
  match k with
  | KExponential | KExpQuad => True
  | KRationalQuadratic power => b_finite power = true /\ 0 < b_real power
  | KMatern32 | KMatern52 | KCosine => False
  end.

Lemma half_real : b_finite (@flit f64 SP 1 2) = true /\ b_real (@flit f64 SP 1 2) = / 2.
Proof.
  assert (E : @flit f64 SP 1 2 = b_dyadic 1 (-1)) by (apply B2SF_eq; vm_compute; reflexivity).
  rewrite E. destruct (b_pow2 (-1)) as [F V]; [lia|]. split; auto.
Qed.

Lemma two_real : b_finite (@ftwo f64 SP) = true /\ b_real (@ftwo f64 SP) = 2.
Proof.
  assert (E : @ftwo f64 SP = b_dyadic 1 1) by (apply B2SF_eq; vm_compute; reflexivity).
  rewrite E. destruct (b_pow2 1) as [F V]; [lia|]. split; auto.
Qed.

Lemma half_square r : nonneg r -> nonneg (b_mul (b_mul (@flit f64 SP 1 2) r) r).
Proof.
  intros [->|[F L]]; [left; apply B2SF_eq; vm_compute; reflexivity|].
  destruct half_real as [Fh Vh].
  assert (W : within (b_real r) (b_mul (@flit f64 SP 1 2) r)).
  { apply b_mul_within; auto; [apply b_real_format|pose proof (b_real_small r) as Q; rewrite Rabs_pos_eq in Q; auto|].
    rewrite Vh, Rabs_pos_eq; lra. }
  destruct W as [Fm _]. destruct (b_mul_finite_inv _ _ Fm) as (_ & _ & E).
  apply b_mul_same; auto. apply Rmult_le_pos; auto. rewrite E, Vh. apply rnd64_pos. lra.
Qed.

Lemma scaled_unit v e : b_finite v = true -> 0 <= b_real v -> b_finite e = true -> 0 <= b_real e <= 1 ->
  b_finite (b_mul v e) = true /\ 0 <= b_real (b_mul v e) <= b_real v.
Proof.
  intros Fv Pv Fe Be.
  assert (M : 0 <= b_real v * b_real e <= b_real v).
  { split; [apply Rmult_le_pos; lra|]. rewrite <- (Rmult_1_r (b_real v)) at 2. apply Rmult_le_compat_l; lra. }
  destruct (b_mul_within v e (b_real v)) as [F B]; auto; [apply b_real_format|pose proof (b_real_small v) as Q; rewrite Rabs_pos_eq in Q; auto|rewrite Rabs_pos_eq; lra|].
  split; auto. destruct (b_mul_finite_inv _ _ F) as (_ & _ & E). split; [|apply Rabs_le_inv in B; lra].
  rewrite E. apply rnd64_pos. lra.
Qed.

Lemma stationary_range (k : kernel f64) r : exp_range -> ln_range -> decaying (k_kind k) ->
  b_finite (k_variance k) = true -> 0 <= b_real (k_variance k) -> nonneg r ->
  let v := @kernel_stationary f64 SP k r in b_finite v = true /\ 0 <= b_real v <= b_real (k_variance k).
Proof.
  intros E L K Fv Pv R. unfold kernel_stationary. cbn [fadd fmul fdiv fneg fexp fcos fln1p fsqrt ScalarF64]. cbv zeta.
  destruct (k_kind k) as [| | | | |power]; try contradiction.
  - assert (N : nonneg (Bopp (Bopp r))) by (rewrite Bopp_involutive; auto).
    destruct (E _ N). apply scaled_unit; auto.
  - rewrite !b_mul_opp_l.
    assert (N : nonneg (Bopp (Bopp (b_mul (b_mul (@flit f64 SP 1 2) r) r)))) by (rewrite Bopp_involutive; apply half_square; auto).
    destruct (E _ N). apply scaled_unit; auto.
  - rewrite b_mul_opp_l. destruct K as [Fp Pp].
    assert (N : nonneg (Bopp (Bopp (b_mul power (p_ln1p P (b_div (b_mul r r) (@ftwo f64 SP))))))).
    { rewrite Bopp_involutive. apply b_mul_pos; auto. apply L. destruct two_real as [Ft Vt]. apply b_div_pos; auto; [|lra].
      apply b_square_pos. apply nonneg_not_nan. auto. }
    destruct (E _ N). apply scaled_unit; auto.
Qed.

Theorem kernel64_range (k : kernel f64) : exp_range -> ln_range -> decaying (k_kind k) ->
  b_finite (k_variance k) = true -> 0 <= b_real (k_variance k) ->
  (forall x y, Forall (fun v : f64 => b_finite v = true) x -> Forall (fun v : f64 => b_finite v = true) y ->
     Forall scale_ok (k_lengthscales k) ->
     let v := @kernel_slice f64 SP k x y in b_finite v = true /\ 0 <= b_real v <= b_real (k_variance k)) /\
  (forall l ls x y, k_lengthscales k = l :: ls -> b_finite l = true -> 0 < b_real l ->
     b_finite x = true -> b_finite y = true ->
     exists v, @kernel_scalar f64 SP k x y = Ret v /\ b_finite v = true /\ 0 <= b_real v <= b_real (k_variance k)).
Proof.
  intros E L K Fv Pv. split.
  - intros x y Fx Fy Ls. apply stationary_range; auto. apply distance_pos; auto.
  - intros l ls x y El Fl Pl Fx Fy. unfold kernel_scalar. rewrite El. cbn [vget obind nth_error fabs fsub fdiv ScalarF64].
    eexists. split; [reflexivity|]. apply stationary_range; auto. apply b_div_pos; auto.
    apply b_abs_pos, b_sub_not_nan; auto.
Qed.

(** ** Far away *)

Lemma above_inf z : above z (bpow radix2 1024) -> z = b_inf.
Proof. intros [E|[F L]]; auto. pose proof (b_real_small z). pose proof (Rle_abs (b_real z)). lra. Qed.

Lemma square_big z : b_is_nan z = false -> (b_finite z = true -> bpow radix2 512 <= Rabs (b_real z)) ->
  b_mul z z = b_inf.
Proof.
  intros N B. destruct (b_finite z) eqn:F.
  - specialize (B eq_refl). apply above_inf. assert (A := b_mul_self z F). destruct A as [->|[Fm Lm]]; [left; auto|].
    exfalso. destruct (b_mul_finite_inv _ _ Fm) as (_ & _ & E).
    pose proof (b_real_small (b_mul z z)) as Q. rewrite E in Q.
    assert (M : bpow radix2 1024 <= b_real z * b_real z).
    { replace (bpow radix2 1024) with (bpow radix2 512 * bpow radix2 512) by (rewrite <- bpow_plus; reflexivity).
      rewrite <- (Rabs_pos_eq (b_real z * b_real z)) by apply Rle_0_sqr.
      rewrite Rabs_mult. pose proof (bpow_gt_0 radix2 512). apply Rmult_le_compat; lra. }
    assert (R : bpow radix2 1024 <= rnd64 (b_real z * b_real z)).
    { apply rnd64_ge; auto. rewrite fexp64. apply generic_format_bpow. unfold FLT_exp. lia. }
    pose proof (Rle_abs (rnd64 (b_real z * b_real z))). lra.
  - destruct z as [|[]| |]; try discriminate; reflexivity.
Qed.

Lemma quotient_big x y l : b_finite x = true -> b_finite y = true -> scale_ok l ->
  bpow radix2 513 * Rabs (b_real l) <= Rabs (b_real x - b_real y) ->
  b_is_nan (b_div (b_sub x y) l) = false /\
  (b_finite (b_div (b_sub x y) l) = true -> bpow radix2 512 <= Rabs (b_real (b_div (b_sub x y) l))).
Proof.
  intros Fx Fy [Fl Nl] B. split.
  - apply b_div_not_nan; [apply b_sub_not_nan; auto|split; auto].
  - intros F. destruct (b_div_finite_inv _ _ F Nl) as [Fd E]. rewrite E. clear E.
    assert (Pl := Rabs_pos_lt _ Nl).
    assert (Hs : Rabs (b_real x - b_real y) <= 2 * Rabs (b_real (b_sub x y))).
    { destruct (sub_relative (b_real x) (- b_real y)) as (d & Dd & Rd); [apply b_real_format|apply fmt_opp, b_real_format|].
      assert (E : b_real (b_sub x y) = rnd64 (b_real x - b_real y)).
      { pose proof (Bminus_correct 53 1024 f64_prec f64_emax mode_NE x y Fx Fy) as C.
        fold (b_sub x y) in C. destruct (Rlt_bool _ _); [apply C|]. destruct C as [C _]. apply overflow_not_finite in C. congruence. }
      rewrite E. unfold Rminus at 2. rewrite Rd, Rabs_mult.
      assert (uro <= / 2) by (apply (bpow_le radix2 (-53) (-1)); lia).
      assert (Rabs d <= / 2) by lra.
      assert (H2 : / 2 <= Rabs (1 + d)). { assert (A := Rabs_triang_inv 1 (- d)). rewrite Rabs_Ropp, Rabs_R1 in A. replace (1 - - d) with (1 + d) in A by ring. lra. }
      pose proof (Rabs_pos (b_real x + - b_real y)).
      assert (Rabs (b_real x + - b_real y) * / 2 <= Rabs (b_real x + - b_real y) * Rabs (1 + d)) by (apply Rmult_le_compat_l; lra).
      unfold Rminus. lra. }
    assert (Q : bpow radix2 512 <= Rabs (b_real (b_sub x y) / b_real l)).
    { unfold Rdiv. rewrite Rabs_mult, Rabs_inv.
      apply Rmult_le_reg_r with (Rabs (b_real l)); auto. rewrite Rmult_assoc, Rinv_l by lra.
      change 513%Z with (1 + 512)%Z in B. rewrite bpow_plus in B. change (bpow radix2 1) with 2 in B. lra. }
    destruct (Rle_or_lt 0 (b_real (b_sub x y) / b_real l)) as [S|S].
    + rewrite Rabs_pos_eq in Q by auto. rewrite Rabs_pos_eq by (apply rnd64_pos; auto). apply rnd64_ge; auto. apply fmt_bpow. lia.
    + rewrite Rabs_left in Q by auto. rewrite <- Rabs_Ropp, <- rnd64_opp. rewrite Rabs_pos_eq by (apply rnd64_pos; lra).
      apply rnd64_ge; auto. apply fmt_bpow. lia.
Qed.

(** One coordinate 2^513 lengthscales away. *)
Definition far (k : kernel f64) (x y : list f64) : Prop := exists i a b l,
  nth_error x i = Some a /\ nth_error y i = Some b /\ nth_error (k_lengthscales k) i = Some l /\
  bpow radix2 513 * Rabs (b_real l) <= Rabs (b_real a - b_real b).

Lemma b_add_inf_l z : nonneg z -> b_add b_inf z = b_inf.
Proof. intros [->|[F L]]; [reflexivity|]. destruct z as [|[]| |]; try discriminate; reflexivity. Qed.
Lemma b_add_inf_r z : nonneg z -> b_add z b_inf = b_inf.
Proof. intros [->|[F L]]; [reflexivity|]. destruct z as [|[]| |]; try discriminate; reflexivity. Qed.

Lemma far_fold x y ls : Forall (fun v : f64 => b_finite v = true) x -> Forall (fun v : f64 => b_finite v = true) y ->
  Forall scale_ok ls -> forall z, nonneg z ->
  (z = b_inf \/ exists i a b l, nth_error x i = Some a /\ nth_error y i = Some b /\ nth_error ls i = Some l /\
     bpow radix2 513 * Rabs (b_real l) <= Rabs (b_real a - b_real b)) ->
  fold_left (fun acc z => b_add acc (b_mul z z)) (map2 b_div (map2 b_sub x y) ls) z = b_inf.
Proof.
  intros Fx. revert y ls. induction Fx as [|v x F Fx IH]; intros y ls Fy L z Z H.
  { destruct H as [->|([|i] & a & b & l & E & _)]; [reflexivity|discriminate|discriminate]. }
  destruct Fy as [|w y Fw Fy].
  { destruct H as [->|([|i] & a & b & l & _ & E & _)]; [reflexivity|discriminate|discriminate]. }
  destruct L as [|l ls Hl L].
  { destruct H as [->|([|i] & a & b & l & _ & _ & E & _)]; [reflexivity|discriminate|discriminate]. }
  cbn [map2 fold_left].
  assert (Sq : nonneg (b_mul (b_div (b_sub v w) l) (b_div (b_sub v w) l))).
  { apply b_square_pos, b_div_not_nan; auto. apply b_sub_not_nan; auto. }
  apply IH; auto; [apply b_add_pos; auto|].
  destruct H as [->|([|i] & a & b & l' & Ea & Eb & El & B)].
  - left. apply b_add_inf_l; auto.
  - left. injection Ea as <-. injection Eb as <-. injection El as <-.
    destruct (quotient_big v w l F Fw Hl B) as [N G]. rewrite square_big by auto. apply b_add_inf_r; auto.
  - right. exists i, a, b, l'. auto.
Qed.

Lemma far_distance (k : kernel f64) x y : Forall (fun v : f64 => b_finite v = true) x ->
  Forall (fun v : f64 => b_finite v = true) y -> Forall scale_ok (k_lengthscales k) -> far k x y ->
  @kernel_distance f64 SP k x y = b_inf.
Proof.
  intros Fx Fy L H. unfold kernel_distance. cbn [fadd fsub fmul fdiv fsqrt ScalarF64]. rewrite fzero_f64.
  rewrite (far_fold x y (k_lengthscales k) Fx Fy L b_zero); [reflexivity|right; simpl; split; [reflexivity|lra]|].
  right. exact H.
Qed.

(** [exp] and [ln_1p] at the infinities. *)
Definition at_infinity : Prop := p_exp P b_neginf = b_zero /\ p_ln1p P b_inf = b_inf.

Theorem kernel64_far (k : kernel f64) x y : at_infinity ->
  Forall (fun v : f64 => b_finite v = true) x -> Forall (fun v : f64 => b_finite v = true) y ->
  Forall scale_ok (k_lengthscales k) -> far k x y -> b_finite (k_variance k) = true ->
  let v := @kernel_slice f64 SP k x y in
  match k_kind k with
  | KExponential | KExpQuad => b_finite v = true /\ b_real v = 0
  | KMatern32 | KMatern52 => v = b_nan
  | KCosine => v = b_mul (k_variance k) (p_cos P b_inf)
  | KRationalQuadratic power => b_finite power = true ->
      (0 < b_real power -> b_finite v = true /\ b_real v = 0) /\
      (b_real power = 0 -> p_exp P b_nan = b_nan -> v = b_nan)
  end.
Proof.
  intros [Ei Li] Fx Fy L H Fv. cbv zeta. unfold kernel_slice. rewrite (far_distance k x y Fx Fy L H).
  unfold kernel_stationary. cbn [fadd fmul fdiv fneg fexp fcos fln1p fsqrt ScalarF64].
  assert (V0 : b_finite (b_mul (k_variance k) b_zero) = true /\ b_real (b_mul (k_variance k) b_zero) = 0).
  { destruct (k_variance k); try discriminate; simpl; auto. }
  destruct (k_kind k) as [| | | | |power].
  - change (Bopp b_inf) with b_neginf. rewrite Ei. auto.
  - assert (A : b_mul (Bopp (b_sqrt (@flit f64 SP 3 1))) b_inf = b_neginf) by (apply B2SF_eq; vm_compute; reflexivity).
    assert (B : b_add (@fone f64 SP) (b_mul (b_sqrt (@flit f64 SP 3 1)) b_inf) = b_inf) by (apply B2SF_eq; vm_compute; reflexivity).
    rewrite A, B, Ei. destruct (k_variance k) as [|[]| |[]]; try discriminate; reflexivity.
  - assert (A : b_mul (Bopp (b_sqrt (@flit f64 SP 3 1))) b_inf = b_neginf) by (apply B2SF_eq; vm_compute; reflexivity).
    assert (B : b_add (b_add (@fone f64 SP) (b_mul (b_sqrt (@flit f64 SP 3 1)) b_inf))
      (b_mul (b_mul (b_div (@flit f64 SP 5 1) (@flit f64 SP 3 1)) b_inf) b_inf) = b_inf) by (apply B2SF_eq; vm_compute; reflexivity).
    rewrite A, B, Ei. destruct (k_variance k) as [|[]| |[]]; try discriminate; reflexivity.
  - assert (A : b_mul (b_mul (Bopp (@flit f64 SP 1 2)) b_inf) b_inf = b_neginf) by (apply B2SF_eq; vm_compute; reflexivity).
    rewrite A, Ei. auto.
  - reflexivity.
  - assert (A : b_div (b_mul b_inf b_inf) (@ftwo f64 SP) = b_inf) by (apply B2SF_eq; vm_compute; reflexivity).
    rewrite A, Li. intros Fp. split.
    + intros Pp. assert (M : b_mul (Bopp power) b_inf = b_neginf).
      { destruct power as [s|s| |s m e B]; try discriminate; [simpl in Pp; lra|].
        destruct s; [|reflexivity]. exfalso. assert (b_real (B754_finite true m e B) < 0) by (apply F2R_lt_0; reflexivity). lra. }
      rewrite M, Ei. auto.
    + intros Zp En. destruct (b_zero_form power Fp Zp) as [s ->].
      assert (M : b_mul (Bopp (B754_zero s)) b_inf = b_nan) by (destruct s; reflexivity).
      rewrite M, En. destruct (k_variance k); reflexivity.
Qed.
End P.
