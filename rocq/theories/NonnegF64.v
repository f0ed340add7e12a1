(** Non-negative binary64 values, infinity included, under the operations the
    optimisers use. *)
From Coq Require Import List Arith ZArith Lia Reals Lra Bool.
From Flocq Require Import Core.Core IEEE754.BinarySingleNaN.
From Flocq Require Plus_error Mult_error.
From Verif Require Import Base Scalar ScalarR ScalarF64 F64Facts HMap NdArray Features Spec FeatureFacts Basis NormF64 Optim.
Import ListNotations.
Local Open Scope R_scope.

Definition nonneg (z : f64) : Prop := above z 0.

Lemma nonneg_not_nan z : nonneg z -> b_is_nan z = false.
Proof. intros [->|[E _]]; [reflexivity|]. destruct z; auto; discriminate. Qed.

Lemma sign_real (x : f64) : b_finite x = true -> b_real x <> 0 ->
  (Bsign x = false /\ 0 < b_real x) \/ (Bsign x = true /\ b_real x < 0).
Proof.
  destruct x as [s|s| |s m e B]; intros E N; try discriminate; [destruct N; reflexivity|].
  destruct s; [right|left]; (split; [reflexivity|]); [apply F2R_lt_0|apply F2R_gt_0]; reflexivity.
Qed.

Lemma inf_of_overflow (z : f64) s : B2SF z = binary_overflow 53 1024 mode_NE s -> s = false -> z = b_inf.
Proof. intros E ->. apply B2SF_eq. rewrite E. reflexivity. Qed.

Lemma rnd64_ge x y : generic_format radix2 (SpecFloat.fexp 53 1024) x -> x <= y -> x <= rnd64 y.
Proof. intros G L. apply round_ge_generic; auto; [apply fexp_correct, f64_prec|apply valid_rnd_N]. Qed.
Lemma rnd64_le x y : generic_format radix2 (SpecFloat.fexp 53 1024) y -> x <= y -> rnd64 x <= y.
Proof. intros G L. apply round_le_generic; auto; [apply fexp_correct, f64_prec|apply valid_rnd_N]. Qed.
Lemma fmt_0 : generic_format radix2 (SpecFloat.fexp 53 1024) 0.
Proof. apply generic_format_0. Qed.
Lemma rnd64_pos y : 0 <= y -> 0 <= rnd64 y.
Proof. apply rnd64_ge, fmt_0. Qed.
Lemma rnd64_0 : rnd64 0 = 0.
Proof. apply round_0, valid_rnd_N. Qed.

(** Sum: at least each operand. *)
Lemma b_add_either a b r : nonneg a -> nonneg b -> above a r \/ above b r -> above (b_add a b) r.
Proof.
  intros [->|[Fa La]] [->|[Fb Lb]] A.
  - left. reflexivity.
  - left. destruct b as [[]|[]| |[]]; try discriminate; reflexivity.
  - left. destruct a as [[]|[]| |[]]; try discriminate; reflexivity.
  - pose proof (Bplus_correct 53 1024 f64_prec f64_emax mode_NE a b Fa Fb) as C.
    fold (b_add a b) in C. fold (rnd64 (b_real a + b_real b)) in C.
    destruct (Rlt_bool_spec (Rabs (rnd64 (b_real a + b_real b))) (bpow radix2 1024)) as [L|L].
    + destruct C as (C1 & C2 & _). right. split; [exact C2|]. rewrite C1.
      destruct A as [[->|[_ A]]|[->|[_ A]]]; try discriminate.
      * apply Rle_trans with (b_real a); [exact A|]. apply rnd64_ge; [apply b_real_format|lra].
      * apply Rle_trans with (b_real b); [exact A|]. apply rnd64_ge; [apply b_real_format|lra].
    + left. destruct C as [C1 C2]. apply inf_of_overflow with (Bsign a); [exact C1|].
      destruct (Req_dec (b_real a) 0) as [Z|N].
      * destruct (Req_dec (b_real b) 0) as [Z'|N'].
        { exfalso. rewrite Z, Z', Rplus_0_r, rnd64_0, Rabs_R0 in L. assert (B := bpow_gt_0 radix2 1024). lra. }
        { destruct (sign_real b Fb N') as [[Q _]|[_ Q]]; [congruence|lra]. }
      * destruct (sign_real a Fa N) as [[-> _]|[_ Q]]; [reflexivity|lra].
Qed.

Lemma b_add_pos a b : nonneg a -> nonneg b -> nonneg (b_add a b).
Proof. intros A B. apply b_add_either; auto. Qed.

(** Product of finite values of the same sign. *)
Lemma b_mul_same a b : b_finite a = true -> b_finite b = true -> 0 <= b_real a * b_real b ->
  nonneg (b_mul a b) /\ (b_finite (b_mul a b) = true -> b_real (b_mul a b) = rnd64 (b_real a * b_real b)).
Proof.
  intros Fa Fb L. split; [|intros E; apply b_mul_finite_inv, E].
  pose proof (Bmult_correct 53 1024 f64_prec f64_emax mode_NE a b) as C.
  fold (b_mul a b) in C. fold (rnd64 (b_real a * b_real b)) in C.
  destruct (Rlt_bool_spec (Rabs (rnd64 (b_real a * b_real b))) (bpow radix2 1024)) as [Q|Q].
  - destruct C as (C1 & C2 & _). right. rewrite Fa, Fb in C2. split; [exact C2|]. rewrite C1. apply rnd64_pos, L.
  - left. apply inf_of_overflow with (xorb (Bsign a) (Bsign b)); [exact C|].
    assert (N : b_real a <> 0 /\ b_real b <> 0).
    { split; intros Z; rewrite Z in Q; [rewrite Rmult_0_l in Q|rewrite Rmult_0_r in Q]; rewrite rnd64_0, Rabs_R0 in Q;
        assert (B := bpow_gt_0 radix2 1024); lra. }
    destruct N as [Na Nb], (sign_real a Fa Na) as [[-> Pa]|[-> Pa]], (sign_real b Fb Nb) as [[-> Pb]|[-> Pb]]; auto; exfalso; nra.
Qed.

Lemma b_mul_self x : b_finite x = true -> nonneg (b_mul x x).
Proof. intros Fx. apply b_mul_same; auto. apply Rle_0_sqr. Qed.

Lemma b_mul_pos a b : b_finite a = true -> 0 < b_real a -> nonneg b -> nonneg (b_mul a b).
Proof.
  intros Fa Pa [->|[Fb Lb]].
  - left. destruct (sign_real a Fa) as [[S _]|[_ Q]]; [lra| |lra].
    destruct a as [s|s| |s m e B]; try discriminate; simpl in S; subst; [simpl in Pa; lra|reflexivity].
  - apply b_mul_same; auto. apply Rmult_le_pos; lra.
Qed.

Lemma b_div_pos a d : nonneg a -> b_finite d = true -> 0 < b_real d -> nonneg (b_div a d).
Proof.
  intros [->|[Fa La]] Fd Pd.
  - left. destruct (sign_real d Fd) as [[S _]|[_ Q]]; [lra| |lra].
    destruct d as [s|s| |s m e B]; try discriminate; simpl in S; subst; [reflexivity|reflexivity].
  - pose proof (Bdiv_correct 53 1024 f64_prec f64_emax mode_NE a d ltac:(lra)) as C.
    fold (b_div a d) in C. fold (rnd64 (b_real a / b_real d)) in C.
    assert (Q0 : 0 <= b_real a / b_real d) by (apply Rmult_le_pos; [lra|left; apply Rinv_0_lt_compat, Pd]).
    destruct (Rlt_bool_spec (Rabs (rnd64 (b_real a / b_real d))) (bpow radix2 1024)) as [Q|Q].
    + destruct C as (C1 & C2 & _). right. rewrite Fa in C2. split; [exact C2|]. rewrite C1. apply rnd64_pos, Q0.
    + left. apply inf_of_overflow with (xorb (Bsign a) (Bsign d)); [exact C|].
      assert (N : b_real a <> 0).
      { intros Z. unfold Rdiv in Q. rewrite Z, Rmult_0_l, rnd64_0, Rabs_R0 in Q. assert (B := bpow_gt_0 radix2 1024). lra. }
      destruct (sign_real a Fa N) as [[-> Pa]|[-> Pa]], (sign_real d Fd) as [[-> Pb]|[-> Pb]]; auto; lra.
Qed.

Lemma b_sqrt_pos z : nonneg z -> nonneg (b_sqrt z).
Proof.
  intros [->|[Fz Lz]]; [left; reflexivity|].
  destruct (Bsqrt_correct 53 1024 f64_prec f64_emax mode_NE z) as (C1 & C2 & _).
  fold (b_sqrt z) in C1, C2. right. split.
  - rewrite C2. destruct z as [s|s| |s m e B]; try discriminate; auto. destruct s; auto.
    exfalso. assert (b_real (B754_finite true m e B) < 0) by (apply F2R_lt_0; reflexivity). lra.
  - rewrite C1. apply rnd64_pos, sqrt_pos.
Qed.

Lemma b_max_pos a b : nonneg a -> nonneg b -> nonneg (b_max a b).
Proof.
  intros Na Nb. unfold b_max. destruct a, b; auto; destruct (Bltb _ _); auto.
Qed.

Lemma b_abs_pos x : b_is_nan x = false -> nonneg (Babs x).
Proof.
  intros N. destruct x as [s|s| |s m e B]; try discriminate; [right|left|right]; simpl; try (split; [reflexivity|]); try reflexivity.
  - lra.
  - left. apply F2R_gt_0. reflexivity.
Qed.

Lemma b_one_minus p : b_finite p = true -> 0 <= b_real p < 1 ->
  b_finite (b_sub b_one p) = true /\ 0 < b_real (b_sub b_one p) <= 1.
Proof.
  intros Fp Lp.
  pose proof (Bminus_correct 53 1024 f64_prec f64_emax mode_NE b_one p eq_refl Fp) as C.
  fold (b_sub b_one p) in C. rewrite b_one_real in C. fold (rnd64 (1 - b_real p)) in C.
  assert (U : rnd64 (1 - b_real p) <= 1) by (apply rnd64_le; [apply round_1|lra]).
  assert (L : 0 <= rnd64 (1 - b_real p)) by (apply rnd64_pos; lra).
  rewrite Rlt_bool_true in C.
  2: { rewrite Rabs_pos_eq by exact L. apply Rle_lt_trans with 1; [exact U|]. apply (bpow_lt radix2 0 1024). reflexivity. }
  destruct C as (C1 & C2 & _). split; [exact C2|]. rewrite C1. split; [|exact U].
  destruct L as [L|L]; [exact L|]. exfalso. symmetry in L. revert L. unfold Rminus.
  apply Plus_error.round_plus_neq_0; [apply fexp_correct, f64_prec| | |apply round_1|apply generic_format_opp, b_real_format|lra].
  - apply monotone_exp_not_FTZ; [apply fexp_correct, f64_prec|apply fexp_monotone].
  - apply valid_rnd_N.
Qed.

(** Powers of a decay factor. *)
Lemma b_mul_unit p b : b_finite p = true -> b_finite b = true -> 0 <= b_real p < 1 -> 0 <= b_real b < 1 ->
  b_finite (b_mul p b) = true /\ 0 <= b_real (b_mul p b) < 1.
Proof.
  intros Fp Fb Lp Lb.
  assert (M : 0 <= b_real p * b_real b) by (apply Rmult_le_pos; lra).
  assert (U : rnd64 (b_real p * b_real b) <= b_real b) by (apply rnd64_le; [apply b_real_format|nra]).
  assert (L := rnd64_pos _ M).
  pose proof (Bmult_correct 53 1024 f64_prec f64_emax mode_NE p b) as C.
  fold (b_mul p b) in C. fold (rnd64 (b_real p * b_real b)) in C. rewrite Rlt_bool_true in C.
  2: { rewrite Rabs_pos_eq by exact L. apply Rle_lt_trans with 1; [lra|]. apply (bpow_lt radix2 0 1024). reflexivity. }
  destruct C as (C1 & C2 & _). rewrite Fp, Fb in C2. rewrite C1. split; [exact C2|]. lra.
Qed.

(** Scaling by a factor in [0, 1]: finite, no larger, same sign. *)
Lemma b_mul_shrink c x : b_finite c = true -> 0 <= b_real c <= 1 -> b_finite x = true ->
  b_finite (b_mul c x) = true /\ Rabs (b_real (b_mul c x)) <= Rabs (b_real x) /\
  0 <= b_real (b_mul c x) * b_real x.
Proof.
  intros Fc Lc Fx.
  assert (A : Rabs (b_real c * b_real x) <= Rabs (b_real x)).
  { rewrite Rabs_mult, (Rabs_pos_eq (b_real c)) by lra. assert (B := Rabs_pos (b_real x)). nra. }
  assert (U : Rabs (rnd64 (b_real c * b_real x)) <= Rabs (b_real x)).
  { apply abs_round_le_generic; auto; [apply fexp_correct, f64_prec|apply valid_rnd_N|].
    apply generic_format_abs, b_real_format. }
  pose proof (Bmult_correct 53 1024 f64_prec f64_emax mode_NE c x) as C.
  fold (b_mul c x) in C. fold (rnd64 (b_real c * b_real x)) in C. rewrite Rlt_bool_true in C.
  2: { apply Rle_lt_trans with (1 := U). apply b_real_small. }
  destruct C as (C1 & C2 & _). rewrite Fc, Fx in C2. rewrite C1. split; [exact C2|]. split; [exact U|].
  destruct (Rle_or_lt 0 (b_real x)) as [P|N].
  - apply Rmult_le_pos; [|exact P]. apply rnd64_pos, Rmult_le_pos; lra.
  - assert (rnd64 (b_real c * b_real x) <= 0) by (apply rnd64_le; [apply fmt_0|nra]). nra.
Qed.

(** ** EPS *)

Definition b_eps : f64 := b_div (b_dyadic 1 0) (b_dyadic 10000000 0).
Lemma EPS_f64 P : @EPS f64 (ScalarF64 P) = b_eps.
Proof. reflexivity. Qed.

Lemma b_eps_bound : b_finite b_eps = true /\ bpow radix2 (-24) <= b_real b_eps.
Proof.
  assert (Fe : b_finite b_eps = true) by (vm_compute; reflexivity).
  split; [exact Fe|].
  assert (Q : Bleb (b_dyadic 1 (-24)) b_eps = true) by (vm_compute; reflexivity).
  assert (Fd : b_finite (b_dyadic 1 (-24)) = true) by (vm_compute; reflexivity).
  rewrite Bleb_correct in Q by auto.
  destruct (Rle_bool_spec (b_real (b_dyadic 1 (-24))) (b_real b_eps)) as [L|]; [|discriminate].
  apply Rle_trans with (2 := L). apply Req_le.
  unfold b_dyadic. pose proof (binary_normalize_correct 53 1024 f64_prec f64_emax mode_NE 1 (-24) false) as C.
  cbv zeta in C. assert (E : F2R (Float radix2 1 (-24)) = bpow radix2 (-24)) by (unfold F2R; simpl Fnum; simpl Fexp; ring).
  rewrite E in C. rewrite round_generic in C; [|apply valid_rnd_N|].
  2: { apply generic_format_bpow. vm_compute. discriminate. }
  rewrite Rlt_bool_true in C; [symmetry; apply C|].
  rewrite Rabs_pos_eq by apply bpow_ge_0. apply bpow_lt. reflexivity.
Qed.

Lemma b_eps_pos : nonneg b_eps.
Proof. right. destruct b_eps_bound as [A B]. split; auto. apply Rle_trans with (2 := B), bpow_ge_0. Qed.

(** A denominator [z + EPS] with [z] non-negative. *)
Lemma b_denominator z : nonneg z -> above (b_add z b_eps) (bpow radix2 (-24)).
Proof.
  intros N. apply b_add_either; auto; [apply b_eps_pos|]. right. right. apply b_eps_bound.
Qed.

(** Dividing a finite value by such a denominator. *)
Lemma b_div_above n d : b_finite n = true -> above d (bpow radix2 (-24)) ->
  b_is_nan (b_div n d) = false /\
  (Rabs (b_real n) <= bpow radix2 999 ->
   b_finite (b_div n d) = true /\ Rabs (b_real (b_div n d)) <= bpow radix2 24 * Rabs (b_real n)).
Proof.
  intros Fn [->|[Fd Ld]].
  - destruct (b_div_inf n Fn) as [s ->]. split; [reflexivity|]. intros _. split; [reflexivity|].
    cbn [B2R]. rewrite Rabs_R0. apply Rmult_le_pos; [apply bpow_ge_0|apply Rabs_pos].
  - assert (B24 := bpow_gt_0 radix2 (-24)). assert (Pd : 0 < b_real d) by lra.
    pose proof (Bdiv_correct 53 1024 f64_prec f64_emax mode_NE n d ltac:(lra)) as C.
    fold (b_div n d) in C. fold (rnd64 (b_real n / b_real d)) in C.
    assert (Sc : Rabs (b_real n / b_real d) <= bpow radix2 24 * Rabs (b_real n)).
    { unfold Rdiv. rewrite Rabs_mult, (Rabs_pos_eq (/ b_real d)) by (left; apply Rinv_0_lt_compat, Pd).
      rewrite Rmult_comm. apply Rmult_le_compat_r; [apply Rabs_pos|].
      change 24%Z with (- -24)%Z. rewrite bpow_opp. apply Rinv_le; auto. }
    split.
    + destruct (Rlt_bool _ _).
      * destruct C as (_ & C2 & _). rewrite Fn in C2. destruct (b_div n d); auto; discriminate.
      * destruct (b_div n d); auto. simpl in C. unfold binary_overflow in C. simpl in C. destruct (xorb _ _); discriminate C.
    + intros Sm.
      assert (G : generic_format radix2 (SpecFloat.fexp 53 1024) (bpow radix2 24 * Rabs (b_real n))).
      { rewrite Rmult_comm, fexp64. apply Mult_error.mult_bpow_pos_exact_FLT; [|lia].
        rewrite <- fexp64. apply generic_format_abs, b_real_format. }
      assert (U : Rabs (rnd64 (b_real n / b_real d)) <= bpow radix2 24 * Rabs (b_real n)).
      { apply abs_round_le_generic; auto; [apply fexp_correct, f64_prec|apply valid_rnd_N]. }
      assert (V : bpow radix2 24 * Rabs (b_real n) < bpow radix2 1024).
      { apply Rle_lt_trans with (bpow radix2 24 * bpow radix2 999).
        - apply Rmult_le_compat_l; [apply bpow_ge_0|exact Sm].
        - rewrite <- bpow_plus. apply bpow_lt. reflexivity. }
      rewrite Rlt_bool_true in C by lra. destruct C as (C1 & C2 & _). rewrite Fn in C2. rewrite C1. auto.
Qed.

(** Adding something that is not NaN to a finite value. *)
Lemma b_add_not_nan w d : b_finite w = true -> b_is_nan d = false -> b_is_nan (b_add w d) = false.
Proof.
  intros Fw Nd. destruct (b_finite d) eqn:Fd.
  - pose proof (Bplus_correct 53 1024 f64_prec f64_emax mode_NE w d Fw Fd) as C. fold (b_add w d) in C.
    destruct (Rlt_bool _ _).
    + destruct C as (_ & C & _). destruct (b_add w d); auto; discriminate.
    + destruct C as [C _]. destruct (b_add w d); auto. simpl in C. destruct (Bsign w); discriminate C.
  - destruct d as [|[]| |]; try discriminate; destruct w as [[]|[]| |[]]; try discriminate; reflexivity.
Qed.
