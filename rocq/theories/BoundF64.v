(** Magnitude bounds on single binary64 operations, and on sums of many bounded
    increments. *)
From Coq Require Import List Arith ZArith Lia Reals Lra Bool.
From Flocq Require Import Core.Core IEEE754.BinarySingleNaN.
From Flocq Require Plus_error Mult_error.
From Verif Require Import Base Scalar ScalarR ScalarF64 F64Facts HMap NdArray Features Spec FeatureFacts Basis NormF64 Optim NonnegF64.
Import ListNotations.
Local Open Scope R_scope.

Notation fmt64 := (generic_format radix2 (SpecFloat.fexp 53 1024)).

(** [x] is finite and at most [B] in magnitude. *)
Definition within (B : R) (x : f64) : Prop := b_finite x = true /\ Rabs (b_real x) <= B.

Lemma within_le B C x : within B x -> B <= C -> within C x.
Proof. intros [A L] M. split; auto. lra. Qed.

Lemma within_finite x : b_finite x = true -> within (Rabs (b_real x)) x.
Proof. intros Fx. split; auto. lra. Qed.

Lemma fmt_bpow k : (-1074 <= k <= 1023)%Z -> fmt64 (bpow radix2 k).
Proof. intros L. rewrite fexp64. apply generic_format_bpow. unfold FLT_exp. lia. Qed.

Lemma fmt_scale x k : fmt64 x -> (0 <= k)%Z -> fmt64 (x * bpow radix2 k).
Proof. intros G L. rewrite fexp64 in *. apply Mult_error.mult_bpow_pos_exact_FLT; auto. Qed.

Lemma rnd64_abs x B : fmt64 B -> Rabs x <= B -> Rabs (rnd64 x) <= B.
Proof. intros G L. apply abs_round_le_generic; auto; [apply fexp_correct, f64_prec|apply valid_rnd_N]. Qed.

Lemma b_mul_rnd x y B : b_finite x = true -> b_finite y = true -> Rabs (rnd64 (b_real x * b_real y)) <= B ->
  B < bpow radix2 1024 -> within B (b_mul x y).
Proof.
  intros Fx Fy L S. pose proof (Bmult_correct 53 1024 f64_prec f64_emax mode_NE x y) as C.
  fold (b_mul x y) in C. fold (rnd64 (b_real x * b_real y)) in C. rewrite Rlt_bool_true in C by lra.
  destruct C as (C1 & C2 & _). rewrite Fx, Fy in C2. split; [exact C2|]. rewrite C1. exact L.
Qed.

Lemma b_mul_within x y B : b_finite x = true -> b_finite y = true -> fmt64 B -> B < bpow radix2 1024 ->
  Rabs (b_real x * b_real y) <= B -> within B (b_mul x y).
Proof. intros. apply b_mul_rnd; auto. apply rnd64_abs; auto. Qed.

Lemma b_add_rnd x y B : b_finite x = true -> b_finite y = true -> Rabs (rnd64 (b_real x + b_real y)) <= B ->
  B < bpow radix2 1024 -> within B (b_add x y).
Proof.
  intros Fx Fy L S. pose proof (Bplus_correct 53 1024 f64_prec f64_emax mode_NE x y Fx Fy) as C.
  fold (b_add x y) in C. fold (rnd64 (b_real x + b_real y)) in C. rewrite Rlt_bool_true in C by lra.
  destruct C as (C1 & C2 & _). split; [exact C2|]. rewrite C1. exact L.
Qed.

Lemma b_div_within x y B : b_finite x = true -> b_real y <> 0 -> fmt64 B -> B < bpow radix2 1024 ->
  Rabs (b_real x / b_real y) <= B -> within B (b_div x y).
Proof.
  intros Fx Ny G S L. pose proof (Bdiv_correct 53 1024 f64_prec f64_emax mode_NE x y Ny) as C.
  fold (b_div x y) in C. fold (rnd64 (b_real x / b_real y)) in C.
  assert (U := rnd64_abs _ _ G L). rewrite Rlt_bool_true in C by lra.
  destruct C as (C1 & C2 & _). rewrite Fx in C2. split; [exact C2|]. rewrite C1. exact U.
Qed.

Lemma b_abs_within B x : within B x -> within B (Babs x).
Proof. intros [A L]. split; [rewrite b_abs_finite; exact A|]. rewrite b_abs_real, Rabs_Rabsolu. exact L. Qed.

Lemma b_max_within B x y : within B x -> within B y -> within B (b_max x y).
Proof. intros Wx Wy. unfold b_max. destruct x, y; auto; destruct (Bltb _ _); auto. Qed.

(** ** 1 - p *)

Lemma b_one_minus_low p : b_finite p = true -> 0 <= b_real p < 1 ->
  bpow radix2 (-53) <= b_real (b_sub b_one p).
Proof.
  intros Fp Lp.
  assert (A : b_real p <= 1 - bpow radix2 (-53)).
  { assert (B : b_real p <= pred radix2 (SpecFloat.fexp 53 1024) 1).
    { apply pred_ge_gt; [apply fexp_correct, f64_prec|apply b_real_format|apply round_1|lra]. }
    change 1 with (bpow radix2 0) in B at 1. rewrite pred_bpow in B. exact B. }
  destruct (b_one_minus p Fp Lp) as [F1 L1].
  pose proof (Bminus_correct 53 1024 f64_prec f64_emax mode_NE b_one p eq_refl Fp) as C.
  fold (b_sub b_one p) in C. rewrite b_one_real in C. fold (rnd64 (1 - b_real p)) in C.
  assert (U : rnd64 (1 - b_real p) <= 1) by (apply rnd64_le; [apply round_1|lra]).
  assert (L : bpow radix2 (-53) <= rnd64 (1 - b_real p)) by (apply rnd64_ge; [apply fmt_bpow; lia|lra]).
  assert (B53 := bpow_gt_0 radix2 (-53)).
  rewrite Rlt_bool_true in C.
  2: { rewrite Rabs_pos_eq by lra. apply Rle_lt_trans with 1; [exact U|]. apply (bpow_lt radix2 0 1024). reflexivity. }
  destruct C as (-> & _). exact L.
Qed.

(** b + fl(1 - b) exceeds 1 by less than half a unit in the last place of 1. *)
Lemma b_one_minus_sum b : b_finite b = true -> 0 <= b_real b < 1 ->
  b_real b + b_real (b_sub b_one b) < 1 + bpow radix2 (-53).
Proof.
  intros Fb Lb. assert (B53 := bpow_gt_0 radix2 (-53)).
  pose proof (Bminus_correct 53 1024 f64_prec f64_emax mode_NE b_one b eq_refl Fb) as C.
  fold (b_sub b_one b) in C. rewrite b_one_real in C. fold (rnd64 (1 - b_real b)) in C.
  assert (U : rnd64 (1 - b_real b) <= 1) by (apply rnd64_le; [apply round_1|lra]).
  assert (L : 0 <= rnd64 (1 - b_real b)) by (apply rnd64_pos; lra).
  rewrite Rlt_bool_true in C.
  2: { rewrite Rabs_pos_eq by lra. apply Rle_lt_trans with 1; [exact U|]. apply (bpow_lt radix2 0 1024). reflexivity. }
  destruct C as (-> & _).
  destruct (Req_dec (b_real b) 0) as [Z|NZ]; [lra|].
  destruct (@Plus_error.FLT_plus_error_N_ex radix2 (-1074) 53 f64_prec (fun z => negb (Z.even z))
    1 (- b_real b)) as (d & D & Q).
  { rewrite <- fexp64. apply round_1. } { apply generic_format_opp. rewrite <- fexp64. apply b_real_format. }
  rewrite u_ro_uro in D. assert (D' : Rabs d <= uro) by (eapply Rle_trans; [exact D|apply u_over_le]).
  change (rnd64 (1 + - b_real b) = (1 + - b_real b) * (1 + d)) in Q.
  unfold Rminus. rewrite Q. assert (D2 := Rle_abs d). unfold uro in *. nra.
Qed.

(** A convex combination, as computed, of values bounded by a power of two stays
    bounded by that power of two. *)
Lemma b_blend b A B k : b_finite b = true -> 0 <= b_real b < 1 -> (0 <= k <= 1023)%Z ->
  within (b_real b * bpow radix2 k) A -> within (b_real (b_sub b_one b) * bpow radix2 k) B ->
  within (bpow radix2 k) (b_add A B).
Proof.
  intros Fb Lb Lk [FA LA] [FB LB]. assert (Bk := bpow_gt_0 radix2 k). assert (B53 := bpow_gt_0 radix2 (-53)).
  assert (Sm := b_one_minus_sum b Fb Lb).
  assert (T : Rabs (b_real A + b_real B) < bpow radix2 k + bpow radix2 (k - 53)).
  { apply Rle_lt_trans with (1 := Rabs_triang _ _).
    apply Rle_lt_trans with ((b_real b + b_real (b_sub b_one b)) * bpow radix2 k); [lra|].
    replace (k - 53)%Z with (-53 + k)%Z by lia. rewrite bpow_plus. nra. }
  apply b_add_rnd; auto; [|apply bpow_lt; lia].
  unfold rnd64. rewrite <- round_NE_abs by apply fexp_correct, f64_prec.
  apply round_N_le_midp; [apply fexp_correct, f64_prec|apply fmt_bpow; lia|].
  rewrite succ_eq_pos by lra. rewrite ulp_bpow, fexp64.
  replace (FLT_exp (-1074) 53 (k + 1)) with (1 + (k - 53))%Z by (unfold FLT_exp; lia).
  rewrite bpow_plus. change (bpow radix2 1) with 2. lra.
Qed.

(** ** adding bounded increments *)

Lemma b_add_nan_free x d : b_is_nan x = false -> b_finite d = true -> b_is_nan (b_add x d) = false.
Proof.
  intros Nx Fd. destruct (b_finite x) eqn:Fx.
  - apply b_add_not_nan; auto. destruct d; auto; discriminate.
  - destruct x as [|[]| |]; try discriminate; destruct d as [[]|[]| |[]]; try discriminate; reflexivity.
Qed.

Lemma b_add_drift x d W D : within W x -> within D d -> (W + D) * (1 + uro) < bpow radix2 1024 ->
  within ((W + D) * (1 + uro)) (b_add x d).
Proof.
  intros [Fx Lx] [Fd Ld] S. apply b_add_rnd; auto.
  destruct (@Plus_error.FLT_plus_error_N_ex radix2 (-1074) 53 f64_prec (fun z => negb (Z.even z))
    (b_real x) (b_real d)) as (e & E & Q).
  { apply (generic_format_B2R 53 1024). } { apply (generic_format_B2R 53 1024). }
  rewrite u_ro_uro in E. assert (E' : Rabs e <= uro) by (eapply Rle_trans; [exact E|apply u_over_le]).
  change (rnd64 (b_real x + b_real d) = (b_real x + b_real d) * (1 + e)) in Q. rewrite Q, Rabs_mult.
  apply Rmult_le_compat; try apply Rabs_pos.
  - apply Rle_trans with (1 := Rabs_triang _ _). lra.
  - apply Rle_trans with (1 := Rabs_triang _ _). rewrite Rabs_R1. lra.
Qed.

(** ** checking bounds by computation *)

Lemma b_pow2 k : (-1074 <= k <= 1023)%Z -> b_finite (b_dyadic 1 k) = true /\ b_real (b_dyadic 1 k) = bpow radix2 k.
Proof.
  intros L. unfold b_dyadic. pose proof (binary_normalize_correct 53 1024 f64_prec f64_emax mode_NE 1 k false) as C.
  cbv zeta in C. assert (E : F2R (Float radix2 1 k) = bpow radix2 k) by (unfold F2R; cbn [Fnum Fexp]; ring).
  rewrite E in C. rewrite round_generic in C; [|apply valid_rnd_N|apply fmt_bpow, L].
  rewrite Rlt_bool_true in C; [split; apply C|].
  rewrite Rabs_pos_eq by apply bpow_ge_0. apply bpow_lt. lia.
Qed.

Definition within_b (k : Z) (x : f64) : bool := b_finite x && Bleb (Babs x) (b_dyadic 1 k).

Lemma within_check k x : (-1074 <= k <= 1023)%Z -> within_b k x = true -> within (bpow radix2 k) x.
Proof.
  intros L E. apply andb_true_iff in E. destruct E as [Fx E]. destruct (b_pow2 k L) as [Fk Rk]. split; [exact Fx|].
  rewrite Bleb_correct in E; [|rewrite b_abs_finite; exact Fx|exact Fk].
  rewrite b_abs_real, Rk in E. destruct (Rle_bool_spec (Rabs (b_real x)) (bpow radix2 k)); [assumption|discriminate].
Qed.

Lemma range_check x : b_finite x = true -> Bleb b_zero x = true -> Bltb x b_one = true -> 0 <= b_real x < 1.
Proof.
  intros Fx A B. rewrite Bleb_correct in A by auto. rewrite Bltb_correct in B by auto.
  rewrite b_one_real in B. simpl (b_real b_zero) in A.
  destruct (Rle_bool_spec 0 (b_real x)); [|discriminate]. destruct (Rlt_bool_spec (b_real x) 1); [|discriminate]. lra.
Qed.
