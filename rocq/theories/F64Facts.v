(** Facts about IEEE-754 binary64 operations, on top of Flocq. *)
From Coq Require Import List ZArith Bool Reals Lra Lia Permutation.
From Flocq Require Import Core.Core IEEE754.BinarySingleNaN.
From Flocq Require Relative Plus_error.
From Verif Require Import Scalar NdArray ScalarR ScalarF64.
Import ListNotations.
Local Open Scope R_scope.

Notation b_real := (@B2R 53 1024).
Notation b_finite := (@is_finite 53 1024).
Notation b_is_nan := (@is_nan 53 1024).

(** Unit roundoff 2^-53 and half the smallest subnormal, 2^-1075. *)
Definition uro : R := bpow radix2 (-53).
Definition eta64 : R := bpow radix2 (-1075).

Lemma uro_pos : 0 < uro.
Proof. apply bpow_gt_0. Qed.

Lemma uro_lt_1 : uro < 1.
Proof. apply (bpow_lt radix2 (-53) 0). reflexivity. Qed.

Lemma eta64_pos : 0 < eta64.
Proof. apply bpow_gt_0. Qed.

Definition rnd64 (x : R) : R :=
  round radix2 (SpecFloat.fexp 53 1024) (round_mode mode_NE) x.

Lemma fexp64 : SpecFloat.fexp 53 1024 = FLT_exp (-1074) 53.
Proof. reflexivity. Qed.

Lemma u_ro_uro : Relative.u_ro radix2 53 = uro.
Proof.
  unfold Relative.u_ro, uro. change (/ 2) with (bpow radix2 (-1)).
  rewrite <- bpow_plus. reflexivity.
Qed.

Lemma half_bpow_emin : / 2 * bpow radix2 (-1074) = eta64.
Proof. unfold eta64. change (/ 2) with (bpow radix2 (-1)). rewrite <- bpow_plus. reflexivity. Qed.

(** ** Finiteness *)

Lemma overflow_not_finite (x : f64) s : B2SF x = binary_overflow 53 1024 mode_NE s -> b_finite x = false.
Proof.
  intros E. rewrite <- is_finite_SF_B2SF, E. destruct s; reflexivity.
Qed.

Lemma b_add_finite_inv x y : b_finite (b_add x y) = true ->
  b_finite x = true /\ b_finite y = true /\ b_real (b_add x y) = rnd64 (b_real x + b_real y).
Proof.
  intros E.
  assert (Fx : b_finite x = true) by (destruct x as [| [|] | |], y as [|[|]| |]; auto; discriminate E).
  assert (Fy : b_finite y = true) by (destruct x as [| [|] | |], y as [|[|]| |]; auto; discriminate E).
  split; auto. split; auto.
  pose proof (Bplus_correct 53 1024 f64_prec f64_emax mode_NE x y Fx Fy) as C.
  destruct (Rlt_bool _ _).
  - apply C.
  - destruct C as [C _]. apply overflow_not_finite in C. unfold b_add in E. congruence.
Qed.

Lemma b_mul_finite_inv x y : b_finite (b_mul x y) = true ->
  b_finite x = true /\ b_finite y = true /\ b_real (b_mul x y) = rnd64 (b_real x * b_real y).
Proof.
  intros E.
  pose proof (Bmult_correct 53 1024 f64_prec f64_emax mode_NE x y) as C.
  destruct (Rlt_bool _ _).
  - destruct C as (C & D & _). unfold b_mul in *. rewrite E in D. symmetry in D.
    apply andb_true_iff in D. tauto.
  - apply overflow_not_finite in C. unfold b_mul in E. congruence.
Qed.

Lemma b_div_finite_inv x y : b_finite (b_div x y) = true -> b_real y <> 0 ->
  b_finite x = true /\ b_real (b_div x y) = rnd64 (b_real x / b_real y).
Proof.
  intros E N.
  pose proof (Bdiv_correct 53 1024 f64_prec f64_emax mode_NE x y N) as C.
  destruct (Rlt_bool _ _).
  - destruct C as (C & D & _). unfold b_div in *. rewrite E in D. auto.
  - apply overflow_not_finite in C. unfold b_div in E. congruence.
Qed.

(** ** Rounding errors *)

Lemma u_over_le : uro / (1 + uro) <= uro.
Proof.
  pose proof uro_pos. unfold Rdiv. rewrite <- (Rmult_1_r uro) at 3.
  apply Rmult_le_compat_l; [lra|]. rewrite <- Rinv_1. apply Rinv_le; lra.
Qed.

Lemma b_add_error x y : b_finite (b_add x y) = true ->
  exists d, Rabs d <= uro /\ b_real (b_add x y) = (b_real x + b_real y) * (1 + d).
Proof.
  intros E. destruct (b_add_finite_inv x y E) as (Fx & Fy & ->).
  destruct (@Plus_error.FLT_plus_error_N_ex radix2 (-1074) 53 f64_prec (fun z => negb (Z.even z))
    (b_real x) (b_real y)) as (d & D & Q).
  - apply (generic_format_B2R 53 1024).
  - apply (generic_format_B2R 53 1024).
  - exists d. split.
    + rewrite u_ro_uro in D. eapply Rle_trans; [exact D|apply u_over_le].
    + exact Q.
Qed.

Lemma rnd64_error x : exists d e, Rabs d <= uro /\ Rabs e <= eta64 /\ rnd64 x = x * (1 + d) + e.
Proof.
  destruct (Relative.error_N_FLT radix2 (-1074) 53 eq_refl (fun z => negb (Z.even z)) x)
    as (d & e & D & E & _ & Q).
  exists d, e. split; [|split].
  - eapply Rle_trans; [exact D|]. rewrite <- u_ro_uro. apply Rle_refl.
  - rewrite <- half_bpow_emin. exact E.
  - exact Q.
Qed.

Lemma b_mul_error x y : b_finite (b_mul x y) = true ->
  exists d e, Rabs d <= uro /\ Rabs e <= eta64 /\
    b_real (b_mul x y) = (b_real x * b_real y) * (1 + d) + e.
Proof. intros E. destruct (b_mul_finite_inv x y E) as (_ & _ & ->). apply rnd64_error. Qed.

Lemma b_div_error x y : b_finite (b_div x y) = true -> b_real y <> 0 ->
  exists d e, Rabs d <= uro /\ Rabs e <= eta64 /\
    b_real (b_div x y) = (b_real x / b_real y) * (1 + d) + e.
Proof. intros E N. destruct (b_div_finite_inv x y E N) as (_ & ->). apply rnd64_error. Qed.

(** ** Left-to-right summation *)

Lemma fold_add_finite l acc : b_finite (fold_left b_add l acc) = true ->
  b_finite acc = true /\ forall x, In x l -> b_finite x = true.
Proof.
  revert acc. induction l as [|x l IH]; simpl; intros acc E; [tauto|].
  destruct (IH _ E) as [Fa Fl]. apply b_add_finite_inv in Fa. split; [tauto|].
  intros y [<-|I]; [tauto|auto].
Qed.

Definition abs_sum (l : list R) : R := rsum (map Rabs l).

Lemma abs_sum_pos l : 0 <= abs_sum l.
Proof. unfold abs_sum. induction l; simpl; [lra|]. pose proof (Rabs_pos a). lra. Qed.

Lemma pow_1_uro n : 1 <= (1 + uro) ^ n.
Proof. apply pow_R1_Rle. pose proof uro_pos. lra. Qed.

Lemma fold_add_error l acc : b_finite (fold_left b_add l acc) = true ->
  Rabs (b_real (fold_left b_add l acc) - (b_real acc + rsum (map b_real l))) <=
  ((1 + uro) ^ length l - 1) * (Rabs (b_real acc) + abs_sum (map b_real l)).
Proof.
  revert acc. induction l as [|x l IH]; intros acc E.
  - simpl. replace (_ - _) with 0 by ring. rewrite Rabs_R0. lra.
  - cbn [fold_left] in *. cbn [map length]. specialize (IH _ E).
    destruct (fold_add_finite _ _ E) as [Fa _].
    destruct (b_add_error acc x Fa) as (d & D & Q).
    assert (Q' : b_real (b_add acc x) - (b_real acc + b_real x) = (b_real acc + b_real x) * d)
      by (rewrite Q; ring).
    set (a := b_real acc) in *. set (v := b_real x) in *. set (s := b_real (b_add acc x)) in *.
    unfold abs_sum. cbn [map rsum fold_right].
    fold (rsum (map b_real l)). fold (rsum (map Rabs (map b_real l))).
    fold (abs_sum (map b_real l)).
    set (S := rsum (map b_real l)) in *. set (A := abs_sum (map b_real l)) in *.
    set (r := b_real (fold_left b_add l (b_add acc x))) in *.
    set (p := (1 + uro) ^ length l) in *.
    assert (P1 : 1 <= p) by apply pow_1_uro.
    assert (A0 : 0 <= A) by apply abs_sum_pos.
    assert (U := uro_pos).
    replace (r - (a + (v + S))) with ((r - (s + S)) + (s - (a + v))) by ring.
    assert (B2 : Rabs (s - (a + v)) <= uro * (Rabs a + Rabs v)).
    { rewrite Q', Rabs_mult, Rmult_comm. apply Rmult_le_compat; auto using Rabs_pos.
      apply Rabs_triang. }
    assert (B3 : Rabs s <= (1 + uro) * (Rabs a + Rabs v)).
    { rewrite Q, Rabs_mult, Rmult_comm.
      apply Rmult_le_compat; auto using Rabs_pos; [|apply Rabs_triang].
      eapply Rle_trans; [apply Rabs_triang|]. rewrite Rabs_R1. lra. }
    eapply Rle_trans; [apply Rabs_triang|].
    eapply Rle_trans; [apply Rplus_le_compat; [exact IH|exact B2]|].
    change ((1 + uro) ^ Datatypes.S (length l)) with ((1 + uro) * p).
    assert (Va := Rabs_pos a). assert (Vv := Rabs_pos v).
    set (t := Rabs a + Rabs v) in *.
    replace (Rabs a + (Rabs v + A)) with (t + A) by (unfold t; ring).
    assert (0 <= t) by (unfold t; lra).
    assert ((p - 1) * Rabs s <= (p - 1) * ((1 + uro) * t)) by (apply Rmult_le_compat_l; lra).
    assert (0 <= p * uro * A) by (apply Rmult_le_pos; [apply Rmult_le_pos|]; lra).
    nra.
Qed.

Lemma rsum_perm' l l' : Permutation l l' -> rsum l = rsum l'.
Proof. induction 1; simpl; try lra; congruence. Qed.

(** Two orders of the same terms differ by at most twice the summation error. *)
Lemma fold_add_perm l l' : Permutation l l' ->
  b_finite (fold_left b_add l b_zero) = true -> b_finite (fold_left b_add l' b_zero) = true ->
  Rabs (b_real (fold_left b_add l b_zero) - b_real (fold_left b_add l' b_zero)) <=
  2 * ((1 + uro) ^ length l - 1) * abs_sum (map b_real l).
Proof.
  intros P E E'. pose proof (fold_add_error l b_zero E) as B.
  pose proof (fold_add_error l' b_zero E') as B'.
  change (b_real b_zero) with 0 in *. rewrite Rabs_R0, !Rplus_0_l in B, B'.
  rewrite <- (Permutation_length P) in B'.
  assert (Q : rsum (map b_real l') = rsum (map b_real l)).
  { symmetry. apply rsum_perm', Permutation_map, P. }
  assert (Q' : abs_sum (map b_real l') = abs_sum (map b_real l)).
  { symmetry. unfold abs_sum. apply rsum_perm', Permutation_map, Permutation_map, P. }
  rewrite Q in B'. rewrite Q' in B'.
  set (x := b_real (fold_left b_add l b_zero)) in *.
  set (y := b_real (fold_left b_add l' b_zero)) in *.
  replace (x - y) with ((x - rsum (map b_real l)) + (rsum (map b_real l) - y)) by ring.
  eapply Rle_trans; [apply Rabs_triang|].
  rewrite (Rabs_minus_sym (rsum (map b_real l)) y). lra.
Qed.

(** ** Comparisons *)

Lemma b_eqb_sym (x y : f64) : Beqb x y = Beqb y x.
Proof.
  destruct x as [s|s| |s m e B], y as [s'|s'| |s' m' e' B'];
    try (destruct s; reflexivity); try (destruct s'; reflexivity); try reflexivity;
    try (destruct s, s'; reflexivity).
  rewrite !Beqb_correct by reflexivity.
  destruct (Req_bool_spec (B2R (B754_finite s m e B)) (B2R (B754_finite s' m' e' B'))),
    (Req_bool_spec (B2R (B754_finite s' m' e' B')) (B2R (B754_finite s m e B))); congruence.
Qed.

Lemma b_eqb_true (x y : f64) : Beqb x y = true ->
  (b_finite x = true /\ b_finite y = true /\ b_real x = b_real y) \/
  exists s, x = B754_infinity s /\ y = B754_infinity s.
Proof.
  intros E. destruct (b_finite x) eqn:Fx, (b_finite y) eqn:Fy.
  - left. rewrite Beqb_correct in E by assumption.
    apply Req_bool_true_iff in E || (destruct (Req_bool_spec (b_real x) (b_real y)); [auto|discriminate]).
  - exfalso. destruct x as [s|s| |s m e B], y as [s'|s'| |s' m' e' B']; try discriminate;
      destruct s; try destruct s'; discriminate.
  - exfalso. destruct x as [s|s| |s m e B], y as [s'|s'| |s' m' e' B']; try discriminate;
      try destruct s; try destruct s'; discriminate.
  - right. destruct x as [s|[|]| |s m e B], y as [s'|[|]| |s' m' e' B']; try discriminate; eauto.
Qed.

Lemma b_eqb_trans (x y z : f64) : Beqb x y = true -> Beqb y z = true -> Beqb x z = true.
Proof.
  intros A B. apply b_eqb_true in A, B.
  destruct A as [(Fx & Fy & A)|(s & -> & ->)], B as [(Fy' & Fz & B)|(s' & B & ->)]; try discriminate.
  - rewrite Beqb_correct by assumption. apply Req_bool_true. congruence.
  - subst. discriminate.
  - inversion B. destruct s'; reflexivity.
Qed.

Lemma b_eqb_refl (x : f64) : Beqb x x = negb (b_is_nan x).
Proof. apply Beqb_refl. Qed.

(** ** Constants *)

Lemma fzero_f64 P : @fzero f64 (ScalarF64 P) = b_zero.
Proof. reflexivity. Qed.

Definition b_one : f64 := b_dyadic 1 0.

Lemma B2SF_eq (x y : f64) : B2SF x = B2SF y -> x = y.
Proof. apply B2SF_inj. Qed.

Lemma fone_f64 P : @fone f64 (ScalarF64 P) = b_one.
Proof. apply B2SF_eq. vm_compute. reflexivity. Qed.

Lemma b_one_real : b_real b_one = 1.
Proof. vm_compute. unfold Rdiv. field. Qed.

Lemma b_real_format (x : f64) : generic_format radix2 (SpecFloat.fexp 53 1024) (b_real x).
Proof. apply generic_format_B2R. Qed.

Lemma rnd64_b_real (x : f64) : rnd64 (b_real x) = b_real x.
Proof. apply round_generic; [apply valid_rnd_N|apply b_real_format]. Qed.

Lemma b_real_small (x : f64) : Rabs (b_real x) < bpow radix2 1024.
Proof. apply (abs_B2R_lt_emax 53 1024). Qed.

(** Multiplication by 1.0 is exact. *)
Lemma b_mul_one (x : f64) : b_mul b_one x = x.
Proof.
  destruct x as [s|s| |s m e B].
  - destruct s; reflexivity.
  - destruct s; reflexivity.
  - reflexivity.
  - set (x := B754_finite s m e B).
    pose proof (Bmult_correct 53 1024 f64_prec f64_emax mode_NE b_one x) as C.
    rewrite b_one_real, Rmult_1_l in C.
    assert (R : round radix2 (SpecFloat.fexp 53 1024) (round_mode mode_NE) (B2R x) = B2R x)
      by apply rnd64_b_real.
    rewrite R in C. rewrite Rlt_bool_true in C by apply b_real_small.
    destruct C as (C & D & E).
    assert (Fin : b_finite (b_mul b_one x) = true) by (unfold b_mul; rewrite D; reflexivity).
    apply B2R_Bsign_inj; auto.
    unfold b_mul in *. rewrite E.
    + change (Bsign b_one) with false. destruct (Bsign x); reflexivity.
    + destruct (Bmult _ _ _); try discriminate; reflexivity.
Qed.

Lemma b_mul_one_r (x : f64) : b_mul x b_one = x.
Proof.
  destruct x as [s|s| |s m e B].
  - destruct s; reflexivity.
  - destruct s; reflexivity.
  - reflexivity.
  - set (x := B754_finite s m e B).
    pose proof (Bmult_correct 53 1024 f64_prec f64_emax mode_NE x b_one) as C.
    rewrite b_one_real, Rmult_1_r in C.
    assert (R : round radix2 (SpecFloat.fexp 53 1024) (round_mode mode_NE) (B2R x) = B2R x)
      by apply rnd64_b_real.
    rewrite R in C. rewrite Rlt_bool_true in C by apply b_real_small.
    destruct C as (C & D & E).
    assert (Fin : b_finite (b_mul x b_one) = true) by (unfold b_mul; rewrite D; reflexivity).
    apply B2R_Bsign_inj; auto.
    unfold b_mul in *. rewrite E.
    + change (Bsign b_one) with false. destruct (Bsign x); reflexivity.
    + destruct (Bmult _ _ _); try discriminate; reflexivity.
Qed.

(** A negative or positive zero is below every positive tolerance. *)
Lemma active_zero_f64 P : @fltb f64 (ScalarF64 P) (@flit f64 (ScalarF64 P) 1 10000000) (Babs b_zero) = false.
Proof. vm_compute. reflexivity. Qed.
