(** The scalar operations over the exact reals.

    [fneginf] has no real counterpart; it is -1. The code uses NEG_INFINITY only
    as the seed of a running maximum of absolute values
    (basis/normalisation.rs:224, 231, 255, 260), where any negative seed gives
    the same answer as soon as the vector is non-empty. *)
From Coq Require Import List ZArith Reals.
From Verif Require Import Scalar NdArray Features.
Import ListNotations.
Local Open Scope R_scope.

Definition Rltb (x y : R) : bool := if Rlt_dec x y then true else false.
Definition Reqb (x y : R) : bool := if Req_EM_T x y then true else false.
Definition rsum (l : list R) : R := fold_right Rplus 0 l.
Definition rdot (a b : list R) : R := rsum (map2 Rmult a b).

Global Instance ScalarR : Scalar R := {
  flit n d := IZR n / IZR (Zpos d);
  fadd := Rplus;
  fsub := Rminus;
  fmul := Rmult;
  fdiv := Rdiv;
  fneg := Ropp;
  fabs := Rabs;
  fsqrt := sqrt;
  fmax := Rmax;
  fltb := Rltb;
  feqb := Reqb;
  fneginf := -1;
  fofnat := INR;
  ffloor_isize x := clamp_isize (Int_part x);
  fcos := cos;
  fexp := exp;
  fln1p x := ln (1 + x);
  fpowi x n := x ^ n;
  fpi := PI;
  nd_sum := rsum;
  nd_dot := rdot
}.

Lemma Rltb_true x y : Rltb x y = true <-> x < y.
Proof. unfold Rltb. destruct (Rlt_dec x y); split; congruence || tauto. Qed.

Lemma Rltb_false x y : Rltb x y = false <-> y <= x.
Proof.
  unfold Rltb. destruct (Rlt_dec x y) as [L|L]; split; try congruence.
  - intros G. exfalso. apply (Rlt_irrefl x). eapply Rlt_le_trans; eauto.
  - intros _. apply Rnot_lt_le, L.
Qed.

Lemma Reqb_true x y : Reqb x y = true <-> x = y.
Proof. unfold Reqb. destruct (Req_EM_T x y); split; congruence || tauto. Qed.

Lemma fzero_R : (fzero : R) = 0.
Proof. unfold fzero. simpl. unfold Rdiv. apply Rmult_0_l. Qed.

Lemma fone_R : (fone : R) = 1.
Proof. unfold fone. simpl. apply Rinv_1_mult_1 || (unfold Rdiv; rewrite Rinv_1; ring). Qed.

Lemma ftwo_R : (ftwo : R) = 2.
Proof. unfold ftwo. simpl. unfold Rdiv. rewrite Rinv_1. ring. Qed.

#[global] Arguments fzero {F H} : simpl never.
#[global] Arguments fone {F H} : simpl never.
#[global] Arguments ftwo {F H} : simpl never.
#[global] Arguments active_tol {F H} : simpl never.
#[global] Arguments sparsity_tol {F H} : simpl never.

(** Turn the operations of the record at R into the usual ones. *)
Ltac to_R :=
  repeat rewrite fzero_R in *; repeat rewrite fone_R in *; repeat rewrite ftwo_R in *;
  cbn [fadd fsub fmul fdiv fneg fabs fsqrt fmax fltb feqb fofnat fcos fexp fln1p fpowi fpi
       nd_sum nd_dot flit ffloor_isize fneginf ScalarR] in *.
