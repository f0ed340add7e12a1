(** The scalar operations over IEEE-754 binary64 (Flocq), round to nearest,
    ties to even. There is a single NaN: payloads are not modelled.

    What Rust delegates to libm, to the [powi] intrinsic, or to ndarray's
    summation order is a [Platform]: theorems quantify over every platform and
    state what they need of it. *)
From Coq Require Import List ZArith Bool.
From Flocq Require Import Core.Core IEEE754.BinarySingleNaN.
From Verif Require Import Scalar NdArray.
Import ListNotations.
Local Open Scope Z_scope.

Definition f64 : Set := binary_float 53 1024.

Lemma f64_prec : FLX.Prec_gt_0 53.
Proof. reflexivity. Qed.

Lemma f64_emax : Prec_lt_emax 53 1024.
Proof. reflexivity. Qed.

Definition b_add : f64 -> f64 -> f64 := @Bplus 53 1024 f64_prec f64_emax mode_NE.
Definition b_sub : f64 -> f64 -> f64 := @Bminus 53 1024 f64_prec f64_emax mode_NE.
Definition b_mul : f64 -> f64 -> f64 := @Bmult 53 1024 f64_prec f64_emax mode_NE.
Definition b_div : f64 -> f64 -> f64 := @Bdiv 53 1024 f64_prec f64_emax mode_NE.
Definition b_sqrt : f64 -> f64 := @Bsqrt 53 1024 f64_prec f64_emax mode_NE.

(** [m * 2^e], rounded. *)
Definition b_dyadic (m e : Z) : f64 := binary_normalize 53 1024 f64_prec f64_emax mode_NE m e false.

Definition b_zero : f64 := B754_zero false.
Definition b_inf : f64 := B754_infinity false.
Definition b_neginf : f64 := B754_infinity true.
Definition b_nan : f64 := B754_nan.

(** [f64::max]: the other operand when one is NaN. For equal operands the sign
    of a zero result is unspecified in Rust; it only matters for [max] of zeros
    of different signs, which never arises on absolute values. *)
Definition b_max (x y : f64) : f64 :=
  match x, y with
  | B754_nan, _ => y
  | _, B754_nan => x
  | _, _ => if Bltb x y then y else x
  end.

(** [x.floor() as isize]: saturating, NaN to 0. *)
Definition b_floor_isize (x : f64) : Z :=
  match x with
  | B754_zero _ => 0
  | B754_infinity s => if s then isize_min else isize_max
  | B754_nan => 0
  | B754_finite s m e _ =>
      let n := if s then Zneg m else Zpos m in
      clamp_isize (if 0 <=? e then n * 2 ^ e else n / 2 ^ (- e))
  end.

Record Platform := MkPlatform {
  p_cos : f64 -> f64;
  p_exp : f64 -> f64;
  p_ln1p : f64 -> f64;
  p_powi : f64 -> nat -> f64;
  p_sum : list f64 -> f64;
  p_dot : list f64 -> list f64 -> f64
}.

(** Literals are [num / den] with both exactly representable, so one division
    rounds correctly. *)
Definition ScalarF64 (P : Platform) : Scalar f64 := {|
  flit n d := b_div (b_dyadic n 0) (b_dyadic (Zpos d) 0);
  fadd := b_add;
  fsub := b_sub;
  fmul := b_mul;
  fdiv := b_div;
  fneg := Bopp;
  fabs := Babs;
  fsqrt := b_sqrt;
  fmax := b_max;
  fltb := Bltb;
  feqb := Beqb;
  fneginf := b_neginf;
  fofnat n := b_dyadic (Z.of_nat n) 0;
  ffloor_isize := b_floor_isize;
  fcos := p_cos P;
  fexp := p_exp P;
  fln1p := p_ln1p P;
  fpowi := p_powi P;
  fpi := b_dyadic 7074237752028440 (-51);
  nd_sum := p_sum P;
  nd_dot := p_dot P
|}.

(** A platform that adds left to right and knows nothing of libm: for the
    concrete examples only. *)
Fixpoint b_powi (x : f64) (n : nat) : f64 :=
  match n with O => b_dyadic 1 0 | S n => b_mul x (b_powi x n) end.

Definition SimplePlatform : Platform := {|
  p_cos _ := b_dyadic 1 0;
  p_exp _ := b_dyadic 1 0;
  p_ln1p x := x;
  p_powi := b_powi;
  p_sum l := fold_left b_add l b_zero;
  p_dot a b := fold_left b_add (map2 b_mul a b) b_zero
|}.
