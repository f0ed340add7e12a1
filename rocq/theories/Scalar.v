(** The f64 operations used by lfa, as a record without laws.

    Every model function is written against this record; see ScalarR.v (exact
    reals) and ScalarF64.v (IEEE-754 binary64) for the two instances. *)
From Coq Require Import List ZArith.
Import ListNotations.

Class Scalar (F : Type) := {
  (** [num / den] as a correctly rounded literal: 0.0, 1.0, 1e-7, ... *)
  flit : Z -> positive -> F;
  fadd : F -> F -> F;
  fsub : F -> F -> F;
  fmul : F -> F -> F;
  fdiv : F -> F -> F;
  fneg : F -> F;
  fabs : F -> F;
  fsqrt : F -> F;
  (** [f64::max]: ignores a NaN operand. *)
  fmax : F -> F -> F;
  (** [<] and [==] on f64: false on NaN. *)
  fltb : F -> F -> bool;
  feqb : F -> F -> bool;
  (** [f64::NEG_INFINITY]. *)
  fneginf : F;
  (** [n as f64] for an unsigned integer [n]. *)
  fofnat : nat -> F;
  (** [x.floor() as isize]: floor, then saturating cast, NaN to 0. *)
  ffloor_isize : F -> Z;
  (** libm *)
  fcos : F -> F;
  fexp : F -> F;
  fln1p : F -> F;
  fpowi : F -> nat -> F;
  fpi : F;
  (** ndarray's [Array1::sum] and [Array1::dot] on equal lengths; the order of
      the additions is ndarray's (unrolled, or BLAS's) business, not lfa's. *)
  nd_sum : list F -> F;
  nd_dot : list F -> list F -> F
}.

Definition fzero {F} `{Scalar F} : F := flit 0 1.
Definition fone {F} `{Scalar F} : F := flit 1 1.
Definition ftwo {F} `{Scalar F} : F := flit 2 1.

(** isize limits on a 64-bit target. *)
Definition isize_min : Z := (- 2 ^ 63)%Z.
Definition isize_max : Z := (2 ^ 63 - 1)%Z.
Definition clamp_isize (z : Z) : Z := Z.max isize_min (Z.min isize_max z).
