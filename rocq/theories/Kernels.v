(** Kernels: model of /repo/src/basis/kernels/{mod,stationary,rational_quadratic}.rs. *)
From Coq Require Import List Arith ZArith.
From Verif Require Import Base Scalar NdArray.
Import ListNotations.

(** Which kernel struct; RationalQuadratic carries its [power]. *)
Inductive kernel_kind (F : Type) : Type :=
| KExponential
| KMatern32
| KMatern52
| KExpQuad
| KCosine
| KRationalQuadratic (power : F).
Arguments KExponential {F}.
Arguments KMatern32 {F}.
Arguments KMatern52 {F}.
Arguments KExpQuad {F}.
Arguments KCosine {F}.
Arguments KRationalQuadratic {F} power.

(** stationary.rs:10-13, rational_quadratic.rs:7-12. *)
Record kernel (F : Type) := MkKernel {
  k_kind : kernel_kind F;
  k_variance : F;
  k_lengthscales : list F
}.
Arguments MkKernel {F}.
Arguments k_kind {F}.
Arguments k_variance {F}.
Arguments k_lengthscales {F}.

Section Kernels.
  Context {F : Type} `{Scalar F}.
  Local Notation "x + y" := (fadd x y).
  Local Notation "x - y" := (fsub x y).
  Local Notation "x * y" := (fmul x y).
  Local Notation "x / y" := (fdiv x y).
  Local Notation "- x" := (fneg x).

  (** stationary.rs:20-22 ([non_ard]). *)
  Definition non_ard (kind : kernel_kind F) (variance lengthscale : F) : kernel F :=
    MkKernel kind variance [lengthscale].

  (** stationary.rs:27-31: [Default] of each stationary kernel. *)
  Definition kernel_default (kind : kernel_kind F) : kernel F := non_ard kind fone fone.

  (** rational_quadratic.rs:15-21 ([new]) and 23-25 ([non_ard]); the power comes
      last in one and first in the other. *)
  Definition rational_quadratic_new (variance : F) (lengthscales : list F) (power : F) : kernel F :=
    MkKernel (KRationalQuadratic power) variance lengthscales.
  Definition rational_quadratic_non_ard (power variance lengthscale : F) : kernel F :=
    rational_quadratic_new variance [lengthscale] power.

  (** rational_quadratic.rs:32-36: [non_ard(1.0, 1.0, 2.0)]. *)
  Definition rational_quadratic_default : kernel F := rational_quadratic_non_ard fone fone ftwo.

  (** [kernel_stationary], one case per struct:
      Exponential stationary.rs:60-66, Matern32 68-78, Matern52 80-90 (where the
      local called [sqrt_5] is [3.0f64.sqrt()]), ExpQuad 92-98, Cosine 100-106,
      RationalQuadratic rational_quadratic.rs:27-29. *)
  Definition kernel_stationary (k : kernel F) (r : F) : F :=
    match k_kind k with
    | KExponential => k_variance k * fexp (- r)
    | KMatern32 =>
        let sqrt_3 := fsqrt (flit 3 1) in
        k_variance k * (fone + sqrt_3 * r) * fexp (- sqrt_3 * r)
    | KMatern52 =>
        let sqrt_5 := fsqrt (flit 3 1) in
        k_variance k * (fone + sqrt_5 * r + flit 5 1 / flit 3 1 * r * r) * fexp (- sqrt_5 * r)
    | KExpQuad => k_variance k * fexp (- flit 1 2 * r * r)
    | KCosine => k_variance k * fcos r
    | KRationalQuadratic power =>
        k_variance k * fexp (- power * fln1p (r * r / ftwo))
    end.

  (** [Kernel<f64>]: stationary.rs:33-37, rational_quadratic.rs:38-42. *)
  Definition kernel_scalar (k : kernel F) (x y : F) : outcome F :=
    let* l := vget (k_lengthscales k) 0 in
    Ret (kernel_stationary k (fabs (x - y) / l)).

  (** The scaled distance of [Kernel<&[f64]>]: both [zip]s stop at the shortest
      operand. *)
  Definition kernel_distance (k : kernel F) (x y : list F) : F :=
    fsqrt (fold_left (fun acc z => acc + z * z)
             (map2 fdiv (map2 fsub x y) (k_lengthscales k)) fzero).

  (** [Kernel<&[f64]>]: stationary.rs:39-50, rational_quadratic.rs:44-57 (and
      [Kernel<&Vec<f64>>], which delegates to it). *)
  Definition kernel_slice (k : kernel F) (x y : list F) : F :=
    kernel_stationary k (kernel_distance k x y).
End Kernels.
