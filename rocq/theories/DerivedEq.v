(** The [==] that [#[derive(PartialEq)]] generates, at f64: field by field.
    [f64 == f64] is [Beqb]: NaN differs from itself, 0.0 equals -0.0. [Vec] and
    [Array1] compare lengths and then elements. *)
From Coq Require Import List Arith ZArith Bool.
From Flocq Require Import IEEE754.BinarySingleNaN.
From Verif Require Import Base Scalar ScalarF64 HMap NdArray Features Coeffs Kernels TileCoding Basis Optim.
Import ListNotations.

(** [Vec<f64> == Vec<f64>], [Array1<f64> == Array1<f64>]. *)
Fixpoint slice_eqb (l m : list f64) : bool :=
  match l, m with
  | [], [] => true
  | x :: l, y :: m => Beqb x y && slice_eqb l m
  | _, _ => false
  end.

(** momentum.rs:5, nesterov.rs:6. *)
Definition momentum_eqb (s t : momentum_state f64) : bool :=
  Beqb (mo_momentum s) (mo_momentum t) && Beqb (mo_lr s) (mo_lr t) && slice_eqb (mo_velocity s) (mo_velocity t).
(** adagrad.rs:6. *)
Definition adagrad_eqb (s t : adagrad_state f64) : bool :=
  Beqb (ag_lr s) (ag_lr t) && slice_eqb (ag_acc s) (ag_acc t).
(** adam.rs:10. *)
Definition adam_eqb (s t : adam_state f64) : bool :=
  Beqb (ad_beta1 s) (ad_beta1 t) && Beqb (ad_beta1_prod s) (ad_beta1_prod t) &&
  Beqb (ad_beta2 s) (ad_beta2 t) && Beqb (ad_beta2_prod s) (ad_beta2_prod t) && Beqb (ad_lr s) (ad_lr t) &&
  slice_eqb (ad_exp_avg s) (ad_exp_avg t) && slice_eqb (ad_exp_avg_sq s) (ad_exp_avg_sq t).
(** adamax.rs:10. *)
Definition adamax_eqb (s t : adamax_state f64) : bool :=
  Beqb (am_beta1 s) (am_beta1 t) && Beqb (am_beta1_prod s) (am_beta1_prod t) && Beqb (am_beta2 s) (am_beta2 t) &&
  Beqb (am_lr s) (am_lr t) && slice_eqb (am_exp_avg s) (am_exp_avg t) && slice_eqb (am_exp_inf s) (am_exp_inf t).

(** The seven optimiser types (sgd.rs:3 and isgd.rs:3 for the first two); two
    of different types cannot be compared. *)
Definition opt_eqb (o o' : lib_opt f64) : bool :=
  match o, o' with
  | LSGD a, LSGD b | LISGD a, LISGD b => Beqb a b
  | LMomentum s, LMomentum t | LNAG s, LNAG t => momentum_eqb s t
  | LAdagrad s, LAdagrad t => adagrad_eqb s t
  | LAdam s, LAdam t => adam_eqb s t
  | LAdaMax s, LAdaMax t => adamax_eqb s t
  | _, _ => false
  end.

(** stationary.rs:4, rational_quadratic.rs:1; again one type per kind. *)
Definition kernel_eqb (k k' : kernel f64) : bool :=
  match k_kind k, k_kind k' with
  | KRationalQuadratic p, KRationalQuadratic p' => Beqb p p'
  | KExponential, KExponential | KMatern32, KMatern32 | KMatern52, KMatern52 | KExpQuad, KExpQuad | KCosine, KCosine => true
  | _, _ => false
  end && Beqb (k_variance k) (k_variance k') && slice_eqb (k_lengthscales k) (k_lengthscales k').

(** kernelised.rs:7. *)
Definition proto_eqb (p q : prototype f64) : bool :=
  slice_eqb (p_centroid p) (p_centroid q) && kernel_eqb (p_kernel p) (p_kernel q).

(** [Vec<T> == Vec<T>], tuples of limits. *)
Fixpoint vec_eqb {A} (eqb : A -> A -> bool) (l m : list A) : bool :=
  match l, m with
  | [], [] => true
  | x :: l, y :: m => eqb x y && vec_eqb eqb l m
  | _, _ => false
  end.
Definition limits_eqb : list (f64 * f64) -> list (f64 * f64) -> bool :=
  vec_eqb (fun p q => Beqb (fst p) (fst q) && Beqb (snd p) (snd q)).

(** The bases: constant.rs:6, 38; fourier.rs:12; polynomial/mod.rs:38, 121;
    kernelised.rs:29; tile_coding.rs:39; uniform_grid.rs:6; closure.rs:5;
    stack.rs:6; normalisation.rs:7, 60, 129, 198.

    Sets of indices are equal when they have the same elements. Hash builders,
    equipartitions, function pointers (Chebyshev) and closures have an equality
    of their own, here the identity; the build profile is not a field. *)
Fixpoint basis_eq (b c : basis f64) : Prop :=
  match b, c with
  | BBias x, BBias y => Beqb x y = true
  | BFixedDense l, BFixedDense m => slice_eqb l m = true
  | BFixedSparse n l, BFixedSparse n' l' => n = n' /\ forall i, In i l <-> In i l'
  | BFourier o l cs, BFourier o' l' cs' => o = o' /\ limits_eqb l l' = true /\ vec_eqb slice_eqb cs cs' = true
  | BPolynomial o es, BPolynomial o' es' => o = o' /\ es = es'
  | BChebyshev o l ps, BChebyshev o' l' ps' => o = o' /\ limits_eqb l l' = true /\ ps = ps'
  | BKernel ps, BKernel ps' => vec_eqb proto_eqb ps ps' = true
  | BTile bld h nt ms, BTile bld' h' nt' ms' => bld = bld' /\ h = h' /\ nt = nt' /\ ms = ms'
  | BGrid n space, BGrid n' space' => n = n' /\ space = space'
  | BClosure n f, BClosure n' f' => n = n' /\ f = f'
  | BStack b1 b2, BStack c1 c2 => basis_eq b1 c1 /\ basis_eq b2 c2
  | BL0 b, BL0 c | BL1 b, BL1 c | BL2 b, BL2 c | BLinf b, BLinf c => basis_eq b c
  | _, _ => False
  end.
