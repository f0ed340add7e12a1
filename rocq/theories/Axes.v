(** Adding features to weights with any number of axes, and the cardinality a
    basis reports: /repo/src/features.rs, /repo/src/basis/.

    [Features::addto] takes an [ArrayBase<S, E>] with [usize: NdIndex<E>]. In
    ndarray 0.15 that is [E = Ix1] (the main model) or [E = IxDyn], an array
    whose number of axes is known at run time only. *)
From Coq Require Import List Arith.
From Verif Require Import Base Scalar HMap NdArray Features TileCoding Basis.
Import ListNotations.

(** [ArrayD<f64>]: the length of each axis, and the elements in logical order
    (last index fastest). No axes: one element. *)
Record nd (F : Type) := MkNd { nd_shape : list nat; nd_elems : list F }.
Arguments MkNd {F}.
Arguments nd_shape {F}.
Arguments nd_elems {F}.

Section Axes.
  Context {F : Type} `{Scalar F}.

  (** [self.zip_mut_with(rhs, f)] for [rhs] with one axis: [rhs] is broadcast to
      the last axis and repeated over the others. It cannot be broadcast to no
      axes at all. *)
  Definition nd_zip_mut_with (f : F -> F -> F) (self : nd F) (rhs : list F) : outcome (nd F) :=
    match rev (nd_shape self) with
    | [] => Panic
    | d :: outer =>
        let* r := broadcast rhs d in
        Ret (MkNd (nd_shape self) (map2 f (nd_elems self) (concat (repeat r (fold_right Nat.mul 1 outer)))))
    end.

  (** [self[i] = f(self[i])] with [i : usize]: [NdIndex<IxDyn> for usize] finds
      an element only if there is exactly one axis (with debug assertions it
      panics before looking). *)
  Definition nd_upd (self : nd F) (i : nat) (f : F -> F) : outcome (nd F) :=
    match nd_shape self with
    | [_] => let* l := vupd (nd_elems self) i f in Ret (MkNd (nd_shape self) l)
    | _ => Panic
    end.

  (** features.rs:643-654. *)
  Definition nd_addto (phi : Features F) (weights : nd F) : outcome (nd F) :=
    match phi with
    | Dense da => nd_zip_mut_with fadd weights da
    | Sparse sa => ofold (fun w kv => nd_upd w (fst kv) (fun x => fadd x (snd kv))) (sa_acts sa) weights
    end.

  (** features.rs:658-669. *)
  Definition nd_scaled_addto (phi : Features F) (alpha : F) (weights : nd F) : outcome (nd F) :=
    match phi with
    | Dense da => nd_zip_mut_with (fun y x => fadd y (fmul alpha x)) weights da
    | Sparse sa =>
        ofold (fun w kv => nd_upd w (fst kv) (fun x => fadd x (fmul alpha (snd kv)))) (sa_acts sa) weights
    end.

  (** [spaces::Card] and its product (external crate). *)
  Inductive card_t := CFinite (n : nat) | CInfinite.
  Definition card_mul (a b : card_t) : card_t :=
    match a, b with CFinite m, CFinite n => CFinite (m * n) | _, _ => CInfinite end.

  (** [Space::card]: constant.rs:23, 59, 86; fourier.rs:53; polynomial/mod.rs:79-81,
      202-204; kernelised.rs:106; tile_coding.rs:67; uniform_grid.rs:44;
      closure.rs:30; stack.rs:26; normalisation.rs:24, 77, 146, 215. *)
  Fixpoint card (b : basis F) : card_t :=
    match b with
    | BBias _ | BFixedDense _ | BFixedSparse _ _ => CInfinite
    | BFourier _ _ _ | BPolynomial _ _ | BChebyshev _ _ _ => CInfinite
    | BKernel _ | BTile _ _ _ _ | BGrid _ _ | BClosure _ _ => CInfinite
    | BStack b1 b2 => card_mul (card b1) (card b2)
    | BL0 b | BL1 b | BL2 b | BLinf b => card b
    end.
End Axes.
