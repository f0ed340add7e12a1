(** Specification vocabulary, independent of how the model computes things. *)
From Coq Require Import List Arith Permutation.
From Verif Require Import Base Scalar HMap NdArray Features.
Import ListNotations.

Section Spec.
  Context {F : Type} `{Scalar F}.

  (** Feature [i] is stored with activation [v]. *)
  Definition stores (phi : Features F) (i : nat) (v : F) : Prop :=
    match phi with
    | Dense da => nth_error da i = Some v
    | Sparse sa => In (i, v) (sa_acts sa)
    end.

  Definition stored (phi : Features F) (i : nat) : Prop := exists v, stores phi i v.

  (** The advertised number of features. *)
  Definition size (phi : Features F) : nat :=
    match phi with Dense da => length da | Sparse sa => sa_dim sa end.

  (** No index twice: what the type HashMap guarantees. *)
  Definition keyed (phi : Features F) : Prop :=
    match phi with Dense _ => True | Sparse sa => NoDup (map fst (sa_acts sa)) end.

  (** Every stored index is below the advertised number of features. *)
  Definition bounded (phi : Features F) : Prop := forall i, stored phi i -> i < size phi.

  Definition wf (phi : Features F) : Prop := keyed phi /\ bounded phi.

  (** [l] is the dense expansion of [phi]. *)
  Definition expands (phi : Features F) (l : list F) : Prop :=
    length l = size phi /\
    forall i v, nth_error l i = Some v ->
      stores phi i v \/ (~ stored phi i /\ v = fzero).

  (** Same contents in possibly different hash-map layouts. *)
  Definition same (phi psi : Features F) : Prop :=
    match phi, psi with
    | Dense a, Dense b => a = b
    | Sparse a, Sparse b => sa_dim a = sa_dim b /\ Permutation (sa_acts a) (sa_acts b)
    | _, _ => False
    end.

  Definition same_outcome (x y : outcome (Features F)) : Prop :=
    match x, y with
    | Ret a, Ret b => same a b
    | Panic, Panic => True
    | _, _ => False
    end.
End Spec.
