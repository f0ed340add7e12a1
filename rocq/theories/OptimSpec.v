(** Specification vocabulary for optimisers and training histories. *)
From Coq Require Import List Arith Reals.
From Verif Require Import Base Scalar ScalarR HMap NdArray Features Spec Optim.
Import ListNotations.

(** A training history: features and the factor each step is scaled by. *)
Definition history (F : Type) : Type := list (Features F * F).

Section Train.
  Context {F S : Type}.

  (** One [step_scaled] per entry, oldest first. The [Result]s are dropped here;
      C41 is about them. *)
  Fixpoint train (o : Optimiser F S) (h : history F) (s : S) (w : list F)
      : outcome (S * list F) :=
    match h with
    | [] => Ret (s, w)
    | (phi, e) :: h' =>
        match o_step_scaled o s w phi e with
        | Ret (s', w', _) => train o h' s' w'
        | Panic => Panic
        end
    end.

  (** Features with distinct in-range indices, as many as there are weights. *)
  Definition sized (n : nat) (phi : Features F) : Prop := wf phi /\ size phi = n.
  Definition well_sized (n : nat) (h : history F) : Prop :=
    Forall (fun p => sized n (fst p)) h.
End Train.

Local Open Scope R_scope.

(** The activation of feature [i]: 0 when it is not stored. *)
Definition coeff (phi : Features R) (i : nat) : R :=
  match phi with
  | Dense da => nth i da 0
  | Sparse sa =>
      match find (fun kv => Nat.eqb (fst kv) i) (sa_acts sa) with
      | Some kv => snd kv
      | None => 0
      end
  end.

Definition at_ (l : list R) (i : nat) : R := nth i l 0.

(** Sum over the indices below [n]. *)
Definition sigma (n : nat) (f : nat -> R) : R := rsum (map f (seq 0 n)).

(** Squared Euclidean norm, inner product with weights, inner product. *)
Definition norm2 (phi : Features R) : R := sigma (size phi) (fun i => coeff phi i * coeff phi i).
Definition predict (phi : Features R) (w : list R) : R :=
  sigma (size phi) (fun i => coeff phi i * at_ w i).
Definition inner (phi psi : Features R) : R :=
  sigma (size phi) (fun i => coeff phi i * coeff psi i).

(** The scaled gradients seen by weight [i], oldest first. *)
Definition grads (i : nat) (h : history R) : list R :=
  map (fun p => coeff (fst p) i * snd p) h.

(** Sum of beta^(T-1-k) * g_k. *)
Fixpoint discounted (beta : R) (gs : list R) : R :=
  match gs with
  | [] => 0
  | g :: gs' => beta ^ length gs' * g + discounted beta gs'
  end.

(** Sum of [f] over the non-empty prefixes. *)
Definition prefix_sum {A} (f : list A -> R) (h : list A) : R :=
  rsum (map (fun k => f (firstn k h)) (seq 1 (length h))).

(** Same content, step by step, in whatever representation. *)
Definition same_content (h h' : history R) : Prop :=
  Forall2 (fun p q => snd p = snd q /\ forall i, coeff (fst p) i = coeff (fst q) i) h h'.

(** Weight [i] is written by the last step of the history: a dense vector
    writes every weight, a sparse one those it stores. *)
Definition writes (phi : Features R) (i : nat) : bool :=
  match phi with
  | Dense da => Nat.ltb i (length da)
  | Sparse sa => existsb (fun kv => Nat.eqb (fst kv) i) (sa_acts sa)
  end.

Definition last_writes (i : nat) (h : history R) : bool :=
  match rev h with
  | (phi, _) :: _ => writes phi i
  | [] => false
  end.

(** Maximum of beta^(T-1-k) * |g_k|, and of 0. *)
Fixpoint peak (beta : R) (gs : list R) : R :=
  match gs with
  | [] => 0
  | g :: gs' => Rmax (beta ^ length gs' * Rabs g) (peak beta gs')
  end.
