(** Specification vocabulary for approximators. *)
From Coq Require Import List Arith ZArith Reals.
From Verif Require Import Base Scalar ScalarR HMap NdArray Features Optim OptimSpec Lfa.
Import ListNotations.

(** The elements of an owned array, in logical order, when all are in range. *)
Definition ow_elem {F} (a : owned1 F) (k : nat) : option F :=
  let i := (Z.of_nat (ow_start a) + Z.of_nat k * ow_stride a)%Z in
  if (i <? 0)%Z then None else nth_error (ow_raw a) (Z.to_nat i).

(** [l] lists the array's elements. *)
Definition ow_lists {F} (a : owned1 F) (l : list F) : Prop :=
  length l = ow_len a /\ forall k, k < ow_len a -> ow_elem a k = nth_error l k.

(** Standard layout: the elements are the whole storage, in order. *)
Definition ow_standard {F} (a : owned1 F) : Prop :=
  ow_start a = 0 /\ ow_stride a = 1%Z /\ ow_len a = length (ow_raw a).

(** [Array1::from(vec)], and most arithmetic on arrays. *)
Definition ow_vec {F} (l : list F) : owned1 F := MkOwned l 0 1 (length l).

Section Spec.
  Context {F I S : Type}.

  (** Rust's views cannot be resized: what every [impl Optimiser] satisfies. *)
  Definition keeps_length (o : Optimiser F S) : Prop :=
    forall s w phi e s' w' r, o_step_scaled o s w phi e = Ret (s', w', r) -> length w' = length w.

  (** Neither its state nor anything else survives a step. *)
  Definition memoryless (o : Optimiser F S) : Prop :=
    forall s w phi e s' w' r, o_step_scaled o s w phi e = Ret (s', w', r) -> s' = s.

  (** Columns [cs] stepped one after another, each with its error, while both
      last; every column is stepped whatever the earlier results. *)
  Fixpoint step_each (o : Optimiser F S) (phi : Features F) (es : list F) (cs : list (list F)) (s : S)
      : outcome (S * list (list F) * list (result unit)) :=
    match es, cs with
    | e :: es', c :: cs' =>
        match o_step_scaled o s c phi e with
        | Panic => Panic
        | Ret (s1, c1, r) =>
            match step_each o phi es' cs' s1 with
            | Panic => Panic
            | Ret (s2, cs2, rs) => Ret (s2, c1 :: cs2, r :: rs)
            end
        end
    | _, _ => Ret (s, cs, [])
    end.

  (** The first error of a list of results, if any. *)
  Definition first_error (rs : list (result unit)) : result unit :=
    match find (fun r => match r with Err _ => true | Ok _ => false end) rs with
    | Some r => r
    | None => Ok tt
    end.

  (** Calls a user can make on an approximator. *)
  Inductive s_call :=
  | SEvaluate (x : I)
  | SUpdate (x : I) (e : F)
  | SUpdateWith (x : I) (f : Features F -> F -> F).

  Inductive v_call :=
  | VEvaluate (x : I)
  | VEvaluateIndex (x : I) (j : nat)
  | VUpdate (x : I) (es : list F)
  | VUpdateIndex (x : I) (j : nat) (e : F)
  | VUpdateWith (x : I) (f : Features F -> list F -> owned1 F).

  Context `{Scalar F} (o : Optimiser F S).

  (** What a call leaves; its [Result] does not stop the sequence, a panic does. *)
  Definition s_do (a : ScalarLFA F I S) (c : s_call) : outcome (ScalarLFA F I S) :=
    match c with
    | SEvaluate x => omap (fun _ => a) (s_evaluate a x)
    | SUpdate x e => omap fst (s_update o a x e)
    | SUpdateWith x f => omap fst (s_update_with o a x f)
    end.
  Definition s_run (cs : list s_call) (a : ScalarLFA F I S) := ofold s_do cs a.

  Definition v_do (a : VectorLFA F I S) (c : v_call) : outcome (VectorLFA F I S) :=
    match c with
    | VEvaluate x => omap (fun _ => a) (v_evaluate a x)
    | VEvaluateIndex x j => omap (fun _ => a) (v_evaluate_index a x j)
    | VUpdate x es => omap fst (v_update o a x es)
    | VUpdateIndex x j e => omap fst (v_update_index o a x j e)
    | VUpdateWith x f => omap fst (v_update_with o a x f)
    end.
  Definition v_run (cs : list v_call) (a : VectorLFA F I S) := ofold v_do cs a.

  (** Training sequences. *)
  Definition s_train (h : list (I * F)) (a : ScalarLFA F I S) : outcome (ScalarLFA F I S) :=
    s_run (map (fun p => SUpdate (fst p) (snd p)) h) a.
  Definition v_train (h : list (I * list F)) (a : VectorLFA F I S) : outcome (VectorLFA F I S) :=
    v_run (map (fun p => VUpdate (fst p) (snd p)) h) a.

  (** The errors addressed to output [j]; a step giving fewer errors has none. *)
  Definition errors_of (j : nat) (h : list (I * list F)) : list (I * F) :=
    flat_map (fun p => match nth_error (snd p) j with Some e => [(fst p, e)] | None => [] end) h.

  (** [k] calls of [next]. *)
  Fixpoint advance (k : nat) (it : OutputIter F) : outcome (OutputIter F) :=
    match k with
    | O => Ret it
    | Datatypes.S k' =>
        match it_next it with
        | Ret (_, it') => advance k' it'
        | Panic => Panic
        end
    end.
End Spec.
Arguments s_call : clear implicits.
Arguments v_call : clear implicits.

(** Fitting (x, y) samples: each call updates by the residual y - v. *)
Definition fit_call {I} (p : I * R) : s_call R I := SUpdateWith (fst p) (fun _ v => (snd p - v)%R).

Definition dist2 (w w' : list R) : R :=
  sigma (length w) (fun i => ((at_ w i - at_ w' i) * (at_ w i - at_ w' i))%R).
