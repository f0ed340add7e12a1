(** [std::collections::HashMap<usize, f64>] as used by SparseActivations
    (/repo/src/features.rs:92-106).

    A map is an association list; its order is the (unspecified) iteration
    order of the Rust map. Well-formed maps have no repeated key. *)
From Coq Require Import List Arith.
Import ListNotations.

Definition hmap (F : Type) := list (nat * F).

Section HMap.
  Context {F : Type}.

  Definition hm_keys (m : hmap F) : list nat := map fst m.
  Definition hm_values (m : hmap F) : list F := map snd m.

  (** A Rust map never holds a key twice. *)
  Definition hm_ok (m : hmap F) : Prop := NoDup (hm_keys m).

  (** [HashMap::get] *)
  Fixpoint hm_get (m : hmap F) (i : nat) : option F :=
    match m with
    | [] => None
    | (k, v) :: m' => if k =? i then Some v else hm_get m' i
    end.

  (** [HashMap::contains_key] *)
  Definition hm_mem (m : hmap F) (i : nat) : bool :=
    match hm_get m i with Some _ => true | None => false end.

  (** [HashMap::insert]: overwrite in place, or add. *)
  Fixpoint hm_insert (m : hmap F) (i : nat) (v : F) : hmap F :=
    match m with
    | [] => [(i, v)]
    | (k, w) :: m' => if k =? i then (k, v) :: m' else (k, w) :: hm_insert m' i v
    end.

  (** [HashMap::remove] *)
  Definition hm_remove (m : hmap F) (i : nat) : hmap F :=
    filter (fun kv => negb (fst kv =? i)) m.

  (** [iter.collect::<HashMap<_, _>>()]: inserts one after the other. *)
  Definition hm_collect (l : list (nat * F)) : hmap F :=
    fold_left (fun m kv => hm_insert m (fst kv) (snd kv)) l [].

  (** [for (i, a) in m.iter_mut() { *a = f(i, *a) }] *)
  Definition hm_iter_mut (f : nat -> F -> F) (m : hmap F) : hmap F :=
    map (fun kv => (fst kv, f (fst kv) (snd kv))) m.

  (** [m.entry(i).or_insert_with(|| v)] *)
  Definition hm_or_insert (m : hmap F) (i : nat) (v : F) : hmap F :=
    if hm_mem m i then m else hm_insert m i v.
End HMap.
