(** Coefficient enumeration: model of [compute_coefficients],
    /repo/src/basis/mod.rs:142-149. *)
From Coq Require Import List Arith Bool.
Import ListNotations.

(** The product of some factors: the last position varies fastest. *)
Fixpoint multi_product {A} (ls : list (list A)) : list (list A) :=
  match ls with
  | [] => [[]]
  | l :: ls' => flat_map (fun x => map (cons x) (multi_product ls')) l
  end.

(** itertools' [multi_cartesian_product]: of no factors at all, itertools 0.10
    (Cargo.toml:30) yields nothing; releases from 0.13 on yield one empty
    vector. *)
Definition cartesian_product {A} (ls : list (list A)) : list (list A) :=
  match ls with
  | [] => []
  | _ :: _ => multi_product ls
  end.

(** [Vec<u8>::partial_cmp] (always [Some]): lexicographic. *)
Fixpoint lex_compare (a b : list nat) : comparison :=
  match a, b with
  | [], [] => Eq
  | [], _ :: _ => Lt
  | _ :: _, [] => Gt
  | x :: a', y :: b' =>
      match Nat.compare x y with
      | Eq => lex_compare a' b'
      | c => c
      end
  end.

Definition lex_leb (a b : list nat) : bool :=
  match lex_compare a b with Gt => false | _ => true end.

(** itertools' [sorted_by] (a stable sort), as insertion sort. *)
Fixpoint lex_insert (x : list nat) (l : list (list nat)) : list (list nat) :=
  match l with
  | [] => [x]
  | y :: l' => if lex_leb x y then x :: y :: l' else y :: lex_insert x l'
  end.
Fixpoint lex_sort (l : list (list nat)) : list (list nat) :=
  match l with
  | [] => []
  | x :: l' => lex_insert x (lex_sort l')
  end.

Definition vec_nat_eqb (a b : list nat) : bool :=
  match lex_compare a b with Eq => true | _ => false end.

(** itertools' [dedup]: drop an element equal to its predecessor. *)
Fixpoint dedup_from (prev : list nat) (l : list (list nat)) : list (list nat) :=
  match l with
  | [] => []
  | x :: l' => if vec_nat_eqb prev x then dedup_from prev l' else x :: dedup_from x l'
  end.
Definition dedup (l : list (list nat)) : list (list nat) :=
  match l with
  | [] => []
  | x :: l' => x :: dedup_from x l'
  end.

(** mod.rs:142-149. [0..=order] is [seq 0 (S order)]; [order : u8] is a nat. *)
Definition compute_coefficients (order dim : nat) : list (list nat) :=
  dedup (lex_sort (skipn 1 (cartesian_product (repeat (seq 0 (S order)) dim)))).
