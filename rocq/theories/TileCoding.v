(** Tile coding: model of /repo/src/basis/tile_coding.rs. *)
From Coq Require Import List Arith ZArith Bool.
From Verif Require Import Base Scalar HMap Features.
Import ListNotations.
Local Open Scope Z_scope.

(** A [BuildHasher]: what [build_hasher()] returns, and the hasher's
    [write_isize] and [finish] (a u64). Entirely up to the user. *)
Record hasher := MkHasher {
  h_state : Type;
  h_init : h_state;
  h_write : h_state -> Z -> h_state;
  h_finish : h_state -> N
}.

(** Integer overflow: a panic with debug assertions, wrap-around without. *)
Inductive build := Checked | Wrapping.

Definition wrap_isize (z : Z) : Z := (z + 2 ^ 63) mod 2 ^ 64 - 2 ^ 63.
Definition in_isize (z : Z) : bool := (isize_min <=? z) && (z <=? isize_max).

(** The value of an isize operation whose exact result is [z]. *)
Definition isize_arith (b : build) (z : Z) : outcome Z :=
  if in_isize z then Ret z
  else match b with Checked => Panic | Wrapping => Ret (wrap_isize z) end.

(** [a / b] on isize: truncates; zero divisor and MIN / -1 panic in any build. *)
Definition isize_div (a b : Z) : outcome Z :=
  if b =? 0 then Panic
  else if in_isize (Z.quot a b) then Ret (Z.quot a b) else Panic.

Section TileCoding.
  Context {F : Type} `{Scalar F}.

  (** tile_coding.rs:7-13. *)
  Definition bin_state (input : list F) (n_tilings : nat) : list Z :=
    map (fun f => ffloor_isize (fmul f (fofnat n_tilings))) input.

  (** tile_coding.rs:28-32: hash the cell coordinates of one tiling. *)
  Fixpoint hash_coords (b : build) (h : hasher) (n_tilings : nat) (t tx2 : Z)
      (i : nat) (state : list Z) (st : h_state h) : outcome (h_state h) :=
    match state with
    | [] => Ret st
    | s :: state' =>
        let* itx2 := isize_arith b (Z.of_nat i * tx2) in
        let* offset := isize_arith b (t + itx2) in
        let* so := isize_arith b (s + offset) in
        let* q := isize_div so (wrap_isize (Z.of_nat n_tilings)) in
        hash_coords b h n_tilings t tx2 (S i) state' (h_write h st q)
    end.

  (** tile_coding.rs:22-35: one call of the closure, for tiling [t]; the
      hasher keeps accumulating from one tiling to the next. [as usize] on a
      u64 is the identity on a 64-bit target; [% 0] panics. *)
  Definition hash_tiling (b : build) (h : hasher) (state : list Z)
      (n_tilings memory_size : nat) (st : h_state h) (t : nat)
      : outcome (h_state h * nat) :=
    let t := wrap_isize (Z.of_nat t) in
    let* tx2 := isize_arith b (t * 2) in
    let st := h_write h st t in
    let* st := hash_coords b h n_tilings t tx2 0 state st in
    match memory_size with
    | O => Panic
    | S _ => Ret (st, N.to_nat (h_finish h st mod N.of_nat memory_size))
    end.

  (** tile_coding.rs:15-36, fully consumed (as [project] does). *)
  Fixpoint hash_state (b : build) (h : hasher) (state : list Z)
      (n_tilings memory_size : nat) (st : h_state h) (ts : list nat)
      : outcome (list nat) :=
    match ts with
    | [] => Ret []
    | t :: ts' =>
        let* (st', i) := hash_tiling b h state n_tilings memory_size st t in
        let* is := hash_state b h state n_tilings memory_size st' ts' in
        Ret (i :: is)
    end.

  (** [hash.any(|f| index == f)] (line 106): stops at the first hit. *)
  Fixpoint hash_any (b : build) (h : hasher) (state : list Z)
      (n_tilings memory_size : nat) (st : h_state h) (ts : list nat) (index : nat)
      : outcome bool :=
    match ts with
    | [] => Ret false
    | t :: ts' =>
        let* (st', i) := hash_tiling b h state n_tilings memory_size st t in
        if (index =? i)%nat then Ret true
        else hash_any b h state n_tilings memory_size st' ts' index
    end.

  (** tile_coding.rs:75-88. *)
  Definition tile_project (b : build) (h : hasher) (n_tilings memory_size : nat)
      (input : list F) : outcome (result (Features F)) :=
    let state := bin_state input n_tilings in
    let* hash := hash_state b h state n_tilings memory_size (h_init h) (seq 0 n_tilings) in
    Ret (Ok (Sparse (MkSparse memory_size (hm_collect (map (fun i => (i, fone)) hash))))).

  (** tile_coding.rs:96-108. *)
  Definition tile_ith (b : build) (h : hasher) (n_tilings memory_size : nat)
      (input : list F) (index : nat) : outcome (result F) :=
    check_index index memory_size
      (let state := bin_state input n_tilings in
       let* hit := hash_any b h state n_tilings memory_size (h_init h)
                     (seq 0 n_tilings) index in
       Ret (Ok (if hit then fone else fzero))).
End TileCoding.
