(** Memory layouts of dense activations: /repo/src/features.rs.

    [Features::Dense] holds an owned ndarray [Array1], which is a storage and a
    view into it (start, stride, length; [owned1] in Lfa.v). The main model
    keeps the elements only. Here the functions that look at the storage
    ([into_raw_vec], [as_slice]), and those that hand an array on, are modelled
    with it. ndarray is 0.15 (Cargo.toml). *)
From Coq Require Import List Arith ZArith Bool.
From Verif Require Import Base Scalar HMap NdArray Features Lfa.
Import ListNotations.

Section Layout.
  Context {F : Type} `{Scalar F}.

  (** Where in the storage element [k] is. *)
  Definition ow_pos (a : owned1 F) (k : nat) : Z := Z.of_nat (ow_start a) + ow_stride a * Z.of_nat k.

  (** The elements, in order. *)
  Definition elements (a : owned1 F) : list F :=
    map (fun k => nth (Z.to_nat (ow_pos a k)) (ow_raw a) fzero) (seq 0 (ow_len a)).

  (** What safe code can make: every element inside the storage, no two in one
      place. *)
  Definition layout_ok (a : owned1 F) : Prop :=
    (forall k, k < ow_len a -> (0 <= ow_pos a k < Z.of_nat (length (ow_raw a)))%Z) /\
    (ow_len a <= 1 \/ ow_stride a <> 0%Z).

  (** [Array1::from(Vec)], [zeros], [from_elem], [collect]. *)
  Definition of_vec (l : list F) : owned1 F := MkOwned l 0 1 (length l).
  Definition standard (a : owned1 F) : Prop := a = of_vec (ow_raw a).

  (** [Array1::into_raw_vec]: the storage. *)
  Definition into_raw_vec (a : owned1 F) : list F := ow_raw a.

  (** [Array1::as_slice]: [None] unless the elements are adjacent and in order;
      then the [len] cells from the first element on. *)
  Definition as_slice (a : owned1 F) : option (list F) :=
    if (ow_len a <=? 1) || (ow_stride a =? 1)%Z then Some (firstn (ow_len a) (skipn (ow_start a) (ow_raw a)))
    else None.

  (** [a[k] = f(a[k])]. *)
  Definition ow_upd (a : owned1 F) (k : nat) (f : F -> F) : outcome (owned1 F) :=
    if k <? ow_len a then
      let* raw := vupd (ow_raw a) (Z.to_nat (ow_pos a k)) f in
      Ret (MkOwned raw (ow_start a) (ow_stride a) (ow_len a))
    else Panic.

  (** [Array1::mapv_into]: in place. *)
  Definition mapv_into (a : owned1 F) (f : F -> F) : outcome (owned1 F) :=
    ofold (fun a k => ow_upd a k f) (seq 0 (ow_len a)) a.

  (** [Array1::mapv]: a new array, which keeps a stride of -1 (its storage is
      then the reversed elements) and is otherwise standard. *)
  Definition mapv (a : owned1 F) (f : F -> F) : owned1 F :=
    let l := map f (elements a) in
    if (ow_stride a =? -1)%Z then MkOwned (rev l) (length l - 1) (-1) (length l) else of_vec l.

  (** [Array1::zip_mut_with]: in place, after broadcasting the right side. *)
  Definition ow_zip_mut_with (f : F -> F -> F) (a b : owned1 F) : outcome (owned1 F) :=
    let* r := broadcast (elements b) (ow_len a) in
    ofold (fun a ky => ow_upd a (fst ky) (fun x => f x (snd ky))) (combine (seq 0 (ow_len a)) r) a.

  (** features.rs:122-129, with the layout. *)
  Inductive lfeatures :=
  | LDense (a : owned1 F)
  | LSparse (sa : SparseActivations F).

  (** What the main model keeps. *)
  Definition forget (phi : lfeatures) : Features F :=
    match phi with LDense a => Dense (elements a) | LSparse sa => Sparse sa end.
  Definition remember (phi : Features F) : lfeatures :=
    match phi with Dense da => LDense (of_vec da) | Sparse sa => LSparse sa end.

  (** features.rs:266-279. *)
  Definition l_into_dense (phi : lfeatures) : outcome (owned1 F) :=
    match phi with
    | LDense a => Ret a
    | LSparse sa => let* d := into_dense (Sparse sa) in Ret (of_vec d)
    end.

  (** features.rs:290-312. *)
  Definition l_stack (self other : lfeatures) : outcome lfeatures :=
    match self, other with
    | LSparse sa1, LSparse sa2 => omap remember (stack (Sparse sa1) (Sparse sa2))
    | f1, f2 =>
        let* d1 := l_into_dense f1 in
        let all_activations := into_raw_vec d1 in
        let* d2 := l_into_dense f2 in
        match as_slice d2 with
        | Some s => Ret (LDense (of_vec (all_activations ++ s)))
        | None => Panic
        end
    end.

  (** features.rs:792-796. *)
  Definition l_to_vec (phi : lfeatures) : outcome (list F) :=
    let* d := l_into_dense phi in Ret (into_raw_vec d).

  (** features.rs:316-344. *)
  Definition l_map (phi : lfeatures) (f : F -> F) : outcome lfeatures :=
    match phi with
    | LDense a => Ret (LDense (mapv a f))
    | LSparse sa => omap remember (fmap (Sparse sa) f)
    end.

  (** features.rs:347-375. *)
  Definition l_map_into (phi : lfeatures) (f : F -> F) : outcome lfeatures :=
    match phi with
    | LDense a => omap LDense (mapv_into a f)
    | LSparse sa => omap remember (fmap_into (Sparse sa) f)
    end.

  (** features.rs:483-535. *)
  Definition l_merge_into (self other : lfeatures) (f : F -> F -> F) : outcome lfeatures :=
    match self, other with
    | LDense a1, LDense a2 => omap LDense (ow_zip_mut_with f a1 a2)
    | LDense a1, LSparse sa2 =>
        omap LDense (ofold (fun a kv => ow_upd a (fst kv) (fun x => f x (snd kv))) (sa_acts sa2) a1)
    | LSparse sa1, LDense a2 => omap remember (merge_into (Sparse sa1) (Dense (elements a2)) f)
    | LSparse sa1, LSparse sa2 => omap remember (merge_into (Sparse sa1) (Sparse sa2) f)
    end.
End Layout.
Arguments lfeatures : clear implicits.
