(** Feature vectors: model of /repo/src/features.rs. *)
From Coq Require Import List Arith ZArith Bool.
From Verif Require Import Base Scalar HMap NdArray.
Import ListNotations.

(** features.rs:92-98 ([struct SparseActivations]). *)
Record SparseActivations (F : Type) := MkSparse { sa_dim : nat; sa_acts : hmap F }.
Arguments MkSparse {F}.
Arguments sa_dim {F}.
Arguments sa_acts {F}.

(** features.rs:123-129 ([enum Features]). *)
Inductive Features (F : Type) : Type :=
| Dense (da : list F)
| Sparse (sa : SparseActivations F).
Arguments Dense {F}.
Arguments Sparse {F}.

Section Features.
  Context {F : Type} `{Scalar F}.

  (** features.rs:136-141 ([Features::dense]); also From<Vec<f64>> (752-756),
      From<DenseActivations> (746-750) and FromIterator (758-762). *)
  Definition dense (da : list F) : Features F := Dense da.

  (** features.rs:145-153 ([Features::sparse]). *)
  Definition sparse (dim : nat) (activations : list (nat * F)) : Features F :=
    Sparse (MkSparse dim (hm_collect activations)).

  (** features.rs:157-162 ([Features::unitary]). *)
  Definition unitary (dim : nat) (indices : list nat) : Features F :=
    sparse dim (map (fun i => (i, fone)) indices).

  (** features.rs:165-167, 170-172. *)
  Definition is_dense (phi : Features F) : bool :=
    match phi with Dense _ => true | Sparse _ => false end.
  Definition is_sparse (phi : Features F) : bool :=
    match phi with Dense _ => false | Sparse _ => true end.

  (** features.rs:175-180. *)
  Definition n_features (phi : Features F) : nat :=
    match phi with Dense da => length da | Sparse sa => sa_dim sa end.

  (** 1e-7 and 1e-5, features.rs:185, 326. *)
  Definition active_tol : F := flit 1 10000000.
  Definition sparsity_tol : F := flit 1 100000.

  (** features.rs:183-189. [v.abs() > 1e-7] is [1e-7 < v.abs()]. *)
  Definition n_active (phi : Features F) : nat :=
    match phi with
    | Dense da => length (filter (fun v => fltb active_tol (fabs v)) da)
    | Sparse sa => length (sa_acts sa)
    end.

  (** features.rs:194-200. *)
  Definition get (phi : Features F) (idx : nat) : option F :=
    match phi with
    | Dense da => nth_error da idx
    | Sparse sa => hm_get (sa_acts sa) idx
    end.

  (** features.rs:204-210. Reading past the end of a dense vector is undefined
      behaviour in Rust (a debug assertion in ndarray); modelled as [Panic]. C63 says when the
      read is in bounds. *)
  Definition uget (phi : Features F) (idx : nat) : outcome (option F) :=
    match phi with
    | Dense da => omap Some (vget da idx)
    | Sparse sa => Ret (hm_get (sa_acts sa) idx)
    end.

  (** features.rs:230-238. *)
  Definition remove (phi : Features F) (idx : nat) : Features F :=
    match phi with
    | Dense da =>
        match vset da idx fzero with
        | Ret da' => Dense da'
        | Panic => Dense da          (* get_mut returned None *)
        end
    | Sparse sa => Sparse (MkSparse (sa_dim sa) (hm_remove (sa_acts sa) idx))
    end.

  (** The loop [for (idx, act) in m { phi[idx] = g(act) }] shared by to_dense
      (247-249), into_dense (272-274), map (336-338) and map_into (367-369). *)
  Definition write_all (g : F -> F) (m : hmap F) (phi : list F) : outcome (list F) :=
    ofold (fun p kv => vset p (fst kv) (g (snd kv))) m phi.

  (** features.rs:241-254. *)
  Definition to_dense (phi : Features F) : outcome (list F) :=
    match phi with
    | Dense da => Ret da
    | Sparse sa => write_all (fun a => a) (sa_acts sa) (zeros (sa_dim sa))
    end.

  (** features.rs:266-279; also From<Features> for DenseActivations (786-790)
      and for Vec<f64> (792-796). *)
  Definition into_dense (phi : Features F) : outcome (list F) :=
    match phi with
    | Dense da => Ret da
    | Sparse sa => write_all (fun a => a) (sa_acts sa) (zeros (sa_dim sa))
    end.

  (** features.rs:291-312. *)
  Definition stack (self other : Features F) : outcome (Features F) :=
    match self, other with
    | Sparse sa1, Sparse sa2 =>
        Ret (Sparse (MkSparse (sa_dim sa1 + sa_dim sa2)
          (fold_left (fun m kv => hm_insert m (fst kv + sa_dim sa1) (snd kv))
                     (sa_acts sa2) (sa_acts sa1))))
    | f1, f2 =>
        let* d1 := into_dense f1 in
        let* d2 := into_dense f2 in
        Ret (Dense (d1 ++ d2))
    end.

  (** features.rs:316-344. *)
  Definition fmap (phi : Features F) (f : F -> F) : outcome (Features F) :=
    match phi with
    | Dense da => Ret (Dense (map f da))
    | Sparse sa =>
        let null_activation := f fzero in
        if fltb (fabs null_activation) sparsity_tol then
          Ret (Sparse (MkSparse (sa_dim sa)
                (hm_collect (map (fun kv => (fst kv, f (snd kv))) (sa_acts sa)))))
        else
          let* phi' := write_all f (sa_acts sa) (repeat null_activation (sa_dim sa)) in
          Ret (Dense phi')
    end.

  (** features.rs:347-375. *)
  Definition fmap_into (phi : Features F) (f : F -> F) : outcome (Features F) :=
    match phi with
    | Dense da => Ret (Dense (map f da))
    | Sparse sa =>
        let null_activation := f fzero in
        if fltb (fabs null_activation) sparsity_tol then
          Ret (Sparse (MkSparse (sa_dim sa)
                (hm_collect (map (fun kv => (fst kv, f (snd kv))) (sa_acts sa)))))
        else
          let* phi' := write_all f (sa_acts sa) (repeat null_activation (sa_dim sa)) in
          Ret (Dense phi')
    end.

  (** features.rs:378-383. The zeroed temporary put in place of [self] while
      [map_into] runs is never read when [f] returns; see Unwind.v for closures that
      panic. *)
  Definition fmap_inplace (phi : Features F) (f : F -> F) : outcome (Features F) :=
    fmap_into phi f.

  (** features.rs:387-393, 398-404, 408-418. *)
  Definition map_dense {T} (phi : Features F) (f : list F -> T) : option T :=
    match phi with Dense da => Some (f da) | Sparse _ => None end.
  Definition map_sparse {T} (phi : Features F) (f : SparseActivations F -> T) : option T :=
    match phi with Dense _ => None | Sparse sa => Some (f sa) end.
  Definition map_either {T} (phi : Features F) (fd : list F -> T)
      (fs : SparseActivations F -> T) : T :=
    match phi with Dense da => fd da | Sparse sa => fs sa end.

  (** [m.get(&i).cloned().unwrap_or(0.0)] *)
  Definition get_or_zero (m : hmap F) (i : nat) : F :=
    match hm_get m i with Some v => v | None => fzero end.

  (** [for (&i, a) in sa2.iter() { a_out[i] = f(a_out[i], *a) }],
      features.rs:440-442 and 498-500. *)
  Definition merge_sparse_into_dense (f : F -> F -> F) (m : hmap F) (a_out : list F)
      : outcome (list F) :=
    ofold (fun p kv => vupd p (fst kv) (fun x => f x (snd kv))) m a_out.

  (** The sparse/sparse loops, features.rs:463-471 and 520-526. *)
  Definition merge_sparse_sparse (f : F -> F -> F) (m1 m2 : hmap F) : hmap F :=
    fold_left (fun m kv => hm_or_insert m (fst kv) (f fzero (snd kv))) m2
      (hm_iter_mut (fun i a => f a (get_or_zero m2 i)) m1).

  (** features.rs:422-480. In the sparse/dense case [da2[i]] is checked. *)
  Definition merge (self other : Features F) (f : F -> F -> F) : outcome (Features F) :=
    match self, other with
    | Dense da1, Dense da2 =>
        let* d := zip_mut_with f da1 da2 in Ret (Dense d)
    | Dense da1, Sparse sa2 =>
        let* d := merge_sparse_into_dense f (sa_acts sa2) da1 in Ret (Dense d)
    | Sparse sa1, Dense da2 =>
        let n := Nat.max (sa_dim sa1) (length da2) in
        let* d := omapM (fun i => let* y := vget da2 i in
                                  Ret (f (get_or_zero (sa_acts sa1) i) y)) (seq 0 n) in
        Ret (Dense d)
    | Sparse sa1, Sparse sa2 =>
        Ret (Sparse (MkSparse (Nat.max (sa_dim sa1) (sa_dim sa2))
              (merge_sparse_sparse f (sa_acts sa1) (sa_acts sa2))))
    end.

  (** features.rs:483-535. In the sparse/dense case a missing entry of [da2]
      reads as 0.0. *)
  Definition merge_into (self other : Features F) (f : F -> F -> F) : outcome (Features F) :=
    match self, other with
    | Dense da1, Dense da2 =>
        let* d := zip_mut_with f da1 da2 in Ret (Dense d)
    | Dense da1, Sparse sa2 =>
        let* d := merge_sparse_into_dense f (sa_acts sa2) da1 in Ret (Dense d)
    | Sparse sa1, Dense da2 =>
        let n := Nat.max (sa_dim sa1) (length da2) in
        Ret (Dense (map (fun i => f (get_or_zero (sa_acts sa1) i) (nth i da2 fzero)) (seq 0 n)))
    | Sparse sa1, Sparse sa2 =>
        Ret (Sparse (MkSparse (Nat.max (sa_dim sa1) (sa_dim sa2))
              (merge_sparse_sparse f (sa_acts sa1) (sa_acts sa2))))
    end.

  (** features.rs:539-548. As for [map_inplace], see Unwind.v for the temporary. *)
  Definition merge_inplace (self other : Features F) (f : F -> F -> F) : outcome (Features F) :=
    merge_into self other f.

  (** features.rs:553-559. *)
  Definition ffold (phi : Features F) (init : F) (f : F -> F -> F) : F :=
    match phi with
    | Dense da => fold_left f da init
    | Sparse sa => fold_left f (hm_values (sa_acts sa)) init
    end.

  (** features.rs:592-599 ([dot_sparse]). *)
  Definition dot_sparse (sa : SparseActivations F) (weights : list F) : outcome F :=
    ofold (fun acc kv => let* w := vget weights (fst kv) in
                         Ret (fadd acc (fmul w (snd kv)))) (sa_acts sa) fzero.

  (** features.rs:573-590 ([dot], [dot_dense]); also Dot<W> for Features
      (672-682). *)
  Definition dot (phi : Features F) (weights : list F) : outcome F :=
    match phi with
    | Dense da => dot1 da weights
    | Sparse sa => dot_sparse sa weights
    end.

  (** features.rs:623-632. *)
  Definition matmul (phi : Features F) (weights : matrix F) : outcome (list F) :=
    let* cs := columns weights in omapM (dot phi) cs.

  (** features.rs:635-640. [values().sum()] folds from 0.0 (from
      -0.0 in recent versions of the standard library, which only shows in the
      sign of an empty or all-negative-zero sum). *)
  Definition fsum (phi : Features F) : F :=
    match phi with
    | Dense da => nd_sum da
    | Sparse sa => fold_left fadd (hm_values (sa_acts sa)) fzero
    end.

  (** features.rs:643-654. *)
  Definition addto (phi : Features F) (weights : list F) : outcome (list F) :=
    match phi with
    | Dense da => add_assign weights da
    | Sparse sa =>
        ofold (fun w kv => vupd w (fst kv) (fun x => fadd x (snd kv))) (sa_acts sa) weights
    end.

  (** features.rs:658-669. *)
  Definition scaled_addto (phi : Features F) (alpha : F) (weights : list F) : outcome (list F) :=
    match phi with
    | Dense da => scaled_add alpha weights da
    | Sparse sa =>
        ofold (fun w kv => vupd w (fst kv) (fun x => fadd x (fmul alpha (snd kv))))
              (sa_acts sa) weights
    end.

  (** features.rs:684-707 ([Dot<Features> for Features]). The sparse/sparse
      count is an i32 in Rust; Machine.v
      models its overflow. *)
  Definition dot_features (self rhs : Features F) : outcome F :=
    match self, rhs with
    | Sparse sa1, Sparse sa2 =>
        Ret (fofnat (fold_left (fun acc k => acc + if hm_mem (sa_acts sa2) k then 1 else 0)
                               (hm_keys (sa_acts sa1)) 0))
    | Sparse sa1, Dense da2 => dot_sparse sa1 da2
    | Dense da1, Sparse sa2 => dot_sparse sa2 da1
    | Dense da1, Dense da2 => dot1 da1 da2
    end.

  (** features.rs:715-729 ([Index<usize>]). *)
  Definition index (phi : Features F) (idx : nat) : outcome F :=
    match phi with
    | Dense da => vget da idx
    | Sparse sa => Ret (if hm_mem (sa_acts sa) idx then fone else fzero)
    end.

  (** [HashMap::eq]: same size, and every entry of the left has an equal entry
      on the right. *)
  Definition hm_eqb (m1 m2 : hmap F) : bool :=
    (length m1 =? length m2) &&
    forallb (fun kv => match hm_get m2 (fst kv) with
                       | Some v => feqb (snd kv) v
                       | None => false
                       end) m1.

  (** [Array1::eq]: same length and elementwise [==]. *)
  Fixpoint vec_eqb (a b : list F) : bool :=
    match a, b with
    | [], [] => true
    | x :: a', y :: b' => feqb x y && vec_eqb a' b'
    | _, _ => false
    end.

  (** features.rs:731-744 ([PartialEq]). *)
  Definition features_eqb (self rhs : Features F) : outcome bool :=
    match self, rhs with
    | Sparse sa1, Sparse sa2 =>
        Ret ((sa_dim sa1 =? sa_dim sa2) && hm_eqb (sa_acts sa1) (sa_acts sa2))
    | Dense da1, Dense da2 => Ret (vec_eqb da1 da2)
    | _, _ => Panic
    end.

  (** [iter.max().unwrap() + 1] on a list of indices. *)
  Definition max_plus_one (l : list nat) : outcome nat :=
    match l with
    | [] => Panic
    | i :: l' => Ret (S (fold_left Nat.max l' i))
    end.

  (** features.rs:764-773 ([From<SparseActivations>]). *)
  Definition from_sparse_activations (sa : SparseActivations F) : outcome (Features F) :=
    let* n := max_plus_one (hm_keys (sa_acts sa)) in
    Ret (Sparse (MkSparse n (sa_acts sa))).

  (** features.rs:775-784 ([From<Vec<IndexT>>]). *)
  Definition from_indices (indices : list nat) : outcome (Features F) :=
    let* n := max_plus_one indices in
    Ret (Sparse (MkSparse n (hm_collect (map (fun i => (i, fone)) indices)))).
End Features.
