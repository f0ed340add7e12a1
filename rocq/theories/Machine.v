(** Machine-integer versions of the functions whose arithmetic the main model
    does in unbounded naturals: /repo/src/features.rs, basis/stack.rs and
    basis/uniform_grid.rs. [M] is the number of usize values (2^64 on a 64-bit
    target), [I] the number of non-negative i32 values (2^31). *)
From Coq Require Import List Arith ZArith Bool.
From Verif Require Import Base Scalar HMap NdArray Features Coeffs Kernels TileCoding Basis.
Import ListNotations.

Section Machine.
  Context {F : Type} `{Scalar F}.
  Context (M : nat) (b : build).

  (** The value of a usize operation whose exact result is [n]. *)
  Definition usize_arith (n : nat) : outcome nat :=
    if n <? M then Ret n
    else match b with Checked => Panic | Wrapping => Ret (n mod M) end.

  (** features.rs:290-312. [i + sa1.dim] per activation, then
      [sa1.dim + sa2.dim]. Dense lengths are bounded by the address space. *)
  Definition stack_m (self other : Features F) : outcome (Features F) :=
    match self, other with
    | Sparse sa1, Sparse sa2 =>
        let* acts := ofold (fun m kv => let* k := usize_arith (fst kv + sa_dim sa1) in
                                        Ret (hm_insert m k (snd kv)))
                           (sa_acts sa2) (sa_acts sa1) in
        let* d := usize_arith (sa_dim sa1 + sa_dim sa2) in
        Ret (Sparse (MkSparse d acts))
    | f1, f2 => stack f1 f2
    end.

  (** features.rs:764-773, 775-784. *)
  Definition max_plus_one_m (l : list nat) : outcome nat :=
    match l with
    | [] => Panic
    | i :: l' => usize_arith (S (fold_left Nat.max l' i))
    end.
  Definition from_indices_m (indices : list nat) : outcome (Features F) :=
    let* n := max_plus_one_m indices in
    Ret (Sparse (MkSparse n (hm_collect (map (fun i => (i, fone)) indices)))).
  Definition from_sparse_activations_m (sa : SparseActivations F) : outcome (Features F) :=
    let* n := max_plus_one_m (hm_keys (sa_acts sa)) in
    Ret (Sparse (MkSparse n (sa_acts sa))).

  (** uniform_grid.rs:18-25: the cardinality is accumulated axis by axis by the
      external crate. *)
  Definition grid_new_m (space : list (equipartition F)) : outcome (basis F) :=
    let* n := ofold (fun acc e => usize_arith (acc * ep_n e)) space 1 in
    Ret (BGrid n space).

  (** uniform_grid.rs:27-36: [d.map_onto(v) + d.n_partitions() * acc]. *)
  Definition grid_hash_m (space : list (equipartition F)) (input : list F) : outcome nat :=
    match space, input with
    | d :: ds, v :: vs =>
        ofold (fun acc dv => let* p := usize_arith (ep_n (fst dv) * acc) in
                             usize_arith (ep_map_onto (fst dv) (snd dv) + p))
              (combine ds vs) (ep_map_onto d v)
    | _, _ => Panic
    end.

  (** stack.rs:24, the sum being the external crate's [Dim + Dim]. *)
  Fixpoint dim_m (bs : basis F) : outcome nat :=
    match bs with
    | BStack b1 b2 =>
        let* d1 := dim_m b1 in let* d2 := dim_m b2 in usize_arith (d1 + d2)
    | BL0 b' | BL1 b' | BL2 b' | BLinf b' => dim_m b'
    | _ => Ret (dim bs)
    end.

  (** [Basis::project] with the above in place of the exact versions. *)
  Fixpoint project_m (bs : basis F) (input : list F) : outcome (result (Features F)) :=
    match bs with
    | BGrid n space =>
        let* bin := grid_hash_m space input in
        Ret (Ok (Sparse (MkSparse n (hm_collect [(bin, fone)]))))
    | BStack b1 b2 =>
        let* r1 := project_m b1 input in
        match r1 with
        | Err e => Ret (Err e)
        | Ok f1 =>
            let* r2 := project_m b2 input in
            rmap (fun f2 => stack_m f1 f2) r2
        end
    | BL0 b' => let* r := project_m b' input in rmap l0_normalise r
    | BL1 b' => let* r := project_m b' input in rmap (fun f => Ret (normalise_by l1_norm f)) r
    | BL2 b' => let* r := project_m b' input in rmap (fun f => Ret (normalise_by l2_norm f)) r
    | BLinf b' => let* r := project_m b' input in rmap (fun f => Ret (normalise_by linf_norm f)) r
    | _ => project bs input
    end.

  (** The value of an i32 operation whose exact result is [z]. *)
  Definition i32_arith (I : Z) (z : Z) : outcome Z :=
    if ((- I <=? z) && (z <? I))%Z then Ret z
    else match b with Checked => Panic | Wrapping => Ret ((z + I) mod (2 * I) - I)%Z end.

  (** [n as f64] for an i32. *)
  Definition fof_i32 (z : Z) : F :=
    if (z <? 0)%Z then fneg (fofnat (Z.to_nat (- z))) else fofnat (Z.to_nat z).

  (** features.rs:684-697: the literal 0 the fold starts from is an i32. *)
  Definition dot_features_m (I : Z) (self rhs : Features F) : outcome F :=
    match self, rhs with
    | Sparse sa1, Sparse sa2 =>
        let* n := ofold (fun acc k => i32_arith I (acc + (if hm_mem (sa_acts sa2) k then 1 else 0))%Z)
                        (hm_keys (sa_acts sa1)) 0%Z in
        Ret (fof_i32 n)
    | _, _ => dot_features self rhs
    end.
End Machine.
