(** Incremental feature dependency discovery: model of
    /repo/src/basis/ifdd.rs.

    The file is not declared as a module of the pinned crate and does not
    compile against it: [IndexSet], [geometry::Vector], [Features::Sparse(set)],
    the infallible [project] and the four-argument [stack] belong to an earlier
    version. It is read here as follows. [IndexSet] is an ordered set of
    indices (it is hashed, ifdd.rs:74, and iterated in order by the test), so a
    strictly increasing list. The features returned by the basis are those of
    Features.v, of which [discover_sparse] sees the stored indices in increasing
    order. [p.stack(n1, np, n2)] is features.rs' [stack] with the second operand
    of dimension [n2] (see [ifdd_project]). *)
From Coq Require Import List Arith ZArith Bool.
From Verif Require Import Base Scalar HMap NdArray Features.
Import ListNotations.

(** [IndexSet]: a strictly increasing list. [IndexSet::insert]. *)
Fixpoint is_insert (i : nat) (s : list nat) : list nat :=
  match s with
  | [] => [i]
  | j :: s' => if i <? j then i :: s else if i =? j then s else j :: is_insert i s'
  end.

(** [IndexSet::union(..).cloned().collect()]; also [collect] alone, from []. *)
Definition is_union (s t : list nat) : list nat := fold_left (fun s i => is_insert i s) t s.

Definition is_eqb (s t : list nat) : bool := if list_eq_dec Nat.eq_dec s t then true else false.

(** itertools' [combinations(2)] and [tuple_combinations] on pairs: in
    lexicographic order of positions. *)
Fixpoint pairs {A} (l : list A) : list (A * A) :=
  match l with
  | [] => []
  | x :: l' => map (fun y => (x, y)) l' ++ pairs l'
  end.

(** ifdd.rs:18-21 ([struct Feature]). *)
Record feature := MkFeature { ft_index : nat; ft_parents : list nat }.

(** ifdd.rs:24-29 ([Feature::union]). *)
Definition feature_union (f g : feature) : list nat := is_union (ft_parents f) (ft_parents g).

Section Ifdd.
  Context {F : Type} `{Scalar F}.

  (** ifdd.rs:42-45 ([struct CandidateFeature]). *)
  Record candidate := MkCandidate { cd_relevance : F; cd_parents : list nat }.

  (** ifdd.rs:48-53. *)
  Definition candidate_new (parents : list nat) : candidate := MkCandidate fzero parents.
  (** ifdd.rs:55-63. *)
  Definition candidate_from_vec (v : list nat) : candidate := candidate_new (is_union [] v).
  (** ifdd.rs:65-70. *)
  Definition into_feature (c : candidate) (index : nat) : feature := MkFeature index (cd_parents c).

  (** [HashMap<IndexSet, CandidateFeature>], never iterated over. *)
  Definition cmap := list (list nat * candidate).

  Fixpoint cm_get (m : cmap) (k : list nat) : option candidate :=
    match m with
    | [] => None
    | (j, c) :: m' => if is_eqb j k then Some c else cm_get m' k
    end.

  Fixpoint cm_insert (m : cmap) (k : list nat) (c : candidate) : cmap :=
    match m with
    | [] => [(k, c)]
    | (j, d) :: m' => if is_eqb j k then (j, c) :: m' else (j, d) :: cm_insert m' k c
    end.

  Definition cm_remove (m : cmap) (k : list nat) : cmap :=
    filter (fun kc => negb (is_eqb (fst kc) k)) m.

  (** ifdd.rs:89-95 ([struct IFDD]); the basis, never modified, is left out: its
      dimension and its projections are arguments of the methods. *)
  Record ifdd := MkIfdd {
    if_features : list feature;
    if_candidates : cmap;
    if_threshold : F }.

  (** ifdd.rs:98-121 ([IFDD::new]), for a basis of dimension [n]. *)
  Definition ifdd_new (n : nat) (discovery_threshold : F) : ifdd :=
    MkIfdd (map (fun i => MkFeature i (is_insert i [])) (seq 0 n)) [] discovery_threshold.

  (** [x >= y] on f64. *)
  Definition fgeb (x y : F) : bool := fltb y x || feqb x y.

  (** ifdd.rs:124-142 ([inspect_candidate]). *)
  Definition inspect_candidate (s : ifdd) (g h : nat) (error : F)
      : outcome (ifdd * option candidate) :=
    let* fg := vget (if_features s) g in
    let* fh := vget (if_features s) h in
    let key := feature_union fg fh in
    let c0 := match cm_get (if_candidates s) key with
              | Some c => c
              | None => candidate_new key
              end in
    let rel := fadd (cd_relevance c0) (fabs error) in
    let c := MkCandidate rel (cd_parents c0) in
    let m := cm_insert (if_candidates s) key c in
    if fgeb rel (if_threshold s) then
      Ret (MkIfdd (if_features s) (cm_remove m key) (if_threshold s), Some c)
    else
      Ret (MkIfdd (if_features s) m (if_threshold s), None).

  (** [.filter_map(|(g, h)| self.inspect_candidate(g, h, error)).collect()],
      ifdd.rs:149-150 and 158-159. *)
  Definition inspect_all (s : ifdd) (ps : list (nat * nat)) (error : F)
      : outcome (ifdd * list candidate) :=
    ofold (fun acc gh =>
             let* r := inspect_candidate (fst acc) (fst gh) (snd gh) error in
             Ret (fst r, snd acc ++ match snd r with Some c => [c] | None => [] end))
          ps (s, []).

  (** ifdd.rs:145-151 ([discover_dense]); 1e-7 is [active_tol]. *)
  Definition discover_dense (s : ifdd) (phi : list F) (error : F) : outcome (ifdd * list candidate) :=
    inspect_all s
      (pairs (filter (fun i => fltb (fabs (nth i phi fzero)) active_tol) (seq 0 (length phi)))) error.

  (** ifdd.rs:154-160 ([discover_sparse]). *)
  Definition discover_sparse (s : ifdd) (active_indices : list nat) (error : F)
      : outcome (ifdd * list candidate) :=
    inspect_all s (pairs active_indices) error.

  (** ifdd.rs:162-170 ([add_feature]); the returned option is always [Some]. *)
  Definition add_feature (s : ifdd) (c : candidate) : ifdd * (nat * list nat) :=
    let idx := length (if_features s) in
    let f := into_feature c idx in
    (MkIfdd (if_features s ++ [f]) (if_candidates s) (if_threshold s), (idx, ft_parents f)).

  (** ifdd.rs:174-196 ([discover]); [phi] is [self.basis.project(input)]. The
      stored indices of sparse features are collected into an [IndexSet]. *)
  Definition discover (s : ifdd) (phi : Features F) (error : F)
      : outcome (ifdd * option (hmap (list nat))) :=
    let* r := match phi with
              | Sparse sa => discover_sparse s (is_union [] (hm_keys (sa_acts sa))) error
              | Dense da => discover_dense s da error
              end in
    Ret (fold_left
      (fun acc c =>
         let nf := add_feature (fst acc) c in
         (fst nf, Some (hm_insert (match snd acc with Some m => m | None => [] end)
                                  (fst (snd nf)) (snd (snd nf)))))
      (snd r) (fst r, None)).

  (** ifdd.rs:209-219: the derived features found active. *)
  Definition active_derived (n_base : nat) (s : ifdd) (p : Features F) : outcome (list nat) :=
    ofold (fun (np : list nat) i =>
             let* f := vget (if_features s) i in
             let* all := ofold (fun (b : bool) (j : nat) =>
                                  if b then
                                    let* x := index p j in Ret (fltb (fabs x) active_tol)
                                  else Ret false)
                               (ft_parents f) true in
             Ret (if all then np ++ [i] else np))
          (seq n_base (length (if_features s) - n_base)) [].

  (** ifdd.rs:221-225. *)
  Definition remove_parents (s : ifdd) (np : list nat) (p : Features F) : outcome (Features F) :=
    ofold (fun p i =>
             let* f := vget (if_features s) i in
             Ret (fold_left (fun p j => remove p j) (ft_parents f) p)) np p.

  (** ifdd.rs:204-228 ([project]); [p] is [self.basis.project(input)]. The
      four-argument [stack] is gone from the crate: here it is [stack] with the
      new indices, as they are, made into features of dimension
      [n_total - n_base]. *)
  Definition ifdd_project (n_base : nat) (s : ifdd) (p : Features F) : outcome (Features F) :=
    let* np := active_derived n_base s p in
    let* p' := remove_parents s np p in
    stack p' (unitary (length (if_features s) - n_base) np).

  (** A history of calls to [discover]. *)
  Definition discover_run (hist : list (Features F * F)) (s : ifdd) : outcome ifdd :=
    ofold (fun s pe => omap fst (discover s (fst pe) (snd pe))) hist s.
End Ifdd.
Arguments candidate : clear implicits.
Arguments ifdd : clear implicits.
Arguments cmap : clear implicits.
