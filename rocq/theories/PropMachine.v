(** C62: machine integers. Statements only; proofs are in MachineFacts.v. *)
From Coq Require Import List Arith ZArith Lia Bool Reals.
From Verif Require Import Base Scalar ScalarR HMap HMapFacts NdArray VecFacts Features Spec FeatureFacts
  Coeffs Kernels TileCoding Basis BasisFacts Machine MachineFacts.
Import ListNotations.

(** A library basis whose dimension is a usize behaves, in either build, as if
    integers were unbounded. *)
Theorem C62_bases : forall F `{Scalar F} M b (bs : basis F) x, sound bs -> dim bs < M ->
  dim_m M b bs = Ret (dim bs) /\ project_m M b bs x = project bs x.
Proof. intros F S M b bs x Sd L. split; [exact (dim_fits M b bs L)|exact (project_fits M b bs x Sd L)]. Qed.
Print Assumptions C62_bases.

(** Two stacked bases whose dimensions do not add up to a usize. *)
Theorem C62_dim_overflow : forall F `{Scalar F} M (b1 b2 : basis F),
  dim b1 < M -> dim b2 < M -> M <= dim b1 + dim b2 ->
  dim_m M Checked (BStack b1 b2) = Panic /\ dim_m M Wrapping (BStack b1 b2) = Ret (dim b1 + dim b2 - M).
Proof. intros F S. exact dim_overflow. Qed.
Print Assumptions C62_dim_overflow.

Theorem C62_stack : forall F `{Scalar F} M (phi1 phi2 : Features F), wf phi1 -> wf phi2 ->
  size phi1 + size phi2 < M -> forall b, stack_m M b phi1 phi2 = stack phi1 phi2.
Proof. intros F S M phi1 phi2 W1 W2 L b. exact (stack_fits M b phi1 phi2 W1 W2 L). Qed.
Print Assumptions C62_stack.

Theorem C62_stack_checked : forall F `{Scalar F} M d1 d2 (m1 m2 : hmap F), wf (Sparse (MkSparse d2 m2)) ->
  (stack_m M Checked (Sparse (MkSparse d1 m1)) (Sparse (MkSparse d2 m2)) = Panic <-> M <= d1 + d2).
Proof. intros F S. exact stack_checked. Qed.
Print Assumptions C62_stack_checked.

Theorem C62_stack_wraps : forall F `{Scalar F} M d1 d2 (m1 m2 : hmap F),
  wf (Sparse (MkSparse d1 m1)) -> wf (Sparse (MkSparse d2 m2)) -> d1 < M -> d2 < M -> M <= d1 + d2 ->
  exists m, stack_m M Wrapping (Sparse (MkSparse d1 m1)) (Sparse (MkSparse d2 m2)) =
      Ret (Sparse (MkSparse (d1 + d2 - M) m)) /\
    NoDup (hm_keys m) /\
    forall i, hm_get m i =
      if i <? d1 then match hm_get m2 (i + M - d1) with Some v => Some v | None => hm_get m1 i end
      else if i <? M then hm_get m2 (i - d1) else None.
Proof. intros F S. exact stack_wraps. Qed.
Print Assumptions C62_stack_wraps.

(** For every word size: a release build can return an ill-formed vector that
    has lost an activation. *)
Theorem C62_stack_refuted : forall F `{Scalar F} M (v w : F), 3 <= M ->
  exists phi1 phi2 phi, wf phi1 /\ wf phi2 /\ size phi1 < M /\ size phi2 < M /\
    get phi1 0 = Some v /\ get phi2 1 = Some w /\
    stack_m M Wrapping phi1 phi2 = Ret phi /\ size phi = 1 /\ ~ bounded phi /\ get phi 0 = Some w.
Proof.
  intros F S M v w L.
  set (m1 := [(0, v); (M - 2, v)]). set (m2 := [(1, w)]).
  assert (W1 : wf (Sparse (MkSparse (M - 1) m1))).
  { split; [|rewrite bounded_sparse; simpl; intros i [<-|[<-|[]]]; lia].
    simpl. constructor; [simpl; lia|constructor; [simpl; tauto|constructor]]. }
  assert (W2 : wf (Sparse (MkSparse 2 m2))).
  { split; [|rewrite bounded_sparse; simpl; intros i [<-|[]]; lia]. simpl. constructor; [simpl; tauto|constructor]. }
  destruct (stack_wraps M (M - 1) 2 m1 m2 W1 W2) as (m & E & O & G); try lia.
  exists (Sparse (MkSparse (M - 1) m1)), (Sparse (MkSparse 2 m2)), (Sparse (MkSparse (M - 1 + 2 - M) m)).
  splits; auto; simpl size; try lia.
  - rewrite bounded_sparse. intros B. assert (X : M - 2 < M - 1 + 2 - M).
    { apply B. apply hm_get_key with v. rewrite G. destruct (Nat.ltb_spec (M - 2) (M - 1)); [|lia].
      replace (M - 2 + M - (M - 1)) with (M - 1) by lia. unfold m1, m2. cbn [hm_get].
      destruct (Nat.eqb_spec 1 (M - 1)); [lia|]. destruct (Nat.eqb_spec 0 (M - 2)); [reflexivity|].
      rewrite Nat.eqb_refl. reflexivity. }
    lia.
  - cbn [get sa_acts]. rewrite G. destruct (Nat.ltb_spec 0 (M - 1)); [|lia].
    replace (0 + M - (M - 1)) with 1 by lia. reflexivity.
Qed.
Print Assumptions C62_stack_refuted.

(** Constructing a grid and hashing an input. *)
Theorem C62_grid : forall F `{Scalar F} M (space : list (equipartition F)), 1 < M ->
  (forall e v, In e space -> ep_map_onto e v < ep_n e) ->
  let n := fold_right Nat.mul 1 (map ep_n space) in
  (n < M -> forall b x, grid_new_m M b space = Ret (grid_new space) /\ grid_hash_m M b space x = grid_hash space x) /\
  (M <= n -> grid_new_m M Checked space = Panic).
Proof.
  intros F S M space L A n.
  assert (A1 : forall e, In e space -> 1 <= ep_n e) by (intros e I; specialize (A e fzero I); lia).
  destruct (grid_new_fits M space L A1) as [G1 G2]. split; [|exact G2].
  intros Ln b x. split; [exact (G1 Ln b)|exact (grid_hash_fits M b space x A Ln)].
Qed.
Print Assumptions C62_grid.

(** For every word size: in a release build two axes can make a grid of one
    cell that activates another one. *)
Theorem C62_grid_refuted : forall F `{Scalar F} M (x y : F), 3 <= M ->
  exists space bs phi, (forall e v, In e space -> ep_map_onto e v < ep_n e) /\
    grid_new_m M Wrapping space = Ret bs /\ dim bs = 1 /\
    project_m M Wrapping bs [x; y] = Ret (Ok phi) /\ get phi (M - 1) = Some fone /\ ~ bounded phi.
Proof.
  intros F S M x y L.
  set (e := fun j : nat => @MkEqui F (M - 1) (fun _ => j) fone []).
  exists [e 1; e 0], (BGrid 1 [e 1; e 0]), (Sparse (MkSparse 1 [(M - 1, fone)])). splits.
  - intros d v [<-|[<-|[]]]; simpl; lia.
  - unfold grid_new_m. cbn [ofold e ep_n]. rewrite usize_fits by lia. cbn [obind].
    unfold usize_arith. destruct (Nat.ltb_spec (1 * (M - 1) * (M - 1)) M).
    + assert (M = 3 \/ 4 <= M) as [->|] by lia; [simpl in *; lia|nia].
    + cbn [obind]. do 2 f_equal. replace (1 * (M - 1) * (M - 1)) with (1 + (M - 2) * M) by nia.
      rewrite Nat.mod_add by lia. apply Nat.mod_small. lia.
  - reflexivity.
  - cbn [project_m grid_hash_m combine ofold fst snd e ep_n ep_map_onto].
    rewrite usize_fits by lia. cbn [obind]. rewrite usize_fits by lia. cbn [obind].
    replace (0 + (M - 1) * 1) with (M - 1) by lia. reflexivity.
  - cbn. rewrite Nat.eqb_refl. reflexivity.
  - rewrite bounded_sparse. intros B. assert (X : M - 1 < 1) by (apply B; simpl; auto). lia.
Qed.
Print Assumptions C62_grid_refuted.

Theorem C62_from_indices : forall F `{Scalar F} M (l : list nat), 0 < M -> (forall i, In i l -> i < M) ->
  (~ In (M - 1) l -> forall b, @from_indices_m F _ M b l = from_indices l) /\
  (In (M - 1) l -> @from_indices_m F _ M Checked l = Panic /\
    exists m, @from_indices_m F _ M Wrapping l = Ret (Sparse (MkSparse 0 m))).
Proof.
  intros F S M l P A. split.
  - intros N b. apply from_indices_fits. intros i I. assert (i < M) by auto.
    destruct (Nat.eq_dec i (M - 1)) as [->|]; [contradiction|lia].
  - intros I. exact (from_indices_top M l P A I).
Qed.
Print Assumptions C62_from_indices.

Theorem C62_from_sparse : forall F `{Scalar F} M (sa : SparseActivations F), 0 < M ->
  (forall i, In i (hm_keys (sa_acts sa)) -> i < M) ->
  (~ In (M - 1) (hm_keys (sa_acts sa)) -> forall b, from_sparse_activations_m M b sa = from_sparse_activations sa) /\
  (In (M - 1) (hm_keys (sa_acts sa)) -> from_sparse_activations_m M Checked sa = Panic /\
    from_sparse_activations_m M Wrapping sa = Ret (Sparse (MkSparse 0 (sa_acts sa)))).
Proof.
  intros F S M sa P A. unfold from_sparse_activations_m, from_sparse_activations.
  pose proof (C62_from_indices F M (hm_keys (sa_acts sa)) P A) as [N I].
  unfold from_indices_m, from_indices in *. split.
  - intros X b. specialize (N X b).
    destruct (max_plus_one_m M b _) as [n|]; destruct (max_plus_one _) as [n'|]; cbn [obind] in *; congruence.
  - intros X. destruct (I X) as (C & m & W). split.
    + destruct (max_plus_one_m M Checked _); [discriminate|reflexivity].
    + destruct (max_plus_one_m M Wrapping _); [|discriminate]. cbn [obind] in *. congruence.
Qed.
Print Assumptions C62_from_sparse.

(** The sparse/sparse dot product counts shared indices in an i32. *)
Theorem C62_dot_count : forall F `{Scalar F} I (sa1 sa2 : SparseActivations F), (0 < I)%Z ->
  let n := length (filter (hm_mem (sa_acts sa2)) (hm_keys (sa_acts sa1))) in
  ((Z.of_nat n < I)%Z -> forall b, dot_features_m b I (Sparse sa1) (Sparse sa2) = dot_features (Sparse sa1) (Sparse sa2)) /\
  ((I <= Z.of_nat n)%Z -> dot_features_m Checked I (Sparse sa1) (Sparse sa2) = Panic) /\
  ((I <= Z.of_nat n < 2 * I)%Z ->
     dot_features_m Wrapping I (Sparse sa1) (Sparse sa2) = Ret (fneg (fofnat (Z.to_nat (2 * I - Z.of_nat n))))).
Proof. intros F S I sa1 sa2 P. exact (dot_count I sa1 sa2 P). Qed.
Print Assumptions C62_dot_count.

(** A vector can have a negative product with itself. *)
Theorem C62_dot_refuted : forall I, (0 < I)%Z ->
  exists sa : SparseActivations R, wf (Sparse sa) /\
    (exists v, dot_features_m Wrapping I (Sparse sa) (Sparse sa) = Ret v /\ (v < 0)%R).
Proof.
  intros I P. set (n := Z.to_nat I).
  assert (K : forall (l : list nat), hm_keys (map (fun i => (i, 1%R)) l) = l).
  { unfold hm_keys. intros l. rewrite map_map. apply map_id. }
  exists (MkSparse n (map (fun i => (i, 1%R)) (seq 0 n))). split.
  - split; [|rewrite bounded_sparse].
    + change (NoDup (hm_keys (map (fun i => (i, 1%R)) (seq 0 n)))). rewrite K. apply seq_NoDup.
    + simpl sa_acts. rewrite K. intros i J. apply in_seq in J. simpl. lia.
  - set (sa := MkSparse n _).
    destruct (dot_count I sa sa P) as (_ & _ & D).
    assert (E : shared (sa_acts sa) (sa_acts sa) = n).
    { unfold shared. replace (filter _ _) with (hm_keys (sa_acts sa)); [subst sa; simpl sa_acts; rewrite K; apply seq_length|].
      assert (FI : forall l, (forall i, In i l -> hm_mem (sa_acts sa) i = true) -> l = filter (hm_mem (sa_acts sa)) l).
      { induction l as [|i l IH]; intros A; simpl; auto. rewrite A by (simpl; auto). f_equal. apply IH. intros j J. apply A. simpl. auto. }
      apply FI. intros i J. apply hm_mem_In. exact J. }
    rewrite E in D. rewrite D by lia. eexists. split; [reflexivity|].
    replace (2 * I - Z.of_nat n)%Z with I by lia. fold n. cbn [fneg fofnat ScalarR].
    assert (0 < INR n)%R by (apply lt_0_INR; lia). Lra.lra.
Qed.
Print Assumptions C62_dot_refuted.

(** ** Concrete cases, with 8-bit usize and i32 replaced by 3-bit integers *)

Definition c62_sa (d : nat) (l : list (nat * R)) : Features R := Sparse (MkSparse d l).

Example C62_stack_case : exists m,
  stack_m 256 Wrapping (c62_sa 200 [(0, 1%R); (199, 2%R)]) (c62_sa 100 [(3, 4%R); (99, 5%R)]) = Ret (c62_sa 44 m) /\
  hm_get m 203 = Some 4%R /\ hm_get m 43 = Some 5%R /\ hm_get m 0 = Some 1%R /\ length m = 4.
Proof. eexists. cbn. splits; reflexivity. Qed.

Example C62_stack_checked_case :
  stack_m 256 Checked (c62_sa 200 []) (c62_sa 56 []) = Panic /\
  stack_m 256 Checked (c62_sa 200 []) (c62_sa 55 []) = Ret (c62_sa 255 []).
Proof. split; reflexivity. Qed.

Example C62_bases_case :
  let e := MkEqui 3 (fun _ : R => 2) 1%R [] in
  let bs := BStack (BL1 (grid_new [e; e])) (BBias 5%R) in
  sound bs /\ dim bs = 10 /\ dim_m 11 Checked bs = Ret 10 /\ dim_m 10 Checked bs = Panic.
Proof. cbn. splits; auto; try reflexivity. intros d v [<-|[<-|[]]]; simpl; lia. Qed.

Example C62_from_indices_case : @from_indices_m R _ 8 Checked [3; 6] = from_indices [3; 6] /\
  @from_indices_m R _ 8 Checked [3; 7] = Panic.
Proof. split; reflexivity. Qed.

Example C62_from_sparse_case : let sa := MkSparse 4 [(6, 1%R); (3, 2%R)] in
  from_sparse_activations_m 8 Checked sa = Ret (Sparse (MkSparse 7 [(6, 1%R); (3, 2%R)])) /\
  from_sparse_activations_m 7 Checked sa = Panic.
Proof. split; reflexivity. Qed.

Example C62_dot_case : forall b,
  dot_features_m b 4 (c62_sa 9 [(1, 1%R); (2, 1%R); (5, 1%R)]) (c62_sa 9 [(5, 1%R); (1, 1%R); (4, 1%R)]) =
  dot_features (c62_sa 9 [(1, 1%R); (2, 1%R); (5, 1%R)]) (c62_sa 9 [(5, 1%R); (1, 1%R); (4, 1%R)]).
Proof. intros b. apply (dot_count 4); reflexivity. Qed.
