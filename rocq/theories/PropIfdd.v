(** C67: incremental feature dependency discovery (basis/ifdd.rs, present in the
    repository but not compiled; see Ifdd.v for how it is read). *)
From Coq Require Import List Arith ZArith Lia Bool Reals Lra Sorting.Sorted.
From Flocq Require Import IEEE754.Binary IEEE754.BinarySingleNaN.
From Verif Require Import Base Scalar ScalarR ScalarF64 HMap NdArray Features Ifdd HMapFacts VecFacts FeatureFacts IfddFacts IfddMore.
Import ListNotations.

(** ** The state after any history of [discover] *)

(** Nothing panics; the base features stay in place; every later feature is
    numbered by its position and is a pair of distinct base features; every
    candidate is such a pair and is below the threshold. *)
Theorem C67_invariant : forall F (S : Scalar F) n thr hist, Forall (fun pe => fits n (fst pe)) hist ->
  exists s, discover_run hist (ifdd_new n thr) = Ret s /\
    firstn n (if_features s) = map (fun i => MkFeature i [i]) (seq 0 n) /\
    (forall i f, nth_error (if_features s) i = Some f -> ft_index f = i) /\
    (forall i f, n <= i -> nth_error (if_features s) i = Some f -> exists a b, ft_parents f = [a; b] /\ a < b < n) /\
    (forall k c, cm_get (if_candidates s) k = Some c ->
       cd_parents c = k /\ fgeb (cd_relevance c) thr = false /\ exists a b, k = [a; b] /\ a < b < n).
Proof.
  intros F S n thr hist B. destruct (discover_run_is n hist _ (ifdd_new_ok n thr) B) as (s & E & O & T & _).
  exists s. refine (conj E (conj (ok_base _ _ O) (conj (ok_index _ _ O) (conj _ _)))).
  - intros i f L X. assert (Li : i < length (if_features s)) by (apply nth_error_Some; congruence).
    destruct (ok_derived_nth n s i O (conj L Li)) as (a & b & X' & D). rewrite X in X'. injection X' as ->. exists a, b. auto.
  - intros k c X. rewrite <- (T : if_threshold s = thr). exact (ok_cands _ _ O k c X).
Qed.
Print Assumptions C67_invariant.

(** A candidate made from a vector has its indices, each once and in order, and
    no relevance yet. *)
Theorem C67_from_vec : forall F `{Scalar F} v, let c := candidate_from_vec v in
  cd_relevance c = fzero /\ StronglySorted lt (cd_parents c) /\ forall i, In i (cd_parents c) <-> In i v.
Proof.
  intros F S v c. splits; [reflexivity|apply is_union_sorted; constructor|].
  intros i. unfold c, candidate_from_vec, candidate_new. cbn [cd_parents]. rewrite is_union_In. cbn [In]. tauto.
Qed.
Print Assumptions C67_from_vec.

Example C67_from_vec_case : cd_parents (@candidate_from_vec R _ [5; 2; 5]) = [2; 5].
Proof. reflexivity. Qed.

(** What happens to one pair depends only on the errors of the calls that look
    at it: each adds its magnitude to the relevance, and a relevance that
    reaches the threshold makes a feature and starts again from nothing. *)
Theorem C67_pair_history : forall F (S : Scalar F) n thr hist, Forall (fun pe => fits n (fst pe)) hist ->
  exists s, discover_run hist (ifdd_new n thr) = Ret s /\ forall a b,
    (length (filter (fun f => is_eqb (ft_parents f) [a; b]) (if_features s)),
     option_map cd_relevance (cm_get (if_candidates s) [a; b])) =
    fold_left (fun kr e =>
        let r := fadd (match snd kr with Some r => r | None => fzero end) (fabs e) in
        if fltb thr r || feqb r thr then (Datatypes.S (fst kr), None) else (fst kr, Some r))
      (map snd (filter (fun pe => looked_at (fst pe) a b) hist)) (0, None).
Proof.
  intros F S n thr hist B. destruct (discover_run_is n hist _ (ifdd_new_ok n thr) B) as (s & E & _ & _ & P).
  exists s. split; [exact E|]. intros a b. specialize (P a b). rewrite new_pair_state in P. exact P.
Qed.
Print Assumptions C67_pair_history.

(** A call appends, in lexicographic order, the inspected pairs whose relevance
    it brings to the threshold, and returns exactly the appended features, or
    [None] if there are none. *)
Theorem C67_discover : forall F (S : Scalar F) n thr hist s phi e, Forall (fun pe => fits n (fst pe)) hist ->
  discover_run hist (ifdd_new n thr) = Ret s -> fits n phi ->
  exists s' o new, discover s phi e = Ret (s', o) /\
    if_features s' = if_features s ++ new /\
    map ft_index new = seq (length (if_features s)) (length new) /\
    map ft_parents new = map (fun p => [fst p; snd p])
      (filter (fun p => fgeb (fadd (match cm_get (if_candidates s) [fst p; snd p] with
                                    | Some c => cd_relevance c | None => fzero end) (fabs e)) thr)
              (filter (fun p => looked_at phi (fst p) (snd p)) (list_prod (seq 0 n) (seq 0 n)))) /\
    match o with
    | None => new = []
    | Some m => new <> [] /\ forall i, hm_get m i = if i <? length (if_features s) then None
                                                    else option_map ft_parents (nth_error (if_features s') i)
    end.
Proof.
  intros F S n thr hist s phi e B E Bp.
  destruct (discover_run_is n hist _ (ifdd_new_ok n thr) B) as (s0 & E0 & O & T & _). rewrite E in E0. injection E0 as <-.
  change (if_threshold s = thr) in T.
  destruct (discover_is n s phi e O Bp) as (s' & o & E1 & _ & _ & F1 & _ & Z & M).
  exists s', o, (numbered (length (if_features s)) (filter (promoted s e) (inspected_pairs phi))).
  split; [exact E1|]. split; [exact F1|].
  assert (L : length (if_features s') = length (if_features s) + length (filter (promoted s e) (inspected_pairs phi)))
    by (rewrite F1, app_length, numbered_length; reflexivity).
  split; [|split].
  - rewrite numbered_length. generalize (length (if_features s)). generalize (filter (promoted s e) (inspected_pairs phi)).
    intros ps. induction ps as [|p ps IH]; intros k; cbn [numbered map length seq ft_index]; [reflexivity|]. now rewrite IH.
  - rewrite (inspected_pairs_is n phi Bp), <- T.
    transitivity (map (fun p => [fst p; snd p]) (filter (promoted s e) (filter (fun p => looked_at phi (fst p) (snd p)) (list_prod (seq 0 n) (seq 0 n))))).
    + generalize (length (if_features s)). generalize (filter (promoted s e) (filter (fun p => looked_at phi (fst p) (snd p)) (list_prod (seq 0 n) (seq 0 n)))).
      intros ps. induction ps as [|p ps IH]; intros k; cbn [numbered map ft_parents]; [reflexivity|]. now rewrite IH.
    + f_equal. apply filter_ext. intros p. unfold promoted, pair_relevance. destruct (cm_get (if_candidates s) [fst p; snd p]); reflexivity.
  - destruct (filter (promoted s e) (inspected_pairs phi)) as [|p ps].
    + rewrite Z by (cbn in L; lia). reflexivity.
    + destruct M as (m & -> & M); [cbn in L; lia|]. split; [discriminate|exact M].
Qed.
Print Assumptions C67_discover.

(** ** Exact arithmetic *)

(** With a positive threshold a pair becomes a feature exactly when the
    magnitudes of the errors of the calls that look at it add up to it. *)
Theorem C67_discovered_iff : forall n (thr : R) hist, (0 < thr)%R -> Forall (fun pe => fits n (fst pe)) hist ->
  exists s, discover_run hist (ifdd_new n thr) = Ret s /\ forall a b,
    (exists f, In f (if_features s) /\ ft_parents f = [a; b]) <->
    (thr <= rsum (map Rabs (map snd (filter (fun pe => looked_at (fst pe) a b) hist))))%R.
Proof.
  intros n thr hist T B. destruct (discover_run_is n hist _ (ifdd_new_ok n thr) B) as (s & E & _ & _ & P).
  exists s. split; [exact E|]. intros a b. specialize (P a b). rewrite new_pair_state in P.
  set (es := map snd _) in *. change (if_threshold (ifdd_new n thr)) with thr in P.
  pose proof (pair_run_first thr es T 0 None) as H. rewrite <- P in H. cbn [pair_state fst rel_or_zero] in H.
  fold (total_abs es). rewrite Rplus_0_l in H. rewrite <- H by lra. unfold pair_copies. split.
  - intros (f & I & Ef). assert (J : In f (filter (fun f => is_eqb (ft_parents f) [a; b]) (if_features s))).
    { apply filter_In. split; [exact I|]. now apply is_eqb_true. }
    destruct (filter _ (if_features s)); [contradiction|cbn; lia].
  - intros L. destruct (filter _ (if_features s)) as [|f l] eqn:X; [cbn in L; lia|].
    assert (J : In f (filter (fun f => is_eqb (ft_parents f) [a; b]) (if_features s))) by (rewrite X; now left).
    apply filter_In in J as (J & K). exists f. split; [exact J|]. now apply is_eqb_true.
Qed.
Print Assumptions C67_discovered_iff.

(** How often it does: between [(total - thr) / (thr + M)] and [total / thr]
    times, when no error exceeds [M]. *)
Theorem C67_copies : forall n (thr M : R) hist, (0 < thr)%R -> Forall (fun pe => fits n (fst pe)) hist ->
  Forall (fun pe => (Rabs (snd pe) <= M)%R) hist ->
  exists s, discover_run hist (ifdd_new n thr) = Ret s /\ forall a b,
    let k := length (filter (fun f => is_eqb (ft_parents f) [a; b]) (if_features s)) in
    let total := rsum (map Rabs (map snd (filter (fun pe => looked_at (fst pe) a b) hist))) in
    (INR k * thr <= total < INR k * (thr + M) + thr)%R.
Proof.
  intros n thr M hist T B BM. destruct (discover_run_is n hist _ (ifdd_new_ok n thr) B) as (s & E & _ & _ & P).
  exists s. split; [exact E|]. intros a b. cbv zeta. specialize (P a b). rewrite new_pair_state in P.
  change (if_threshold (ifdd_new n thr)) with thr in P.
  assert (Bes : Forall (fun e => (Rabs e <= M)%R) (map snd (filter (fun pe => looked_at (fst pe) a b) hist))).
  { apply Forall_forall. intros e I. apply in_map_iff in I as (pe & <- & I). apply filter_In in I as [I _].
    rewrite Forall_forall in BM. exact (BM pe I). }
  set (es := map snd _) in *.
  destruct (pair_run_R thr M es T Bes 0 None) as (A1 & A2 & A3); [cbn; lra|].
  rewrite <- P in A1, A2, A3. cbn [pair_state fst snd rel_or_zero INR] in A1, A2, A3. fold (total_abs es). fold (pair_copies s a b).
  lra.
Qed.
Print Assumptions C67_copies.

(** So features are duplicated: the discovered pair is not remembered. *)
Theorem C67_duplicates_refuted : forall k : nat, exists hist s, Forall (fun pe => fits 2 (fst pe)) hist /\
  discover_run hist (ifdd_new 2 1%R) = Ret s /\
  length (filter (fun f => is_eqb (ft_parents f) [0; 1]) (if_features s)) = k.
Proof.
  intros k. set (phi := Sparse (MkSparse 2 [(0, 1%R); (1, 1%R)]) : Features R).
  assert (B : Forall (fun pe => fits 2 (fst pe)) (repeat (phi, 1%R) k)).
  { apply Forall_forall. intros pe I. apply repeat_spec in I. subst pe. cbn. intuition lia. }
  destruct (discover_run_is 2 _ _ (ifdd_new_ok 2 1%R) B) as (s & E & _ & _ & P).
  exists (repeat (phi, 1%R) k), s. split; [exact B|]. split; [exact E|].
  specialize (P 0 1). rewrite new_pair_state in P. change (if_threshold (ifdd_new 2 1%R)) with 1%R in P.
  assert (X : map snd (filter (fun pe => looked_at (fst pe) 0 1) (repeat (phi, 1%R) k)) = repeat 1%R k).
  { clear. induction k as [|k IH]; [reflexivity|]. cbn [repeat filter fst]. change (looked_at phi 0 1) with true. cbn [map snd]. now rewrite IH. }
  rewrite X in P.
  assert (Y : forall j, fold_left (pair_step 1%R) (repeat 1%R k) (j, None) = (k + j, None)).
  { clear. induction k as [|k IH]; intros j; cbn [repeat fold_left]; [reflexivity|].
    destruct (pair_step_R 1%R (j, None) 1%R) as (A & _). cbn [fst snd rel_or_zero] in A. rewrite A, IH by (rewrite Rabs_R1; lra).
    f_equal. lia. }
  rewrite Y in P. unfold pair_state in P. injection P as P _. unfold pair_copies in P. lia.
Qed.
Print Assumptions C67_duplicates_refuted.

(** ** Which features are looked at *)

(** Dense features: [discover] filters the indices whose activation is *below*
    1e-7. Nothing is ever discovered about active features ... *)
Theorem C67_dense_active_refuted : forall n (thr : R) hist,
  Forall (fun pe => exists da, fst pe = Dense da /\ length da = n /\ Forall (fun x => (1/10000000 <= Rabs x)%R) da) hist ->
  exists s, discover_run hist (ifdd_new n thr) = Ret s /\ length (if_features s) = n /\
    forall a b, cm_get (if_candidates s) [a; b] = None.
Proof.
  intros n thr hist B.
  assert (B' : Forall (fun pe => fits n (fst pe)) hist).
  { eapply Forall_impl; [|exact B]. intros pe (da & -> & L & _). cbn. lia. }
  destruct (discover_run_is n hist _ (ifdd_new_ok n thr) B') as (s & E & O & _ & P). exists s. split; [exact E|].
  assert (X : forall a b, pair_state s a b = (0, None)).
  { intros a b. rewrite P, new_pair_state.
    assert (Y : filter (fun pe => looked_at (fst pe) a b) hist = []); [|rewrite Y; reflexivity].
    clear -B. induction B as [|pe hist (da & E & _ & Fd) B IH]; [reflexivity|]. cbn [filter]. rewrite IH.
    assert (Z : looked_at (fst pe) a b = false); [|rewrite Z; reflexivity].
    rewrite E. unfold looked_at.
    assert (S0 : small_at da a = false); [|rewrite S0; apply andb_false_r].
    unfold small_at. destruct (nth_error da a) as [x|] eqn:N; [|reflexivity]. apply nth_error_In in N.
    rewrite Forall_forall in Fd. apply Rltb_false. exact (Fd x N). }
  split.
  - destruct (Nat.eq_dec (length (if_features s)) n) as [|N]; [assumption|]. exfalso. pose proof (ok_len _ _ O).
    destruct (ok_derived_nth n s n O) as (a & b & N1 & _); [lia|]. specialize (X a b). unfold pair_state in X. injection X as X _.
    unfold pair_copies in X. apply nth_error_In in N1.
    assert (J : In (MkFeature n [a; b]) (filter (fun f => is_eqb (ft_parents f) [a; b]) (if_features s))).
    { apply filter_In. split; [exact N1|]. now apply is_eqb_true. }
    destruct (filter _ (if_features s)); [contradiction|discriminate].
  - intros a b. specialize (X a b). unfold pair_state, pair_relevance in X. injection X as _ X.
    destruct (cm_get (if_candidates s) [a; b]); [discriminate|reflexivity].
Qed.
Print Assumptions C67_dense_active_refuted.

(** ... while from an input with no active feature at all, every pair is. *)
Theorem C67_dense_inactive_refuted : forall n (thr e : R), (thr <= Rabs e)%R ->
  exists s o, discover (ifdd_new n thr) (Dense (zeros n)) e = Ret (s, o) /\
    2 * (length (if_features s) - n) = n * (n - 1).
Proof.
  intros n thr e T.
  assert (B : fits n (Dense (zeros n) : Features R)) by (cbn; unfold zeros; rewrite repeat_length; lia).
  destruct (discover_is n _ _ e (ifdd_new_ok n thr) B) as (s & o & E & _ & _ & Fs & _). exists s, o. split; [exact E|].
  rewrite Fs, app_length, numbered_length. unfold ifdd_new at 1. cbn [if_features]. rewrite map_length, seq_length.
  assert (X : filter (promoted (ifdd_new n thr) e) (inspected_pairs (Dense (zeros n) : Features R)) = pairs (seq 0 n)).
  { assert (Y : inspected_pairs (Dense (zeros n) : Features R) = pairs (seq 0 n)).
    { unfold inspected_pairs. unfold zeros at 2. rewrite repeat_length. f_equal.
      rewrite <- (filter_ext_in (fun _ => true)).
      - generalize (seq 0 n). intros l. induction l as [|i l IH]; cbn; [reflexivity|]. now rewrite IH.
      - intros i I. symmetry. unfold zeros. destruct (nth_in_or_default i (repeat (fzero : R) n) fzero) as [J| ->].
        + apply repeat_spec in J. rewrite J. exact R_zero_small.
        + exact R_zero_small. }
    rewrite Y. generalize (pairs (seq 0 n)). intros l. induction l as [|p l IH]; [reflexivity|]. cbn [filter].
    assert (Z : promoted (ifdd_new n thr) e p = true); [|rewrite Z, IH; reflexivity].
    unfold promoted, pair_relevance. cbn [ifdd_new if_candidates if_threshold cm_get option_map]. apply fgeb_R. cbn. unfold fzero. cbn.
    lra. }
  rewrite X. pose proof (pairs_length (seq 0 n)) as L. rewrite seq_length in L. lia.
Qed.
Print Assumptions C67_dense_inactive_refuted.

(** Sparse features are looked at where they are stored, so a sparse vector and
    its dense expansion lead to different features. *)
Theorem C67_representation_refuted : exists n thr e (phi : Features R) da s1 s2 o1 o2, to_dense phi = Ret da /\
  discover (ifdd_new n thr) phi e = Ret (s1, o1) /\ discover (ifdd_new n thr) (Dense da) e = Ret (s2, o2) /\
  map ft_parents (if_features s1) = [[0]; [1]; [2]; [3]; [0; 1]] /\
  map ft_parents (if_features s2) = [[0]; [1]; [2]; [3]; [2; 3]].
Proof.
  set (phi := Sparse (MkSparse 4 [(1, 1%R); (0, 1%R)]) : Features R).
  assert (B1 : fits 4 phi) by (cbn; intuition lia).
  assert (B2 : fits 4 (Dense [1; 1; 0; 0]%R)) by (cbn; lia).
  destruct (discover_is 4 _ _ 1%R (ifdd_new_ok 4 1%R) B1) as (s1 & o1 & E1 & _ & _ & F1 & _).
  destruct (discover_is 4 _ _ 1%R (ifdd_new_ok 4 1%R) B2) as (s2 & o2 & E2 & _ & _ & F2 & _).
  assert (Pr : forall a b, promoted (ifdd_new 4 1%R) 1%R (a, b) = true).
  { intros a b. unfold promoted, pair_relevance. cbn [ifdd_new if_candidates if_threshold cm_get option_map].
    apply fgeb_R. cbn. unfold fzero. cbn. rewrite Rabs_R1. lra. }
  assert (S1 : fltb (fabs 1%R) active_tol = false).
  { unfold active_tol. cbn. apply Rltb_false. rewrite Rabs_R1. lra. }
  assert (S0 : fltb (fabs 0%R) active_tol = true).
  { unfold active_tol. cbn. apply Rltb_true. rewrite Rabs_R0. lra. }
  exists 4, 1%R, 1%R, phi, [1; 1; 0; 0]%R, s1, s2, o1, o2.
  split; [cbn; unfold fzero; cbn; do 2 f_equal; f_equal; lra || (repeat f_equal; lra)|].
  split; [exact E1|]. split; [exact E2|]. rewrite F1, F2. split.
  - unfold inspected_pairs. cbn [phi sa_acts hm_keys map fst]. cbn [is_union fold_left is_insert Nat.ltb Nat.leb Nat.eqb pairs map app filter].
    rewrite Pr. reflexivity.
  - unfold inspected_pairs. cbn [length seq filter nth]. rewrite S0, S1. cbn [pairs map app filter]. rewrite Pr. reflexivity.
Qed.
Print Assumptions C67_representation_refuted.

(** ** Projection *)

(** On sparse features, for every state reached by discovery: the base
    activations come through unchanged, and a derived feature is on exactly when
    *none* of its parents is stored; feature [j] is stored at index [n + j]. *)
Theorem C67_project_sparse : forall n (thr : R) hist s sa, Forall (fun pe => fits n (fst pe)) hist ->
  discover_run hist (ifdd_new n thr) = Ret s ->
  sa_dim sa = n -> (forall i, In i (hm_keys (sa_acts sa)) -> i < n) ->
  exists acts, ifdd_project n s (Sparse sa) = Ret (Sparse (MkSparse (length (if_features s)) acts)) /\
    (forall i, i < n -> hm_get acts i = hm_get (sa_acts sa) i) /\
    (forall i, n <= i < n + n -> hm_get acts i = None) /\
    (forall j, n <= j -> hm_get acts (n + j) =
       match nth_error (if_features s) j with
       | Some f => if forallb (fun i => negb (hm_mem (sa_acts sa) i)) (ft_parents f) then Some 1%R else None
       | None => None
       end).
Proof.
  intros n thr hist s sa B E D K.
  destruct (discover_run_is n hist _ (ifdd_new_ok n thr) B) as (s0 & E0 & O & _). rewrite E in E0. injection E0 as <-.
  destruct (project_sparse R_zero_small R_one_large n s sa O D K) as (acts & Ep & A1 & A2). exists acts.
  split; [exact Ep|]. split; [exact A1|]. split.
  - intros i L. rewrite A2 by lia. destruct (nth_error (if_features s) (i - n)); [|reflexivity].
    destruct (Nat.leb_spec n (i - n)); [lia|reflexivity].
  - intros j L. rewrite A2 by lia. replace (n + j - n) with j by lia.
    destruct (nth_error (if_features s) j); [|reflexivity]. destruct (Nat.leb_spec n j); [|lia]. cbn [andb].
    assert (Z : (fone : R) = 1%R) by (unfold fone; cbn; lra). rewrite Z. reflexivity.
Qed.
Print Assumptions C67_project_sparse.

(** So a derived feature never stands for the conjunction of its parents: with
    both active the projection does not even mention it; and with at most [n]
    derived features every index it adds is out of range. *)
Theorem C67_conjunction_refuted : forall n (thr : R) hist s sa j a b, Forall (fun pe => fits n (fst pe)) hist ->
  discover_run hist (ifdd_new n thr) = Ret s -> sa_dim sa = n -> (forall i, In i (hm_keys (sa_acts sa)) -> i < n) ->
  nth_error (if_features s) j = Some (MkFeature j [a; b]) -> n <= j ->
  In a (hm_keys (sa_acts sa)) -> In b (hm_keys (sa_acts sa)) ->
  exists phi, ifdd_project n s (Sparse sa) = Ret phi /\ get phi (n + j) = None /\
    (length (if_features s) <= n + n -> forall i, n <= i < n_features phi -> get phi i = None).
Proof.
  intros n thr hist s sa j a b B E D K N L Ia Ib.
  destruct (C67_project_sparse n thr hist s sa B E D K) as (acts & Ep & _ & A2 & A3).
  exists (Sparse (MkSparse (length (if_features s)) acts)). split; [exact Ep|]. cbn [get sa_acts n_features sa_dim]. split.
  - rewrite A3, N by exact L. cbn [ft_parents forallb]. rewrite (proj2 (hm_mem_In _ a) Ia). reflexivity.
  - intros Lt i Li. apply A2. lia.
Qed.
Print Assumptions C67_conjunction_refuted.

(** On dense features, with at most [n] derived features: the projection pads
    with zeros when no derived feature has all its parents inactive, and panics
    when one has. *)
Theorem C67_project_dense : forall n (thr : R) hist s da, Forall (fun pe => fits n (fst pe)) hist ->
  discover_run hist (ifdd_new n thr) = Ret s -> length da = n -> length (if_features s) <= n + n ->
  (ifdd_project n s (Dense da) = Panic <->
     exists j f, n <= j /\ nth_error (if_features s) j = Some f /\
       Forall (fun i => (Rabs (nth i da 0) < 1/10000000)%R) (ft_parents f)) /\
  (ifdd_project n s (Dense da) <> Panic ->
     ifdd_project n s (Dense da) = Ret (Dense (da ++ repeat 0%R (length (if_features s) - n)))).
Proof.
  intros n thr hist s da B E D L.
  destruct (discover_run_is n hist _ (ifdd_new_ok n thr) B) as (s0 & E0 & O & _). rewrite E in E0. injection E0 as <-.
  rewrite (project_dense n s da O D) by lia.
  assert (X : forall j, derived_active s (Dense da) j = true <->
     Forall (fun i => (Rabs (nth i da 0) < 1/10000000)%R) (match nth_error (if_features s) j with Some f => ft_parents f | None => [] end)).
  { intros j. unfold derived_active. rewrite forallb_forall, Forall_forall. unfold is_small.
    assert (Z : (fzero : R) = 0%R) by (unfold fzero; cbn; lra). rewrite Z.
    split; intros C i I; specialize (C i I); cbn in *; [apply Rltb_true in C|apply Rltb_true]; exact C. }
  destruct (existsb _ _) eqn:A.
  - split; [|congruence]. split; [intros _|reflexivity]. apply existsb_exists in A as (j & I & A). apply X in A. apply in_seq in I.
    destruct (nth_error (if_features s) j) as [f|] eqn:N; [|apply nth_error_None in N; lia]. exists j, f. split; [lia|]. auto.
  - split.
    + split; [discriminate|]. intros (j & f & Lj & N & C). exfalso.
      assert (Y : existsb (derived_active s (Dense da)) (seq n (length (if_features s) - n)) = true); [|congruence].
      apply existsb_exists. exists j. split.
      * apply in_seq. assert (j < length (if_features s)) by (apply nth_error_Some; congruence). lia.
      * apply X. rewrite N. exact C.
    + intros _. unfold zeros. assert (Z : (fzero : R) = 0%R) by (unfold fzero; cbn; lra). rewrite Z. reflexivity.
Qed.
Print Assumptions C67_project_dense.

(** ** binary64 *)

(** A NaN error silences the pairs it concerns for good. *)
Theorem C67_nan : forall P n (thr : f64) (hist1 : list (Features f64 * f64)) (phi : Features f64) (e : f64) (hist2 : list (Features f64 * f64)),
  Forall (fun pe : Features f64 * f64 => @fits f64 n (fst pe)) (hist1 ++ (phi, e) :: hist2) -> is_nan e = true ->
  exists s1 s, @discover_run f64 (ScalarF64 P) hist1 (@ifdd_new f64 n thr) = Ret s1 /\
    @discover_run f64 (ScalarF64 P) (hist1 ++ (phi, e) :: hist2) (@ifdd_new f64 n thr) = Ret s /\
    forall a b, @looked_at f64 (ScalarF64 P) phi a b = true ->
      length (filter (fun f => is_eqb (ft_parents f) [a; b]) (if_features s)) =
      length (filter (fun f => is_eqb (ft_parents f) [a; b]) (if_features s1)).
Proof.
  intros P n thr hist1 phi e hist2 B N.
  destruct (@discover_run_is f64 (ScalarF64 P) n _ _ (@ifdd_new_ok f64 (ScalarF64 P) n thr) B) as (s & E & _ & _ & Q).
  apply Forall_app in B as (B1 & _).
  destruct (@discover_run_is f64 (ScalarF64 P) n _ _ (@ifdd_new_ok f64 (ScalarF64 P) n thr) B1) as (s1 & E1 & _ & _ & Q1).
  exists s1, s. split; [exact E1|]. split; [exact E|]. intros a b Lk. specialize (Q a b). specialize (Q1 a b).
  rewrite filter_app, map_app, fold_left_app, <- Q1 in Q. cbn [filter fst] in Q. rewrite Lk in Q. cbn [map snd fold_left] in Q.
  unfold pair_state at 2 in Q.
  destruct (pair_step_nan P thr (pair_copies s1 a b) (pair_relevance s1 a b) e (or_intror N)) as (r & Er & Nr).
  change (if_threshold (ifdd_new n thr)) with thr in Q. unfold S64i in Er. rewrite Er in Q.
  destruct (pair_run_nan P thr (pair_copies s1 a b) (map snd (filter (fun pe => @looked_at f64 (ScalarF64 P) (fst pe) a b) hist2)) r Nr)
    as (r' & Er' & _).
  unfold S64i in Er'. rewrite Er' in Q. unfold pair_state in Q. injection Q as Q _. exact Q.
Qed.
Print Assumptions C67_nan.

(** Rounding can keep a pair below the threshold for ever, whatever the sum of
    its errors: an error of 2^53, then any number of errors of 1. *)
Theorem C67_stall_refuted : forall P m, exists s,
  @discover_run f64 (ScalarF64 P)
    ((Sparse (MkSparse 2 [(0, b_dyadic 1 0); (1, b_dyadic 1 0)]), b_dyadic 1 53)
      :: repeat (Sparse (MkSparse 2 [(0, b_dyadic 1 0); (1, b_dyadic 1 0)]), b_dyadic 1 0) m)
    (@ifdd_new f64 2 (b_dyadic 1 54)) = Ret s /\ length (if_features s) = 2.
Proof.
  intros P m. set (phi := Sparse _ : Features f64).
  assert (B : Forall (fun pe => @fits f64 2 (fst pe)) ((phi, b_dyadic 1 53) :: repeat (phi, b_dyadic 1 0) m)).
  { apply Forall_forall. intros pe [<-|I]; [|apply repeat_spec in I; subst pe]; cbn; intuition lia. }
  destruct (@discover_run_is f64 (ScalarF64 P) 2 _ _ (@ifdd_new_ok f64 (ScalarF64 P) 2 (b_dyadic 1 54)) B) as (s & E & O & _ & Q).
  exists s. split; [exact E|].
  assert (X : map snd (filter (fun pe => @looked_at f64 (ScalarF64 P) (fst pe) 0 1) ((phi, b_dyadic 1 53) :: repeat (phi, b_dyadic 1 0) m))
              = b_dyadic 1 53 :: repeat (b_dyadic 1 0) m).
  { cbn [filter fst]. change (@looked_at f64 (ScalarF64 P) phi 0 1) with true. cbn [map snd]. f_equal.
    clear. induction m as [|m IH]; [reflexivity|]. cbn [repeat filter fst]. change (@looked_at f64 (ScalarF64 P) phi 0 1) with true.
    cbn [map snd]. now rewrite IH. }
  pose proof (Q 0 1) as Q01. rewrite X, new_pair_state in Q01. change (if_threshold (ifdd_new 2 (b_dyadic 1 54))) with (b_dyadic 1 54) in Q01.
  assert (A0 : b_add (@fzero f64 (ScalarF64 P)) (Babs (b_dyadic 1 53)) = b_dyadic 1 53) by (apply B2SF_inj; vm_compute; reflexivity).
  assert (A1 : b_add (b_dyadic 1 53) (Babs (b_dyadic 1 0)) = b_dyadic 1 53) by (apply B2SF_inj; vm_compute; reflexivity).
  assert (G : @fgeb f64 (ScalarF64 P) (b_dyadic 1 53) (b_dyadic 1 54) = false) by (vm_compute; reflexivity).
  assert (Y : fold_left (@pair_step f64 (ScalarF64 P) (b_dyadic 1 54)) (b_dyadic 1 53 :: repeat (b_dyadic 1 0) m) (0, None)
              = (0, Some (b_dyadic 1 53))).
  { cbn [fold_left]. unfold pair_step at 2. cbn [fst snd fadd fabs ScalarF64]. fold (ScalarF64 P). rewrite A0, G.
    clear -A1 G. induction m as [|m IH]; [reflexivity|]. cbn [repeat fold_left]. unfold pair_step at 2.
    cbn [fst snd fadd fabs ScalarF64]. fold (ScalarF64 P). rewrite A1, G. exact IH. }
  rewrite Y in Q01.
  destruct (Nat.eq_dec (length (if_features s)) 2) as [|N]; [assumption|]. exfalso. pose proof (ok_len _ _ O).
  destruct (ok_derived_nth 2 s 2 O) as (a & b & N1 & L); [lia|]. assert (a = 0) by lia. assert (b = 1) by lia. subst a b.
  unfold pair_state in Q01. injection Q01 as Q01 _. unfold pair_copies in Q01. apply nth_error_In in N1.
  assert (J : In (MkFeature 2 [0; 1]) (filter (fun f => is_eqb (ft_parents f) [0; 1]) (if_features s))).
  { apply filter_In. split; [exact N1|]. now apply is_eqb_true. }
  destruct (filter _ (if_features s)); [contradiction|discriminate].
Qed.
Print Assumptions C67_stall_refuted.

(** ** The file's own test (ifdd.rs:259-296), in binary64 *)

Definition ifdd_test : outcome (list (option (hmap (list nat)) * list (nat * list nat))) :=
  let S := ScalarF64 SimplePlatform in
  let show (s : ifdd f64) := map (fun f => (ft_index f, ft_parents f)) (skipn 5 (if_features s)) in
  let* r1 := @discover f64 S (@ifdd_new f64 5 (b_dyadic 10 0)) (@unitary f64 S 5 [0; 4]) (b_dyadic 10 0) in
  let* r2 := @discover f64 S (fst r1) (@unitary f64 S 5 [0; 3]) (b_dyadic 5 0) in
  let* r3 := @discover f64 S (fst r2) (@unitary f64 S 5 [0; 3]) (b_dyadic 5 0) in
  Ret [(snd r1, show (fst r1)); (snd r2, show (fst r2)); (snd r3, show (fst r3))].

Theorem C67_test : ifdd_test =
  Ret [(Some [(5, [0; 4])], [(5, [0; 4])]); (None, [(5, [0; 4])]); (Some [(6, [0; 3])], [(5, [0; 4]); (6, [0; 3])])].
Proof. vm_compute. reflexivity. Qed.
Print Assumptions C67_test.

(** Non-vacuity: a history that fits, with a sparse and a dense call. *)
Example C67_fits_case : Forall (fun pe : Features R * R => fits 3 (fst pe))
  [(Sparse (MkSparse 3 [(2, 1%R); (0, 1%R)]), 1%R); (Dense [0; 1; 0]%R, (-2)%R)] /\
  looked_at (Sparse (MkSparse 3 [(2, 1%R); (0, 1%R)])) 0 2 = true /\ looked_at (Dense [0; 1; 0]%R) 0 2 = true.
Proof.
  refine (conj _ (conj eq_refl _)).
  - constructor; [cbn; intuition lia|]. constructor; [cbn; lia|]. constructor.
  - unfold looked_at, small_at. cbn [Nat.ltb Nat.leb nth_error andb].
    assert (S0 : fltb (fabs 0%R) active_tol = true) by (unfold active_tol; cbn; apply Rltb_true; rewrite Rabs_R0; lra).
    rewrite S0. reflexivity.
Qed.
