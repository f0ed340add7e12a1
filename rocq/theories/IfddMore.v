(** Histories of [discover], and [project], for Ifdd.v. *)
From Coq Require Import List Arith ZArith Bool Lia Sorted Reals Lra.
From Flocq Require Import IEEE754.BinarySingleNaN.
From Verif Require Import Base Scalar ScalarR ScalarF64 F64Facts HMap NdArray Features Ifdd HMapFacts VecFacts FeatureFacts IfddFacts.
Import ListNotations.

(** ** Pairs in lexicographic order *)

Definition lexlt (p q : nat * nat) : Prop := fst p < fst q \/ fst p = fst q /\ snd p < snd q.

Lemma sorted_unique {A} (R : A -> A -> Prop) : (forall x, ~ R x x) -> (forall x y z, R x y -> R y z -> R x z) ->
  forall l1 l2, StronglySorted R l1 -> StronglySorted R l2 -> (forall x, In x l1 <-> In x l2) -> l1 = l2.
Proof.
  intros Irr Tr. induction l1 as [|x l1 IH]; intros [|y l2] S1 S2 E.
  - reflexivity.
  - exfalso. apply (E y). now left.
  - exfalso. apply (E x). now left.
  - inversion_clear S1 as [|? ? S1' F1]. inversion_clear S2 as [|? ? S2' F2]. rewrite Forall_forall in F1, F2.
    assert (x = y).
    { destruct (proj1 (E x) (or_introl eq_refl)) as [->|I]; [reflexivity|].
      destruct (proj2 (E y) (or_introl eq_refl)) as [->|J]; [reflexivity|].
      exfalso. exact (Irr x (Tr _ _ _ (F1 y J) (F2 x I))). }
    subst y. f_equal. apply IH; [assumption..|]. intros z. split; intros I.
    + destruct (proj1 (E z) (or_intror I)) as [<-|J]; [|exact J]. exfalso. exact (Irr _ (F1 _ I)).
    + destruct (proj2 (E z) (or_intror I)) as [<-|J]; [|exact J]. exfalso. exact (Irr _ (F2 _ I)).
Qed.

Lemma sorted_app {A} (R : A -> A -> Prop) l1 l2 : StronglySorted R l1 -> StronglySorted R l2 ->
  (forall x y, In x l1 -> In y l2 -> R x y) -> StronglySorted R (l1 ++ l2).
Proof.
  induction 1 as [|x l1 S1 IH F1]; intros S2 C; cbn [app]; [exact S2|]. constructor.
  - apply IH; [exact S2|]. intros a b A1 B1. apply C; [now right|exact B1].
  - apply Forall_app. split; [exact F1|]. apply Forall_forall. intros y Y. apply C; [now left|exact Y].
Qed.

Lemma sorted_row x l : StronglySorted lt l -> StronglySorted lexlt (map (fun y => (x, y)) l).
Proof.
  induction 1 as [|y l S IH Fy]; cbn [map]; constructor; [exact IH|].
  apply Forall_forall. intros p P. apply in_map_iff in P as (z & <- & Z). rewrite Forall_forall in Fy. right. cbn. split; [reflexivity|]. now apply Fy.
Qed.

Lemma sorted_pairs l : StronglySorted lt l -> StronglySorted lexlt (pairs l).
Proof.
  induction 1 as [|x l S IH Fx]; cbn [pairs]; [constructor|]. apply sorted_app; [now apply sorted_row|exact IH|].
  intros p [a b] P Q. apply in_map_iff in P as (z & <- & Z). apply (pairs_In l S) in Q as (Q & _ & _).
  rewrite Forall_forall in Fx. left. cbn. now apply Fx.
Qed.

Lemma sorted_prod l m : StronglySorted lt l -> StronglySorted lt m -> StronglySorted lexlt (list_prod l m).
Proof.
  intros S T. induction S as [|x l S IH Fx]; cbn [list_prod]; [constructor|]. apply sorted_app; [now apply sorted_row|exact IH|].
  intros p [a b] P Q. apply in_map_iff in P as (z & <- & Z). apply in_prod_iff in Q as (Q & _).
  rewrite Forall_forall in Fx. left. cbn. now apply Fx.
Qed.

Lemma sorted_filter_lex f l : StronglySorted lexlt l -> StronglySorted lexlt (filter f l).
Proof.
  induction 1 as [|x l S IH Fx]; cbn [filter]; [constructor|].
  destruct (f x); [|exact IH]. constructor; [exact IH|].
  apply Forall_forall. intros y Y. apply filter_In in Y as [Y _]. rewrite Forall_forall in Fx. now apply Fx.
Qed.

Section More.
  Context {F : Type} `{Scalar F}.

  Definition small_at (da : list F) (i : nat) : bool :=
    match nth_error da i with Some x => fltb (fabs x) active_tol | None => false end.

  (** Does a call to [discover] with these features inspect the pair? *)
  Definition looked_at (phi : Features F) (a b : nat) : bool :=
    (a <? b) && match phi with
                | Sparse sa => hm_mem (sa_acts sa) a && hm_mem (sa_acts sa) b
                | Dense da => small_at da a && small_at da b
                end.

  Lemma small_at_true da i : small_at da i = true <-> exists x, nth_error da i = Some x /\ fltb (fabs x) active_tol = true.
  Proof.
    unfold small_at. destruct (nth_error da i) as [x|]; split.
    - eauto.
    - now intros (y & [= ->] & E).
    - discriminate.
    - intros (y & E & _). discriminate.
  Qed.

  Lemma hm_mem_In (m : hmap F) i : hm_mem m i = true <-> In i (hm_keys m).
  Proof.
    unfold hm_mem. destruct (hm_get m i) eqn:E; split; try discriminate; intros I.
    - now apply hm_get_key in E.
    - reflexivity.
    - apply hm_get_None in E. contradiction.
  Qed.

  Lemma looked_at_is phi a b : looked_at phi a b = mem_pair (inspected_pairs phi) a b.
  Proof.
    apply eq_true_iff_eq. rewrite mem_pair_In, inspected_In. unfold looked_at. rewrite andb_true_iff, Nat.ltb_lt.
    destruct phi as [da|sa]; rewrite andb_true_iff.
    - rewrite !small_at_true. split.
      + intros (L & (x & X & X') & (y & Y & Y')). split; [exact L|]. exists x, y. auto.
      + intros (L & x & y & X & Y & X' & Y'). split; [exact L|]. split; [exists x|exists y]; auto.
    - rewrite !hm_mem_In. reflexivity.
  Qed.

  Lemma inspected_pairs_is n phi : fits n phi ->
    inspected_pairs phi = filter (fun p => looked_at phi (fst p) (snd p)) (list_prod (seq 0 n) (seq 0 n)).
  Proof.
    intros B. apply (sorted_unique lexlt).
    - unfold lexlt. intros x. lia.
    - unfold lexlt. intros x y z. lia.
    - apply sorted_pairs, inspected_sorted.
    - apply sorted_filter_lex, sorted_prod; apply sorted_seq.
    - intros [a b]. rewrite filter_In. cbn [fst snd]. rewrite in_prod_iff, !in_seq, looked_at_is, mem_pair_In.
      split; [|tauto]. intros I. split; [|exact I]. pose proof (inspected_bound n phi B a b I). lia.
  Qed.

  Lemma copies_numbered ps a b : NoDup ps -> forall i,
    length (filter (fun f => is_eqb (ft_parents f) [a; b]) (numbered i ps)) = if mem_pair ps a b then 1 else 0.
  Proof.
    induction 1 as [|[g h] ps N1 N IH]; intros i; cbn [numbered filter ft_parents fst snd]; [reflexivity|].
    rewrite is_eqb_pair. unfold mem_pair. cbn [existsb fst snd]. fold (mem_pair ps a b).
    destruct ((g =? a) && (h =? b)) eqn:K; cbn [orb length]; rewrite IH; [|reflexivity].
    apply andb_true_iff in K as [K1 K2]. apply Nat.eqb_eq in K1, K2. subst a b.
    destruct (mem_pair ps g h) eqn:M; [|reflexivity]. now apply mem_pair_In in M.
  Qed.

  Lemma mem_pair_filter f ps a b : mem_pair (filter f ps) a b = mem_pair ps a b && f (a, b).
  Proof.
    apply eq_true_iff_eq. rewrite andb_true_iff, !mem_pair_In, filter_In. reflexivity.
  Qed.

  Definition pair_state (s : ifdd F) (a b : nat) : nat * option F := (pair_copies s a b, pair_relevance s a b).

  Lemma pair_state_step n s phi e s' o : ifdd_ok n s -> fits n phi -> discover s phi e = Ret (s', o) ->
    forall a b, pair_state s' a b = if looked_at phi a b then pair_step (if_threshold s) (pair_state s a b) e else pair_state s a b.
  Proof.
    intros O B E a b. destruct (discover_is n s phi e O B) as (s1 & o1 & E1 & _ & _ & F1 & R1 & _).
    rewrite E in E1. injection E1 as <- <-.
    unfold pair_state at 1. rewrite R1. unfold pair_copies. rewrite F1, filter_app, app_length.
    rewrite copies_numbered by apply NoDup_filter, inspected_NoDup. rewrite mem_pair_filter, <- looked_at_is.
    fold (pair_copies s a b). destruct (looked_at phi a b); cbn [andb]; [|unfold pair_state; f_equal; lia].
    unfold promoted, pair_step, pair_state. cbn [fst snd].
    destruct (fgeb _ _); cbn [snd]; f_equal; lia.
  Qed.

  Lemma discover_ok n s phi e : ifdd_ok n s -> fits n phi -> exists s' o, discover s phi e = Ret (s', o) /\ ifdd_ok n s' /\
    if_threshold s' = if_threshold s.
  Proof.
    intros O B. destruct (discover_is n s phi e O B) as (s1 & o1 & E1 & O1 & T1 & _). eauto.
  Qed.

  Lemma discover_run_is n hist : forall s, ifdd_ok n s -> Forall (fun pe => fits n (fst pe)) hist -> exists s',
    discover_run hist s = Ret s' /\ ifdd_ok n s' /\ if_threshold s' = if_threshold s /\
    forall a b, pair_state s' a b =
      fold_left (pair_step (if_threshold s)) (map snd (filter (fun pe => looked_at (fst pe) a b) hist)) (pair_state s a b).
  Proof.
    induction hist as [|[phi e] hist IH]; intros s O B.
    - exists s. splits; try reflexivity. exact O.
    - inversion_clear B as [|? ? B1 B2]. cbn [fst] in B1.
      destruct (discover_ok n s phi e O B1) as (s1 & o1 & E1 & O1 & T1).
      destruct (IH s1 O1 B2) as (s2 & E2 & O2 & T2 & P2). exists s2. splits.
      + unfold discover_run. cbn [ofold fst snd]. rewrite E1. cbn [omap obind fst]. exact E2.
      + exact O2.
      + congruence.
      + intros a b. rewrite P2, T1, (pair_state_step n s phi e s1 o1 O B1 E1 a b). cbn [filter fst].
        destruct (looked_at phi a b); cbn [map fold_left snd]; reflexivity.
  Qed.

  Lemma new_pair_state n thr a b : pair_state (ifdd_new n thr) a b = (0, None).
  Proof.
    unfold pair_state, pair_relevance, pair_copies. cbn [if_candidates if_features ifdd_new cm_get option_map].
    f_equal. generalize (seq 0 n). intros l. induction l as [|i l IH]; [reflexivity|].
    cbn [map filter ft_parents is_insert]. assert (E : is_eqb [i] [a; b] = false) by (apply is_eqb_false; congruence). rewrite E. exact IH.
  Qed.

  (** ** Projection *)

  Definition is_small (p : Features F) (j : nat) : bool :=
    fltb (fabs match p with
               | Dense da => nth j da fzero
               | Sparse sa => if hm_mem (sa_acts sa) j then fone else fzero
               end) active_tol.

  Definition dense_len (n : nat) (p : Features F) : Prop :=
    match p with Dense da => length da = n | Sparse _ => True end.

  Lemma index_small n p j : dense_len n p -> j < n -> (let* x := index p j in Ret (fltb (fabs x) active_tol)) = Ret (is_small p j).
  Proof.
    intros Z L. unfold is_small. destruct p as [da|sa]; cbn [index dense_len] in *; [|reflexivity].
    unfold vget. rewrite (nth_error_nth' da fzero) by lia. reflexivity.
  Qed.

  Definition derived_active (s : ifdd F) (p : Features F) (i : nat) : bool :=
    forallb (is_small p) (match nth_error (if_features s) i with Some f => ft_parents f | None => [] end).

  Lemma ok_derived_nth n s i : ifdd_ok n s -> n <= i < length (if_features s) ->
    exists a b, nth_error (if_features s) i = Some (MkFeature i [a; b]) /\ a < b < n.
  Proof.
    intros O L. destruct (nth_error (if_features s) i) as [f|] eqn:E; [|apply nth_error_None in E; lia].
    pose proof (ok_derived _ _ O) as D. rewrite Forall_forall in D.
    destruct (D f) as (a & b & P & B).
    { apply nth_error_In with (n := i - n). pose proof E as E'. rewrite <- (firstn_skipn n (if_features s)) in E'.
      rewrite nth_error_app2 in E' by (rewrite firstn_length; lia). rewrite firstn_length, Nat.min_l in E' by lia. exact E'. }
    exists a, b. split; [|exact B]. f_equal. pose proof (ok_index _ _ O _ _ E) as I. destruct f as [fi fp]. cbn in *. congruence.
  Qed.

  Lemma active_derived_is n s p : ifdd_ok n s -> dense_len n p ->
    active_derived n s p = Ret (filter (derived_active s p) (seq n (length (if_features s) - n))).
  Proof.
    intros O Z. unfold active_derived.
    assert (G : forall l np, (forall i, In i l -> n <= i < length (if_features s)) ->
      ofold (fun (np : list nat) i =>
             let* f := vget (if_features s) i in
             let* all := ofold (fun (b : bool) (j : nat) =>
                                  if b then
                                    let* x := index p j in Ret (fltb (fabs x) active_tol)
                                  else Ret false)
                               (ft_parents f) true in
             Ret (if all then np ++ [i] else np)) l np = Ret (np ++ filter (derived_active s p) l)).
    { induction l as [|i l IH]; intros np B; cbn [ofold filter]; [now rewrite app_nil_r|].
      destruct (ok_derived_nth n s i O (B i (or_introl eq_refl))) as (a & b & E & L).
      unfold vget at 1. rewrite E. cbn [obind ft_parents ofold].
      rewrite (index_small n p a Z) by lia. cbn [obind].
      assert (X : (let* b' := if is_small p a then let* x := index p b in Ret (fltb (fabs x) active_tol) else Ret false in Ret b')
                  = Ret (derived_active s p i)).
      { unfold derived_active. rewrite E. cbn [ft_parents forallb]. destruct (is_small p a); cbn [andb obind]; [|reflexivity].
        rewrite (index_small n p b Z) by lia. cbn [obind]. now rewrite andb_true_r. }
      rewrite X. cbn [obind]. rewrite IH by (intros j J; apply B; now right).
      destruct (derived_active s p i); [|reflexivity]. now rewrite <- app_assoc. }
    apply (G _ []). intros i I. apply in_seq in I. lia.
  Qed.

  Lemma remove_parents_is n s p l : ifdd_ok n s -> (forall i, In i l -> n <= i < length (if_features s)) ->
    remove_parents s l p = Ret (fold_left (fun p j => remove p j)
      (flat_map (fun i => match nth_error (if_features s) i with Some f => ft_parents f | None => [] end) l) p).
  Proof.
    intros O. unfold remove_parents. revert p. induction l as [|i l IH]; intros p B; cbn [ofold flat_map fold_left]; [reflexivity|].
    destruct (ok_derived_nth n s i O (B i (or_introl eq_refl))) as (a & b & E & L).
    unfold vget at 1. rewrite E. cbn [obind ft_parents]. rewrite IH by (intros j J; apply B; now right).
    rewrite fold_left_app. reflexivity.
  Qed.

  (** Two facts about the literals 0, 1 and 1e-7, true in R and in f64. *)
  Context (zero_small : fltb (fabs fzero) (active_tol (F := F)) = true)
          (one_large : fltb (fabs fone) (active_tol (F := F)) = false).

  Lemma small_sparse sa j : is_small (Sparse sa) j = negb (hm_mem (sa_acts sa) j).
  Proof. unfold is_small. destruct (hm_mem (sa_acts sa) j); [exact one_large|exact zero_small]. Qed.

  Lemma remove_absent (m : hmap F) j : hm_mem m j = false -> hm_remove m j = m.
  Proof.
    intros M. unfold hm_remove. assert (I : ~ In j (hm_keys m)) by (rewrite <- hm_mem_In; congruence). clear M.
    induction m as [|[k v] m IH]; cbn [filter fst]; [reflexivity|]. cbn [hm_keys map fst In] in I.
    destruct (Nat.eqb_spec k j); [tauto|]. cbn [negb]. f_equal. apply IH. tauto.
  Qed.

  Lemma removes_absent sa l : Forall (fun j => hm_mem (sa_acts sa) j = false) l ->
    fold_left (fun p j => remove p j) l (Sparse sa) = Sparse sa.
  Proof.
    induction 1 as [|j l M _ IH]; [reflexivity|]. cbn [fold_left remove]. rewrite remove_absent by exact M.
    destruct sa. exact IH.
  Qed.

  (** The entries of the stacked features. *)
  Lemma stack_get l (k : nat) : forall m, NoDup l -> (forall i, In i l -> hm_get m (i + k) = None) -> forall i,
    hm_get (fold_left (fun m kv => hm_insert m (fst kv + k) (snd kv)) (map (fun i => (i, fone (F := F))) l) m) i =
    if existsb (fun j => j + k =? i) l then Some fone else hm_get m i.
  Proof.
    induction l as [|j l IH]; intros m N A i; cbn [map fold_left existsb]; [reflexivity|].
    inversion_clear N as [|? ? N1 N2]. rewrite IH; [|exact N2|].
    - cbn [fst snd]. rewrite hm_get_insert.
      destruct (Nat.eqb_spec (j + k) i) as [E|E]; cbn [orb]; destruct (existsb _ l); reflexivity.
    - intros x X. cbn [fst snd]. rewrite hm_get_insert. destruct (Nat.eqb_spec (j + k) (x + k)) as [E|E].
      + assert (j = x) by lia. congruence.
      + apply A. now right.
  Qed.

  Lemma collect_ones l : NoDup l -> hm_collect (map (fun i => (i, fone (F := F))) l) = map (fun i => (i, fone)) l.
  Proof.
    intros N. unfold hm_collect.
    assert (G : forall l m, NoDup (hm_keys m ++ l) ->
      fold_left (fun m kv => hm_insert m (fst kv) (snd kv)) (map (fun i => (i, fone (F := F))) l) m = m ++ map (fun i => (i, fone)) l).
    { clear l N. induction l as [|j l IH]; intros m N; cbn [map fold_left]; [now rewrite app_nil_r|].
      cbn [fst snd]. rewrite hm_insert_notin.
      - rewrite IH, <- app_assoc; [reflexivity|]. unfold hm_keys in *. rewrite map_app, <- app_assoc. exact N.
      - apply NoDup_remove_2 in N. intros I. apply N. apply in_or_app. now left. }
    apply (G l []). exact N.
  Qed.

  Lemma project_sparse n s sa : ifdd_ok n s -> sa_dim sa = n -> (forall i, In i (hm_keys (sa_acts sa)) -> i < n) ->
    exists acts, ifdd_project n s (Sparse sa) = Ret (Sparse (MkSparse (length (if_features s)) acts)) /\
    (forall i, i < n -> hm_get acts i = hm_get (sa_acts sa) i) /\
    (forall i, n <= i -> hm_get acts i =
       match nth_error (if_features s) (i - n) with
       | Some f => if (n <=? i - n) && forallb (fun j => negb (hm_mem (sa_acts sa) j)) (ft_parents f) then Some fone else None
       | None => None
       end).
  Proof.
    intros O D K. pose proof (ok_len _ _ O) as L. unfold ifdd_project. rewrite (active_derived_is n s (Sparse sa) O I). cbn [obind].
    set (np := filter _ _).
    assert (B : forall i, In i np -> n <= i < length (if_features s)).
    { intros i X. apply filter_In in X as [X _]. apply in_seq in X. lia. }
    rewrite (remove_parents_is n s _ np O B). cbn [obind]. rewrite removes_absent.
    2: { apply Forall_forall. intros j J. apply in_flat_map in J as (i & X & J). apply filter_In in X as [_ X].
         unfold derived_active in X. rewrite forallb_forall in X. specialize (X j J). rewrite small_sparse in X.
         now apply negb_true_iff. }
    unfold unitary, sparse. cbn [stack sa_dim sa_acts]. rewrite D, (Nat.add_comm n), Nat.sub_add by exact L.
    eexists. split; [reflexivity|].
    assert (N : NoDup np) by (apply NoDup_filter, seq_NoDup). rewrite collect_ones by exact N.
    assert (A : forall i, n <= i -> hm_get (sa_acts sa) i = None).
    { intros i Li. apply hm_get_None. intros X. specialize (K i X). lia. }
    split; intros i Li; rewrite stack_get; try exact N; try (intros x X; apply A; specialize (B x X); lia).
    - destruct (existsb _ np) eqn:X; [|reflexivity]. apply existsb_exists in X as (x & X & E). apply Nat.eqb_eq in E. specialize (B x X). lia.
    - rewrite (A i Li). destruct (existsb (fun j => j + n =? i) np) eqn:X.
      + apply existsb_exists in X as (x & X & E). apply Nat.eqb_eq in E. replace (i - n) with x by lia.
        specialize (B x X). apply filter_In in X as [_ X].
        destruct (ok_derived_nth n s x O B) as (a & b & Ex & _). unfold derived_active in X. rewrite Ex in *. cbn [ft_parents forallb] in *.
        rewrite !small_sparse in X. rewrite X. destruct (Nat.leb_spec n x); [reflexivity|lia].
      + destruct (nth_error (if_features s) (i - n)) as [f|] eqn:E; [|reflexivity].
        destruct (Nat.leb_spec n (i - n)) as [M|M]; cbn [andb]; [|reflexivity].
        destruct (forallb _ (ft_parents f)) eqn:Fa; [|reflexivity]. exfalso.
        assert (Y : existsb (fun j => j + n =? i) np = true); [|congruence].
        apply existsb_exists. exists (i - n). split; [|apply Nat.eqb_eq; lia].
        apply filter_In. split.
        * apply in_seq. assert (i - n < length (if_features s)) by (apply nth_error_Some; congruence). lia.
        * unfold derived_active. rewrite E. rewrite <- Fa. clear -zero_small one_large. induction (ft_parents f) as [|j l IH]; [reflexivity|].
          cbn [forallb]. rewrite IH, small_sparse. reflexivity.
  Qed.

  Lemma removes_dense l : forall da : list F, exists da', fold_left (fun p j => remove p j) l (Dense da) = Dense da'.
  Proof.
    induction l as [|j l IH]; intros da; cbn [fold_left remove]; [eauto|]. destruct (vset da j fzero); apply IH.
  Qed.

  Lemma keys_ones l : hm_keys (map (fun i => (i, fone (F := F))) l) = l.
  Proof. unfold hm_keys. rewrite map_map. cbn [fst]. apply map_id. Qed.

  Lemma project_dense n s da : ifdd_ok n s -> length da = n -> length (if_features s) - n <= n ->
    ifdd_project n s (Dense da) =
    if existsb (derived_active s (Dense da)) (seq n (length (if_features s) - n)) then Panic
    else Ret (Dense (da ++ zeros (length (if_features s) - n))).
  Proof.
    intros O Z L. unfold ifdd_project. rewrite (active_derived_is n s (Dense da) O Z). cbn [obind].
    set (d := length (if_features s) - n) in *. set (np := filter _ _).
    assert (B : forall i, In i np -> n <= i < length (if_features s)).
    { intros i X. apply filter_In in X as [X _]. apply in_seq in X. unfold d in X. lia. }
    rewrite (remove_parents_is n s _ np O B). cbn [obind].
    destruct (existsb _ _) eqn:X.
    - apply existsb_exists in X as (i & I & A).
      assert (J : In i np) by (apply filter_In; auto).
      destruct (removes_dense (flat_map (fun i => match nth_error (if_features s) i with Some f => ft_parents f | None => [] end) np) da)
        as (da' & ->).
      unfold unitary, sparse, stack, into_dense. cbn [obind sa_dim sa_acts].
      rewrite collect_ones by (apply NoDup_filter, seq_NoDup).
      rewrite (write_all_Panic _ _ _ i); [reflexivity| |].
      + rewrite keys_ones. exact J.
      + unfold zeros. rewrite repeat_length. specialize (B i J). lia.
    - assert (E : np = []).
      { destruct np as [|i l] eqn:E; [reflexivity|]. exfalso. assert (I : In i np) by (rewrite E; now left).
        apply filter_In in I as [I A]. assert (existsb (derived_active s (Dense da)) (seq n d) = true); [|congruence].
        apply existsb_exists. eauto. }
      rewrite E. reflexivity.
  Qed.
End More.

(** ** Exact arithmetic *)

Local Open Scope R_scope.

Lemma R_zero_small : fltb (fabs (fzero : R)) active_tol = true.
Proof. unfold active_tol, fzero. cbn. apply Rltb_true. rewrite Rabs_pos_eq; lra. Qed.
Lemma R_one_large : fltb (fabs (fone : R)) active_tol = false.
Proof. unfold active_tol, fone. cbn. apply Rltb_false. rewrite Rabs_pos_eq; lra. Qed.

Lemma fgeb_R (x y : R) : fgeb x y = true <-> y <= x.
Proof.
  unfold fgeb. rewrite orb_true_iff. cbn. rewrite Rltb_true, Reqb_true. lra.
Qed.
Lemma fgeb_R_false (x y : R) : fgeb x y = false <-> x < y.
Proof. rewrite <- not_true_iff_false, fgeb_R. lra. Qed.

Definition total_abs (es : list R) : R := rsum (map Rabs es).
Definition rel_or_zero (r : option R) : R := match r with Some r => r | None => 0 end.

Lemma pair_step_R thr kr e : let r := rel_or_zero (snd kr) + Rabs e in
  (thr <= r -> pair_step thr kr e = (S (fst kr), None)) /\ (r < thr -> pair_step thr kr e = (fst kr, Some r)).
Proof.
  cbv zeta. assert (E : fadd (match snd kr with Some r => r | None => fzero end) (fabs e) = rel_or_zero (snd kr) + Rabs e).
  { destruct (snd kr); cbn; unfold fzero; cbn; lra. }
  unfold pair_step. rewrite E. split; intros C; [apply fgeb_R in C|apply fgeb_R_false in C]; rewrite C; reflexivity.
Qed.

(** Invariant of a run: what is left below the threshold, and the two bounds. *)
Lemma pair_run_R thr M es : 0 < thr -> Forall (fun e => Rabs e <= M) es -> forall k r,
  0 <= rel_or_zero r < thr ->
  let kr' := fold_left (pair_step thr) es (k, r) in
  0 <= rel_or_zero (snd kr') < thr /\
  INR (fst kr') * thr + rel_or_zero (snd kr') <= INR k * thr + rel_or_zero r + total_abs es /\
  INR k * (thr + M) + rel_or_zero r + total_abs es <= INR (fst kr') * (thr + M) + rel_or_zero (snd kr').
Proof.
  intros T. induction 1 as [|e es Me Mes IH]; intros k r Rr; cbn [fold_left].
  - cbn [fst snd]. unfold total_abs. cbn. lra.
  - pose proof (Rabs_pos e) as Pe. destruct (pair_step_R thr (k, r) e) as (A & B). cbn [fst snd] in A, B.
    assert (Te : total_abs (e :: es) = Rabs e + total_abs es) by reflexivity. rewrite Te.
    destruct (Rle_lt_dec thr (rel_or_zero r + Rabs e)) as [C|C].
    + rewrite (A C). specialize (IH (S k) None). rewrite S_INR in IH. cbn [rel_or_zero] in IH.
      destruct IH as (I1 & I2 & I3); [lra|]. refine (conj I1 (conj _ _)); lra.
    + rewrite (B C). destruct (IH k (Some (rel_or_zero r + Rabs e))) as (I1 & I2 & I3); [cbn; lra|].
      cbn [rel_or_zero] in I2, I3. refine (conj I1 (conj _ _)); lra.
Qed.

Lemma pair_steps_mono (thr : R) es : forall kr, (fst kr <= fst (fold_left (pair_step thr) es kr))%nat.
Proof.
  induction es as [|e es IH]; intros kr; cbn [fold_left]; [lia|].
  etransitivity; [|apply IH]. unfold pair_step. destruct (fgeb _ _); cbn; lia.
Qed.

Lemma pair_run_first thr es : 0 < thr -> forall k r, 0 <= rel_or_zero r < thr ->
  ((S k <= fst (fold_left (pair_step thr) es (k, r)))%nat <-> thr <= rel_or_zero r + total_abs es).
Proof.
  intros T. induction es as [|e es IH]; intros k r Rr; cbn [fold_left].
  - cbn [fst]. unfold total_abs. cbn. split; [lia|lra].
  - pose proof (Rabs_pos e) as Pe. destruct (pair_step_R thr (k, r) e) as (A & B). cbn [fst snd] in A, B.
    assert (Te : total_abs (e :: es) = Rabs e + total_abs es) by reflexivity. rewrite Te.
    assert (P : 0 <= total_abs es).
    { clear. unfold total_abs. induction es as [|e es IH]; cbn; [lra|]. pose proof (Rabs_pos e). unfold rsum in *. lra. }
    destruct (Rle_lt_dec thr (rel_or_zero r + Rabs e)) as [C|C].
    + rewrite (A C). split; [intros _; lra|]. intros _. exact (pair_steps_mono thr es (S k, None)).
    + rewrite (B C), IH by (cbn; lra). cbn [rel_or_zero]. lra.
Qed.

Lemma pair_run_nonpos thr es : thr <= 0 -> forall k, fold_left (pair_step thr) es (k, None) = ((length es + k)%nat, None).
Proof.
  intros T. induction es as [|e es IH]; intros k; cbn [fold_left]; [reflexivity|].
  destruct (pair_step_R thr (k, None) e) as (A & _). cbn [fst snd rel_or_zero] in A. rewrite A by (pose proof (Rabs_pos e); lra).
  rewrite IH. cbn [length]. f_equal. lia.
Qed.

Lemma pairs_length {A} (l : list A) : (2 * length (pairs l) = length l * (length l - 1))%nat.
Proof.
  induction l as [|x l IH]; [reflexivity|]. cbn [pairs]. rewrite app_length, map_length. cbn [length].
  destruct (length l); cbn in *; nia.
Qed.

(** ** binary64 *)

Section F64.
  Context (P : Platform).
  Local Instance S64i : Scalar f64 := ScalarF64 P.

  Lemma f64_zero_small : fltb (fabs (fzero : f64)) active_tol = true.
  Proof. vm_compute. reflexivity. Qed.
  Lemma f64_one_large : fltb (fabs (fone : f64)) active_tol = false.
  Proof. vm_compute. reflexivity. Qed.

  Lemma add_nan_l (x y : f64) : b_is_nan x = true -> b_is_nan (fadd x y) = true.
  Proof. destruct x; try discriminate. reflexivity. Qed.
  Lemma add_nan_r (x y : f64) : b_is_nan y = true -> b_is_nan (fadd x y) = true.
  Proof. destruct y; try discriminate. destruct x; reflexivity. Qed.
  Lemma fgeb_nan (x y : f64) : b_is_nan x = true -> fgeb x y = false.
  Proof. destruct x; try discriminate. intros _. unfold fgeb. destruct y; reflexivity. Qed.

  Lemma pair_step_nan (thr : f64) k (r : option f64) (e : f64) : match r with Some r => b_is_nan r = true | None => False end \/ b_is_nan e = true ->
    exists r', pair_step thr (k, r) e = (k, Some r') /\ b_is_nan r' = true.
  Proof.
    intros N. unfold pair_step. cbn [fst snd]. set (x := fadd _ _).
    assert (X : b_is_nan x = true).
    { unfold x. destruct N as [N|N].
      - destruct r; [|contradiction]. now apply add_nan_l.
      - apply add_nan_r. destruct e; try discriminate. reflexivity. }
    rewrite fgeb_nan by exact X. eauto.
  Qed.

  Lemma pair_run_nan (thr : f64) k (es : list f64) : forall r : f64, b_is_nan r = true ->
    exists r', fold_left (pair_step thr) es (k, Some r) = (k, Some r') /\ b_is_nan r' = true.
  Proof.
    induction es as [|e es IH]; intros r N; cbn [fold_left]; [eauto|].
    destruct (pair_step_nan thr k (Some r) e (or_introl N)) as (r' & -> & N'). apply IH. exact N'.
  Qed.
End F64.
