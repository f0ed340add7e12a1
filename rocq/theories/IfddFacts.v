(** Facts about Ifdd.v. *)
From Coq Require Import List Arith ZArith Bool Lia Sorted Reals Lra.
From Verif Require Import Base Scalar HMap NdArray Features Ifdd HMapFacts VecFacts FeatureFacts.
Import ListNotations.

(** ** Index sets and pairs *)

Lemma is_eqb_true s t : is_eqb s t = true <-> s = t.
Proof. unfold is_eqb. destruct (list_eq_dec Nat.eq_dec s t); split; congruence || tauto. Qed.
Lemma is_eqb_refl s : is_eqb s s = true. Proof. now apply is_eqb_true. Qed.
Lemma is_eqb_false s t : is_eqb s t = false <-> s <> t.
Proof. rewrite <- not_true_iff_false, is_eqb_true. tauto. Qed.

Lemma is_insert_In i s j : In j (is_insert i s) <-> j = i \/ In j s.
Proof.
  induction s as [|k s IH]; cbn [is_insert].
  - cbn. intuition congruence.
  - destruct (Nat.ltb_spec i k); [cbn; intuition congruence|].
    destruct (Nat.eqb_spec i k); cbn; [subst; intuition congruence|]. rewrite IH. intuition congruence.
Qed.

Lemma is_insert_sorted i s : StronglySorted lt s -> StronglySorted lt (is_insert i s).
Proof.
  induction 1 as [|k s S IH Fk]; cbn [is_insert]; [repeat constructor|].
  destruct (Nat.ltb_spec i k) as [L|L].
  - constructor; [now constructor|]. constructor; [exact L|]. eapply Forall_impl; [|exact Fk]. intros; cbn in *; lia.
  - destruct (Nat.eqb_spec i k); [now constructor|]. constructor; [exact IH|].
    apply Forall_forall. intros x X. apply is_insert_In in X as [->|X]; [lia|].
    rewrite Forall_forall in Fk. now apply Fk.
Qed.

Lemma is_union_In t : forall s j, In j (is_union s t) <-> In j s \/ In j t.
Proof.
  unfold is_union. induction t as [|i t IH]; intros s j; cbn [fold_left]; [cbn; tauto|].
  rewrite IH, is_insert_In. cbn. intuition congruence.
Qed.

Lemma is_union_sorted t : forall s, StronglySorted lt s -> StronglySorted lt (is_union s t).
Proof.
  unfold is_union. induction t as [|i t IH]; intros s S; cbn [fold_left]; [exact S|].
  apply IH. now apply is_insert_sorted.
Qed.

Lemma sorted_NoDup l : StronglySorted lt l -> NoDup l.
Proof.
  induction 1 as [|x l S IH Fx]; constructor; [|exact IH].
  intros I. rewrite Forall_forall in Fx. specialize (Fx x I). lia.
Qed.

Lemma sorted_filter f l : StronglySorted lt l -> StronglySorted lt (filter f l).
Proof.
  induction 1 as [|x l S IH Fx]; cbn [filter]; [constructor|].
  destruct (f x); [|exact IH]. constructor; [exact IH|].
  apply Forall_forall. intros y Y. apply filter_In in Y as [Y _]. rewrite Forall_forall in Fx. now apply Fx.
Qed.

Lemma sorted_seq n : forall k, StronglySorted lt (seq k n).
Proof.
  induction n as [|n IH]; intros k; cbn [seq]; constructor; [apply IH|].
  apply Forall_forall. intros x X. apply in_seq in X. lia.
Qed.

Lemma pairs_In l : StronglySorted lt l -> forall a b, In (a, b) (pairs l) <-> In a l /\ In b l /\ a < b.
Proof.
  induction 1 as [|x l S IH Fx]; intros a b; cbn [pairs]; [cbn; tauto|].
  rewrite in_app_iff, IH, in_map_iff. rewrite Forall_forall in Fx. cbn [In]. split.
  - intros [(y & E & I)|(I & J & L)]; [|tauto]. injection E as <- <-. specialize (Fx _ I). tauto.
  - intros ([<-|I] & [<-|J] & L); try lia; [left; eauto| |tauto]. specialize (Fx _ I). lia.
Qed.

Lemma pairs_NoDup l : StronglySorted lt l -> NoDup (pairs l).
Proof.
  induction 1 as [|x l S IH Fx]; cbn [pairs]; [constructor|].
  pose proof (sorted_NoDup _ S) as N. rewrite Forall_forall in Fx.
  assert (D : forall k, In k (map (fun y => (x, y)) l) -> ~ In k (pairs l)).
  { intros [a b] I J. apply in_map_iff in I as (y & E & _). injection E as <- <-.
    apply (pairs_In l S) in J as (J & _). specialize (Fx _ J). lia. }
  revert D. generalize (pairs l) IH. clear -N. intros ps IH.
  induction N as [|y l N1 N IHl]; intros D; [exact IH|]. cbn [map app]. constructor.
  - rewrite in_app_iff. intros [I|I].
    + apply in_map_iff in I as (z & E & Z). injection E as ->. contradiction.
    + apply (D (x, y)); [left; reflexivity|exact I].
  - apply IHl. intros k K. apply D. right. exact K.
Qed.

Section Facts.
  Context {F : Type} `{Scalar F}.

  (** ** The candidate map *)

  Lemma cm_get_insert m k (c : candidate F) j :
    cm_get (cm_insert m k c) j = if is_eqb k j then Some c else cm_get m j.
  Proof.
    induction m as [|[i d] m IH]; cbn [cm_insert cm_get]; [reflexivity|].
    destruct (is_eqb i k) eqn:E; cbn [cm_get].
    - apply is_eqb_true in E. subst i. destruct (is_eqb k j); reflexivity.
    - destruct (is_eqb i j) eqn:E2; [|exact IH].
      apply is_eqb_true in E2. subst i.
      destruct (is_eqb k j) eqn:E3; [|reflexivity]. apply is_eqb_true in E3. subst. rewrite is_eqb_refl in E. discriminate.
  Qed.

  Lemma cm_get_remove m k j :
    cm_get (cm_remove (F := F) m k) j = if is_eqb k j then None else cm_get m j.
  Proof.
    induction m as [|[i d] m IH]; cbn [cm_remove filter cm_get fst].
    - destruct (is_eqb k j); reflexivity.
    - fold (cm_remove m k). destruct (is_eqb i k) eqn:E; cbn [negb].
      + rewrite IH. apply is_eqb_true in E. subst. destruct (is_eqb k j); reflexivity.
      + cbn [cm_get]. rewrite IH. destruct (is_eqb i j) eqn:E2; [|reflexivity].
        apply is_eqb_true in E2. subst. destruct (is_eqb k j) eqn:E3; [|reflexivity].
        apply is_eqb_true in E3. subst. rewrite is_eqb_refl in E. discriminate.
  Qed.

  (** ** What is observed of a state *)

  (** The relevance recorded for a pair, if it is a candidate. *)
  Definition pair_relevance (s : ifdd F) (a b : nat) : option F :=
    option_map cd_relevance (cm_get (if_candidates s) [a; b]).

  (** How many features have exactly this pair of parents. *)
  Definition pair_copies (s : ifdd F) (a b : nat) : nat :=
    length (filter (fun f => is_eqb (ft_parents f) [a; b]) (if_features s)).

  (** One inspection of a pair, on (number of features made of it, relevance). *)
  Definition pair_step (thr : F) (kr : nat * option F) (e : F) : nat * option F :=
    let r := fadd (match snd kr with Some r => r | None => fzero end) (fabs e) in
    if fgeb r thr then (S (fst kr), None) else (fst kr, Some r).

  Definition promoted (s : ifdd F) (e : F) (p : nat * nat) : bool :=
    fgeb (fadd (match pair_relevance s (fst p) (snd p) with Some r => r | None => fzero end) (fabs e)) (if_threshold s).

  Record ifdd_ok (n : nat) (s : ifdd F) : Prop := {
    ok_base : firstn n (if_features s) = map (fun i => MkFeature i [i]) (seq 0 n);
    ok_index : forall i f, nth_error (if_features s) i = Some f -> ft_index f = i;
    ok_derived : Forall (fun f => exists a b, ft_parents f = [a; b] /\ a < b < n) (skipn n (if_features s));
    ok_cands : forall k c, cm_get (if_candidates s) k = Some c ->
       cd_parents c = k /\ fgeb (cd_relevance c) (if_threshold s) = false /\ exists a b, k = [a; b] /\ a < b < n }.

  Lemma ok_len n s : ifdd_ok n s -> n <= length (if_features s).
  Proof.
    intros O. pose proof (f_equal (@length _) (ok_base _ _ O)) as E. rewrite firstn_length, map_length, seq_length in E. lia.
  Qed.

  Lemma ok_nth n s i : ifdd_ok n s -> i < n -> vget (if_features s) i = Ret (MkFeature i [i]).
  Proof.
    intros O L. apply vget_Ret. rewrite <- (firstn_skipn n (if_features s)), (ok_base _ _ O).
    rewrite nth_error_app1 by now rewrite map_length, seq_length.
    rewrite (nth_error_nth' _ (MkFeature 0 [0])) by now rewrite map_length, seq_length.
    rewrite (map_nth (fun i => MkFeature i [i])), seq_nth by exact L. reflexivity.
  Qed.

  Lemma ifdd_new_ok n thr : ifdd_ok n (ifdd_new n thr).
  Proof.
    assert (L : length (map (fun i => MkFeature i (is_insert i [])) (seq 0 n)) = n) by now rewrite map_length, seq_length.
    constructor; unfold ifdd_new; cbn [if_features if_candidates if_threshold].
    - rewrite <- L at 1. rewrite firstn_all. reflexivity.
    - intros i f E. assert (I : i < n) by (rewrite <- L; apply nth_error_Some; congruence).
      rewrite (nth_error_nth' _ (MkFeature 0 [0])) in E by now rewrite L. injection E as <-.
      rewrite (map_nth (fun i => MkFeature i [i])), seq_nth by exact I. reflexivity.
    - rewrite <- L at 1. rewrite skipn_all. constructor.
    - intros k c E. discriminate E.
  Qed.

  Lemma is_eqb_pair a b g h : is_eqb [g; h] [a; b] = (g =? a) && (h =? b).
  Proof.
    destruct (Nat.eqb_spec g a); destruct (Nat.eqb_spec h b); subst; cbn [andb];
      [apply is_eqb_refl|apply is_eqb_false; congruence..].
  Qed.

  Lemma inspect_is n s g h e : ifdd_ok n s -> g < h < n -> exists s' oc,
    inspect_candidate s g h e = Ret (s', oc) /\ ifdd_ok n s' /\
    if_features s' = if_features s /\ if_threshold s' = if_threshold s /\
    (forall a b, pair_relevance s' a b =
       if (g =? a) && (h =? b) then snd (pair_step (if_threshold s) (0, pair_relevance s a b) e) else pair_relevance s a b) /\
    map cd_parents (match oc with Some c => [c] | None => [] end) = (if promoted s e (g, h) then [[g; h]] else []).
  Proof.
    intros O L.
    assert (U : feature_union (MkFeature g [g]) (MkFeature h [h]) = [g; h]).
    { unfold feature_union, is_union. cbn [ft_parents fold_left is_insert].
      destruct (Nat.ltb_spec h g); [lia|]. destruct (Nat.eqb_spec h g); [lia|]. reflexivity. }
    unfold inspect_candidate. rewrite (ok_nth n s g O), (ok_nth n s h O) by lia. cbn [obind]. rewrite U.
    set (c0 := match cm_get (if_candidates s) [g; h] with Some c => c | None => candidate_new [g; h] end).
    assert (P0 : cd_parents c0 = [g; h]).
    { unfold c0. destruct (cm_get (if_candidates s) [g; h]) eqn:E; [|reflexivity]. now apply (ok_cands _ _ O) in E. }
    assert (R0 : cd_relevance c0 = match pair_relevance s g h with Some r => r | None => fzero end).
    { unfold c0, pair_relevance. destruct (cm_get (if_candidates s) [g; h]); reflexivity. }
    unfold promoted. cbn [fst snd]. rewrite <- R0. set (rel := fadd (cd_relevance c0) (fabs e)).
    destruct (fgeb rel (if_threshold s)) eqn:G.
    - eexists. eexists. split; [reflexivity|]. cbn [if_features if_threshold]. splits; [|reflexivity|reflexivity| |].
      + constructor; cbn [if_features if_candidates if_threshold]; try apply O.
        intros k c E. rewrite cm_get_remove, cm_get_insert in E. destruct (is_eqb [g; h] k) eqn:K; [discriminate|].
        now apply (ok_cands _ _ O).
      + intros a b. unfold pair_relevance at 1. cbn [if_candidates]. rewrite cm_get_remove, cm_get_insert, is_eqb_pair.
        destruct ((g =? a) && (h =? b)) eqn:K; [|reflexivity].
        apply andb_true_iff in K as [K1 K2]. apply Nat.eqb_eq in K1, K2. subst a b.
        unfold pair_step. cbn [snd fst]. rewrite <- R0. fold rel. rewrite G. reflexivity.
      + cbn [map cd_parents]. rewrite P0. reflexivity.
    - eexists. eexists. split; [reflexivity|]. cbn [if_features if_threshold]. splits; [|reflexivity|reflexivity| |reflexivity].
      + constructor; cbn [if_features if_candidates if_threshold]; try apply O.
        intros k c E. rewrite cm_get_insert in E. destruct (is_eqb [g; h] k) eqn:K.
        * apply is_eqb_true in K. subst k. injection E as <-. cbn [cd_parents cd_relevance]. splits; eauto.
        * now apply (ok_cands _ _ O).
      + intros a b. unfold pair_relevance at 1. cbn [if_candidates]. rewrite cm_get_insert, is_eqb_pair.
        destruct ((g =? a) && (h =? b)) eqn:K; [|reflexivity].
        apply andb_true_iff in K as [K1 K2]. apply Nat.eqb_eq in K1, K2. subst a b.
        unfold pair_step. cbn [snd fst]. rewrite <- R0. fold rel. rewrite G. reflexivity.
  Qed.

  Definition mem_pair (ps : list (nat * nat)) (a b : nat) : bool :=
    existsb (fun p => (fst p =? a) && (snd p =? b)) ps.

  Lemma mem_pair_In ps a b : mem_pair ps a b = true <-> In (a, b) ps.
  Proof.
    unfold mem_pair. rewrite existsb_exists. split.
    - intros ([x y] & I & E). cbn in E. apply andb_true_iff in E as [E1 E2]. apply Nat.eqb_eq in E1, E2. now subst.
    - intros I. exists (a, b). split; [exact I|]. cbn. now rewrite !Nat.eqb_refl.
  Qed.

  Lemma inspect_all_is n e ps : forall s, ifdd_ok n s -> NoDup ps -> (forall a b, In (a, b) ps -> a < b < n) -> exists s' cs,
    inspect_all s ps e = Ret (s', cs) /\ ifdd_ok n s' /\
    if_features s' = if_features s /\ if_threshold s' = if_threshold s /\
    (forall a b, pair_relevance s' a b =
       if mem_pair ps a b then snd (pair_step (if_threshold s) (0, pair_relevance s a b) e) else pair_relevance s a b) /\
    map cd_parents cs = map (fun p => [fst p; snd p]) (filter (promoted s e) ps).
  Proof.
    unfold inspect_all.
    assert (G : forall ps cs0 s, ifdd_ok n s -> NoDup ps -> (forall a b, In (a, b) ps -> a < b < n) -> exists s' cs,
      ofold (fun acc gh =>
             let* r := inspect_candidate (fst acc) (fst gh) (snd gh) e in
             Ret (fst r, snd acc ++ match snd r with Some c => [c] | None => [] end)) ps (s, cs0) = Ret (s', cs0 ++ cs) /\ ifdd_ok n s' /\
      if_features s' = if_features s /\ if_threshold s' = if_threshold s /\
      (forall a b, pair_relevance s' a b =
         if mem_pair ps a b then snd (pair_step (if_threshold s) (0, pair_relevance s a b) e) else pair_relevance s a b) /\
      map cd_parents cs = map (fun p => [fst p; snd p]) (filter (promoted s e) ps)).
    { clear ps. induction ps as [|[g h] ps IH]; intros cs0 s O N B.
      - exists s, []. cbn [ofold]. rewrite app_nil_r. splits; try reflexivity. exact O.
      - inversion_clear N as [|? ? N1 N2].
        destruct (inspect_is n s g h e O (B g h (or_introl eq_refl))) as (s1 & oc & E & O1 & F1 & T1 & R1 & C1).
        destruct (IH (cs0 ++ match oc with Some c => [c] | None => [] end) s1 O1 N2 (fun a b I => B a b (or_intror I)))
          as (s2 & cs & E2 & O2 & F2 & T2 & R2 & C2).
        exists s2, (match oc with Some c => [c] | None => [] end ++ cs). splits.
        + cbn [ofold fst snd]. rewrite E. cbn [obind fst snd]. rewrite E2, app_assoc. reflexivity.
        + exact O2.
        + congruence.
        + congruence.
        + intros a b. rewrite R2, R1, T1. unfold mem_pair. cbn [existsb fst snd]. fold (mem_pair ps a b).
          destruct ((g =? a) && (h =? b)) eqn:K; cbn [orb]; [|reflexivity].
          apply andb_true_iff in K as [K1 K2]. apply Nat.eqb_eq in K1, K2. subst a b.
          destruct (mem_pair ps g h) eqn:M; [|reflexivity]. now apply mem_pair_In in M.
        + rewrite map_app, C1, C2. cbn [filter].
          assert (X : filter (promoted s1 e) ps = filter (promoted s e) ps).
          { apply filter_ext_in. intros [a b] I. unfold promoted. cbn [fst snd]. rewrite R1, T1.
            destruct ((g =? a) && (h =? b)) eqn:K; [|reflexivity].
            apply andb_true_iff in K as [K1 K2]. apply Nat.eqb_eq in K1, K2. subst a b. contradiction. }
          rewrite X. destruct (promoted s e (g, h)); reflexivity. }
    intros s O N B. exact (G ps [] s O N B).
  Qed.

  (** ** One call to [discover] *)

  (** The pairs whose candidates a call inspects. *)
  Definition inspected_pairs (phi : Features F) : list (nat * nat) :=
    pairs match phi with
          | Sparse sa => is_union [] (hm_keys (sa_acts sa))
          | Dense da => filter (fun i => fltb (fabs (nth i da fzero)) active_tol) (seq 0 (length da))
          end.

  Definition fits (n : nat) (phi : Features F) : Prop :=
    match phi with
    | Dense da => length da <= n
    | Sparse sa => forall i, In i (hm_keys (sa_acts sa)) -> i < n
    end.

  Lemma inspected_sorted phi : StronglySorted lt
    match phi with
          | Sparse sa => is_union [] (hm_keys (sa_acts sa))
          | Dense da => filter (fun i => fltb (fabs (nth i da fzero)) active_tol) (seq 0 (length da))
          end.
  Proof. destruct phi; [apply sorted_filter, sorted_seq|apply is_union_sorted; constructor]. Qed.

  Lemma inspected_NoDup phi : NoDup (inspected_pairs phi).
  Proof. apply pairs_NoDup, inspected_sorted. Qed.

  Lemma inspected_In phi a b : In (a, b) (inspected_pairs phi) <-> a < b /\
    match phi with
    | Sparse sa => In a (hm_keys (sa_acts sa)) /\ In b (hm_keys (sa_acts sa))
    | Dense da => exists x y, nth_error da a = Some x /\ nth_error da b = Some y /\
                    fltb (fabs x) active_tol = true /\ fltb (fabs y) active_tol = true
    end.
  Proof.
    unfold inspected_pairs. rewrite (pairs_In _ (inspected_sorted phi)). destruct phi as [da|sa].
    - rewrite !filter_In, !in_seq. split.
      + intros ((A & A') & (B & B') & L). split; [exact L|]. exists (nth a da fzero), (nth b da fzero).
        splits; [apply nth_error_nth'; lia|apply nth_error_nth'; lia|exact A'|exact B'].
      + intros (L & x & y & X & Y & TX & TY).
        rewrite (nth_error_nth _ _ _ X), (nth_error_nth _ _ _ Y).
        assert (a < length da) by (apply nth_error_Some; congruence).
        assert (b < length da) by (apply nth_error_Some; congruence).
        splits; try lia; assumption.
    - rewrite !is_union_In. cbn [In]. tauto.
  Qed.

  Lemma inspected_bound n phi : fits n phi -> forall a b, In (a, b) (inspected_pairs phi) -> a < b < n.
  Proof.
    intros B a b I. apply inspected_In in I as (L & I). destruct phi as [da|sa]; cbn [fits] in B.
    - destruct I as (x & y & _ & Y & _). assert (b < length da) by (apply nth_error_Some; congruence). lia.
    - split; [exact L|]. now apply B.
  Qed.

  (** The features appended by a call. *)
  Fixpoint numbered (i : nat) (ps : list (nat * nat)) : list feature :=
    match ps with
    | [] => []
    | p :: ps' => MkFeature i [fst p; snd p] :: numbered (S i) ps'
    end.

  Lemma numbered_nth ps : forall i k, nth_error (numbered i ps) k = option_map (fun p => MkFeature (i + k) [fst p; snd p]) (nth_error ps k).
  Proof.
    induction ps as [|p ps IH]; intros i [|k]; cbn [numbered nth_error option_map]; try reflexivity.
    - now rewrite Nat.add_0_r.
    - rewrite IH. destruct (nth_error ps k); cbn; [|reflexivity]. do 2 f_equal. lia.
  Qed.
  Lemma numbered_length ps : forall i, length (numbered i ps) = length ps.
  Proof. induction ps as [|p ps IH]; intros i; cbn; [reflexivity|]. now rewrite IH. Qed.

  Lemma numbered_In ps : forall i f, In f (numbered i ps) -> exists p, In p ps /\ ft_parents f = [fst p; snd p].
  Proof.
    induction ps as [|p ps IH]; intros i f; cbn [numbered In]; [tauto|]. intros [<-|I].
    - exists p. auto.
    - destruct (IH _ _ I) as (q & Q & E). exists q. auto.
  Qed.

  Definition add_step (acc : ifdd F * option (hmap (list nat))) (c : candidate F) :=
    let nf := add_feature (fst acc) c in
    (fst nf, Some (hm_insert (match snd acc with Some m => m | None => [] end) (fst (snd nf)) (snd (snd nf)))).

  Lemma add_steps cs : forall ps s o, map cd_parents cs = map (fun p : nat * nat => [fst p; snd p]) ps ->
    (forall i m, o = Some m -> length (if_features s) <= i -> hm_get m i = None) ->
    exists s' o', fold_left add_step cs (s, o) = (s', o') /\
      if_features s' = if_features s ++ numbered (length (if_features s)) ps /\
      if_candidates s' = if_candidates s /\ if_threshold s' = if_threshold s /\
      (ps = [] -> o' = o) /\
      (ps <> [] -> exists m, o' = Some m /\ forall i, hm_get m i =
         if i <? length (if_features s) then hm_get (match o with Some m => m | None => [] end) i
         else option_map ft_parents (nth_error (if_features s') i)).
  Proof.
    induction cs as [|c cs IH]; intros [|p ps] s o E N; try discriminate E.
    - exists s, o. cbn [fold_left numbered]. rewrite app_nil_r. splits; try reflexivity. congruence.
    - cbn [map] in E. injection E as E0 E. cbn [fold_left]. unfold add_step at 2. cbn [fst snd].
      set (s1 := fst (add_feature s c)). set (m1 := hm_insert _ _ _).
      assert (F1 : if_features s1 = if_features s ++ [MkFeature (length (if_features s)) [fst p; snd p]])
        by (unfold s1, add_feature, into_feature; cbn [fst if_features]; rewrite E0; reflexivity).
      assert (L1 : length (if_features s1) = S (length (if_features s))) by (rewrite F1, app_length; cbn; lia).
      assert (M1 : forall i, hm_get m1 i = if i =? length (if_features s) then Some [fst p; snd p]
                             else hm_get (match o with Some m => m | None => [] end) i).
      { intros i. unfold m1, add_feature, into_feature. cbn [fst snd ft_parents]. rewrite E0, hm_get_insert.
        rewrite Nat.eqb_sym. reflexivity. }
      destruct (IH ps s1 (Some m1) E) as (s2 & o2 & E2 & F2 & C2 & T2 & Z2 & M2).
      { intros i m Em Li. injection Em as <-. rewrite L1 in Li. rewrite M1. destruct (Nat.eqb_spec i (length (if_features s))); [lia|].
        destruct o as [m|]; [|reflexivity]. apply (N i m eq_refl). lia. }
      exists s2, o2. splits.
      + exact E2.
      + rewrite F2, L1, F1, <- app_assoc. reflexivity.
      + rewrite C2. reflexivity.
      + rewrite T2. reflexivity.
      + discriminate.
      + intros _.
        assert (A : nth_error (if_features s2) (length (if_features s)) = Some (MkFeature (length (if_features s)) [fst p; snd p])).
        { rewrite F2, F1, <- app_assoc, nth_error_app2, Nat.sub_diag by lia. reflexivity. }
        destruct ps as [|q ps].
        * rewrite (Z2 eq_refl). exists m1. split; [reflexivity|]. intros i. rewrite M1.
          destruct (Nat.ltb_spec i (length (if_features s))) as [Li|Li]; destruct (Nat.eqb_spec i (length (if_features s))) as [Ei|Ei]; try lia.
          -- reflexivity.
          -- subst i. rewrite A. reflexivity.
          -- assert (X : nth_error (if_features s2) i = None).
             { apply nth_error_None. rewrite F2. cbn [numbered]. rewrite app_nil_r, L1. lia. }
             rewrite X. destruct o as [m|]; [|reflexivity]. apply (N i m eq_refl). lia.
        * destruct M2 as (m2 & -> & M2); [discriminate|]. exists m2. split; [reflexivity|]. intros i. rewrite M2, L1, M1.
          destruct (Nat.ltb_spec i (S (length (if_features s)))) as [Li|Li];
            destruct (Nat.ltb_spec i (length (if_features s))) as [Lj|Lj]; try lia; [| |reflexivity];
            destruct (Nat.eqb_spec i (length (if_features s))) as [Ei|Ei]; try lia; [reflexivity|].
          subst i. rewrite A. reflexivity.
  Qed.

  Lemma numbered_ok n s' s ps : ifdd_ok n s -> (forall a b, In (a, b) ps -> a < b < n) ->
    if_features s' = if_features s ++ numbered (length (if_features s)) ps ->
    if_candidates s' = if_candidates s -> if_threshold s' = if_threshold s -> ifdd_ok n s'.
  Proof.
    intros O B EF EC ET. pose proof (ok_len _ _ O) as L. constructor.
    - rewrite EF, firstn_app. replace (n - length (if_features s)) with 0 by lia. cbn [firstn]. rewrite app_nil_r. apply O.
    - intros i f E. rewrite EF in E. destruct (Nat.lt_ge_cases i (length (if_features s))) as [Li|Li].
      + rewrite nth_error_app1 in E by exact Li. now apply (ok_index _ _ O).
      + rewrite nth_error_app2, numbered_nth in E by exact Li. destruct (nth_error ps _); [|discriminate].
        injection E as <-. cbn [ft_index]. lia.
    - rewrite EF, skipn_app. replace (n - length (if_features s)) with 0 by lia. cbn [skipn]. apply Forall_app. split; [apply O|].
      apply Forall_forall. intros f I. apply numbered_In in I as ([a b] & I & E). exists a, b. split; [exact E|]. now apply B.
    - intros k c E. rewrite EC in E. rewrite ET. now apply (ok_cands _ _ O).
  Qed.

  Lemma discover_is n s phi e : ifdd_ok n s -> fits n phi -> exists s' o,
    discover s phi e = Ret (s', o) /\ ifdd_ok n s' /\ if_threshold s' = if_threshold s /\
    if_features s' = if_features s ++ numbered (length (if_features s)) (filter (promoted s e) (inspected_pairs phi)) /\
    (forall a b, pair_relevance s' a b =
       if mem_pair (inspected_pairs phi) a b then snd (pair_step (if_threshold s) (0, pair_relevance s a b) e)
       else pair_relevance s a b) /\
    (length (if_features s') = length (if_features s) -> o = None) /\
    (length (if_features s') <> length (if_features s) -> exists m, o = Some m /\ forall i, hm_get m i =
       if i <? length (if_features s) then None else option_map ft_parents (nth_error (if_features s') i)).
  Proof.
    intros O B.
    destruct (inspect_all_is n e (inspected_pairs phi) s O (inspected_NoDup phi) (inspected_bound n phi B))
      as (s1 & cs & E & O1 & F1 & T1 & R1 & C1).
    destruct (add_steps cs (filter (promoted s e) (inspected_pairs phi)) s1 None C1) as (s2 & o & E2 & F2 & C2 & T2 & Z & M).
    { discriminate. }
    exists s2, o. splits.
    - unfold discover. destruct phi as [da|sa]; [unfold discover_dense|unfold discover_sparse];
        unfold inspected_pairs in E; rewrite E; cbn [obind]; fold add_step; f_equal; exact E2.
    - apply (numbered_ok n s2 s1 (filter (promoted s e) (inspected_pairs phi))); try assumption.
      intros a b I. apply filter_In in I as [I _]. exact (inspected_bound n phi B a b I).
    - congruence.
    - congruence.
    - intros a b. unfold pair_relevance at 1. rewrite C2. apply R1.
    - intros L. apply Z. rewrite F2, app_length, numbered_length, F1 in L.
      destruct (filter (promoted s e) (inspected_pairs phi)); [reflexivity|cbn in L; lia].
    - intros L. destruct M as (m & -> & M).
      + intros X. apply L. rewrite F2, X. cbn [numbered]. rewrite app_nil_r. congruence.
      + exists m. split; [reflexivity|]. intros i. rewrite M, F1. reflexivity.
  Qed.
End Facts.
