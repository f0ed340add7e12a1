(** Proofs about feature vectors (C01, C02, C04-C10, C12, C14, C15), for every
    scalar type and every record of operations. *)
From Coq Require Import List Arith Lia Permutation Bool.
From Verif Require Import Base Scalar HMap HMapFacts NdArray VecFacts Features Spec.
Import ListNotations.

(** Split conjunctions, and nothing else. *)
Ltac splits := repeat match goal with |- _ /\ _ => split end.

Section FeatureFacts.
  Context {F : Type} `{Scalar F}.
  Implicit Types (phi psi : Features F) (m : hmap F) (l w : list F) (i k : nat).

  (** ** get and stores *)

  Lemma get_stores phi i v : keyed phi -> (get phi i = Some v <-> stores phi i v).
  Proof.
    destruct phi as [da|[d m]]; simpl; intros K; [tauto|]. apply hm_get_iff, K.
  Qed.

  Lemma get_stored phi i : keyed phi -> (stored phi i <-> exists v, get phi i = Some v).
  Proof.
    intros K. unfold stored. split; intros [v E]; exists v; apply get_stores; auto.
  Qed.

  Lemma get_not_stored phi i : keyed phi -> (get phi i = None <-> ~ stored phi i).
  Proof.
    intros K. rewrite get_stored by assumption.
    destruct (get phi i); split; try congruence.
    - intros N. exfalso. apply N. eauto.
    - intros _ [v E]. discriminate.
  Qed.

  Lemma stored_key d m i : stored (Sparse (MkSparse d m)) i <-> In i (hm_keys m).
  Proof.
    unfold stored, hm_keys. simpl. rewrite in_map_iff. split.
    - intros [v E]. exists (i, v). auto.
    - intros [[j v] [<- E]]. eauto.
  Qed.

  Lemma stored_dec phi i : keyed phi -> {stored phi i} + {~ stored phi i}.
  Proof.
    intros K. destruct (get phi i) eqn:E.
    - left. apply get_stored; eauto.
    - right. apply get_not_stored; auto.
  Qed.

  Lemma bounded_dense l : bounded (Dense l).
  Proof.
    intros i [v E]. simpl in *. apply nth_error_Some. congruence.
  Qed.

  Lemma bounded_sparse d m : bounded (Sparse (MkSparse d m)) <-> forall i, In i (hm_keys m) -> i < d.
  Proof.
    unfold bounded. simpl. split; intros E i; specialize (E i); rewrite stored_key in *; auto.
  Qed.

  Lemma bounded_get phi i v : bounded phi -> keyed phi -> get phi i = Some v -> i < size phi.
  Proof. intros B K E. apply B. apply get_stored; eauto. Qed.

  Lemma bounded_dec phi : {bounded phi} + {~ bounded phi}.
  Proof.
    destruct phi as [l|[d m]]; [left; apply bounded_dense|].
    destruct (forallb (fun k => k <? d) (hm_keys m)) eqn:E.
    - left. apply bounded_sparse. intros i HI. rewrite forallb_forall in E.
      apply Nat.ltb_lt, E, HI.
    - right. intros B. rewrite bounded_sparse in B.
      enough (forallb (fun k => k <? d) (hm_keys m) = true) by congruence.
      apply forallb_forall. intros i HI. apply Nat.ltb_lt, B, HI.
  Qed.

  Lemma wf_dense l : wf (Dense l).
  Proof. split; [exact I | apply bounded_dense]. Qed.

  (** Entry [i] of the expansion. *)
  Definition entry phi i : F := match get phi i with Some v => v | None => fzero end.

  Lemma expands_get phi l : keyed phi ->
    (expands phi l <->
     length l = size phi /\ forall i, i < size phi -> nth_error l i = Some (entry phi i)).
  Proof.
    intros K. unfold expands. split; intros [Len E]; split; auto.
    - intros i L. destruct (nth_error_lt l i) as [v V]; [lia|]. rewrite V. f_equal.
      unfold entry. destruct (E i v V) as [S|[S ->]].
      + apply get_stores in S; auto. rewrite S. reflexivity.
      + apply get_not_stored in S; auto. rewrite S. reflexivity.
    - intros i v V. assert (L : i < size phi) by (rewrite <- Len; apply nth_error_Some; congruence).
      rewrite (E i L) in V. inversion V; subst. unfold entry.
      destruct (get phi i) eqn:G.
      + left. apply get_stores; auto.
      + right. split; auto. apply get_not_stored; auto.
  Qed.

  Lemma expands_unique phi l l' : keyed phi -> expands phi l -> expands phi l' -> l = l'.
  Proof.
    intros K E E'. rewrite expands_get in E, E' by assumption.
    destruct E as [L N], E' as [L' N']. apply nth_error_ext. intros i.
    destruct (Nat.lt_ge_cases i (size phi)) as [I|I].
    - rewrite N, N' by assumption. reflexivity.
    - rewrite !(proj2 (nth_error_None _ _)) by lia. reflexivity.
  Qed.

  Lemma expands_dense l l' : expands (Dense l) l' <-> l' = l.
  Proof.
    split.
    - intros E. apply (expands_unique (Dense l)); simpl; auto.
      split; auto.
    - intros ->. split; auto.
  Qed.

  Lemma expands_exists phi : keyed phi -> exists l, expands phi l.
  Proof.
    intros K. exists (map (entry phi) (seq 0 (size phi))). apply expands_get; auto. split.
    - rewrite map_length, seq_length. reflexivity.
    - intros i L. rewrite nth_error_map', nth_error_seq.
      destruct (Nat.ltb_spec i (size phi)); [reflexivity|lia].
  Qed.

  Lemma expands_nth phi l i : keyed phi -> expands phi l -> i < size phi ->
    nth_error l i = Some (entry phi i).
  Proof. intros K E L. rewrite expands_get in E by assumption. apply E, L. Qed.

  Lemma expands_nth_all phi l i : keyed phi -> expands phi l ->
    nth_error l i = if i <? size phi then Some (entry phi i) else None.
  Proof.
    intros K E. destruct (Nat.ltb_spec i (size phi)).
    - apply expands_nth; auto.
    - apply nth_error_None. destruct E. lia.
  Qed.

  (** ** The write loop *)

  Lemma write_all_loop g m l : write_all g m l = upd_loop (fun v _ => g v) m l.
  Proof. reflexivity. Qed.

  Lemma write_all_Ret g m l : hm_ok m -> (forall k, In k (hm_keys m) -> k < length l) ->
    exists l', write_all g m l = Ret l' /\ length l' = length l /\
      forall k, k < length l -> nth_error l' k =
        match hm_get m k with Some v => Some (g v) | None => nth_error l k end.
  Proof.
    intros ok B. rewrite write_all_loop.
    destruct (upd_loop_Ret (fun v (_ : F) => g v) m l ok B) as (l' & E & Len & N).
    exists l'. splits; auto. intros k L. rewrite N.
    destruct (hm_get m k); auto. destruct (nth_error_lt l k L) as [x ->]. reflexivity.
  Qed.

  Lemma write_all_Panic g m l k : In k (hm_keys m) -> length l <= k -> write_all g m l = Panic.
  Proof. rewrite write_all_loop. apply upd_loop_Panic. Qed.

  (** ** C01 *)

  Lemma into_dense_expands phi : wf phi -> exists l, into_dense phi = Ret l /\ expands phi l.
  Proof.
    destruct phi as [da|[d m]]; intros [K B].
    - exists da. split; auto. apply expands_dense. reflexivity.
    - rewrite bounded_sparse in B. simpl.
      destruct (write_all_Ret (fun a => a) m (zeros d) K) as (l & E & Len & N).
      { intros k HI. unfold zeros. rewrite repeat_length. auto. }
      exists l. split; auto. unfold zeros in *. rewrite repeat_length in *.
      apply expands_get; simpl; auto. split; auto. intros i L. rewrite N by assumption.
      unfold entry. simpl. destruct (hm_get m i); auto.
      rewrite nth_error_repeat'. destruct (Nat.ltb_spec i d); [reflexivity|lia].
  Qed.

  Lemma into_dense_panic phi : ~ bounded phi -> into_dense phi = Panic.
  Proof.
    destruct phi as [da|[d m]]; intros B.
    - exfalso. apply B, bounded_dense.
    - rewrite bounded_sparse in B. simpl.
      destruct (write_all (fun a => a) m (zeros d)) as [l|] eqn:E; auto.
      exfalso. apply B. intros i HI. destruct (Nat.lt_ge_cases i d) as [|L]; auto.
      rewrite (write_all_Panic _ m _ i) in E; auto; [discriminate|].
      unfold zeros. rewrite repeat_length. assumption.
  Qed.

  Theorem into_dense_spec phi : keyed phi ->
    (forall l, into_dense phi = Ret l <-> bounded phi /\ expands phi l) /\
    (into_dense phi = Panic <-> ~ bounded phi) /\
    to_dense phi = into_dense phi.
  Proof.
    intros K. split; [|split].
    - intros l. split.
      + intros E. destruct (bounded_dec phi) as [B|B].
        * split; auto. destruct (into_dense_expands phi (conj K B)) as (l' & E' & X).
          congruence.
        * rewrite into_dense_panic in E by assumption. discriminate.
      + intros [B X]. destruct (into_dense_expands phi (conj K B)) as (l' & E' & X').
        rewrite E'. f_equal. eapply expands_unique; eauto.
    - split.
      + intros E B. destruct (into_dense_expands phi (conj K B)) as (l' & E' & X').
        congruence.
      + apply into_dense_panic.
    - destruct phi; reflexivity.
  Qed.

  Lemma into_dense_Ret phi l : wf phi -> (into_dense phi = Ret l <-> expands phi l).
  Proof.
    intros [K B]. destruct (into_dense_spec phi K) as (E & _). rewrite E. tauto.
  Qed.

  (** ** same *)

  Lemma same_refl phi : same phi phi.
  Proof. destruct phi; simpl; auto. Qed.

  Lemma same_sym phi psi : same phi psi -> same psi phi.
  Proof.
    destruct phi as [|[d m]], psi as [|[d' m']]; simpl; auto.
    intros [-> P]. split; auto using Permutation_sym.
  Qed.

  Lemma same_trans (a b c : Features F) : same a b -> same b c -> same a c.
  Proof.
    destruct a as [|[? ?]], b as [|[? ?]], c as [|[? ?]]; simpl; try tauto; try congruence.
    intros [-> P] [-> Q]. split; auto. eapply Permutation_trans; eauto.
  Qed.

  Lemma same_keyed phi psi : same phi psi -> keyed phi -> keyed psi.
  Proof.
    destruct phi as [|[d m]], psi as [|[d' m']]; simpl; try tauto.
    intros [_ P]. apply hm_ok_perm, P.
  Qed.

  Lemma same_size phi psi : same phi psi -> size phi = size psi.
  Proof. destruct phi as [|[d m]], psi as [|[d' m']]; simpl; try tauto; congruence. Qed.

  Lemma same_get phi psi i : keyed phi -> same phi psi -> get phi i = get psi i.
  Proof.
    destruct phi as [|[d m]], psi as [|[d' m']]; simpl; try tauto; try congruence.
    intros K [_ P]. apply hm_get_perm; auto.
  Qed.

  Lemma same_stores phi psi i v : same phi psi -> (stores phi i v <-> stores psi i v).
  Proof.
    destruct phi as [|[d m]], psi as [|[d' m']]; simpl; try tauto; try congruence.
    - intros ->. tauto.
    - intros [_ P]. split; apply Permutation_in; auto using Permutation_sym.
  Qed.

  Lemma same_stored phi psi i : same phi psi -> (stored phi i <-> stored psi i).
  Proof. intros E. unfold stored. split; intros [v V]; exists v; eapply same_stores; eauto using same_sym. Qed.

  Lemma same_bounded phi psi : same phi psi -> bounded phi -> bounded psi.
  Proof.
    intros E B i I. rewrite <- (same_size _ _ E). apply B. eapply same_stored; eauto.
  Qed.

  Lemma same_wf phi psi : same phi psi -> wf phi -> wf psi.
  Proof. intros E [K B]. split; eauto using same_keyed, same_bounded. Qed.

  Lemma same_expands phi psi l : same phi psi -> expands phi l -> expands psi l.
  Proof.
    intros E [Len N]. split; [rewrite <- (same_size _ _ E); auto|].
    intros i v V. rewrite <- (same_stores _ _ i v E), <- (same_stored _ _ i E). auto.
  Qed.

  Lemma same_into_dense phi psi : keyed phi -> same phi psi -> into_dense phi = into_dense psi.
  Proof.
    destruct phi as [|[d m]], psi as [|[d' m']]; simpl; try tauto; try congruence.
    intros K [-> P]. rewrite !write_all_loop. apply upd_loop_perm; auto.
  Qed.

  (** Sparse values with equal lookups are the same. *)
  Lemma same_sparse d m m' : hm_ok m -> hm_ok m' -> (forall k, hm_get m k = hm_get m' k) ->
    same (Sparse (MkSparse d m)) (Sparse (MkSparse d m')).
  Proof. simpl. intros. split; auto using hm_ext_perm. Qed.

  (** ** C04: stack *)

  Definition shift d m : hmap F := map (fun kv => (fst kv + d, snd kv)) m.

  Lemma shift_keys d m k : In k (hm_keys (shift d m)) <-> exists j, k = j + d /\ In j (hm_keys m).
  Proof.
    unfold shift, hm_keys. rewrite map_map, in_map_iff. split.
    - intros [[j v] [<- E]]. exists j. split; auto. change j with (fst (j, v)). apply in_map, E.
    - intros (j & -> & E). apply in_map_iff in E. destruct E as ([j' v] & <- & E).
      exists (j', v). auto.
  Qed.

  Lemma shift_ok d m : hm_ok m -> hm_ok (shift d m).
  Proof.
    unfold hm_ok. induction m as [|[j v] m IH]; simpl; intros ND; [constructor|].
    inversion ND; subst. constructor; auto. intros E. apply shift_keys in E.
    destruct E as (k & E & HI). assert (k = j) by lia. subst. contradiction.
  Qed.

  Lemma shift_get d m k : hm_get (shift d m) k = if k <? d then None else hm_get m (k - d).
  Proof.
    induction m as [|[j v] m IH]; simpl.
    - destruct (k <? d); auto.
    - rewrite IH. destruct (Nat.ltb_spec k d), (Nat.eqb_spec (j + d) k), (Nat.eqb_spec j (k - d)); auto; lia.
  Qed.

  Lemma stack_fold_shift d m m1 :
    fold_left (fun m kv => hm_insert m (fst kv + d) (snd kv)) m m1 =
    fold_left (fun m kv => hm_insert m (fst kv) (snd kv)) (shift d m) m1.
  Proof.
    revert m1. induction m as [|[j v] m IH]; intros m1; simpl; auto.
  Qed.

  Lemma NoDup_app' {A} (a b : list A) : NoDup a -> NoDup b ->
    (forall x, In x a -> In x b -> False) -> NoDup (a ++ b).
  Proof.
    induction a as [|x a IH]; simpl; auto. intros Na Nb D. inversion Na; subst.
    constructor.
    - rewrite in_app_iff. intros [|]; eauto.
    - apply IH; eauto.
  Qed.

  Lemma app_get m1 m2 k : hm_get (m1 ++ m2) k =
    match hm_get m1 k with Some v => Some v | None => hm_get m2 k end.
  Proof. induction m1 as [|[j v] m1 IH]; simpl; auto. destruct (j =? k); auto. Qed.

  Lemma stack_maps_ok d1 m1 m2 : hm_ok m1 -> hm_ok m2 ->
    (forall k, In k (hm_keys m1) -> k < d1) -> hm_ok (m1 ++ shift d1 m2).
  Proof.
    intros K1 K2 B1. unfold hm_ok, hm_keys. rewrite map_app. apply NoDup_app'; auto.
    - apply (shift_ok d1 m2 K2).
    - intros k E1 E2. apply B1 in E1. apply (shift_keys d1 m2 k) in E2.
      destruct E2 as (j & -> & _). lia.
  Qed.

  Lemma stack_sparse_sparse d1 m1 d2 m2 : hm_ok m1 -> hm_ok m2 ->
    (forall k, In k (hm_keys m1) -> k < d1) ->
    stack (Sparse (MkSparse d1 m1)) (Sparse (MkSparse d2 m2)) =
    Ret (Sparse (MkSparse (d1 + d2) (m1 ++ shift d1 m2))).
  Proof.
    intros K1 K2 B1. simpl. rewrite stack_fold_shift, hm_fold_insert_fresh; auto.
    apply stack_maps_ok; auto.
  Qed.

  Lemma stack_keys d1 m1 m2 k : In k (hm_keys (m1 ++ shift d1 m2)) <->
    In k (hm_keys m1) \/ exists j, k = j + d1 /\ In j (hm_keys m2).
  Proof.
    unfold hm_keys at 1. rewrite map_app, in_app_iff.
    rewrite <- (shift_keys d1 m2 k). tauto.
  Qed.

  (** Mixed stacks go through the expansions. *)
  Lemma stack_mixed (a b : Features F) : is_sparse a && is_sparse b = false ->
    stack a b = let* d1 := into_dense a in let* d2 := into_dense b in Ret (Dense (d1 ++ d2)).
  Proof. destruct a, b; simpl; try discriminate; reflexivity. Qed.

  Theorem stack_spec (a b : Features F) : wf a -> wf b ->
    exists c, stack a b = Ret c /\ wf c /\ size c = size a + size b /\
      is_sparse c = is_sparse a && is_sparse b /\
      forall la lb, expands a la -> expands b lb -> expands c (la ++ lb).
  Proof.
    intros Wa Wb. destruct (is_sparse a && is_sparse b) eqn:S.
    - destruct a as [|[d1 m1]], b as [|[d2 m2]]; try discriminate.
      destruct Wa as [K1 B1], Wb as [K2 B2]. rewrite bounded_sparse in B1, B2.
      exists (Sparse (MkSparse (d1 + d2) (m1 ++ shift d1 m2))).
      rewrite stack_sparse_sparse by assumption.
      assert (K : keyed (Sparse (MkSparse (d1 + d2) (m1 ++ shift d1 m2)))) by (apply stack_maps_ok; auto).
      splits; auto.
      + split; auto. rewrite bounded_sparse. intros k E. apply stack_keys in E.
        destruct E as [E|(j & -> & E)]; [apply B1 in E|apply B2 in E]; lia.
      + intros la lb H0 H1. split.
        { simpl. rewrite app_length. destruct H0, H1. simpl in *. lia. }
        intros i v V. rewrite <- get_stores, <- get_not_stored by assumption. simpl.
        rewrite app_get, shift_get.
        assert (L1 : length la = d1) by (destruct H0; auto).
        assert (L2 : length lb = d2) by (destruct H1; auto).
        destruct (Nat.lt_ge_cases i d1) as [L|L].
        * rewrite nth_error_app1 in V by lia.
          rewrite (expands_nth _ la i K1 H0 L) in V. inversion V; subst v. unfold entry. simpl.
          destruct (hm_get m1 i); auto.
          destruct (Nat.ltb_spec i d1); [auto|lia].
        * rewrite nth_error_app2 in V by lia. rewrite L1 in V.
          rewrite (expands_nth_all _ lb (i - d1) K2 H1) in V. simpl in V.
          destruct (Nat.ltb_spec (i - d1) d2); [|discriminate]. inversion V; subst v.
          unfold entry. simpl.
          assert (N : hm_get m1 i = None).
          { apply hm_get_None. intros E. apply B1 in E. lia. }
          rewrite N. destruct (Nat.ltb_spec i d1); [lia|].
          destruct (hm_get m2 (i - d1)); auto.
    - rewrite stack_mixed by assumption.
      destruct (into_dense_expands a Wa) as (la & Ea & Xa).
      destruct (into_dense_expands b Wb) as (lb & Eb & Xb).
      rewrite Ea, Eb. simpl. exists (Dense (la ++ lb)).
      splits; auto using wf_dense.
      + simpl. rewrite app_length. destruct Xa, Xb. lia.
      + intros la0 lb0 H0 H1. apply expands_dense.
        rewrite (expands_unique a la la0), (expands_unique b lb lb0); auto; [apply Wb|apply Wa].
  Qed.

  Lemma into_dense_same_expands (a b : Features F) la lb : wf a -> wf b ->
    expands a la -> expands b lb -> la = lb -> into_dense a = into_dense b.
  Proof.
    intros Wa Wb Xa Xb ->.
    rewrite (proj2 (into_dense_Ret a lb Wa) Xa), (proj2 (into_dense_Ret b lb Wb) Xb). reflexivity.
  Qed.

  Lemma same_by_get (a b : Features F) : wf a -> wf b -> is_sparse a = is_sparse b -> size a = size b ->
    (is_sparse a = true -> forall k, get a k = get b k) ->
    (is_sparse a = false -> exists l, expands a l /\ expands b l) -> same a b.
  Proof.
    intros [Ka Ba] [Kb Bb]. destruct a as [la|[da ma]], b as [lb|[db mb]]; simpl; try discriminate.
    - intros _ _ _ E. destruct (E eq_refl) as (l & X & Y).
      apply expands_dense in X, Y. congruence.
    - intros _ -> G _. split; auto. apply hm_ext_perm; auto.
  Qed.

  Theorem stack_assoc (a b c : Features F) : wf a -> wf b -> wf c ->
    exists x y, (let* ab := stack a b in stack ab c) = Ret x /\
      (let* bc := stack b c in stack a bc) = Ret y /\ same x y.
  Proof.
    intros Wa Wb Wc.
    destruct (stack_spec a b Wa Wb) as (ab & Eab & Wab & Sab & Pab & Xab).
    destruct (stack_spec b c Wb Wc) as (bc & Ebc & Wbc & Sbc & Pbc & Xbc).
    destruct (stack_spec ab c Wab Wc) as (x & Ex & Wx & Sx & Px & Xx).
    destruct (stack_spec a bc Wa Wbc) as (y & Ey & Wy & Sy & Py & Xy).
    exists x, y. rewrite Eab, Ebc. simpl. splits; auto.
    apply same_by_get; auto.
    - rewrite Px, Pab, Py, Pbc. symmetry. apply andb_assoc.
    - lia.
    - intros SX. rewrite Px, Pab in SX.
      destruct a as [|[d1 m1]]; [discriminate|].
      destruct b as [|[d2 m2]]; [discriminate|].
      destruct c as [|[d3 m3]]; [discriminate|].
      destruct Wa as [K1 B1], Wb as [K2 B2], Wc as [K3 B3].
      rewrite bounded_sparse in B1, B2, B3.
      rewrite stack_sparse_sparse in Eab by assumption. inversion Eab; subst ab.
      rewrite stack_sparse_sparse in Ebc by assumption. inversion Ebc; subst bc.
      rewrite stack_sparse_sparse in Ex;
        [|apply stack_maps_ok; auto|auto|
          intros k E; apply stack_keys in E; destruct E as [E|(j & -> & E)];
          [apply B1 in E|apply B2 in E]; lia].
      rewrite stack_sparse_sparse in Ey; [|auto|apply stack_maps_ok; auto|auto].
      inversion Ex; subst x. inversion Ey; subst y. intros k. simpl.
      rewrite !app_get, !shift_get, app_get, shift_get.
      destruct (hm_get m1 k); auto.
      destruct (Nat.ltb_spec k d1), (Nat.ltb_spec k (d1 + d2)), (Nat.ltb_spec (k - d1) d2);
        try lia; auto.
      replace (k - (d1 + d2)) with (k - d1 - d2) by lia. destruct (hm_get m2 (k - d1)); auto.
    - intros _.
      destruct (expands_exists a (proj1 Wa)) as (la & La).
      destruct (expands_exists b (proj1 Wb)) as (lb & Lb).
      destruct (expands_exists c (proj1 Wc)) as (lc & Lc).
      exists ((la ++ lb) ++ lc). split; auto.
      rewrite <- app_assoc. auto.
  Qed.

  Theorem stack_panic (a b : Features F) : keyed a -> keyed b ->
    (stack a b = Panic <-> is_sparse a && is_sparse b = false /\ (~ bounded a \/ ~ bounded b)).
  Proof.
    intros Ka Kb. destruct (is_sparse a && is_sparse b) eqn:S.
    - destruct a as [|[d1 m1]], b as [|[d2 m2]]; try discriminate.
      simpl. split; [discriminate|]. intros [E _]. discriminate.
    - rewrite stack_mixed by assumption.
      destruct (into_dense_spec a Ka) as (_ & Pa & _).
      destruct (into_dense_spec b Kb) as (_ & Pb & _).
      destruct (into_dense a) eqn:Ea; simpl.
      + destruct (into_dense b) eqn:Eb; simpl.
        * split; [discriminate|]. intros [_ [E|E]]; [apply Pa in E|apply Pb in E]; discriminate.
        * split; auto. intros _. split; auto. right. apply Pb. reflexivity.
      + split; auto. intros _. split; auto. left. apply Pa. reflexivity.
  Qed.

  (** ** C05, C06: map *)

  Lemma map_collect_id (f : F -> F) m : hm_ok m ->
    hm_collect (map (fun kv => (fst kv, f (snd kv))) m) = map (fun kv => (fst kv, f (snd kv))) m.
  Proof. intros K. apply hm_collect_id. apply (hm_map_ok (fun _ => f)), K. Qed.

  Lemma map_get (f : F -> F) m k :
    hm_get (map (fun kv => (fst kv, f (snd kv))) m) k = option_map f (hm_get m k).
  Proof. apply (hm_map_get (fun _ => f)). Qed.

  Lemma map_keys (f : F -> F) m : hm_keys (map (fun kv => (fst kv, f (snd kv))) m) = hm_keys m.
  Proof. unfold hm_keys. rewrite map_map. reflexivity. Qed.

  (** The sparse map keeps its zero. *)
  Definition keeps_sparse (f : F -> F) : bool := fltb (fabs (f fzero)) sparsity_tol.

  Lemma fmap_dense_branch d m f : keyed (Sparse (MkSparse d m)) -> bounded (Sparse (MkSparse d m)) ->
    keeps_sparse f = false ->
    exists l, fmap (Sparse (MkSparse d m)) f = Ret (Dense l) /\
      forall lx, expands (Sparse (MkSparse d m)) lx -> l = map f lx.
  Proof.
    intros K B T. unfold keeps_sparse in T. simpl. rewrite T.
    rewrite bounded_sparse in B.
    destruct (write_all_Ret f m (repeat (f fzero) d) K) as (l & E & Len & N).
    { intros k I. rewrite repeat_length. auto. }
    rewrite E. simpl. exists l. split; auto. intros lx X.
    rewrite repeat_length in *. apply nth_error_ext. intros i.
    rewrite nth_error_map', (expands_nth_all _ lx i K X). simpl.
    destruct (Nat.ltb_spec i d) as [L|L]; simpl.
    - rewrite N by assumption. unfold entry. simpl. destruct (hm_get m i); auto.
      rewrite nth_error_repeat'. destruct (Nat.ltb_spec i d); [reflexivity|lia].
    - apply nth_error_None. lia.
  Qed.

  Theorem fmap_spec phi f : wf phi ->
    exists psi, fmap phi f = Ret psi /\ wf psi /\ size psi = size phi /\
      is_sparse psi = is_sparse phi && keeps_sparse f /\
      (forall i v, is_sparse psi = true ->
         (stores psi i v <-> exists u, stores phi i u /\ v = f u)) /\
      forall l, expands phi l ->
        (expands psi (map f l) <->
         is_sparse psi = false \/ f fzero = fzero \/ forall i, i < size phi -> stored phi i).
  Proof.
    intros [K B]. destruct phi as [da|[d m]].
    - exists (Dense (map f da)). splits; auto using wf_dense.
      + simpl. apply map_length.
      + discriminate.
      + intros l X. apply expands_dense in X. subst. rewrite expands_dense. tauto.
    - destruct (keeps_sparse f) eqn:T.
      + exists (Sparse (MkSparse d (map (fun kv => (fst kv, f (snd kv))) m))).
        assert (K' : keyed (Sparse (MkSparse d (map (fun kv => (fst kv, f (snd kv))) m)))).
        { apply (hm_map_ok (fun _ => f)), K. }
        assert (E : fmap (Sparse (MkSparse d m)) f =
          Ret (Sparse (MkSparse d (map (fun kv => (fst kv, f (snd kv))) m)))).
        { unfold keeps_sparse in T. simpl. rewrite T, map_collect_id by assumption. reflexivity. }
        splits; auto.
        * split; auto. rewrite bounded_sparse in *. rewrite map_keys. assumption.
        * intros i v _. split; [intros V; simpl in V|].
          {  apply in_map_iff in V. destruct V as ([j u] & V & I).
          inversion V; subst. exists u. simpl. auto. }
          intros (u & I & ->). simpl in *. apply in_map_iff. exists (i, u). auto.
        * intros l H0. split.
          { intros X. right. rewrite expands_get in X by assumption. destruct X as [_ X].
          destruct (forallb (hm_mem m) (seq 0 d)) eqn:All.
          -- right. intros i L. rewrite forallb_forall in All.
             rewrite stored_key, <- hm_mem_In. apply All, in_seq. simpl in L. lia.
          -- left.
             assert (Ex : exists i, i < d /\ hm_mem m i = false).
             { clear -All. assert (G : forall q, forallb (hm_mem m) q = false ->
                 exists i, In i q /\ hm_mem m i = false).
               { induction q as [|a q IH]; simpl; [discriminate|].
                 destruct (hm_mem m a) eqn:E; simpl; intros X; eauto.
                 destruct (IH X) as (i & I & Hi). eauto. }
               destruct (G _ All) as (i & I & Hi). apply in_seq in I. exists i. split; auto; lia. }
             destruct Ex as (i & L & N). specialize (X i L).
             rewrite nth_error_map', (expands_nth _ l i K H0 L) in X. unfold entry in X. simpl in X.
             rewrite map_get in X. unfold hm_mem in N.
             destruct (hm_get m i); [discriminate|]. simpl in X. congruence. }
          intros C. apply expands_get; auto. split.
          -- rewrite map_length. destruct H0; auto.
          -- intros i L. simpl in L.
             rewrite nth_error_map', (expands_nth _ l i K H0 L). unfold entry. simpl.
             rewrite map_get. destruct (hm_get m i) eqn:G; auto. simpl.
             destruct C as [C|[C|C]]; [discriminate|congruence|].
             exfalso. specialize (C i L). rewrite stored_key in C. apply hm_get_None in G. contradiction.
      + destruct (fmap_dense_branch d m f K B T) as (l & E & N).
        exists (Dense l). destruct (expands_exists _ K) as (lx & Lx).
        specialize (N lx Lx) as N'. subst l.
        splits; auto using wf_dense.
        * simpl. rewrite map_length. destruct Lx; auto.
        * discriminate.
        * intros l X. rewrite expands_dense, (expands_unique _ lx l K) by assumption.
          split; auto.
  Qed.

  Theorem fmap_panic phi f : keyed phi ->
    (fmap phi f = Panic <-> is_sparse phi && keeps_sparse f = false /\ ~ bounded phi).
  Proof.
    intros K. destruct phi as [da|[d m]].
    - simpl. split; [discriminate|]. intros [_ B]. exfalso. apply B, bounded_dense.
    - destruct (keeps_sparse f) eqn:T.
      + unfold keeps_sparse in T. simpl. rewrite T. split; [discriminate|]. intros [X _]. discriminate.
      + destruct (bounded_dec (Sparse (MkSparse d m))) as [B|B].
        * destruct (fmap_dense_branch d m f K B T) as (l & E & _). rewrite E.
          split; [discriminate|]. intros [_ N]. contradiction.
        * split; auto. intros _. unfold keeps_sparse in T. simpl. rewrite T.
          rewrite bounded_sparse in B.
          destruct (write_all f m (repeat (f fzero) d)) as [l|] eqn:E; auto.
          exfalso. apply B. intros i I. destruct (Nat.lt_ge_cases i d) as [|L]; auto.
          rewrite (write_all_Panic f m _ i I) in E; [discriminate|].
          rewrite repeat_length. assumption.
  Qed.

  Lemma fmap_same phi psi f : keyed phi -> same phi psi -> same_outcome (fmap phi f) (fmap psi f).
  Proof.
    intros K E. destruct phi as [da|[d m]], psi as [db|[d' m']]; simpl in E; try tauto.
    - subst. simpl. auto.
    - destruct E as [-> P]. assert (K' := hm_ok_perm _ _ P K). simpl.
      destruct (fltb (fabs (f fzero)) sparsity_tol).
      + simpl. split; auto. rewrite !map_collect_id by assumption. apply Permutation_map, P.
      + unfold write_all. pose proof (upd_loop_perm (fun v (_ : F) => f v) m m' (repeat (f fzero) d') K P) as E.
        unfold upd_loop in E. unfold vset. rewrite E.
        destruct (ofold _ m' _); simpl; auto.
  Qed.

  Lemma fmap_keyed phi f psi : keyed phi -> fmap phi f = Ret psi -> keyed psi.
  Proof.
    destruct phi as [da|[d m]]; simpl.
    - intros _ E. inversion E. exact I.
    - intros K. destruct (fltb _ _).
      + intros E. inversion E. simpl. apply hm_collect_ok.
      + destruct (write_all _ _ _); simpl; intros E; inversion E. exact I.
  Qed.

  (** ** C07, C08: merge *)

  Definition nth0 l i : F := nth i l fzero.

  Lemma merge_ss_get f m1 m2 k : hm_ok m2 ->
    hm_get (merge_sparse_sparse f m1 m2) k =
    match hm_get m1 k, hm_get m2 k with
    | Some a, Some b => Some (f a b)
    | Some a, None => Some (f a fzero)
    | None, Some b => Some (f fzero b)
    | None, None => None
    end.
  Proof.
    intros K2. unfold merge_sparse_sparse.
    rewrite (hm_or_insert_fold_get (f fzero)) by assumption.
    unfold hm_iter_mut. rewrite (hm_map_get (fun i a => f a (get_or_zero m2 i))).
    unfold get_or_zero. destruct (hm_get m1 k); simpl.
    - destruct (hm_get m2 k); auto.
    - destruct (hm_get m2 k); auto.
  Qed.

  Lemma merge_ss_ok f m1 m2 : hm_ok m1 -> hm_ok (merge_sparse_sparse f m1 m2).
  Proof.
    intros K1. unfold merge_sparse_sparse.
    apply (hm_or_insert_fold_ok (fun kv => f fzero (snd kv))).
    apply (hm_map_ok (fun i a => f a (get_or_zero m2 i))), K1.
  Qed.

  Lemma merge_ds_loop f m l :
    merge_sparse_into_dense f m l = upd_loop (fun v x => f x v) m l.
  Proof. reflexivity. Qed.

  Lemma get_or_zero_entry d m i : get_or_zero m i = entry (Sparse (MkSparse d m)) i.
  Proof. reflexivity. Qed.

  Lemma nth0_entry phi l i : wf phi -> expands phi l -> nth0 l i = entry phi i.
  Proof.
    intros [K B] X. unfold nth0. destruct (Nat.lt_ge_cases i (size phi)) as [L|L].
    - apply nth_error_nth. apply expands_nth; auto.
    - rewrite nth_overflow by (destruct X; lia). unfold entry.
      destruct (get phi i) eqn:G; auto. apply bounded_get in G; auto. lia.
  Qed.

  (** merge_into, sparse left, dense right: always pointwise. *)
  Theorem merge_into_sparse_dense d m lb f la :
    wf (Sparse (MkSparse d m)) -> expands (Sparse (MkSparse d m)) la ->
    merge_into (Sparse (MkSparse d m)) (Dense lb) f =
    Ret (Dense (map (fun i => f (nth0 la i) (nth0 lb i)) (seq 0 (Nat.max d (length lb))))).
  Proof.
    intros W X. simpl. do 2 f_equal. apply map_ext. intros i.
    rewrite (nth0_entry _ la i W X), (get_or_zero_entry d). reflexivity.
  Qed.

  Theorem merge_into_dense_dense la lb f : length lb = length la ->
    merge_into (Dense la) (Dense lb) f = Ret (Dense (map2 f la lb)).
  Proof. intros E. simpl. rewrite zip_mut_with_eq by assumption. reflexivity. Qed.

  Theorem merge_into_dense_sparse la d m f lb :
    wf (Sparse (MkSparse d m)) -> expands (Sparse (MkSparse d m)) lb -> d = length la ->
    exists l, merge_into (Dense la) (Sparse (MkSparse d m)) f = Ret (Dense l) /\
      (l = map2 f la lb <->
       forall i x, nth_error la i = Some x -> ~ stored (Sparse (MkSparse d m)) i -> f x fzero = x).
  Proof.
    intros [K B] X ->. simpl. rewrite merge_ds_loop.
    rewrite bounded_sparse in B.
    destruct (upd_loop_Ret (fun v x => f x v) m la K B) as (l & E & Len & N).
    rewrite E. simpl. exists l. split; auto.
    assert (L2 : length lb = length la) by (destruct X; auto).
    split.
    - intros -> i x Hx NS. rewrite stored_key, <- hm_get_None in NS.
      specialize (N i). rewrite NS, Hx in N. rewrite nth_error_map2, Hx in N.
      rewrite (expands_nth_all _ lb i K X) in N. simpl in N.
      destruct (Nat.ltb_spec i (length la)); [|discriminate].
      unfold entry in N. simpl in N. rewrite NS in N. congruence.
    - intros C. apply nth_error_ext. intros i. rewrite N, nth_error_map2.
      destruct (nth_error la i) as [x|] eqn:Hx.
      + assert (i < length la) by (apply nth_error_Some; congruence).
        rewrite (expands_nth _ lb i K X) by (simpl; assumption). unfold entry. simpl.
        destruct (hm_get m i) eqn:G; auto.
        f_equal. symmetry. apply (C i); auto. rewrite stored_key, <- hm_get_None. assumption.
      + destruct (hm_get m i); auto.
  Qed.

  Theorem merge_into_dense_sparse_panic la d m f : hm_ok m ->
    (merge_into (Dense la) (Sparse (MkSparse d m)) f = Panic <->
     exists i, stored (Sparse (MkSparse d m)) i /\ length la <= i).
  Proof.
    intros K. simpl. rewrite merge_ds_loop. split.
    - intros E. destruct (existsb (fun i => length la <=? i) (hm_keys m)) eqn:X.
      + apply existsb_exists in X. destruct X as (i & I & L). exists i.
        rewrite stored_key. split; auto. apply Nat.leb_le, L.
      + exfalso. destruct (upd_loop_Ret (fun v x => f x v) m la K) as (l & E' & _).
        * intros k I. destruct (Nat.lt_ge_cases k (length la)) as [|L]; auto.
          assert (existsb (fun i => length la <=? i) (hm_keys m) = true).
          { apply existsb_exists. exists k. split; auto. apply Nat.leb_le, L. }
          congruence.
        * rewrite E' in E. discriminate.
    - intros (i & I & L). rewrite stored_key in I.
      rewrite (upd_loop_Panic _ m la i I L). reflexivity.
  Qed.

  Theorem merge_into_sparse_sparse d1 m1 d2 m2 f la lb :
    wf (Sparse (MkSparse d1 m1)) -> wf (Sparse (MkSparse d2 m2)) ->
    expands (Sparse (MkSparse d1 m1)) la -> expands (Sparse (MkSparse d2 m2)) lb ->
    exists c, merge_into (Sparse (MkSparse d1 m1)) (Sparse (MkSparse d2 m2)) f = Ret c /\
      wf c /\ is_sparse c = true /\ size c = Nat.max d1 d2 /\
      (expands c (map (fun i => f (nth0 la i) (nth0 lb i)) (seq 0 (Nat.max d1 d2))) <->
       f fzero fzero = fzero \/
       forall i, i < Nat.max d1 d2 ->
         stored (Sparse (MkSparse d1 m1)) i \/ stored (Sparse (MkSparse d2 m2)) i).
  Proof.
    intros W1 W2 X1 X2. destruct W1 as [K1 B1] eqn:HW1, W2 as [K2 B2] eqn:HW2.
    pose proof B1 as B1'. pose proof B2 as B2'. rewrite bounded_sparse in B1', B2'.
    exists (Sparse (MkSparse (Nat.max d1 d2) (merge_sparse_sparse f m1 m2))).
    assert (K : keyed (Sparse (MkSparse (Nat.max d1 d2) (merge_sparse_sparse f m1 m2)))).
    { apply merge_ss_ok, K1. }
    splits; auto.
    - split; auto. rewrite bounded_sparse. intros k I. apply hm_key_get in I. destruct I as [v I].
      rewrite merge_ss_get in I by assumption.
      destruct (hm_get m1 k) eqn:G1.
      + apply hm_get_key, B1' in G1. lia.
      + destruct (hm_get m2 k) eqn:G2; [|discriminate]. apply hm_get_key, B2' in G2. lia.
    - split. { intros X. rewrite expands_get in X by assumption. destruct X as [_ X].
      destruct (forallb (fun i => hm_mem m1 i || hm_mem m2 i) (seq 0 (Nat.max d1 d2))) eqn:All.
      + right. intros i L. rewrite forallb_forall in All.
        rewrite !stored_key, <- !hm_mem_In. apply orb_prop, All, in_seq. lia.
      + left. assert (G : forall q, forallb (fun i => hm_mem m1 i || hm_mem m2 i) q = false ->
           exists i, In i q /\ hm_mem m1 i || hm_mem m2 i = false).
        { induction q as [|a q IH]; simpl; [discriminate|].
          destruct (hm_mem m1 a || hm_mem m2 a) eqn:E; simpl; intros Y; eauto.
          destruct (IH Y) as (i & I & Hi). eauto. }
        destruct (G _ All) as (i & I & Hi). apply in_seq in I.
        specialize (X i ltac:(simpl; lia)).
        rewrite nth_error_map', nth_error_seq in X.
        destruct (Nat.ltb_spec i (Nat.max d1 d2)); [|lia]. simpl in X.
        rewrite (nth0_entry _ la i (conj K1 B1) X1), (nth0_entry _ lb i (conj K2 B2) X2) in X.
        apply orb_false_iff in Hi. destruct Hi as [M1 M2].
        apply hm_mem_false, hm_get_None in M1. apply hm_mem_false, hm_get_None in M2.
        unfold entry in X. simpl in X.
        rewrite merge_ss_get, M1, M2 in X by assumption. congruence. }
      intros C. apply expands_get; auto. split.
      + rewrite map_length, seq_length. reflexivity.
      + intros i L. simpl in L. rewrite nth_error_map', nth_error_seq.
        destruct (Nat.ltb_spec i (Nat.max d1 d2)); [|lia]. simpl.
        rewrite (nth0_entry _ la i (conj K1 B1) X1), (nth0_entry _ lb i (conj K2 B2) X2).
        unfold entry. simpl. rewrite merge_ss_get by assumption.
        destruct (hm_get m1 i) eqn:G1, (hm_get m2 i) eqn:G2; auto.
        destruct C as [C|C]; [congruence|].
        exfalso. specialize (C i L). rewrite !stored_key in C.
        apply hm_get_None in G1. apply hm_get_None in G2. tauto.
  Qed.

  Lemma merge_sd_merge d m lb f : d <= length lb ->
    merge (Sparse (MkSparse d m)) (Dense lb) f = merge_into (Sparse (MkSparse d m)) (Dense lb) f.
  Proof.
    intros L. simpl.
    rewrite (omapM_ext _ (fun i => Ret (f (get_or_zero m i) (nth i lb fzero)))).
    - rewrite omapM_Ret. reflexivity.
    - intros i I. apply in_seq in I. destruct (vget_lt lb i) as (x & E & N); [lia|].
      rewrite E. simpl. erewrite nth_error_nth; eauto.
  Qed.

  Theorem merge_agree (a b : Features F) f :
    match a, b with
    | Sparse sa, Dense lb =>
        (sa_dim sa <= length lb -> merge a b f = merge_into a b f) /\
        (length lb < sa_dim sa -> merge a b f = Panic /\
           exists l, merge_into a b f = Ret (Dense l) /\ length l = sa_dim sa)
    | _, _ => merge a b f = merge_into a b f
    end.
  Proof.
    destruct a as [la|[d m]], b as [lb|[d' m']]; try reflexivity. split.
    - apply merge_sd_merge.
    - simpl. intros L.
      assert (E : omapM (fun i => let* y := vget lb i in Ret (f (get_or_zero m i) y))
                  (seq 0 (Nat.max d (length lb))) = Panic).
      { apply omapM_Panic. exists (length lb). split; [apply in_seq; lia|].
        rewrite vget_ge by lia. reflexivity. }
      rewrite E. split; auto. eexists. split; auto.
      rewrite map_length, seq_length. lia.
  Qed.

  Lemma merge_into_same (a a' b b' : Features F) f : keyed a -> keyed b -> same a a' -> same b b' ->
    same_outcome (merge_into a b f) (merge_into a' b' f).
  Proof.
    intros Ka Kb Ea Eb.
    destruct a as [la|[d1 m1]], a' as [la'|[d1' m1']]; simpl in Ea; try tauto;
    destruct b as [lb|[d2 m2]], b' as [lb'|[d2' m2']]; simpl in Eb; try tauto.
    - subst. destruct (merge_into _ _ _); simpl; auto using same_refl.
    - subst. destruct Eb as [-> P]. simpl. rewrite !merge_ds_loop.
      rewrite (upd_loop_perm _ m2 m2') by assumption.
      destruct (upd_loop _ m2' la'); simpl; auto.
    - subst. destruct Ea as [-> P]. simpl. apply map_ext. intros i.
      unfold get_or_zero. rewrite (hm_get_perm m1 m1'); auto.
    - destruct Ea as [-> P1], Eb as [-> P2].
      simpl. split; auto.
      assert (K1' := hm_ok_perm _ _ P1 Ka). assert (K2' := hm_ok_perm _ _ P2 Kb).
      apply hm_ext_perm; auto using merge_ss_ok. intros k.
      rewrite !merge_ss_get by assumption.
      rewrite (hm_get_perm m1 m1'), (hm_get_perm m2 m2') by assumption. reflexivity.
  Qed.

  Lemma merge_same (a a' b b' : Features F) f : keyed a -> keyed b -> same a a' -> same b b' ->
    same_outcome (merge a b f) (merge a' b' f).
  Proof.
    intros Ka Kb Ea Eb. pose proof (merge_into_same a a' b b' f Ka Kb Ea Eb) as M.
    pose proof (merge_agree a b f) as A. pose proof (merge_agree a' b' f) as A'.
    destruct a as [la|[d1 m1]], a' as [la'|[d1' m1']]; simpl in Ea; try tauto;
    destruct b as [lb|[d2 m2]], b' as [lb'|[d2' m2']]; simpl in Eb; try tauto;
    try (rewrite A, A'; exact M).
    destruct A as [A1 A2], A' as [A1' A2']. destruct Ea as [-> P]. subst lb'.
    unfold sa_dim in A1, A1', A2, A2'.
    destruct (Nat.le_gt_cases d1' (length lb)) as [L|L].
    - rewrite A1, A1' by assumption. exact M.
    - destruct (A2 L) as [-> _], (A2' L) as [-> _]. exact I.
  Qed.

  Lemma merge_into_keyed (a b : Features F) f c : keyed a -> keyed b -> merge_into a b f = Ret c -> keyed c.
  Proof.
    intros Ka Kb E. destruct a as [la|[d1 m1]], b as [lb|[d2 m2]]; simpl in E.
    - destruct (zip_mut_with _ _ _); inversion E. exact I.
    - destruct (merge_sparse_into_dense _ _ _); inversion E. exact I.
    - inversion E. exact I.
    - inversion E. apply merge_ss_ok, Ka.
  Qed.

  Lemma merge_keyed (a b : Features F) f c : keyed a -> keyed b -> merge a b f = Ret c -> keyed c.
  Proof.
    intros Ka Kb E. pose proof (merge_agree a b f) as A.
    destruct a as [la|[d1 m1]], b as [lb|[d2 m2]];
      try (rewrite A in E; apply (merge_into_keyed _ _ _ _ Ka Kb E)).
    destruct A as [A1 A2]. unfold sa_dim in A1, A2.
    destruct (Nat.le_gt_cases d1 (length lb)) as [L|L].
    - rewrite A1 in E by assumption. apply (merge_into_keyed _ _ _ _ Ka Kb E).
    - destruct (A2 L) as [E' _]. congruence.
  Qed.

  Lemma stack_same (a a' b b' : Features F) : keyed a -> keyed b -> same a a' -> same b b' ->
    same_outcome (stack a b) (stack a' b').
  Proof.
    intros Ka Kb Ea Eb.
    destruct (is_sparse a && is_sparse b) eqn:S.
    - destruct a as [la|[d1 m1]], a' as [la'|[d1' m1']]; simpl in Ea; try tauto; try discriminate.
      destruct b as [lb|[d2 m2]], b' as [lb'|[d2' m2']]; simpl in Eb; try tauto; try discriminate.
      destruct Ea as [-> P1], Eb as [-> P2]. simpl. split; auto.
      assert (K1' := hm_ok_perm _ _ P1 Ka). assert (K2' := hm_ok_perm _ _ P2 Kb).
      rewrite !stack_fold_shift. apply hm_ext_perm; try (apply hm_fold_insert_ok; assumption).
      intros k. rewrite !hm_fold_insert_get.
      rewrite (hm_get_perm m1 m1') by assumption.
      assert (R : hm_get (rev (shift d1' m2)) k = hm_get (rev (shift d1' m2')) k).
      { apply hm_get_perm.
        - eapply Permutation_trans; [apply Permutation_sym, Permutation_rev|].
          eapply Permutation_trans; [|apply Permutation_rev].
          apply Permutation_map, P2.
        - eapply hm_ok_perm; [apply Permutation_rev|]. apply shift_ok, Kb. }
      rewrite R. reflexivity.
    - assert (S' : is_sparse a' && is_sparse b' = false).
      { destruct a, a'; simpl in Ea; try tauto; destruct b, b'; simpl in Eb; try tauto. }
      rewrite !stack_mixed by assumption.
      rewrite (same_into_dense a a'), (same_into_dense b b') by assumption.
      destruct (into_dense a'); simpl; auto. destruct (into_dense b'); simpl; auto.
  Qed.

  Lemma stack_keyed (a b c : Features F) : keyed a -> keyed b -> stack a b = Ret c -> keyed c.
  Proof.
    intros Ka Kb E. destruct (is_sparse a && is_sparse b) eqn:S.
    - destruct a as [|[d1 m1]], b as [|[d2 m2]]; try discriminate. simpl in E. inversion E.
      simpl. rewrite stack_fold_shift. apply hm_fold_insert_ok, Ka.
    - rewrite stack_mixed in E by assumption.
      destruct (into_dense a); simpl in E; [|discriminate].
      destruct (into_dense b); simpl in E; inversion E. exact I.
  Qed.

  (** ** C09: remove *)

  Lemma remove_size phi i : size (remove phi i) = size phi.
  Proof.
    destruct phi as [da|[d m]]; auto. unfold remove.
    destruct (vset da i fzero) as [l|] eqn:E; auto.
    apply vupd_Ret in E. simpl. tauto.
  Qed.

  Lemma remove_variant phi i : is_sparse (remove phi i) = is_sparse phi.
  Proof. destruct phi as [da|[d m]]; auto. unfold remove. destruct (vset da i fzero); auto. Qed.

  Lemma remove_keyed phi i : keyed phi -> keyed (remove phi i).
  Proof.
    destruct phi as [da|[d m]]; intros K.
    - unfold remove. destruct (vset da i fzero); exact I.
    - simpl. apply hm_remove_ok, K.
  Qed.

  Lemma remove_bounded phi i : bounded phi -> bounded (remove phi i).
  Proof.
    destruct phi as [da|[d m]].
    - unfold remove. destruct (vset da i fzero); intros _; apply bounded_dense.
    - rewrite bounded_sparse. simpl. rewrite bounded_sparse. intros B k E.
      apply hm_remove_keys in E. apply B. tauto.
  Qed.

  Lemma remove_wf phi i : wf phi -> wf (remove phi i).
  Proof. intros [K B]. split; auto using remove_keyed, remove_bounded. Qed.

  Lemma remove_entry phi i k : entry (remove phi i) k = if k =? i then fzero else entry phi k.
  Proof.
    destruct phi as [da|[d m]]; unfold entry, remove; simpl.
    - destruct (vset da i fzero) as [l|] eqn:E.
      + apply vupd_Ret in E. destruct E as (_ & _ & N). simpl. rewrite N.
        destruct (k =? i); auto. destruct (nth_error da k); auto.
      + simpl. destruct (Nat.eqb_spec k i) as [->|]; auto.
        destruct (nth_error da i) eqn:G; auto.
        assert (L : i < length da) by (apply nth_error_Some; congruence).
        destruct (vset_lt fzero da i L) as (l & E' & _). congruence.
    - rewrite hm_remove_get, Nat.eqb_sym. destruct (k =? i); auto.
  Qed.

  Theorem remove_spec phi i : wf phi ->
    wf (remove phi i) /\ size (remove phi i) = size phi /\
    is_sparse (remove phi i) = is_sparse phi /\
    forall l l', expands phi l -> expands (remove phi i) l' ->
      forall k, nth_error l' k =
        if k =? i then option_map (fun _ => fzero) (nth_error l k) else nth_error l k.
  Proof.
    intros W. splits; try apply remove_wf; auto using remove_size, remove_variant.
    intros l l' X X' k.
    rewrite (expands_nth_all _ l k (proj1 W) X).
    rewrite (expands_nth_all _ l' k (remove_keyed _ _ (proj1 W)) X').
    rewrite remove_size, remove_entry.
    destruct (k =? i), (k <? size phi); auto.
  Qed.

  Lemma dense_by_entry l l' : length l = length l' ->
    (forall k, entry (Dense l) k = entry (Dense l') k) -> l = l'.
  Proof.
    intros Len E. apply nth_error_ext. intros k. specialize (E k). unfold entry in E. simpl in E.
    destruct (nth_error l k) eqn:G, (nth_error l' k) eqn:G'; auto; try congruence.
    - exfalso. apply nth_error_None in G'. assert (k < length l) by (apply nth_error_Some; congruence). lia.
    - exfalso. apply nth_error_None in G. assert (k < length l') by (apply nth_error_Some; congruence). lia.
  Qed.

  Lemma same_by_remove phi a b : 
    (exists is, a = fold_left remove is phi) -> (exists is, b = fold_left remove is phi) ->
    keyed a -> keyed b -> size a = size b ->
    (is_sparse phi = true -> forall k, get a k = get b k) ->
    (forall k, entry a k = entry b k) -> same a b.
  Proof.
    intros [is ->] [js ->] Ka Kb Sz G E.
    assert (V : forall is phi, is_sparse (fold_left remove is phi) = is_sparse phi).
    { clear. induction is; intros phi; simpl; auto. rewrite IHis. apply remove_variant. }
    assert (V1 := V is phi). assert (V2 := V js phi).
    destruct (fold_left remove is phi) as [la|[d1 m1]], (fold_left remove js phi) as [lb|[d2 m2]];
      simpl in *; try congruence.
    - apply dense_by_entry; auto.
    - split; auto. apply hm_ext_perm; auto.
  Qed.

  Lemma remove_get_sparse d m i k :
    get (remove (Sparse (MkSparse d m)) i) k = if i =? k then None else get (Sparse (MkSparse d m)) k.
  Proof. simpl. apply hm_remove_get. Qed.

  Theorem remove_comm phi i j : keyed phi -> same (remove (remove phi i) j) (remove (remove phi j) i).
  Proof.
    intros K. apply (same_by_remove phi).
    - exists [i; j]. reflexivity.
    - exists [j; i]. reflexivity.
    - auto using remove_keyed.
    - auto using remove_keyed.
    - rewrite !remove_size. reflexivity.
    - destruct phi as [|[d m]]; [discriminate|]. intros _ k. simpl.
      rewrite !hm_remove_get. destruct (i =? k), (j =? k); auto.
    - intros k. rewrite !remove_entry. destruct (k =? i), (k =? j); auto.
  Qed.

  Theorem remove_idem phi i : remove (remove phi i) i = remove phi i.
  Proof.
    destruct phi as [da|[d m]].
    - pose proof (remove_entry (Dense da) i) as E1.
      pose proof (remove_size (Dense da) i) as S1.
      unfold remove at 1 2 3. unfold remove in E1, S1.
      destruct (vset da i fzero) as [l|] eqn:E.
      + destruct (vset l i fzero) as [l2|] eqn:E2; auto. f_equal.
        apply vupd_Ret in E, E2. destruct E as (_ & Len & N), E2 as (_ & Len2 & N2).
        apply nth_error_ext. intros k. rewrite N2. destruct (Nat.eqb_spec k i) as [->|]; auto.
        rewrite N, Nat.eqb_refl. destruct (nth_error da i); auto.
      + rewrite E. reflexivity.
    - simpl. do 2 f_equal. unfold hm_remove.
      induction m as [|[k v] m IH]; simpl; auto.
      destruct (negb (k =? i)) eqn:E; simpl; auto. rewrite E, IH. reflexivity.
  Qed.

  Theorem remove_out_of_range phi i : bounded phi -> size phi <= i -> remove phi i = phi.
  Proof.
    destruct phi as [da|[d m]].
    - intros _ L. unfold remove. rewrite vset_ge by exact L. reflexivity.
    - rewrite bounded_sparse. simpl. intros B L. do 2 f_equal. unfold hm_remove.
      induction m as [|[k v] m IH]; simpl; auto.
      destruct (Nat.eqb_spec k i) as [->|N]; simpl.
      + exfalso. specialize (B i). simpl in B. lia.
      + rewrite IH; auto. intros j J. apply B. simpl. auto.
  Qed.

  Theorem removes_spec is phi : wf phi ->
    wf (fold_left remove is phi) /\ size (fold_left remove is phi) = size phi /\
    is_sparse (fold_left remove is phi) = is_sparse phi /\
    forall l l', expands phi l -> expands (fold_left remove is phi) l' ->
      forall k, nth_error l' k =
        if existsb (Nat.eqb k) is then option_map (fun _ => fzero) (nth_error l k)
        else nth_error l k.
  Proof.
    revert phi. induction is as [|i is IH]; intros phi W; simpl.
    - splits; auto. intros l l' X X' k.
      rewrite (expands_unique phi l l' (proj1 W) X X'). reflexivity.
    - destruct (IH (remove phi i) (remove_wf phi i W)) as (W' & S' & V' & N').
      splits; auto.
      + rewrite S'. apply remove_size.
      + rewrite V'. apply remove_variant.
      + intros l l' X X' k. destruct (expands_exists (remove phi i)) as [l1 X1].
        { apply remove_keyed, W. }
        rewrite (N' l1 l' X1 X').
        destruct (remove_spec phi i W) as (_ & _ & _ & N).
        rewrite (N l l1 X X1 k).
        destruct (k =? i); simpl; auto. destruct (existsb (Nat.eqb k) is); auto.
        destruct (nth_error l k); auto.
  Qed.

  Lemma remove_same phi psi i : keyed phi -> same phi psi -> same (remove phi i) (remove psi i).
  Proof.
    destruct phi as [da|[d m]], psi as [db|[d' m']]; simpl; try tauto.
    - intros _ ->. apply same_refl.
    - intros K [-> P]. split; auto. assert (K' := hm_ok_perm _ _ P K).
      apply hm_ext_perm; auto using hm_remove_ok. intros k. rewrite !hm_remove_get.
      rewrite (hm_get_perm m m') by assumption. reflexivity.
  Qed.

  (** ** C10: index and get *)

  Theorem index_spec phi i l : wf phi -> expands phi l -> i < size phi ->
    (is_sparse phi = false -> exists v, index phi i = Ret v /\ nth_error l i = Some v) /\
    (is_sparse phi = true ->
       exists v x, index phi i = Ret v /\ nth_error l i = Some x /\
         (v = x <-> forall u, stores phi i u -> u = fone)).
  Proof.
    intros W X L. destruct phi as [da|[d m]]; simpl; split; try discriminate; intros _.
    - apply expands_dense in X. subst. destruct (vget_lt da i L) as (v & E & N). eauto.
    - rewrite (expands_nth _ l i (proj1 W) X L). unfold entry, hm_mem. simpl.
      destruct (hm_get m i) as [u|] eqn:G.
      + exists fone, u. splits; auto. split.
        * intros <- w Hw. apply hm_In_get in Hw; [|apply W]. congruence.
        * intros C. symmetry. apply C. apply hm_get_In, G.
      + exists fzero, fzero. splits; auto. split; auto. intros _ u Hu.
        apply hm_In_get in Hu; [|apply W]. congruence.
  Qed.

  Theorem get_spec phi i : keyed phi -> forall v, get phi i = Some v <-> stores phi i v.
  Proof. intros K v. apply get_stores, K. Qed.

  (** ** C12: constructors *)

  Lemma hm_get_rev_last (l : hmap F) i v :
    hm_get (rev l) i = Some v <-> exists p q, l = p ++ (i, v) :: q /\ ~ In i (map fst q).
  Proof.
    split.
    - revert v. induction l as [|[k u] l IH]; simpl; intros v; [discriminate|].
      rewrite app_get. destruct (hm_get (rev l) i) eqn:G.
      + intros E. inversion E; subst. destruct (IH v eq_refl) as (l1 & l2 & -> & N).
        exists ((k, u) :: l1), l2. auto.
      + simpl. destruct (Nat.eqb_spec k i) as [->|]; [|discriminate].
        intros E. inversion E; subst. exists [], l. split; auto.
        apply hm_get_None in G. unfold hm_keys in G. rewrite map_rev in G.
        intros I. apply G, in_rev. rewrite rev_involutive. exact I.
    - intros (l1 & l2 & -> & N). rewrite rev_app_distr. simpl. rewrite <- app_assoc.
      rewrite app_get. simpl.
      assert (G : hm_get (rev l2) i = None).
      { apply hm_get_None. unfold hm_keys. rewrite map_rev. intros I. apply in_rev in I. contradiction. }
      rewrite G, Nat.eqb_refl. reflexivity.
  Qed.

  Theorem sparse_spec d (ps : list (nat * F)) :
    keyed (sparse d ps) /\ size (sparse d ps) = d /\ is_sparse (sparse d ps) = true /\
    forall i v, stores (sparse d ps) i v <->
      exists p q, ps = p ++ (i, v) :: q /\ ~ In i (map fst q).
  Proof.
    splits; auto.
    - apply hm_collect_ok.
    - intros i v. split.
      { intros E. apply hm_get_rev_last. rewrite <- hm_collect_get. apply hm_In_get; auto.
      apply hm_collect_ok. }
      intros E. apply hm_get_rev_last in E. rewrite <- hm_collect_get in E.
      apply hm_get_In, E.
  Qed.

  Lemma unit_get (is : list nat) i :
    hm_get (hm_collect (map (fun i => (i, fone)) is)) i =
    if existsb (Nat.eqb i) is then Some fone else None.
  Proof.
    rewrite hm_collect_get, <- map_rev.
    assert (E : forall l : list nat, hm_get (map (fun i => (i, fone)) l) i = if existsb (Nat.eqb i) l then Some fone else None).
    { induction l as [|k l IH]; simpl; auto. rewrite Nat.eqb_sym. destruct (i =? k); auto. }
    rewrite E. destruct (existsb (Nat.eqb i) (rev is)) eqn:A, (existsb (Nat.eqb i) is) eqn:B; auto; exfalso.
    - apply existsb_exists in A. destruct A as (x & A & X). apply in_rev in A.
      assert (existsb (Nat.eqb i) is = true) by (apply existsb_exists; eauto). congruence.
    - apply existsb_exists in B. destruct B as (x & B & X). apply in_rev in B.
      assert (existsb (Nat.eqb i) (rev is) = true) by (apply existsb_exists; eauto). congruence.
  Qed.

  Lemma unit_stores d (is : list nat) i v :
    stores (Sparse (MkSparse d (hm_collect (map (fun i => (i, fone)) is)))) i v <-> In i is /\ v = fone.
  Proof.
    rewrite <- get_stores by (apply hm_collect_ok). simpl. rewrite unit_get.
    destruct (existsb (Nat.eqb i) is) eqn:E.
    - apply existsb_exists in E. destruct E as (x & I & X). apply Nat.eqb_eq in X. subst.
      split; [intros Y; inversion Y; auto|]. intros [_ ->]. reflexivity.
    - split; [discriminate|]. intros [I _]. exfalso.
      assert (existsb (Nat.eqb i) is = true) by (apply existsb_exists; exists i; split; auto; apply Nat.eqb_refl).
      congruence.
  Qed.

  Theorem unitary_spec d (is : list nat) :
    keyed (unitary d is) /\ size (unitary d is) = d /\ is_sparse (unitary d is) = true /\
    forall i v, stores (unitary d is) i v <-> In i is /\ v = fone.
  Proof.
    splits; auto.
    - apply hm_collect_ok.
    - intros i v. apply (unit_stores d is i v).
  Qed.

  Lemma max_plus_one_spec (l : list nat) :
    (l = [] <-> max_plus_one l = Panic) /\
    forall n, max_plus_one l = Ret n <-> (forall i, In i l -> i < n) /\ exists i, In i l /\ n = S i.
  Proof.
    destruct l as [|a l]; simpl.
    - split; [tauto|]. intros n. split; [discriminate|]. intros (_ & i & [] & _).
    - split; [split; discriminate|].
      assert (G : forall (l : list nat) a, (forall i, In i (a :: l) -> i <= fold_left Nat.max l a) /\
                              In (fold_left Nat.max l a) (a :: l)).
      { clear. induction l as [|b l IH]; intros a; simpl.
        - split; auto. intros i [->|[]]. lia.
        - destruct (IH (Nat.max a b)) as [U I]. split.
          + intros i [->|[->|HI]].
            * etransitivity; [|apply U; left; reflexivity]. lia.
            * etransitivity; [|apply U; left; reflexivity]. lia.
            * apply U. right. exact HI.
          + destruct I as [I|I]; [|tauto].
            rewrite <- I. destruct (Nat.max_spec a b) as [[_ ->]|[_ ->]]; auto. }
      destruct (G l a) as [U I]. intros n. split.
      + intros E. inversion E; subst. split.
        * intros i HI. apply U in HI. lia.
        * exists (fold_left Nat.max l a). auto.
      + intros (B & i & HI & ->). f_equal. f_equal.
        apply U in HI. apply B in I. lia.
  Qed.

  Theorem from_indices_spec (is : list nat) :
    (from_indices is = Panic <-> is = []) /\
    forall phi, from_indices is = Ret phi ->
      wf phi /\ is_sparse phi = true /\
      (forall i v, stores phi i v <-> In i is /\ v = fone) /\
      (forall i, In i is -> i < size phi) /\ exists i, In i is /\ size phi = S i.
  Proof.
    unfold from_indices. destruct (max_plus_one_spec is) as [P R].
    destruct (max_plus_one is) as [n|] eqn:E; simpl.
    - split.
      + split; [discriminate|]. intros ->. discriminate.
      + intros phi X. inversion X; subst. destruct (proj1 (R n) eq_refl) as [B M].
        splits; auto.
        * split; [apply hm_collect_ok|].
          intros i [v V]. apply unit_stores in V. simpl. apply B, V.
        * intros i v. apply (unit_stores n is i v).
    - split; [tauto|]. discriminate.
  Qed.

  Theorem from_sparse_activations_spec d m : hm_ok m ->
    (from_sparse_activations (MkSparse d m) = Panic <-> m = []) /\
    forall phi, from_sparse_activations (MkSparse d m) = Ret phi ->
      wf phi /\ is_sparse phi = true /\
      (forall i v, stores phi i v <-> In (i, v) m) /\
      exists i, stored phi i /\ size phi = S i.
  Proof.
    intros K. unfold from_sparse_activations. simpl.
    destruct (max_plus_one_spec (hm_keys m)) as [P R].
    destruct (max_plus_one (hm_keys m)) as [n|] eqn:E; simpl.
    - split.
      + split; [discriminate|]. intros ->. discriminate.
      + intros phi X. inversion X; subst. destruct (proj1 (R n) eq_refl) as [B M].
        splits; auto.
        * split; auto. rewrite bounded_sparse. exact B.
        * intros i v. reflexivity.
        * destruct M as (i & I & ->). exists i. rewrite stored_key. auto.
    - split; [|discriminate]. split; auto. intros _.
      destruct m; auto. simpl in P. destruct P as [_ P]. specialize (P eq_refl). discriminate.
  Qed.

  (** ** C15: addto, scaled_addto *)

  Definition bump (g : F -> F -> F) phi w w' : Prop :=
    length w' = length w /\
    forall i x, nth_error w i = Some x ->
      (forall v, stores phi i v -> nth_error w' i = Some (g x v)) /\
      (~ stored phi i -> nth_error w' i = Some x).

  Lemma sparse_bump g d m w : hm_ok m ->
    (forall k, In k (hm_keys m) -> k < length w) ->
    exists w', upd_loop (fun v x => g x v) m w = Ret w' /\ bump g (Sparse (MkSparse d m)) w w'.
  Proof.
    intros K B. destruct (upd_loop_Ret (fun v x => g x v) m w K B) as (w' & E & Len & N).
    exists w'. split; auto. split; auto. intros i x Hx. split.
    - intros v V. rewrite N, Hx. simpl in V. rewrite (hm_In_get m i v K V). reflexivity.
    - rewrite stored_key, <- hm_get_None. intros G. rewrite N, G. assumption.
  Qed.

  Lemma dense_bump g da w : length da = length w -> bump g (Dense da) w (map2 g w da).
  Proof.
    intros L. split; [apply map2_length_eq; auto|]. intros i x Hx. split.
    - intros v V. rewrite nth_error_map2, Hx. simpl in V. rewrite V. reflexivity.
    - intros NS. exfalso. apply NS. destruct (nth_error_lt da i) as [v V].
      + rewrite L. apply nth_error_Some. congruence.
      + exists v. exact V.
  Qed.

  (** When [phi] fits the weights: dense of the same length, or sparse with all
      indices in range. *)
  Definition fits phi w : Prop :=
    match phi with
    | Dense da => length da = length w
    | Sparse sa => forall i, stored (Sparse sa) i -> i < length w
    end.

  Lemma wf_fits phi w : wf phi -> size phi = length w -> fits phi w.
  Proof.
    intros [K B] E. destruct phi as [da|[d m]]; simpl in *; auto.
    intros i I. apply B in I. simpl in I. lia.
  Qed.

  Theorem scaled_addto_spec phi a w : keyed phi -> fits phi w ->
    exists w', scaled_addto phi a w = Ret w' /\ bump (fun x v => fadd x (fmul a v)) phi w w'.
  Proof.
    intros K B. destruct phi as [da|[d m]]; simpl in *.
    - unfold scaled_add. rewrite zip_mut_with_eq by assumption. eexists. split; auto.
      apply dense_bump, B.
    - apply (sparse_bump (fun x v => fadd x (fmul a v))); auto.
      intros k I. apply B. rewrite stored_key. exact I.
  Qed.

  Theorem addto_spec phi w : keyed phi -> fits phi w ->
    exists w', addto phi w = Ret w' /\ bump fadd phi w w'.
  Proof.
    intros K B. destruct phi as [da|[d m]]; simpl in *.
    - unfold add_assign. rewrite zip_mut_with_eq by assumption. eexists. split; auto.
      apply dense_bump, B.
    - apply (sparse_bump fadd); auto.
      intros k I. apply B. rewrite stored_key. exact I.
  Qed.

  (** The remaining cases: broadcasting and panics. *)
  Theorem scaled_addto_misfit phi a w : keyed phi -> ~ fits phi w ->
    (exists x, phi = Dense [x] /\
       scaled_addto phi a w = Ret (map (fun y => fadd y (fmul a x)) w)) \/
    ((forall x, phi <> Dense [x]) /\ scaled_addto phi a w = Panic).
  Proof.
    intros K B. destruct phi as [da|[d m]]; simpl in *.
    - unfold scaled_add. destruct (Nat.eq_dec (length da) 1) as [E|E].
      + left. destruct da as [|x [|]]; try discriminate. exists x. split; auto.
        apply (zip_mut_with_one (fun y b => fadd y (fmul a b))).
      + right. split.
        * intros x X. inversion X; subst. apply E. reflexivity.
        * apply zip_mut_with_bad; auto.
    - right. split; [discriminate|].
      destruct (ofold _ m w) eqn:E; auto. exfalso. apply B. intros i I. rewrite stored_key in I.
      destruct (Nat.lt_ge_cases i (length w)) as [|L]; auto.
      pose proof (upd_loop_Panic (fun v x => fadd x (fmul a v)) m w i I L) as P.
      unfold upd_loop in P. rewrite P in E. discriminate.
  Qed.

  Theorem addto_misfit phi w : keyed phi -> ~ fits phi w ->
    (exists x, phi = Dense [x] /\ addto phi w = Ret (map (fun y => fadd y x) w)) \/
    ((forall x, phi <> Dense [x]) /\ addto phi w = Panic).
  Proof.
    intros K B. destruct phi as [da|[d m]]; simpl in *.
    - unfold add_assign. destruct (Nat.eq_dec (length da) 1) as [E|E].
      + left. destruct da as [|x [|]]; try discriminate. exists x. split; auto.
        apply zip_mut_with_one.
      + right. split.
        * intros x X. inversion X; subst. apply E. reflexivity.
        * apply zip_mut_with_bad; auto.
    - right. split; [discriminate|].
      destruct (ofold _ m w) eqn:E; auto. exfalso. apply B. intros i I. rewrite stored_key in I.
      destruct (Nat.lt_ge_cases i (length w)) as [|L]; auto.
      pose proof (upd_loop_Panic (fun v x => fadd x v) m w i I L) as P.
      unfold upd_loop in P. rewrite P in E. discriminate.
  Qed.

  Lemma scaled_addto_length phi a w w' : scaled_addto phi a w = Ret w' -> length w' = length w.
  Proof.
    destruct phi as [da|[d m]]; simpl.
    - apply zip_mut_with_length.
    - revert w. induction m as [|[i v] m IH]; simpl; intros w E; [inversion E; auto|].
      destruct (vupd w i _) as [w1|] eqn:U; simpl in E; [|discriminate].
      apply vupd_Ret in U. apply IH in E. destruct U as (_ & L & _). congruence.
  Qed.

  Lemma addto_length phi w w' : addto phi w = Ret w' -> length w' = length w.
  Proof.
    destruct phi as [da|[d m]]; simpl.
    - apply zip_mut_with_length.
    - revert w. induction m as [|[i v] m IH]; simpl; intros w E; [inversion E; auto|].
      destruct (vupd w i _) as [w1|] eqn:U; simpl in E; [|discriminate].
      apply vupd_Ret in U. apply IH in E. destruct U as (_ & L & _). congruence.
  Qed.
End FeatureFacts.
