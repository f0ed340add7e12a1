(** Facts for C62. *)
From Coq Require Import List Arith ZArith Lia Bool.
From Verif Require Import Base Scalar HMap HMapFacts NdArray VecFacts Features Spec FeatureFacts Coeffs Kernels
  TileCoding Basis BasisFacts Machine.
Import ListNotations.

Section MachineFacts.
  Context {F : Type} `{Scalar F}.
  Implicit Types (phi : Features F).

  Lemma usize_fits M b n : n < M -> usize_arith M b n = Ret n.
  Proof. intros L. unfold usize_arith. destruct (Nat.ltb_spec n M); [reflexivity|lia]. Qed.

  Lemma usize_checked M n : M <= n -> usize_arith M Checked n = Panic.
  Proof. intros L. unfold usize_arith. destruct (Nat.ltb_spec n M); [lia|reflexivity]. Qed.

  Lemma usize_wrapped M n : M <= n -> n < M + M -> usize_arith M Wrapping n = Ret (n - M).
  Proof.
    intros L U. unfold usize_arith. destruct (Nat.ltb_spec n M); [lia|]. f_equal.
    replace n with ((n - M) + 1 * M) at 1 by lia. rewrite Nat.mod_add by lia. apply Nat.mod_small. lia.
  Qed.

  Lemma ofold_pure {A B} (f : B -> A -> outcome B) (g : B -> A -> B) : forall l b,
    (forall b a, In a l -> f b a = Ret (g b a)) -> ofold f l b = Ret (fold_left g l b).
  Proof.
    induction l as [|a l IH]; intros b E; simpl; auto. rewrite E by (simpl; auto). simpl. apply IH.
    intros b' a' I. apply E. simpl. auto.
  Qed.

  (** ** stack *)

  Theorem stack_fits M b phi1 phi2 : wf phi1 -> wf phi2 -> size phi1 + size phi2 < M ->
    stack_m M b phi1 phi2 = stack phi1 phi2.
  Proof.
    intros W1 [K2 B2] L. destruct phi1 as [|[d1 m1]], phi2 as [|[d2 m2]]; try reflexivity.
    simpl in *. rewrite bounded_sparse in B2.
    rewrite (ofold_pure _ (fun m kv => hm_insert m (fst kv + d1) (snd kv))).
    - simpl. rewrite usize_fits by lia. reflexivity.
    - intros m [k v] I. simpl. rewrite usize_fits; [reflexivity|].
      assert (k < d2) by (apply B2, in_map_iff; exists (k, v); auto). lia.
  Qed.

  Theorem stack_checked M d1 d2 (m1 m2 : hmap F) : wf (Sparse (MkSparse d2 m2)) ->
    (stack_m M Checked (Sparse (MkSparse d1 m1)) (Sparse (MkSparse d2 m2)) = Panic <-> M <= d1 + d2).
  Proof.
    intros [K2 B2]. rewrite bounded_sparse in B2. simpl in K2. split.
    - intros E. destruct (le_lt_dec M (d1 + d2)) as [|L]; auto. exfalso. simpl in E.
      rewrite (ofold_pure _ (fun m kv => hm_insert m (fst kv + d1) (snd kv))) in E.
      + simpl in E. rewrite usize_fits in E by lia. discriminate.
      + intros m [k v] I. simpl. rewrite usize_fits; [reflexivity|].
        assert (k < d2) by (apply B2, in_map_iff; exists (k, v); auto). lia.
    - intros L. simpl. rewrite (usize_checked M (d1 + d2) L).
      destruct (ofold _ m2 m1); reflexivity.
  Qed.

  (** What a wrapped stack stores: activations of the second vector past the
      wrap-around land on, and overwrite, those of the first. *)
  Theorem stack_wraps M d1 d2 (m1 m2 : hmap F) :
    wf (Sparse (MkSparse d1 m1)) -> wf (Sparse (MkSparse d2 m2)) -> d1 < M -> d2 < M -> M <= d1 + d2 ->
    exists m, stack_m M Wrapping (Sparse (MkSparse d1 m1)) (Sparse (MkSparse d2 m2)) =
        Ret (Sparse (MkSparse (d1 + d2 - M) m)) /\
      hm_ok m /\
      forall i, hm_get m i =
        if i <? d1 then match hm_get m2 (i + M - d1) with Some v => Some v | None => hm_get m1 i end
        else if i <? M then hm_get m2 (i - d1) else None.
  Proof.
    intros [K1 B1] [K2 B2] L1 L2 L. rewrite bounded_sparse in B1, B2. simpl in K1, K2.
    set (wr := fun k => if k + d1 <? M then k + d1 else k + d1 - M).
    assert (E : ofold (fun m kv => let* k := usize_arith M Wrapping (fst kv + d1) in Ret (hm_insert m k (snd kv))) m2 m1 =
      Ret (fold_left (fun m kv => hm_insert m (wr (fst kv)) (snd kv)) m2 m1)).
    { apply ofold_pure. intros m [k v] I. cbn [fst snd].
      assert (k < d2) by (apply B2, in_map_iff; exists (k, v); auto).
      unfold wr. destruct (Nat.ltb_spec (k + d1) M).
      - rewrite usize_fits by lia. reflexivity.
      - rewrite usize_wrapped by lia. reflexivity. }
    cbn [stack_m sa_dim sa_acts]. rewrite E. cbn [obind]. rewrite usize_wrapped by lia. cbn [obind].
    eexists. split; [reflexivity|].
    assert (G : forall (l m : hmap F), (forall k, In k (hm_keys l) -> k < d2) -> NoDup (hm_keys l) -> hm_ok m ->
      hm_ok (fold_left (fun m kv => hm_insert m (wr (fst kv)) (snd kv)) l m) /\
      forall i, hm_get (fold_left (fun m kv => hm_insert m (wr (fst kv)) (snd kv)) l m) i =
        match (if i <? d1 then hm_get l (i + M - d1) else if i <? M then hm_get l (i - d1) else None) with
        | Some v => Some v | None => hm_get m i end).
    { induction l as [|[k v] l IH]; intros m B N Om.
      - simpl. split; auto. intros i. destruct (i <? d1), (i <? M); reflexivity.
      - cbn [fold_left fst snd]. inversion N as [|? ? Nk N']; subst.
        assert (Bk : k < d2) by (apply B; simpl; auto).
        destruct (IH (hm_insert m (wr k) v)) as [O G]; auto.
        { intros k' I. apply B. simpl. auto. } { apply hm_insert_ok, Om. }
        split; [exact O|]. intros i. rewrite G, hm_get_insert. clear IH G.
        assert (NG : hm_get l k = None) by (apply hm_get_None; exact Nk).
        cbn [hm_get]. unfold wr.
        destruct (Nat.ltb_spec i d1).
        + destruct (Nat.eqb_spec k (i + M - d1)) as [Ek|Nk'].
          * rewrite <- Ek, NG. destruct (Nat.ltb_spec (k + d1) M); [lia|].
            replace (k + d1 - M) with i by lia. rewrite Nat.eqb_refl. reflexivity.
          * destruct (hm_get l (i + M - d1)); auto.
            destruct (Nat.ltb_spec (k + d1) M) as [X|X]; [destruct (Nat.eqb_spec (k + d1) i); [lia|reflexivity]|].
            destruct (Nat.eqb_spec (k + d1 - M) i); [lia|reflexivity].
        + destruct (Nat.ltb_spec i M).
          * destruct (Nat.eqb_spec k (i - d1)) as [Ek|Nk'].
            -- rewrite <- Ek, NG. destruct (Nat.ltb_spec (k + d1) M); [|lia].
               replace (k + d1) with i by lia. rewrite Nat.eqb_refl. reflexivity.
            -- destruct (hm_get l (i - d1)); auto.
               destruct (Nat.ltb_spec (k + d1) M) as [X|X]; [destruct (Nat.eqb_spec (k + d1) i); [lia|reflexivity]|].
               destruct (Nat.eqb_spec (k + d1 - M) i); [lia|reflexivity].
          * destruct (Nat.ltb_spec (k + d1) M) as [X|X]; [destruct (Nat.eqb_spec (k + d1) i); [lia|reflexivity]|].
            destruct (Nat.eqb_spec (k + d1 - M) i); [lia|reflexivity]. }
    destruct (G m2 m1 B2 K2 K1) as [O Q]. split; [exact O|]. intros i. rewrite Q.
    assert (N1 : d1 <= i -> hm_get m1 i = None).
    { intros Li. apply hm_get_None. intros I. apply B1 in I. lia. }
    destruct (Nat.ltb_spec i d1); [reflexivity|]. rewrite N1 by lia.
    destruct (i <? M); auto. destruct (hm_get m2 (i - d1)); reflexivity.
  Qed.

  (** ** grids *)

  Lemma prod_ge1 (space : list (equipartition F)) : (forall e, In e space -> 1 <= ep_n e) ->
    1 <= fold_right Nat.mul 1 (map ep_n space).
  Proof.
    induction space as [|e space IH]; simpl; intros A; [lia|].
    assert (1 <= ep_n e) by (apply A; auto). assert (1 <= fold_right Nat.mul 1 (map ep_n space)) by (apply IH; auto). nia.
  Qed.

  Lemma grid_card M b : forall (space : list (equipartition F)) acc, (forall e, In e space -> 1 <= ep_n e) -> 1 <= acc < M ->
    acc * fold_right Nat.mul 1 (map ep_n space) < M ->
    ofold (fun acc e => usize_arith M b (acc * ep_n e)) space acc = Ret (acc * fold_right Nat.mul 1 (map ep_n space)).
  Proof.
    induction space as [|e space IH]; intros acc A Ba L; cbn [map fold_right ofold] in *; [rewrite Nat.mul_1_r; reflexivity|].
    assert (P := prod_ge1 space (fun e' I => A e' (or_intror I))).
    assert (1 <= ep_n e) by (apply A; simpl; auto).
    assert (Q : acc * ep_n e < M) by nia.
    rewrite usize_fits by exact Q. cbn [obind]. rewrite IH; [f_equal; ring|auto with datatypes| |].
    - split; [nia|exact Q].
    - rewrite <- Nat.mul_assoc. exact L.
  Qed.

  Lemma grid_card_checked M : forall (space : list (equipartition F)) acc, (forall e, In e space -> 1 <= ep_n e) -> acc < M ->
    M <= acc * fold_right Nat.mul 1 (map ep_n space) ->
    ofold (fun acc e => usize_arith M Checked (acc * ep_n e)) space acc = Panic.
  Proof.
    induction space as [|e space IH]; intros acc A Ba L; cbn [map fold_right ofold] in *; [lia|].
    destruct (le_lt_dec M (acc * ep_n e)) as [Q|Q]; [rewrite usize_checked by exact Q; reflexivity|].
    rewrite usize_fits by exact Q. cbn [obind]. apply IH; auto with datatypes. rewrite <- Nat.mul_assoc. exact L.
  Qed.

  Theorem grid_new_fits M (space : list (equipartition F)) : 1 < M -> (forall e, In e space -> 1 <= ep_n e) ->
    let n := fold_right Nat.mul 1 (map ep_n space) in
    (n < M -> forall b, grid_new_m M b space = Ret (grid_new space)) /\
    (M <= n -> grid_new_m M Checked space = Panic).
  Proof.
    intros L A n. unfold grid_new_m. split; intros Ln.
    - intros b. rewrite grid_card by (auto; rewrite ?Nat.mul_1_l; auto). cbn [obind]. rewrite Nat.mul_1_l. reflexivity.
    - rewrite grid_card_checked; auto. rewrite Nat.mul_1_l. exact Ln.
  Qed.

  Lemma grid_fold_fits M b : forall (ds : list (equipartition F)) vs acc m,
    (forall e x, In e ds -> ep_map_onto e x < ep_n e) -> acc < m -> m * fold_right Nat.mul 1 (map ep_n ds) < M ->
    ofold (fun acc dv => let* p := usize_arith M b (ep_n (fst dv) * acc) in
                         usize_arith M b (ep_map_onto (fst dv) (snd dv) + p)) (combine ds vs) acc =
    Ret (fold_left (fun acc dv => ep_map_onto (fst dv) (snd dv) + ep_n (fst dv) * acc) (combine ds vs) acc).
  Proof.
    induction ds as [|e ds IH]; intros [|v vs] acc m A La Lm; try reflexivity.
    cbn [combine ofold fold_left fst snd map fold_right] in *.
    assert (B := A e v (or_introl eq_refl)).
    assert (P : 1 <= fold_right Nat.mul 1 (map ep_n ds)).
    { apply prod_ge1. intros e' I. assert (C := A e' v (or_intror I)). lia. }
    assert (Q : m * ep_n e < M) by nia.
    assert (X : ep_map_onto e v + ep_n e * acc < m * ep_n e) by nia.
    rewrite usize_fits by nia. cbn [obind]. rewrite usize_fits by lia. cbn [obind].
    apply IH with (m * ep_n e); auto with datatypes. rewrite <- Nat.mul_assoc. exact Lm.
  Qed.

  Theorem grid_hash_fits M b (space : list (equipartition F)) x :
    (forall e x, In e space -> ep_map_onto e x < ep_n e) -> fold_right Nat.mul 1 (map ep_n space) < M ->
    grid_hash_m M b space x = grid_hash space x.
  Proof.
    intros A L. destruct space as [|d ds], x as [|v vs]; try reflexivity. cbn [grid_hash_m grid_hash map fold_right] in *.
    apply grid_fold_fits with (ep_n d); auto with datatypes.
  Qed.

  (** ** whole bases *)

  Lemma rmap_ext {A B} (f g : A -> outcome B) r : (forall a, r = Ok a -> f a = g a) -> rmap f r = rmap g r.
  Proof. destruct r; simpl; intros E; auto. rewrite E; auto. Qed.

  Theorem dim_fits M b (bs : basis F) : dim bs < M -> dim_m M b bs = Ret (dim bs).
  Proof.
    induction bs; simpl; intros L; auto. rewrite IHbs1, IHbs2 by lia. simpl. apply usize_fits, L.
  Qed.

  Theorem project_fits M b (bs : basis F) : forall x, sound bs -> dim bs < M -> project_m M b bs x = project bs x.
  Proof.
    induction bs as [| | | | | | | |n space|n f|b1 IH1 b2 IH2|b' IH|b' IH|b' IH|b' IH]; intros x S L;
      cbn [project_m project sound dim] in *; try reflexivity.
    - destruct S as [-> S]. rewrite grid_hash_fits; auto.
    - destruct S as [S1 S2]. rewrite IH1, IH2 by (auto; lia).
      destruct (project b1 x) as [[f1|e]|] eqn:E1; cbn [obind]; try reflexivity.
      destruct (project b2 x) as [[f2|e]|] eqn:E2; cbn [obind]; try reflexivity.
      apply rmap_ext. intros a [= <-].
      destruct (project_dim b1 x f1 S1 E1) as [W1 D1], (project_dim b2 x f2 S2 E2) as [W2 D2].
      apply stack_fits; auto. lia.
    - rewrite IH; auto.
    - rewrite IH; auto.
    - rewrite IH; auto.
    - rewrite IH; auto.
  Qed.

  Theorem dim_overflow M (b1 b2 : basis F) : dim b1 < M -> dim b2 < M -> M <= dim b1 + dim b2 ->
    dim_m M Checked (BStack b1 b2) = Panic /\ dim_m M Wrapping (BStack b1 b2) = Ret (dim b1 + dim b2 - M).
  Proof.
    intros L1 L2 L. cbn [dim_m]. rewrite !dim_fits by auto. cbn [obind].
    rewrite usize_checked by lia. rewrite usize_wrapped by lia. auto.
  Qed.

  (** ** constructors from indices *)

  Theorem from_indices_fits M b (l : list nat) : (forall i, In i l -> S i < M) ->
    @from_indices_m F _ M b l = from_indices l.
  Proof.
    intros A. unfold from_indices_m, from_indices. destruct l as [|i l]; [reflexivity|]. cbn [max_plus_one_m max_plus_one].
    rewrite usize_fits; [reflexivity|].
    assert (G : forall l i, S i < M -> (forall j, In j l -> S j < M) -> S (fold_left Nat.max l i) < M).
    { induction l0 as [|j l0 IH]; intros k Lk B; simpl; auto. apply IH; [|intros; apply B; simpl; auto].
      assert (S j < M) by (apply B; simpl; auto). lia. }
    apply G; [apply A; simpl; auto|intros; apply A; simpl; auto].
  Qed.

  Lemma fold_max_top t : forall l i, (forall j, In j l -> j <= t) -> i <= t -> In t (i :: l) -> fold_left Nat.max l i = t.
  Proof.
    induction l as [|j l IH]; intros i A Li I; simpl in *; [tauto|].
    apply IH; [auto|assert (j <= t) by auto; lia|]. simpl. destruct I as [->|[->|I]]; auto.
    - left. assert (j <= t) by auto. lia.
    - left. lia.
  Qed.

  Theorem from_indices_top M (l : list nat) : 0 < M -> (forall i, In i l -> i < M) -> In (M - 1) l ->
    @from_indices_m F _ M Checked l = Panic /\
    exists m, @from_indices_m F _ M Wrapping l = Ret (Sparse (MkSparse 0 m)).
  Proof.
    intros PM A I. destruct l as [|i l]; [destruct I|]. unfold from_indices_m. cbn [max_plus_one_m].
    rewrite (fold_max_top (M - 1)); auto.
    - replace (S (M - 1)) with M by lia. rewrite usize_checked by lia. rewrite usize_wrapped by lia.
      rewrite Nat.sub_diag. split; [reflexivity|]. eexists. reflexivity.
    - intros j Ij. assert (j < M) by (apply A; simpl; auto). lia.
    - assert (i < M) by (apply A; simpl; auto). lia.
  Qed.

  (** ** sparse/sparse dot *)

  Definition shared (m1 m2 : hmap F) : nat := length (filter (hm_mem m2) (hm_keys m1)).

  Lemma count_exact m2 : forall l acc,
    fold_left (fun acc k => acc + if @hm_mem F m2 k then 1 else 0) l acc = acc + length (filter (hm_mem m2) l).
  Proof.
    induction l as [|k l IH]; intros acc; simpl; [lia|]. rewrite IH. destruct (hm_mem m2 k); simpl; lia.
  Qed.

  Lemma count_fits b I m2 : forall l acc, (0 <= acc)%Z -> (acc + Z.of_nat (length (filter (@hm_mem F m2) l)) < I)%Z ->
    ofold (fun acc k => i32_arith b I (acc + (if hm_mem m2 k then 1 else 0))%Z) l acc =
    Ret (acc + Z.of_nat (length (filter (hm_mem m2) l)))%Z.
  Proof.
    induction l as [|k l IH]; intros acc Pa L; cbn [ofold filter]; [simpl; f_equal; lia|].
    assert (E : i32_arith b I (acc + (if hm_mem m2 k then 1 else 0)) = Ret (acc + (if hm_mem m2 k then 1 else 0))%Z).
    { unfold i32_arith. cbn [filter] in L.
      destruct (Z.leb_spec (- I) (acc + (if hm_mem m2 k then 1 else 0))), (Z.ltb_spec (acc + (if hm_mem m2 k then 1 else 0)) I);
        try reflexivity; exfalso; destruct (hm_mem m2 k); cbn [length] in L; lia. }
    rewrite E. cbn [obind]. cbn [filter] in L. destruct (hm_mem m2 k); cbn [length] in *; rewrite IH by lia; f_equal; lia.
  Qed.

  Lemma count_over I m2 : forall l acc, (0 <= acc < I)%Z -> (I <= acc + Z.of_nat (length (filter (@hm_mem F m2) l)))%Z ->
    ofold (fun acc k => i32_arith Checked I (acc + (if hm_mem m2 k then 1 else 0))%Z) l acc = Panic.
  Proof.
    induction l as [|k l IH]; intros acc Pa L; cbn [ofold filter] in *; [simpl in L; lia|].
    unfold i32_arith at 1.
    destruct (Z.leb_spec (- I) (acc + (if hm_mem m2 k then 1 else 0))), (Z.ltb_spec (acc + (if hm_mem m2 k then 1 else 0)) I);
      try reflexivity. cbn [andb obind]. apply IH; destruct (hm_mem m2 k); cbn [length] in *; lia.
  Qed.

  Definition wrap_i32 (I z : Z) : Z := ((z + I) mod (2 * I) - I)%Z.

  Lemma i32_wrapping I z : (0 < I)%Z -> i32_arith Wrapping I z = Ret (wrap_i32 I z).
  Proof.
    intros PI. unfold i32_arith, wrap_i32. destruct (Z.leb_spec (- I) z), (Z.ltb_spec z I); try reflexivity.
    cbn [andb]. f_equal. rewrite Z.mod_small by lia. lia.
  Qed.

  Lemma wrap_step I z d : (0 < I)%Z -> wrap_i32 I (wrap_i32 I z + d) = wrap_i32 I (z + d).
  Proof.
    intros PI. unfold wrap_i32. f_equal.
    replace ((z + I) mod (2 * I) - I + d + I)%Z with ((z + I) mod (2 * I) + d)%Z by lia.
    rewrite Z.add_mod_idemp_l by lia. f_equal. lia.
  Qed.

  Lemma count_wraps I m2 : (0 < I)%Z -> forall l acc,
    ofold (fun acc k => i32_arith Wrapping I (acc + (if @hm_mem F m2 k then 1 else 0))%Z) l (wrap_i32 I acc) =
    Ret (wrap_i32 I (acc + Z.of_nat (length (filter (hm_mem m2) l)))).
  Proof.
    intros PI. induction l as [|k l IH]; intros acc; cbn [ofold filter]; [simpl; f_equal; f_equal; lia|].
    rewrite i32_wrapping by exact PI. cbn [obind]. rewrite wrap_step by exact PI. rewrite IH. f_equal. f_equal.
    destruct (hm_mem m2 k); cbn [length]; lia.
  Qed.

  Theorem dot_count I (sa1 sa2 : SparseActivations F) : (0 < I)%Z ->
    let n := shared (sa_acts sa1) (sa_acts sa2) in
    ((Z.of_nat n < I)%Z -> forall b, dot_features_m b I (Sparse sa1) (Sparse sa2) = dot_features (Sparse sa1) (Sparse sa2)) /\
    ((I <= Z.of_nat n)%Z -> dot_features_m Checked I (Sparse sa1) (Sparse sa2) = Panic) /\
    ((I <= Z.of_nat n < 2 * I)%Z ->
       dot_features_m Wrapping I (Sparse sa1) (Sparse sa2) = Ret (fneg (fofnat (Z.to_nat (2 * I - Z.of_nat n))))).
  Proof.
    intros PI n. cbn [dot_features_m dot_features]. splits.
    - intros L b. rewrite (count_fits b I) by (auto; lia). cbn [obind]. rewrite count_exact. f_equal.
      unfold fof_i32. destruct (Z.ltb_spec (0 + Z.of_nat (length (filter (hm_mem (sa_acts sa2)) (hm_keys (sa_acts sa1))))) 0); [lia|].
      f_equal. rewrite Z.add_0_l, Nat2Z.id. reflexivity.
    - intros L. rewrite count_over; auto. lia.
    - intros L.
      assert (Z0 : 0%Z = wrap_i32 I 0) by (unfold wrap_i32; rewrite Z.mod_small; lia).
      rewrite Z0 at 1. rewrite count_wraps by exact PI. cbn [obind]. f_equal. rewrite Z.add_0_l.
      fold (shared (sa_acts sa1) (sa_acts sa2)). fold n.
      assert (W : wrap_i32 I (Z.of_nat n) = (Z.of_nat n - 2 * I)%Z).
      { unfold wrap_i32. replace (Z.of_nat n + I)%Z with ((Z.of_nat n - I) + 1 * (2 * I))%Z by lia.
        rewrite Z.mod_add by lia. rewrite Z.mod_small; lia. }
      rewrite W. unfold fof_i32. destruct (Z.ltb_spec (Z.of_nat n - 2 * I) 0); [|lia]. do 3 f_equal. lia.
  Qed.
End MachineFacts.
