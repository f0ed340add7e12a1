(** Facts about bases that hold over any scalar: dimensions, [ith], errors. *)
From Coq Require Import List Arith ZArith Lia Bool Permutation.
From Verif Require Import Base Scalar HMap HMapFacts NdArray VecFacts Features Spec FeatureFacts
  FeatureMore Coeffs Kernels TileCoding Basis.
Import ListNotations.

Section Generic.
  Context {F : Type} `{Scalar F}.
  Implicit Types (b : basis F) (phi psi : Features F).

  (** What the bases rely on: in-range active indices for [Fixed::sparse], an
      equipartition that maps into its partitions (external crate), a closure
      that honours its declared dimension. *)
  Fixpoint sound b : Prop :=
    match b with
    | BFixedSparse n active => NoDup active /\ forall i, In i active -> i < n
    | BGrid n space =>
        n = fold_right Nat.mul 1 (map ep_n space) /\
        forall e x, In e space -> ep_map_onto e x < ep_n e
    | BClosure n f => forall x phi, f x = Ret (Ok phi) -> wf phi /\ size phi = n
    | BStack b1 b2 => sound b1 /\ sound b2
    | BL0 b' | BL1 b' | BL2 b' | BLinf b' => sound b'
    | _ => True
    end.

  (** ** Tiles *)

  Lemma hash_state_facts bld h state nt ms : forall ts st is,
    hash_state bld h state nt ms st ts = Ret is ->
    length is = length ts /\ (forall i, In i is -> i < ms) /\
    forall i, hash_any bld h state nt ms st ts i = Ret (existsb (Nat.eqb i) is).
  Proof.
    induction ts as [|t ts IH]; simpl; intros st is E.
    - inversion E; subst. splits; auto. intros i [].
    - destruct (hash_tiling bld h state nt ms st t) as [[st' i0]|] eqn:T; simpl in E; [|discriminate].
      destruct (hash_state bld h state nt ms st' ts) as [is'|] eqn:R; simpl in E; [|discriminate].
      inversion E; subst. destruct (IH _ _ R) as (L & B & A).
      assert (B0 : i0 < ms).
      { unfold hash_tiling in T. destruct (isize_arith bld (wrap_isize (Z.of_nat t) * 2)) as [?|]; simpl in T; [|discriminate].
        match type of T with context [hash_coords ?a ?b ?c ?d ?e ?f ?g ?k] =>
          destruct (hash_coords a b c d e f g k) as [?|]; simpl in T; [|discriminate] end.
        destruct ms as [|ms]; inversion T; subst.
        match goal with |- N.to_nat (?a mod ?c) < _ => assert (M : (a mod c < c)%N) by (apply N.mod_lt; lia) end.
        lia. }
      splits.
      + simpl. lia.
      + intros i [<-|I]; auto.
      + intros i. simpl. destruct (Nat.eqb_spec i i0); simpl; auto.
  Qed.

  (** ** Grid *)

  Lemma grid_fold_bound : forall (ds : list (equipartition F)) vs acc n,
    (forall e x, In e ds -> ep_map_onto e x < ep_n e) -> acc < n ->
    fold_left (fun acc dv => ep_map_onto (fst dv) (snd dv) + ep_n (fst dv) * acc) (combine ds vs) acc
    < n * fold_right Nat.mul 1 (map ep_n ds).
  Proof.
    induction ds as [|d ds IH]; intros vs acc n C A.
    - simpl. lia.
    - destruct vs as [|v vs].
      + cbn [combine fold_left]. clear IH.
        assert (P : 1 <= fold_right Nat.mul 1 (map ep_n (d :: ds))); [|nia].
        { assert (D : exists x : F, True) by (exists fzero; auto). destruct D as [x _].
          revert C. generalize (d :: ds). intros l. induction l as [|e l IH]; simpl; intros C; auto.
          assert (ep_map_onto e x < ep_n e) by (apply C; auto).
          assert (1 <= fold_right Nat.mul 1 (map ep_n l)) by (apply IH; intros; apply C; auto).
          nia. }
      + cbn [combine fold_left map fold_right fst snd].
        assert (M : ep_map_onto d v < ep_n d) by (apply C; simpl; auto).
        rewrite Nat.mul_assoc. apply IH; [intros; apply C; simpl; auto|]. nia.
  Qed.

  Lemma grid_hash_bound (space : list (equipartition F)) input i : (forall e x, In e space -> ep_map_onto e x < ep_n e) ->
    grid_hash space input = Ret i -> i < fold_right Nat.mul 1 (map ep_n space).
  Proof.
    intros C E. destruct space as [|d ds], input as [|v vs]; simpl in E; try discriminate.
    inversion E; subst. simpl. apply grid_fold_bound; [intros; apply C; simpl; auto|].
    apply C. simpl. auto.
  Qed.

  (** ** Normalisers *)

  Definition values phi : list F :=
    match phi with Dense da => da | Sparse sa => hm_values (sa_acts sa) end.

  Lemma normalise_by_spec norm phi : keyed phi ->
    let psi := normalise_by norm phi in
    keyed psi /\ size psi = size phi /\ is_sparse psi = is_sparse phi /\
    (forall i, get psi i = option_map (fun x => fdiv x (norm (values phi))) (get phi i)) /\
    (forall i, stored psi i <-> stored phi i).
  Proof.
    intros K psi.
    assert (A : keyed psi /\ size psi = size phi /\ is_sparse psi = is_sparse phi /\
      (forall i, get psi i = option_map (fun x => fdiv x (norm (values phi))) (get phi i))).
    { unfold psi. destruct phi as [da|[d m]]; simpl.
      - splits; auto. { apply map_length. } intros i. apply nth_error_map'.
      - rewrite (map_collect_id (fun x => fdiv x (norm (hm_values m)))) by exact K. splits; auto.
        + change (hm_ok (map (fun kv => (fst kv, fdiv (snd kv) (norm (hm_values m)))) m)).
          unfold hm_ok. rewrite (map_keys (fun x => fdiv x (norm (hm_values m)))). exact K.
        + intros i. apply (map_get (fun x => fdiv x (norm (hm_values m)))). }
    destruct A as (A1 & A2 & A3 & A4). splits; auto.
    intros i. rewrite !get_stored by auto. rewrite A4. destruct (get phi i); simpl; split;
      intros [v E]; try discriminate; eauto.
  Qed.

  Lemma normalise_by_wf norm phi : wf phi -> wf (normalise_by norm phi).
  Proof.
    intros [K B]. destruct (normalise_by_spec norm phi K) as (K' & S & _ & _ & St).
    split; auto. intros i Si. rewrite S. apply B, St, Si.
  Qed.

  Lemma normalised_ith_get norm phi i :
    normalised_ith norm phi i = match get phi i with
                                | Some x => Ret (fdiv x (norm (values phi)))
                                | None => Panic
                                end.
  Proof.
    destruct phi as [da|[d m]]; simpl; auto. unfold vget. destruct (nth_error da i); auto.
  Qed.

  Lemma l0_ith_get phi i :
    l0_ith phi i = match get phi i with
                   | Some x => Ret (fdiv x (fofnat (n_active phi)))
                   | None => Panic
                   end.
  Proof.
    unfold l0_ith. destruct phi as [da|[d m]]; simpl; auto. unfold vget.
    destruct (nth_error da i); auto.
  Qed.

  Lemma l0_normalise_spec phi : wf phi -> exists psi, l0_normalise phi = Ret psi /\ wf psi /\
    size psi = size phi /\
    (forall i x, get phi i = Some x -> get psi i = Some (fdiv x (fofnat (n_active phi)))).
  Proof.
    intros W. unfold l0_normalise. change (@fmap_into) with (@fmap).
    set (f := fun x => fdiv x (fofnat (n_active phi))).
    destruct (fmap_spec phi f W) as (psi & E & Wp & S & V & St & X).
    exists psi. splits; auto. intros i x G. change (fdiv x (fofnat (n_active phi))) with (f x).
    destruct (is_sparse psi) eqn:Sp.
    - apply get_stores; [apply Wp|]. apply St; auto. exists x. split; auto.
      apply get_stores; auto. apply W.
    - destruct (expands_exists phi (proj1 W)) as [l L].
      assert (X' : expands psi (map f l)) by (apply (X l L); auto).
      destruct psi as [da|]; [|discriminate]. apply expands_dense in X'. subst da. simpl.
      rewrite nth_error_map', (expands_nth_all phi l i (proj1 W) L).
      assert (i < size phi) by (eapply bounded_get; eauto; apply W).
      destruct (Nat.ltb_spec i (size phi)); [|lia]. simpl. unfold entry. rewrite G. reflexivity.
  Qed.

  (** ** C16 *)

  Theorem project_dim b : forall x phi, sound b -> project b x = Ret (Ok phi) ->
    wf phi /\ size phi = dim b.
  Proof.
    induction b; intros x phi S E; simpl in S.
    - inversion E; subst. split; [apply wf_dense|reflexivity].
    - inversion E; subst. split; [apply wf_dense|reflexivity].
    - inversion E; subst. change (Sparse (MkSparse n (hm_collect (map (fun i => (i, fone)) active))))
        with (unitary n active).
      destruct (unitary_spec n active) as (K & Sz & _ & St). split; auto. split; auto.
      intros i [v V]. apply St in V. rewrite Sz. apply S, V.
    - inversion E; subst. split; [apply wf_dense|]. simpl. rewrite map_length. reflexivity.
    - inversion E; subst. split; [apply wf_dense|]. simpl. rewrite map_length. reflexivity.
    - inversion E; subst. split; [apply wf_dense|]. simpl. rewrite map_length. reflexivity.
    - inversion E; subst. split; [apply wf_dense|]. simpl. rewrite map_length. reflexivity.
    - simpl in E. unfold tile_project in E.
      destruct (hash_state bld h (bin_state x n_tilings) n_tilings memory_size (h_init h)
                  (seq 0 n_tilings)) as [is|] eqn:Hs; simpl in E; [|discriminate].
      inversion E; subst. destruct (hash_state_facts _ _ _ _ _ _ _ _ Hs) as (_ & B & _).
      change (Sparse (MkSparse memory_size (hm_collect (map (fun i => (i, fone)) is))))
        with (unitary memory_size is).
      destruct (unitary_spec memory_size is) as (K & Sz & _ & St). split; auto. split; auto.
      intros i [v V]. apply St in V. rewrite Sz. apply B, V.
    - simpl in E. destruct (grid_hash space x) as [bin|] eqn:G; simpl in E; [|discriminate].
      inversion E; subst. destruct S as [-> C]. apply grid_hash_bound in G; auto.
      split; [|reflexivity]. split.
      + simpl. repeat constructor; simpl; tauto.
      + intros i [v [V|[]]]. inversion V; subst. exact G.
    - simpl in E. apply (S x phi E).
    - simpl in E. destruct S as [S1 S2].
      destruct (project b1 x) as [[f1|e]|] eqn:E1; simpl in E; try discriminate.
      destruct (project b2 x) as [[f2|e]|] eqn:E2; simpl in E; try discriminate.
      destruct (IHb1 x f1 S1 E1) as [W1 D1], (IHb2 x f2 S2 E2) as [W2 D2].
      destruct (stack_spec f1 f2 W1 W2) as (c & Ec & Wc & Sc & _). rewrite Ec in E.
      inversion E; subst c. split; auto. simpl. congruence.
    - simpl in E. destruct (project b x) as [[f|e]|] eqn:E1; simpl in E; try discriminate.
      destruct (IHb x f S E1) as [W D].
      destruct (l0_normalise_spec f W) as (psi & Ep & Wp & Sp & _). rewrite Ep in E.
      inversion E; subst psi. split; auto. simpl. congruence.
    - simpl in E. destruct (project b x) as [[f|e]|] eqn:E1; simpl in E; try discriminate.
      destruct (IHb x f S E1) as [W D]. inversion E; subst phi. split; [apply normalise_by_wf, W|].
      simpl. rewrite <- D. apply normalise_by_spec, W.
    - simpl in E. destruct (project b x) as [[f|e]|] eqn:E1; simpl in E; try discriminate.
      destruct (IHb x f S E1) as [W D]. inversion E; subst phi. split; [apply normalise_by_wf, W|].
      simpl. rewrite <- D. apply normalise_by_spec, W.
    - simpl in E. destruct (project b x) as [[f|e]|] eqn:E1; simpl in E; try discriminate.
      destruct (IHb x f S E1) as [W D]. inversion E; subst phi. split; [apply normalise_by_wf, W|].
      simpl. rewrite <- D. apply normalise_by_spec, W.
  Qed.

  (** ** C17 *)

  (** Bases whose [ith] is claimed to agree with [project] everywhere. *)
  Fixpoint pointwise b : Prop :=
    match b with
    | BFixedDense l => length l <= 1
    | BStack b1 b2 => pointwise b1 /\ pointwise b2
    | BClosure _ _ | BL0 _ | BL1 _ | BL2 _ | BLinf _ => False
    | _ => True
    end.

  Lemma unitary_nth d is l i : (forall k, In k is -> k < d) -> expands (unitary d is) l -> i < d ->
    nth_error l i = Some (if existsb (Nat.eqb i) is then fone else fzero).
  Proof.
    intros B X L. destruct (unitary_spec d is) as (K & Sz & _ & St).
    rewrite (expands_nth_all _ _ i K X), Sz. destruct (Nat.ltb_spec i d); [|lia]. f_equal.
    unfold entry. destruct (existsb (Nat.eqb i) is) eqn:E.
    - apply existsb_exists in E. destruct E as (k & I & E). apply Nat.eqb_eq in E. subst k.
      assert (V : stores (unitary d is) i fone) by (apply St; auto).
      apply get_stores in V; auto. rewrite V. reflexivity.
    - destruct (get (unitary d is) i) as [v|] eqn:G; auto.
      apply get_stores in G; auto. apply St in G. destruct G as [I _].
      assert (existsb (Nat.eqb i) is = true); [|congruence].
      apply existsb_exists. exists i. rewrite Nat.eqb_refl. auto.
  Qed.

  Lemma pointwise_some b x : forall i, pointwise b -> exists r, ith b x i = Some r.
  Proof.
    induction b; simpl; intros i P; eauto; try tauto.
    destruct P as [P1 P2]. destruct (IHb1 i P1) as [r1 ->], (IHb2 (i - dim b1) P2) as [r2 ->]. eauto.
  Qed.

  Theorem ith_project b : forall x phi l i, sound b -> pointwise b ->
    project b x = Ret (Ok phi) -> expands phi l -> i < dim b ->
    exists v, ith b x i = Some (Ret (Ok v)) /\ nth_error l i = Some v.
  Proof.
    assert (Dn : forall (A : Type) (g : A -> F) cs (l : list F) i n, expands (Dense (map g cs)) l -> i < length cs ->
      exists v, Some match nth_error cs i with
                | Some a => Ret (Ok (g a)) | None => Ret (Err (index_error i n)) end
                = Some (Ret (Ok v)) /\ nth_error l i = Some v).
    { intros A g cs l i n X L. apply expands_dense in X. subst l. rewrite nth_error_map'.
      destruct (nth_error_lt cs i L) as [a ->]. simpl. eauto. }
    induction b; intros x phi l i S P E X L; simpl in S, P, L; try tauto.
    - inversion E; subst. apply expands_dense in X. subst l. assert (i = 0) by lia. subst i.
      exists c. auto.
    - inversion E; subst. apply expands_dense in X. subst l. assert (i = 0) by lia. subst i.
      destruct constants as [|a [|]]; simpl in *; try lia. exists a. auto.
    - inversion E; subst. simpl. unfold check_index. destruct (Nat.ltb_spec i n); [|lia].
      eexists. split; [reflexivity|]. apply (unitary_nth n active); auto. apply S.
    - inversion E; subst. apply Dn with (g := fourier_feature (rescale x limits)); auto.
    - inversion E; subst. apply Dn with (g := polynomial_feature x); auto.
    - inversion E; subst. apply Dn with (g := chebyshev_feature (chebyshev_scale x limits)); auto.
    - inversion E; subst. apply Dn with (g := fun p => distance_from p x); auto.
    - simpl in *. unfold tile_project in E.
      destruct (hash_state bld h (bin_state x n_tilings) n_tilings memory_size (h_init h)
                  (seq 0 n_tilings)) as [is|] eqn:Hs; simpl in E; [|discriminate].
      inversion E; subst. destruct (hash_state_facts _ _ _ _ _ _ _ _ Hs) as (_ & B & A).
      unfold tile_ith, check_index. destruct (Nat.ltb_spec i memory_size); [|lia].
      rewrite A. simpl. eexists. split; [reflexivity|]. apply (unitary_nth memory_size is); auto.
    - simpl in *. destruct (grid_hash space x) as [bin|] eqn:G; simpl in E; [|discriminate].
      inversion E; subst phi. destruct S as [En C]. apply grid_hash_bound in G; auto.
      unfold check_index. destruct (Nat.ltb_spec i n); [|lia]. simpl.
      eexists. split; [reflexivity|].
      rewrite (unitary_nth n [bin] l i); auto; [|intros k [<-|[]]; lia].
      simpl. rewrite orb_false_r, Nat.eqb_sym. reflexivity.
    - simpl in E. destruct S as [S1 S2], P as [P1 P2].
      destruct (project b1 x) as [[f1|e]|] eqn:E1; simpl in E; try discriminate.
      destruct (project b2 x) as [[f2|e]|] eqn:E2; simpl in E; try discriminate.
      destruct (project_dim b1 x f1 S1 E1) as [W1 D1], (project_dim b2 x f2 S2 E2) as [W2 D2].
      destruct (stack_spec f1 f2 W1 W2) as (c & Ec & Wc & Sc & _ & Xc). rewrite Ec in E.
      inversion E; subst c.
      destruct (expands_exists f1 (proj1 W1)) as [l1 X1], (expands_exists f2 (proj1 W2)) as [l2 X2].
      assert (l = l1 ++ l2) by (eapply expands_unique; [apply Wc|exact X|apply Xc; auto]). subst l.
      assert (L1 : length l1 = dim b1) by (rewrite <- D1; apply X1).
      assert (N1 : exists r, ith b1 x i = Some r) by (apply pointwise_some; auto).
      assert (N2 : exists r, ith b2 x (i - dim b1) = Some r) by (apply pointwise_some; auto).
      destruct N1 as [r1 R1], N2 as [r2 R2]. simpl. rewrite R1, R2.
      destruct (Nat.ltb_spec i (dim b1)).
      + destruct (IHb1 x f1 l1 i S1 P1 E1 X1) as (v & V & N); auto. exists v.
        rewrite nth_error_app1 by lia. split; congruence.
      + destruct (Nat.ltb_spec i (dim b1 + dim b2)); [|lia].
        destruct (IHb2 x f2 l2 (i - dim b1) S2 P2 E2 X2) as (v & V & N); [lia|]. exists v.
        rewrite nth_error_app2 by lia. rewrite L1. split; congruence.
  Qed.

  (** [Fixed::dense] only ever answers index 0. *)
  Lemma ith_fixed_dense (l : list F) x i :
    ith (BFixedDense l) x i =
    Some (if i =? 0 then match l with [] => Panic | v :: _ => Ret (Ok v) end
          else Ret (Err (index_error i 1))).
  Proof. destruct i as [|i], l; reflexivity. Qed.

  (** The four normalisers. *)
  Definition normaliser (N : basis F -> basis F) : Prop :=
    N = BL0 \/ N = BL1 \/ N = BL2 \/ N = BLinf.

  Theorem ith_normaliser N b x phi psi l i : normaliser N -> sound b ->
    project b x = Ret (Ok phi) -> project (N b) x = Ret (Ok psi) -> expands psi l -> i < dim b ->
    (stored phi i -> exists v, ith (N b) x i = Some (Ret (Ok v)) /\ nth_error l i = Some v) /\
    (~ stored phi i -> ith (N b) x i = Some Panic).
  Proof.
    intros HN S E EN X L. destruct (project_dim b x phi S E) as [W D].
    assert (Wp : wf psi /\ size psi = dim (N b)).
    { apply (project_dim (N b) x); auto. destruct HN as [->|[->|[->| ->]]]; exact S. }
    assert (Dn : dim (N b) = dim b) by (destruct HN as [->|[->|[->| ->]]]; reflexivity).
    destruct Wp as [Wp Dp]. rewrite Dn in Dp.
    assert (Nl : nth_error l i = Some (entry psi i)).
    { rewrite (expands_nth_all psi l i (proj1 Wp) X), Dp. destruct (Nat.ltb_spec i (dim b)); auto; lia. }
    rewrite get_stored by apply W. rewrite Nl. unfold entry.
    destruct HN as [->|[->|[->| ->]]]; simpl in EN |- *; rewrite E in EN |- *; simpl in EN |- *;
      unfold check_index; (destruct (Nat.ltb_spec i (dim b)); [|lia]).
    - destruct (l0_normalise_spec phi W) as (q & Eq & _ & _ & G). rewrite Eq in EN.
      inversion EN; subst q. rewrite l0_ith_get. split.
      + intros [v V]. rewrite V, (G i v V). simpl. eauto.
      + intros C. destruct (get phi i); auto. exfalso. eauto.
    - inversion EN; subst psi. destruct (normalise_by_spec l1_norm phi (proj1 W)) as (_ & _ & _ & G & _).
      rewrite normalised_ith_get, G. split.
      + intros [v V]. rewrite V. simpl. eauto.
      + intros C. destruct (get phi i); auto. exfalso. eauto.
    - inversion EN; subst psi. destruct (normalise_by_spec l2_norm phi (proj1 W)) as (_ & _ & _ & G & _).
      rewrite normalised_ith_get, G. split.
      + intros [v V]. rewrite V. simpl. eauto.
      + intros C. destruct (get phi i); auto. exfalso. eauto.
    - inversion EN; subst psi. destruct (normalise_by_spec linf_norm phi (proj1 W)) as (_ & _ & _ & G & _).
      rewrite normalised_ith_get, G. split.
      + intros [v V]. rewrite V. simpl. eauto.
      + intros C. destruct (get phi i); auto. exfalso. eauto.
  Qed.

  (** ** C18 *)

  Theorem ith_out_of_range b x i r : dim b <= i -> ith b x i = Some r ->
    r = (match b with
         | BFixedDense l => if i =? 0 then Panic else Ret (Err (index_error i 1))
         | _ => Ret (Err (index_error i (dim b)))
         end).
  Proof.
    intros L E.
    destruct b; simpl in L; try (simpl in E; discriminate);
      try (simpl in E; unfold tile_ith, check_index in E;
           match type of E with context [?a <? ?c] => destruct (Nat.ltb_spec a c); [lia|] end;
           inversion E; reflexivity);
      try (simpl in E;
           match type of E with context [nth_error ?l i] =>
             assert (N : nth_error l i = None) by (apply nth_error_None; lia); rewrite N in E end;
           inversion E; reflexivity).
    - rewrite ith_fixed_dense in E. destruct (Nat.eqb_spec i 0); [|congruence].
      subst i. destruct constants; simpl in L; [congruence|lia].
    - simpl in E. destruct (ith b1 x i); [|discriminate]. destruct (ith b2 x (i - dim b1)); [|discriminate].
      destruct (Nat.ltb_spec i (dim b1)); [lia|].
      destruct (Nat.ltb_spec i (dim b1 + dim b2)); [lia|]. inversion E. reflexivity.
  Qed.

  (** ** C30 *)

  Theorem project_stack b1 b2 x :
    (forall e, project b1 x = Ret (Err e) -> project (BStack b1 b2) x = Ret (Err e)) /\
    (forall f1 e, project b1 x = Ret (Ok f1) -> project b2 x = Ret (Err e) ->
       project (BStack b1 b2) x = Ret (Err e)) /\
    (forall f1 f2, project b1 x = Ret (Ok f1) -> project b2 x = Ret (Ok f2) -> wf f1 -> wf f2 ->
       exists f, project (BStack b1 b2) x = Ret (Ok f) /\ wf f /\
         is_sparse f = is_sparse f1 && is_sparse f2 /\
         forall l1 l2, expands f1 l1 -> expands f2 l2 -> expands f (l1 ++ l2)).
  Proof.
    splits.
    - intros e E. simpl. rewrite E. reflexivity.
    - intros f1 e E1 E2. simpl. rewrite E1. simpl. rewrite E2. reflexivity.
    - intros f1 f2 E1 E2 W1 W2. destruct (stack_spec f1 f2 W1 W2) as (c & Ec & Wc & _ & V & X).
      exists c. splits; auto. simpl. rewrite E1. simpl. rewrite E2. simpl. rewrite Ec. reflexivity.
  Qed.

  Theorem project_with_bias b x f : project b x = Ret (Ok f) -> wf f ->
    exists g, project (with_bias b) x = Ret (Ok g) /\ wf g /\ is_sparse g = false /\
      forall l, expands f l -> expands g (l ++ [fone]).
  Proof.
    intros E W. destruct (project_stack b bias_unit x) as (_ & _ & P).
    destruct (P f (Dense [fone]) E eq_refl W (wf_dense _)) as (g & Eg & Wg & V & X).
    exists g. splits; auto. { rewrite V. apply andb_false_r. }
    intros l L. apply X; auto. apply expands_dense. reflexivity.
  Qed.
End Generic.
