(** Saving and loading bases and approximators. *)
From Coq Require Import String List Arith Lia Permutation Bool.
From Verif Require Import Base Scalar HMap NdArray Features Spec FeatureFacts VecFacts Coeffs Kernels TileCoding Basis BasisFacts
  Optim OptimMisfit Lfa LfaSpec LfaFacts EndToEnd Serde SerdeFacts Derive DeriveFacts.
Import ListNotations.
Local Open Scope list_scope.
Local Open Scope nat_scope.

Section DeriveBasis.
  Context {F : Type} `{Scalar F}.
  Local Notation value := (value F).
  Local Notation dec := (dec F).

  (** The values a program can hold and save: the numbers that are [u8] in Rust
      are, sets have no repeated element, and the implementations from outside
      the crate give back what they wrote. *)
  Fixpoint savable (X : externals F) (b : basis F) : Prop :=
    match b with
    | BBias _ | BFixedDense _ | BKernel _ => True
    | BFixedSparse _ active => NoDup active
    | BFourier order _ _ => order <= 255
    | BPolynomial order es => order <= 255 /\ Forall (Forall (fun i => i <= 255)) es
    | BChebyshev order _ _ => order <= 11
    | BTile _ h _ _ => x_de_hasher X (x_ser_hasher X h) = Ret (DeOk h)
    | BGrid _ space => forall e, In e space -> x_de_equi X (x_ser_equi X e) = Ret (DeOk e)
    | BClosure _ f => x_de_map X (x_ser_map X f) = Ret (DeOk f)
    | BStack b1 b2 => savable X b1 /\ savable X b2
    | BL0 b | BL1 b | BL2 b | BLinf b => savable X b
    end.

  (** [c] is [b] up to the order in which sets are walked, and up to the
      polynomials of a Chebyshev basis, which are those of [Chebyshev::new]. *)
  Fixpoint reloaded (b c : basis F) : Prop :=
    match b, c with
    | BFixedSparse n active, BFixedSparse n' active' => n = n' /\ Permutation active active'
    | BChebyshev order limits _, c => chebyshev_new order limits = Ret c
    | BStack b1 b2, BStack c1 c2 => reloaded b1 c1 /\ reloaded b2 c2
    | BL0 b, BL0 c | BL1 b, BL1 c | BL2 b, BL2 c | BLinf b, BLinf c => reloaded b c
    | _, _ => b = c
    end.

  (** Nothing to lose: no walked sets, and the Chebyshev bases as built. *)
  Fixpoint plain (b : basis F) : Prop :=
    match b with
    | BFixedSparse _ _ => False
    | BChebyshev order limits _ => chebyshev_new order limits = Ret b
    | BStack b1 b2 => plain b1 /\ plain b2
    | BL0 b | BL1 b | BL2 b | BLinf b => plain b
    | _ => True
    end.

  Lemma reloaded_plain b c : plain b -> reloaded b c -> c = b.
  Proof.
    revert c. induction b; intros d P R; destruct d; simpl in *; try contradiction; try congruence;
      try (f_equal; apply IHb; auto); try (destruct P, R; f_equal; auto).
  Qed.

  Lemma wire_limits (l : list (F * F)) : wire_of (ser_limits l) = Ret (WPairs l).
  Proof. unfold wire_of. unfold ser_limits at 1. rewrite de_limits_ser. reflexivity. Qed.

  Lemma de_chebyshev_ser sh order (limits : list (F * F)) b : chebyshev_new order limits = Ret b ->
    de_chebyshev (ser_struct sh [("order"%string, VNat order); ("limits"%string, ser_limits limits)]) = Ret (DeOk b).
  Proof.
    intros E. assert (L : order <= 11).
    { destruct (Nat.le_gt_cases order 11) as [L|L]; auto. apply (chebyshev_new_panic order limits) in L. congruence. }
    destruct sh; cbn [ser_struct map fst snd de_chebyshev omapM].
    - rewrite wire_limits. cbn [wire_of obind fst]. apply visit_map_ok. exists order, limits. split; auto.
      split; [intros n En; injection En as <-; lia|].
      exists (KName "order"), (KName "limits"). unfold order_key, limits_key. auto.
    - rewrite wire_limits. cbn [wire_of obind]. apply visit_seq_ok. exists order, limits, []. splits; auto. lia.
  Qed.

  Ltac rt := cbn -[ser_floats de_vec ser_array1 de_array1 ser_hmap de_hmap ser_kernel ser_proto de_proto de_byte ser_limits
      ser_indices Nat.leb de_hset]; unfold de_struct_map;
    cbn -[ser_floats de_vec ser_array1 de_array1 ser_hmap de_hmap ser_kernel ser_proto de_proto de_byte ser_limits
      ser_indices Nat.leb de_hset].

  Lemma de_byte_ser n : n <= 255 -> @de_byte F (VNat n) = Ret (DeOk n).
  Proof. intros L. unfold de_byte. now rewrite (proj2 (Nat.leb_le _ _) L). Qed.

  Theorem de_basis_ser X sh t b : has_type t b -> savable X b ->
    exists c, de_basis X t (ser_basis X sh b) = Ret (DeOk c) /\ reloaded b c.
  Proof.
    revert t. induction b; intros t T V; destruct t; try contradiction; cbn [has_type savable] in *.
    - eexists. split; reflexivity.
    - eexists. rt. rewrite de_floats_ser. split; reflexivity.
    - eexists. rt. rewrite de_hset_ser by auto. split; [reflexivity|]. simpl. auto.
    - eexists. destruct sh; rt; rewrite de_byte_ser by auto; rt; rewrite de_limits_ser; rt;
        rewrite de_floats2_ser; split; reflexivity.
    - destruct V as [V1 V2].
      assert (E : de_vec (de_vec (@de_byte F)) (VSeq (map ser_indices exponents)) = Ret (DeOk exponents)).
      { apply (de_list_ser _ ser_indices). intros l I. apply de_bytes_ser. rewrite Forall_forall in V2. auto. }
      eexists. destruct sh; rt; rewrite de_byte_ser by auto; rt; rewrite E; split; reflexivity.
    - destruct (chebyshev_new_ok order limits V) as (ps & E & _). eexists.
      cbn [de_basis ser_basis]. rewrite (de_chebyshev_ser sh _ _ _ E). split; [reflexivity|exact E].
    - assert (E : de_vec (de_proto t) (VSeq (map (ser_proto sh) prototypes)) = Ret (DeOk prototypes)).
      { apply (de_list_ser _ (ser_proto sh)). intros p I. rewrite Forall_forall in T. rewrite <- (T p I). apply de_proto_ser. }
      eexists. destruct sh; rt; rewrite E; split; reflexivity.
    - subst bld0. eexists. destruct sh; rt; rewrite V; split; reflexivity.
    - assert (E : de_vec (x_de_equi X) (VSeq (map (x_ser_equi X) space)) = Ret (DeOk space)) by (apply de_list_ser; auto).
      eexists. destruct sh; rt; rewrite E; split; reflexivity.
    - eexists. destruct sh; rt; rewrite V; split; reflexivity.
    - destruct T as [T1 T2], V as [V1 V2]. destruct (IHb1 _ T1 V1) as (c1 & E1 & R1), (IHb2 _ T2 V2) as (c2 & E2 & R2).
      exists (BStack c1 c2). split; [|simpl; auto].
      destruct sh; cbn [de_basis ser_basis]; unfold de_struct, ser_struct; cbn [map fst snd]; unfold de_struct_map;
        cbn -[de_basis ser_basis]; rewrite E1; cbn -[de_basis ser_basis]; rewrite E2; reflexivity.
    - destruct (IHb _ T V) as (c & E & R). exists (BL0 c). cbn [de_basis ser_basis]. rewrite E. auto.
    - destruct (IHb _ T V) as (c & E & R). exists (BL1 c). cbn [de_basis ser_basis]. rewrite E. auto.
    - destruct (IHb _ T V) as (c & E & R). exists (BL2 c). cbn [de_basis ser_basis]. rewrite E. auto.
    - destruct (IHb _ T V) as (c & E & R). exists (BLinf c). cbn [de_basis ser_basis]. rewrite E. auto.
  Qed.

  Lemma de_basis_plain X sh t b : has_type t b -> savable X b -> plain b ->
    de_basis X t (ser_basis X sh b) = Ret (DeOk b).
  Proof.
    intros T V P. destruct (de_basis_ser X sh t b T V) as (c & E & R). rewrite (reloaded_plain b c P R) in E. exact E.
  Qed.

  Lemma de_lfa_ser {W} ser_w (de_w : dec W) X sh t (a : saved F W) c :
    de_basis X t (ser_basis X sh (sv_basis a)) = Ret (DeOk c) ->
    de_w (ser_w sh (sv_weights a)) = Ret (DeOk (sv_weights a)) ->
    de_lfa de_w X t (type_of_opt (sv_optimiser a)) (ser_lfa ser_w X sh a) =
      Ret (DeOk (MkSaved c (sv_weights a) (sv_optimiser a))).
  Proof.
    intros B W'. assert (O := de_opt_ser sh (sv_optimiser a)). unfold de_lfa, ser_lfa, de_struct, ser_struct.
    destruct sh; cbn [map fst snd]; unfold de_struct_map;
      cbn -[de_basis ser_basis de_opt ser_opt type_of_opt]; rewrite B; cbn -[de_basis ser_basis de_opt ser_opt type_of_opt];
      rewrite W'; cbn -[de_basis ser_basis de_opt ser_opt type_of_opt]; rewrite O; reflexivity.
  Qed.

  (** ** What loading guarantees *)

  Lemma hm_insert_keys (m : hmap F) i x j : In j (hm_keys (hm_insert m i x)) -> j = i \/ In j (hm_keys m).
  Proof.
    induction m as [|[k y] m IH]; simpl; [intuition|]. destruct (Nat.eqb_spec k i) as [->|N]; simpl; intuition.
  Qed.
  Lemma hm_insert_ok (m : hmap F) i x : hm_ok m -> hm_ok (hm_insert m i x).
  Proof.
    unfold hm_ok. induction m as [|[k y] m IH]; simpl; intros ND; [repeat constructor; simpl; tauto|].
    apply NoDup_cons_iff in ND. destruct ND as [N ND]. destruct (Nat.eqb_spec k i) as [->|Nk]; simpl.
    - now constructor.
    - constructor; auto. intros I. apply hm_insert_keys in I. simpl in N. destruct I; auto.
  Qed.
  Lemma de_entries_ok (m : list (wire_key * value)) acc a : hm_ok acc -> de_entries m acc = Ret (DeOk a) -> hm_ok a.
  Proof.
    revert acc. induction m as [|[k v] m IH]; intros acc O E.
    - injection E as <-. exact O.
    - cbn [de_entries] in E. apply dbind_ok in E. destruct E as (i & _ & E). apply dbind_ok in E.
      destruct E as (x & _ & E). eapply IH; [|exact E]. now apply hm_insert_ok.
  Qed.
  Lemma de_hmap_ok (v : value) a : de_hmap v = Ret (DeOk a) -> hm_ok a.
  Proof. destruct v; try discriminate. simpl. apply de_entries_ok. constructor. Qed.

  Lemma set_insert_nodup s i : NoDup s -> NoDup (set_insert s i).
  Proof.
    intros ND. unfold set_insert. destruct (existsb (Nat.eqb i) s) eqn:E; auto.
    apply (Permutation_NoDup (Permutation_cons_append s i)). constructor; auto. intros I.
    assert (existsb (Nat.eqb i) s = true) by (apply existsb_exists; exists i; split; [auto|apply Nat.eqb_refl]). congruence.
  Qed.
  Lemma de_hset_nodup (v : value) l : de_hset v = Ret (DeOk l) -> NoDup l.
  Proof.
    unfold de_hset. intros E. apply dbind_ok in E. destruct E as (l' & _ & E). injection E as <-.
    assert (X : forall l' acc, NoDup acc -> NoDup (fold_left set_insert l' acc)).
    { induction l'0 as [|i l0 IH]; intros acc ND; simpl; auto. apply IH. now apply set_insert_nodup. }
    apply X. constructor.
  Qed.

  (** An array is loaded only when its version is 1 and its stated size is the
      number of its elements. *)
  Lemma array_entries_sound {D A} (dd : dec D) (b : D -> list F -> option A) m v0 d0 l0 a :
    array_entries dd b m v0 d0 l0 = Ret (DeOk a) ->
    exists d l, b d l = Some a /\
      (v0 <> None \/ exists x, In (KName "v", x) m /\ x = VNat 1) /\
      (d0 = Some d \/ exists x, In (KName "dim", x) m /\ dd x = Ret (DeOk d)) /\
      (l0 = Some l \/ exists x, In (KName "data", x) m /\ de_vec de_f64 x = Ret (DeOk l)).
  Proof.
    revert v0 d0 l0. induction m as [|[k x] m IH]; intros v0 d0 l0 E; cbn [array_entries] in E.
    - destruct v0; [|discriminate]. destruct l0 as [l|]; [|discriminate]. destruct d0 as [d|]; [|discriminate].
      destruct (b d l) as [a'|] eqn:B; [|discriminate]. injection E as ->. exists d, l. splits; auto. left. discriminate.
    - destruct k as [s|]; [|discriminate].
      destruct (String.eqb_spec s "v") as [->|Nv]; [|destruct (String.eqb_spec s "dim") as [->|Nd];
        [|destruct (String.eqb_spec s "data") as [->|Nl]; [|discriminate]]];
      apply dbind_ok in E; destruct E as (y & Q & E); apply IH in E; destruct E as (d & l & B & V & Dd & L); exists d, l; splits; auto.
      + right. exists x. split; [now left|]. unfold de_version in Q. apply dbind_ok in Q. destruct Q as (n & Q & R).
        destruct (Nat.eqb_spec n 1) as [->|]; [|discriminate]. destruct x; try discriminate. unfold de_byte in Q.
        destruct (n <=? 255); [|discriminate]. unfold dret in Q. congruence.
      + destruct Dd as [Dd|(z & I & Dd)]; [auto|]. right. exists z. split; [now right|auto].
      + destruct L as [L|(z & I & L)]; [auto|]. right. exists z. split; [now right|auto].
      + destruct V as [V|(z & I & V)]; [auto|]. right. exists z. split; [now right|auto].
      + destruct Dd as [Dd|(z & I & Dd)]; [|right; exists z; split; [now right|auto]].
        injection Dd as ->. right. exists x. split; [now left|auto].
      + destruct L as [L|(z & I & L)]; [auto|]. right. exists z. split; [now right|auto].
      + destruct V as [V|(z & I & V)]; [auto|]. right. exists z. split; [now right|auto].
      + destruct Dd as [Dd|(z & I & Dd)]; [auto|]. right. exists z. split; [now right|auto].
      + destruct L as [L|(z & I & L)]; [|right; exists z; split; [now right|auto]].
        injection L as ->. right. exists x. split; [now left|auto].
  Qed.

  Lemma de_dim1_ok (v : value) n : de_dim1 v = Ret (DeOk n) <-> exists more, v = VSeq (VNat n :: more).
  Proof.
    split.
    - destruct v; try discriminate. destruct l as [|a l]; [discriminate|]. simpl. destruct a; try discriminate.
      intros E. injection E as ->. eauto.
    - intros (more & ->). reflexivity.
  Qed.

  Lemma de_array1_map m l : de_array1 (VMap m) = Ret (DeOk l) ->
    In (KName "v"%string, VNat 1) m /\ (exists more, In (KName "dim"%string, VSeq (VNat (length l) :: more)) m) /\
    exists x, In (KName "data"%string, x) m /\ de_vec de_f64 x = Ret (DeOk l).
  Proof.
    intros E. apply array_entries_sound in E. destruct E as (d & l' & B & V & D & L). unfold shape1 in B.
    destruct (Nat.eqb_spec (length l') d) as [<-|]; [|discriminate]. injection B as ->. splits.
    - destruct V as [V|(x & I & ->)]; [congruence|exact I].
    - destruct D as [D|(x & I & D)]; [discriminate|]. apply de_dim1_ok in D. destruct D as (more & ->). eauto.
    - destruct L as [L|L]; [discriminate|exact L].
  Qed.
  Lemma de_array1_seq vs l : de_array1 (VSeq vs) = Ret (DeOk l) <->
    exists d x more, vs = VNat 1 :: VSeq (VNat (length l) :: d) :: x :: more /\ de_vec de_f64 x = Ret (DeOk l).
  Proof.
    split.
    - intros E. destruct vs as [|v vs]; [discriminate|]. simpl in E. apply dbind_ok in E. destruct E as (n & V & E).
      destruct vs as [|y vs]; [discriminate|]. apply dbind_ok in E. destruct E as (d & D & E).
      destruct vs as [|z vs]; [discriminate|]. apply dbind_ok in E. destruct E as (l' & L & E).
      unfold shape1 in E. destruct (Nat.eqb_spec (length l') d) as [<-|]; [|discriminate]. injection E as ->.
      apply de_dim1_ok in D. destruct D as (more & ->). exists more, z, vs. split; [|exact L]. f_equal.
      unfold de_version in V. apply dbind_ok in V. destruct V as (k & V & R).
      destruct (Nat.eqb_spec k 1) as [->|]; [|discriminate]. destruct v; try discriminate. unfold de_byte in V.
      destruct (n0 <=? 255); [|discriminate]. unfold dret in V. congruence.
    - intros (d & x & more & -> & L). cbn -[de_vec]. rewrite L. simpl. unfold shape1. now rewrite Nat.eqb_refl.
  Qed.

  Lemma chunks_ok r c (l : list F) : length l = r * c -> Forall (fun row => length row = c) (chunks r c l).
  Proof.
    revert l. induction r as [|r IH]; intros l L; simpl; constructor.
    - rewrite firstn_length. simpl in L. lia.
    - apply IH. rewrite skipn_length. simpl in L. lia.
  Qed.
  Lemma de_array2_ok (v : value) m : de_array2 v = Ret (DeOk m) -> matrix_ok m.
  Proof.
    assert (X : forall d l, shape2 d l = Some m -> matrix_ok m).
    { intros [r c] l E. unfold shape2 in E. cbn [fst snd] in E. destruct (Nat.eqb_spec (length l) (r * c)) as [L|]; [|discriminate].
      injection E as <-. unfold matrix_ok. simpl. now apply chunks_ok. }
    destruct v as [| | | |l|es|]; try discriminate; intros E.
    - unfold de_array2, de_array in E. destruct l as [|x l]; [discriminate|]. apply dbind_ok in E. destruct E as (n & _ & E).
      destruct l as [|y l]; [discriminate|]. apply dbind_ok in E. destruct E as (d & _ & E).
      destruct l as [|z l]; [discriminate|]. apply dbind_ok in E. destruct E as (l' & _ & E).
      destruct (shape2 d l') eqn:Q; [|discriminate]. injection E as ->. eauto.
    - apply array_entries_sound in E. destruct E as (d & l' & B & _). eauto.
  Qed.

  (** ** Panics while loading *)

  Fixpoint no_chebyshev (t : basis_type) : Prop :=
    match t with
    | TChebyshev => False
    | TStack t1 t2 => no_chebyshev t1 /\ no_chebyshev t2
    | TL0 t | TL1 t | TL2 t | TLinf t => no_chebyshev t
    | _ => True
    end.
  Lemma de_basis_total X t (v : value) : (forall w, x_de_hasher X w <> Panic) -> (forall w, x_de_equi X w <> Panic) ->
    (forall w, x_de_map X w <> Panic) -> no_chebyshev t -> de_basis X t v <> Panic.
  Proof.
    intros Xh Xe Xm. revert v. induction t; intros v N; cbn [de_basis no_chebyshev] in *; try contradiction;
      try (apply dbind_total; [|intros; discriminate]);
      try (apply de_struct_total; repeat (apply Forall_cons; [cbn [fd_de fd_type]; intros w|]); try apply Forall_nil);
      auto using de_f64_total, de_usize_total, de_byte_total, de_vec_total, de_pair_total, de_hset_total, de_proto_total.
    - apply IHt1, N.
    - apply IHt2, N.
  Qed.

  (** ** Adam with a second moment that is too short *)

  Lemma adam_loop_panics (l : list (nat * F)) dc lr b1 b2 p1 p2 sf m1 m2 w : (exists ia, In ia l /\ length m2 <= fst ia) ->
    ofold (adam_coord dc lr b1 b2 p1 p2 sf) l (m1, m2, w) = Panic.
  Proof.
    revert m1 m2 w. induction l as [|[i a] l IH]; intros m1 m2 w (ia & I & L); [contradiction|]. cbn [ofold].
    destruct (adam_coord dc lr b1 b2 p1 p2 sf (m1, m2, w) (i, a)) as [[[m1' m2'] w']|] eqn:E; [|reflexivity]. cbn [obind].
    unfold adam_coord in E. destruct (vget m1 i) as [x1|]; [|discriminate]. cbn [obind] in E.
    destruct (vget m2 i) as [x2|] eqn:G; [|discriminate]. cbn [obind] in E.
    destruct (vset m1 i _) as [n1|]; [|discriminate]. cbn [obind] in E.
    destruct (vset m2 i _) as [n2|] eqn:V; [|discriminate]. cbn [obind] in E.
    destruct (vupd w i _) as [nw|]; [|discriminate]. injection E as <- <- <-.
    apply IH. unfold vset in V. rewrite (LfaFacts.vupd_len _ _ _ _ V). exists ia. split; auto.
    destruct I as [<-|I]; auto. exfalso. simpl in L. unfold vget in G. rewrite (proj2 (nth_error_None m2 i) L) in G. discriminate.
  Qed.
End DeriveBasis.
