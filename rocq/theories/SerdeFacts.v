(** Facts about the Chebyshev (de)serialiser. *)
From Coq Require Import String List Arith Lia Permutation.
From Verif Require Import Base Scalar Basis Serde VecFacts FeatureFacts Coeffs CoeffFacts BasisFacts BasisReal.
Import ListNotations.

(** The keys that denote each field. *)
Definition order_key (k : wire_key) : Prop := k = KName "order" \/ k = KPos 0.
Definition limits_key (k : wire_key) : Prop := k = KName "limits" \/ k = KPos 1.

Lemma de_field_order k : de_field k = DeOk FOrder <-> order_key k.
Proof.
  unfold order_key. destruct k as [s|[|[|n]]]; simpl.
  - destruct (String.eqb_spec s "order"); [split; auto; left; congruence|].
    destruct (String.eqb_spec s "limits"); split; try discriminate; intros [E|E]; congruence.
  - split; auto.
  - split; [discriminate|]. intros [E|E]; discriminate.
  - split; [discriminate|]. intros [E|E]; discriminate.
Qed.

Lemma de_field_limits k : de_field k = DeOk FLimits <-> limits_key k.
Proof.
  unfold limits_key. destruct k as [s|[|[|n]]]; simpl.
  - destruct (String.eqb_spec s "order"); [split; [discriminate|]; intros [E|E]; congruence|].
    destruct (String.eqb_spec s "limits"); split; try discriminate; auto; [left; congruence|].
    intros [E|E]; congruence.
  - split; [discriminate|]. intros [E|E]; discriminate.
  - split; auto.
  - split; [discriminate|]. intros [E|E]; discriminate.
Qed.

Section Serde.
  Context {F : Type} `{Scalar F}.
  Implicit Types (m pre rest : list (wire_key * wire F)) (b : basis F).

  Lemma cheb_row_ok (row : list nat) : Forall (fun i => i <= 11) row ->
    exists fs : list (F -> F), omapM cheb_fn row = Ret fs.
  Proof.
    induction 1 as [|i row L _ [fs IH]]; simpl; eauto. rewrite IH.
    do 12 (destruct i as [|i]; [simpl; eauto|]). lia.
  Qed.

  Lemma chebyshev_new_ok order (limits : list (F * F)) : order <= 11 ->
    exists ps, chebyshev_new order limits = Ret (BChebyshev order limits ps) /\
      length ps = (order + 1) ^ length limits - 1.
  Proof.
    intros L. unfold chebyshev_new. rewrite (proj2 (Nat.ltb_ge _ _) L). unfold make_polynomials.
    enough (X : forall rows, (forall row, In row rows -> Forall (fun i => i <= 11) row) ->
      exists ps : list (list (F -> F)), omapM (omapM cheb_fn) rows = Ret ps).
    { destruct (X (compute_coefficients order (length limits))) as [ps E].
      - intros row I. apply coefficients_enumerate in I. destruct I as (_ & Fr & _).
        rewrite Forall_forall in *. intros i Ii. specialize (Fr i Ii). lia.
      - rewrite E. simpl. exists ps. split; auto. rewrite (omapM_length _ _ _ E).
        apply compute_coefficients_spec. }
    induction rows as [|row rows IH]; simpl; intros B; eauto.
    destruct (cheb_row_ok row) as [fs E]; auto. destruct IH as [ps E']; auto. rewrite E, E'. simpl. eauto.
  Qed.

  Lemma chebyshev_new_panic order (limits : list (F * F)) : chebyshev_new order limits = Panic <-> 11 < order.
  Proof.
    split.
    - intros E. destruct (Nat.le_gt_cases order 11) as [L|L]; auto.
      destruct (chebyshev_new_ok order limits L) as (ps & E' & _). congruence.
    - intros L. unfold chebyshev_new. rewrite (proj2 (Nat.ltb_lt _ _) L). reflexivity.
  Qed.

  (** [pre] carries the fields [oo] and [ol], at most once each, and no others. *)
  Definition carries pre (oo : option nat) (ol : option (list (F * F))) : Prop :=
    (forall n, oo = Some n -> n <= 255) /\
    exists ko kl, order_key ko /\ limits_key kl /\
      Permutation pre (match oo with Some n => [(ko, WNum n)] | None => [] end ++
                       match ol with Some l => [(kl, WPairs l)] | None => [] end).

  Lemma visit_order k n m ol : order_key k -> n <= 255 ->
    visit_entries ((k, WNum n) :: m) None ol = visit_entries m (Some n) ol.
  Proof.
    intros K L. cbn [visit_entries]. rewrite (proj2 (de_field_order k) K). unfold de_u8.
    rewrite (proj2 (Nat.leb_le _ _) L). reflexivity.
  Qed.
  Lemma visit_limits k l m oo : limits_key k ->
    visit_entries ((k, WPairs l) :: m) oo None = visit_entries m oo (Some l).
  Proof. intros K. cbn [visit_entries]. rewrite (proj2 (de_field_limits k) K). reflexivity. Qed.

  Theorem visit_after pre rest oo ol : carries pre oo ol -> visit_map (pre ++ rest) = visit_entries rest oo ol.
  Proof.
    intros [B (ko & kl & Ko & Kl & P)]. unfold visit_map.
    destruct oo as [n|], ol as [l|]; simpl in P.
    - specialize (B n eq_refl). apply Permutation_sym, Permutation_length_2_inv in P. destruct P as [->| ->]; cbn [app].
      + rewrite visit_order, visit_limits; auto.
      + rewrite visit_limits, visit_order; auto.
    - specialize (B n eq_refl). apply Permutation_sym, Permutation_length_1_inv in P. subst pre. cbn [app].
      rewrite visit_order; auto.
    - apply Permutation_sym, Permutation_length_1_inv in P. subst pre. cbn [app]. rewrite visit_limits; auto.
    - apply Permutation_sym, Permutation_nil in P. subst pre. reflexivity.
  Qed.

  (** Every map is read up to its end or up to an entry that is refused. *)
  Theorem visit_cases m : exists pre rest oo ol, m = pre ++ rest /\ carries pre oo ol /\
    match rest with
    | [] => True
    | (k, v) :: _ =>
        (order_key k /\ (oo <> None \/ forall n, v = WNum n -> 255 < n)) \/
        (limits_key k /\ (ol <> None \/ forall l, v <> WPairs l)) \/
        (~ order_key k /\ ~ limits_key k)
    end.
  Proof.
    (* longest readable prefix *)
    assert (X : forall rest pre oo ol, carries pre oo ol -> exists p r o l,
      pre ++ rest = p ++ r /\ carries p o l /\
      match r with
      | [] => True
      | (k, v) :: _ =>
          (order_key k /\ (o <> None \/ forall n, v = WNum n -> 255 < n)) \/
          (limits_key k /\ (l <> None \/ forall l', v <> WPairs l')) \/
          (~ order_key k /\ ~ limits_key k)
      end).
    { induction rest as [|[k v] rest IH]; intros pre oo ol C.
      { exists pre, [], oo, ol. rewrite !app_nil_r. auto. }
      destruct (de_field k) as [[]|er] eqn:Ek.
      - apply de_field_order in Ek. destruct oo as [n|].
        { exists pre, ((k, v) :: rest), (Some n), ol. splits; auto. left. split; auto. left. discriminate. }
        assert (Dec : (exists n, v = WNum n /\ n <= 255) \/ forall n, v = WNum n -> 255 < n).
        { destruct v as [n|l|]; try (right; discriminate).
          destruct (Nat.le_gt_cases n 255); [left; eauto|right]. intros n' E. congruence. }
        destruct Dec as [(n & -> & Ln)|Bad].
        + destruct (IH (pre ++ [(k, WNum n)]) (Some n) ol) as (p & r & o & l & E & Rest).
          * destruct C as [_ (ko & kl & Ko & Kl & P)]. split; [intros n' En; congruence|].
            exists k, kl. splits; auto. simpl in P. rewrite P. simpl.
            apply Permutation_sym, Permutation_cons_append.
          * exists p, r, o, l. split; auto. rewrite <- E, <- app_assoc. reflexivity.
        + exists pre, ((k, v) :: rest), None, ol. splits; auto.
      - apply de_field_limits in Ek. destruct ol as [l|].
        { exists pre, ((k, v) :: rest), oo, (Some l). splits; auto. right. left. split; auto. left. discriminate. }
        assert (Dec : (exists l, v = WPairs l) \/ forall l, v <> WPairs l).
        { destruct v as [n|l|]; try (right; discriminate). left. eauto. }
        destruct Dec as [(l0 & ->)|Bad].
        + destruct (IH (pre ++ [(k, WPairs l0)]) oo (Some l0)) as (p & r & o & l & E & Rest).
          * destruct C as [B (ko & kl & Ko & Kl & P)]. split; auto.
            exists ko, k. splits; auto. rewrite app_nil_r in P. rewrite P. reflexivity.
          * exists p, r, o, l. split; auto. rewrite <- E, <- app_assoc. reflexivity.
        + exists pre, ((k, v) :: rest), oo, None. splits; auto.
      - exists pre, ((k, v) :: rest), oo, ol. splits; auto. right. right. split.
        + intros K. apply de_field_order in K. congruence.
        + intros K. apply de_field_limits in K. congruence. }
    destruct (X m [] None None) as (p & r & o & l & E & Rest).
    - split; [discriminate|]. exists (KPos 0), (KPos 1). unfold order_key, limits_key. auto.
    - exists p, r, o, l. auto.
  Qed.

  Lemma visit_refused k v rest oo ol :
    (order_key k /\ (oo <> None \/ forall n, v = WNum n -> 255 < n)) \/
    (limits_key k /\ (ol <> None \/ forall l : list (F * F), v <> WPairs l)) \/
    (~ order_key k /\ ~ limits_key k) -> exists e, visit_entries ((k, v) :: rest) oo ol = Ret (DeErr e).
  Proof.
    cbn [visit_entries]. intros [[K D]|[[K D]|[K1 K2]]].
    - rewrite (proj2 (de_field_order k) K). destruct oo; [eauto|]. destruct D as [D|D]; [congruence|].
      unfold de_u8. destruct v as [n|l|]; eauto. specialize (D n eq_refl).
      rewrite (proj2 (Nat.leb_gt _ _) D). eauto.
    - rewrite (proj2 (de_field_limits k) K). destruct ol; [eauto|]. destruct D as [D|D]; [congruence|].
      unfold de_limits. destruct v as [n|l|]; eauto. exfalso. apply (D l). reflexivity.
    - destruct (de_field k) as [[]|er] eqn:Ek; eauto.
      + apply de_field_order in Ek. tauto.
      + apply de_field_limits in Ek. tauto.
  Qed.

  (** Reading succeeds, or panics, only on the two fields, once each. *)
  Lemma visit_reads m : (forall e, visit_map m <> Ret (DeErr e)) <->
    exists n l, carries m (Some n) (Some l).
  Proof.
    split.
    - intros N. destruct (visit_cases m) as (pre & rest & oo & ol & -> & C & R).
      rewrite (visit_after _ _ _ _ C) in N. destruct rest as [|[k v] rest].
      + rewrite app_nil_r. destruct oo as [n|]; [|exfalso; eapply N; reflexivity].
        destruct ol as [l|]; [|exfalso; eapply N; reflexivity]. eauto.
      + exfalso. destruct (visit_refused k v rest oo ol R) as [e E]. eapply N, E.
    - intros (n & l & C) e. rewrite <- (app_nil_r m), (visit_after _ _ _ _ C). simpl.
      destruct (chebyshev_new n l); discriminate.
  Qed.

  Theorem visit_map_ok m b : visit_map m = Ret (DeOk b) <->
    exists n l, carries m (Some n) (Some l) /\ chebyshev_new n l = Ret b.
  Proof.
    split.
    - intros E. destruct (proj1 (visit_reads m)) as (n & l & C); [intros e; congruence|].
      exists n, l. split; auto. rewrite <- (app_nil_r m), (visit_after _ _ _ _ C) in E. simpl in E.
      destruct (chebyshev_new n l); [|discriminate]. simpl in E. congruence.
    - intros (n & l & C & E). rewrite <- (app_nil_r m), (visit_after _ _ _ _ C). simpl. rewrite E. reflexivity.
  Qed.

  Theorem visit_map_panic m : visit_map m = Panic <->
    exists n l, carries m (Some n) (Some l) /\ 11 < n.
  Proof.
    split.
    - intros E. destruct (proj1 (visit_reads m)) as (n & l & C); [intros e; congruence|].
      exists n, l. split; auto. apply (chebyshev_new_panic n l).
      rewrite <- (app_nil_r m), (visit_after _ _ _ _ C) in E. simpl in E.
      destruct (chebyshev_new n l); [discriminate|auto].
    - intros (n & l & C & L). apply (chebyshev_new_panic n l) in L.
      rewrite <- (app_nil_r m), (visit_after _ _ _ _ C). simpl. rewrite L. reflexivity.
  Qed.

  Theorem visit_seq_ok vs b : visit_seq vs = Ret (DeOk b) <->
    exists n l more, vs = WNum n :: WPairs l :: more /\ n <= 255 /\ chebyshev_new n l = Ret b.
  Proof.
    split.
    - destruct vs as [|v0 vs]; simpl; [discriminate|]. destruct v0 as [n|l|]; simpl; try discriminate.
      destruct (Nat.leb_spec n 255); [|discriminate]. destruct vs as [|v1 vs]; [discriminate|].
      destruct v1 as [n'|l|]; simpl; try discriminate. destruct (chebyshev_new n l) eqn:E; [|discriminate].
      simpl. injection 1 as ->. exists n, l, vs. auto.
    - intros (n & l & more & -> & Ln & E). simpl. rewrite (proj2 (Nat.leb_le _ _) Ln). simpl. rewrite E. reflexivity.
  Qed.

  Theorem visit_seq_panic (vs : list (wire F)) : visit_seq vs = Panic <->
    exists n l more, vs = WNum n :: WPairs l :: more /\ 11 < n <= 255.
  Proof.
    split.
    - destruct vs as [|v0 vs]; simpl; [discriminate|]. destruct v0 as [n|l|]; simpl; try discriminate.
      destruct (Nat.leb_spec n 255); [|discriminate]. destruct vs as [|v1 vs]; [discriminate|].
      destruct v1 as [n'|l|]; simpl; try discriminate. destruct (chebyshev_new n l) eqn:E; [discriminate|].
      intros _. apply chebyshev_new_panic in E. exists n, l, vs. auto.
    - intros (n & l & more & -> & Ln). simpl. rewrite (proj2 (Nat.leb_le _ _)) by lia. simpl.
      rewrite (proj2 (chebyshev_new_panic n l)) by lia. reflexivity.
  Qed.
End Serde.
