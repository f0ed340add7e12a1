(** C52: serialisation of the Chebyshev basis. *)
From Coq Require Import String List Arith Lia Permutation Reals.
From Verif Require Import Base Scalar ScalarR Basis Serde FeatureFacts SerdeFacts.
Import ListNotations.

(** Both encodings, the map in either order. *)
Theorem C52_roundtrip : forall F `{Scalar F} order (limits : list (F * F)) b,
  chebyshev_new order limits = Ret b ->
  visit_seq (ser_seq b) = Ret (DeOk b) /\
  forall m, Permutation m (ser_map b) -> visit_map m = Ret (DeOk b).
Proof.
  intros F H order limits b E.
  assert (L : order <= 11).
  { destruct (Nat.le_gt_cases order 11) as [L|L]; auto.
    apply (chebyshev_new_panic order limits) in L. congruence. }
  destruct (chebyshev_new_ok order limits L) as (ps & E' & _). rewrite E in E'. injection E' as ->.
  cbn [ser_seq ser_map]. split.
  - apply visit_seq_ok. exists order, limits, []. splits; auto. lia.
  - intros m P. apply visit_map_ok. exists order, limits. split; auto. split; [intros n En; injection En as <-; lia|].
    exists (KName "order"), (KName "limits"). unfold order_key, limits_key. auto.
Qed.
Print Assumptions C52_roundtrip.

(** Exactly which inputs are accepted: the two fields, once each, well typed. *)
Theorem C52_map_accepts : forall F `{Scalar F} m (b : basis F), visit_map m = Ret (DeOk b) <->
  exists n l, carries m (Some n) (Some l) /\ chebyshev_new n l = Ret b.
Proof. exact @visit_map_ok. Qed.
Print Assumptions C52_map_accepts.

Theorem C52_seq_accepts : forall F `{Scalar F} vs (b : basis F), visit_seq vs = Ret (DeOk b) <->
  exists n l more, vs = WNum n :: WPairs l :: more /\ n <= 255 /\ chebyshev_new n l = Ret b.
Proof. exact @visit_seq_ok. Qed.
Print Assumptions C52_seq_accepts.

Theorem C52_panics : forall F `{Scalar F},
  (forall m : list (wire_key * wire F), visit_map m = Panic <->
     exists n l, carries m (Some n) (Some l) /\ 11 < n) /\
  (forall vs : list (wire F), visit_seq vs = Panic <->
     exists n l more, vs = WNum n :: WPairs l :: more /\ 11 < n <= 255).
Proof. intros. split; [apply visit_map_panic|apply visit_seq_panic]. Qed.
Print Assumptions C52_panics.

(** Repeated fields, whatever follows them and whatever their second value. *)
Theorem C52_duplicates : forall F `{Scalar F} pre rest k v oo (ol : option (list (F * F))),
  carries pre oo ol ->
  (order_key k -> oo <> None -> visit_map (pre ++ (k, v) :: rest) = Ret (DeErr (DuplicateField "order"))) /\
  (limits_key k -> ol <> None -> visit_map (pre ++ (k, v) :: rest) = Ret (DeErr (DuplicateField "limits"))).
Proof.
  intros F H pre rest k v oo ol C. rewrite (visit_after _ _ _ _ C). cbn [visit_entries]. split; intros K N.
  - rewrite (proj2 (de_field_order k) K). destruct oo; [reflexivity|congruence].
  - rewrite (proj2 (de_field_limits k) K). destruct ol; [reflexivity|congruence].
Qed.
Print Assumptions C52_duplicates.

Theorem C52_missing : forall F `{Scalar F} m (ol : option (list (F * F))) n,
  (carries m None ol -> visit_map m = Ret (DeErr (MissingField "order"))) /\
  (carries m (Some n) (None : option (list (F * F))) -> visit_map m = Ret (DeErr (MissingField "limits"))) /\
  visit_seq ([] : list (wire F)) = Ret (DeErr (InvalidLength 0)) /\
  (n <= 255 -> visit_seq [WNum n : wire F] = Ret (DeErr (InvalidLength 1))).
Proof.
  intros F H m ol n. splits.
  - intros C. rewrite <- (app_nil_r m), (visit_after _ _ _ _ C). reflexivity.
  - intros C. rewrite <- (app_nil_r m), (visit_after _ _ _ _ C). reflexivity.
  - reflexivity.
  - intros L. simpl. rewrite (proj2 (Nat.leb_le _ _) L). reflexivity.
Qed.
Print Assumptions C52_missing.

(** A key that names neither field is refused by name. *)
Theorem C52_unknown : forall F `{Scalar F} pre rest k v oo (ol : option (list (F * F))),
  carries pre oo ol -> ~ order_key k -> ~ limits_key k ->
  visit_map (pre ++ (k, v) :: rest) = Ret (DeErr (UnknownField k)).
Proof.
  intros F H pre rest k v oo ol C K1 K2. rewrite (visit_after _ _ _ _ C). cbn [visit_entries].
  assert (E : de_field k = DeErr (UnknownField k)).
  { unfold order_key, limits_key in *. destruct k as [s|[|[|n]]]; simpl; auto.
    - destruct (String.eqb_spec s "order"); [exfalso; apply K1; left; congruence|].
      destruct (String.eqb_spec s "limits"); [exfalso; apply K2; left; congruence|reflexivity].
    - exfalso. auto.
    - exfalso. auto. }
  rewrite E. reflexivity.
Qed.
Print Assumptions C52_unknown.

(** The constant feature does not survive. *)
Theorem C52_zeroth_refuted : forall F `{Scalar F} order (limits : list (F * F)) ps,
  chebyshev_new order limits = Ret (BChebyshev order limits ps) ->
  let b := BChebyshev order limits (chebyshev_with_zeroth limits ps) in
  visit_seq (ser_seq b) = Ret (DeOk (BChebyshev order limits ps)) /\
  visit_map (ser_map b) = Ret (DeOk (BChebyshev order limits ps)) /\
  dim b = S (dim (BChebyshev order limits ps)).
Proof.
  intros F H order limits ps E b. destruct (C52_roundtrip F order limits _ E) as [Q M]. splits.
  - exact Q.
  - apply (M _ (Permutation_refl _)).
  - simpl. unfold chebyshev_with_zeroth. rewrite app_length. simpl. lia.
Qed.
Print Assumptions C52_zeroth_refuted.

Example C52_case : exists b : basis R, chebyshev_new 2 [(0%R, 1%R)] = Ret b /\
  visit_map [(KPos 1, WPairs [(0%R, 1%R)]); (KName "order", WNum 2)] = Ret (DeOk b) /\
  carries [(KName "limits", WPairs [(0%R, 1%R)])] None (Some [(0%R, 1%R)]) /\
  visit_map [(KName "order", WNum 12); (KName "limits", WPairs [(0%R, 1%R)])] = Panic.
Proof.
  eexists. splits; try reflexivity. split; [discriminate|].
  exists (KPos 0), (KName "limits"). unfold order_key, limits_key. auto.
Qed.
