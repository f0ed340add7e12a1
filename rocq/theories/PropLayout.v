(** C64: memory layouts of dense activations. Statements only; proofs are in
    LayoutFacts.v. *)
From Coq Require Import List Arith ZArith Lia Bool Reals Lra.
From Verif Require Import Base Scalar ScalarR HMap HMapFacts NdArray VecFacts Features Spec FeatureFacts Lfa Layout LayoutFacts.
Import ListNotations.

(** Vectors in standard layout: [stack] and the conversion to [Vec] do what the
    main model says, and no operation leaves the standard layout. *)
Theorem C64_standard : forall F `{Scalar F} (phi1 phi2 : lfeatures F), lf_standard phi1 -> lf_standard phi2 ->
  l_stack phi1 phi2 = omap remember (stack (forget phi1) (forget phi2)) /\
  l_to_vec phi1 = into_dense (forget phi1).
Proof.
  intros F S phi1 phi2 S1 S2. split; [exact (standard_stack phi1 phi2 S1 S2)|].
  destruct phi1 as [a|sa]; unfold l_to_vec; cbn [l_into_dense obind forget].
  - unfold into_raw_vec. cbn [into_dense]. rewrite (standard_elements a S1). reflexivity.
  - destruct (into_dense (Sparse sa)); reflexivity.
Qed.
Print Assumptions C64_standard.

Theorem C64_standard_closed : forall F `{Scalar F} (phi phi2 : lfeatures F) (f : F -> F) (g : F -> F -> F),
  lf_standard phi ->
  (forall r, l_map phi f = Ret r -> lf_standard r) /\ (forall r, l_map_into phi f = Ret r -> lf_standard r) /\
  (forall r, l_merge_into phi phi2 g = Ret r -> lf_standard r) /\
  (lf_standard phi2 -> forall r, l_stack phi phi2 = Ret r -> lf_standard r).
Proof.
  intros F S phi phi2 f g St. destruct (standard_closed phi phi2 f g St) as (A & B & C & D).
  split; [intros r E; rewrite E in A; exact A|]. split; [intros r E; rewrite E in B; exact B|].
  split; [intros r E; rewrite E in C; exact C|]. intros S2 r E. specialize (D S2). rewrite E in D. exact D.
Qed.
Print Assumptions C64_standard_closed.

Example C64_standard_case : lf_standard (LDense (of_vec [1; 2]%R)) /\
  l_stack (LDense (of_vec [1; 2]%R)) (LSparse (MkSparse 2 [(1, 5%R)])) = Ret (LDense (of_vec [1; 2; fzero; 5]%R)).
Proof. split; reflexivity. Qed.

(** Whatever the layouts, [map], [map_into] and [merge_into] act on the elements
    as the main model says, and the result is a layout safe code can make. *)
Theorem C64_elementwise : forall F `{Scalar F} (phi phi2 : lfeatures F) (f : F -> F) (g : F -> F -> F), lf_ok phi ->
  omap forget (l_map phi f) = fmap (forget phi) f /\
  omap forget (l_map_into phi f) = fmap_into (forget phi) f /\
  omap forget (l_merge_into phi phi2 g) = merge_into (forget phi) (forget phi2) g /\
  (forall r, (l_map phi f = Ret r \/ l_map_into phi f = Ret r \/ l_merge_into phi phi2 g = Ret r) -> lf_ok r).
Proof.
  intros F S phi phi2 f g O. destruct (layout_elementwise phi phi2 f g O) as (A & B & C).
  assert (X : forall r s, agrees r s -> omap forget r = s /\ forall q, r = Ret q -> lf_ok q).
  { intros [q|] [s|] Ag; simpl in Ag; try tauto; simpl.
    - destruct Ag as [-> O']. split; [reflexivity|]. intros q' [= <-]. exact O'.
    - split; [reflexivity|]. discriminate. }
  destruct (X _ _ A) as [A1 A2], (X _ _ B) as [B1 B2], (X _ _ C) as [C1 C2]. splits; auto.
  intros r [E|[E|E]]; auto.
Qed.
Print Assumptions C64_elementwise.

(** A reversed vector. *)
Example C64_elementwise_case : let a := MkOwned [1; 2; 3]%R 2 (-1) 3 in
  lf_ok (LDense a) /\ elements a = [3; 2; 1]%R /\
  l_map_into (LDense a) Ropp = Ret (LDense (MkOwned [-1; -2; -3]%R 2 (-1) 3)).
Proof.
  intros a. splits; try reflexivity. split; [|right; discriminate]. unfold a, ow_pos. cbn [ow_start ow_stride ow_len ow_raw length]. intros k L. lia.
Qed.

(** [stack] takes the storage of its first part and needs the elements of its
    second part to be adjacent and in order. *)
Theorem C64_stack : forall F `{Scalar F} (a b : owned1 F), layout_ok a -> layout_ok b ->
  (l_stack (LDense a) (LDense b) = Panic <-> 1 < ow_len b /\ ow_stride b <> 1%Z) /\
  (forall r, l_stack (LDense a) (LDense b) = Ret r ->
     forget r = Dense (ow_raw a ++ elements b) /\
     (forget r = Dense (elements a ++ elements b) <-> ow_raw a = elements a)).
Proof.
  intros F S a b Oa Ob. rewrite (layout_stack (LDense a) (LDense b) Oa Ob). cbn [obind].
  destruct (Nat.ltb_spec 1 (ow_len b)) as [L|L]; destruct (Z.eqb_spec (ow_stride b) 1) as [E|E]; cbn [andb negb obind];
    (split; [split; [discriminate || auto|tauto || lia || auto]|]); try discriminate;
    intros r [= <-]; cbn [forget]; rewrite elements_of_vec; (split; [reflexivity|]);
    (split; [intros [= Q]; apply app_inv_tail in Q; exact Q|intros ->; reflexivity]).
Qed.
Print Assumptions C64_stack.

(** So stacking a reversed vector puts its activations in the wrong places, and
    stacking a sliced vector yields more features than its parts have. *)
Theorem C64_stack_refuted : forall F `{Scalar F} (u v x : F), u <> v ->
  exists rev slice r1 r2,
    layout_ok rev /\ elements rev = [v; u] /\ layout_ok slice /\ elements slice = [u] /\
    l_stack (LDense rev) (LDense (of_vec [x])) = Ret r1 /\ forget r1 = Dense [u; v; x] /\ forget r1 <> Dense [v; u; x] /\
    l_stack (LDense slice) (LDense (of_vec [x])) = Ret r2 /\ size (forget r2) = 3.
Proof.
  intros F S u v x N. exists (MkOwned [u; v] 1 (-1) 2), (MkOwned [u; v] 0 1 1). eexists. eexists. splits; try reflexivity.
  - split; [|right; discriminate]. unfold ow_pos. cbn [ow_start ow_stride ow_len ow_raw length]. intros k L. lia.
  - split; [|right; discriminate]. unfold ow_pos. cbn [ow_start ow_stride ow_len ow_raw length]. intros k L. lia.
  - cbn [forget]. rewrite elements_of_vec. simpl. congruence.
Qed.
Print Assumptions C64_stack_refuted.

(** The conversion to [Vec] is the storage, whatever part of it is the vector. *)
Theorem C64_to_vec : forall F `{Scalar F} (a : owned1 F),
  l_to_vec (LDense a) = Ret (ow_raw a) /\
  (l_to_vec (LDense a) = into_dense (forget (LDense a)) <-> ow_raw a = elements a) /\
  (standard a -> ow_raw a = elements a).
Proof.
  intros F S a. splits; [reflexivity| |intros St; symmetry; exact (standard_elements a St)].
  unfold l_to_vec. cbn [l_into_dense obind forget into_dense]. unfold into_raw_vec. split; [intros [= Q]; exact Q|intros ->; reflexivity].
Qed.
Print Assumptions C64_to_vec.

Theorem C64_to_vec_refuted : forall F `{Scalar F} (u v : F),
  exists a, layout_ok a /\ size (forget (LDense a)) = 1 /\ l_to_vec (LDense a) = Ret [u; v].
Proof.
  intros F S u v. exists (MkOwned [u; v] 1 1 1). splits; try reflexivity.
  split; [|right; discriminate]. unfold ow_pos. cbn [ow_start ow_stride ow_len ow_raw length]. intros k L. lia.
Qed.
Print Assumptions C64_to_vec_refuted.
