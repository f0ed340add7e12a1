(** C80: adding features to weights with any number of axes. C81: the
    cardinality of a basis. Model in Axes.v, proofs in AxesFacts.v. *)
From Coq Require Import List Arith Lia Reals Lra.
From Flocq Require Import IEEE754.BinarySingleNaN.
From Verif Require Import Base Scalar ScalarR ScalarF64 HMap NdArray Features Spec FeatureFacts TileCoding Basis BasisFacts TileFacts Axes AxesFacts.
Import ListNotations.

(** ** C80 *)

(** With one axis, the two functions are those of C15. *)
Theorem C80_one_axis : forall F `{Scalar F} (phi : Features F) a l,
  nd_addto phi (MkNd [length l] l) = (let* r := addto phi l in Ret (MkNd [length l] r)) /\
  nd_scaled_addto phi a (MkNd [length l] l) = (let* r := scaled_addto phi a l in Ret (MkNd [length l] r)).
Proof.
  intros F H [da|sa] a l; split.
  - apply nd_zip_one.
  - apply nd_zip_one.
  - apply (nd_upds (fun kv x => fadd x (snd kv))).
  - apply (nd_upds (fun kv x => fadd x (fmul a (snd kv)))).
Qed.
Print Assumptions C80_one_axis.

(** Dense features are added along the last axis, at every position of the
    others, if they are as long as that axis; a single number is added
    everywhere; the shape stays. *)
Theorem C80_dense : forall F `{Scalar F} (da : list F) a (w : nd F) outer d,
  nd_ok w -> nd_shape w = outer ++ [d] -> length da = d \/ length da = 1 ->
  exists w1 w2, nd_addto (Dense da) w = Ret w1 /\ nd_scaled_addto (Dense da) a w = Ret w2 /\
    nd_ok w1 /\ nd_ok w2 /\ nd_shape w1 = nd_shape w /\ nd_shape w2 = nd_shape w /\
    forall idx j x y, length idx = length outer -> nd_at w (idx ++ [j]) = Some x ->
      (if length da =? d then nth_error da j = Some y else da = [y]) ->
      nd_at w1 (idx ++ [j]) = Some (fadd x y) /\ nd_at w2 (idx ++ [j]) = Some (fadd x (fmul a y)).
Proof.
  intros F H da a w outer d O S L.
  assert (B : exists r, broadcast da d = Ret r /\ forall j y, j < d ->
     (if length da =? d then nth_error da j = Some y else da = [y]) -> nth_error r j = Some y).
  { unfold broadcast. destruct (Nat.eqb_spec (length da) d) as [E|E]; [eauto|].
    destruct da as [|y0 [|y1 da]]; simpl in *; try lia. eexists. split; [reflexivity|]. intros j y Lj Q. injection Q as ->.
    now apply nth_error_repeat. }
  destruct B as (r & B & Br).
  destruct (zip_nd fadd w da outer d r O S B) as (w1 & E1 & O1 & S1 & N1).
  destruct (zip_nd (fun y x => fadd y (fmul a x)) w da outer d r O S B) as (w2 & E2 & O2 & S2 & N2).
  exists w1, w2. splits; auto. intros idx j x y Li X Y.
  assert (Lj : j < d).
  { clear -S X Li. unfold nd_at in X. rewrite S in X. clear S. revert idx X Li. generalize (nd_elems w). induction outer as [|e outer IH]; intros l idx X Li.
    - destruct idx; [|discriminate]. simpl in X. destruct (Nat.ltb_spec j d); [assumption|discriminate].
    - destruct idx as [|i idx]; [discriminate|]. cbn [app at_index] in X. destruct (i <? e); [|discriminate]. simpl in Li.
      eapply IH; [exact X|lia]. }
  rewrite N1, N2, X, (Br j y Lj Y) by exact Li. split; reflexivity.
Qed.
Print Assumptions C80_dense.

Theorem C80_dense_panics : forall F `{Scalar F} (da : list F) a (w : nd F),
  (nd_addto (Dense da) w = Panic <-> forall outer d, nd_shape w = outer ++ [d] -> length da <> d /\ length da <> 1) /\
  (nd_scaled_addto (Dense da) a w = Panic <-> forall outer d, nd_shape w = outer ++ [d] -> length da <> d /\ length da <> 1).
Proof. intros F H da a w. split; apply zip_nd_panics. Qed.
Print Assumptions C80_dense_panics.

(** Sparse features cannot be added unless there is one axis or nothing to add. *)
Theorem C80_sparse : forall F `{Scalar F} sa a (w : nd F), length (nd_shape w) <> 1 ->
  nd_addto (Sparse sa) w = (match sa_acts sa with [] => Ret w | _ => Panic end) /\
  nd_scaled_addto (Sparse sa) a w = (match sa_acts sa with [] => Ret w | _ => Panic end).
Proof.
  intros F H sa a w L. split.
  - apply (nd_upds_other (fun kv x => fadd x (snd kv))). exact L.
  - apply (nd_upds_other (fun kv x => fadd x (fmul a (snd kv)))). exact L.
Qed.
Print Assumptions C80_sparse.

(** So features and their dense form differ here: the dense vector goes into
    every row of a matrix, the sparse one panics. *)
Theorem C80_agree_refuted : exists (psi : Features R) da (w w' : nd R),
  wf psi /\ to_dense psi = Ret da /\ nd_ok w /\ length (nd_shape w) = 2 /\
  nd_addto (Dense da) w = Ret w' /\ nd_addto psi w = Panic.
Proof.
  exists (Sparse (MkSparse 2 [(0, 1%R)])), [1%R; fzero], (MkNd [2; 2] [1; 2; 3; 4]%R),
    (MkNd [2; 2] [1 + 1; 2 + fzero; 3 + 1; 4 + fzero]%R).
  splits; try reflexivity. split.
  - repeat constructor; simpl; tauto.
  - intros i [v [V|[]]]. inversion V; subst. simpl. lia.
Qed.
Print Assumptions C80_agree_refuted.

Example C80_case : let w := MkNd [2; 3] [1; 2; 3; 4; 5; 6]%R in
  nd_ok w /\ nd_shape w = [2] ++ [3] /\ nd_at w [1; 2] = Some 6%R /\
  nd_scaled_addto (Dense [7; 8; 9]%R) 2%R w =
    Ret (MkNd [2; 3] [1 + 2 * 7; 2 + 2 * 8; 3 + 2 * 9; 4 + 2 * 7; 5 + 2 * 8; 6 + 2 * 9]%R) /\
  nd_addto (Dense [7; 8]%R) w = Panic /\ nd_addto (Dense [7]%R) (MkNd [] [1]%R) = Panic.
Proof. intros w. splits; reflexivity. Qed.

(** ** C81 *)

(** Every basis reports an infinite cardinality, however it is put together. *)
Theorem C81_card : forall F (b : basis F), card b = CInfinite.
Proof. exact @card_infinite. Qed.
Print Assumptions C81_card.

(** The rule for stacks (user-defined bases may report less): as many as there
    are pairs, and infinite as soon as one part is. *)
Theorem C81_stack : (forall A B (l1 : list A) (l2 : list B),
    card_mul (CFinite (length l1)) (CFinite (length l2)) = CFinite (length (list_prod l1 l2))) /\
  (forall c1 c2, card_mul c1 c2 = CInfinite <-> c1 = CInfinite \/ c2 = CInfinite) /\
  (forall F (b1 b2 : basis F), card (BStack b1 b2) = card_mul (card b1) (card b2)).
Proof.
  split; [|split].
  - intros A B l1 l2. now rewrite prod_length.
  - intros [m|] [n|]; simpl; split; intros E; try discriminate; auto. destruct E; discriminate.
  - reflexivity.
Qed.
Print Assumptions C81_stack.

(** Polynomial and Fourier bases do have infinitely many feature vectors. *)
Theorem C81_polynomial : forall dim order, 1 <= dim -> 1 <= order ->
  forall l, exists x phi, length x = dim /\ project (polynomial_new (F := R) dim order) x = Ret (Ok phi) /\ ~ In phi l.
Proof. exact polynomial_infinite. Qed.
Print Assumptions C81_polynomial.

Theorem C81_fourier : forall order limits, 1 <= length limits -> 1 <= order -> Forall (fun l => fst l <> snd l) limits ->
  forall l, exists x phi, length x = length limits /\ project (fourier_new (F := R) order limits) x = Ret (Ok phi) /\ ~ In phi l.
Proof. exact fourier_infinite. Qed.
Print Assumptions C81_fourier.

(** Bases made of constants, tile codings and grids have finitely many: one,
    memory_size ^ n_tilings, one per cell; the product for a stack; no more
    after normalising. *)
Theorem C81_card_refuted : forall F `{Scalar F} (b : basis F) n, sound b -> outputs b = Some n ->
  card b = CInfinite /\ exists l, length l <= n /\ forall x phi, project b x = Ret (Ok phi) -> In phi l.
Proof. intros F H b n S E. split; [apply card_infinite|now apply outputs_bound]. Qed.
Print Assumptions C81_card_refuted.

(** The bound is met by a grid all of whose partitions are hit. *)
Theorem C81_grid : forall F `{Scalar F} (space : list (equipartition F)) i,
  (forall e k, In e space -> k < ep_n e -> exists v, ep_map_onto e v = k) -> space <> [] ->
  i < fold_right Nat.mul 1 (map ep_n space) ->
  outputs (grid_new space) = Some (dim (grid_new space)) /\
  exists x, project (grid_new space) x = Ret (Ok (Sparse (MkSparse (dim (grid_new space)) [(i, fone)]))).
Proof.
  intros F H space i Hit N L. split; [reflexivity|]. destruct (grid_onto space i L) as (ps & B & E).
  assert (X : exists x, length x = length space /\ map2 ep_map_onto space x = ps).
  { clear -Hit B. induction B as [|p e ps space Lp B IH]; [exists []; auto|].
    destruct IH as (x & Lx & Ex); [intros; apply Hit; [now right|assumption]|].
    destruct (Hit e p) as (v & V); [now left|exact Lp|]. exists (v :: x). simpl. split; congruence. }
  destruct X as (x & Lx & Ex). exists x. cbn [project grid_new]. rewrite (E x Lx N Ex). reflexivity.
Qed.
Print Assumptions C81_grid.

(** Two tilings with a memory of three, next to a bias: at most nine vectors. *)
Definition constant_hasher : hasher := MkHasher unit tt (fun _ _ => tt) (fun _ => 5%N).
Example C81_case : let S := ScalarF64 SimplePlatform in
  let b := BL1 (BStack (BTile Checked constant_hasher 2 3) (BBias (b_dyadic 1 0))) in
  sound b /\ outputs b = Some 9 /\ card b = CInfinite /\
  match @project f64 S b [b_dyadic 5 (-2)] with
  | Ret (Ok (Dense l)) => map B2SF l = map B2SF [fzero; fzero; b_dyadic 1 (-1); b_dyadic 1 (-1)]
  | _ => False
  end.
Proof.
  intros S b. split; [simpl; auto|]. split; [reflexivity|]. split; [reflexivity|].
  vm_compute. reflexivity.
Qed.
