(** Facts about Axes.v, for C80 and C81. *)
From Coq Require Import List Arith Lia ZArith Reals Lra Classical_Prop.
From Verif Require Import Base Scalar ScalarR HMap HMapFacts NdArray VecFacts Features Spec FeatureFacts TileCoding Basis
  BasisFacts TileFacts Coeffs CoeffFacts BasisReal Axes.
Import ListNotations.

Section AxesFacts.
  Context {F : Type} `{Scalar F}.

  (** Element by multi-index. *)
  Fixpoint at_index (shape idx : list nat) (l : list F) : option F :=
    match shape, idx with
    | [], [] => match l with [x] => Some x | _ => None end
    | d :: shape', i :: idx' =>
        if i <? d then at_index shape' idx' (firstn (fold_right Nat.mul 1 shape') (skipn (i * fold_right Nat.mul 1 shape') l))
        else None
    | _, _ => None
    end.
  Definition nd_at (a : nd F) (idx : list nat) : option F := at_index (nd_shape a) idx (nd_elems a).
  Definition nd_ok (a : nd F) : Prop := length (nd_elems a) = fold_right Nat.mul 1 (nd_shape a).

  Lemma map2_firstn {A B C} (f : A -> B -> C) n : forall xs ys, firstn n (map2 f xs ys) = map2 f (firstn n xs) (firstn n ys).
  Proof. induction n as [|n IH]; intros [|x xs] [|y ys]; simpl; auto. now rewrite IH. Qed.
  Lemma map2_none {A B C} (f : A -> B -> C) xs : map2 f xs [] = [].
  Proof. destruct xs; reflexivity. Qed.
  Lemma map2_skipn {A B C} (f : A -> B -> C) n : forall xs ys, skipn n (map2 f xs ys) = map2 f (skipn n xs) (skipn n ys).
  Proof.
    induction n as [|n IH]; intros [|x xs] [|y ys]; simpl; auto. now rewrite map2_none.
  Qed.
  Lemma concat_repeat_length {A} (r : list A) n : length (concat (repeat r n)) = n * length r.
  Proof. induction n as [|n IH]; simpl; [reflexivity|]. rewrite app_length, IH. reflexivity. Qed.
  Lemma concat_repeat_add {A} (r : list A) m n : concat (repeat r (m + n)) = concat (repeat r m) ++ concat (repeat r n).
  Proof. now rewrite repeat_app, concat_app. Qed.
  Lemma concat_repeat_part {A} (r : list A) i p n : (i < n)%nat ->
    firstn (p * length r) (skipn (i * (p * length r)) (concat (repeat r (n * p)))) = concat (repeat r p).
  Proof.
    intros L. replace (n * p) with (i * p + (p + (n - i - 1) * p)) by nia. rewrite concat_repeat_add, skipn_app.
    rewrite concat_repeat_length. replace (i * (p * length r) - i * p * length r) with 0 by nia.
    rewrite skipn_all2 by (rewrite concat_repeat_length; nia). cbn [app skipn]. rewrite concat_repeat_add, firstn_app.
    rewrite concat_repeat_length, Nat.sub_diag. cbn [firstn]. rewrite app_nil_r. apply firstn_all2. rewrite concat_repeat_length. lia.
  Qed.

  Lemma fold_mul_app l1 l2 : fold_right Nat.mul 1 (l1 ++ l2) = fold_right Nat.mul 1 l1 * fold_right Nat.mul 1 l2.
  Proof. induction l1 as [|x l1 IH]; simpl; [lia|]. rewrite IH. lia. Qed.
  Lemma fold_mul_rev l : fold_right Nat.mul 1 (rev l) = fold_right Nat.mul 1 l.
  Proof. induction l as [|x l IH]; simpl; [reflexivity|]. rewrite fold_mul_app, IH. simpl. lia. Qed.

  Lemma at_index_zip (f : F -> F -> F) r : forall outer idx j l, length idx = length outer ->
    length l = fold_right Nat.mul 1 (outer ++ [length r]) ->
    at_index (outer ++ [length r]) (idx ++ [j]) (map2 f l (concat (repeat r (fold_right Nat.mul 1 outer)))) =
    match at_index (outer ++ [length r]) (idx ++ [j]) l, nth_error r j with Some x, Some y => Some (f x y) | _, _ => None end.
  Proof.
    induction outer as [|d outer IH]; intros idx j l Li Ll; destruct idx as [|i idx]; try discriminate.
    - cbn [app at_index fold_right repeat concat] in *. rewrite app_nil_r. rewrite !Nat.mul_1_r in *.
      destruct (Nat.ltb_spec j (length r)) as [Lj|Lj]; [|reflexivity].
      destruct (nth_error r j) as [y|] eqn:Ey; [|apply nth_error_None in Ey; lia].
      destruct (nth_error l j) as [x|] eqn:Ex; [|apply nth_error_None in Ex; lia].
      rewrite map2_skipn. apply nth_error_split in Ey, Ex. destruct Ey as (r1 & r2 & -> & Er), Ex as (l1 & l2 & -> & El).
      rewrite !skipn_app, (skipn_all2 l1), (skipn_all2 r1) by lia. rewrite El, Er, Nat.sub_diag. reflexivity.
    - cbn [app at_index fold_right] in *. destruct (Nat.ltb_spec i d) as [L|L]; [|reflexivity].
      set (p := fold_right Nat.mul 1 (outer ++ [length r])) in *.
      assert (Ep : p = fold_right Nat.mul 1 outer * length r) by (unfold p; rewrite fold_mul_app; simpl; lia).
      rewrite map2_skipn, map2_firstn.
      assert (Q : firstn p (skipn (i * p) (concat (repeat r (d * fold_right Nat.mul 1 outer)))) = concat (repeat r (fold_right Nat.mul 1 outer)))
        by (rewrite Ep; now apply concat_repeat_part).
      rewrite Q.
      apply IH; [simpl in Li; lia|]. rewrite firstn_length, skipn_length, Ll. fold p.
      assert (i * p + p <= d * p) by nia. lia.
  Qed.

  Lemma zip_nd f (w : nd F) da outer d r : nd_ok w -> nd_shape w = outer ++ [d] -> broadcast da d = Ret r ->
    exists w', nd_zip_mut_with f w da = Ret w' /\ nd_ok w' /\ nd_shape w' = nd_shape w /\
      forall idx j, length idx = length outer ->
        nd_at w' (idx ++ [j]) = match nd_at w (idx ++ [j]), nth_error r j with Some x, Some y => Some (f x y) | _, _ => None end.
  Proof.
    intros O S B. unfold nd_zip_mut_with. rewrite S, rev_app_distr. cbn [rev app]. rewrite B. cbn [obind].
    assert (Lr : length r = d).
    { unfold broadcast in B. destruct (Nat.eqb_spec (length da) d) as [E|_]; [congruence|].
      destruct da as [|x [|y da]]; try discriminate. inversion B. apply repeat_length. }
    eexists. split; [reflexivity|]. rewrite fold_mul_rev. unfold nd_ok, nd_at in *. cbn [nd_shape nd_elems]. rewrite S in *.
    subst d. split; [|split; [reflexivity|]].
    - rewrite map2_length, concat_repeat_length, O, fold_mul_app. simpl. lia.
    - intros idx j L. now apply at_index_zip.
  Qed.

  Lemma zip_nd_panics f (w : nd F) da :
    nd_zip_mut_with f w da = Panic <-> forall outer d, nd_shape w = outer ++ [d] -> length da <> d /\ length da <> 1.
  Proof.
    unfold nd_zip_mut_with. destruct (rev (nd_shape w)) as [|d outer] eqn:R.
    - split; [|auto]. intros _ outer d E. rewrite E, rev_app_distr in R. discriminate.
    - assert (E : nd_shape w = rev outer ++ [d]) by (rewrite <- (rev_involutive (nd_shape w)), R; reflexivity). rewrite E.
      unfold broadcast. split.
      + destruct (Nat.eqb_spec (length da) d) as [L|L]; [discriminate|]. intros P o d' Q. apply app_inj_tail in Q. destruct Q as [_ <-].
        split; [exact L|]. destruct da as [|x [|y da]]; simpl in *; congruence.
      + intros Q. destruct (Q _ _ eq_refl) as [L1 L2]. destruct (Nat.eqb_spec (length da) d) as [L|_]; [contradiction|].
        destruct da as [|x [|y da]]; simpl in *; congruence.
  Qed.

  (** One axis: the main model. *)
  Lemma nd_upds (g : nat * F -> F -> F) d : forall m (l : list F),
    ofold (fun w kv => nd_upd w (fst kv) (g kv)) m (MkNd [d] l) =
    let* r := ofold (fun w kv => vupd w (fst kv) (g kv)) m l in Ret (MkNd [d] r).
  Proof.
    induction m as [|kv m IH]; intros l; [reflexivity|]. cbn [ofold]. unfold nd_upd at 1. cbn [nd_shape nd_elems].
    destruct (vupd l (fst kv) (g kv)) as [l'|]; cbn [obind]; [apply IH|reflexivity].
  Qed.
  Lemma nd_zip_one f (l da : list F) :
    nd_zip_mut_with f (MkNd [length l] l) da = let* r := zip_mut_with f l da in Ret (MkNd [length l] r).
  Proof.
    unfold nd_zip_mut_with, zip_mut_with. cbn [nd_shape nd_elems rev app fold_right]. destruct (broadcast da (length l)) as [r|]; [|reflexivity].
    cbn [obind repeat concat]. now rewrite app_nil_r.
  Qed.

  (** Other numbers of axes: indexing panics. *)
  Lemma nd_upds_other (g : nat * F -> F -> F) (w : nd F) m : length (nd_shape w) <> 1 ->
    ofold (fun w kv => nd_upd w (fst kv) (g kv)) m w = match m with [] => Ret w | _ => Panic end.
  Proof.
    intros L. destruct m as [|kv m]; [reflexivity|]. cbn [ofold]. unfold nd_upd at 1.
    destruct (nd_shape w) as [|d [|d' s]]; simpl in L; try reflexivity. lia.
  Qed.

  (** ** Cardinality *)

  (** How many feature vectors there can be: [None] when no bound is claimed. *)
  Fixpoint outputs (b : basis F) : option nat :=
    match b with
    | BBias _ | BFixedDense _ | BFixedSparse _ _ => Some 1
    | BTile _ _ nt ms => Some (ms ^ nt)
    | BGrid n _ => Some n
    | BFourier _ _ _ | BPolynomial _ _ | BChebyshev _ _ _ | BKernel _ | BClosure _ _ => None
    | BStack b1 b2 => match outputs b1, outputs b2 with Some m, Some n => Some (m * n) | _, _ => None end
    | BL0 b | BL1 b | BL2 b | BLinf b => outputs b
    end.

  Lemma card_infinite (b : basis F) : card b = CInfinite.
  Proof. induction b; simpl; auto. now rewrite IHb1. Qed.

  Fixpoint tuples (n k : nat) : list (list nat) :=
    match k with 0 => [[]] | S k' => flat_map (fun i => map (cons i) (tuples n k')) (seq 0 n) end.
  Lemma flat_map_const {A B} (f : A -> list B) c l : (forall x, length (f x) = c) -> length (flat_map f l) = length l * c.
  Proof. intros E. induction l as [|x l IH]; simpl; [reflexivity|]. rewrite app_length, IH, E. reflexivity. Qed.
  Lemma tuples_length n k : length (tuples n k) = n ^ k.
  Proof.
    induction k as [|k IH]; [reflexivity|]. cbn [tuples]. rewrite (flat_map_const _ (n ^ k)).
    - now rewrite seq_length.
    - intros i. now rewrite map_length.
  Qed.
  Lemma tuples_in n : forall k l, length l = k -> (forall i, In i l -> i < n) -> In l (tuples n k).
  Proof.
    induction k as [|k IH]; intros l L B; destruct l as [|i l]; try discriminate; [left; reflexivity|]. cbn [tuples].
    apply in_flat_map. exists i. split.
    - apply in_seq. split; [lia|]. apply B. left. reflexivity.
    - apply in_map, IH; [simpl in L; lia|]. intros j J. apply B. right. exact J.
  Qed.

  Lemma outputs_bound b n : sound b -> outputs b = Some n ->
    exists l, length l <= n /\ forall x phi, project b x = Ret (Ok phi) -> In phi l.
  Proof.
    revert n. induction b; intros k S E; cbn [outputs] in E; try discriminate; simpl in S.
    - injection E as <-. eexists [_]. split; [reflexivity|]. intros x phi P. left. inversion P. reflexivity.
    - injection E as <-. eexists [_]. split; [reflexivity|]. intros x phi P. left. inversion P. reflexivity.
    - injection E as <-. eexists [_]. split; [reflexivity|]. intros x phi P. left. inversion P. reflexivity.
    - injection E as <-.
      exists (map (fun hash => Sparse (MkSparse memory_size (hm_collect (map (fun i => (i, fone)) hash)))) (tuples memory_size n_tilings)).
      split; [now rewrite map_length, tuples_length|]. intros x phi P. cbn [project] in P. unfold tile_project in P.
      destruct (hash_state bld h (bin_state x n_tilings) n_tilings memory_size (h_init h) (seq 0 n_tilings)) as [is|] eqn:Hs; simpl in P; [|discriminate].
      inversion P; subst. destruct (hash_state_facts _ _ _ _ _ _ _ _ Hs) as (L & B & _). rewrite seq_length in L.
      apply (in_map (fun hash => Sparse (MkSparse memory_size (hm_collect (map (fun i => (i, fone)) hash))))). apply tuples_in; auto.
    - injection E as <-. exists (map (fun bin => Sparse (MkSparse n (hm_collect [(bin, fone)]))) (seq 0 n)).
      split; [now rewrite map_length, seq_length|]. intros x phi P. cbn [project] in P.
      destruct (grid_hash space x) as [bin|] eqn:G; simpl in P; [|discriminate]. destruct S as [En C].
      apply grid_hash_bound in G; auto. inversion P; subst phi.
      apply (in_map (fun bin => Sparse (MkSparse n (hm_collect [(bin, fone)])))). apply in_seq. lia.
    - destruct S as [S1 S2]. destruct (outputs b1) as [n1|]; [|discriminate]. destruct (outputs b2) as [n2|]; [|discriminate].
      injection E as <-. destruct (IHb1 n1 S1 eq_refl) as (l1 & L1 & I1), (IHb2 n2 S2 eq_refl) as (l2 & L2 & I2).
      exists (flat_map (fun f1 => flat_map (fun f2 => match stack f1 f2 with Ret f => [f] | Panic => [] end) l2) l1). split.
      + assert (A : forall f1, length (flat_map (fun f2 => match stack f1 f2 with Ret f => [f] | Panic => [] end) l2) <= length l2).
        { intros f1. induction l2 as [|f2 l2' IH2]; simpl; [lia|]. destruct (stack f1 f2); simpl.
          - apply le_n_S. clear -f1. induction l2' as [|f2 l2 IH2]; simpl; [lia|]. destruct (stack f1 f2); simpl; lia.
          - apply le_S. clear -f1. induction l2' as [|f2' l2 IH2]; simpl; [lia|]. destruct (stack f1 f2'); simpl; lia. }
        assert (Q : length (flat_map (fun f1 => flat_map (fun f2 => match stack f1 f2 with Ret f => [f] | Panic => [] end) l2) l1) <= length l1 * length l2).
        { clear -A. induction l1 as [|f1 l1 IH]; simpl; [lia|]. rewrite app_length. specialize (A f1). lia. }
        etransitivity; [exact Q|]. now apply Nat.mul_le_mono.
      + intros x phi P. cbn [project] in P. destruct (project b1 x) as [[f1|e]|] eqn:P1; simpl in P; try discriminate.
        destruct (project b2 x) as [[f2|e]|] eqn:P2; simpl in P; try discriminate. unfold omap in P.
        destruct (stack f1 f2) as [f|] eqn:St; simpl in P; [|discriminate]. inversion P; subst.
        apply in_flat_map. exists f1. split; [eauto|]. apply in_flat_map. exists f2. split; [eauto|]. rewrite St. left. reflexivity.
    - destruct (IHb k S E) as (l & L & I). exists (flat_map (fun f => match l0_normalise f with Ret g => [g] | Panic => [] end) l). split.
      + etransitivity; [|exact L]. clear. induction l as [|f l IH]; simpl; [lia|]. destruct (l0_normalise f); simpl; lia.
      + intros x phi P. cbn [project] in P. destruct (project b x) as [[f|e]|] eqn:P1; simpl in P; try discriminate. unfold omap in P.
        destruct (l0_normalise f) as [g|] eqn:N; simpl in P; [|discriminate]. inversion P; subst.
        apply in_flat_map. exists f. split; [eauto|]. rewrite N. left. reflexivity.
    - destruct (IHb k S E) as (l & L & I). exists (map (normalise_by l1_norm) l). split; [now rewrite map_length|].
      intros x phi P. cbn [project] in P. destruct (project b x) as [[f|e]|] eqn:P1; simpl in P; try discriminate.
      inversion P; subst. apply in_map. eauto.
    - destruct (IHb k S E) as (l & L & I). exists (map (normalise_by l2_norm) l). split; [now rewrite map_length|].
      intros x phi P. cbn [project] in P. destruct (project b x) as [[f|e]|] eqn:P1; simpl in P; try discriminate.
      inversion P; subst. apply in_map. eauto.
    - destruct (IHb k S E) as (l & L & I). exists (map (normalise_by linf_norm) l). split; [now rewrite map_length|].
      intros x phi P. cbn [project] in P. destruct (project b x) as [[f|e]|] eqn:P1; simpl in P; try discriminate.
      inversion P; subst. apply in_map. eauto.
  Qed.
End AxesFacts.

(** ** Infinitely many values *)

Local Open Scope R_scope.

Lemma escape {A} (g : nat -> A) : (forall m n, g m = g n -> m = n) -> forall l, exists n, ~ In (g n) l.
Proof.
  intros I l. apply NNPP. intros N.
  assert (In_ : forall n, In (g n) l) by (intros n; apply NNPP; intros C; apply N; eauto).
  assert (L : (length (map g (seq 0 (S (length l)))) <= length l)%nat).
  { apply NoDup_incl_length.
    - apply FinFun.Injective_map_NoDup; [exact I|apply seq_NoDup].
    - intros a Ia. apply in_map_iff in Ia. destruct Ia as (n & <- & _). apply In_. }
  rewrite map_length, seq_length in L. lia.
Qed.

Lemma ones_in order dim : (1 <= dim)%nat -> (1 <= order)%nat -> In (repeat 1%nat dim) (compute_coefficients order dim).
Proof.
  intros D O. apply (proj1 (compute_coefficients_spec order dim)). splits.
  - apply repeat_length.
  - apply Forall_forall. intros k I. apply repeat_spec in I. lia.
  - exists 1%nat. split; [|lia]. destruct dim; [lia|]. left. reflexivity.
Qed.

Lemma map_eq_at {A B} (f g : A -> B) l a : map f l = map g l -> In a l -> f a = g a.
Proof. induction l as [|x l IH]; intros E I; [contradiction|]. simpl in E. injection E as E1 E2. destruct I as [<-|I]; auto. Qed.

Lemma polynomial_ones t d : polynomial_feature (repeat t d) (repeat 1%nat d) = t ^ d.
Proof.
  unfold polynomial_feature, product. to_R.
  assert (G : forall a, fold_left Rmult (map2 pow (repeat t d) (repeat 1%nat d)) a = a * t ^ d).
  { induction d as [|d IH]; intros a; simpl; [ring|]. rewrite IH. ring. }
  rewrite G. ring.
Qed.

Lemma polynomial_infinite dim order : (1 <= dim)%nat -> (1 <= order)%nat ->
  forall l, exists x phi, length x = dim /\ project (polynomial_new (F := R) dim order) x = Ret (Ok phi) /\ ~ In phi l.
Proof.
  intros D O l.
  destruct (escape (fun n => Dense (map (polynomial_feature (repeat (INR n) dim)) (compute_coefficients order dim)))) with (l := l) as (n & N).
  - intros m n E. injection E as E. apply (map_eq_at _ _ _ (repeat 1%nat dim)) in E; [|now apply ones_in].
    rewrite !polynomial_ones in E. apply INR_eq.
    destruct (Rtotal_order (INR m) (INR n)) as [L|[L|L]]; [exfalso|exact L|exfalso].
    + assert (INR m ^ dim < INR n ^ dim); [|lra]. clear -L D.
      destruct dim as [|d]; [lia|]. clear D. assert (P := pos_INR m). induction d as [|d IH]; [simpl; lra|].
      change (INR m * INR m ^ S d < INR n * INR n ^ S d). apply Rmult_le_0_lt_compat; auto. apply pow_le. exact P.
    + assert (INR n ^ dim < INR m ^ dim); [|lra]. clear -L D.
      destruct dim as [|d]; [lia|]. clear D. assert (P := pos_INR n). induction d as [|d IH]; [simpl; lra|].
      change (INR n * INR n ^ S d < INR m * INR m ^ S d). apply Rmult_le_0_lt_compat; auto. apply pow_le. exact P.
  - exists (repeat (INR n) dim). eexists. splits; [apply repeat_length|reflexivity|exact N].
Qed.

(** On the diagonal of the box the first Fourier feature used below is a cosine
    of a multiple of the parameter. *)
Definition diagonal (limits : list (R * R)) (s : R) : list R := map (fun l => fst l + s * (snd l - fst l)) limits.
Lemma diagonal_rescale limits s : Forall (fun l => fst l <> snd l) limits ->
  rescale (diagonal limits s) limits = repeat s (length limits).
Proof.
  unfold rescale, diagonal. induction limits as [|l limits IH]; intros Fa; [reflexivity|]. inversion Fa; subst. simpl. f_equal; auto.
  to_R. field. lra.
Qed.
Lemma fourier_ones s d : fourier_feature (repeat s d) (map fofnat (repeat 1%nat d)) = cos (PI * (INR d * s)).
Proof.
  unfold fourier_feature. to_R. f_equal. f_equal.
  assert (G : forall a, fold_left (fun acc (vc : R * R) => acc + snd vc * fst vc) (combine (repeat s d) (map INR (repeat 1%nat d))) a = a + INR d * s).
  { induction d as [|d IH]; intros a; [simpl; ring|]. rewrite S_INR. cbn [repeat map combine fold_left fst snd]. rewrite IH. simpl. ring. }
  rewrite G. ring.
Qed.
Lemma fourier_infinite order limits : (1 <= length limits)%nat -> (1 <= order)%nat -> Forall (fun l => fst l <> snd l) limits ->
  forall l, exists x phi, length x = length limits /\ project (fourier_new (F := R) order limits) x = Ret (Ok phi) /\ ~ In phi l.
Proof.
  intros D O Fa l. set (d := length limits) in *.
  assert (Pd : 0 < INR d) by (apply lt_0_INR; lia).
  set (s n := / (INR d * (INR n + 1))).
  destruct (escape (fun n => Dense (map (fourier_feature (repeat (s n) d)) (map (map fofnat) (compute_coefficients order d))))) with (l := l) as (n & N).
  - intros m n E. injection E as E. apply (map_eq_at _ _ _ (map fofnat (repeat 1%nat d))) in E; [|apply in_map; now apply ones_in].
    rewrite !fourier_ones in E. unfold s in E.
    assert (V : forall k, INR d * / (INR d * (INR k + 1)) = / (INR k + 1)) by (intros k; field; assert (P := pos_INR k); split; lra).
    rewrite !V in E. assert (Q : / (INR m + 1) = / (INR n + 1)).
    { assert (B : forall k, 0 < / (INR k + 1) <= 1).
      { intros k. assert (P := pos_INR k). split; [apply Rinv_0_lt_compat; lra|]. rewrite <- Rinv_1. apply Rinv_le_contravar; lra. }
      assert (Pi := PI_RGT_0). assert (Bm := B m). assert (Bn := B n).
      assert (PI * / (INR m + 1) = PI * / (INR n + 1)).
      { apply cos_inj; try exact E; split; nra. }
      apply (Rmult_eq_reg_l PI); lra. }
    apply INR_eq. assert (Pm := pos_INR m). assert (Pn := pos_INR n).
    apply (f_equal Rinv) in Q. rewrite !Rinv_inv in Q. lra.
  - exists (diagonal limits (s n)). eexists. splits; [apply map_length|reflexivity|]. cbn [fourier_new]. 
    rewrite diagonal_rescale by exact Fa. exact N.
Qed.
