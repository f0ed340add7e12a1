(** The normalisers in exact arithmetic. *)
From Coq Require Import List Arith ZArith Lia Bool Permutation Reals Lra.
From Verif Require Import Base Scalar HMap HMapFacts NdArray VecFacts Features Spec FeatureFacts
  FeatureMore ScalarR Coeffs Kernels TileCoding Basis BasisFacts.
Import ListNotations.
Local Open Scope R_scope.

Definition nonzero (l : list R) : Prop := exists x, In x l /\ x <> 0.

Lemma expands_sparse_list d (m : hmap R) l : wf (Sparse (MkSparse d m)) ->
  expands (Sparse (MkSparse d m)) l -> l = map (get_or_zero m) (seq 0 d).
Proof.
  intros [K B] X. apply nth_error_ext. intros i. rewrite (expands_nth_all _ _ i K X).
  simpl size. rewrite nth_error_map'. destruct (Nat.ltb_spec i d).
  - rewrite (nth_error_nth' (seq 0 d) O) by (rewrite seq_length; auto). rewrite seq_nth by auto. simpl.
    f_equal. 
  - replace (nth_error (seq 0 d) i) with (@None nat); auto.
    symmetry. apply nth_error_None. rewrite seq_length. auto.
Qed.

Lemma values_sum (g : R -> R) (phi : Features R) l : wf phi -> expands phi l -> g 0 = 0 ->
  rsum (map g (values phi)) = rsum (map g l).
Proof.
  intros W X Z. destruct phi as [da|[d m]].
  - apply expands_dense in X. subst. reflexivity.
  - rewrite (expands_sparse_list d m l W X). destruct W as [K B]. simpl. unfold hm_values.
    rewrite !map_map. pose proof (proj1 (bounded_sparse d m) B) as B'.
    apply (rsum_sparse m d (fun _ v => g v) K); auto.
Qed.

Lemma values_in {F} (phi : Features F) v : In v (values phi) <-> exists i, stores phi i v.
Proof.
  destruct phi as [da|[d m]]; simpl.
  - split; [apply In_nth_error|]. intros [i E]. eapply nth_error_In; eauto.
  - unfold hm_values. rewrite in_map_iff. split.
    + intros ([k w] & <- & I). eauto.
    + intros [i I]. exists (i, v). auto.
Qed.

(** The entries of an expansion are stored, or zero. *)
Lemma expands_in (phi : Features R) l v : wf phi -> expands phi l -> v <> 0 ->
  (In v l <-> In v (values phi)).
Proof.
  intros W X N. rewrite values_in. split.
  - intros I. apply In_nth_error in I. destruct I as [i E]. destruct X as [_ X].
    destruct (X i v E) as [S|[_ Z]]; eauto. rewrite fzero_R in Z. contradiction.
  - intros [i S]. assert (G : get phi i = Some v) by (apply get_stores; auto; apply W).
    assert (L : (i < size phi)%nat) by (apply W; exists v; auto).
    apply (nth_error_In l i). rewrite (expands_nth_all phi l i (proj1 W) X).
    destruct (Nat.ltb_spec i (size phi)); [|lia]. unfold entry. rewrite G. reflexivity.
Qed.

(** What makes a function of the activations a norm for our purposes. *)
Definition norm_like (N : list R -> R) : Prop :=
  (forall phi l, wf phi -> expands phi l -> nonzero l -> N (values phi) = N l) /\
  (forall l c, 0 < c -> nonzero l -> N (map (Rmult c) l) = c * N l) /\
  (forall l, nonzero l -> 0 < N l).

Section Norm.
  Variable N : list R -> R.
  Hypothesis HN : norm_like N.

  Lemma normalise_wf_expands (phi : Features R) l : wf phi -> expands phi l -> nonzero l ->
    let psi := normalise_by N phi in
    wf psi /\ is_sparse psi = is_sparse phi /\ size psi = size phi /\
    (forall i, stored psi i <-> stored phi i) /\ expands psi (map (fun v => v / N l) l).
  Proof.
    intros W X Nz psi. destruct (normalise_by_spec N phi (proj1 W)) as (K & S & V & G & St).
    assert (Wp : wf psi) by (apply normalise_by_wf, W). splits; auto.
    destruct HN as (H1 & _ & _). rewrite <- (H1 phi l W X Nz).
    split. { rewrite map_length. unfold psi. rewrite S. apply X. }
    intros i v E. rewrite nth_error_map' in E. rewrite (expands_nth_all phi l i (proj1 W) X) in E.
    destruct (Nat.ltb_spec i (size phi)); [|discriminate]. simpl in E. inversion E; subst v. clear E.
    unfold entry. specialize (G i). destruct (get phi i) as [u|] eqn:Gi; simpl in G.
    - left. apply get_stores; [exact K|exact G].
    - right. split; [|rewrite fzero_R; unfold Rdiv; ring].
      intros C. apply get_stored in C; [|exact K]. destruct C as [w C]. unfold psi in C. congruence.
  Qed.

  Lemma nonzero_scale l c : c <> 0 -> nonzero l -> nonzero (map (Rmult c) l).
  Proof.
    intros C (x & I & Nx). exists (c * x). split; [apply in_map, I|]. apply Rmult_integral_contrapositive; auto.
  Qed.

  Lemma div_as_scale l z : map (fun v => v / z) l = map (Rmult (/ z)) l.
  Proof. apply map_ext. intros v. unfold Rdiv. ring. Qed.

  Lemma norm_of_normalised l : nonzero l -> N (map (fun v => v / N l) l) = 1.
  Proof.
    intros Nz. destruct HN as (_ & H2 & H3). specialize (H3 l Nz). rewrite div_as_scale, H2; auto.
    - field. lra.
    - apply Rinv_0_lt_compat, H3.
  Qed.

  (** Positive multiples normalise to the same vector. *)
  Lemma normalise_scale (phi phi' : Features R) l c : wf phi -> wf phi' -> expands phi l ->
    expands phi' (map (Rmult c) l) -> nonzero l -> 0 < c ->
    expands (normalise_by N phi') (map (fun v => v / N l) l).
  Proof.
    intros W W' X X' Nz C. destruct (normalise_wf_expands phi' _ W' X') as (_ & _ & _ & _ & E).
    { apply nonzero_scale; auto. lra. }
    destruct HN as (_ & H2 & H3). specialize (H3 l Nz). rewrite H2 in E by assumption.
    rewrite map_map in E. replace (map (fun v => v / N l) l) with (map (fun x => c * x / (c * N l)) l); auto.
    apply map_ext. intros v. field. split; lra.
  Qed.

  (** A normalised vector is left alone, bit for bit. *)
  Lemma normalise_twice (phi : Features R) l : wf phi -> expands phi l -> nonzero l ->
    normalise_by N (normalise_by N phi) = normalise_by N phi.
  Proof.
    intros W X Nz. destruct (normalise_wf_expands phi l W X Nz) as (Wp & _ & _ & _ & Xp).
    assert (P := proj2 (proj2 HN) l Nz).
    assert (Nz' : nonzero (map (fun v => v / N l) l)).
    { rewrite div_as_scale. apply nonzero_scale; auto. apply Rinv_neq_0_compat. lra. }
    assert (One : N (values (normalise_by N phi)) = 1).
    { rewrite (proj1 HN _ _ Wp Xp Nz'). apply norm_of_normalised, Nz. }
    revert One Wp. generalize (normalise_by N phi). intros psi One Wp.
    destruct psi as [da|[d m]]; simpl in *.
    - rewrite One. f_equal. rewrite <- (map_id da) at 2. apply map_ext. intros v. field.
    - rewrite One. rewrite (map_collect_id (fun x => x / 1)) by apply Wp. do 2 f_equal.
      rewrite <- (map_id m) at 2. apply map_ext. intros [k v]. simpl. f_equal. field.
  Qed.
End Norm.

(** ** The three norms *)

Lemma l1_norm_R l : l1_norm l = rsum (map Rabs l).
Proof. unfold l1_norm. to_R. rewrite (fold_left_rsum Rabs). lra. Qed.

Lemma l2_norm_R l : l2_norm l = sqrt (rsum (map (fun x => x * x) l)).
Proof. unfold l2_norm. to_R. rewrite (fold_left_rsum (fun x => x * x)). f_equal. lra. Qed.

Lemma rsum_nonneg l : (forall x, In x l -> 0 <= x) -> 0 <= rsum l.
Proof.
  induction l as [|x l IH]; simpl; intros P; [lra|].
  assert (0 <= x) by auto. assert (0 <= rsum l) by auto. unfold rsum in *. lra.
Qed.

Lemma rsum_pos l x : (forall y, In y l -> 0 <= y) -> In x l -> 0 < x -> 0 < rsum l.
Proof.
  induction l as [|y l IH]; simpl; intros P I X; [tauto|].
  assert (0 <= rsum l) by (apply rsum_nonneg; auto). change (0 < y + rsum l).
  assert (0 <= y) by auto. destruct I as [->|I]; [lra|]. assert (0 < rsum l) by (apply IH; auto). lra.
Qed.

Lemma rsum_scale c (g h : R -> R) l : (forall x, g x = c * h x) -> rsum (map g l) = c * rsum (map h l).
Proof.
  intros E. induction l as [|x l IH]; simpl; [lra|]. unfold rsum in *. simpl in *. rewrite IH, E. lra.
Qed.

Lemma l1_norm_like : norm_like l1_norm.
Proof.
  unfold norm_like. splits.
  - intros phi l W X _. rewrite !l1_norm_R. apply values_sum; auto. apply Rabs_R0.
  - intros l c C _. rewrite !l1_norm_R, map_map. apply rsum_scale. intros x.
    rewrite Rabs_mult, (Rabs_pos_eq c) by lra. reflexivity.
  - intros l (x & I & Nx). rewrite l1_norm_R. apply (rsum_pos _ (Rabs x)).
    + intros y J. apply in_map_iff in J. destruct J as (z & <- & _). apply Rabs_pos.
    + apply in_map, I.
    + apply Rabs_pos_lt, Nx.
Qed.

Lemma squares_pos l : nonzero l -> 0 < rsum (map (fun x => x * x) l).
Proof.
  intros (x & I & Nx). apply (rsum_pos _ (x * x)).
  - intros y J. apply in_map_iff in J. destruct J as (z & <- & _). apply Rle_0_sqr.
  - apply (in_map (fun x => x * x)), I.
  - apply Rsqr_pos_lt, Nx.
Qed.

Lemma l2_norm_like : norm_like l2_norm.
Proof.
  unfold norm_like. splits.
  - intros phi l W X _. rewrite !l2_norm_R. f_equal. apply (values_sum (fun x => x * x)); auto. ring.
  - intros l c C _. rewrite !l2_norm_R, map_map.
    rewrite (rsum_scale (c * c) _ (fun x => x * x)) by (intros; ring).
    rewrite sqrt_mult_alt by nra. rewrite sqrt_square by lra. reflexivity.
  - intros l Nz. rewrite l2_norm_R. apply sqrt_lt_R0, squares_pos, Nz.
Qed.

(** [m] is the largest magnitude in [l]. *)
Definition max_abs (l : list R) (m : R) : Prop :=
  (forall x, In x l -> Rabs x <= m) /\ exists x, In x l /\ Rabs x = m.

Lemma linf_fold l acc : let m := fold_left (fun a x => Rmax a (Rabs x)) l acc in
  acc <= m /\ (forall x, In x l -> Rabs x <= m) /\ (m = acc \/ exists x, In x l /\ Rabs x = m).
Proof.
  revert acc. induction l as [|y l IH]; intros acc m; simpl in m.
  - splits; [apply Rle_refl|intros x []|auto].
  - destruct (IH (Rmax acc (Rabs y))) as (A & B & C). fold m in A, B, C.
    assert (L1 := Rmax_l acc (Rabs y)). assert (L2 := Rmax_r acc (Rabs y)). splits.
    + lra.
    + intros x [<-|I]; [lra|auto].
    + destruct C as [C|(x & I & C)]; [|right; exists x; simpl; auto].
      unfold Rmax in C. destruct (Rle_dec acc (Rabs y)); auto. right. exists y. simpl. auto.
Qed.

Lemma linf_norm_R l : l <> [] -> max_abs l (linf_norm l).
Proof.
  intros Ne. unfold linf_norm. to_R. destruct (linf_fold l (-1)) as (A & B & C). split; auto.
  destruct C as [C|C]; auto. exfalso. destruct l as [|x l]; [tauto|].
  specialize (B x (or_introl eq_refl)). assert (P := Rabs_pos x). lra.
Qed.

Lemma max_abs_unique l m m' : max_abs l m -> max_abs l m' -> m = m'.
Proof.
  intros (A & x & I & E) (B & y & J & G). specialize (A y J). specialize (B x I). lra.
Qed.

Lemma nonzero_nonempty l : nonzero l -> l <> [].
Proof. intros (x & I & _) ->. destruct I. Qed.

Lemma max_abs_pos l m : nonzero l -> max_abs l m -> 0 < m.
Proof. intros (x & I & Nx) (A & _). specialize (A x I). assert (P := Rabs_pos_lt x Nx). lra. Qed.

Lemma linf_norm_like : norm_like linf_norm.
Proof.
  unfold norm_like. splits.
  - intros phi l W X Nz. assert (M := linf_norm_R l (nonzero_nonempty l Nz)).
    assert (P := max_abs_pos _ _ Nz M). eapply max_abs_unique; [|split].
    + apply linf_norm_R. destruct Nz as (x & I & Nx). apply (expands_in phi l x W X Nx) in I.
      intros E. rewrite E in I. destruct I.
    + intros x I. destruct (Req_dec x 0) as [->|Nx]; [rewrite Rabs_R0; lra|].
      apply M. apply (expands_in phi l x W X Nx), I.
    + destruct M as (_ & x & I & E). exists x. split; auto.
      apply (expands_in phi l x W X); auto. intros ->. rewrite Rabs_R0 in E. lra.
  - intros l c C Nz. assert (M := linf_norm_R l (nonzero_nonempty l Nz)).
    eapply max_abs_unique.
    + apply linf_norm_R. intros E. apply map_eq_nil in E. subst. destruct Nz as (x & [] & _).
    + destruct M as (A & x & I & E). split.
      * intros y J. apply in_map_iff in J. destruct J as (z & <- & J). rewrite Rabs_mult, (Rabs_pos_eq c) by lra.
        apply Rmult_le_compat_l; [lra|auto].
      * exists (c * x). split; [apply in_map, I|]. rewrite Rabs_mult, (Rabs_pos_eq c) by lra. congruence.
  - intros l Nz. apply (max_abs_pos l); auto. apply linf_norm_R, nonzero_nonempty, Nz.
Qed.

(** ** At the level of bases *)

Lemma normalise_basis N (mk : basis R -> basis R) b x phi l :
  (forall b' x', project (mk b') x' = let* r := project b' x' in rmap (fun f => Ret (normalise_by N f)) r) ->
  norm_like N -> sound b -> project b x = Ret (Ok phi) -> expands phi l -> nonzero l ->
  exists psi, project (mk b) x = Ret (Ok psi) /\ wf psi /\ is_sparse psi = is_sparse phi /\
    (forall i, stored psi i <-> stored phi i) /\
    expands psi (map (fun v => v / N l) l) /\ N (map (fun v => v / N l) l) = 1 /\ 0 < N l /\
    project (mk (mk b)) x = Ret (Ok psi) /\
    forall b' phi' c, sound b' -> project b' x = Ret (Ok phi') -> 0 < c -> expands phi' (map (Rmult c) l) ->
      exists psi', project (mk b') x = Ret (Ok psi') /\ expands psi' (map (fun v => v / N l) l).
Proof.
  intros HP HN S E X Nz. destruct (project_dim b x phi S E) as [W D].
  destruct (normalise_wf_expands N HN phi l W X Nz) as (Wp & V & Sz & St & Xp).
  exists (normalise_by N phi). splits; auto.
  - rewrite HP, E. reflexivity.
  - apply norm_of_normalised; auto.
  - apply HN, Nz.
  - rewrite !HP, E. simpl. rewrite (normalise_twice N HN phi l W X Nz). reflexivity.
  - intros b' phi' c S' E' C X'. destruct (project_dim b' x phi' S' E') as [W' _].
    exists (normalise_by N phi'). split; [rewrite HP, E'; reflexivity|].
    apply (normalise_scale N HN phi phi' l c); auto.
Qed.

(** L1: absolute values sum to 1. *)
Theorem l1_project b x phi l : sound b -> project b x = Ret (Ok phi) -> expands phi l -> nonzero l ->
  exists psi z, 0 < z /\ z = rsum (map Rabs l) /\
    project (BL1 b) x = Ret (Ok psi) /\ wf psi /\ is_sparse psi = is_sparse phi /\
    (forall i, stored psi i <-> stored phi i) /\
    expands psi (map (fun v => v / z) l) /\
    rsum (map Rabs (map (fun v => v / z) l)) = 1 /\
    project (BL1 (BL1 b)) x = Ret (Ok psi) /\
    forall b' phi' c, sound b' -> project b' x = Ret (Ok phi') -> 0 < c -> expands phi' (map (Rmult c) l) ->
      exists psi', project (BL1 b') x = Ret (Ok psi') /\ expands psi' (map (fun v => v / z) l).
Proof.
  intros S E X Nz. destruct (normalise_basis l1_norm BL1 b x phi l) as (psi & A); auto using l1_norm_like.
  destruct A as (A1 & A2 & A3 & A4 & A5 & A6 & A7 & A8 & A9).
  exists psi, (l1_norm l). rewrite <- !l1_norm_R. splits; auto.
Qed.

Theorem l2_project b x phi l : sound b -> project b x = Ret (Ok phi) -> expands phi l -> nonzero l ->
  exists psi z, 0 < z /\ z * z = rsum (map (fun v => v * v) l) /\
    project (BL2 b) x = Ret (Ok psi) /\ wf psi /\ is_sparse psi = is_sparse phi /\
    (forall i, stored psi i <-> stored phi i) /\
    expands psi (map (fun v => v / z) l) /\
    rsum (map (fun v => v * v) (map (fun v => v / z) l)) = 1 /\
    project (BL2 (BL2 b)) x = Ret (Ok psi) /\
    forall b' phi' c, sound b' -> project b' x = Ret (Ok phi') -> 0 < c -> expands phi' (map (Rmult c) l) ->
      exists psi', project (BL2 b') x = Ret (Ok psi') /\ expands psi' (map (fun v => v / z) l).
Proof.
  intros S E X Nz. destruct (normalise_basis l2_norm BL2 b x phi l) as (psi & A); auto using l2_norm_like.
  destruct A as (A1 & A2 & A3 & A4 & A5 & A6 & A7 & A8 & A9).
  exists psi, (l2_norm l). splits; auto.
  - rewrite l2_norm_R. apply sqrt_sqrt. left. apply squares_pos, Nz.
  - set (l' := map (fun v => v / l2_norm l) l) in *. rewrite l2_norm_R in A6.
    rewrite <- (sqrt_sqrt (rsum (map (fun v => v * v) l'))), A6; [ring|].
    apply rsum_nonneg. intros y J. apply in_map_iff in J. destruct J as (w & <- & _). apply Rle_0_sqr.
Qed.

Theorem linf_project b x phi l : sound b -> project b x = Ret (Ok phi) -> expands phi l -> nonzero l ->
  exists psi z, 0 < z /\ max_abs l z /\
    project (BLinf b) x = Ret (Ok psi) /\ wf psi /\ is_sparse psi = is_sparse phi /\
    (forall i, stored psi i <-> stored phi i) /\
    expands psi (map (fun v => v / z) l) /\
    max_abs (map (fun v => v / z) l) 1 /\
    project (BLinf (BLinf b)) x = Ret (Ok psi) /\
    forall b' phi' c, sound b' -> project b' x = Ret (Ok phi') -> 0 < c -> expands phi' (map (Rmult c) l) ->
      exists psi', project (BLinf b') x = Ret (Ok psi') /\ expands psi' (map (fun v => v / z) l).
Proof.
  intros S E X Nz. destruct (normalise_basis linf_norm BLinf b x phi l) as (psi & A); auto using linf_norm_like.
  destruct A as (A1 & A2 & A3 & A4 & A5 & A6 & A7 & A8 & A9).
  exists psi, (linf_norm l). splits; auto.
  - apply linf_norm_R, nonzero_nonempty, Nz.
  - rewrite <- A6. apply linf_norm_R. intros C. apply map_eq_nil in C. subst. destruct Nz as (y & [] & _).
Qed.

(** ** L0 *)

Lemma keeps_sparse_div z : keeps_sparse (fun x : R => fdiv x z) = true.
Proof.
  unfold keeps_sparse. to_R. apply Rltb_true. unfold Rdiv at 1. rewrite Rmult_0_l, Rabs_R0.
  unfold sparsity_tol. to_R. lra.
Qed.

Theorem l0_project b x phi l : sound b -> project b x = Ret (Ok phi) -> expands phi l ->
  exists psi, project (BL0 b) x = Ret (Ok psi) /\ wf psi /\ is_sparse psi = is_sparse phi /\
    (is_sparse phi = true -> forall i, stored psi i <-> stored phi i) /\
    expands psi (map (fun v => v / INR (n_active phi)) l) /\
    (is_sparse phi = true -> (1 <= n_active phi)%nat -> (forall i v, stores phi i v -> v = 1) ->
      rsum (map (fun v => v / INR (n_active phi)) l) = 1).
Proof.
  intros S E X. destruct (project_dim b x phi S E) as [W D].
  destruct (fmap_spec phi (fun x => fdiv x (fofnat (n_active phi))) W) as (psi & Ep & Wp & Sz & V & St & Xp).
  rewrite keeps_sparse_div, andb_true_r in V. exists psi. splits; auto.
  - simpl. rewrite E. simpl. unfold l0_normalise. change (@fmap_into) with (@fmap). rewrite Ep. reflexivity.
  - intros Sp i. rewrite Sp in V. unfold stored. split.
    + intros [v Q]. apply St in Q; auto. destruct Q as (u & Q & _). eauto.
    + intros [v Q]. eexists. apply St; auto. eauto.
  - apply (Xp l X). right. left. to_R. unfold Rdiv. ring.
  - intros Sp A U. rewrite (rsum_scale (/ INR (n_active phi)) _ (fun v => v)) by (intros; unfold Rdiv; ring).
    rewrite <- (values_sum (fun v => v) phi l W X eq_refl), rsum_const_INR.
    + destruct phi as [da|[d m]]; [discriminate|]. simpl in *. unfold hm_values. rewrite map_length.
      field. apply not_0_INR. lia.
    + intros v I. apply values_in in I. destruct I as [i I]. eapply U, I.
Qed.
