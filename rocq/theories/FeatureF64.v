(** f64 reductions of features, whatever the order of summation (C03, C42). *)
From Coq Require Import List Arith ZArith Lia Reals Lra Permutation Bool.
From Flocq Require Import Core.Core IEEE754.BinarySingleNaN.
From Verif Require Import Base Scalar ScalarR ScalarF64 HMap HMapFacts NdArray VecFacts Features Spec
  FeatureFacts FeatureMore BasisFacts F64Facts NormReal NormF64 FeatureLast SumOrder OptimSpec.
Import ListNotations.
Local Open Scope R_scope.

Lemma rsum_filter {A} (p : A -> bool) (f : A -> R) l :
  (forall i, In i l -> p i = false -> f i = 0) -> rsum (map f (filter p l)) = rsum (map f l).
Proof.
  induction l as [|a l IH]; intros Z; simpl; auto.
  destruct (p a) eqn:E; simpl; rewrite IH by (intros; apply Z; simpl; auto); auto.
  rewrite (Z a) by (simpl; auto). lra.
Qed.

Lemma rsum_entries {F} `{Scalar F} (m : hmap F) d (g : nat -> F -> R) : hm_ok m ->
  (forall k, In k (hm_keys m) -> (k < d)%nat) -> (forall i, g i fzero = 0) ->
  rsum (map (fun kv => g (fst kv) (snd kv)) m) =
  rsum (map (fun i => g i (get_or_zero m i)) (seq 0 d)).
Proof.
  intros K B Z.
  rewrite (rsum_perm' _ _ (Permutation_map (fun kv => g (fst kv) (snd kv)) (enum_map m d K B))).
  rewrite map_map. simpl. apply rsum_filter. intros i _ E. apply hm_mem_false in E.
  unfold get_or_zero. rewrite (proj2 (hm_get_None m i) E). apply Z.
Qed.

Lemma b_real_fzero P : b_real (@fzero f64 (ScalarF64 P)) = 0.
Proof. rewrite fzero_f64. reflexivity. Qed.

Lemma keys_le (m : hmap f64) d : hm_ok m -> (forall k, In k (hm_keys m) -> (k < d)%nat) -> (length m <= d)%nat.
Proof.
  intros K B. rewrite <- (map_length fst m). rewrite <- (seq_length d 0).
  apply NoDup_incl_length; auto. intros k I. apply in_seq. specialize (B k I). lia.
Qed.

Lemma pow_uro_le n m : (n <= m)%nat -> (1 + uro) ^ n <= (1 + uro) ^ m.
Proof. intros L. apply Rle_pow; auto. pose proof uro_pos. lra. Qed.

Theorem fsum_f64_error P (phi : Features f64) l : any_order P -> wf phi ->
  @expands f64 (ScalarF64 P) phi l ->
  let s := @fsum f64 (ScalarF64 P) phi in
  b_finite s = true ->
  Rabs (b_real s - rsum (map b_real l)) <=
  ((1 + uro) ^ size phi - 1) * rsum (map (fun x => Rabs (b_real x)) l).
Proof.
  intros [AO _] [K B] X s Fs. destruct phi as [da|[d m]].
  - apply expands_dense in X. subst l. pose proof (adds_error da s (AO da) Fs) as E.
    unfold abs_sum in E. rewrite map_map in E. exact E.
  - rewrite bounded_sparse in B. apply expands_map in X; auto. subst l.
    assert (A : adds (hm_values m) s).
    { unfold s. simpl. rewrite fzero_f64. apply adds_fold0. }
    pose proof (adds_error _ s A Fs) as E. unfold abs_sum, hm_values in E.
    rewrite !map_map, map_length in E. rewrite !map_map.
    rewrite (@rsum_entries f64 (ScalarF64 P) m d (fun _ x => b_real x) K B) in E
      by (intros; apply b_real_fzero).
    rewrite (@rsum_entries f64 (ScalarF64 P) m d (fun _ x => Rabs (b_real x)) K B) in E
      by (intros; rewrite b_real_fzero; apply Rabs_R0).
    eapply Rle_trans; [exact E|]. apply Rmult_le_compat_r.
    + apply (rsum_nonneg). intros x I. apply in_map_iff in I. destruct I as (i & <- & _). apply Rabs_pos.
    + pose proof (pow_uro_le _ _ (keys_le m d K B)). simpl size. lra.
Qed.

(** Two representations of the same content. *)
Theorem fsum_f64_layouts P (phi psi : Features f64) l : any_order P -> wf phi -> wf psi ->
  @expands f64 (ScalarF64 P) phi l -> @expands f64 (ScalarF64 P) psi l ->
  let s := @fsum f64 (ScalarF64 P) phi in
  let t := @fsum f64 (ScalarF64 P) psi in
  b_finite s = true -> b_finite t = true ->
  Rabs (b_real s - b_real t) <=
  2 * ((1 + uro) ^ length l - 1) * rsum (map (fun x => Rabs (b_real x)) l).
Proof.
  intros AO Wp Wq Xp Xq s t Fs Ft.
  pose proof (fsum_f64_error P phi l AO Wp Xp Fs) as E1.
  pose proof (fsum_f64_error P psi l AO Wq Xq Ft) as E2.
  rewrite <- (proj1 Xp) in E1. rewrite <- (proj1 Xq) in E2. fold s in E1. fold t in E2.
  replace (b_real s - b_real t) with
    ((b_real s - rsum (map b_real l)) - (b_real t - rsum (map b_real l))) by ring.
  eapply Rle_trans; [apply Rabs_triang|]. rewrite Rabs_Ropp. lra.
Qed.

(** ** dot *)

(** Sum of rounded products against the exact inner product. *)
Lemma products_error {A} (g h : A -> f64) L z : adds (map (fun i => b_mul (g i) (h i)) L) z ->
  b_finite z = true ->
  Rabs (b_real z - rsum (map (fun i => b_real (g i) * b_real (h i)) L)) <=
  ((1 + uro) ^ S (length L) - 1) * rsum (map (fun i => Rabs (b_real (g i) * b_real (h i))) L)
  + (1 + uro) ^ length L * (INR (length L) * eta64).
Proof.
  intros Ad Fz. pose proof (adds_error _ _ Ad Fz) as E. rewrite map_length in E.
  pose proof (adds_finite _ _ Ad Fz) as Fi. unfold abs_sum in E. rewrite !map_map in E.
  assert (G : Rabs (rsum (map (fun i => b_real (b_mul (g i) (h i))) L) -
                    rsum (map (fun i => b_real (g i) * b_real (h i)) L)) <=
              uro * rsum (map (fun i => Rabs (b_real (g i) * b_real (h i))) L) + INR (length L) * eta64 /\
    rsum (map (fun i => Rabs (b_real (b_mul (g i) (h i)))) L) <=
      (1 + uro) * rsum (map (fun i => Rabs (b_real (g i) * b_real (h i))) L) + INR (length L) * eta64 /\
    0 <= rsum (map (fun i => Rabs (b_real (g i) * b_real (h i))) L)).
  { clear E Ad Fz. induction L as [|a L IH]; cbn [map length].
    - simpl. rewrite Rminus_0_r, Rabs_R0. lra.
    - destruct IH as (I1 & I2 & I3). { intros y Iy. apply Fi. right. exact Iy. }
      rewrite S_INR. cbn [rsum fold_right]. fold (rsum (map (fun i => b_real (b_mul (g i) (h i))) L)).
      fold (rsum (map (fun i => b_real (g i) * b_real (h i)) L)).
      fold (rsum (map (fun i => Rabs (b_real (g i) * b_real (h i))) L)).
      fold (rsum (map (fun i => Rabs (b_real (b_mul (g i) (h i)))) L)).
      destruct (b_mul_error (g a) (h a)) as (d & e & D & Ee & Q); [apply Fi; left; reflexivity|].
      set (q := b_real (b_mul (g a) (h a))) in *. set (p := b_real (g a) * b_real (h a)) in *.
      assert (Dq : Rabs (q - p) <= uro * Rabs p + eta64).
      { replace (q - p) with (p * d + e) by (rewrite Q; ring).
        eapply Rle_trans; [apply Rabs_triang|]. rewrite Rabs_mult.
        assert (Rabs p * Rabs d <= Rabs p * uro) by (apply Rmult_le_compat_l; auto using Rabs_pos). lra. }
      assert (Dq2 : Rabs q <= (1 + uro) * Rabs p + eta64).
      { replace q with (p + (q - p)) by ring. eapply Rle_trans; [apply Rabs_triang|]. lra. }
      pose proof (Rabs_pos p). splits; try lra.
      set (S1 := rsum (map (fun i => b_real (b_mul (g i) (h i))) L)) in *.
      set (S2 := rsum (map (fun i => b_real (g i) * b_real (h i)) L)) in *.
      replace (q + S1 - (p + S2)) with ((q - p) + (S1 - S2)) by ring.
      eapply Rle_trans; [apply Rabs_triang|]. lra. }
  destruct G as (G1 & G2 & G3).
  set (S1 := rsum (map (fun i => b_real (b_mul (g i) (h i))) L)) in *.
  set (S2 := rsum (map (fun i => b_real (g i) * b_real (h i)) L)) in *.
  set (T1 := rsum (map (fun i => Rabs (b_real (b_mul (g i) (h i)))) L)) in *.
  set (T2 := rsum (map (fun i => Rabs (b_real (g i) * b_real (h i))) L)) in *.
  set (p := (1 + uro) ^ length L) in *. assert (P1 : 1 <= p) by apply pow_1_uro.
  change ((1 + uro) ^ S (length L)) with ((1 + uro) * p).
  replace (b_real z - S2) with ((b_real z - S1) + (S1 - S2)) by ring.
  eapply Rle_trans; [apply Rabs_triang|].
  assert (X : (p - 1) * T1 <= (p - 1) * ((1 + uro) * T2 + INR (length L) * eta64))
    by (apply Rmult_le_compat_l; lra).
  nra.
Qed.

Lemma map2_seq {A B C} (f : A -> B -> C) a0 b0 : forall a b, length a = length b ->
  map2 f a b = map (fun i => f (nth i a a0) (nth i b b0)) (seq 0 (length a)).
Proof.
  induction a as [|x a IH]; intros [|y b] L; try discriminate; auto.
  simpl. f_equal. rewrite <- seq_shift, map_map. apply IH. simpl in L. lia.
Qed.

Lemma combine_seq {A B} (a0 : A) (b0 : B) : forall a b, length a = length b ->
  combine a b = map (fun i => (nth i a a0, nth i b b0)) (seq 0 (length a)).
Proof.
  induction a as [|x a IH]; intros [|y b] L; try discriminate; auto.
  simpl. f_equal. rewrite <- seq_shift, map_map. apply IH. simpl in L. lia.
Qed.

Theorem dot_f64_error P (phi : Features f64) l w s : any_order P -> wf phi ->
  @expands f64 (ScalarF64 P) phi l -> length w = size phi ->
  @dot f64 (ScalarF64 P) phi w = Ret s -> b_finite s = true ->
  Rabs (b_real s - rdot (map b_real l) (map b_real w)) <=
  ((1 + uro) ^ S (size phi) - 1) * rdot (map (fun x => Rabs (b_real x)) l) (map (fun x => Rabs (b_real x)) w)
  + (1 + uro) ^ size phi * (INR (size phi) * eta64).
Proof.
  intros [_ AO] [K B] X Lw E Fs.
  assert (Ll : length l = size phi) by apply X.
  assert (Rd : forall f : f64 -> R, f b_zero = 0 -> rdot (map f l) (map f w) =
    rsum (map (fun i => f (nth i l b_zero) * f (nth i w b_zero)) (seq 0 (size phi)))).
  { intros f Z. rewrite rdot_seq by (rewrite !map_length; congruence). rewrite map_length, Ll.
    f_equal. apply map_ext. intros i. rewrite <- !(map_nth f), Z. reflexivity. }
  pose proof (Rd b_real eq_refl) as R1. pose proof (Rd (fun x => Rabs (b_real x)) Rabs_R0) as R2.
  change f64 with (binary_float 53 1024) in R1, R2. change f64 with (binary_float 53 1024). rewrite R1, R2.
  clear Rd R1 R2. change (binary_float 53 1024) with f64.
  destruct phi as [da|[d m]].
  - apply expands_dense in X. subst l. simpl in E. unfold dot1 in E. simpl size in *.
    rewrite (proj2 (Nat.eqb_eq _ _)) in E by auto. injection E as <-.
    pose proof (dots_error _ _ (AO da w (eq_sym Lw)) Fs) as Er. rewrite (combine_seq b_zero b_zero) in Er by auto.
    unfold abs_sum in Er. rewrite !map_map, map_length, seq_length in Er. unfold prod_of in Er. cbn [fst snd] in Er.
    rewrite (map_ext (fun i => Rabs (b_real (nth i da b_zero)) * Rabs (b_real (nth i w b_zero)))
      (fun i => Rabs (b_real (nth i da b_zero) * b_real (nth i w b_zero))))
      by (intros; symmetry; apply Rabs_mult).
    exact Er.
  - rewrite bounded_sparse in B. apply expands_map in X; auto. simpl size in *.
    apply dot_f64_fold in E. subst s.
    pose proof (adds_fold0 (dot_terms m w)) as Ad. unfold dot_terms in Ad at 1.
    pose proof (products_error (fun kv => nth (fst kv) w b_zero) snd m _ Ad Fs) as Er. cbv beta in Er.
    assert (En : forall i, (i < d)%nat -> nth i l b_zero = @get_or_zero f64 (ScalarF64 P) m i).
    { intros i Li. subst l. apply nth_map_seq, Li. }
    rewrite (@rsum_entries f64 (ScalarF64 P) m d (fun i x => b_real (nth i w b_zero) * b_real x) K B) in Er
      by (intros; rewrite b_real_fzero; lra).
    rewrite (@rsum_entries f64 (ScalarF64 P) m d (fun i x => Rabs (b_real (nth i w b_zero) * b_real x)) K B) in Er
      by (intros; rewrite b_real_fzero, Rmult_0_r; apply Rabs_R0).
    rewrite (map_ext_in (fun i => b_real (nth i l b_zero) * b_real (nth i w b_zero))
      (fun i => b_real (nth i w b_zero) * b_real (@get_or_zero f64 (ScalarF64 P) m i)))
      by (intros i I; apply in_seq in I; rewrite En by lia; ring).
    rewrite (map_ext_in (fun i => Rabs (b_real (nth i l b_zero)) * Rabs (b_real (nth i w b_zero)))
      (fun i => Rabs (b_real (nth i w b_zero) * b_real (@get_or_zero f64 (ScalarF64 P) m i))))
      by (intros i I; apply in_seq in I; rewrite En, Rabs_mult by lia; ring).
    set (T := rsum (map (fun i => Rabs _) (seq 0 d))) in *.
    assert (T0 : 0 <= T).
    { unfold T. apply rsum_nonneg. intros x I. apply in_map_iff in I. destruct I as (i & <- & _). apply Rabs_pos. }
    pose proof (keys_le m d K B) as Lm.
    eapply Rle_trans; [exact Er|]. apply Rplus_le_compat.
    + apply Rmult_le_compat_r; auto. pose proof (pow_uro_le (S (length m)) (S d) ltac:(lia)). lra.
    + pose proof eta64_pos. pose proof (pos_INR (length m)). pose proof (le_INR _ _ Lm).
      apply Rmult_le_compat; try (apply pow_uro_le; auto).
      * pose proof (pow_1_uro (length m)). lra.
      * apply Rmult_le_pos; lra.
      * apply Rmult_le_compat_r; lra.
Qed.

(** ** dot with zero weights *)

Theorem dot_f64_zeros P (phi : Features f64) n : any_order P -> sized n phi -> finite_features phi ->
  exists z, @dot f64 (ScalarF64 P) phi (@zeros f64 (ScalarF64 P) n) = Ret z /\
    b_real z = 0 /\ b_finite z = true /\ Beqb z b_zero = true.
Proof.
  intros [_ AO] [[K B] Z] Fp.
  assert (Lz : length (@zeros f64 (ScalarF64 P) n) = n) by apply repeat_length.
  assert (Iz : forall x, In x (@zeros f64 (ScalarF64 P) n) -> is_zero x).
  { intros x I. apply repeat_spec in I. subst. rewrite fzero_f64. eexists; reflexivity. }
  enough (H : exists z, @dot f64 (ScalarF64 P) phi (@zeros f64 (ScalarF64 P) n) = Ret z /\ is_zero z).
  { destruct H as (z & E & Iz'). exists z. split; auto. apply is_zero_real, Iz'. }
  destruct phi as [da|[d m]].
  - simpl in *. unfold dot1. rewrite Lz, (proj2 (Nat.eqb_eq _ _) Z). eexists. split; [reflexivity|].
    eapply dots_zeros; [apply AO; congruence|].
    intros a b I. split; [|apply Iz; exact (in_combine_r _ _ _ _ I)].
    apply in_combine_l, In_nth_error in I. destruct I as [i I]. apply (Fp i a). exact I.
  - rewrite bounded_sparse in B. simpl in Z, K. subst d. simpl. unfold dot_sparse. simpl sa_acts.
    assert (G : forall m' acc, incl m' m -> is_zero acc -> exists z,
      ofold (fun acc kv => let* w := vget (@zeros f64 (ScalarF64 P) n) (fst kv) in
               Ret (b_add acc (b_mul w (snd kv)))) m' acc = Ret z /\ is_zero z).
    { induction m' as [|[k v] m' IH]; intros acc Im Ia; simpl.
      - exists acc. auto.
      - destruct (vget_lt (@zeros f64 (ScalarF64 P) n) k) as (x & E & N).
        { rewrite Lz. apply B. apply (in_map fst m (k, v)), Im. left. auto. }
        rewrite E. simpl. apply IH. { intros y I. apply Im. right. auto. }
        apply b_add_is_zero; auto. apply b_mul_is_zero_l.
        + apply (Fp k v). apply Im. left. auto.
        + apply Iz. eapply nth_error_In; eauto. }
    apply G; [apply incl_refl|]. rewrite fzero_f64. eexists; reflexivity.
Qed.
