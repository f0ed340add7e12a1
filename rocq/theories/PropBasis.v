(** C16-C30, C53, C54: bases and projections. Statements only; proofs are in
    BasisFacts.v, CoeffFacts.v, CoeffSort.v, BasisReal.v, TileFacts.v, NormReal.v, NormF64.v,
    NormL2F64.v and ErrorFacts.v. *)
From Coq Require Import String List Arith ZArith Lia Permutation Bool Sorting.Sorted Reals Lra.
From Flocq Require Import Core.Core IEEE754.BinarySingleNaN.
From Verif Require Import Base Scalar ScalarR ScalarF64 HMap HMapFacts NdArray VecFacts
  Features Spec FeatureFacts FeatureMore F64Facts Coeffs CoeffFacts CoeffSort Kernels TileCoding Basis
  BasisFacts BasisReal TileFacts NormReal NormF64 NormL2F64 ErrorFacts PropFeatures.
Import ListNotations.

(** Running examples. A grid over two axes split in 2 and 3 at the integers,
    and a hasher. *)
Definition axis (n : nat) : equipartition R :=
  MkEqui n (fun x => Nat.min (n - 1) (Z.to_nat (Int_part x))) 1%R (map INR (seq 0 n)).
Definition ex_grid : basis R := grid_new [axis 2; axis 3].
Definition ex_tree : basis R :=
  with_bias (BStack (BL2 (polynomial_new 2 1)) (BStack ex_grid (BFixedSparse 4 [2; 0]))).
Definition ex_hasher : hasher := MkHasher N 7%N (fun s z => (s * 31 + Z.to_N (z + 100)) mod 1009)%N (fun s => s).

Lemma axis_in n : 1 <= n -> forall x, ep_map_onto (axis n) x < ep_n (axis n).
Proof. intros L x. simpl. lia. Qed.

Example ex_tree_sound : sound ex_tree.
Proof.
  unfold ex_tree, ex_grid, grid_new, with_bias. cbn [sound bias_unit polynomial_new map fold_right].
  repeat split.
  - intros e x [<-|[<-|[]]]; apply axis_in; lia.
  - repeat constructor; simpl; intuition lia.
  - simpl. intros i [<-|[<-|[]]]; lia.
Qed.

Lemma Int_part_IZR z : Int_part (IZR z) = z.
Proof.
  unfold Int_part. rewrite <- (tech_up (IZR z) (z + 1)); [lia| |]; rewrite plus_IZR; lra.
Qed.

Example ex_grid_project : forall i j : nat, i < 2 -> j < 3 ->
  project ex_grid [INR i; INR j] = Ret (Ok (Sparse (MkSparse 6 [(j + 3 * i, fone)]))).
Proof.
  intros i j Li Lj. unfold ex_grid, grid_new. cbn [project grid_hash combine fold_left fst snd ep_map_onto ep_n axis].
  rewrite !INR_IZR_INZ, !Int_part_IZR, !Nat2Z.id.
  rewrite (Nat.min_r (2 - 1) i), (Nat.min_r (3 - 1) j) by lia. reflexivity.
Qed.

(** ** C16 *)

Theorem C16_dimension : forall F `{Scalar F} (b : basis F) x phi,
  sound b -> project b x = Ret (Ok phi) -> wf phi /\ size phi = dim b.
Proof. exact @project_dim. Qed.
Print Assumptions C16_dimension.

(** [Fixed::sparse] does not check its indices. *)
Theorem C16_fixed_sparse_refuted : forall F `{Scalar F}, exists (b : basis F) phi,
  (forall x, project b x = Ret (Ok phi)) /\ size phi = dim b /\ ~ bounded phi.
Proof.
  intros F S. exists (BFixedSparse 2 [5]), (Sparse (MkSparse 2 [(5, fone)])).
  split; [reflexivity|]. split; [reflexivity|]. intros B.
  specialize (B 5 (ex_intro _ fone (or_introl eq_refl))). simpl in B. lia.
Qed.
Print Assumptions C16_fixed_sparse_refuted.

Example C16_case : sound ex_tree /\ dim ex_tree = 3 + (6 + 4) + 1 /\
  exists phi, project ex_tree [INR 0; INR 2] = Ret (Ok phi).
Proof.
  split; [exact ex_tree_sound|]. split; [reflexivity|]. eexists.
  unfold ex_tree, with_bias. cbn [project].
  change (@project R _ (grid_new [axis 2; axis 3])) with (project ex_grid). rewrite ex_grid_project by lia.
  reflexivity.
Qed.

(** ** C17 *)

Theorem C17_ith_project : forall F `{Scalar F} (b : basis F) x phi l i, sound b -> pointwise b ->
  project b x = Ret (Ok phi) -> expands phi l -> i < dim b ->
  exists v, ith b x i = Some (Ret (Ok v)) /\ nth_error l i = Some v.
Proof. exact @ith_project. Qed.
Print Assumptions C17_ith_project.

(** A normaliser's [ith] agrees at the stored indices and panics at the others. *)
Theorem C17_ith_normaliser : forall F `{Scalar F} N (b : basis F) x phi psi l i,
  normaliser N -> sound b -> project b x = Ret (Ok phi) -> project (N b) x = Ret (Ok psi) ->
  expands psi l -> i < dim b ->
  (stored phi i -> exists v, ith (N b) x i = Some (Ret (Ok v)) /\ nth_error l i = Some v) /\
  (~ stored phi i -> ith (N b) x i = Some Panic).
Proof. exact @ith_normaliser. Qed.
Print Assumptions C17_ith_normaliser.

(** [Fixed::dense]: an error for every index from 1 on, in range or not. *)
Theorem C17_fixed_dense_refuted : forall F `{Scalar F} (l : list F) x i, 1 <= i < length l ->
  i < dim (BFixedDense l) /\ ith (BFixedDense l) x i = Some (Ret (Err (index_error i 1))).
Proof.
  intros F S l x i L. split; [simpl; lia|]. rewrite ith_fixed_dense.
  destruct (Nat.eqb_spec i 0); [lia|reflexivity].
Qed.
Print Assumptions C17_fixed_dense_refuted.

(** The trait's default [ith], for user-defined bases: it reads the projection
    through [Index], which is right for dense features; for sparse ones it gives 1
    at every stored index, so it is right exactly if all stored activations are 1.
    An index beyond [dim] is an error and the projection is not computed. *)
Theorem C17_default : forall F `{Scalar F} n phi l, wf phi -> size phi = n -> expands phi l ->
  (forall i v, nth_error l i = Some v -> is_sparse phi = false -> default_ith n (Ret (Ok phi)) i = Ret (Ok v)) /\
  (forall i, is_sparse phi = true -> stored phi i -> default_ith n (Ret (Ok phi)) i = Ret (Ok fone)) /\
  (forall i, is_sparse phi = true -> ~ stored phi i -> i < n -> default_ith n (Ret (Ok phi)) i = Ret (Ok fzero)) /\
  (is_sparse phi = true -> ((forall i v, nth_error l i = Some v -> default_ith n (Ret (Ok phi)) i = Ret (Ok v)) <->
     forall i v, stores phi i v -> v = fone)) /\
  (forall i prj, n <= i -> default_ith n prj i = Ret (Err (index_error i n))) /\
  (forall i, i < n -> default_ith (F := F) n Panic i = Panic) /\
  (forall i e, i < n -> default_ith (F := F) n (Ret (Err e)) i = Ret (Err e)).
Proof.
  intros F S n phi l W Z X.
  assert (St : forall i, is_sparse phi = true -> stored phi i -> default_ith n (Ret (Ok phi)) i = Ret (Ok fone)).
  { intros i Sp Si. pose proof (proj2 W i Si) as L. unfold default_ith, check_index. destruct (Nat.ltb_spec i n); [|lia]. cbn [obind rmap].
    destruct phi as [da|[d m]]; [discriminate|]. cbn [index sa_acts]. rewrite stored_key in Si. rewrite (proj2 (hm_mem_In m i) Si). reflexivity. }
  assert (Ns : forall i, is_sparse phi = true -> ~ stored phi i -> i < n -> default_ith n (Ret (Ok phi)) i = Ret (Ok fzero)).
  { intros i Sp Si L. unfold default_ith, check_index. destruct (Nat.ltb_spec i n); [|lia]. cbn [obind rmap].
    destruct phi as [da|[d m]]; [discriminate|]. cbn [index sa_acts]. rewrite stored_key in Si.
    destruct (hm_mem m i) eqn:M; [|reflexivity]. apply (hm_mem_In m i) in M. contradiction. }
  assert (Ln : forall i v, nth_error l i = Some v -> i < n).
  { intros i v E. rewrite <- Z, <- (proj1 X). apply nth_error_Some. congruence. }
  splits; auto.
  - intros i v E D. unfold default_ith, check_index. destruct (Nat.ltb_spec i n) as [L|L]; [|specialize (Ln i v E); lia]. cbn [obind rmap].
    destruct phi as [da|]; [|discriminate]. cbn [index]. destruct (proj2 X i v E) as [G|[Nd _]].
    + cbn in G. unfold vget. rewrite G. reflexivity.
    + exfalso. apply Nd. destruct (nth_error da i) as [q|] eqn:Q; [exists q; exact Q|]. apply nth_error_None in Q. cbn in Z. lia.
  - intros Sp. split.
    + intros H i v G. assert (Si : stored phi i) by (exists v; exact G). pose proof (proj2 W i Si) as L.
      destruct (nth_error l i) as [q|] eqn:Q.
      * pose proof (H i q Q) as E. rewrite (St i Sp Si) in E. injection E as <-. destruct (proj2 X i _ Q) as [G'|[Nd _]]; [|contradiction].
        apply (get_stores phi i _ (proj1 W)) in G. apply (get_stores phi i _ (proj1 W)) in G'. congruence.
      * apply nth_error_None in Q. rewrite (proj1 X) in Q. lia.
    + intros H i v E. destruct (proj2 X i v E) as [G|[Nd ->]].
      * rewrite (H i v G). apply St; [exact Sp|exists v; exact G].
      * apply Ns; eauto.
  - intros i prj L. unfold default_ith, check_index. destruct (Nat.ltb_spec i n); [lia|reflexivity].
  - intros i L. unfold default_ith, check_index. destruct (Nat.ltb_spec i n); [reflexivity|lia].
  - intros i e L. unfold default_ith, check_index. destruct (Nat.ltb_spec i n); [reflexivity|lia].
Qed.
Print Assumptions C17_default.

Example C17_default_case : wf (Sparse (MkSparse 3 [(1, 2%R)])) /\ expands (Sparse (MkSparse 3 [(1, 2%R)])) [fzero; 2%R; fzero] /\
  default_ith 3 (Ret (Ok (Sparse (MkSparse 3 [(1, 2%R)])))) 1 = Ret (Ok fone).
Proof.
  splits.
  - split; [repeat constructor; simpl; tauto|]. intros i [v [E|[]]]. injection E as <- <-. cbn. lia.
  - split; [reflexivity|]. intros [|[|[|i]]] v E; cbn in E; try (destruct i; discriminate E); injection E as <-.
    + right. split; [|reflexivity]. intros [v [E|[]]]. discriminate E.
    + left. left. reflexivity.
    + right. split; [|reflexivity]. intros [v [E|[]]]. discriminate E.
  - reflexivity.
Qed.

Example C17_case : pointwise (BStack ex_grid (BFixedSparse 4 [2; 0])) /\
  project (BStack ex_grid (BFixedSparse 4 [2; 0])) [INR 1; INR 2] =
    Ret (Ok (Sparse (MkSparse 10 [(5, fone); (8, fone); (6, fone)]))) /\
  ith (BStack ex_grid (BFixedSparse 4 [2; 0])) [0; 2]%R 8 = Some (Ret (Ok fone)).
Proof.
  split; [repeat split|]. split; [|reflexivity]. cbn [project].
  rewrite ex_grid_project by lia. reflexivity.
Qed.

Example C17_normaliser_case : normaliser (@BL1 R) /\
  (exists phi psi, project ex_grid [0; 2]%R = Ret (Ok phi) /\ project (BL1 ex_grid) [0; 2]%R = Ret (Ok psi)) /\
  ith (BL1 (BFixedSparse 4 [2; 0] : basis R)) [] 1 = Some Panic.
Proof. split; [unfold normaliser; auto|]. split; [do 2 eexists; split; reflexivity|reflexivity]. Qed.

(** ** C18 *)

Theorem C18_out_of_range : forall F `{Scalar F} (b : basis F) x i r, dim b <= i -> ith b x i = Some r ->
  r = (match b with
       | BFixedDense l => if i =? 0 then Panic else Ret (Err (index_error i 1))
       | _ => Ret (Err (index_error i (dim b)))
       end).
Proof. exact @ith_out_of_range. Qed.
Print Assumptions C18_out_of_range.

(** Every composition without a closure has an [ith]. *)
Theorem C18_defined : forall F `{Scalar F} (b : basis F) x i, pointwise b -> exists r, ith b x i = Some r.
Proof. intros. apply pointwise_some. assumption. Qed.
Print Assumptions C18_defined.

Example C18_case : dim ex_tree = 14 /\
  ith ex_tree [] 14 = Some (Ret (Err (index_error 14 14))) /\
  ith (BFixedDense ([] : list R)) [] 0 = Some Panic.
Proof. repeat split. Qed.

(** ** C19 *)

Theorem C19_enumeration : forall order dim,
  (forall v, In v (compute_coefficients order dim) <->
     length v = dim /\ Forall (fun k => k <= order) v /\ exists k, In k v /\ k <> 0) /\
  StronglySorted lex_lt (compute_coefficients order dim) /\
  NoDup (compute_coefficients order dim) /\
  length (compute_coefficients order dim) = (order + 1) ^ dim - 1.
Proof. exact compute_coefficients_spec. Qed.
Print Assumptions C19_enumeration.

Theorem C19_unique : forall k d es, enumeration k d es -> es = compute_coefficients k d.
Proof. exact enumeration_unique. Qed.
Print Assumptions C19_unique.

Theorem C19_sizes : forall F `{Scalar F} k d (limits : list (F * F)),
  dim (polynomial_new d k : basis F) = (k + 1) ^ d - 1 /\
  dim (fourier_new k limits) = (k + 1) ^ length limits - 1 /\
  forall b, chebyshev_new k limits = Ret b -> dim b = (k + 1) ^ length limits - 1.
Proof.
  intros F S k d limits.
  assert (L : forall n, length (compute_coefficients k n) = (k + 1) ^ n - 1)
    by (intros n; apply compute_coefficients_spec).
  split; [apply L|]. split; [simpl; rewrite map_length; apply L|].
  intros b E. unfold chebyshev_new in E. destruct (11 <? k); [discriminate|].
  unfold make_polynomials in E. destruct (omapM (omapM cheb_fn) (compute_coefficients k (length limits))) as [ps|] eqn:M;
    simpl in E; [|discriminate]. inversion E. simpl. rewrite (omapM_length _ _ _ M). apply L.
Qed.
Print Assumptions C19_sizes.

(** The sort and the removal of repetitions, on any vectors of one length and in any order. *)
Theorem C19_sort : forall d l, Forall (fun v => length v = d) l ->
  Permutation (lex_sort l) l /\
  StronglySorted lex_lt (dedup (lex_sort l)) /\
  (forall v, In v (dedup (lex_sort l)) <-> In v l).
Proof. intros d l Fl. split; [apply lex_sort_perm|exact (sort_dedup d l Fl)]. Qed.
Print Assumptions C19_sort.

Example C19_case : compute_coefficients 2 2 =
  [[0; 1]; [0; 2]; [1; 0]; [1; 1]; [1; 2]; [2; 0]; [2; 1]; [2; 2]].
Proof. reflexivity. Qed.

Example C19_sort_case :
  lex_sort [[2; 0]; [0; 1]; [2; 0]; [0; 1]; [1; 5]] = [[0; 1]; [0; 1]; [1; 5]; [2; 0]; [2; 0]] /\
  dedup (lex_sort [[2; 0]; [0; 1]; [2; 0]; [0; 1]; [1; 5]]) = [[0; 1]; [1; 5]; [2; 0]].
Proof. repeat split. Qed.

(** ** C20 *)

Theorem C20_monomials : forall d k x es, enumeration k d es ->
  project (polynomial_new d k) x = Ret (Ok (Dense (map (monomial x) es))) /\
  dim (F := R) (polynomial_new d k) = (k + 1) ^ d - 1.
Proof. exact polynomial_project. Qed.
Print Assumptions C20_monomials.

Theorem C20_with_zeroth : forall d k x es, enumeration k d es ->
  (polynomial_with_zeroth es = Panic <-> d = 0 \/ k = 0) /\
  forall es', polynomial_with_zeroth es = Ret es' ->
    project (F := R) (BPolynomial k es') x = Ret (Ok (Dense (map (monomial x) es ++ [1%R]))).
Proof. exact polynomial_zeroth. Qed.
Print Assumptions C20_with_zeroth.

Example C20_case : enumeration 1 2 [[0; 1]; [1; 0]; [1; 1]] /\
  monomial [3; 5]%R [1; 1] = 15%R /\ monomial [3; 5]%R [0; 1] = 5%R.
Proof. split; [exact (coefficients_enumerate 1 2)|]. unfold monomial, rprod. simpl. split; ring. Qed.

(** ** C21 *)

Theorem C21_projection : forall k limits es, enumeration k (length limits) es ->
  (chebyshev_new k limits = Panic <-> 11 < k) /\
  forall b, chebyshev_new k limits = Ret b -> dim b = (k + 1) ^ length limits - 1 /\
    forall x, project b x = Ret (Ok (Dense (map (cheb_product (to_unit x limits)) es))).
Proof. exact chebyshev_project. Qed.
Print Assumptions C21_projection.

Theorem C21_polynomials : forall i, i <= 11 ->
  exists f : R -> R, cheb_fn i = Ret f /\ (forall x, f x = cheb i x) /\
    forall t, f (cos t) = cos (INR i * t).
Proof.
  intros i L. destruct (cheb_fn_spec i L) as (f & E & V). exists f. split; auto. split; auto.
  intros t. rewrite V. apply cheb_cos.
Qed.
Print Assumptions C21_polynomials.

Theorem C21_recurrence : forall x, cheb 0 x = 1%R /\ cheb 1 x = x /\
  forall n, cheb (S (S n)) x = (2 * x * cheb (S n) x - cheb n x)%R.
Proof. exact cheb_rec. Qed.
Print Assumptions C21_recurrence.

Theorem C21_inside : forall x limits ks, inside x limits ->
  cheb_product (to_unit x limits) ks =
    rprod (map2 (fun s k => cos (INR k * acos s)) (to_unit x limits) ks) /\
  (Rabs (cheb_product (to_unit x limits) ks) <= 1)%R.
Proof. exact chebyshev_inside. Qed.
Print Assumptions C21_inside.

Theorem C21_with_zeroth : forall limits k ps x l,
  project (F := R) (BChebyshev k limits ps) x = Ret (Ok (Dense l)) ->
  project (F := R) (BChebyshev k limits (chebyshev_with_zeroth limits ps)) x =
    Ret (Ok (Dense (l ++ [1%R]))).
Proof. exact chebyshev_zeroth. Qed.
Print Assumptions C21_with_zeroth.

Example C21_case : inside [3]%R [(2, 6)]%R /\ to_unit [3]%R [(2, 6)]%R = [(- (1 / 2))%R] /\
  cheb 2 (- (1 / 2)) = (- (1 / 2))%R.
Proof.
  split; [repeat constructor; simpl; lra|]. split; [unfold to_unit; cbn [map2 fst snd]; apply (f_equal (fun v => [v])); field|].
  unfold cheb. simpl. field.
Qed.

(** ** C22 *)

Theorem C22_projection : forall k limits es x, enumeration k (length limits) es ->
  project (fourier_new k limits) x = Ret (Ok (Dense (map (cosine (to_01 x limits)) es))) /\
  dim (F := R) (fourier_new k limits) = (k + 1) ^ length limits - 1.
Proof. exact fourier_project. Qed.
Print Assumptions C22_projection.

Theorem C22_bounded : forall ss cs, (-1 <= cosine ss cs <= 1)%R.
Proof. exact cosine_bound. Qed.
Print Assumptions C22_bounded.

Theorem C22_corner : forall limits cs, cosine (to_01 (map fst limits) limits) cs = 1%R.
Proof. exact fourier_corner. Qed.
Print Assumptions C22_corner.

Theorem C22_periodic : forall limits x (zs : list Z) cs,
  length x = length limits -> length zs = length limits ->
  Forall (fun l => fst l <> snd l) limits ->
  cosine (to_01 (map2 Rplus x (map2 (fun z l => 2 * IZR z * (snd l - fst l))%R zs limits)) limits) cs =
  cosine (to_01 x limits) cs.
Proof. exact fourier_periodic. Qed.
Print Assumptions C22_periodic.

Theorem C22_even : forall limits x cs, length x = length limits ->
  cosine (to_01 (map2 (fun v l => 2 * fst l - v)%R x limits) limits) cs = cosine (to_01 x limits) cs.
Proof. exact fourier_even. Qed.
Print Assumptions C22_even.

Example C22_case : cosine (to_01 [3; 5] [(2, 4); (5, 6)])%R [2; 7] = (-1)%R.
Proof.
  unfold cosine, to_01, rdot. simpl.
  replace (PI * ((1 + 1) * ((3 - 2) / (4 - 2)) + ((1 + 1 + 1 + 1 + 1 + 1 + 1) * ((5 - 5) / (6 - 5)) + 0)))%R
    with PI by field. apply cos_PI.
Qed.

(** ** C23 *)

Theorem C23_symmetric : forall k : kernel R,
  (forall x y, kernel_slice k x y = kernel_slice k y x) /\
  (forall x y, kernel_scalar k x y = kernel_scalar k y x).
Proof. exact kernel_symmetric. Qed.
Print Assumptions C23_symmetric.

Theorem C23_peak : forall k, peaked (k_kind k) -> (0 <= k_variance k)%R ->
  (forall x y, (Rabs (kernel_slice k x y) <= k_variance k)%R) /\
  (forall l x y, k_lengthscales k = [l] -> (0 < l)%R ->
     exists v, kernel_scalar k x y = Ret v /\ (Rabs v <= k_variance k)%R).
Proof. exact kernel_peak. Qed.
Print Assumptions C23_peak.

Theorem C23_self : forall k : kernel R,
  (forall x, kernel_slice k x x = k_variance k) /\
  (forall l ls x, k_lengthscales k = l :: ls -> kernel_scalar k x x = Ret (k_variance k)).
Proof. exact kernel_self. Qed.
Print Assumptions C23_self.

Theorem C23_formula : forall k : kernel R,
  (forall x y, kernel_slice k x y =
     (k_variance k * shape (k_kind k) (sqrt (sq_dist (k_lengthscales k) x y)))%R) /\
  (forall x y, kernel_scalar k x y =
     match k_lengthscales k with
     | [] => Panic
     | l :: _ => Ret (k_variance k * shape (k_kind k) (Rabs (x - y) / l))%R
     end).
Proof. exact kernel_formula. Qed.
Print Assumptions C23_formula.

(** The sqrt 3 in Matern52 makes it exceed its value at distance 0. *)
Theorem C23_matern52_refuted : forall variance l, (0 < variance)%R -> (0 < l)%R -> exists x y v,
  kernel_scalar (non_ard KMatern52 variance l) x y = Ret v /\ (variance < v)%R /\
  kernel_slice (non_ard KMatern52 variance l) [x] [y] = v.
Proof. exact matern52_overshoots. Qed.
Print Assumptions C23_matern52_refuted.

(** Coordinates beyond the lengthscales do not count. *)
Theorem C23_short_lengthscales : forall (k : kernel R) x y x' y',
  let n := length (k_lengthscales k) in
  firstn n x = firstn n x' -> firstn n y = firstn n y' -> kernel_slice k x y = kernel_slice k x' y'.
Proof. exact kernel_ignores. Qed.
Print Assumptions C23_short_lengthscales.

(** The default kernels: of scalars, and of slices, where only the first
    coordinate counts. The default RationalQuadratic has power 1 and
    lengthscale 2. *)
Theorem C23_defaults :
  (forall kind x y, kernel_scalar (kernel_default kind) x y = Ret (shape kind (Rabs (x - y)))) /\
  (forall kind a x b y, kernel_slice (kernel_default kind) (a :: x) (b :: y) = shape kind (Rabs (a - b))) /\
  (forall x y : R, kernel_scalar rational_quadratic_default x y = Ret (/ (1 + (x - y) ^ 2 / 8))%R) /\
  (forall (a : R) x b y, kernel_slice rational_quadratic_default (a :: x) (b :: y) = (/ (1 + (a - b) ^ 2 / 8))%R).
Proof. exact kernel_defaults. Qed.
Print Assumptions C23_defaults.

(** The constructors: which argument is the variance, which the lengthscale and
    which the power. *)
Theorem C23_constructors : forall (power variance l : R) ls, (0 < l)%R ->
  (forall x y, kernel_slice (rational_quadratic_new variance ls power) x y =
     (variance * Rpower (1 + sq_dist ls x y / 2) (- power))%R) /\
  (forall a x b y, kernel_slice (rational_quadratic_non_ard power variance l) (a :: x) (b :: y) =
     (variance * Rpower (1 + ((a - b) / l) ^ 2 / 2) (- power))%R) /\
  (forall x y, kernel_scalar (rational_quadratic_non_ard power variance l) x y =
     Ret (variance * Rpower (1 + ((x - y) / l) ^ 2 / 2) (- power))%R) /\
  (forall kind a x b y, kernel_slice (non_ard kind variance l) (a :: x) (b :: y) =
     (variance * shape kind (Rabs (a - b) / l))%R) /\
  (forall kind x y, kernel_scalar (non_ard kind variance l) x y = Ret (variance * shape kind (Rabs (x - y) / l))%R).
Proof.
  intros power variance l ls Pl.
  assert (Q : forall r, ((Rabs r / l) ^ 2 = (r / l) ^ 2)%R).
  { intros r. replace ((Rabs r / l) ^ 2)%R with (Rsqr (Rabs r) / l ^ 2)%R by (unfold Rsqr; field; lra).
    rewrite <- Rsqr_abs. unfold Rsqr. field. lra. }
  split; [|split; [|split; [|split]]]; intros.
  - rewrite (proj1 (kernel_formula _)). unfold rational_quadratic_new. cbn [k_variance k_kind k_lengthscales shape].
    rewrite pow2_sqrt by apply sq_dist_nonneg. reflexivity.
  - change (rational_quadratic_non_ard power variance l) with (non_ard (KRationalQuadratic power) variance l).
    rewrite distance_first by exact Pl. cbn [shape]. rewrite Q. reflexivity.
  - rewrite (proj2 (kernel_formula _)). unfold rational_quadratic_non_ard, rational_quadratic_new.
    cbn [k_variance k_kind k_lengthscales shape]. rewrite Q. reflexivity.
  - apply distance_first, Pl.
  - rewrite (proj2 (kernel_formula _)). reflexivity.
Qed.
Print Assumptions C23_constructors.

(** A kernel basis evaluates each prototype's kernel at its centroid. *)
Theorem C23_kernel_basis : forall F `{Scalar F} (ps : list (prototype F)) x,
  project (BKernel ps) x = Ret (Ok (Dense (map (fun p => kernel_slice (p_kernel p) x (p_centroid p)) ps))).
Proof. reflexivity. Qed.
Print Assumptions C23_kernel_basis.

Example C23_case : peaked (KRationalQuadratic 2%R) /\
  kernel_slice (non_ard KExpQuad 3%R 1%R) [1; 2]%R [1; 9]%R = 3%R.
Proof.
  split; [simpl; lra|]. unfold non_ard.
  rewrite (kernel_ignores _ [1; 2]%R [1; 9]%R [1]%R [1]%R) by reflexivity.
  apply kernel_self.
Qed.

(** ** C24 *)

Theorem C24_features : forall F `{Scalar F} bld h nt ms (x : list F) phi,
  project (BTile bld h nt ms) x = Ret (Ok phi) ->
  is_sparse phi = true /\ wf phi /\ size phi = ms /\
  (forall i v, stores phi i v -> v = fone) /\
  n_active phi <= nt /\ (1 <= nt -> 1 <= n_active phi).
Proof. exact @tile_features. Qed.
Print Assumptions C24_features.

Theorem C24_no_memory : forall F `{Scalar F} bld h nt (x : list F), 1 <= nt ->
  project (BTile bld h nt 0) x = Panic.
Proof. exact @tile_no_memory. Qed.
Print Assumptions C24_no_memory.

(** Away from the isize limits the call returns, in either build, and depends
    on the input only through its cells. *)
Theorem C24_same_cells : forall F `{Scalar F} bld bld' h nt ms (x y : list F),
  tame nt (bin_state x nt) -> tame nt (bin_state y nt) -> 1 <= ms ->
  (forall t, t < nt -> cells nt t 0 (bin_state x nt) = cells nt t 0 (bin_state y nt)) ->
  exists phi, project (BTile bld h nt ms) x = Ret (Ok phi) /\ project (BTile bld' h nt ms) y = Ret (Ok phi).
Proof. exact @tile_same_cells. Qed.
Print Assumptions C24_same_cells.

Example C24_case :
  let S := ScalarF64 SimplePlatform in
  let x := [b_dyadic 1 0; b_dyadic 5 (-2)] in
  @bin_state f64 S x 4 = [4; 5]%Z /\ tame 4 [4; 5]%Z /\
  map (fun t => cells 4 t 0 [4; 5]%Z) [0; 1; 2; 3] = [[1; 1]; [1; 2]; [1; 2]; [1; 3]]%Z /\
  match @project f64 S (BTile Checked ex_hasher 4 64) x with
  | Ret (Ok (Sparse sa)) => map fst (sa_acts sa)
  | _ => []
  end = [60; 26; 61; 40].
Proof.
  split; [vm_compute; reflexivity|]. split.
  { split; [lia|]. unfold isize_max, isize_min. split; [simpl; lia|]. intros s [<-|[<-|[]]]; simpl; lia. }
  split; vm_compute; reflexivity.
Qed.

(** ** C25 *)

Theorem C25_one_hot : forall F `{Scalar F} (space : list (equipartition F)) x phi, into_range space ->
  project (grid_new space) x = Ret (Ok phi) ->
  exists i, i < fold_right Nat.mul 1 (map ep_n space) /\
    phi = Sparse (MkSparse (fold_right Nat.mul 1 (map ep_n space)) [(i, fone)]) /\
    (forall j v, stores phi j v <-> j = i /\ v = fone).
Proof. exact @grid_project. Qed.
Print Assumptions C25_one_hot.

Theorem C25_panics : forall F `{Scalar F} (space : list (equipartition F)) x,
  (project (grid_new space) x = Panic <-> space = [] \/ x = []) /\
  (space <> [] -> x <> [] -> exists phi, project (grid_new space) x = Ret (Ok phi)).
Proof. intros F S space x. split; [apply grid_panic|apply grid_total]. Qed.
Print Assumptions C25_panics.

Theorem C25_cells : forall F `{Scalar F} (space : list (equipartition F)) x y,
  into_range space -> space <> [] -> length x = length space -> length y = length space ->
  (project (grid_new space) x = project (grid_new space) y <->
   map2 ep_map_onto space x = map2 ep_map_onto space y).
Proof. exact @grid_cells. Qed.
Print Assumptions C25_cells.

Theorem C25_onto : forall F `{Scalar F} (space : list (equipartition F)) i,
  i < fold_right Nat.mul 1 (map ep_n space) ->
  exists ps, Forall2 (fun p e => p < ep_n e) ps space /\
    forall x, length x = length space -> space <> [] -> map2 ep_map_onto space x = ps ->
      project (grid_new space) x =
        Ret (Ok (Sparse (MkSparse (fold_right Nat.mul 1 (map ep_n space)) [(i, fone)]))).
Proof.
  intros F S space i L. destruct (grid_onto space i L) as (ps & B & E). exists ps. split; [exact B|].
  intros x Lx N M. cbn [project grid_new]. rewrite (E x Lx N M). reflexivity.
Qed.
Print Assumptions C25_onto.

Theorem C25_surplus : forall F `{Scalar F} (space : list (equipartition F)) x extra,
  length x = length space -> space <> [] ->
  project (grid_new space) (x ++ extra) = project (grid_new space) x.
Proof. exact @grid_surplus. Qed.
Print Assumptions C25_surplus.

Example C25_case : into_range [axis 2; axis 3] /\
  project ex_grid [INR 1; INR 2] = Ret (Ok (Sparse (MkSparse 6 [(5, fone)]))) /\
  map2 ep_map_onto [axis 2; axis 3] [INR 1; INR 2] = [1; 2] /\ value [2; 3] [1; 2] = 5.
Proof.
  split; [intros e x [<-|[<-|[]]]; apply axis_in; lia|].
  split; [apply ex_grid_project; lia|]. split; [|reflexivity].
  cbn [map2 ep_map_onto axis]. rewrite !INR_IZR_INZ, !Int_part_IZR. reflexivity.
Qed.

(** ** C26 *)

Theorem C26_exact : forall b x phi l, sound b -> project b x = Ret (Ok phi) -> expands phi l -> nonzero l ->
  exists psi z, (0 < z)%R /\ z = rsum (map Rabs l) /\
    project (BL1 b) x = Ret (Ok psi) /\ wf psi /\ is_sparse psi = is_sparse phi /\
    (forall i, stored psi i <-> stored phi i) /\
    expands psi (map (fun v => v / z)%R l) /\
    rsum (map Rabs (map (fun v => v / z)%R l)) = 1%R /\
    project (BL1 (BL1 b)) x = Ret (Ok psi) /\
    forall b' phi' c, sound b' -> project b' x = Ret (Ok phi') -> (0 < c)%R -> expands phi' (map (Rmult c) l) ->
      exists psi', project (BL1 b') x = Ret (Ok psi') /\ expands psi' (map (fun v => v / z)%R l).
Proof. exact l1_project. Qed.
Print Assumptions C26_exact.

Theorem C26_f64 : forall P (phi : Features f64), keyed phi -> finite_features phi -> nonzero_features phi ->
  let psi := @normalise_by f64 (ScalarF64 P) (@l1_norm f64 (ScalarF64 P)) phi in
  (forall i, stored psi i <-> stored phi i) /\
  forall i v, stores psi i v -> b_finite v = true /\ (Rabs (b_real v) <= 1)%R.
Proof. exact l1_f64. Qed.
Print Assumptions C26_f64.

Theorem C26_f64_zero : forall P x (da : list f64), (forall v, In v da -> exists s, v = B754_zero s) ->
  @project f64 (ScalarF64 P) (BL1 (BFixedDense da)) x = Ret (Ok (Dense (repeat b_nan (length da)))).
Proof. intros P x da Z. cbn [project obind rmap]. rewrite l1_f64_zero by exact Z. reflexivity. Qed.
Print Assumptions C26_f64_zero.

Example C26_case : nonzero [3; 0; -1]%R /\
  expands (Dense [3; 0; -1]%R) [3; 0; -1]%R /\ rsum (map Rabs [3; 0; -1]%R) = 4%R.
Proof.
  split; [exists 3%R; simpl; split; [auto|lra]|]. split; [apply expands_dense; reflexivity|].
  unfold rsum. simpl. rewrite (Rabs_pos_eq 3), Rabs_R0, (Rabs_left (-1)) by lra. lra.
Qed.

Example C26_f64_case : let phi := Sparse (MkSparse 9 [(4, b_dyadic 1 1023); (2, b_dyadic 1 1023)]) in
  keyed phi /\ finite_features phi /\ nonzero_features phi.
Proof.
  cbv zeta. split; [keyed_tac|]. split.
  - intros i v [E|[E|[]]]; inversion E; vm_compute; reflexivity.
  - exists 4, (b_dyadic 1 1023). split; [simpl; auto|].
    assert (C : B2SF (b_dyadic 1 1023) = SpecFloat.S754_finite false 4503599627370496 971) by (vm_compute; reflexivity).
    destruct (b_dyadic 1 1023) as [s|s| |s m e B]; try discriminate. inversion C. subst.
    simpl. apply Rgt_not_eq, F2R_gt_0. reflexivity.
Qed.

(** ** C27 *)

Theorem C27_exact : forall b x phi l, sound b -> project b x = Ret (Ok phi) -> expands phi l -> nonzero l ->
  exists psi z, (0 < z)%R /\ (z * z)%R = rsum (map (fun v => v * v)%R l) /\
    project (BL2 b) x = Ret (Ok psi) /\ wf psi /\ is_sparse psi = is_sparse phi /\
    (forall i, stored psi i <-> stored phi i) /\
    expands psi (map (fun v => v / z)%R l) /\
    rsum (map (fun v => v * v)%R (map (fun v => v / z)%R l)) = 1%R /\
    project (BL2 (BL2 b)) x = Ret (Ok psi) /\
    forall b' phi' c, sound b' -> project b' x = Ret (Ok phi') -> (0 < c)%R -> expands phi' (map (Rmult c) l) ->
      exists psi', project (BL2 b') x = Ret (Ok psi') /\ expands psi' (map (fun v => v / z)%R l).
Proof. exact l2_project. Qed.
Print Assumptions C27_exact.

(** The squares underflow to 0, or overflow. *)
Theorem C27_f64_refuted : forall P, exists tiny huge : f64,
  b_finite tiny = true /\ Bsign tiny = false /\ Beqb tiny b_zero = false /\
  b_finite huge = true /\ Bsign huge = false /\ Beqb huge b_zero = false /\
  (forall x, @project f64 (ScalarF64 P) (BL2 (BFixedDense [tiny])) x = Ret (Ok (Dense [b_inf]))) /\
  (forall x, @project f64 (ScalarF64 P) (BL2 (BFixedDense [huge])) x = Ret (Ok (Dense [b_zero]))).
Proof.
  intros P. exists (b_dyadic 1 (-600)), (b_dyadic 1 600).
  repeat (split; [vm_compute; reflexivity|]). split; intros x; vm_compute; reflexivity.
Qed.
Print Assumptions C27_f64_refuted.

(** One activation of at least 2^-511 keeps the squares from vanishing. *)
Theorem C27_f64 : forall P (phi : Features f64), keyed phi -> finite_features phi ->
  (exists i v, stores phi i v /\ (bpow radix2 (-511) <= Rabs (b_real v))%R) ->
  let psi := @normalise_by f64 (ScalarF64 P) (@l2_norm f64 (ScalarF64 P)) phi in
  (forall i, stored psi i <-> stored phi i) /\
  forall i v, stores psi i v -> b_finite v = true /\ (Rabs (b_real v) <= 1)%R.
Proof. exact l2_f64. Qed.
Print Assumptions C27_f64.

Example C27_f64_case : let phi := Sparse (MkSparse 9 [(7, b_dyadic 3 0); (2, b_dyadic 1 (-600))]) in
  keyed phi /\ finite_features phi /\ exists i v, stores phi i v /\ (bpow radix2 (-511) <= Rabs (b_real v))%R.
Proof.
  split; [repeat constructor; simpl; intuition discriminate|]. split.
  - intros i v [E|[E|[]]]; injection E as <- <-; vm_compute; reflexivity.
  - exists 7, (b_dyadic 3 0). split; [left; reflexivity|]. apply Rle_trans with (bpow radix2 0); [apply bpow_le; discriminate|].
    replace (b_real (b_dyadic 3 0)) with 3%R by (vm_compute; field). rewrite Rabs_pos_eq by lra. simpl. lra.
Qed.

Example C27_case : nonzero [3; 4]%R /\ rsum (map (fun v => v * v)%R [3; 4]%R) = (5 * 5)%R.
Proof. split; [exists 3%R; simpl; split; [auto|lra]|]. unfold rsum. simpl. ring. Qed.

(** ** C28 *)

Theorem C28_exact : forall b x phi l, sound b -> project b x = Ret (Ok phi) -> expands phi l -> nonzero l ->
  exists psi z, (0 < z)%R /\ max_abs l z /\
    project (BLinf b) x = Ret (Ok psi) /\ wf psi /\ is_sparse psi = is_sparse phi /\
    (forall i, stored psi i <-> stored phi i) /\
    expands psi (map (fun v => v / z)%R l) /\
    max_abs (map (fun v => v / z)%R l) 1%R /\
    project (BLinf (BLinf b)) x = Ret (Ok psi) /\
    forall b' phi' c, sound b' -> project b' x = Ret (Ok phi') -> (0 < c)%R -> expands phi' (map (Rmult c) l) ->
      exists psi', project (BLinf b') x = Ret (Ok psi') /\ expands psi' (map (fun v => v / z)%R l).
Proof. exact linf_project. Qed.
Print Assumptions C28_exact.

Theorem C28_f64 : forall P (phi : Features f64), keyed phi -> finite_features phi -> nonzero_features phi ->
  let psi := @normalise_by f64 (ScalarF64 P) (@linf_norm f64 (ScalarF64 P)) phi in
  (forall i, stored psi i <-> stored phi i) /\
  (forall i u v, stores phi i u -> stores psi i v ->
     b_finite v = true /\ (Rabs (b_real v) <= 1)%R /\ Bsign v = Bsign u) /\
  exists i v, stores psi i v /\ Rabs (b_real v) = 1%R.
Proof. exact linf_f64. Qed.
Print Assumptions C28_f64.

(** [normalise_by] is what the four bases run on the base features. *)
Theorem C28_is_projection : forall F `{Scalar F} (b : basis F) x phi, project b x = Ret (Ok phi) ->
  project (BL1 b) x = Ret (Ok (normalise_by l1_norm phi)) /\
  project (BL2 b) x = Ret (Ok (normalise_by l2_norm phi)) /\
  project (BLinf b) x = Ret (Ok (normalise_by linf_norm phi)).
Proof. intros F S b x phi E. simpl. rewrite E. repeat split. Qed.
Print Assumptions C28_is_projection.

Example C28_case : max_abs [3; -4; 0]%R 4%R.
Proof.
  split.
  - intros x [<-|[<-|[<-|[]]]]; [rewrite Rabs_pos_eq|rewrite Rabs_left|rewrite Rabs_R0]; lra.
  - exists (-4)%R. split; [simpl; auto|]. rewrite Rabs_left; lra.
Qed.

(** ** C29 *)

Theorem C29_exact : forall b x phi l, sound b -> project b x = Ret (Ok phi) -> expands phi l ->
  exists psi, project (BL0 b) x = Ret (Ok psi) /\ wf psi /\ is_sparse psi = is_sparse phi /\
    (is_sparse phi = true -> forall i, stored psi i <-> stored phi i) /\
    expands psi (map (fun v => v / INR (n_active phi))%R l) /\
    (is_sparse phi = true -> 1 <= n_active phi -> (forall i v, stores phi i v -> v = 1%R) ->
      rsum (map (fun v => v / INR (n_active phi))%R l) = 1%R).
Proof. exact l0_project. Qed.
Print Assumptions C29_exact.

Theorem C29_f64_sparse : forall P d (m : hmap f64), wf (Sparse (MkSparse d m)) -> m <> [] ->
  @l0_normalise f64 (ScalarF64 P) (Sparse (MkSparse d m)) =
  Ret (Sparse (MkSparse d (map (fun kv => (fst kv, b_div (snd kv) (b_dyadic (Z.of_nat (length m)) 0))) m))).
Proof. exact l0_f64_sparse. Qed.
Print Assumptions C29_f64_sparse.

Theorem C29_f64_empty : forall P d x,
  @project f64 (ScalarF64 P) (BL0 (BFixedSparse d [])) x = Ret (Ok (Dense (repeat b_nan d))).
Proof. intros P d x. exact (f_equal (fun r => let* f := r in Ret (Ok f)) (l0_f64_empty P d)). Qed.
Print Assumptions C29_f64_empty.

Example C29_case : let phi := Sparse (MkSparse 5 [(3, 1%R); (1, 1%R)]) in
  wf phi /\ is_sparse phi = true /\ n_active phi = 2 /\ (forall i v, stores phi i v -> v = 1%R).
Proof.
  cbv zeta. split; [wf_tac|]. split; [reflexivity|]. split; [reflexivity|].
  intros i v [E|[E|[]]]; inversion E; reflexivity.
Qed.

(** ** C30 *)

Theorem C30_stack : forall F `{Scalar F} (b1 b2 : basis F) x,
  dim (BStack b1 b2) = dim b1 + dim b2 /\
  (forall e, project b1 x = Ret (Err e) -> project (BStack b1 b2) x = Ret (Err e)) /\
  (forall f1 e, project b1 x = Ret (Ok f1) -> project b2 x = Ret (Err e) ->
     project (BStack b1 b2) x = Ret (Err e)) /\
  (forall f1 f2, project b1 x = Ret (Ok f1) -> project b2 x = Ret (Ok f2) -> wf f1 -> wf f2 ->
     exists f, project (BStack b1 b2) x = Ret (Ok f) /\ wf f /\
       is_sparse f = is_sparse f1 && is_sparse f2 /\
       forall l1 l2, expands f1 l1 -> expands f2 l2 -> expands f (l1 ++ l2)).
Proof. intros F S b1 b2 x. split; [reflexivity|apply project_stack]. Qed.
Print Assumptions C30_stack.

Theorem C30_with_bias : forall F `{Scalar F} (b : basis F) x f, project b x = Ret (Ok f) -> wf f ->
  exists g, project (with_bias b) x = Ret (Ok g) /\ wf g /\ is_sparse g = false /\
    forall l, expands f l -> expands g (l ++ [fone]).
Proof. exact @project_with_bias. Qed.
Print Assumptions C30_with_bias.

Example C30_case : exists e, let failing := BClosure 3 (fun _ => Ret (Err e)) : basis R in
  project (BStack failing (grid_new [])) [] = Ret (Err e) /\
  project (BStack (BFixedSparse 4 [1]) failing) [] = Ret (Err e) /\
  project (with_bias (BFixedSparse 3 [1])) [] = Ret (Ok (Dense [fzero; fone; fzero; fone : R])).
Proof. exists (index_error 0 0). repeat split. Qed.

(** ** C53 *)

Theorem C53_index_error : forall i d,
  err_kind (index_error i d) = KBasis /\
  forall i' d', index_error i d = index_error i' d' <-> i = i' /\ d = d'.
Proof.
  intros i d. split; [reflexivity|]. intros i' d'. split; [apply index_error_inj|]. intros [-> ->]. reflexivity.
Qed.
Print Assumptions C53_index_error.

(** What an error prints as: its message and a newline. Index errors print
    alike when index and dimension are equal only; the kind is not printed. *)
Theorem C53_display :
  (forall e, error_display e = (error_description e ++ String (Ascii.ascii_of_nat 10) EmptyString)%string /\
     error_source e = None) /\
  (forall e e', error_display e = error_display e' <-> err_message e = err_message e') /\
  (forall i d i' d', error_display (index_error i d) = error_display (index_error i' d') <-> i = i' /\ d = d').
Proof. exact error_display_facts. Qed.
Print Assumptions C53_display.

Theorem C53_kind_refuted : exists e e', e <> e' /\ error_display e = error_display e'.
Proof. exists (MkError KBasis ""), (MkError KEvaluation ""). split; [discriminate|reflexivity]. Qed.
Print Assumptions C53_kind_refuted.

Example C53_case : err_message (index_error 12 7) =
  "Index (12) exceeded dimensionality (7) of the projection."%string.
Proof. reflexivity. Qed.

(** ** C54 *)

Theorem C54_binning : forall P (x : list f64) nt i v, nth_error x i = Some v ->
  let y := b_mul v (b_dyadic (Z.of_nat nt) 0) in
  nth_error (@bin_state f64 (ScalarF64 P) x nt) i = Some
    (match y with
     | B754_nan => 0
     | B754_infinity true => isize_min
     | B754_infinity false => isize_max
     | _ => Z.max isize_min (Z.min isize_max (Zfloor (b_real y)))
     end)%Z.
Proof.
  intros P x nt i v E y. unfold bin_state. rewrite nth_error_map', E. cbn [option_map]. f_equal.
  change (b_floor_isize y = match y with
     | B754_nan => 0
     | B754_infinity true => isize_min
     | B754_infinity false => isize_max
     | _ => Z.max isize_min (Z.min isize_max (Zfloor (b_real y)))
     end)%Z.
  destruct y as [s|s| |s m e B] eqn:Ey; try reflexivity.
  - rewrite b_floor_isize_finite by reflexivity. reflexivity.
  - rewrite b_floor_isize_finite by reflexivity. reflexivity.
Qed.
Print Assumptions C54_binning.

(** One cell of one coordinate: 2n-1 bins around zero, n bins elsewhere. *)
Theorem C54_cell_width : forall nt t i q, 1 <= nt ->
  exists l, NoDup l /\ (forall s, In s l <-> cell nt t i s = q) /\
    length l = if (q =? 0)%Z then 2 * nt - 1 else nt.
Proof. exact cell_width. Qed.
Print Assumptions C54_cell_width.

Theorem C54_overflow_checked : forall F `{Scalar F} h nt ms (x : list F) state', 2 <= nt ->
  bin_state x nt = isize_max :: state' -> project (BTile Checked h nt ms) x = Panic.
Proof. exact @tile_overflow_checked. Qed.
Print Assumptions C54_overflow_checked.

Theorem C54_overflow_wrapping : forall h nt (state' : list Z) st, 2 <= nt -> (Z.of_nat nt <= isize_max)%Z ->
  hash_coords Wrapping h nt 1 2 0 (isize_max :: state') st =
  hash_coords Wrapping h nt 1 2 1 state' (h_write h st (Z.quot isize_min (Z.of_nat nt))).
Proof. exact tile_overflow_wrapping. Qed.
Print Assumptions C54_overflow_wrapping.

Example C54_case :
  @bin_state f64 (ScalarF64 SimplePlatform) [b_dyadic 1 200; b_nan; b_dyadic (-3) (-1); b_neginf] 2 =
    [isize_max; 0; -3; isize_min]%Z /\
  map (cell 4 0 0) [-4; -3; 0; 3; 4]%Z = [-1; 0; 0; 0; 1]%Z.
Proof. split; vm_compute; reflexivity. Qed.
