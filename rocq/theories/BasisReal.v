(** Polynomial, Chebyshev, Fourier and kernel features over the exact reals. *)
From Coq Require Import List Arith ZArith Lia Bool Sorted Reals Lra Psatz.
From Verif Require Import Base Scalar ScalarR HMap HMapFacts NdArray VecFacts Features Spec
  FeatureFacts FeatureMore Coeffs CoeffFacts Kernels TileCoding Basis Matern.
Import ListNotations.
Local Open Scope R_scope.

(** ** Products *)

Definition rprod (l : list R) : R := fold_right Rmult 1 l.

Lemma fold_left_Rmult l : forall a, fold_left Rmult l a = a * rprod l.
Proof. induction l as [|x l IH]; simpl; intros a; [ring|]. rewrite IH. ring. Qed.

Lemma product_rprod l : product l = rprod l.
Proof. unfold product. simpl. rewrite fold_left_Rmult, fone_R. ring. Qed.

Lemma rprod_abs l : (forall x, In x l -> Rabs x <= 1) -> Rabs (rprod l) <= 1.
Proof.
  induction l as [|x l IH]; simpl; intros B.
  - rewrite Rabs_R1. lra.
  - rewrite Rabs_mult. assert (Rabs x <= 1) by auto. assert (Rabs (rprod l) <= 1) by auto.
    assert (0 <= Rabs x) by apply Rabs_pos. assert (0 <= Rabs (rprod l)) by apply Rabs_pos. nra.
Qed.

Lemma rprod_ones l : (forall x, In x l -> x = 1) -> rprod l = 1.
Proof.
  induction l as [|x l IH]; simpl; intros B; auto. rewrite (B x), IH by auto. ring.
Qed.

Lemma in_map2 {A B C} (f : A -> B -> C) : forall xs ys z, In z (map2 f xs ys) ->
  exists x y, In (x, y) (combine xs ys) /\ z = f x y.
Proof.
  induction xs as [|x xs IH]; intros [|y ys] z; simpl; try tauto.
  intros [<-|I].
  - exists x, y. auto.
  - destruct (IH ys z I) as (a & b & I' & E). exists a, b. auto.
Qed.

Lemma map2_ext_in {A B C} (f g : A -> B -> C) : forall xs ys,
  (forall x y, In (x, y) (combine xs ys) -> f x y = g x y) -> map2 f xs ys = map2 g xs ys.
Proof.
  induction xs as [|x xs IH]; intros [|y ys] E; simpl; auto. f_equal.
  - apply E. simpl. auto.
  - apply IH. intros a b I. apply E. simpl. auto.
Qed.

(** ** Polynomial (C20) *)

(** x1^e1 * x2^e2 * ... *)
Definition monomial (x : list R) (e : list nat) : R := rprod (map2 pow x e).

(** The exponent vectors of [d] variables with every exponent at most [k], not
    all zero, each once, in lexicographic order. *)
Definition enumeration (k d : nat) (es : list (list nat)) : Prop :=
  (forall e, In e es <-> length e = d /\ Forall (fun i => (i <= k)%nat) e /\
                         exists i, In i e /\ i <> 0%nat) /\
  StronglySorted lex_lt es /\ NoDup es /\ length es = ((k + 1) ^ d - 1)%nat.

Lemma coefficients_enumerate k d : enumeration k d (compute_coefficients k d).
Proof. apply compute_coefficients_spec. Qed.

Lemma sorted_unique (l l' : list (list nat)) : StronglySorted lex_lt l -> StronglySorted lex_lt l' ->
  (forall x, In x l <-> In x l') -> l = l'.
Proof.
  assert (Tr : forall a b : list nat, lex_lt a b -> ~ lex_lt b a).
  { intros a b L1 L2. apply lex_compare_lt in L1. apply lex_compare_lt in L2.
    revert b L1 L2. induction a as [|x a IH]; intros [|y b]; simpl; try discriminate.
    destruct (Nat.compare_spec x y), (Nat.compare_spec y x); try discriminate; try lia.
    intros. eapply IH; eauto. }
  intros S. revert l'. induction S as [|x l S IH Fx]; intros l' S' E.
  - destruct l' as [|y l']; auto. exfalso. apply (E y). simpl. auto.
  - destruct S' as [|y l' S' Fy]; [exfalso; apply (E x); simpl; auto|].
    rewrite Forall_forall in Fx, Fy.
    assert (x = y).
    { destruct (proj1 (E x) (or_introl eq_refl)) as [|I]; auto.
      destruct (proj2 (E y) (or_introl eq_refl)) as [|J]; auto.
      exfalso. eapply Tr; [apply Fx, J|apply Fy, I]. }
    subst y. f_equal. apply IH; auto. intros z. split; intros I.
    + destruct (proj1 (E z) (or_intror I)) as [<-|]; auto.
      exfalso. apply (lex_lt_irrefl x), Fx, I.
    + destruct (proj2 (E z) (or_intror I)) as [<-|]; auto.
      exfalso. apply (lex_lt_irrefl x), Fy, I.
Qed.

Lemma enumeration_unique k d es : enumeration k d es -> es = compute_coefficients k d.
Proof.
  intros (I & S & _). destruct (coefficients_enumerate k d) as (I' & S' & _).
  apply sorted_unique; auto. intros x. rewrite I, I'. reflexivity.
Qed.

Theorem polynomial_project d k x es : enumeration k d es ->
  project (polynomial_new d k) x = Ret (Ok (Dense (map (monomial x) es))) /\
  dim (F := R) (polynomial_new d k) = ((k + 1) ^ d - 1)%nat.
Proof.
  intros En. split.
  - rewrite (enumeration_unique _ _ _ En). simpl. do 3 f_equal. apply map_ext. intros e.
    apply product_rprod.
  - simpl. destruct (coefficients_enumerate k d) as (_ & _ & _ & L). exact L.
Qed.

Lemma monomial_zero x d : monomial x (repeat 0%nat d) = 1.
Proof.
  apply rprod_ones. intros v I. apply in_map2 in I. destruct I as (a & b & I & ->).
  apply in_combine_r in I. apply repeat_spec in I. subst b. reflexivity.
Qed.

Theorem polynomial_zeroth d k x es : enumeration k d es ->
  (polynomial_with_zeroth es = Panic <-> d = 0%nat \/ k = 0%nat) /\
  forall es', polynomial_with_zeroth es = Ret es' ->
    project (F := R) (BPolynomial k es') x = Ret (Ok (Dense (map (monomial x) es ++ [1]))).
Proof.
  intros En. destruct En as (I & S & N & L).
  assert (Lp : forall e0 r, es = e0 :: r -> length e0 = d).
  { intros e0 r ->. apply (I e0). simpl. auto. }
  split.
  - destruct es as [|e0 r]; unfold polynomial_with_zeroth; simpl.
    + split; auto. intros _. destruct d as [|d]; auto. destruct k as [|k]; auto. exfalso.
      cbn [length] in L. rewrite Nat.pow_succ_r' in L.
      assert ((Datatypes.S k + 1) ^ d <> 0)%nat by (apply Nat.pow_nonzero; lia). nia.
    + split; [discriminate|]. intros C. exfalso. simpl in L. destruct C as [->| ->].
      * simpl in L. lia.
      * rewrite Nat.add_0_l, Nat.pow_1_l in L. lia.
  - intros es' E. destruct es as [|e0 r]; simpl in E; [discriminate|]. inversion E; subst es'.
    simpl. do 3 f_equal. f_equal; [apply product_rprod|]. rewrite map_app. simpl.
    f_equal; [apply map_ext; intros e; apply product_rprod|].
    f_equal. unfold polynomial_feature. rewrite product_rprod. apply monomial_zero.
Qed.

(** ** Chebyshev (C21) *)

(** The Chebyshev polynomials of the first kind, by their recurrence. *)
Fixpoint cheb_pair (n : nat) (x : R) : R * R :=
  match n with
  | O => (1, x)
  | S n => let '(a, b) := cheb_pair n x in (b, 2 * x * b - a)
  end.
Definition cheb (n : nat) (x : R) : R := fst (cheb_pair n x).

Lemma cheb_rec x : cheb 0 x = 1 /\ cheb 1 x = x /\
  forall n, cheb (S (S n)) x = 2 * x * cheb (S n) x - cheb n x.
Proof.
  splits; try reflexivity. intros n. unfold cheb. simpl. destruct (cheb_pair n x). reflexivity.
Qed.

Lemma cheb_pair_cos n t : cheb_pair n (cos t) = (cos (INR n * t), cos (INR (S n) * t)).
Proof.
  induction n as [|n IH].
  - simpl. f_equal; [rewrite Rmult_0_l, cos_0|rewrite Rmult_1_l]; reflexivity.
  - cbn [cheb_pair]. rewrite IH. f_equal.
    assert (A : cos (INR (S (S n)) * t) = cos (INR (S n) * t + t)).
    { f_equal. rewrite (S_INR (S n)). ring. }
    assert (B : cos (INR n * t) = cos (INR (S n) * t - t)).
    { f_equal. rewrite S_INR. ring. }
    rewrite A, B, cos_plus, cos_minus. ring.
Qed.

Lemma cheb_cos n t : cheb n (cos t) = cos (INR n * t).
Proof. unfold cheb. rewrite cheb_pair_cos. reflexivity. Qed.

Lemma cheb_acos n s : -1 <= s <= 1 -> cheb n s = cos (INR n * acos s).
Proof. intros B. rewrite <- cheb_cos, cos_acos by exact B. reflexivity. Qed.

Lemma cheb_bound n s : -1 <= s <= 1 -> Rabs (cheb n s) <= 1.
Proof. intros B. rewrite cheb_acos by exact B. apply Rabs_le, COS_bound. Qed.

Lemma cheb_fn_spec i : (i <= 11)%nat -> exists f : R -> R, cheb_fn i = Ret f /\ forall x, f x = cheb i x.
Proof.
  intros L.
  do 12 (destruct i as [|i]; [eexists; split; [reflexivity|]; intros x;
    unfold t_0, t_1, t_2, t_3, t_4, t_5, t_6, t_7, t_8, t_9, t_10, t_11, cheb; to_R; simpl; field|]).
  lia.
Qed.

Lemma cheb_row (row : list nat) : Forall (fun i => (i <= 11)%nat) row ->
  exists fs : list (R -> R), omapM cheb_fn row = Ret fs /\
    forall ss, map2 (fun v f => f v) ss fs = map2 (fun v i => cheb i v) ss row.
Proof.
  intros B. induction row as [|i row IH]; simpl.
  - exists []. split; auto. intros [|]; reflexivity.
  - inversion B as [|? ? L B']; subst. destruct (IH B') as (fs & E & M).
    destruct (cheb_fn_spec i L) as (f & Ef & V). rewrite Ef, E. simpl.
    exists (f :: fs). split; auto. intros [|s ss]; simpl; auto. rewrite V, M. reflexivity.
Qed.

(** Product over the coordinates of T_{k_j}(s_j). *)
Definition cheb_product (ss : list R) (ks : list nat) : R := rprod (map2 (fun s k => cheb k s) ss ks).

(** The input rescaled from its limits to [-1, 1]. *)
Definition to_unit (x : list R) (limits : list (R * R)) : list R :=
  map2 (fun v l => 2 * ((v - fst l) / (snd l - fst l)) - 1) x limits.

Lemma chebyshev_scale_unit x limits : chebyshev_scale x limits = to_unit x limits.
Proof.
  unfold chebyshev_scale, rescale, to_unit. revert limits.
  induction x as [|v x IH]; intros [|l limits]; simpl; auto. rewrite IH, ftwo_R, fone_R. reflexivity.
Qed.

Lemma chebyshev_features rows : (forall row, In row rows -> Forall (fun i => (i <= 11)%nat) row) ->
  exists ps : list (list (R -> R)), omapM (omapM cheb_fn) rows = Ret ps /\
    forall ss, map (chebyshev_feature ss) ps = map (cheb_product ss) rows.
Proof.
  induction rows as [|row rows IH]; simpl; intros B.
  - exists []. auto.
  - destruct (cheb_row row) as (fs & E & M); auto. destruct IH as (ps & E' & M'); auto.
    rewrite E, E'. simpl. exists (fs :: ps). split; auto. intros ss. simpl. rewrite M'.
    f_equal. unfold chebyshev_feature. rewrite product_rprod, M. reflexivity.
Qed.

Theorem chebyshev_project k limits es : enumeration k (length limits) es ->
  (chebyshev_new k limits = Panic <-> (11 < k)%nat) /\
  forall b, chebyshev_new k limits = Ret b -> dim b = ((k + 1) ^ length limits - 1)%nat /\
    forall x, project b x = Ret (Ok (Dense (map (cheb_product (to_unit x limits)) es))).
Proof.
  intros En. rewrite (enumeration_unique _ _ _ En). unfold chebyshev_new, make_polynomials.
  destruct (Nat.ltb_spec 11 k) as [L|L].
  - split; [tauto|]. discriminate.
  - destruct (chebyshev_features (compute_coefficients k (length limits))) as (ps & E & M).
    { intros row I. apply coefficients_enumerate in I. destruct I as (_ & Fr & _).
      rewrite Forall_forall in *. intros i Ii. specialize (Fr i Ii). lia. }
    rewrite E. simpl. split; [split; [discriminate|lia]|]. intros b Eb. inversion Eb; subst b. split.
    + simpl. apply omapM_length in E. rewrite E.
      destruct (coefficients_enumerate k (length limits)) as (_ & _ & _ & Ln). exact Ln.
    + intros x. simpl. rewrite chebyshev_scale_unit, M. reflexivity.
Qed.

(** Inside the limits. *)
Definition inside (x : list R) (limits : list (R * R)) : Prop :=
  Forall2 (fun v l => fst l < snd l /\ fst l <= v <= snd l) x limits.

Lemma inside_unit x limits : inside x limits -> Forall (fun s => -1 <= s <= 1) (to_unit x limits).
Proof.
  induction 1 as [|v l x limits (L & B) Fx IH]; simpl; constructor; auto.
  assert (0 <= (v - fst l) / (snd l - fst l) <= 1); [|lra]. split.
  - apply Rmult_le_pos; [lra|]. left. apply Rinv_0_lt_compat. lra.
  - apply (Rmult_le_reg_r (snd l - fst l)); [lra|]. unfold Rdiv.
    rewrite Rmult_assoc, Rinv_l by lra. lra.
Qed.

Theorem chebyshev_inside x limits ks : inside x limits ->
  cheb_product (to_unit x limits) ks =
    rprod (map2 (fun s k => cos (INR k * acos s)) (to_unit x limits) ks) /\
  Rabs (cheb_product (to_unit x limits) ks) <= 1.
Proof.
  intros In. apply inside_unit in In. rewrite Forall_forall in In. split.
  - unfold cheb_product. f_equal. apply map2_ext_in. intros s k I. apply cheb_acos.
    apply In. apply in_combine_l in I. exact I.
  - apply rprod_abs. intros v I. apply in_map2 in I. destruct I as (s & k & I & ->).
    apply cheb_bound, In. apply in_combine_l in I. exact I.
Qed.

Theorem chebyshev_zeroth limits k ps x l : 
  project (F := R) (BChebyshev k limits ps) x = Ret (Ok (Dense l)) ->
  project (F := R) (BChebyshev k limits (chebyshev_with_zeroth limits ps)) x = Ret (Ok (Dense (l ++ [1]))).
Proof.
  simpl. intros E. inversion E; subst l. unfold chebyshev_with_zeroth. rewrite map_app. simpl.
  do 4 f_equal. f_equal. unfold chebyshev_feature. rewrite product_rprod. apply rprod_ones.
  intros v I. apply in_map2 in I. destruct I as (s & f & I & ->). apply in_combine_r in I.
  apply repeat_spec in I. subst f. apply fone_R.
Qed.

(** ** Fourier (C22) *)

(** The input rescaled from its limits to [0, 1]. *)
Definition to_01 (x : list R) (limits : list (R * R)) : list R :=
  map2 (fun v l => (v - fst l) / (snd l - fst l)) x limits.

(** cos (pi * (c . s)) *)
Definition cosine (ss : list R) (cs : list nat) : R := cos (PI * rdot (map INR cs) ss).

Lemma fourier_fold : forall (ss cs : list R) a,
  fold_left (fun acc (vc : R * R) => acc + snd vc * fst vc) (combine ss cs) a = a + rdot cs ss.
Proof.
  unfold rdot. induction ss as [|s ss IH]; intros [|c cs] a; simpl; try ring.
  rewrite IH. ring.
Qed.

Theorem fourier_project k limits es x : enumeration k (length limits) es ->
  project (fourier_new k limits) x = Ret (Ok (Dense (map (cosine (to_01 x limits)) es))) /\
  dim (F := R) (fourier_new k limits) = ((k + 1) ^ length limits - 1)%nat.
Proof.
  intros En. rewrite (enumeration_unique _ _ _ En). split.
  - simpl. rewrite map_map. do 3 f_equal. apply map_ext. intros c. unfold fourier_feature, cosine.
    to_R. rewrite fourier_fold, Rplus_0_l. reflexivity.
  - simpl. rewrite map_length. apply coefficients_enumerate.
Qed.

Lemma cosine_bound ss cs : -1 <= cosine ss cs <= 1.
Proof. apply COS_bound. Qed.

Lemma rdot_zero_r cs ss : (forall s, In s ss -> s = 0) -> rdot cs ss = 0.
Proof.
  unfold rdot. revert ss. induction cs as [|c cs IH]; intros [|s ss] Z; simpl; auto.
  rewrite (Z s), IH by (simpl; auto; intros; apply Z; simpl; auto). ring.
Qed.

Theorem fourier_corner limits cs : cosine (to_01 (map fst limits) limits) cs = 1.
Proof.
  unfold cosine. rewrite rdot_zero_r.
  - rewrite Rmult_0_r. apply cos_0.
  - intros s I. apply in_map2 in I. destruct I as (v & l & I & ->).
    assert (v = fst l); [|subst; unfold Rdiv; ring].
    clear -I. induction limits as [|m limits IH]; simpl in I; [tauto|].
    destruct I as [E|I]; auto. inversion E. auto.
Qed.

Lemma rdot_plus : forall cs a b, length a = length b ->
  rdot cs (map2 Rplus a b) = rdot cs a + rdot cs b.
Proof.
  unfold rdot. induction cs as [|c cs IH]; intros [|x a] [|y b] L; simpl; try ring; try discriminate.
  rewrite IH by (simpl in L; lia). ring.
Qed.

Lemma rdot_scale : forall cs k a, rdot cs (map (Rmult k) a) = k * rdot cs a.
Proof.
  unfold rdot. induction cs as [|c cs IH]; intros k [|x a]; simpl; try ring. rewrite IH. ring.
Qed.

Lemma cos_period_Z t z : cos (t + 2 * IZR z * PI) = cos t.
Proof.
  destruct z as [|p|p].
  - f_equal. ring.
  - rewrite <- (cos_period t (Pos.to_nat p)). f_equal.
    rewrite INR_IZR_INZ, positive_nat_Z. reflexivity.
  - rewrite <- (cos_period (t + 2 * IZR (Z.neg p) * PI) (Pos.to_nat p)). f_equal.
    rewrite INR_IZR_INZ, positive_nat_Z. rewrite <- Pos2Z.opp_pos, opp_IZR. ring.
Qed.

(** An integer combination of integers is an integer. *)
Lemma rdot_integer (cs : list nat) (zs : list Z) : exists z,
  rdot (map INR cs) (map IZR zs) = IZR z.
Proof.
  unfold rdot. revert zs. induction cs as [|c cs IH]; intros [|z zs]; simpl; try (exists 0%Z; reflexivity).
  destruct (IH zs) as (w & ->). exists (Z.of_nat c * z + w)%Z.
  rewrite plus_IZR, mult_IZR, <- INR_IZR_INZ. reflexivity.
Qed.

Lemma to_01_shift : forall x limits (zs : list Z), length x = length limits -> length zs = length limits ->
  Forall (fun l => fst l <> snd l) limits ->
  to_01 (map2 Rplus x (map2 (fun z l => 2 * IZR z * (snd l - fst l)) zs limits)) limits =
  map2 Rplus (to_01 x limits) (map (Rmult 2) (map IZR zs)).
Proof.
  unfold to_01. induction x as [|v x IH]; intros [|l limits] [|z zs] L1 L2 Fl; simpl in *; try discriminate; auto.
  inversion Fl; subst. rewrite IH by (auto; lia). f_equal. field. lra.
Qed.

Theorem fourier_periodic limits x (zs : list Z) cs :
  length x = length limits -> length zs = length limits ->
  Forall (fun l => fst l <> snd l) limits ->
  cosine (to_01 (map2 Rplus x (map2 (fun z l => 2 * IZR z * (snd l - fst l)) zs limits)) limits) cs =
  cosine (to_01 x limits) cs.
Proof.
  intros L1 L2 Fl. unfold cosine. rewrite to_01_shift by assumption.
  rewrite rdot_plus.
  - rewrite rdot_scale. destruct (rdot_integer cs zs) as (z & ->).
    rewrite <- (cos_period_Z (PI * rdot (map INR cs) (to_01 x limits)) z). f_equal. ring.
  - unfold to_01. rewrite !map_length, map2_length_eq; lia.
Qed.

Theorem fourier_even limits x cs : length x = length limits ->
  cosine (to_01 (map2 (fun v l => 2 * fst l - v) x limits) limits) cs = cosine (to_01 x limits) cs.
Proof.
  intros L. unfold cosine.
  assert (E : to_01 (map2 (fun v l => 2 * fst l - v) x limits) limits = map (Rmult (-1)) (to_01 x limits)).
  { unfold to_01. revert limits L. induction x as [|v x IH]; intros [|l limits] L; simpl in *; try discriminate; auto.
    rewrite IH by lia. f_equal. unfold Rdiv. ring. }
  rewrite E, rdot_scale. rewrite <- cos_neg. f_equal. ring.
Qed.

(** ** Kernels (C23) *)

Implicit Types k : kernel R.

(** Sum of squared scaled differences over the coordinates that have a
    lengthscale. *)
Definition sq_dist (ls x y : list R) : R :=
  rsum (map (fun z => z * z) (map2 Rdiv (map2 Rminus x y) ls)).

Lemma kernel_distance_sqrt k x y : kernel_distance k x y = sqrt (sq_dist (k_lengthscales k) x y).
Proof.
  unfold kernel_distance, sq_dist. to_R. f_equal.
  assert (G : forall l a, fold_left (fun acc z : R => acc + z * z) l a = a + rsum (map (fun z => z * z) l)).
  { induction l as [|z l IH]; intros a; simpl; [ring|]. rewrite IH. ring. }
  rewrite G. ring.
Qed.

Lemma sq_dist_sym ls x y : sq_dist ls x y = sq_dist ls y x.
Proof.
  unfold sq_dist. revert y ls. induction x as [|a x IH]; intros [|b y] [|l ls]; simpl; auto.
  rewrite (IH y ls). unfold Rdiv. ring.
Qed.

Lemma sq_dist_nonneg ls x y : 0 <= sq_dist ls x y.
Proof.
  unfold sq_dist. induction (map2 Rdiv (map2 Rminus x y) ls) as [|z l IH]; simpl; nra.
Qed.

Lemma sq_dist_self ls x : sq_dist ls x x = 0.
Proof.
  unfold sq_dist. revert ls. induction x as [|a x IH]; intros [|l ls]; simpl; auto.
  rewrite IH. unfold Rdiv. ring.
Qed.

Theorem kernel_symmetric k :
  (forall x y, kernel_slice k x y = kernel_slice k y x) /\
  (forall x y, kernel_scalar k x y = kernel_scalar k y x).
Proof.
  split; intros x y.
  - unfold kernel_slice. rewrite !kernel_distance_sqrt, sq_dist_sym. reflexivity.
  - unfold kernel_scalar. to_R. rewrite Rabs_minus_sym. reflexivity.
Qed.

(** The kernels for which the peak is at distance 0. *)
Definition peaked (kind : kernel_kind R) : Prop :=
  match kind with
  | KMatern52 => False
  | KRationalQuadratic power => 0 <= power
  | _ => True
  end.

Lemma exp_neg_le1 x : 0 <= x -> 0 < exp (- x) <= 1.
Proof.
  intros L. split; [apply exp_pos|]. rewrite <- exp_0. destruct (Req_dec x 0) as [->|N].
  - right. f_equal. ring.
  - left. apply exp_increasing. lra.
Qed.

Lemma stationary_zero k : kernel_stationary k 0 = k_variance k.
Proof.
  unfold kernel_stationary. destruct (k_kind k); to_R.
  - rewrite Ropp_0, exp_0. ring.
  - rewrite !Rmult_0_r, exp_0. ring.
  - rewrite !Rmult_0_r, exp_0. ring.
  - rewrite !Rmult_0_r, exp_0. ring.
  - rewrite cos_0. ring.
  - replace (1 + 0 * 0 / 2) with 1 by field. rewrite ln_1, Rmult_0_r, exp_0. ring.
Qed.

Lemma stationary_bound k r : peaked (k_kind k) -> 0 <= k_variance k -> 0 <= r ->
  Rabs (kernel_stationary k r) <= k_variance k.
Proof.
  intros P V L. unfold kernel_stationary.
  assert (M : forall a, -1 <= a <= 1 -> Rabs (k_variance k * a) <= k_variance k).
  { intros a B. rewrite Rabs_mult, (Rabs_pos_eq (k_variance k)) by exact V.
    assert (Rabs a <= 1) by (apply Rabs_le; exact B). nra. }
  destruct (k_kind k); simpl in P; to_R; try tauto.
  - apply M. destruct (exp_neg_le1 r L). lra.
  - rewrite Rmult_assoc. apply M. set (s := sqrt (3 / 1)). assert (S : 0 <= s) by apply sqrt_pos.
    assert (SR : 0 <= s * r) by nra. replace (- s * r) with (- (s * r)) by ring.
    assert (E : 1 + s * r <= exp (s * r)).
    { destruct (Req_dec (s * r) 0) as [Z|Z]; [rewrite Z, exp_0; lra|]. left. apply exp_ineq1. lra. }
    assert (Ep := exp_pos (- (s * r))).
    assert (I : exp (s * r) * exp (- (s * r)) = 1) by (rewrite <- exp_plus, Rplus_opp_r; apply exp_0).
    split; [|nra]. assert (0 <= (1 + s * r) * exp (- (s * r))) by nra. lra.
  - apply M. replace (- (1 / 2) * r * r) with (- (r * r / 2)) by field.
    destruct (exp_neg_le1 (r * r / 2)); [nra|]. lra.
  - apply M. apply COS_bound.
  - apply M. assert (Ln : 0 <= ln (1 + r * r / 2)).
    { rewrite <- ln_1. destruct (Req_dec r 0) as [->|N].
      - right. f_equal. field.
      - left. apply ln_increasing; [lra|]. assert (0 < r * r) by nra. lra. }
    replace (- power * ln (1 + r * r / 2)) with (- (power * ln (1 + r * r / 2))) by ring.
    destruct (exp_neg_le1 (power * ln (1 + r * r / 2))); [nra|]. lra.
Qed.

Theorem kernel_peak k : peaked (k_kind k) -> 0 <= k_variance k ->
  (forall x y, Rabs (kernel_slice k x y) <= k_variance k) /\
  (forall l x y, k_lengthscales k = [l] -> 0 < l ->
     exists v, kernel_scalar k x y = Ret v /\ Rabs v <= k_variance k).
Proof.
  intros P V. split.
  - intros x y. apply stationary_bound; auto. rewrite kernel_distance_sqrt. apply sqrt_pos.
  - intros l x y E L. unfold kernel_scalar. rewrite E. simpl. eexists. split; [reflexivity|].
    apply stationary_bound; auto. apply Rmult_le_pos; [apply Rabs_pos|]. left. apply Rinv_0_lt_compat, L.
Qed.

Theorem kernel_self k :
  (forall x, kernel_slice k x x = k_variance k) /\
  (forall l ls x, k_lengthscales k = l :: ls -> kernel_scalar k x x = Ret (k_variance k)).
Proof.
  split.
  - intros x. unfold kernel_slice. rewrite kernel_distance_sqrt, sq_dist_self, sqrt_0. apply stationary_zero.
  - intros l ls x E. unfold kernel_scalar. rewrite E. simpl.
    replace (Rabs (x - x) / l) with 0; [rewrite stationary_zero; reflexivity|].
    unfold Rminus. rewrite Rplus_opp_r, Rabs_R0. unfold Rdiv. ring.
Qed.

(** Coordinates without a lengthscale do not matter. *)
Theorem kernel_ignores k x y x' y' :
  let n := length (k_lengthscales k) in
  firstn n x = firstn n x' -> firstn n y = firstn n y' -> kernel_slice k x y = kernel_slice k x' y'.
Proof.
  intros n Ex Ey. unfold kernel_slice. rewrite !kernel_distance_sqrt. do 2 f_equal.
  assert (G : forall ls a b, sq_dist ls a b = sq_dist ls (firstn (length ls) a) (firstn (length ls) b)).
  { intros ls. unfold sq_dist. induction ls as [|l ls IH]; intros [|a x0] [|b y0]; simpl; auto.
    rewrite (IH x0 y0). reflexivity. }
  rewrite (G _ x y), (G _ x' y'). fold n. rewrite Ex, Ey. reflexivity.
Qed.

(** Matern52 as coded: (1 + y + 5/9 y^2) e^(-y) with y = sqrt 3 * r, which
    exceeds 1 for small y > 0. *)
Theorem matern52_overshoots variance l : 0 < variance -> 0 < l -> exists x y v,
  kernel_scalar (non_ard KMatern52 variance l) x y = Ret v /\ variance < v /\
  kernel_slice (non_ard KMatern52 variance l) [x] [y] = v.
Proof.
  intros V L.
  set (s := sqrt 3). assert (S2 : s * s = 3) by (apply sqrt_sqrt; lra).
  assert (S0 : 0 < s) by (apply sqrt_lt_R0; lra).
  set (y := 1 / 10). set (r := y / s).
  assert (R0 : 0 < r) by (apply Rmult_lt_0_compat; [unfold y; lra|apply Rinv_0_lt_compat, S0]).
  assert (SR : s * r = y) by (unfold r; field; lra).
  exists (l * r), 0, (kernel_stationary (non_ard KMatern52 variance l) r). splits.
  - unfold kernel_scalar. change (vget (k_lengthscales (non_ard KMatern52 variance l)) 0) with (Ret l).
    cbn [obind]. to_R.
    replace (Rabs (l * r - 0) / l) with r; [reflexivity|].
    rewrite Rminus_0_r, Rabs_pos_eq by nra. field. lra.
  - unfold kernel_stationary, non_ard, k_kind, k_variance. to_R.
    replace (3 / 1) with 3 by field. fold s.
    replace (1 + s * r + 5 / 1 / 3 * r * r) with (1 + y + 5 / 9 * (y * y)).
    + replace (- s * r) with (- y) by (rewrite <- SR; ring).
      assert (H1 := matern52_rises y). assert (1 < (1 + y + 5 / 9 * (y * y)) * exp (- y)) by (apply H1; unfold y; lra).
      rewrite Rmult_assoc. nra.
    + rewrite <- SR. replace (5 / 9 * (s * r * (s * r))) with (5 / 9 * (s * s) * (r * r)) by ring.
      rewrite S2. field.
  - unfold kernel_slice. rewrite kernel_distance_sqrt. f_equal. unfold sq_dist, non_ard. simpl.
    replace ((l * r - 0) / l * ((l * r - 0) / l) + 0) with (r * r) by (field; lra).
    apply sqrt_square. lra.
Qed.

(** RationalQuadratic as coded: variance * (1 + r^2/2)^(-power). *)
Theorem rational_quadratic_formula power variance ls r :
  kernel_stationary (MkKernel (KRationalQuadratic power) variance ls) r =
  variance * Rpower (1 + r * r / 2) (- power).
Proof. unfold kernel_stationary, Rpower. simpl. rewrite ftwo_R. reflexivity. Qed.

(** The kernels as functions of the scaled distance. *)
Definition shape (kind : kernel_kind R) (r : R) : R :=
  match kind with
  | KExponential => exp (- r)
  | KMatern32 => (1 + sqrt 3 * r) * exp (- (sqrt 3 * r))
  | KMatern52 => (1 + sqrt 3 * r + 5 * r ^ 2 / 3) * exp (- (sqrt 3 * r))
  | KExpQuad => exp (- (r ^ 2 / 2))
  | KCosine => cos r
  | KRationalQuadratic power => Rpower (1 + r ^ 2 / 2) (- power)
  end.

Lemma stationary_shape k r : kernel_stationary k r = k_variance k * shape (k_kind k) r.
Proof.
  unfold kernel_stationary, shape. destruct (k_kind k); to_R; replace (3 / 1) with 3 by field.
  - reflexivity.
  - replace (- sqrt 3 * r) with (- (sqrt 3 * r)) by ring. ring.
  - replace (- sqrt 3 * r) with (- (sqrt 3 * r)) by ring. field.
  - do 2 f_equal. field.
  - reflexivity.
  - unfold Rpower. do 4 f_equal. simpl. field.
Qed.

Theorem kernel_formula k :
  (forall x y, kernel_slice k x y = k_variance k * shape (k_kind k) (sqrt (sq_dist (k_lengthscales k) x y))) /\
  (forall x y, kernel_scalar k x y =
     match k_lengthscales k with
     | [] => Panic
     | l :: _ => Ret (k_variance k * shape (k_kind k) (Rabs (x - y) / l))
     end).
Proof.
  split; intros x y.
  - unfold kernel_slice. rewrite kernel_distance_sqrt. apply stationary_shape.
  - unfold kernel_scalar, vget. destruct (k_lengthscales k) as [|l ls]; simpl; auto.
    f_equal. apply stationary_shape.
Qed.

Lemma distance_first kind variance l a x b y : (0 < l)%R ->
  kernel_slice (non_ard kind variance l) (a :: x) (b :: y) = (variance * shape kind (Rabs (a - b) / l))%R.
Proof.
  intros P. rewrite (proj1 (kernel_formula _)). unfold non_ard. cbn [k_variance k_kind k_lengthscales]. do 2 f_equal.
  replace (sq_dist [l] (a :: x) (b :: y)) with (((a - b) / l) * ((a - b) / l))%R.
  - change (((a - b) / l) * ((a - b) / l))%R with (Rsqr ((a - b) / l)). rewrite sqrt_Rsqr_abs.
    unfold Rdiv. rewrite Rabs_mult, (Rabs_pos_eq (/ l)); auto. left. apply Rinv_0_lt_compat. auto.
  - unfold sq_dist. destruct x, y; simpl; ring.
Qed.

Lemma rq_default_shape r : shape (KRationalQuadratic 1%R) (Rabs r / 2)%R = (/ (1 + r ^ 2 / 8))%R.
Proof.
  unfold shape. assert (H : (0 < 1 + r ^ 2 / 8)%R) by (pose proof (pow2_ge_0 r); lra).
  replace (1 + (Rabs r / 2) ^ 2 / 2)%R with (1 + r ^ 2 / 8)%R.
  - rewrite Rpower_Ropp, Rpower_1; auto.
  - replace ((Rabs r / 2) ^ 2)%R with (Rsqr (Rabs r) / 4)%R by (unfold Rsqr; field). rewrite <- Rsqr_abs. unfold Rsqr. field.
Qed.

Theorem kernel_defaults :
  (forall kind x y, kernel_scalar (kernel_default kind) x y = Ret (shape kind (Rabs (x - y)))) /\
  (forall kind a x b y, kernel_slice (kernel_default kind) (a :: x) (b :: y) = shape kind (Rabs (a - b))) /\
  (forall x y : R, kernel_scalar rational_quadratic_default x y = Ret (/ (1 + (x - y) ^ 2 / 8))%R) /\
  (forall (a : R) x b y, kernel_slice rational_quadratic_default (a :: x) (b :: y) = (/ (1 + (a - b) ^ 2 / 8))%R).
Proof.
  split; [|split; [|split]]; intros.
  - rewrite (proj2 (kernel_formula _)). unfold kernel_default, non_ard. cbn [k_variance k_kind k_lengthscales].
    rewrite fone_R. do 2 f_equal. rewrite Rmult_1_l. f_equal. field.
  - unfold kernel_default. rewrite fone_R, distance_first by lra. rewrite Rmult_1_l. f_equal. field.
  - rewrite (proj2 (kernel_formula _)). unfold rational_quadratic_default, rational_quadratic_non_ard, rational_quadratic_new.
    cbn [k_variance k_kind k_lengthscales]. rewrite fone_R, ftwo_R, rq_default_shape. f_equal. ring.
  - change rational_quadratic_default with (non_ard (KRationalQuadratic (@fone R _)) (@fone R _) (@ftwo R _)).
    rewrite fone_R, ftwo_R, distance_first by lra. rewrite rq_default_shape. ring.
Qed.
