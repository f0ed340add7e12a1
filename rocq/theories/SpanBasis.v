(** What Polynomial, Chebyshev and Fourier approximators can represent (C89). *)
From Coq Require Import List Arith ZArith Lia Reals Lra Permutation.
From Verif Require Import Base Scalar ScalarR HMap NdArray VecFacts Features Spec FeatureFacts FeatureMore Coeffs CoeffFacts Kernels
  TileCoding Basis BasisFacts BasisReal Optim OptimSpec OptimFacts OptimReal Lfa LfaSpec LfaFacts LfaReal LfaRegret EndToEnd Passes
  KernelPsd KernelStrict KernelGram KernelFit Span.
Import ListNotations.
Local Open Scope R_scope.

(** ** weights by index vector *)

Fixpoint pick (es : list (list nat)) (w : list R) (e : list nat) : R :=
  match es, w with
  | e0 :: es', a :: w' => if list_eq_dec Nat.eq_dec e0 e then a else pick es' w' e
  | _, _ => 0
  end.

Lemma pick_map es : NoDup es -> forall w, length w = length es -> map (pick es w) es = w.
Proof.
  induction 1 as [|e es N Nd IH]; intros [|a w] L; try discriminate; [reflexivity|]. cbn [map pick].
  destruct (list_eq_dec Nat.eq_dec e e); [|contradiction]. f_equal. transitivity (map (pick es w) es); [|apply IH; simpl in L; lia].
  apply map_ext_in. intros e' I. destruct (list_eq_dec Nat.eq_dec e e'); [subst; contradiction|reflexivity].
Qed.

(** ** bases of products *)

(** On inputs of the right length [b] has, in some order, all the products of
    one of the first [n] functions of each family, at the transformed input. *)
Definition family (b : Basis R (list R)) (n : nat) (qs : list (nat -> R -> R)) (h : list R -> list R) : Prop :=
  exists es, Permutation es (box n (length qs)) /\ b_dim b = length es /\
    forall x, length x = length qs -> length (h x) = length qs /\
      b_project b x = Ret (Ok (Dense (map (fun e => tprod qs e (h x)) es))).

Lemma box_nodup n d : NoDup (box n d).
Proof. apply product_nodup. apply Forall_forall. intros l I. apply repeat_spec in I. subst l. apply seq_NoDup. Qed.

Lemma in_box n d e : In e (box n d) <-> length e = d /\ Forall (fun i => (i < n)%nat) e.
Proof.
  unfold box. rewrite product_in, forall2_repeat. split; intros [A B]; split; auto; revert B; apply Forall_impl; intros i; rewrite in_seq; lia.
Qed.

Lemma evaluates (b : Basis R (list R)) {S} w (s : S) x l : b_project b x = Ret (Ok (Dense l)) -> length l = length w ->
  s_evaluate (MkLFA b w s : ScalarLFA R (list R) S) x = Ret (Ok (rdot l w)).
Proof.
  intros E L. unfold s_evaluate. cbn [lfa_basis lfa_weights]. rewrite E. cbn [obind rmap].
  rewrite dot_predict by now apply dense_sized_R. cbn [obind]. now rewrite predict_dense.
Qed.

(** [b] with weights [w] has the value [v] at [x]. *)
Definition value (b : Basis R (list R)) (w : list R) (x : list R) (v : R) : Prop :=
  forall S (s : S), s_evaluate (MkLFA b w s : ScalarLFA R (list R) S) x = Ret (Ok v).

Lemma value_unique b w x v v' : value b w x v -> value b w x v' -> v = v'.
Proof. intros A B. specialize (A unit tt). specialize (B unit tt). rewrite A in B. now injection B. Qed.

Section Family.
Context (b : Basis R (list R)) (n : nat) (qs : list (nat -> R -> R)) (h : list R -> list R) (Fam : family b n qs h).

Lemma family_weights w : length w = b_dim b -> exists W, forall x, length x = length qs -> value b w x (tsum n qs W (h x)).
Proof.
  destruct Fam as (es & P & D & E). intros L. exists (pick es w). intros x Lx S s. destruct (E x Lx) as [_ Pr].
  rewrite (evaluates b w s x _ Pr) by (rewrite map_length; lia). do 2 f_equal.
  assert (N : NoDup es) by (apply (Permutation_NoDup (Permutation_sym P)), box_nodup).
  rewrite <- (pick_map es N w) at 1 by lia. rewrite rdot_map. unfold tsum. apply rsum_perm, Permutation_map, P.
Qed.

Lemma family_function W : exists w, length w = b_dim b /\ forall x, length x = length qs -> value b w x (tsum n qs W (h x)).
Proof.
  destruct Fam as (es & P & D & E). exists (map W es). split; [rewrite map_length; lia|]. intros x Lx S s. destruct (E x Lx) as [_ Pr].
  rewrite (evaluates b _ s x _ Pr) by (now rewrite !map_length). do 2 f_equal.
  rewrite rdot_map. unfold tsum. apply rsum_perm, Permutation_map, P.
Qed.

Lemma rdot_minus : forall l w w', length w = length w' -> rdot l (map2 Rminus w w') = rdot l w - rdot l w'.
Proof.
  unfold rdot, rsum. induction l as [|a l IH]; intros [|x w] [|y w'] L; try discriminate; simpl; try ring.
  rewrite IH by (simpl in L; lia). ring.
Qed.

(** Values on a grid determine the weights. *)
Lemma family_unique ptss w w' : Forall graded qs -> Forall (fun pts => NoDup pts /\ (n <= length pts)%nat) ptss -> length ptss = length qs ->
  length w = b_dim b -> length w' = b_dim b ->
  (forall u, Forall2 (fun v pts => In v pts) u ptss -> exists x v, length x = length qs /\ h x = u /\ value b w x v /\ value b w' x v) ->
  w = w'.
Proof.
  intros G Pt Lp L L' Eq. destruct Fam as (es & P & D & E).
  assert (N : NoDup es) by (apply (Permutation_NoDup (Permutation_sym P)), box_nodup).
  assert (Z : Forall (eq 0) (map2 Rminus w w')).
  { rewrite <- (pick_map es N (map2 Rminus w w')) by (rewrite map2_length; lia).
    apply Forall_map, Forall_forall. intros e I. symmetry.
    apply (tsum_indep n qs ptss (pick es (map2 Rminus w w'))).
    - clear - G Pt Lp. revert ptss Pt Lp. induction G as [|q qs Gq G IH]; intros [|pts ptss] Pt Lp; try discriminate; constructor.
      + apply Forall_inv in Pt. destruct Pt. now apply graded_indep.
      + apply IH; [now apply Forall_inv_tail in Pt|simpl in Lp; lia].
    - intros u Fu. destruct (Eq u Fu) as (x & v & Lx & <- & V & V'). destruct (E x Lx) as [_ Pr].
      specialize (V unit tt). specialize (V' unit tt).
      rewrite (evaluates b w tt x _ Pr) in V by (rewrite map_length; lia).
      rewrite (evaluates b w' tt x _ Pr) in V' by (rewrite map_length; lia). injection V as V. injection V' as V'.
      transitivity (rdot (map (fun e => tprod qs e (h x)) es) (map2 Rminus w w')).
      + rewrite <- (pick_map es N (map2 Rminus w w')) at 2 by (rewrite map2_length; lia).
        rewrite rdot_map. unfold tsum. apply rsum_perm, Permutation_map, Permutation_sym, P.
      + rewrite rdot_minus by lia. lra.
    - apply (Permutation_in _ P), I. }
  clear - Z L L'. assert (Lw : length w = length w') by lia. clear L L'. revert w' Z Lw.
  induction w as [|a w IH]; intros [|a' w'] Z Lw; try discriminate; [reflexivity|].
  cbn [map2] in Z. apply Forall_cons_iff in Z. destruct Z as [Z0 Z]. f_equal; [lra|]. apply IH; auto.
Qed.

(** Every table of values on a grid is taken. *)
Lemma family_interpolate ptss (y : list R -> R) : Forall graded qs -> Forall (fun pts => NoDup pts /\ length pts = n) ptss -> length ptss = length qs ->
  exists w, length w = b_dim b /\
    forall x, length x = length qs -> Forall2 (fun v pts => In v pts) (h x) ptss -> value b w x (y (h x)).
Proof.
  intros G Pt Lp.
  destruct (tsum_interpolate n qs ptss (fun e => y (map2 (fun pts i => nth i pts 0) ptss e)) G Pt (eq_sym Lp)) as (W & HW).
  destruct (family_function W) as (w & L & V). exists w. split; auto. intros x Lx Fx. pose proof (V x Lx) as Vx.
  assert (exists e, at_grid ptss e (h x) /\ map2 (fun pts i => nth i pts 0) ptss e = h x) as (e & A & M).
  { clear - Fx. induction Fx as [|v pts u ptss I Fx (e & [A La] & M)].
    - exists []. repeat split. constructor.
    - apply In_nth_error in I. destruct I as [i Ei]. exists (i :: e). split; [split|].
      + cbn [combine]. constructor; auto.
      + simpl. lia.
      + cbn [map2]. rewrite M. f_equal. now apply nth_error_nth. }
  rewrite (HW e (h x) A), M in Vx. exact Vx.
Qed.
End Family.

(** ** the bases *)

Lemma tprod_pow : forall x e, tprod (repeat (fun i v => v ^ i) (length x)) e x = monomial x e.
Proof.
  unfold monomial, rprod. induction x as [|v x IH]; intros [|i e]; try reflexivity. cbn [length repeat tprod map2 fold_right]. now rewrite IH.
Qed.

Definition cheb_on (l : R * R) : nat -> R -> R := fun i v => cheb i (2 * ((v - fst l) / (snd l - fst l)) - 1).

Lemma tprod_cheb : forall limits x e, length x = length limits ->
  tprod (map cheb_on limits) e x = cheb_product (to_unit x limits) e.
Proof.
  unfold cheb_product, to_unit, rprod. induction limits as [|l limits IH]; intros [|v x] [|i e] L; try discriminate; try reflexivity.
  cbn [map tprod map2 fold_right]. rewrite IH by (simpl in L; lia). reflexivity.
Qed.

Lemma cheb_pdeg a b n : a <> 0 -> (exists m, m <> 0 /\ pdeg n m (fun v => cheb n (a * v + b))) /\
  exists m, m <> 0 /\ pdeg (S n) m (fun v => cheb (S n) (a * v + b)).
Proof.
  intros Na. induction n as [|n [(m & Nm & D) (m' & Nm' & D')]].
  - split.
    + exists 1. split; [lra|]. exact (pdeg_const 1).
    + exists a. split; auto. exact (pdeg_affine a b).
  - split; [exists m'; split; auto|]. exists (2 * (a * m')). split.
    + apply Rmult_integral_contrapositive_currified; [lra|]. now apply Rmult_integral_contrapositive_currified.
    + pose proof (pdeg_sub _ _ _ _ _ _ 1 (pdeg_scale 2 _ _ _ (pdeg_mul a b _ _ _ D')) D ltac:(lia)) as Q.
      eapply pdeg_ext; [|exact Q]. intros v. cbv beta. rewrite (proj2 (proj2 (cheb_rec (a * v + b))) n). ring.
Qed.

Lemma cheb_graded l : fst l <> snd l -> graded (cheb_on l).
Proof.
  intros N n. assert (Na : 2 / (snd l - fst l) <> 0).
  { unfold Rdiv. apply Rmult_integral_contrapositive_currified; [lra|]. apply Rinv_neq_0_compat. lra. }
  destruct (proj1 (cheb_pdeg _ (- 2 * fst l / (snd l - fst l) - 1) n Na)) as (m & Nm & D). exists m. split; auto.
  eapply pdeg_ext; [|exact D]. intros v. unfold cheb_on. cbv beta. f_equal. field. lra.
Qed.

Lemma cheb_graded_id : graded cheb.
Proof.
  intros n. destruct (proj1 (cheb_pdeg 1 0 n R1_neq_R0)) as (m & Nm & D). exists m. split; auto.
  eapply pdeg_ext; [|exact D]. intros v. cbv beta. f_equal. ring.
Qed.

(** The exponents with the zeroth, in the order of the basis. *)
Lemma enumeration_zeroth k d es : enumeration k d es -> Permutation (es ++ [repeat 0%nat d]) (box (k + 1) d).
Proof.
  intros (I & S & N & L). apply NoDup_Permutation.
  - rewrite <- Permutation_cons_append. constructor; auto. intros J. apply I in J. destruct J as (_ & _ & i & Ii & Ni).
    apply repeat_spec in Ii. contradiction.
  - apply box_nodup.
  - intros e. rewrite in_app_iff, in_box, I. simpl. split.
    + intros [(Le & Fe & _)|[<-|[]]].
      * split; auto. revert Fe. apply Forall_impl. intros; lia.
      * split; [apply repeat_length|]. apply Forall_forall. intros i Ii. apply repeat_spec in Ii. lia.
    + intros [Le Fe]. destruct (list_eq_dec Nat.eq_dec (repeat 0%nat d) e) as [|Ne]; [auto|]. left. splits; auto.
      * revert Fe. apply Forall_impl. intros; lia.
      * destruct (Exists_dec (fun i => i <> 0%nat) e) as [X|X].
        { intros i. destruct (Nat.eq_dec i 0); [right|left]; auto. }
        { apply Exists_exists in X. exact X. }
        exfalso. apply Ne. subst d. clear - X. induction e as [|i e IH]; [reflexivity|]. simpl.
        f_equal; [destruct (Nat.eq_dec i 0); auto; exfalso; apply X; now constructor|]. apply IH. intros Y. apply X. now constructor 2.
Qed.

(** [b] is [Polynomial::new(d, k).with_zeroth()]. *)
Definition polynomial_from (d k : nat) (b : basis R) : Prop := exists es es',
  polynomial_new d k = BPolynomial (F := R) k es /\ polynomial_with_zeroth es = Ret es' /\ b = BPolynomial k es'.

(** [b] is [Chebyshev::new(k, limits).with_zeroth()]. *)
Definition chebyshev_from (k : nat) (limits : list (R * R)) (b : basis R) : Prop := exists ps,
  chebyshev_new k limits = Ret (BChebyshev k limits ps) /\ b = BChebyshev k limits (chebyshev_with_zeroth limits ps).

Lemma polynomial_family d k b : polynomial_from d k b ->
  family (as_basis b) (k + 1) (repeat (fun i v => v ^ i) d) (fun x => x).
Proof.
  intros (es & es' & E & Z & ->). pose proof (coefficients_enumerate k d) as En. unfold polynomial_new in E. injection E as <-.
  destruct (polynomial_zeroth d k (repeat 0 d) _ En) as [Pn _].
  exists (compute_coefficients k d ++ [repeat 0%nat d]). rewrite repeat_length. splits.
  - now apply enumeration_zeroth.
  - unfold polynomial_with_zeroth in Z. cbn. destruct (compute_coefficients k d) as [|e0 r]; [discriminate|]. simpl in Z. injection Z as <-.
    cbn [length app]. rewrite !app_length. reflexivity.
  - intros x Lx. split; auto. destruct (polynomial_zeroth d k x _ En) as [_ Q]. cbn [as_basis b_project]. rewrite (Q _ Z).
    do 3 f_equal. rewrite map_app. cbn [map]. subst d. f_equal.
    + apply map_ext. intros e. symmetry. apply tprod_pow.
    + f_equal. rewrite tprod_pow. symmetry. apply monomial_zero.
Qed.

Lemma chebyshev_family k limits b : chebyshev_from k limits b ->
  family (as_basis b) (k + 1) (map cheb_on limits) (fun x => x).
Proof.
  intros (ps & E & ->). pose proof (coefficients_enumerate k (length limits)) as En.
  destruct (proj2 (chebyshev_project k limits _ En) _ E) as [D Pr].
  exists (compute_coefficients k (length limits) ++ [repeat 0%nat (length limits)]). rewrite map_length. splits.
  - now apply enumeration_zeroth.
  - cbn [as_basis b_dim]. cbn in D |- *. unfold chebyshev_with_zeroth. rewrite !app_length. simpl. rewrite D.
    destruct En as (_ & _ & _ & Ln). lia.
  - intros x Lx. split; auto. cbn [as_basis b_project]. rewrite (chebyshev_zeroth limits k ps x _ (Pr x)).
    do 3 f_equal. rewrite map_app. cbn [map]. f_equal.
    + apply map_ext. intros e. now rewrite tprod_cheb.
    + f_equal. rewrite tprod_cheb by auto. unfold cheb_product. symmetry. apply rprod_ones.
      intros v I. apply in_map2 in I. destruct I as (s & i & I & ->). apply in_combine_r in I. apply repeat_spec in I. now subst i.
Qed.

(** [Fourier::new(k, [limits]).with_bias()], in one dimension. *)
Definition fourier_1d (k : nat) (l : R * R) : basis R := with_bias (fourier_new k [l]).

Definition angle (l : R * R) (x : list R) : list R := map (fun v => cos (PI * ((v - fst l) / (snd l - fst l)))) x.

Lemma fourier_1d_project k l x : project (fourier_1d k l) x =
  Ret (Ok (Dense (map (cosine (to_01 x [l])) (compute_coefficients k 1) ++ [1]))).
Proof.
  destruct (fourier_project k [l] _ x (coefficients_enumerate k 1)) as [P _].
  destruct (project_with_bias _ _ _ P (wf_dense _)) as (g & Eg & Wg & Sp & X). unfold fourier_1d. rewrite Eg. do 2 f_equal.
  destruct g as [v|sa]; [|discriminate]. f_equal. specialize (X _ (proj2 (expands_dense _ _) eq_refl)).
  apply expands_dense in X. rewrite fone_R in X. congruence.
Qed.

Lemma fourier_family k l : family (as_basis (fourier_1d k l)) (k + 1) [cheb] (angle l).
Proof.
  pose proof (coefficients_enumerate k 1) as En.
  exists (compute_coefficients k 1 ++ [repeat 0%nat 1]). splits.
  - now apply enumeration_zeroth.
  - cbn. rewrite map_length, app_length. reflexivity.
  - intros x Lx. split; [unfold angle; now rewrite map_length|]. cbn [as_basis b_project]. rewrite fourier_1d_project.
    do 3 f_equal. rewrite map_app. cbn [map]. destruct x as [|v [|]]; try discriminate. cbn [angle map]. f_equal.
    + apply map_ext_in. intros e I. apply En in I. destruct I as (Le & _). destruct e as [|i [|]]; try discriminate.
      cbn [tprod]. rewrite cheb_cos. unfold cosine, to_01, rdot, rsum. cbn [map map2 fold_right]. rewrite Rmult_1_r. f_equal. ring.
    + cbn [repeat tprod]. unfold cheb. cbn [cheb_pair fst]. f_equal. ring.
Qed.
