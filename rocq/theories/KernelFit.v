(** Kernel networks fit any values at their centroids (C75). *)
From Coq Require Import List Arith ZArith Lia Reals Lra.
From Verif Require Import Base Scalar ScalarR HMap NdArray VecFacts Features Spec FeatureFacts Coeffs CoeffFacts Kernels
  TileCoding Basis BasisReal Optim OptimSpec OptimFacts OptimReal Lfa LfaSpec LfaFacts LfaReal LfaRegret EndToEnd Passes
  KernelPsd KernelRadial KernelStrict KernelGram.
Import ListNotations.
Local Open Scope R_scope.

Definition point_dec : forall x y : list R, {x = y} + {x <> y} := list_eq_dec Req_EM_T.

(** ** the kernels are definite *)

Lemma sq_dist_pos ls : forall x y, length x = length y -> (length x <= length ls)%nat -> Forall (fun l => l <> 0) ls ->
  x <> y -> 0 < sq_dist ls x y.
Proof.
  unfold sq_dist, rsum. induction ls as [|l ls IH]; intros [|a x] [|b y] L Le F N; simpl in L, Le; try lia; try (now destruct N).
  cbn [map2 map fold_right]. apply Forall_cons_iff in F. destruct F as [Nl F].
  pose proof (sq_dist_nonneg ls x y) as P. unfold sq_dist, rsum in P.
  assert (0 <= (a - b) / l * ((a - b) / l)) by apply Rle_0_sqr.
  destruct (Req_dec a b) as [->|D].
  - assert (x <> y) by congruence. specialize (IH x y ltac:(lia) ltac:(lia) F H0). lra.
  - assert (0 < (a - b) / l * ((a - b) / l)); [|lra]. apply Rsqr_pos_lt. unfold Rdiv.
    apply Rmult_integral_contrapositive_currified; [lra|now apply Rinv_neq_0_compat].
Qed.

Lemma rdot_self_nonneg l : 0 <= rdot l l.
Proof. unfold rdot, rsum. induction l as [|a l IH]; simpl; [lra|]. pose proof (Rle_0_sqr a). unfold Rsqr in *. lra. Qed.

Lemma rdot_polar : forall a b, length a = length b -> 0 <= rdot a a + rdot b b + 2 * rdot a b.
Proof.
  unfold rdot, rsum. induction a as [|u a IH]; intros [|v b] L; try discriminate; simpl; [lra|].
  specialize (IH b ltac:(simpl in L; lia)). pose proof (Rle_0_sqr (u + v)). unfold Rsqr in *. lra.
Qed.

Lemma gauss_definite n ls t cs : 0 < t -> NoDup (map snd cs) ->
  (forall x y, In x (map snd cs) -> In y (map snd cs) -> x <> y -> 0 < pdist n ls x y) ->
  definite (fun x y => exp (- (t * pdist n ls x y))) cs.
Proof.
  intros P Nd Ap Z. set (s := fun x => scaled ls (pad n x)). set (f := fun x => exp (- (t * rdot (s x) (s x)))).
  assert (Ls : forall x, length (s x) = Nat.min n (length ls)).
  { intros x. unfold s, scaled. now rewrite map2_len, pad_length. }
  assert (Pd : forall x y, pdist n ls x y = rdot (s x) (s x) + rdot (s y) (s y) - 2 * rdot (s x) (s y)).
  { intros x y. unfold pdist. now rewrite sq_dist_expand by now rewrite !pad_length. }
  apply (exp_definite point_dec (fun x y => exp (- (1)) * (f x * f y)) (fun x y => 1 + 2 * t * rdot (s x) (s y)) cs).
  - apply gramlike_scale; [apply Rlt_le, exp_pos|apply gramlike_rank1].
  - apply gramlike_plus; [apply gramlike_const; lra|]. apply gramlike_scale; [lra|]. now apply (gramlike_rdot s (Nat.min n (length ls))).
  - exact Nd.
  - intros x _. split; [repeat apply Rmult_lt_0_compat; apply exp_pos|].
    pose proof (rdot_self_nonneg (s x)). assert (0 <= t * rdot (s x) (s x)) by (apply Rmult_le_pos; lra). lra.
  - intros x y Ix Iy Ne. specialize (Ap x y Ix Iy Ne). rewrite Pd in Ap.
    pose proof (rdot_polar (s x) (s y) ltac:(now rewrite !Ls)) as Q.
    set (u := rdot (s x) (s x)) in *. set (v := rdot (s y) (s y)) in *. set (c := rdot (s x) (s y)) in *.
    assert (A1 : t * (2 * c) < t * (u + v)) by (apply Rmult_lt_compat_l; lra).
    assert (A2 : t * - (2 * c) <= t * (u + v)) by (apply Rmult_le_compat_l; lra).
    pose proof (Rmax_l (1 + 2 * t * u) (1 + 2 * t * v)) as M1. pose proof (Rmax_r (1 + 2 * t * u) (1 + 2 * t * v)) as M2.
    apply Rabs_def1; lra.
  - rewrite <- Z. apply quad_same. intros a b _ _. unfold f. rewrite <- !exp_plus. f_equal. rewrite Pd. ring.
Qed.

Definition strict_kind (kind : kernel_kind R) : Prop :=
  match kind with
  | KExponential | KMatern32 | KExpQuad => True
  | KRationalQuadratic power => 0 < power
  | KMatern52 | KCosine => False
  end.

Theorem slice_definite k n cs : strict_kind (k_kind k) -> 0 < k_variance k ->
  (n <= length (k_lengthscales k))%nat -> Forall (fun l => l <> 0) (k_lengthscales k) ->
  Forall (fun c => length (snd c) = n) cs -> NoDup (map snd cs) -> definite (kernel_slice k) cs.
Proof.
  intros K V Ln Nz L Nd Z. set (ls := k_lengthscales k) in *. rewrite Forall_forall in L.
  pose proof (pdist_nonneg n ls) as N. pose proof (pdist_gauss n ls) as G.
  assert (S0 : forall x, pdist n ls x x = 0) by (intros; apply sq_dist_self).
  assert (Ap : forall x y, In x (map snd cs) -> In y (map snd cs) -> x <> y -> 0 < pdist n ls x y).
  { intros x y Ix Iy D. apply in_map_iff in Ix. apply in_map_iff in Iy. destruct Ix as (a & <- & Ia). destruct Iy as (b & <- & Ib).
    unfold pdist. rewrite !pad_id by auto. apply sq_dist_pos; auto; [now rewrite !L|]. rewrite L; auto. }
  assert (Z' : quad (fun x y => shape (k_kind k) (sqrt (pdist n ls x y))) cs = 0).
  { apply Rmult_eq_reg_l with (k_variance k); [|lra]. rewrite Rmult_0_r, <- Z.
    rewrite (quad_same (kernel_slice k) (fun x y => 0 + k_variance k * shape (k_kind k) (sqrt (pdist n ls x y))) cs).
    - rewrite (quad_linear (fun _ _ => 0)). replace (quad (fun _ _ => 0) cs) with 0; [ring|].
      symmetry. unfold quad. apply rsum_zero. intros a _. apply rsum_zero. intros b _. ring.
    - intros a b Ia Ib. rewrite Rplus_0_l. apply slice_pdist; auto. }
  destruct (k_kind k); simpl in K; try contradiction; unfold shape in Z'.
  - apply (exp_sqrt_definite point_dec (pdist n ls) N S0 G cs Nd Ap 1 0); [lra|lra|].
    eapply eq_trans; [|exact Z']. apply quad_same. intros. now rewrite Rmult_1_l, Rplus_0_r.
  - apply (tail_definite point_dec (pdist n ls) N S0 G cs Nd Ap 3 0); [lra|lra|].
    eapply eq_trans; [|exact Z']. apply quad_same. intros. rewrite Rplus_0_r, sqrt_mult by (lra || auto). reflexivity.
  - apply (gauss_definite n ls (/ 2) cs); auto; [lra|].
    eapply eq_trans; [|exact Z']. apply quad_same. intros. f_equal. rewrite pow2_sqrt by auto. field.
  - apply (power_definite point_dec (pdist n ls) N S0 G cs Nd Ap (/ 2) 1 power); [lra|lra|lra|].
    eapply eq_trans; [|exact Z']. apply quad_same. intros. f_equal. rewrite pow2_sqrt by auto. field.
Qed.

(** ** interpolation *)

Section Interpolation.
Context {X : Type} (eq_dec : forall x y : X, {x = y} + {x <> y}) (k : X -> X -> R) (sym : forall x y, k x y = k y x).

Definition comb (c : X -> R) (pts : list X) (x : X) : R := rsum (map (fun p => c p * k x p) pts).

Lemma quad_comb c pts : quad k (map (fun p => (c p, p)) pts) = rsum (map (fun p => c p * comb c pts p) pts).
Proof.
  unfold quad, comb. rewrite map_map. apply rsum_ext. intros a _. rewrite map_map, <- rsum_scale.
  apply rsum_ext. intros b _. simpl. ring.
Qed.

Lemma snd_pairs (c : X -> R) pts : map snd (map (fun p => (c p, p)) pts) = pts.
Proof. rewrite map_map. apply map_id. Qed.

Theorem interpolate : forall pts (y : X -> R), NoDup pts ->
  (forall cs, NoDup (map snd cs) -> incl (map snd cs) pts -> definite k cs) ->
  exists c, forall x, In x pts -> comb c pts x = y x.
Proof.
  induction pts as [|p pts IH]; intros y Nd Df; [exists (fun _ => 0); intros x []|].
  apply NoDup_cons_iff in Nd. destruct Nd as [Np Nd].
  assert (Df' : forall cs, NoDup (map snd cs) -> incl (map snd cs) pts -> definite k cs).
  { intros cs N I. apply Df; auto. intros x Ix. right. now apply I. }
  destruct (IH y Nd Df') as [f Hf]. destruct (IH (fun x => k x p) Nd Df') as [d Hd].
  assert (Off : forall (u v : X -> R) x, comb (fun z => if eq_dec z p then u z else v z) pts x = comb v pts x).
  { intros u v x. apply rsum_ext. intros z Iz. destruct (eq_dec z p) as [->|]; [contradiction|reflexivity]. }
  assert (Cons : forall c x, comb c (p :: pts) x = c p * k x p + comb c pts x) by (intros; apply rsum_cons).
  set (g := fun z => if eq_dec z p then 1 else - d z).
  assert (Hg : forall x, comb g (p :: pts) x = k x p - comb d pts x).
  { intros x. rewrite Cons. unfold g at 2. rewrite (Off (fun _ => 1) (fun z => - d z)).
    replace (comb (fun z => - d z) pts x) with (- comb d pts x).
    2: { unfold comb. replace (- rsum (map (fun q => d q * k x q) pts)) with (-1 * rsum (map (fun q => d q * k x q) pts)) by ring.
         rewrite <- rsum_scale. apply rsum_ext. intros. ring. }
    unfold g. destruct (eq_dec p p); [ring|congruence]. }
  assert (Pv : comb g (p :: pts) p <> 0).
  { intros E. assert (A := Df (map (fun z => (g z, z)) (p :: pts))). rewrite snd_pairs in A.
    specialize (A (NoDup_cons _ Np Nd) (incl_refl _)). unfold definite in A. rewrite quad_comb in A.
    assert (Z : rsum (map (fun q => g q * comb g (p :: pts) q) (p :: pts)) = 0).
    { apply rsum_zero. intros z [<-|Iz]; [rewrite E; ring|]. rewrite Hg, Hd by auto. ring. }
    specialize (A Z). cbn [map] in A. apply Forall_cons_iff in A. destruct A as [A _]. simpl in A.
    unfold g in A. destruct (eq_dec p p); [lra|congruence]. }
  set (r := (y p - comb f pts p) / comb g (p :: pts) p).
  exists (fun z => if eq_dec z p then r else f z - r * d z). intros x Ix. rewrite Cons, (Off (fun _ => r) (fun z => f z - r * d z)).
  destruct (eq_dec p p); [|congruence].
  replace (comb (fun z => f z - r * d z) pts x) with (comb f pts x - r * comb d pts x).
  2: { unfold comb. replace (rsum (map (fun q => f q * k x q) pts) - r * rsum (map (fun q => d q * k x q) pts))
         with (rsum (map (fun q => f q * k x q) pts) + - r * rsum (map (fun q => d q * k x q) pts)) by ring.
       rewrite <- rsum_scale, <- rsum_plus. apply rsum_ext. intros. ring. }
  destruct Ix as [<-|Ix].
  - replace (r * k p p + (comb f pts p - r * comb d pts p)) with (comb f pts p + r * comb g (p :: pts) p) by (rewrite Hg; ring).
    unfold r. field. exact Pv.
  - rewrite Hf, Hd by auto. ring.
Qed.
End Interpolation.

(** ** networks *)

Lemma predict_dense l w : length l = length w -> predict (Dense l) w = rdot l w.
Proof.
  intros L. rewrite (rdot_nth (length l)) by auto. unfold predict, sigma. simpl. apply rsum_ext. reflexivity.
Qed.

Lemma dense_sized_R (l : list R) n : length l = n -> sized n (Dense l).
Proof. intros <-. split; [apply wf_dense|reflexivity]. Qed.

Lemma network_project (cents : list (list R)) k x :
  b_project (as_basis (kernel_homogeneous cents k)) x = Ret (Ok (Dense (map (fun c => kernel_slice k x c) cents))).
Proof. simpl. now rewrite map_map. Qed.

Lemma rdot_map {A} (f g : A -> R) l : rdot (map f l) (map g l) = rsum (map (fun a => g a * f a) l).
Proof.
  unfold rdot. induction l as [|a l IH]; [reflexivity|]. cbn [map map2]. rewrite !rsum_cons, IH. ring.
Qed.

(** The form of the Gram matrix as the predictions at the centroids. *)
Lemma quad_weights (k : list R -> list R -> R) : forall cents w, length w = length cents ->
  quad k (combine w cents) = rsum (map2 Rmult w (map (fun c => rdot (map (k c) cents) w) cents)).
Proof.
  intros cents w L. unfold quad.
  assert (In1 : forall v x, length v = length cents -> rdot (map (k x) cents) v = rsum (map (fun b => fst b * k x (snd b)) (combine v cents))).
  { clear. intros v x. unfold rdot. revert v. induction cents as [|c cents IH]; intros [|a v] L; try discriminate; [reflexivity|].
    cbn [map map2 combine]. rewrite !rsum_cons, IH by (simpl in L; lia). simpl. ring. }
  transitivity (rsum (map (fun a => fst a * rdot (map (k (snd a)) cents) w) (combine w cents))).
  { apply rsum_ext. intros a _. rewrite In1 by auto. rewrite <- rsum_scale. apply rsum_ext. intros b _. ring. }
  set (h := fun c => rdot (map (k c) cents) w). change (fun c => rdot (map (k c) cents) w) with h.
  change (rsum (map (fun a => fst a * h (snd a)) (combine w cents)) = rsum (map2 Rmult w (map h cents))). clearbody h. clear In1.
  revert w L. induction cents as [|c cents IH]; intros [|a w] L; try discriminate; [reflexivity|].
  cbn [map map2 combine]. rewrite !rsum_cons, IH by (simpl in L; lia). reflexivity.
Qed.

Lemma snd_combine {A B} : forall (l : list A) (l' : list B), length l = length l' -> map snd (combine l l') = l'.
Proof. induction l as [|a l IH]; intros [|b l'] L; try discriminate; [reflexivity|]. simpl. rewrite IH; auto. Qed.

Section Network.
Context (k : kernel R) (n : nat) (cents : list (list R)).
Context (K : strict_kind (k_kind k)) (V : 0 < k_variance k).
Context (Ln : (n <= length (k_lengthscales k))%nat) (Nz : Forall (fun l => l <> 0) (k_lengthscales k)).
Context (Lc : Forall (fun c => length c = n) cents) (Nd : NoDup cents).

Definition row (x : list R) : list R := map (fun c => kernel_slice k x c) cents.

Lemma cents_definite cs : NoDup (map snd cs) -> incl (map snd cs) cents -> definite (kernel_slice k) cs.
Proof.
  intros N I. apply (slice_definite k n); auto. apply Forall_forall. intros c Ic.
  rewrite Forall_forall in Lc. apply Lc, I. now apply in_map.
Qed.

Lemma weights_exist ys : length ys = length cents -> exists w, length w = length cents /\
  forall i c y, nth_error cents i = Some c -> nth_error ys i = Some y -> rdot (row c) w = y.
Proof.
  intros L.
  (* targets as a function of the centroid *)
  assert (T : exists f : list R -> R, forall i c y, nth_error cents i = Some c -> nth_error ys i = Some y -> f c = y).
  { clear -L Nd. revert ys L Nd. induction cents as [|c cs IH]; intros [|y ys] L Nd; try discriminate.
    - exists (fun _ => 0). intros [|i] c y E; discriminate E.
    - apply NoDup_cons_iff in Nd. destruct Nd as [N0 Nd']. destruct (IH ys ltac:(simpl in L; lia) Nd') as [f Hf].
      exists (fun z => if point_dec z c then y else f z). intros [|i] c' y' E E'; simpl in E, E'.
      + injection E as <-. injection E' as <-. destruct (point_dec c c); congruence.
      + destruct (point_dec c' c) as [->|]; [|now apply (Hf i)]. exfalso. apply N0. apply nth_error_In in E. exact E. }
  destruct T as [f Hf].
  destruct (interpolate point_dec (kernel_slice k) cents f Nd cents_definite) as [c Hc].
  exists (map c cents). split; [apply map_length|]. intros i x y E E'.
  rewrite <- (Hf i x y E E'), <- (Hc x) by (eapply nth_error_In; eauto). unfold row, comb. apply rdot_map.
Qed.

Lemma weights_unique w w' : length w = length cents -> length w' = length cents ->
  (forall c, In c cents -> rdot (row c) w = rdot (row c) w') -> w = w'.
Proof.
  intros L L' E. set (d := map2 Rminus w w').
  assert (Ld : length d = length cents) by (unfold d; rewrite map2_len; lia).
  assert (Ed : forall c, In c cents -> rdot (row c) d = 0).
  { intros c Ic. replace 0 with (rdot (row c) w - rdot (row c) w') by (rewrite E by auto; ring). unfold d.
    assert (Lr : length (row c) = length cents) by apply map_length. clear -L L' Lr. revert w w' L L' Lr. generalize (row c).
    generalize cents. unfold rdot. intros m r. revert m.
    induction r as [|a r IH]; intros [|z m] [|u w] [|v w'] L L' Lr; try discriminate; [unfold rsum; simpl; ring|].
    cbn [map2]. rewrite !rsum_cons, (IH m) by (simpl in *; lia). ring. }
  assert (Z : quad (kernel_slice k) (combine d cents) = 0).
  { rewrite quad_weights by auto. clear -Ed Ld. revert Ed Ld. unfold row.
    assert (G : forall (h : list R -> R) cs d, length d = length cs -> (forall c, In c cs -> h c = 0) -> rsum (map2 Rmult d (map h cs)) = 0).
    { clear. intros h. induction cs as [|c cs IH]; intros [|a d] L E; try discriminate; [reflexivity|].
      cbn [map map2]. rewrite rsum_cons, E, IH by (simpl in *; auto). ring. }
    intros Ed Ld. apply G; auto. }
  assert (A : Forall (fun a => fst a = 0) (combine d cents)).
  { apply cents_definite; auto; rewrite snd_combine by auto; [exact Nd|apply incl_refl]. }
  unfold d in A, Ld. clear -A L L' Ld. revert w w' cents L L' Ld A.
  induction w as [|u w IH]; intros [|v w'] [|c cs] L L' Ld A; try discriminate; [reflexivity|].
  cbn [map2 combine] in A. apply Forall_cons_iff in A. destruct A as [A0 A]. simpl in A0.
  f_equal; [lra|]. apply (IH w' cs); simpl in *; auto.
Qed.

(** The approximator's view. *)
Definition network : Basis R (list R) := as_basis (kernel_homogeneous cents k).

Lemma network_evaluates {S} w (s : S) x : length w = length cents ->
  s_evaluate (MkLFA network w s : ScalarLFA R (list R) S) x = Ret (Ok (rdot (row x) w)).
Proof.
  intros L. unfold s_evaluate. unfold network at 1. cbn [lfa_basis lfa_weights].
  rewrite network_project. cbn [obind rmap].
  assert (Lr : length (row x) = length w) by (unfold row; rewrite map_length; lia).
  fold (row x). rewrite dot_predict by now apply dense_sized_R. cbn [obind]. now rewrite predict_dense.
Qed.

Lemma network_consistent w c y : length w = length cents ->
  consistent network (length cents) w (c, y) <-> y = rdot (row c) w.
Proof.
  intros L. assert (Lr : length (row c) = length w) by (unfold row; rewrite map_length; lia). split.
  - intros (phi & P & _ & E). unfold network in P. cbn [fst] in P. rewrite network_project in P. injection P as <-.
    fold (row c) in E. now rewrite predict_dense in E.
  - intros ->. exists (Dense (row c)). splits; [apply network_project|apply dense_sized_R; lia|]. simpl. now rewrite predict_dense.
Qed.

Lemma network_energy p : energy network p = rdot (row (fst p)) (row (fst p)).
Proof.
  unfold energy, network. rewrite network_project. fold (row (fst p)). set (l := row (fst p)).
  rewrite (rdot_nth (length l)) by auto. unfold norm2, sigma. simpl. apply rsum_ext. reflexivity.
Qed.

Theorem network_fits ys : length ys = length cents ->
  exists w, length w = length cents /\
    (forall S (s : S) i c y, nth_error cents i = Some c -> nth_error ys i = Some y ->
       s_evaluate (MkLFA network w s : ScalarLFA R (list R) S) c = Ret (Ok y)) /\
    (forall w' S (s : S), length w' = length cents ->
       (forall i c y, nth_error cents i = Some c -> nth_error ys i = Some y ->
          s_evaluate (MkLFA network w' s : ScalarLFA R (list R) S) c = Ret (Ok y)) -> w' = w) /\
    (forall p, In p (combine cents ys) -> consistent network (length cents) w p) /\
    (forall v, length v = length cents -> (forall p, In p (combine cents ys) -> settled network (length cents) v p) -> v = w).
Proof.
  intros L. destruct (weights_exist ys L) as (w & Lw & Hw). exists w.
  assert (Inx : forall c, In c cents -> exists i y, nth_error cents i = Some c /\ nth_error ys i = Some y).
  { intros c Ic. apply In_nth_error in Ic. destruct Ic as [i E]. exists i.
    assert (i < length ys)%nat by (rewrite L; apply nth_error_Some; congruence).
    destruct (nth_error ys i) as [y|] eqn:E'; [eauto|]. apply nth_error_None in E'. lia. }
  assert (InP : forall c y, In (c, y) (combine cents ys) -> exists i, nth_error cents i = Some c /\ nth_error ys i = Some y).
  { clear. intros c y. revert ys. induction cents as [|c0 cs IH]; intros [|y0 ys] I; simpl in I; try contradiction.
    destruct I as [E|I]; [injection E as -> ->; now exists 0%nat|]. destruct (IH ys I) as (i & E & E'). now exists (S i). }
  assert (PIn : forall i c y, nth_error cents i = Some c -> nth_error ys i = Some y -> In (c, y) (combine cents ys)).
  { clear. intros i. revert ys. induction cents as [|c0 cs IH] in i |- *; intros [|y0 ys] c y E E'; destruct i as [|i]; simpl in E, E'; try discriminate.
    - injection E as ->. injection E' as ->. now left.
    - right. now apply (IH i). }
  splits; auto.
  - intros S s i c y E E'. rewrite network_evaluates by auto. now rewrite (Hw i c y).
  - intros w' S s Lw' Ev. symmetry. apply weights_unique; auto. intros c Ic. destruct (Inx c Ic) as (i & y & E & E').
    rewrite (Hw i c y E E'). specialize (Ev i c y E E'). rewrite network_evaluates in Ev by auto. now injection Ev.
  - intros [c y] I. destruct (InP c y I) as (i & E & E'). apply network_consistent; auto. symmetry. now apply (Hw i).
  - intros v Lv Se. symmetry. apply weights_unique; auto. intros c Ic. destruct (Inx c Ic) as (i & y & E & E').
    rewrite (Hw i c y E E'). destruct (Se (c, y) (PIn i c y E E')) as (phi & P & Z & [Q|Q]).
    + unfold network in P. cbn [fst] in P. rewrite network_project in P. injection P as <-. cbn [snd] in Q.
      fold (row c) in Q. rewrite predict_dense in Q; [exact Q|]. unfold row. rewrite map_length. lia.
    + exfalso. unfold network in P. cbn [fst] in P. rewrite network_project in P. injection P as <-.
      (* the kernel at the centroid itself is the variance *)
      assert (En : energy network (c, y) = 0) by (unfold energy, network; rewrite network_project; exact Q).
      rewrite network_energy in En. cbn [fst] in En. unfold row in En. rewrite rdot_map in En.
      pose proof (rsum_term (fun a => kernel_slice k c a * kernel_slice k c a) cents c (fun a _ => Rle_0_sqr _) Ic) as T. cbv beta in T.
      rewrite (proj1 (kernel_self k) c) in T. rewrite En in T. nra.
Qed.
End Network.

Lemma product_nodup {A} (ls : list (list A)) : Forall (@NoDup A) ls -> NoDup (multi_product ls).
Proof.
  induction ls as [|l ls IH]; intros F; cbn [multi_product]; [constructor; [intros []|constructor]|].
  apply Forall_cons_iff in F. destruct F as [N F]. specialize (IH F).
  induction l as [|a l IHl]; cbn [flat_map]; [constructor|]. apply NoDup_cons_iff in N. destruct N as [Na N].
  apply NoDup_app'.
  - apply FinFun.Injective_map_NoDup; auto. intros u v E. now injection E.
  - now apply IHl.
  - intros v I1 I2. apply in_map_iff in I1. destruct I1 as (u & <- & _). apply in_flat_map in I2. destruct I2 as (a' & Ia & I2).
    apply in_map_iff in I2. destruct I2 as (u' & E & _). injection E as -> _. contradiction.
Qed.

Lemma product_lengths {A} (ls : list (list A)) : Forall (fun v => length v = length ls) (multi_product ls).
Proof.
  induction ls as [|l ls IH]; cbn [multi_product]; [repeat constructor|]. rewrite Forall_forall in *. intros v I.
  apply in_flat_map in I. destruct I as (a & _ & I). apply in_map_iff in I. destruct I as (u & <- & I). simpl. now rewrite IH.
Qed.

(** Matern52 as coded equals its value at 0 somewhere else. *)
Lemma matern52_returns : exists r, 0 < r /\ shape KMatern52 r = 1.
Proof.
  set (f := fun r => (1 + sqrt 3 * r + 5 * r ^ 2 / 3) * exp (- (sqrt 3 * r)) - 1).
  destruct (matern52_overshoots 1 1 Rlt_0_1 Rlt_0_1) as (x & y & v & _ & O & E).
  set (r0 := sqrt (sq_dist [1] [x] [y])).
  assert (P0 : 0 < f r0).
  { rewrite (proj1 (kernel_formula _)) in E. unfold non_ard, shape in E. cbn [k_kind k_variance k_lengthscales] in E. fold r0 in E. unfold f. lra. }
  assert (R0 : 0 < r0).
  { destruct (sqrt_pos (sq_dist [1] [x] [y])) as [|Z]; [assumption|]. fold r0 in Z. exfalso. rewrite <- Z in P0. unfold f in P0.
    replace (sqrt 3 * 0) with 0 in P0 by ring. rewrite Ropp_0, exp_0 in P0. lra. }
  assert (Cf : continuity f).
  { unfold f. intros z. apply derivable_continuous_pt. reg. }
  assert (S3 : sqrt 3 * sqrt 3 = 3) by (apply sqrt_sqrt; lra).
  assert (S1 : 1 <= sqrt 3) by (rewrite <- sqrt_1 at 1; apply sqrt_le_1; lra).
  set (b := 1 + r0 + 100).
  assert (Nb : f b < 0).
  { (* exp u > u^3 / 27 for u = sqrt 3 b *)
    unfold f. set (u := sqrt 3 * b). assert (Pu : 100 < u) by (unfold u, b; nra).
    assert (B3 : 5 * b ^ 2 / 3 = 5 / 9 * (u * u)).
    { unfold u. replace (sqrt 3 * b * (sqrt 3 * b)) with (sqrt 3 * sqrt 3 * (b * b)) by ring. rewrite S3. field. }
    rewrite B3. assert (E3 : (u / 3) * (u / 3) * (u / 3) < exp u).
    { replace u with (u / 3 + u / 3 + u / 3) at 4 by field. rewrite !exp_plus.
      pose proof (exp_ineq1 (u / 3) ltac:(lra)) as Q. set (e := exp (u / 3)) in *.
      assert (u / 3 < e) by lra. assert (0 < u / 3) by lra.
      apply Rmult_gt_0_lt_compat; try lra; [apply Rmult_lt_0_compat; lra|]. apply Rmult_gt_0_lt_compat; lra. }
    rewrite exp_Ropp. apply Rmult_lt_reg_r with (exp u); [apply exp_pos|]. rewrite Rmult_0_l, Rmult_minus_distr_r, Rmult_assoc, Rinv_l by (apply Rgt_not_eq, exp_pos).
    assert (1 + u + 5 / 9 * (u * u) <= (u / 3) * (u / 3) * (u / 3)); [|lra].
    replace (u / 3 * (u / 3) * (u / 3)) with (u * u * u / 27) by field.
    assert (0 <= (u - 100) * (u * u)) by (apply Rmult_le_pos; [lra|apply Rle_0_sqr]).
    assert (0 <= (u - 100) * u) by (apply Rmult_le_pos; lra). lra. }
  destruct (IVT_cor f r0 b Cf) as (z & [Lz Uz] & Ez).
  - unfold b. lra.
  - apply Rlt_le. nra.
  - exists z. split; [lra|]. unfold shape. unfold f in Ez. lra.
Qed.
