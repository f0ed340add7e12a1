(** C89: what Polynomial, Chebyshev and Fourier approximators can represent.
    Proofs are in Span.v and SpanBasis.v. *)
From Coq Require Import List Arith ZArith Lia Reals Lra Permutation.
From Verif Require Import Base Scalar ScalarR HMap NdArray VecFacts Features Spec FeatureFacts FeatureMore Coeffs CoeffFacts Kernels
  TileCoding Basis BasisFacts BasisReal Optim OptimSpec OptimFacts OptimReal Lfa LfaSpec LfaFacts LfaReal LfaRegret EndToEnd Passes
  KernelPsd KernelStrict KernelGram KernelFit Span SpanBasis.
Import ListNotations.
Local Open Scope R_scope.

(** ** C89 *)

(** [n] distinct values on each of [d] axes, and the inputs they make. *)
Definition grid (n d : nat) (axes : list (list R)) : Prop :=
  length axes = d /\ Forall (fun a => NoDup a /\ length a = n) axes.
Definition on_grid (x : list R) (axes : list (list R)) : Prop := Forall2 (fun v a => In v a) x axes.

(** The weights [w] give [b] the values of [f] at the inputs on the grid. *)
Definition takes (b : basis R) (w : list R) (axes : list (list R)) (f : list R -> R) : Prop :=
  length w = dim b /\ forall x, on_grid x axes -> value (as_basis b) w x (f x).

Definition proper (limits : list (R * R)) : Prop := Forall (fun l => fst l <> snd l) limits.

Lemma on_grid_length x axes : on_grid x axes -> length x = length axes.
Proof. induction 1; simpl; auto. Qed.

Lemma pow_graded d : Forall graded (repeat (fun i v => v ^ i) d).
Proof. apply Forall_forall. intros q I. apply repeat_spec in I. subst q. exact graded_pow. Qed.

Lemma limits_graded limits : proper limits -> Forall graded (map cheb_on limits).
Proof. intros P. apply Forall_map. revert P. apply Forall_impl. apply cheb_graded. Qed.

Lemma grid_interpolate b n qs axes f : family (as_basis b) n qs (fun x => x) -> Forall graded qs -> grid n (length qs) axes ->
  exists w, takes b w axes f /\ forall w', takes b w' axes f -> w' = w.
Proof.
  intros Fam G [La Fa]. destruct (family_interpolate _ n qs _ Fam axes f G Fa La) as (w & L & V).
  exists w. assert (T : takes b w axes f).
  { split; [exact L|]. intros x O. apply V; auto. rewrite <- La. now apply on_grid_length. }
  split; auto. intros w' [L' V']. apply (family_unique _ n qs _ Fam axes); auto.
  - revert Fa. apply Forall_impl. intros a [N Ln]. split; auto. lia.
  - intros u O. exists u, (f u). splits; [rewrite <- La; now apply on_grid_length|reflexivity|now apply V'|now apply T].
Qed.

(** Whatever values are asked for on a grid with [k + 1] values per axis,
    exactly one weight vector of an order-[k] basis has them. *)
Theorem C89_polynomial : forall d k b axes f, polynomial_from d k b -> grid (k + 1) d axes ->
  exists w, takes b w axes f /\ forall w', takes b w' axes f -> w' = w.
Proof.
  intros d k b axes f P G. apply (grid_interpolate b _ _ axes f (polynomial_family d k b P)); [apply pow_graded|].
  now rewrite repeat_length.
Qed.
Print Assumptions C89_polynomial.

Theorem C89_chebyshev : forall k limits b axes f, chebyshev_from k limits b -> proper limits ->
  grid (k + 1) (length limits) axes ->
  exists w, takes b w axes f /\ forall w', takes b w' axes f -> w' = w.
Proof.
  intros k limits b axes f C P G. apply (grid_interpolate b _ _ axes f (chebyshev_family k limits b C)); [now apply limits_graded|].
  now rewrite map_length.
Qed.
Print Assumptions C89_chebyshev.

Lemma cos_inj a b : 0 <= a <= PI -> 0 <= b <= PI -> cos a = cos b -> a = b.
Proof.
  intros A B E. destruct (Rtotal_order a b) as [L|[|L]]; auto; exfalso.
  - pose proof (cos_decreasing_1 a b). lra.
  - pose proof (cos_decreasing_1 b a). lra.
Qed.

Lemma turn_inj l v v' : fst l < snd l -> fst l <= v <= snd l -> fst l <= v' <= snd l ->
  cos (PI * ((v - fst l) / (snd l - fst l))) = cos (PI * ((v' - fst l) / (snd l - fst l))) -> v = v'.
Proof.
  intros Lt A B E. pose proof PI_RGT_0 as Pp.
  assert (Q : forall u, fst l <= u <= snd l -> 0 <= PI * ((u - fst l) / (snd l - fst l)) <= PI).
  { intros u U. assert (I : 0 < / (snd l - fst l)) by (apply Rinv_0_lt_compat; lra).
    assert (0 <= (u - fst l) / (snd l - fst l) <= 1) as [U0 U1].
    { split; [apply Rmult_le_pos; lra|]. apply (Rmult_le_reg_r (snd l - fst l)); [lra|]. unfold Rdiv.
      rewrite Rmult_assoc, Rinv_l by lra. lra. }
    split; [apply Rmult_le_pos; lra|]. rewrite <- (Rmult_1_r PI) at 2. apply Rmult_le_compat_l; lra. }
  apply cos_inj in E; auto. apply Rmult_eq_reg_l in E; [|lra]. apply Rmult_eq_reg_r in E; [lra|].
  apply Rinv_neq_0_compat. lra.
Qed.

(** Fourier in one dimension, at distinct inputs within its limits. *)
Theorem C89_fourier : forall k l xs f, fst l < snd l -> NoDup xs -> length xs = (k + 1)%nat ->
  Forall (fun v => fst l <= v <= snd l) xs ->
  exists w, takes (fourier_1d k l) w [xs] f /\ forall w', takes (fourier_1d k l) w' [xs] f -> w' = w.
Proof.
  intros k l xs f Lt N L Fx. rewrite Forall_forall in Fx.
  set (turn := fun v => cos (PI * ((v - fst l) / (snd l - fst l)))).
  assert (Gr : Forall graded [cheb]) by (constructor; [exact cheb_graded_id|constructor]).
  assert (Nt : NoDup (map turn xs)).
  { clear - N Lt Fx. induction N as [|v xs I N IH]; constructor.
    - intros J. apply in_map_iff in J. destruct J as (u & E & J). apply I.
      assert (u = v) as <-; [|exact J]. apply (turn_inj l); auto; apply Fx; simpl; auto.
    - apply IH. intros u J. apply Fx. now right. }
  set (back := fun u => match find (fun v => if Req_EM_T (turn v) u then true else false) xs with Some v => v | None => 0 end).
  assert (Bk : forall v, In v xs -> back (turn v) = v).
  { intros v I. unfold back. destruct (find _ xs) as [u|] eqn:E.
    - apply find_some in E. destruct E as [J E]. destruct (Req_EM_T (turn u) (turn v)) as [Q|]; [|discriminate].
      apply (turn_inj l); auto.
    - pose proof (find_none _ _ E v I) as Q. cbv beta in Q. now destruct (Req_EM_T (turn v) (turn v)). }
  assert (One : forall x, on_grid x [xs] -> exists v, x = [v] /\ In v xs).
  { intros x O. inversion O as [|v a x' l' I O']; subst. inversion O'; subst. now exists v. }
  assert (Og : forall u, Forall2 (fun v pts => In v pts) u [map turn xs] -> exists v, In v xs /\ u = angle l [v]).
  { intros u O. inversion O as [|v a u' l' I O']; subst. inversion O'; subst. apply in_map_iff in I. destruct I as (v' & <- & I). now exists v'. }
  destruct (family_interpolate _ _ _ _ (fourier_family k l) [map turn xs] (fun u => f (map back u)) Gr) as (w & Lw & V).
  { constructor; [|constructor]. split; auto. now rewrite map_length. } { reflexivity. }
  assert (T : takes (fourier_1d k l) w [xs] f).
  { split; [exact Lw|]. intros x O. destruct (One x O) as (v & -> & I).
    assert (Q := V [v] eq_refl). unfold angle in Q. cbn [map] in Q. fold (turn v) in Q. rewrite (Bk v I) in Q. apply Q.
    repeat constructor. now apply in_map. }
  exists w. split; auto. intros w' [L' V'].
  apply (family_unique _ _ _ _ (fourier_family k l) [map turn xs]); auto.
  - constructor; [|constructor]. split; auto. rewrite map_length. lia.
  - intros u O. destruct (Og u O) as (v & I & ->). exists [v], (f [v]).
    assert (on_grid [v] [xs]) by (repeat constructor; auto). splits; auto. now apply T.
Qed.
Print Assumptions C89_fourier.

(** Polynomial and Chebyshev bases of one order represent the same functions
    of the inputs of the right length, each by exactly one weight vector. *)
Theorem C89_same : forall k limits b b', polynomial_from (length limits) k b -> chebyshev_from k limits b' -> proper limits ->
  dim b = dim b' /\ forall b1 b2, (b1 = b /\ b2 = b' \/ b1 = b' /\ b2 = b) ->
  forall w, length w = dim b1 -> exists w', length w' = dim b2 /\
    (forall x, length x = length limits -> exists v, value (as_basis b1) w x v /\ value (as_basis b2) w' x v) /\
    forall w'', length w'' = dim b2 ->
      (forall x, length x = length limits -> exists v, value (as_basis b1) w x v /\ value (as_basis b2) w'' x v) -> w'' = w'.
Proof.
  intros k limits b b' P C Pl. pose proof (polynomial_family _ _ _ P) as F1. pose proof (chebyshev_family _ _ _ C) as F2.
  pose proof (pow_graded (length limits)) as G1. pose proof (limits_graded _ Pl) as G2.
  set (qs1 := repeat (fun i v => v ^ i) (length limits)) in *. set (qs2 := map cheb_on limits) in *.
  assert (L1 : length qs1 = length limits) by apply repeat_length. assert (L2 : length qs2 = length limits) by apply map_length.
  split.
  - destruct F1 as (es1 & E1 & D1 & _), F2 as (es2 & E2 & D2 & _). cbn [as_basis b_dim] in D1, D2. rewrite D1, D2.
    rewrite (Permutation_length E1), (Permutation_length E2). congruence.
  - assert (Half : forall c1 c2 p1 p2, family (as_basis c1) (k + 1) p1 (fun x => x) -> family (as_basis c2) (k + 1) p2 (fun x => x) ->
      Forall graded p1 -> Forall graded p2 -> length p1 = length limits -> length p2 = length limits ->
      forall w, length w = dim c1 -> exists w', length w' = dim c2 /\
      (forall x, length x = length limits -> exists v, value (as_basis c1) w x v /\ value (as_basis c2) w' x v) /\
      forall w'', length w'' = dim c2 ->
        (forall x, length x = length limits -> exists v, value (as_basis c1) w x v /\ value (as_basis c2) w'' x v) -> w'' = w').
    { intros c1 c2 p1 p2 A1 A2 B1 B2 N1 N2 w Lw.
      destruct (family_weights _ _ _ _ A1 w Lw) as (W & V). destruct (tsum_graded (k + 1) p1 p2 W B1 B2) as (W' & E); [congruence|].
      destruct (family_function _ _ _ _ A2 W') as (w' & Lw' & V').
      assert (Sm : forall x, length x = length limits -> exists v, value (as_basis c1) w x v /\ value (as_basis c2) w' x v).
      { intros x Lx. exists (tsum (k + 1) p1 W x). split; [apply V; congruence|]. rewrite E by congruence. apply V'. congruence. }
      exists w'. splits; auto. intros w'' Lw'' Sm''.
      apply (family_unique _ _ _ _ A2 (repeat (map INR (seq 0 (k + 1))) (length limits))); auto.
      - apply Forall_forall. intros a I. apply repeat_spec in I. subst a. rewrite map_length, seq_length. split; auto.
        apply FinFun.Injective_map_NoDup; [intros i j; apply INR_eq|apply seq_NoDup].
      - rewrite repeat_length. congruence.
      - intros u O. pose proof (on_grid_length _ _ O) as Lu. rewrite repeat_length in Lu.
        destruct (Sm u Lu) as (v & Va & Vb). destruct (Sm'' u Lu) as (v'' & Va'' & Vb'').
        rewrite (value_unique _ _ _ _ _ Va'' Va) in Vb''. exists u, v. splits; auto. congruence. }
    intros b1 b2 [[-> ->]|[-> ->]]; [apply (Half b b' qs1 qs2)|apply (Half b' b qs2 qs1)]; auto.
Qed.
Print Assumptions C89_same.

(** ** without the zeroth feature *)

Lemma rdot_app1 : forall l w a c, length l = length w -> rdot (l ++ [a]) (w ++ [c]) = rdot l w + a * c.
Proof.
  unfold rdot, rsum. induction l as [|x l IH]; intros [|y w] a c L; try discriminate; simpl; [ring|].
  rewrite IH by (simpl in L; lia). ring.
Qed.

Lemma rdot_zeros l m : rdot l (repeat 0 m) = 0.
Proof. unfold rdot, rsum. revert m. induction l as [|x l IH]; intros [|m]; simpl; auto. rewrite IH. ring. Qed.

(** If adding a constant feature makes values on the points determine the
    weights, the constant was not there before. *)
Lemma no_constant (b b1 : basis R) (O : list R -> Prop) c : c <> 0 -> dim b1 = (dim b + 1)%nat ->
  (forall x, O x -> exists l, length l = dim b /\ project b x = Ret (Ok (Dense l)) /\ project b1 x = Ret (Ok (Dense (l ++ [1])))) ->
  (forall w w', length w = dim b1 -> length w' = dim b1 ->
     (forall x, O x -> exists v, value (as_basis b1) w x v /\ value (as_basis b1) w' x v) -> w = w') ->
  ~ exists w, length w = dim b /\ forall x, O x -> value (as_basis b) w x c.
Proof.
  intros Nc D Pr Un (w & L & V).
  assert (E : w ++ [0] = repeat 0 (dim b) ++ [c]).
  { apply Un; [rewrite app_length; simpl; lia|rewrite app_length, repeat_length; simpl; lia|].
    intros x Ox. destruct (Pr x Ox) as (l & Ll & P & P1). exists c. split; intros S s.
    - rewrite (evaluates (as_basis b1) _ s x _ P1) by (rewrite !app_length; simpl; lia). rewrite rdot_app1 by lia.
      specialize (V x Ox S s). rewrite (evaluates (as_basis b) _ s x _ P) in V by lia. injection V as V. rewrite V. do 2 f_equal. ring.
    - rewrite (evaluates (as_basis b1) _ s x _ P1) by (rewrite !app_length, repeat_length; simpl; lia).
      rewrite rdot_app1 by (rewrite repeat_length; lia). rewrite rdot_zeros. do 2 f_equal. ring. }
  apply app_inj_tail in E. destruct E as [_ E]. lra.
Qed.

(** No weights of a basis without it are constant but zero, even on a grid. *)
Theorem C89_without_zeroth : forall k axes c, c <> 0 ->
  (forall d, (0 < d)%nat -> (0 < k)%nat -> grid (k + 1) d axes -> ~ exists w, takes (polynomial_new d k) w axes (fun _ => c)) /\
  (forall limits b, chebyshev_new k limits = Ret b -> proper limits -> grid (k + 1) (length limits) axes ->
     ~ exists w, takes b w axes (fun _ => c)) /\
  (forall l xs, fst l < snd l -> axes = [xs] -> NoDup xs -> length xs = (k + 1)%nat -> Forall (fun v => fst l <= v <= snd l) xs ->
     ~ exists w, takes (fourier_new k [l]) w axes (fun _ => c)).
Proof.
  intros k axes c Nc. splits.
  - intros d Pd Pk G. pose proof (coefficients_enumerate k d) as En.
    destruct (polynomial_with_zeroth (compute_coefficients k d)) as [es'|] eqn:Z.
    2:{ pose proof (proj1 (polynomial_zeroth d k [] _ En)) as Q. apply Q in Z. lia. }
    assert (Pf : polynomial_from d k (BPolynomial k es')) by (exists (compute_coefficients k d), es'; auto).
    apply (no_constant _ (BPolynomial k es') (fun x => on_grid x axes) c Nc).
    + unfold polynomial_with_zeroth in Z. cbn. destruct (compute_coefficients k d) as [|e0 r]; [discriminate|]. simpl in Z.
      injection Z as <-. cbn [length app]. rewrite app_length. reflexivity.
    + intros x O. exists (map (monomial x) (compute_coefficients k d)).
      destruct (polynomial_project d k x _ En) as [P D]. splits; auto.
      * rewrite map_length, D. apply En.
      * apply (proj2 (polynomial_zeroth d k x _ En)), Z.
    + intros w w' L L' Eq. destruct G as [La Fa]. apply (family_unique _ _ _ _ (polynomial_family d k _ Pf) axes); auto.
      * apply pow_graded.
      * revert Fa. apply Forall_impl. intros a [N Ln]. split; auto. lia.
      * now rewrite repeat_length.
      * intros u O. destruct (Eq u O) as (v & V & V'). exists u, v. splits; auto. rewrite repeat_length, <- La. now apply on_grid_length.
  - intros limits b E Pl G. pose proof (coefficients_enumerate k (length limits)) as En.
    assert (exists ps, b = BChebyshev k limits ps) as (ps & ->).
    { unfold chebyshev_new in E. destruct (11 <? k)%nat; [discriminate|]. destruct (make_polynomials k (length limits)) as [ps|]; [|discriminate].
      injection E as <-. now exists ps. }
    assert (Cf : chebyshev_from k limits (BChebyshev k limits (chebyshev_with_zeroth limits ps))) by (exists ps; auto).
    destruct (proj2 (chebyshev_project k limits _ En) _ E) as [D P].
    apply (no_constant _ (BChebyshev k limits (chebyshev_with_zeroth limits ps)) (fun x => on_grid x axes) c Nc).
    + cbn. unfold chebyshev_with_zeroth. now rewrite app_length.
    + intros x O. eexists. splits; [|apply P|apply (chebyshev_zeroth limits k ps x _ (P x))].
      rewrite map_length, D. apply En.
    + intros w w' L L' Eq. destruct G as [La Fa]. apply (family_unique _ _ _ _ (chebyshev_family k _ _ Cf) axes); auto.
      * now apply limits_graded.
      * revert Fa. apply Forall_impl. intros a [N Ln]. split; auto. lia.
      * now rewrite map_length.
      * intros u O. destruct (Eq u O) as (v & V & V'). exists u, v. splits; auto. rewrite map_length, <- La. now apply on_grid_length.
  - intros l xs Lt -> N L Fx. pose proof (coefficients_enumerate k 1) as En.
    apply (no_constant _ (fourier_1d k l) (fun x => on_grid x [xs]) c Nc).
    + reflexivity.
    + intros x O. destruct (fourier_project k [l] _ x En) as [P D]. eexists. splits; [|exact P|apply fourier_1d_project].
      rewrite map_length, D. apply En.
    + intros w w' Lw Lw' Eq.
      set (f := fun x => match s_evaluate (MkLFA (as_basis (fourier_1d k l)) w tt : ScalarLFA R (list R) unit) x with Ret (Ok v) => v | _ => 0 end).
      destruct (C89_fourier k l xs f Lt N L Fx) as (w0 & _ & Un).
      assert (forall u, length u = dim (fourier_1d k l) -> (forall x, on_grid x [xs] -> exists v, value (as_basis (fourier_1d k l)) w x v /\ value (as_basis (fourier_1d k l)) u x v) -> u = w0) as X.
      { intros u Lu Q. apply Un. split; auto. intros x O. destruct (Q x O) as (v & V & V'). unfold f. rewrite (V unit tt). exact V'. }
      rewrite (X w), (X w'); auto. intros x O. destruct (Eq x O) as (v & V & _). exists v. auto.
Qed.
Print Assumptions C89_without_zeroth.

(** ** learning *)

(** An order-[k] basis of either kind with its zeroth feature. *)
Definition full_basis (d k : nat) (b : basis R) : Prop := polynomial_from d k b \/
  exists limits, length limits = d /\ proper limits /\ chebyshev_from k limits b.

Lemma full_family d k b : full_basis d k b -> exists qs, length qs = d /\ Forall graded qs /\ family (as_basis b) (k + 1) qs (fun x => x).
Proof.
  intros [P|(limits & L & Pl & C)].
  - exists (repeat (fun i v => v ^ i) d). splits; [apply repeat_length|apply pow_graded|now apply polynomial_family].
  - exists (map cheb_on limits). splits; [now rewrite map_length|now apply limits_graded|now apply chebyshev_family].
Qed.

Lemma in_product : forall (axes : list (list R)) x, In x (multi_product axes) <-> on_grid x axes.
Proof.
  induction axes as [|a axes IH]; intros x; cbn [multi_product].
  - simpl. split; [intros [<-|[]]; constructor|]. inversion 1. auto.
  - rewrite in_flat_map. split.
    + intros (v & I & J). apply in_map_iff in J. destruct J as (x' & <- & J). constructor; auto. now apply IH.
    + inversion 1 as [|v a' x' axes' I O]; subst. exists v. split; auto. apply in_map. now apply IH.
Qed.

(** Samples of a function on the grid, in any order that keeps coming back to
    each, lead to the weights that take its values: with ISGD at any rate, with
    SGD at any rate below 2 / energy. *)
Theorem C89_training : forall d k b axes f w0 o lr s w, full_basis d k b -> grid (k + 1) d axes ->
  let D := map (fun x => (x, f x)) (multi_product axes) in
  steady o lr (as_basis b) D -> visits s D -> length w0 = dim b -> takes b w axes f ->
  reaches o (as_basis b) lr w0 s w.
Proof.
  intros d k b axes f w0 o lr s w Fb G D St Vi L0 T. destruct (full_family d k b Fb) as (qs & Lq & Gq & Fam).
  pose proof Fam as (es & Pe & De & Pr).
  assert (Fe : forall x, on_grid x axes -> exists l, length l = dim b /\ b_project (as_basis b) x = Ret (Ok (Dense l))).
  { intros x O. destruct (Pr x) as [_ P]; [rewrite Lq; destruct G as [<- _]; now apply on_grid_length|].
    eexists. split; [|exact P]. rewrite map_length. symmetry. exact De. }
  assert (Val : forall u x l, length u = dim b -> length l = dim b -> b_project (as_basis b) x = Ret (Ok (Dense l)) -> value (as_basis b) u x (predict (Dense l) u)).
  { intros u x l Lu Ll P S s0. rewrite (evaluates (as_basis b) u s0 x l P) by lia. rewrite predict_dense by lia. reflexivity. }
  assert (InD : forall p, In p D -> on_grid (fst p) axes /\ snd p = f (fst p)).
  { intros p I. unfold D in I. apply in_map_iff in I. destruct I as (x & <- & I). apply in_product in I. auto. }
  assert (Cw : forall p, In p D -> exists l, length l = dim b /\ b_project (as_basis b) (fst p) = Ret (Ok (Dense l)) /\ snd p = predict (Dense l) w).
  { intros p I. destruct (InD p I) as [O ->]. destruct (Fe _ O) as (l & Ll & P). exists l. splits; auto.
    apply (value_unique (as_basis b) w (fst p)); [now apply T|]. apply Val; auto. apply T. }
  destruct (passes_settle o lr (as_basis b) w0 D s w St Vi) as (wl & Re & Sl & _).
  { intros p I. rewrite L0. destruct (Cw p I) as (l & Ll & P & E). exists (Dense l). splits; auto. now apply dense_sized_R. }
  assert (Ll : length wl = dim b) by (destruct Re as [Lr _]; lia).
  assert (wl = w) as <-; [|exact Re]. destruct G as [La Fa].
  apply (family_unique _ _ _ _ Fam axes); auto.
  - revert Fa. apply Forall_impl. intros a [N Ln]. split; auto. lia.
  - congruence.
  - apply T.
  - intros u O. exists u, (f u). splits; [rewrite Lq, <- La; now apply on_grid_length|reflexivity| |now apply T].
    assert (I : In (u, f u) D) by (unfold D; apply in_map_iff; exists u; split; auto; now apply in_product).
    destruct (Cw _ I) as (l & Lf & P & E). cbn [fst snd] in P, E.
    destruct (Sl _ I) as (phi & P' & Z & Q). cbn [fst snd] in P', Q. rewrite P in P'. injection P' as <-.
    assert (f u = predict (Dense l) wl) as ->; [|now apply Val].
    destruct Q as [Q|Q]; auto. rewrite E. rewrite !(predict_vanish (Dense l) (length w0)); auto.
Qed.
Print Assumptions C89_training.

(** ** more values than weights *)

(** Weights that vanish on the grid vanish at every other input too. *)
Theorem C89_extra_refuted : forall d k b axes x c, full_basis d k b -> grid (k + 1) d axes -> length x = d -> c <> 0 ->
  ~ exists w, takes b w axes (fun _ => 0) /\ value (as_basis b) w x c.
Proof.
  intros d k b axes x c Fb G Lx Nc (w & T & V). destruct (full_family d k b Fb) as (qs & Lq & Gq & Fam).
  pose proof Fam as (es & Pe & De & Pr). cbn [as_basis b_dim] in De.
  assert (Vz : forall y, length y = d -> value (as_basis b) (repeat 0 (dim b)) y 0).
  { intros y Ly S s. destruct (Pr y) as [_ P]; [congruence|].
    rewrite (evaluates (as_basis b) _ s y _ P) by (rewrite map_length, repeat_length; lia). rewrite rdot_zeros. reflexivity. }
  destruct (grid_interpolate b (k + 1) qs axes (fun _ => 0) Fam Gq) as (w' & _ & Un); [now rewrite Lq|].
  assert (w = repeat 0 (dim b)) as ->.
  { rewrite (Un w T). symmetry. apply Un. split; [apply repeat_length|]. intros y O. apply Vz. destruct G as [<- _]. now apply on_grid_length. }
  apply Nc. apply (value_unique _ _ _ _ _ V (Vz x Lx)).
Qed.
Print Assumptions C89_extra_refuted.

(** ** Fourier in two dimensions *)

(** With the frequencies the code enumerates, the four values at the corners of
    this square always satisfy one equation, so not every table is taken. *)
Theorem C89_fourier_plane_refuted : exists limits axes, proper limits /\ grid 2 2 axes /\
  (forall x, on_grid x axes -> inside x limits) /\
  (forall w v00 v01 v10 v11, length w = 4%nat -> let b := with_bias (fourier_new 1 limits) in
     value (as_basis b) w [0; 0] v00 -> value (as_basis b) w [0; 1/2] v01 -> value (as_basis b) w [1/2; 0] v10 -> value (as_basis b) w [1/2; 1/2] v11 ->
     v00 + v11 = v01 + v10) /\
  exists f, ~ exists w, takes (with_bias (fourier_new 1 limits)) w axes f.
Proof.
  set (limits := [(0, 1); (0, 1)] : list (R * R)). set (b := with_bias (fourier_new 1 limits)).
  assert (Pr : forall x, project b x = Ret (Ok (Dense (map (cosine (to_01 x limits)) [[0; 1]; [1; 0]; [1; 1]]%nat ++ [1])))).
  { intros x. destruct (fourier_project 1 limits _ x (coefficients_enumerate 1 2)) as [P _].
    destruct (project_with_bias _ _ _ P (wf_dense _)) as (g & Eg & Wg & Sp & X). unfold b. rewrite Eg. do 2 f_equal.
    destruct g as [v|sa]; [|discriminate]. f_equal. specialize (X _ (proj2 (expands_dense _ _) eq_refl)).
    apply expands_dense in X. rewrite fone_R in X. rewrite <- X. reflexivity. }
  assert (Fe : forall s t, map (cosine (to_01 [s; t] limits)) [[0; 1]; [1; 0]; [1; 1]]%nat = [cos (PI * t); cos (PI * s); cos (PI * (s + t))]).
  { intros s t. unfold cosine, to_01, limits, rdot, rsum. cbn [map map2 fold_right fst snd INR].
    repeat apply f_equal2; try reflexivity; f_equal; field. }
  assert (Eq : forall w v00 v01 v10 v11, length w = 4%nat ->
     value (as_basis b) w [0; 0] v00 -> value (as_basis b) w [0; 1/2] v01 -> value (as_basis b) w [1/2; 0] v10 -> value (as_basis b) w [1/2; 1/2] v11 ->
     v00 + v11 = v01 + v10).
  { intros w v00 v01 v10 v11 L. assert (Ev : forall s t v, value (as_basis b) w [s; t] v -> v = rdot ([cos (PI * t); cos (PI * s); cos (PI * (s + t))] ++ [1]) w).
    { intros s t v V. specialize (V unit tt). pose proof (Pr [s; t]) as P. rewrite Fe in P.
      rewrite (evaluates (as_basis b) w tt _ _ P) in V by (rewrite L; reflexivity). now injection V. }
    intros A B C D. rewrite (Ev _ _ _ A), (Ev _ _ _ B), (Ev _ _ _ C), (Ev _ _ _ D).
    destruct w as [|a [|b' [|c [|e [|]]]]]; try discriminate. unfold rdot, rsum. cbn [app map2 fold_right].
    replace (PI * 0) with 0 by ring. replace (PI * (0 + 0)) with 0 by ring. replace (PI * (0 + 1/2)) with (PI * (1/2)) by ring.
    replace (PI * (1/2 + 0)) with (PI * (1/2)) by ring. replace (PI * (1/2 + 1/2)) with PI by field.
    replace (PI * (1/2)) with (PI/2) by field. rewrite cos_0, cos_PI, cos_PI2. ring. }
  exists limits, [[0; 1/2]; [0; 1/2]]. splits.
  - repeat constructor; simpl; lra.
  - split; [reflexivity|].
    assert (N : NoDup [0; 1/2]) by (constructor; [intros [E|[]]; lra|constructor; [intros []|constructor]]). constructor; [|constructor; [|constructor]]; split; auto.
  - intros x O. inversion O as [|v a x' l' I O']; subst. inversion O' as [|v' a' x'' l'' I' O'']; subst. inversion O''; subst.
    simpl in I, I'. unfold inside, limits.
    assert (B : forall u, 0 = u \/ 1/2 = u \/ False -> fst (0, 1) < snd (0, 1) /\ fst (0, 1) <= u <= snd (0, 1)).
    { intros u [<-|[<-|[]]]; simpl; lra. }
    apply Forall2_cons; [apply B; auto|]. apply Forall2_cons; [apply B; auto|]. apply Forall2_nil.
  - exact Eq.
  - exists (fun x => match x with [s; t] => if Req_EM_T s 0 then (if Req_EM_T t 0 then 1 else 0) else 0 | _ => 0 end).
    intros (w & L & V). assert (Lw : length w = 4%nat) by (rewrite L; reflexivity).
    assert (O : forall s t, In s [0; 1/2] -> In t [0; 1/2] -> on_grid [s; t] [[0; 1/2]; [0; 1/2]]) by (intros; apply Forall2_cons; [auto|]; apply Forall2_cons; [auto|]; apply Forall2_nil).
    pose proof (Eq w _ _ _ _ Lw (V [0; 0] ltac:(apply O; simpl; auto)) (V [0; 1/2] ltac:(apply O; simpl; auto))
      (V [1/2; 0] ltac:(apply O; simpl; auto)) (V [1/2; 1/2] ltac:(apply O; simpl; auto))) as E. cbv beta in E.
    destruct (Req_EM_T 0 0); [|lra]. destruct (Req_EM_T (1/2) 0); [lra|]. lra.
Qed.
Print Assumptions C89_fourier_plane_refuted.

(** Bases, a grid and rates that meet the hypotheses. *)
Example C89_case : exists bp bc, polynomial_from 2 1 bp /\ chebyshev_from 1 [(0, 1); (2, 5)] bc /\
  proper [(0, 1); (2, 5)] /\ grid 2 2 [[0; 1]; [2; 4]] /\
  bp = BPolynomial 1 [[0; 1]; [1; 0]; [1; 1]; [0; 0]]%nat /\
  (forall x y, value (as_basis bp) [7; 0; 3; 2] [x; y] (7 * y + 3 * (x * y) + 2)) /\
  steady ISGD 3 (as_basis bp) (map (fun x => (x, 1)) (multi_product [[0; 1]; [2; 4]])) /\
  NoDup [3; 4; 5] /\ Forall (fun v => fst (3, 5) <= v <= snd (3, 5)) [3; 4; 5].
Proof.
  eexists (BPolynomial 1 [[0; 1]; [1; 0]; [1; 1]; [0; 0]]%nat), _. splits.
  - exists [[0; 1]; [1; 0]; [1; 1]]%nat, [[0; 1]; [1; 0]; [1; 1]; [0; 0]]%nat. splits; reflexivity.
  - eexists. split; reflexivity.
  - repeat constructor; simpl; lra.
  - split; [reflexivity|]. repeat constructor; simpl; intros H; intuition lra.
  - reflexivity.
  - intros x y S s.
    assert (P : polynomial_from 2 1 (BPolynomial 1 [[0; 1]; [1; 0]; [1; 1]; [0; 0]]%nat)) by
      (exists [[0; 1]; [1; 0]; [1; 1]]%nat, [[0; 1]; [1; 0]; [1; 1]; [0; 0]]%nat; splits; reflexivity).
    assert (Q : b_project (as_basis (BPolynomial 1 [[0; 1]; [1; 0]; [1; 1]; [0; 0]]%nat)) [x; y] = Ret (Ok (Dense [y; x; x * y; 1]))).
    { cbn [as_basis b_project]. rewrite (proj2 (polynomial_zeroth 2 1 [x; y] _ (coefficients_enumerate 1 2)) [[0; 1]; [1; 0]; [1; 1]; [0; 0]]%nat eq_refl).
      do 3 f_equal. change (compute_coefficients 1 2) with [[0; 1]; [1; 0]; [1; 1]]%nat. unfold monomial, rprod. cbn [map map2 fold_right app pow].
      repeat apply f_equal2; try reflexivity; ring. }
    rewrite (evaluates _ _ s _ _ Q) by reflexivity. do 2 f_equal. unfold rdot, rsum. cbn [map2 fold_right]. ring.
  - split; [lra|]. now right.
  - repeat constructor; simpl; intros H; intuition lra.
  - repeat constructor; simpl; lra.
Qed.
