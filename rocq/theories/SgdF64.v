(** SGD in binary64 against its exact counterpart. Facts for C77. *)
From Coq Require Import List Arith ZArith Lia Reals Lra Bool Psatz.
From Flocq Require Import Core.Core IEEE754.BinarySingleNaN.
From Verif Require Import Base Scalar ScalarR ScalarF64 F64Facts HMap NdArray VecFacts Features Spec FeatureFacts FeatureMore
  SumOrder FeatureF64 Optim OptimSpec OptimReal Lfa LfaSpec Passes.
Import ListNotations.
Local Open Scope R_scope.

(** ** Euclidean length of the first [n] entries *)

Definition nn (n : nat) (x : nat -> R) : R := sqrt (sigma n (fun i => x i * x i)).

Lemma nn_nonneg n x : 0 <= nn n x.
Proof. apply sqrt_pos. Qed.

Lemma sq_nonneg n x : 0 <= sigma n (fun i => x i * x i).
Proof. apply sigma_nonneg. intros i. apply Rle_0_sqr. Qed.

Lemma nn_sqr n x : nn n x * nn n x = sigma n (fun i => x i * x i).
Proof. apply sqrt_sqrt, sq_nonneg. Qed.

Lemma cauchy n x y : sigma n (fun i => x i * y i) * sigma n (fun i => x i * y i) <=
  sigma n (fun i => x i * x i) * sigma n (fun i => y i * y i).
Proof.
  set (a := sigma n (fun i => x i * y i)). set (X := sigma n (fun i => x i * x i)). set (Y := sigma n (fun i => y i * y i)).
  assert (Y0 : 0 <= Y) by apply sq_nonneg. assert (X0 : 0 <= X) by apply sq_nonneg.
  destruct (Rle_lt_or_eq_dec _ _ Y0) as [Yp|Yz].
  - assert (Q := sq_nonneg n (fun i => Y * x i + - a * y i)). cbv beta in Q.
    rewrite (sigma_ext n _ (fun i => (Y * Y * (x i * x i) + (-2 * a * Y) * (x i * y i)) + a * a * (y i * y i))) in Q by (intros; ring).
    rewrite !sigma_plus, !sigma_scal in Q. fold a X Y in Q.
    assert (0 <= Y * (X * Y - a * a)) by lra.
    apply Rmult_le_reg_l with Y; auto. lra.
  - assert (Z : a = 0).
    { unfold a. rewrite (sigma_ext n _ (fun _ => 0)); [rewrite sigma_const; ring|]. intros i Li.
      assert (T := sigma_term (fun i => y i * y i) (fun i => Rle_0_sqr (y i)) n i Li). cbv beta in T. fold Y in T.
      assert (y i * y i = 0) by (pose proof (Rle_0_sqr (y i)) as S; unfold Rsqr in S; lra).
      destruct (Rmult_integral _ _ H) as [-> | ->]; ring. }
    rewrite Z. rewrite <- Yz. lra.
Qed.

Lemma cauchy_nn n x y : Rabs (sigma n (fun i => x i * y i)) <= nn n x * nn n y.
Proof.
  rewrite <- sqrt_Rsqr_abs. unfold nn. rewrite <- sqrt_mult by apply sq_nonneg. apply sqrt_le_1_alt. apply cauchy.
Qed.

Lemma nn_triangle n x y : nn n (fun i => x i + y i) <= nn n x + nn n y.
Proof.
  pose proof (nn_nonneg n x) as A. pose proof (nn_nonneg n y) as B.
  apply Rsqr_incr_0_var; [|lra]. unfold Rsqr. rewrite nn_sqr.
  rewrite (sigma_ext n _ (fun i => (x i * x i + 2 * (x i * y i)) + y i * y i)) by (intros; ring).
  rewrite !sigma_plus, sigma_scal. rewrite <- !nn_sqr. pose proof (cauchy_nn n x y) as C. apply Rabs_le_inv in C. lra.
Qed.

Lemma nn_le n x y : (forall i, (i < n)%nat -> Rabs (x i) <= Rabs (y i)) -> nn n x <= nn n y.
Proof. intros H. apply sqrt_le_1_alt. apply sigma_le. intros i Li. apply Rsqr_le_abs_1. now apply H. Qed.

Lemma nn_scale n c x : nn n (fun i => c * x i) = Rabs c * nn n x.
Proof.
  unfold nn. rewrite (sigma_ext n _ (fun i => c * c * (x i * x i))) by (intros; ring). rewrite sigma_scal.
  rewrite sqrt_mult by (try apply sq_nonneg; apply Rle_0_sqr). f_equal. apply sqrt_Rsqr_abs.
Qed.

Lemma nn_abs n x : nn n (fun i => Rabs (x i)) = nn n x.
Proof. unfold nn. f_equal. apply sigma_ext. intros i _. rewrite <- Rabs_mult. apply Rabs_pos_eq, Rle_0_sqr. Qed.

Lemma nn_const n c : 0 <= c -> nn n (fun _ => c) <= INR n * c.
Proof.
  intros C. unfold nn. rewrite sigma_const. pose proof (pos_INR n) as N.
  rewrite <- (sqrt_Rsqr (INR n * c)) by (apply Rmult_le_pos; auto). apply sqrt_le_1_alt. unfold Rsqr.
  destruct n as [|n]; [simpl; lra|]. assert (1 <= INR (S n)) by (rewrite S_INR; pose proof (pos_INR n); lra).
  assert (0 <= c * c) by (apply Rle_0_sqr). nra.
Qed.

Lemma nn_ext n x y : (forall i, (i < n)%nat -> x i = y i) -> nn n x = nn n y.
Proof. intros H. unfold nn. f_equal. apply sigma_ext. intros i Li. now rewrite H. Qed.

Lemma nn_zero n x : (forall i, (i < n)%nat -> x i = 0) -> nn n x = 0.
Proof.
  intros H. rewrite (nn_ext n x (fun _ => 0)) by auto. unfold nn. rewrite sigma_const, Rmult_0_l, Rmult_0_r. apply sqrt_0.
Qed.

(** ** the rounding of one step *)

Local Notation u := uro.
Local Notation eta := eta64.

Lemma abs_m1 : Rabs (-1) = 1.
Proof. rewrite Rabs_left; lra. Qed.

Lemma abs_1d d : Rabs d <= u -> Rabs (1 + d) <= 1 + u.
Proof. intros H. eapply Rle_trans; [apply Rabs_triang|]. rewrite Rabs_R1. lra. Qed.

Lemma coord_round w f al g d h d4 : Rabs d <= u -> Rabs h <= eta -> Rabs d4 <= u ->
  Rabs ((w + (al * f * (1 + d) + h)) * (1 + d4) - (w + g * f)) <=
  (Rabs (al - g) + (2 * u + u * u) * Rabs al) * Rabs f + u * Rabs w + (1 + u) * eta.
Proof.
  intros D H D4. pose proof uro_pos.
  replace ((w + (al * f * (1 + d) + h)) * (1 + d4) - (w + g * f)) with
    ((al - g) * f + al * f * (d + d4 + d * d4) + (w * d4 + (1 + d4) * h)) by ring.
  assert (A1 : Rabs ((al - g) * f) <= Rabs (al - g) * Rabs f) by (rewrite Rabs_mult; lra).
  assert (A2 : Rabs (al * f * (d + d4 + d * d4)) <= Rabs al * Rabs f * (2 * u + u * u)).
  { rewrite !Rabs_mult. apply Rmult_le_compat_l; [apply Rmult_le_pos; apply Rabs_pos|].
    eapply Rle_trans; [apply Rabs_triang|]. assert (Rabs (d + d4) <= u + u) by (eapply Rle_trans; [apply Rabs_triang|lra]).
    rewrite Rabs_mult. assert (Rabs d * Rabs d4 <= u * u) by (apply Rmult_le_compat; auto using Rabs_pos). lra. }
  assert (A3 : Rabs (w * d4) <= u * Rabs w).
  { rewrite Rabs_mult, Rmult_comm. apply Rmult_le_compat_r; auto using Rabs_pos. }
  assert (A4 : Rabs ((1 + d4) * h) <= (1 + u) * eta).
  { rewrite Rabs_mult. apply Rmult_le_compat; auto using Rabs_pos, abs_1d. }
  eapply Rle_trans; [apply Rabs_triang|]. 
  eapply Rle_trans; [apply Rplus_le_compat; apply Rabs_triang|]. lra.
Qed.

Lemma alpha_round lr E de d1 d2 h2 : 0 <= lr -> Rabs d1 <= u -> Rabs d2 <= u -> Rabs h2 <= eta ->
  Rabs (lr * ((E - de) * (1 + d1)) * (1 + d2) + h2 - lr * E) <=
  lr * Rabs E * ((1 + u) ^ 2 - 1) + lr * Rabs de * (1 + u) ^ 2 + eta.
Proof.
  intros L D1 D2 H. pose proof uro_pos.
  replace (lr * ((E - de) * (1 + d1)) * (1 + d2) + h2 - lr * E) with
    (lr * E * (d1 + d2 + d1 * d2) + (- (lr * de * ((1 + d1) * (1 + d2))) + h2)) by ring.
  assert (A1 : Rabs (lr * E * (d1 + d2 + d1 * d2)) <= lr * Rabs E * ((1 + u) ^ 2 - 1)).
  { rewrite !Rabs_mult, (Rabs_pos_eq lr) by auto. apply Rmult_le_compat_l; [apply Rmult_le_pos; auto using Rabs_pos|].
    eapply Rle_trans; [apply Rabs_triang|]. assert (Rabs (d1 + d2) <= u + u) by (eapply Rle_trans; [apply Rabs_triang|lra]).
    rewrite Rabs_mult. assert (Rabs d1 * Rabs d2 <= u * u) by (apply Rmult_le_compat; auto using Rabs_pos). simpl. lra. }
  assert (A2 : Rabs (lr * de * ((1 + d1) * (1 + d2))) <= lr * Rabs de * (1 + u) ^ 2).
  { rewrite !Rabs_mult, (Rabs_pos_eq lr) by auto. apply Rmult_le_compat_l; [apply Rmult_le_pos; auto using Rabs_pos|].
    simpl. rewrite Rmult_1_r. apply Rmult_le_compat; auto using Rabs_pos, abs_1d. }
  eapply Rle_trans; [apply Rabs_triang|]. 
  assert (Rabs (- (lr * de * ((1 + d1) * (1 + d2))) + h2) <= lr * Rabs de * (1 + u) ^ 2 + eta).
  { eapply Rle_trans; [apply Rabs_triang|]. rewrite Rabs_Ropp. lra. }
  lra.
Qed.

(** What a step may add along the features: [E] is the error, [X] the size of
    the weights, [f] that of the features. *)
Definition spill (n : nat) (lr E f X : R) : R :=
  lr * Rabs E * ((1 + u) ^ 4 - 1) +
  lr * (1 + u) ^ 4 * (((1 + u) ^ S n - 1) * (f * X) + (1 + u) ^ n * (INR n * eta)) + (1 + u) ^ 2 * eta.

Lemma b_sub_error x y : b_finite (b_sub x y) = true ->
  b_finite x = true /\ b_finite y = true /\ exists d, Rabs d <= u /\ b_real (b_sub x y) = (b_real x - b_real y) * (1 + d).
Proof.
  intros E. assert (Q : b_sub x y = b_add x (Bopp y)).
  { destruct x as [?|[]| |[]? ? ?], y as [?|[]| |[]? ? ?]; try reflexivity; try (destruct s; try reflexivity; destruct s0; reflexivity). }
  rewrite Q in *. destruct (b_add_finite_inv _ _ E) as (Fx & Fy & _). rewrite is_finite_Bopp in Fy.
  splits; auto. destruct (b_add_error _ _ E) as (d & D & R). exists d. split; auto. rewrite R, B2R_Bopp. ring.
Qed.

Definition val (l : list f64) (i : nat) : R := b_real (nth i l b_zero).

Lemma some_stored {F} (phi : Features F) : (exists i, stored phi i) \/ (forall i, ~ stored phi i).
Proof.
  destruct phi as [[|x da]|[d [|[k v] m]]].
  - right. intros i [v V]. destruct i; discriminate.
  - left. exists 0%nat, x. reflexivity.
  - right. intros i [v []].
  - left. exists k, v. left. reflexivity.
Qed.

Lemma pow_ge1 k : 1 <= (1 + u) ^ k.
Proof. apply pow_1_uro. Qed.

Lemma spill_nonneg n lr E f X : 0 <= lr -> 0 <= f -> 0 <= X -> 0 <= spill n lr E f X.
Proof.
  intros L F0 X0. unfold spill. pose proof (pow_ge1 4) as P4. pose proof (pow_ge1 (S n)) as Pn. pose proof (pow_ge1 n) as Pm.
  pose proof (pow_ge1 2) as P2. pose proof eta64_pos. pose proof (pos_INR n). pose proof (Rabs_pos E).
  assert (0 <= lr * Rabs E * ((1 + u) ^ 4 - 1)) by (repeat apply Rmult_le_pos; lra).
  assert (0 <= lr * (1 + u) ^ 4 * (((1 + u) ^ S n - 1) * (f * X) + (1 + u) ^ n * (INR n * eta))).
  { apply Rmult_le_pos; [apply Rmult_le_pos; lra|]. apply Rplus_le_le_0_compat; repeat apply Rmult_le_pos; lra. }
  assert (0 <= (1 + u) ^ 2 * eta) by (apply Rmult_le_pos; lra). lra.
Qed.

(** One step of SGD on the error [y - v]: if every new weight is finite, so was
    everything on the way, and the new weights are the exact ones up to a
    small vector. *)
Lemma sgd_round P (phi : Features f64) l w lr y v w' : let S := ScalarF64 P in any_order P -> wf phi -> expands phi l ->
  length w = size phi -> 0 <= b_real lr ->
  dot phi w = Ret v -> scaled_addto phi (fmul lr (fsub y v)) w = Ret w' -> Forall (fun x => b_finite x = true) w' ->
  let n := size phi in let E := b_real y - sigma n (fun i => val l i * val w i) in
  length w' = length w /\ Forall (fun x => b_finite x = true) w /\
  nn n (fun i => val w' i - (val w i + b_real lr * E * val l i)) <=
    spill n (b_real lr) E (nn n (val l)) (nn n (val w)) * nn n (val l) + u * nn n (val w) + (1 + u) * eta * INR n.
Proof.
  intros S AO W X Lw L0 Dv Aw Fw n E.
  destruct (scaled_addto_spec phi (fmul lr (fsub y v)) w (proj1 W) (wf_fits phi w W (eq_sym Lw))) as (w2 & E2 & Len & Bp).
  rewrite E2 in Aw. injection Aw as ->. split; [exact Len|].
  assert (Ll : length l = n) by apply X.
  assert (Lw' : length w' = n) by (unfold n; rewrite <- Lw; exact Len).
  assert (At : forall i, (i < n)%nat -> (exists v0, stores phi i v0 /\ nth i l b_zero = v0 /\
      nth i w' b_zero = b_add (nth i w b_zero) (b_mul (b_mul lr (b_sub y v)) v0)) \/
    (~ stored phi i /\ nth i l b_zero = b_zero /\ nth i w' b_zero = nth i w b_zero)).
  { intros i Li. destruct (nth_error w i) as [x|] eqn:Ex; [|apply nth_error_None in Ex; fold n in Lw; lia].
    destruct (nth_error l i) as [a|] eqn:Ea; [|apply nth_error_None in Ea; lia].
    destruct (Bp i x Ex) as [B1 B2]. destruct (proj2 X i a Ea) as [St|[Ns ->]].
    - left. exists a. split; auto. split; [now apply nth_error_nth|]. specialize (B1 a St).
      rewrite (nth_error_nth _ _ _ B1), (nth_error_nth _ _ _ Ex). reflexivity.
    - right. split; auto. specialize (B2 Ns). rewrite (nth_error_nth _ _ _ B2), (nth_error_nth _ _ _ Ex), (nth_error_nth _ _ _ Ea). auto. }
  assert (Fi : forall i, (i < n)%nat -> b_finite (nth i w' b_zero) = true).
  { intros i Li. rewrite Forall_forall in Fw. apply Fw, nth_In. lia. }
  split.
  { apply Forall_forall. intros x Ix. destruct (In_nth w x b_zero Ix) as (i & Li & <-). fold n in Lw. rewrite Lw in Li.
    specialize (Fi i Li). destruct (At i Li) as [(v0 & _ & _ & Q)|(_ & _ & Q)]; rewrite Q in Fi; auto.
    now apply b_add_finite_inv in Fi. }
  pose proof (nn_nonneg n (val l)) as F0. pose proof (nn_nonneg n (val w)) as X0. pose proof uro_pos as Up. pose proof eta64_pos as Ep.
  pose proof (spill_nonneg n (b_real lr) E _ _ L0 F0 X0) as Sp. pose proof (pos_INR n) as Np.
  destruct (some_stored phi) as [[i0 St0]|None].
  2:{ rewrite nn_zero.
      - assert (0 <= (1 + u) * eta * INR n) by (repeat apply Rmult_le_pos; lra).
        pose proof (Rmult_le_pos _ _ Sp F0). assert (0 <= u * nn n (val w)) by (apply Rmult_le_pos; lra). lra.
      - intros i Li. destruct (At i Li) as [(v0 & St & _)|(_ & Q1 & Q2)]; [exfalso; eapply None; eexists; exact St|].
        unfold val. rewrite Q1, Q2. change (b_real b_zero) with 0. ring. }
  assert (Li0 : (i0 < n)%nat) by (apply W, St0).
  set (al := b_mul lr (b_sub y v)) in *.
  assert (Fa : b_finite al = true).
  { specialize (Fi i0 Li0). destruct (At i0 Li0) as [(v0 & _ & _ & Q)|(Ns & _)]; [|contradiction]. rewrite Q in Fi.
    apply b_add_finite_inv in Fi. destruct Fi as (_ & Fm & _). now apply b_mul_finite_inv in Fm. }
  destruct (b_mul_error _ _ Fa) as (d2 & h2 & D2 & H2 & Ra).
  destruct (b_mul_finite_inv _ _ Fa) as (_ & Fe & _). destruct (b_sub_error _ _ Fe) as (_ & Fv & d1 & D1 & Re).
  assert (Dot := dot_f64_error P phi l w v AO W X Lw Dv Fv). fold n in Dot.
  assert (Rd : rdot (map b_real l) (map b_real w) = sigma n (fun i => val l i * val w i)).
  { rewrite rdot_seq by (rewrite !map_length; transitivity n; [exact Ll|symmetry; exact Lw]). rewrite map_length. change (length l) with (@length f64 l). replace (@length f64 l) with n by (symmetry; exact Ll). unfold sigma. f_equal. apply map_ext_in.
    intros i Ii. unfold val. change 0 with (b_real b_zero). now rewrite !(map_nth b_real). }
  assert (Rb : rdot (map (fun x => Rabs (b_real x)) l) (map (fun x => Rabs (b_real x)) w) = sigma n (fun i => Rabs (val l i) * Rabs (val w i))).
  { rewrite rdot_seq by (rewrite !map_length; transitivity n; [exact Ll|symmetry; exact Lw]). rewrite map_length. change (length l) with (@length f64 l). replace (@length f64 l) with n by (symmetry; exact Ll). unfold sigma. f_equal. apply map_ext_in.
    intros i Ii. unfold val. replace 0 with (Rabs (b_real b_zero)) by (apply Rabs_R0).
    now rewrite !(map_nth (fun x => Rabs (b_real x))). }
  rewrite Rd, Rb in Dot.
  set (de := b_real v - sigma n (fun i => val l i * val w i)) in *.
  assert (Dc : sigma n (fun i => Rabs (val l i) * Rabs (val w i)) <= nn n (val l) * nn n (val w)).
  { eapply Rle_trans; [apply Rle_abs|]. eapply Rle_trans; [apply cauchy_nn|]. rewrite !nn_abs. lra. }
  assert (Db : Rabs de <= ((1 + u) ^ Datatypes.S n - 1) * (nn n (val l) * nn n (val w)) + (1 + u) ^ n * (INR n * eta)).
  { eapply Rle_trans; [exact Dot|]. apply Rplus_le_compat_r. apply Rmult_le_compat_l; auto. pose proof (pow_ge1 (Datatypes.S n)). lra. }
  assert (Rae : b_real al = b_real lr * ((E - de) * (1 + d1)) * (1 + d2) + h2).
  { unfold al. rewrite Ra, Re. unfold E, de. ring. }
  assert (Ar := alpha_round (b_real lr) E de d1 d2 h2 L0 D1 D2 H2). rewrite <- Rae in Ar.
  set (A := Rabs (b_real al - b_real lr * E)) in *.
  assert (Al : Rabs (b_real al) <= b_real lr * Rabs E + A).
  { replace (b_real al) with (b_real lr * E + (b_real al - b_real lr * E)) by ring. eapply Rle_trans; [apply Rabs_triang|].
    rewrite Rabs_mult, (Rabs_pos_eq (b_real lr)) by auto. unfold A. lra. }
  set (c := A + (2 * u + u * u) * Rabs (b_real al)) in *.
  assert (C0 : 0 <= c).
  { unfold c. pose proof (Rabs_pos (b_real al)). pose proof (Rabs_pos (b_real al - b_real lr * E)). fold A in H0.
    assert (0 <= (2 * u + u * u) * Rabs (b_real al)) by (apply Rmult_le_pos; nra). lra. }
  assert (Cs : c <= spill n (b_real lr) E (nn n (val l)) (nn n (val w))).
  { unfold spill. set (B := ((1 + u) ^ Datatypes.S n - 1) * (nn n (val l) * nn n (val w)) + (1 + u) ^ n * (INR n * eta)) in *.
    assert (c <= (1 + u) ^ 2 * A + ((1 + u) ^ 2 - 1) * (b_real lr * Rabs E)).
    { unfold c. assert ((2 * u + u * u) * Rabs (b_real al) <= (2 * u + u * u) * (b_real lr * Rabs E + A)) by (apply Rmult_le_compat_l; nra).
      replace ((1 + u) ^ 2) with (1 + 2 * u + u * u) by ring. lra. }
    assert (b_real lr * Rabs de * (1 + u) ^ 2 <= b_real lr * B * (1 + u) ^ 2).
    { apply Rmult_le_compat_r; [pose proof (pow_ge1 2); lra|]. apply Rmult_le_compat_l; auto. }
    assert ((1 + u) ^ 2 * A <= (1 + u) ^ 2 * (b_real lr * Rabs E * ((1 + u) ^ 2 - 1) + b_real lr * B * (1 + u) ^ 2 + eta)).
    { apply Rmult_le_compat_l; [pose proof (pow_ge1 2); lra|]. lra. }
    replace ((1 + u) ^ 4) with ((1 + u) ^ 2 * (1 + u) ^ 2) by ring. nra. }
  apply Rle_trans with (nn n (fun i => (c * Rabs (val l i) + u * Rabs (val w i)) + (1 + u) * eta)).
  - apply nn_le. intros i Li.
    assert (R0 : 0 <= c * Rabs (val l i) + u * Rabs (val w i) + (1 + u) * eta).
    { pose proof (Rabs_pos (val l i)). pose proof (Rabs_pos (val w i)).
      repeat apply Rplus_le_le_0_compat; apply Rmult_le_pos; lra. }
    rewrite (Rabs_pos_eq _ R0). specialize (Fi i Li).
    destruct (At i Li) as [(v0 & _ & Q1 & Q2)|(_ & Q1 & Q2)].
    + rewrite Q2 in Fi. unfold val at 1. rewrite Q2. destruct (b_add_error _ _ Fi) as (d4 & D4 & ->).
      destruct (b_add_finite_inv _ _ Fi) as (_ & Fm & _). destruct (b_mul_error _ _ Fm) as (d & h & D & H & ->).
      unfold c, A, val. rewrite Q1. apply coord_round; auto.
    + unfold val at 1 2 3. rewrite Q1, Q2. change (b_real b_zero) with 0.
      replace (b_real (nth i w b_zero) - (b_real (nth i w b_zero) + b_real lr * E * 0)) with 0 by ring. rewrite Rabs_R0. exact R0.
  - eapply Rle_trans; [apply nn_triangle|]. apply Rplus_le_compat.
    + eapply Rle_trans; [apply nn_triangle|]. rewrite !nn_scale, !nn_abs. rewrite (Rabs_pos_eq c), (Rabs_pos_eq u) by lra.
      apply Rplus_le_compat_r. apply Rmult_le_compat_r; auto.
    + eapply Rle_trans; [apply nn_const; apply Rmult_le_pos; lra|]. lra.
Qed.

(** ** one step towards a target vector *)

(** The relative part of the rounding of a step on [n] features. *)
Definition quot (n : nat) : R := (1 + u) ^ (n + 5) - 1.

(** The rest: what the sample leaves unexplained by the target vector, and
    underflow. *)
Definition rest (n : nat) (lr f z : R) : R := (1 + u) ^ (n + 5) * (lr * f * Rabs z + eta * (lr * f * INR n + f + INR n)).

Lemma quot_nonneg n : 0 <= quot n.
Proof. unfold quot. pose proof (pow_ge1 (n + 5)). lra. Qed.

Lemma rest_nonneg n lr f z : 0 <= lr -> 0 <= f -> 0 <= rest n lr f z.
Proof.
  intros L F0. unfold rest. pose proof (pow_ge1 (n + 5)). pose proof (pos_INR n). pose proof eta64_pos.
  assert (0 <= lr * f) by (apply Rmult_le_pos; auto).
  apply Rmult_le_pos; [lra|]. apply Rplus_le_le_0_compat; [apply Rmult_le_pos; auto using Rabs_pos|].
  apply Rmult_le_pos; [lra|]. assert (0 <= lr * f * INR n) by (apply Rmult_le_pos; auto). lra.
Qed.

Lemma spill_rest n lr g z f X d W : 0 <= lr -> 0 <= f -> 0 <= d -> 0 <= W -> lr * (f * f) <= 2 -> 0 <= X <= d + W -> Rabs g <= f * d ->
  spill n lr (g + z) f X * f + u * X + (1 + u) * eta * INR n + lr * Rabs z * f <= 3 * quot n * (d + W) + rest n lr f z.
Proof.
  intros L F0 D0 W0 L2 [X0 X1] G. unfold quot, rest, spill.
  pose proof (pow_ge1 4) as P4. pose proof (pow_ge1 n) as Pn. pose proof (pow_ge1 2) as P2. pose proof eta64_pos as Ep. pose proof uro_pos as Up.
  pose proof (pos_INR n) as Np. pose proof (Rabs_pos z) as Z0.
  set (N := INR n) in *. set (e := eta) in *. set (m := (1 + u) ^ (n + 5)).
  assert (M : m = (1 + u) ^ n * (1 + u) * (1 + u) ^ 4) by (unfold m; replace (n + 5)%nat with (n + (1 + 4))%nat by lia; rewrite !pow_add; simpl; ring).
  assert (Sn : (1 + u) ^ S n = (1 + u) ^ n * (1 + u)) by (simpl; ring). rewrite Sn.
  set (pn := (1 + u) ^ n) in *. set (p4 := (1 + u) ^ 4) in *. set (p2 := (1 + u) ^ 2) in *.
  assert (Q2 : p4 = p2 * p2) by (unfold p4, p2; ring).
  assert (M1 : pn * (1 + u) >= 1) by nra.
  assert (Mp4 : p4 <= m) by (rewrite M; nra).
  assert (Mp2 : p2 <= m) by nra.
  assert (Mp1 : 1 + u <= m).
  { assert (1 + u <= p2) by (unfold p2; simpl; nra). lra. }
  assert (Mpn : p4 * pn <= m) by (rewrite M; assert (0 <= pn * p4) by (apply Rmult_le_pos; lra); nra).
  assert (Uq : u <= m - 1) by lra.
  assert (LF : 0 <= lr * f) by (apply Rmult_le_pos; auto).
  (* the error *)
  assert (E1 : lr * Rabs (g + z) * (p4 - 1) * f <= (2 * d + lr * f * Rabs z) * (p4 - 1)).
  { replace (lr * Rabs (g + z) * (p4 - 1) * f) with (lr * f * Rabs (g + z) * (p4 - 1)) by ring. apply Rmult_le_compat_r; [lra|].
    apply Rle_trans with (lr * f * (f * d + Rabs z)).
    - apply Rmult_le_compat_l; auto. eapply Rle_trans; [apply Rabs_triang|]. lra.
    - replace (lr * f * (f * d + Rabs z)) with (lr * (f * f) * d + lr * f * Rabs z) by ring. apply Rplus_le_compat_r. apply Rmult_le_compat_r; auto. }
  assert (E2 : lr * p4 * ((pn * (1 + u) - 1) * (f * X)) * f <= 2 * (m - p4) * (d + W)).
  { replace (lr * p4 * ((pn * (1 + u) - 1) * (f * X)) * f) with (lr * (f * f) * ((m - p4) * X)) by (rewrite M; ring).
    replace (2 * (m - p4) * (d + W)) with (2 * ((m - p4) * (d + W))) by ring.
    apply Rmult_le_compat; auto; [apply Rmult_le_pos; auto; apply Rle_0_sqr|apply Rmult_le_pos; lra|]. apply Rmult_le_compat_l; lra. }
  assert (E3 : lr * p4 * (pn * (N * e)) * f <= m * (e * (lr * f * N))).
  { replace (lr * p4 * (pn * (N * e)) * f) with (p4 * pn * (e * (lr * f * N))) by ring. apply Rmult_le_compat_r; auto.
    repeat apply Rmult_le_pos; auto; lra. }
  assert (E4 : p2 * e * f <= m * (e * f)).
  { rewrite Rmult_assoc. apply Rmult_le_compat_r; auto. apply Rmult_le_pos; lra. }
  assert (E5 : (1 + u) * e * N <= m * (e * N)).
  { rewrite Rmult_assoc. apply Rmult_le_compat_r; auto. apply Rmult_le_pos; lra. }
  assert (E6 : u * X <= (m - 1) * (d + W)) by (apply Rmult_le_compat; lra).
  assert (E7 : lr * f * Rabs z * (p4 - 1) + lr * Rabs z * f <= m * (lr * f * Rabs z)).
  { replace (lr * f * Rabs z * (p4 - 1) + lr * Rabs z * f) with (p4 * (lr * f * Rabs z)) by ring. apply Rmult_le_compat_r; auto. apply Rmult_le_pos; auto. }
  assert (E8 : 2 * d * (p4 - 1) <= 2 * (p4 - 1) * (d + W)).
  { assert (0 <= (p4 - 1) * W) by (apply Rmult_le_pos; lra). lra. }
  lra.
Qed.

Lemma sgd_towards P (phi : Features f64) l w lr y v w' ws : let S := ScalarF64 P in any_order P -> wf phi -> expands phi l ->
  length w = size phi -> 0 <= b_real lr ->
  dot phi w = Ret v -> scaled_addto phi (fmul lr (fsub y v)) w = Ret w' -> Forall (fun x => b_finite x = true) w' ->
  let n := size phi in let f := nn n (val l) in b_real lr * (f * f) <= 2 ->
  length w' = length w /\ Forall (fun x => b_finite x = true) w /\
  nn n (fun i => val w' i - (val w i + b_real lr * sigma n (fun i => val l i * (ws i - val w i)) * val l i)) <=
    3 * quot n * (nn n (fun i => ws i - val w i) + nn n ws) + rest n (b_real lr) f (b_real y - sigma n (fun i => val l i * ws i)).
Proof.
  intros S AO W X Lw L0 Dv Aw Fw n f L2. destruct (sgd_round P phi l w lr y v w' AO W X Lw L0 Dv Aw Fw) as (A & B & C).
  split; [exact A|]. split; [exact B|]. cbv zeta in C. fold n in C. fold f in C.
  set (g := sigma n (fun i => val l i * (ws i - val w i))). set (z := b_real y - sigma n (fun i => val l i * ws i)) in *.
  assert (Eg : b_real y - sigma n (fun i => val l i * val w i) = g + z).
  { unfold g, z. rewrite (sigma_ext n (fun i => val l i * (ws i - val w i)) (fun i => val l i * ws i + (-1) * (val l i * val w i))) by (intros; ring).
    rewrite sigma_plus, sigma_scal. ring. }
  rewrite Eg in C.
  rewrite (nn_ext n _ (fun i => (val w' i - (val w i + b_real lr * (g + z) * val l i)) + b_real lr * z * val l i)) by (intros; ring).
  eapply Rle_trans; [apply nn_triangle|].
  assert (Q : nn n (fun i => b_real lr * z * val l i) = b_real lr * Rabs z * f).
  { rewrite nn_scale, Rabs_mult, (Rabs_pos_eq (b_real lr)) by auto. reflexivity. }
  rewrite Q. eapply Rle_trans; [apply Rplus_le_compat_r; exact C|].
  apply spill_rest; auto using nn_nonneg; try apply nn_nonneg.
  - split; [apply nn_nonneg|]. rewrite (nn_ext n (val w) (fun i => (-1) * (ws i - val w i) + ws i)) by (intros; ring).
    eapply Rle_trans; [apply nn_triangle|]. rewrite nn_scale. rewrite abs_m1. lra.
  - apply cauchy_nn.
Qed.

(** ** sequences of inexact steps *)

Section Steps.
  Context (n : nat) (lr r q tau : R) (ws : nat -> R) (X f : nat -> nat -> R) (k : nat).

  Definition gap (t : nat) : R := sigma n (fun i => f t i * (ws i - X t i)).
  Definition off (t : nat) : R := nn n (fun i => ws i - X t i).
  Definition noise (d : R) : R := q * (d + nn n ws) + tau.

  Context (L0 : 0 <= lr) (R2 : r <= 2) (Q0 : 0 <= q) (T0 : 0 <= tau).
  Context (Energy : forall t, (t < k)%nat -> lr * (nn n (f t) * nn n (f t)) <= r).
  Context (Step : forall t, (t < k)%nat ->
    nn n (fun i => X (S t) i - (X t i + lr * gap t * f t i)) <= noise (off t)).

  Lemma exact_part t : nn n (fun i => ws i - (X t i + lr * gap t * f t i)) * nn n (fun i => ws i - (X t i + lr * gap t * f t i)) =
    off t * off t - lr * (2 - lr * (nn n (f t) * nn n (f t))) * (gap t * gap t).
  Proof.
    unfold off. rewrite !nn_sqr.
    rewrite (sigma_ext n _ (fun i => ((ws i - X t i) * (ws i - X t i) + (-2 * lr * gap t) * (f t i * (ws i - X t i))) +
      lr * gap t * (lr * gap t) * (f t i * f t i))) by (intros; ring).
    rewrite !sigma_plus, !sigma_scal. fold (gap t). ring.
  Qed.

  Lemma exact_shrinks t : (t < k)%nat -> nn n (fun i => ws i - (X t i + lr * gap t * f t i)) <= off t.
  Proof.
    intros Lt. apply Rsqr_incr_0_var; [|apply nn_nonneg]. unfold Rsqr. rewrite exact_part. specialize (Energy t Lt).
    assert (0 <= lr * (2 - lr * (nn n (f t) * nn n (f t))) * (gap t * gap t)); [|lra].
    apply Rmult_le_pos; [apply Rmult_le_pos; lra|apply Rle_0_sqr].
  Qed.

  Lemma off_exact t : (t < k)%nat -> off (S t) <= nn n (fun i => ws i - (X t i + lr * gap t * f t i)) + noise (off t).
  Proof.
    intros Lt. unfold off at 1.
    rewrite (nn_ext n _ (fun i => (ws i - (X t i + lr * gap t * f t i)) + (-1) * (X (S t) i - (X t i + lr * gap t * f t i)))) by (intros; ring).
    eapply Rle_trans; [apply nn_triangle|]. apply Rplus_le_compat_l. rewrite nn_scale.
    rewrite abs_m1. rewrite Rmult_1_l. auto.
  Qed.

  Lemma off_step t : (t < k)%nat -> off (S t) <= (1 + q) * off t + (q * nn n ws + tau).
  Proof.
    intros Lt. eapply Rle_trans; [apply off_exact; auto|]. pose proof (exact_shrinks t Lt). unfold noise. lra.
  Qed.

  Theorem off_bound t : (t <= k)%nat -> off t <= (1 + q) ^ t * (off 0 + INR t * (q * nn n ws + tau)).
  Proof.
    induction t as [|t IH]; intros Lt; [simpl; lra|]. eapply Rle_trans; [apply off_step; lia|]. specialize (IH ltac:(lia)).
    set (c := q * nn n ws + tau). assert (C0 : 0 <= c) by (unfold c; pose proof (Rmult_le_pos q _ Q0 (nn_nonneg n ws)); lra).
    assert (P1 : 1 <= (1 + q) ^ S t) by (apply pow_R1_Rle; lra).
    assert ((1 + q) * off t <= (1 + q) * ((1 + q) ^ t * (off 0 + INR t * c))) by (apply Rmult_le_compat_l; [lra|exact IH]).
    assert (c <= (1 + q) ^ S t * c) by (rewrite <- (Rmult_1_l c) at 1; apply Rmult_le_compat_r; auto).
    rewrite S_INR. change ((1 + q) ^ S t) with ((1 + q) * (1 + q) ^ t) in *. lra.
  Qed.

  Theorem gaps_bound D : (forall t, (t < k)%nat -> off t <= D) -> forall t, (t <= k)%nat ->
    lr * (2 - r) * sigma t (fun s => gap s * gap s) + off t * off t <= off 0 * off 0 + INR t * (noise D * (2 * D + noise D)).
  Proof.
    intros HD. induction t as [|t IH]; intros Lt; [unfold sigma; simpl; lra|]. specialize (IH ltac:(lia)).
    rewrite sigma_S, S_INR. assert (Lt' : (t < k)%nat) by lia. pose proof (off_exact t Lt') as Ex. pose proof (exact_shrinks t Lt') as Sh.
    pose proof (exact_part t) as Pt. set (s := nn n (fun i => ws i - (X t i + lr * gap t * f t i))) in *.
    assert (S0 : 0 <= s) by apply nn_nonneg. specialize (HD t Lt'). pose proof (nn_nonneg n (fun i => ws i - X t i)) as O0. fold (off t) in O0.
    assert (N0 : noise (off t) <= noise D) by (unfold noise; pose proof (Rmult_le_compat_l q _ _ Q0 HD); lra).
    pose proof (nn_nonneg n ws) as Ws. assert (Nz : 0 <= noise (off t)) by (unfold noise; pose proof (Rmult_le_pos q (off t + nn n ws) Q0 ltac:(lra)); lra).
    pose proof (nn_nonneg n (fun i => ws i - X (S t) i)) as O1. fold (off (S t)) in O1.
    assert (off (S t) * off (S t) <= (s + noise D) * (s + noise D)) by (apply Rmult_le_compat; lra).
    assert (2 * s * noise D <= 2 * D * noise D) by (apply Rmult_le_compat_r; lra).
    specialize (Energy t Lt').
    assert (lr * (2 - r) * (gap t * gap t) <= lr * (2 - lr * (nn n (f t) * nn n (f t))) * (gap t * gap t)).
    { apply Rmult_le_compat_r; [apply Rle_0_sqr|]. apply Rmult_le_compat_l; lra. }
    lra.
  Qed.

  (** The same features throughout. *)
  Theorem gap_repeated phi D : (forall t i, f t i = phi i) -> (forall t, (t < k)%nat -> off t <= D) -> forall t, (t <= k)%nat ->
    let rho := Rabs (1 - lr * (nn n phi * nn n phi)) in
    Rabs (gap t) <= rho ^ t * Rabs (gap 0) + nn n phi * noise D * sigma t (fun s => rho ^ s).
  Proof.
    intros Ef HD t Lt rho. induction t as [|t IH]; [unfold sigma; simpl; lra|]. specialize (IH ltac:(lia)).
    assert (Lt' : (t < k)%nat) by lia. assert (Ep : forall s, nn n (f s) = nn n phi) by (intros; apply nn_ext; auto).
    assert (Q : gap (S t) = (1 - lr * (nn n phi * nn n phi)) * gap t + (-1) * sigma n (fun i => phi i * (X (S t) i - (X t i + lr * gap t * f t i)))).
    { unfold gap at 1. rewrite (sigma_ext n _ (fun i => (phi i * (ws i - X t i) + (- (lr * gap t)) * (phi i * phi i)) +
        (-1) * (phi i * (X (S t) i - (X t i + lr * gap t * f t i))))) by (intros; rewrite !Ef; ring).
      rewrite !sigma_plus, !sigma_scal, <- nn_sqr.
      replace (sigma n (fun i => phi i * (ws i - X t i))) with (gap t) by (apply sigma_ext; intros; now rewrite Ef). ring. }
    assert (B : Rabs (sigma n (fun i => phi i * (X (S t) i - (X t i + lr * gap t * f t i)))) <= nn n phi * noise D).
    { eapply Rle_trans; [apply (cauchy_nn n phi)|]. apply Rmult_le_compat_l; [apply nn_nonneg|]. eapply Rle_trans; [apply Step; auto|].
      unfold noise. pose proof (Rmult_le_compat_l q _ _ Q0 (HD t Lt')). lra. }
    assert (A : Rabs (gap (S t)) <= rho * Rabs (gap t) + nn n phi * noise D).
    { rewrite Q. eapply Rle_trans; [apply Rabs_triang|]. rewrite !Rabs_mult. fold rho.
      rewrite abs_m1. lra. }
    assert (P0 : 0 <= rho) by apply Rabs_pos.
    pose proof (Rmult_le_compat_l rho _ _ P0 IH) as M.
    assert (G : sigma (S t) (fun s => rho ^ s) = 1 + rho * sigma t (fun s => rho ^ s)).
    { clear. induction t as [|t IH]; [unfold sigma; simpl; ring|]. rewrite sigma_S, IH at 1. rewrite (sigma_S t). simpl. ring. }
    rewrite G. simpl. lra.
  Qed.
End Steps.
