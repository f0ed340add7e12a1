(** C72-C74: the stateful optimisers fitting one sample again and again. Proofs
    are in HeavyBall.v, AdagradFit.v and AdamFit.v. *)
From Coq Require Import List Arith Lia Reals Lra.
From Verif Require Import Base Scalar ScalarR HMap NdArray VecFacts Features Spec FeatureFacts
  Optim OptimSpec OptimFacts OptimReal Lfa LfaSpec LfaFacts LfaReal LfaRegret Passes HeavyBall AdagradFit AdamFit.
Import ListNotations.
Local Open Scope R_scope.

(** Fitting (x, y) over and over, evaluations at x converge to [l]. *)
Definition tends {I S} (o : Optimiser R S) (a0 : ScalarLFA R I S) (x : I) (y l : R) : Prop :=
  forall eps, 0 < eps -> exists N, forall k, (N <= k)%nat -> exists a r,
    s_run o (repeat (fit_call (x, y)) k) a0 = Ret a /\ s_evaluate a x = Ret (Ok r) /\ Rabs (r - l) < eps.

Lemma geometric_tends {I S} (o : Optimiser R S) (a0 : ScalarLFA R I S) x y l C g : 0 <= g < 1 ->
  (forall k, exists a r, s_run o (repeat (fit_call (x, y)) k) a0 = Ret a /\
    s_evaluate a x = Ret (Ok r) /\ Rabs (r - l) <= C * g ^ k) -> tends o a0 x y l.
Proof.
  intros Hg B eps Pe. destruct (pow_lt_1_zero g ltac:(rewrite Rabs_pos_eq; lra) (eps / (Rabs C + 1))) as [N Pw].
  { apply Rdiv_lt_0_compat; auto. pose proof (Rabs_pos C). lra. }
  exists N. intros k Nk. destruct (B k) as (a & r & Ra & Ev & Le). exists a, r. splits; auto.
  specialize (Pw k Nk). rewrite Rabs_pos_eq in Pw by (apply pow_le; lra). pose proof (Rabs_pos C) as C0.
  assert (G0 : 0 <= g ^ k) by (apply pow_le; lra).
  apply Rle_lt_trans with (Rabs C * g ^ k).
  - eapply Rle_trans; [exact Le|]. apply Rmult_le_compat_r; [auto|apply Rle_abs].
  - apply Rle_lt_trans with (Rabs C * (eps / (Rabs C + 1))); [apply Rmult_le_compat_l; lra|].
    apply Rmult_lt_reg_r with (Rabs C + 1); [lra|].
    replace (Rabs C * (eps / (Rabs C + 1)) * (Rabs C + 1)) with (Rabs C * eps) by (field; lra). nra.
Qed.

Lemma tends_unique {I S} (o : Optimiser R S) (a0 : ScalarLFA R I S) x y l l' :
  tends o a0 x y l -> tends o a0 x y l' -> l = l'.
Proof.
  intros T T'. destruct (Req_dec l l') as [|Ne]; auto. exfalso.
  assert (P : 0 < Rabs (l - l')) by (apply Rabs_pos_lt; lra).
  destruct (T (Rabs (l - l') / 2) ltac:(lra)) as [N A]. destruct (T' (Rabs (l - l') / 2) ltac:(lra)) as [N' A'].
  destruct (A (Nat.max N N') ltac:(lia)) as (a & r & Ra & Ev & C).
  destruct (A' (Nat.max N N') ltac:(lia)) as (a' & r' & Ra' & Ev' & C').
  rewrite Ra in Ra'. injection Ra' as <-. rewrite Ev in Ev'. injection Ev' as <-.
  pose proof (Rabs_triang (r - l') (- (r - l))) as Tr. rewrite Rabs_Ropp in Tr.
  replace (r - l' + - (r - l)) with (l - l') in Tr by ring. lra.
Qed.

(** ** C72 *)

(** With momentum, evaluations approach the target geometrically from any
    velocity when lr * |phi|^2 < 2 (1 + m). *)
Theorem C72_momentum_rate : forall I (b : Basis R I) x y phi m lr v w,
  b_project b x = Ret (Ok phi) -> sized (length w) phi -> length v = length w ->
  -1 < m < 1 -> 0 < lr -> 0 < lr * norm2 phi < 2 * (1 + m) ->
  exists C g, 0 <= g < 1 /\ forall k, exists a r,
    s_run SGDMomentum (repeat (fit_call (x, y)) k) (MkLFA b w (MkMomentum m lr v)) = Ret a /\
    s_evaluate a x = Ret (Ok r) /\ Rabs (r - y) <= C * g ^ k.
Proof.
  intros I b x y phi m lr v w P Z L Hm Hl Hs.
  destruct (heavy_converges SGDMomentum _ momentum_heavy b x y phi m lr v w P Z L Hm Hl Hs) as (C & g & Hg & B).
  exists C, g. split; auto. intros k. destruct (B k) as (a & r & Ra & Ev & Le). exists a, r. splits; auto.
  replace (r - y) with (r - y - (1 - m) * 0 / lr) by (unfold Rdiv; ring). exact Le.
Qed.
Print Assumptions C72_momentum_rate.

(** From a new optimiser and a wrong prediction, they converge to it only then. *)
Theorem C72_momentum_iff : forall I (b : Basis R I) x y phi m lr w,
  b_project b x = Ret (Ok phi) -> sized (length w) phi -> -1 < m < 1 -> 0 < lr -> 0 < norm2 phi ->
  predict phi w <> y ->
  (tends SGDMomentum (MkLFA b w (momentum_new (length w) m lr)) x y y <-> lr * norm2 phi < 2 * (1 + m)).
Proof.
  intros I b x y phi m lr w P Z Hm Hl Hq Ne.
  assert (L : length (zeros (length w) : list R) = length w) by apply repeat_length. split.
  - intros T. apply Rnot_le_lt. intros Hs.
    destruct (heavy_diverges SGDMomentum _ momentum_heavy b x y phi m lr (zeros (length w)) w P Z L eq_refl Hm Hl Hs
      (predict_zeros phi _) Ne) as (del & Pd & Far).
    destruct (T del Pd) as [N A]. destruct (Far N) as (k & a & r & Nk & Ra & Ev & Le).
    destruct (A k Nk) as (a' & r' & Ra' & Ev' & Lt). change (momentum_new (length w) m lr) with (MkMomentum m lr (zeros (length w) : list R)) in Ra'.
    rewrite Ra in Ra'. injection Ra' as <-. rewrite Ev in Ev'. injection Ev' as <-. lra.
  - intros Hs. destruct (C72_momentum_rate I b x y phi m lr (zeros (length w)) w P Z L Hm Hl) as (C & g & Hg & B).
    + split; [apply Rmult_lt_0_compat; auto|auto].
    + apply (geometric_tends _ _ _ _ _ C g Hg B).
Qed.
Print Assumptions C72_momentum_iff.

(** NAG converges too, but to a prediction m (1 - m) / lr above the target,
    whatever the features. *)
Theorem C72_nag_limit : forall I (b : Basis R I) x y phi m lr v w,
  b_project b x = Ret (Ok phi) -> sized (length w) phi -> length v = length w ->
  -1 < m < 1 -> 0 < lr -> 0 < lr * norm2 phi < 2 * (1 + m) ->
  exists C g, 0 <= g < 1 /\ forall k, exists a r,
    s_run NAG (repeat (fit_call (x, y)) k) (MkLFA b w (MkMomentum m lr v)) = Ret a /\
    s_evaluate a x = Ret (Ok r) /\ Rabs (r - (y + m * (1 - m) / lr)) <= C * g ^ k.
Proof.
  intros I b x y phi m lr v w P Z L Hm Hl Hs.
  destruct (heavy_converges NAG _ nag_heavy b x y phi m lr v w P Z L Hm Hl Hs) as (C & g & Hg & B).
  exists C, g. split; auto. intros k. destruct (B k) as (a & r & Ra & Ev & Le). exists a, r. splits; auto.
  replace (r - (y + m * (1 - m) / lr)) with (r - y - (1 - m) * m / lr) by (unfold Rdiv; ring). exact Le.
Qed.
Print Assumptions C72_nag_limit.

(** So it never fits the sample. *)
Theorem C72_nag_refuted : forall I (b : Basis R I) x y phi m lr v w,
  b_project b x = Ret (Ok phi) -> sized (length w) phi -> length v = length w ->
  0 < m < 1 -> 0 < lr -> 0 < lr * norm2 phi < 2 * (1 + m) ->
  ~ tends NAG (MkLFA b w (MkMomentum m lr v)) x y y.
Proof.
  intros I b x y phi m lr v w P Z L Hm Hl Hs T.
  destruct (C72_nag_limit I b x y phi m lr v w P Z L ltac:(lra) Hl Hs) as (C & g & Hg & B).
  pose proof (tends_unique _ _ _ _ _ _ T (geometric_tends _ _ _ _ _ C g Hg B)) as E.
  assert (0 < m * (1 - m) / lr) by (apply Rdiv_lt_0_compat; [apply Rmult_lt_0_compat; lra|auto]). lra.
Qed.
Print Assumptions C72_nag_refuted.

(** Two features, 9/10 momentum: lr * |phi|^2 = 5/2 is beyond SGD's limit. *)
Definition fit_basis : Basis R nat := MkBasis 2 (fun _ => Ret (Ok (Dense [2; 1]))).
Lemma fit_sized : sized 2 (Dense [2; 1]).
Proof. split; [apply wf_dense|reflexivity]. Qed.
Lemma fit_norm : norm2 (Dense [2; 1]) = 5.
Proof. unfold norm2, sigma; simpl. unfold coeff; simpl. lra. Qed.

Example C72_case : b_project fit_basis 0%nat = Ret (Ok (Dense [2; 1])) /\
  0 < 1/2 * norm2 (Dense [2; 1]) < 2 * (1 + 9/10) /\ predict (Dense [2; 1]) [0; 0] <> 7 /\
  tends SGDMomentum (MkLFA fit_basis [0; 0] (momentum_new 2 (9/10) (1/2))) 0%nat 7 7 /\
  ~ tends SGDMomentum (MkLFA fit_basis [0; 0] (momentum_new 2 (1/5) (1/2))) 0%nat 7 7 /\
  9/10 * (1 - 9/10) / (1/100) = 9.
Proof.
  assert (N : predict (Dense [2; 1]) [0; 0] <> 7) by (unfold predict, sigma; simpl; unfold coeff, at_; simpl; lra).
  rewrite fit_norm. splits; auto; try lra.
  - apply (C72_momentum_iff nat fit_basis 0%nat 7 (Dense [2; 1]) (9/10) (1/2) [0; 0] eq_refl fit_sized); rewrite ?fit_norm; auto; lra.
  - rewrite (C72_momentum_iff nat fit_basis 0%nat 7 (Dense [2; 1]) (1/5) (1/2) [0; 0] eq_refl fit_sized); rewrite ?fit_norm; auto; lra.
Qed.

(** ** C73 *)

(** Adagrad fits a sample with every positive rate, from every accumulator. *)
Theorem C73_adagrad : forall I (b : Basis R I) x y phi lr acc w,
  b_project b x = Ret (Ok phi) -> sized (length w) phi -> length acc = length w ->
  0 < lr -> 0 < norm2 phi -> (forall i, 0 <= at_ acc i) ->
  tends Adagrad (MkLFA b w (MkAdagrad lr acc)) x y y.
Proof. exact @adagrad_fits. Qed.
Print Assumptions C73_adagrad.

(** A rate of 1000 from a used accumulator. *)
Example C73_case : tends Adagrad (MkLFA fit_basis [0; 0] (MkAdagrad 1000 [3; 0])) 0%nat 7 7.
Proof.
  apply (C73_adagrad nat fit_basis 0%nat 7 (Dense [2; 1]) 1000 [3; 0] [0; 0] eq_refl fit_sized eq_refl);
    rewrite ?fit_norm; try lra. intros [|[|[|i]]]; unfold at_; simpl; lra.
Qed.

(** ** C74 *)

(** Without first-moment averaging and at a rate above 2e-7 / |phi|^2, Adam and
    AdaMax fit a sample only by hitting it exactly. *)
Theorem C74_adam : forall I (b : Basis R I) x y phi lr b2 w,
  b_project b x = Ret (Ok phi) -> sized (length w) phi -> 0 <= b2 < 1 ->
  0 < lr -> 2 / 10000000 < lr * norm2 phi ->
  let a0 := MkLFA b w (adam_new (length w) lr 0 b2) in
  (tends Adam a0 x y y <->
   exists k a, s_run Adam (repeat (fit_call (x, y)) k) a0 = Ret a /\ s_evaluate a x = Ret (Ok y)).
Proof. exact @adam_settles. Qed.
Print Assumptions C74_adam.

Theorem C74_adamax : forall I (b : Basis R I) x y phi lr b2 w,
  b_project b x = Ret (Ok phi) -> sized (length w) phi -> 0 <= b2 < 1 ->
  0 < lr -> 2 / 10000000 < lr * norm2 phi ->
  let a0 := MkLFA b w (adamax_new (length w) lr 0 b2) in
  (tends AdaMax a0 x y y <->
   exists k a, s_run AdaMax (repeat (fit_call (x, y)) k) a0 = Ret a /\ s_evaluate a x = Ret (Ok y)).
Proof. exact @adamax_settles. Qed.
Print Assumptions C74_adamax.

Definition unit_basis : Basis R nat := MkBasis 1 (fun _ => Ret (Ok (Dense [1]))).
Lemma unit_sized : sized 1 (Dense [1]).
Proof. split; [apply wf_dense|reflexivity]. Qed.
Lemma unit_rate lr s : adaptive_rate (Dense [1]) lr s = lr / (s + 1 / 10000000).
Proof. unfold adaptive_rate, sigma; simpl. unfold coeff; simpl. rewrite Rabs_R1. rewrite (Rmult_1_l s). unfold Rdiv. ring. Qed.

(** They need not: AdaMax can swing between y and -y for ever. *)
Theorem C74_cycle_refuted : forall b2, 0 <= b2 < 1 -> exists y : R, forall k, exists a r,
  s_run AdaMax (repeat (fit_call (0%nat, y)) k) (MkLFA unit_basis [0] (adamax_new 1 1 0 b2)) = Ret a /\
  s_evaluate a 0%nat = Ret (Ok r) /\ Rabs (r - y) = 1/2 - 1/10000000.
Proof.
  intros b2 Hb. exists (1/2 - 1/10000000). set (y := 1/2 - 1/10000000). intros k.
  assert (Py : 0 < y) by (unfold y; lra).
  destruct (adamax_track_run unit_basis 0%nat y (Dense [1]) 1 b2 [0] eq_refl unit_sized k)
    as (m1 & m2 & wk & Rk & Lk & _ & _ & Te & _).
  exists (MkLFA unit_basis wk (MkAdaMax 0 0 b2 1 m1 m2)), (predict (Dense [1]) wk). splits; auto.
  - apply (evaluates unit_basis 0%nat (Dense [1]) [0] eq_refl unit_sized); auto.
  - assert (T : Rabs (fst (adamax_track y (Dense [1]) 1 b2 [0] k)) = y /\ snd (adamax_track y (Dense [1]) 1 b2 [0] k) <= y).
    { clear -Hb Py. induction k as [|k [A B]].
      - cbn [adamax_track fst snd]. replace (predict (Dense [1]) [0]) with 0 by (unfold predict, sigma; simpl; unfold coeff, at_; simpl; lra).
        rewrite Rminus_0_r, Rabs_pos_eq by lra. lra.
      - cbn [adamax_track]. destruct (adamax_track y (Dense [1]) 1 b2 [0] k) as [e u]. cbn [fst snd] in *.
        assert (U : Rmax (b2 * u) (Rabs e) = y) by (rewrite A; apply Rmax_right; destruct (Rle_lt_dec 0 u); nra).
        rewrite U, unit_rate. split; [|lra]. rewrite Rabs_mult, A.
        replace (1 / (y + 1 / 10000000)) with 2 by (unfold y; field). replace (1 - 2) with (-1) by ring.
        rewrite Rabs_left by lra. lra. }
    rewrite <- Rabs_Ropp. replace (- (predict (Dense [1]) wk - y)) with (y - predict (Dense [1]) wk) by ring.
    rewrite Te. apply T.
Qed.
Print Assumptions C74_cycle_refuted.

Example C74_case : 2 / 10000000 < 1/1000 * norm2 (Dense [2; 1]) /\ sized (length [0; 0]) (Dense [2; 1]).
Proof. rewrite fit_norm. split; [lra|apply fit_sized]. Qed.
