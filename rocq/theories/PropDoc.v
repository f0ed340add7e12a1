(** C65: the documentation's example program. Statements only; the program is
    modelled, and the proofs are, in DocExample.v. *)
From Coq Require Import List Arith ZArith Lia Bool Reals Lra.
From Verif Require Import Base Scalar ScalarR NdArray Features Optim Lfa LfaSpec DocExample.
Import ListNotations.
Local Open Scope R_scope.

(** The program never panics and learns two weights. *)
Theorem C65_runs : forall M C samples, exists w0 w1, doc_run M C samples = Ret [w0; w1] /\
  doc_rmse M C [w0; w1] = Ret (sqrt ((w0 - M) * (w0 - M) + (w1 - C) * (w1 - C))).
Proof.
  intros M C ps. rewrite doc_run_is. eexists. eexists. split; [reflexivity|]. exact (doc_rmse_is M C _).
Qed.
Print Assumptions C65_runs.

(** Without noise, inputs in [-1, 1] never take the weights further from the
    true line than they started. *)
Theorem C65_noise_free : forall M C samples w e, Forall (fun p => -1 <= fst p <= 1 /\ snd p = 0) samples ->
  doc_run M C samples = Ret w -> doc_rmse M C w = Ret e -> e <= sqrt (M * M + C * C).
Proof.
  intros M C ps w e Fs E D. rewrite doc_run_is in E. injection E as <-. rewrite doc_rmse_is in D. injection D as <-.
  apply sqrt_le_1_alt. apply Rle_trans with (1 := off_never_grows M C ps Fs _). unfold off. cbn [fst snd]. lra.
Qed.
Print Assumptions C65_noise_free.

(** Each noise-free sample brings them closer by [(1 - x^2) e^2], [e] being the
    prediction error. *)
Theorem C65_progress : forall M C samples x w0 w1, doc_run M C samples = Ret [w0; w1] ->
  exists v0 v1, doc_run M C (samples ++ [(x, 0)]) = Ret [v0; v1] /\
    let e := M * x + C - (w0 * x + w1) in
    (v0 - M) * (v0 - M) + (v1 - C) * (v1 - C) = (w0 - M) * (w0 - M) + (w1 - C) * (w1 - C) - (1 - x * x) * (e * e).
Proof.
  intros M C ps x w0 w1 E. rewrite doc_run_is in E. injection E as E0 E1. rewrite doc_run_is, fold_left_app. cbn [fold_left].
  eexists. eexists. split; [reflexivity|]. cbv zeta. rewrite <- E0, <- E1. fold (off M C (move M C (fold_left (move M C) ps (0, 0)) (x, 0))).
  rewrite off_exact. unfold off, residual_of. cbn [fst snd]. ring.
Qed.
Print Assumptions C65_progress.

(** Learning can make no progress at all: inputs of 1 (or of 1 and -1) without
    noise leave the distance as it was, so the assertion fails. *)
Theorem C65_stuck_refuted : forall n, exists samples, length samples = (n + n)%nat /\
  Forall (fun p => -1 <= fst p <= 1 /\ snd p = 0) samples /\
  doc_run 1 (-1/2) samples = Ret [0; 0] /\ exists e, doc_rmse 1 (-1/2) [0; 0] = Ret e /\ 1 / 1000 < e.
Proof.
  intros n. exists (repeat (1, 0) (n + n)). split; [apply repeat_length|]. split.
  - apply Forall_forall. intros p I. apply repeat_spec in I. subst p. simpl. lra.
  - rewrite doc_run_is, bounces. split; [reflexivity|]. eexists. split; [exact (doc_rmse_is 1 (-1/2) (0, 0))|].
    unfold off. cbn [fst snd]. rewrite <- (sqrt_square (1 / 1000)) by lra. apply sqrt_lt_1; lra.
Qed.
Print Assumptions C65_stuck_refuted.

Theorem C65_corners : forall M C samples w e, Forall (fun p => fst p * fst p = 1 /\ snd p = 0) samples ->
  doc_run M C samples = Ret w -> doc_rmse M C w = Ret e -> e = sqrt (M * M + C * C).
Proof.
  intros M C ps w e Fs E D. rewrite doc_run_is in E. injection E as <-. rewrite doc_rmse_is in D. injection D as <-.
  f_equal. rewrite (off_corners M C ps Fs). unfold off. cbn [fst snd]. ring.
Qed.
Print Assumptions C65_corners.

(** With noise the distance grows by at most [sqrt 2] times the total noise. *)
Theorem C65_noisy : forall M C samples w e, Forall (fun p => -1 <= fst p <= 1) samples ->
  doc_run M C samples = Ret w -> doc_rmse M C w = Ret e ->
  e <= sqrt (M * M + C * C) + sqrt 2 * fold_right (fun p s => Rabs (snd p) + s) 0 samples.
Proof.
  intros M C ps w e Fs E D. rewrite doc_run_is in E. injection E as <-. rewrite doc_rmse_is in D. injection D as <-.
  replace (M * M + C * C) with (off M C (0, 0)) by (unfold off; cbn [fst snd]; ring). exact (off_noisy M C ps Fs (0, 0)).
Qed.
Print Assumptions C65_noisy.

(** The assertion at the end. Fix everything but the noise of the last sample:
    the noises for which the assertion holds lie within an interval of length
    0.002. (The example draws the noise with a standard deviation of 0.01, so
    the assertion usually fails.) *)
Theorem C65_assertion : forall M C samples x z1 z2 w1 w2 e1 e2,
  doc_run M C (samples ++ [(x, z1)]) = Ret w1 -> doc_rmse M C w1 = Ret e1 ->
  doc_run M C (samples ++ [(x, z2)]) = Ret w2 -> doc_rmse M C w2 = Ret e2 ->
  e1 < 1 / 1000 -> e2 < 1 / 1000 -> Rabs (z1 - z2) < 2 / 1000.
Proof.
  intros M C ps x z1 z2 w1 w2 e1 e2 E1 D1 E2 D2 A1 A2. rewrite doc_run_is, fold_left_app in E1, E2. cbn [fold_left] in E1, E2.
  remember (move M C (fold_left (move M C) ps (0, 0)) (x, z1)) as p1 eqn:P1.
  remember (move M C (fold_left (move M C) ps (0, 0)) (x, z2)) as p2 eqn:P2.
  injection E1 as <-. injection E2 as <-. rewrite doc_rmse_is in D1, D2. injection D1 as <-. injection D2 as <-. subst p1 p2.
  pose proof (window M C _ x z1 z2 (1 / 1000) A1 A2) as W. pose proof (Rabs_pos (z1 - z2)) as P.
  assert (1 <= sqrt (1 + x * x)).
  { rewrite <- sqrt_1 at 1. apply sqrt_le_1_alt. pose proof (Rle_0_sqr x). unfold Rsqr in *. lra. }
  apply Rle_lt_trans with (Rabs (z1 - z2) * sqrt (1 + x * x)); [|lra].
  rewrite <- (Rmult_1_r (Rabs (z1 - z2))) at 1. apply Rmult_le_compat_l; auto.
Qed.
Print Assumptions C65_assertion.

(** So for every run there are noises of at most a standard deviation for which
    it fails. *)
Theorem C65_assertion_refuted : forall M C samples x, exists z w e, Rabs z <= 1 / 100 /\
  doc_run M C (samples ++ [(x, z)]) = Ret w /\ doc_rmse M C w = Ret e /\ 1 / 1000 <= e.
Proof.
  intros M C ps x.
  destruct (C65_runs M C (ps ++ [(x, 1 / 100)])) as (a0 & a1 & Ea & Da).
  destruct (C65_runs M C (ps ++ [(x, 0)])) as (b0 & b1 & Eb & Db).
  match type of Da with _ = Ret ?e => destruct (Rle_lt_dec (1 / 1000) e) as [A|A] end.
  - exists (1 / 100). eexists. eexists. split; [rewrite Rabs_pos_eq; lra|]. split; [exact Ea|]. split; [exact Da|exact A].
  - match type of Db with _ = Ret ?e => destruct (Rle_lt_dec (1 / 1000) e) as [B|B] end.
    + exists 0. eexists. eexists. split; [rewrite Rabs_R0; lra|]. split; [exact Eb|]. split; [exact Db|exact B].
    + exfalso. pose proof (C65_assertion M C ps x (1 / 100) 0 _ _ _ _ Ea Da Eb Db A B) as W. rewrite Rabs_pos_eq in W by lra. lra.
Qed.
Print Assumptions C65_assertion_refuted.

(** Inputs -1/2 and 1/2, no noise, bring the weights from (0, 0) to (7/8, -1/4). *)
Example C65_case : doc_run 1 (-1/2) [(-1/2, 0); (1/2, 0)] = Ret [7/8; -1/4] /\
  Forall (fun p => -1 <= fst p <= 1 /\ snd p = 0) [(-1/2, 0); (1/2, 0)].
Proof.
  split.
  - rewrite doc_run_is. cbn [fold_left]. unfold move, residual_of. cbn [fst snd]. f_equal. f_equal; [|f_equal]; field.
  - repeat constructor; simpl; lra.
Qed.
