(** C91: the documentation's example program in binary64. Statements only; the
    program is modelled, and the proofs are, in Doc64.v. (C65 is the same program
    over the reals.) *)
From Coq Require Import List Arith ZArith Lia Bool Reals Lra.
From Flocq Require Import Core.Core IEEE754.BinarySingleNaN.
From Verif Require Import Base Scalar ScalarR ScalarF64 F64Facts NdArray Features FeatureFacts Optim OptimSpec Lfa LfaSpec
  DocExample BoundF64 SumOrder Near64 SgdF64 SgdRun64 Doc64.
Import ListNotations.
Local Open Scope R_scope.

(** The program is the same one: over the reals it is that of C65. *)
Theorem C91_same_program : forall M C samples w,
  @prog_run R ScalarR M C samples = doc_run M C samples /\ @prog_rmse R ScalarR M C w = doc_rmse M C w.
Proof. intros. split; [apply prog_real|reflexivity]. Qed.
Print Assumptions C91_same_program.

(** Whatever order ndarray adds in and however [powi] multiplies, inputs in
    [-1, 1] and noises of at most [Z] give two finite weights, and the distance to
    the true line grows by at most [65/32 Z + 2^-46] per sample. *)
Theorem C91_runs : forall P, any_order P -> powers P -> forall (M C : f64), within 1 M -> within 1 C ->
  forall Z samples, 0 <= Z <= 1 -> Forall (fun p => within 1 (fst p) /\ within Z (snd p)) samples ->
  INR (length samples) <= bpow radix2 40 ->
  exists w0 w1 : f64, @prog_run f64 (ScalarF64 P) M C samples = Ret [w0; w1] /\ b_finite w0 = true /\ b_finite w1 = true /\
    sqrt ((b_real M - b_real w0) * (b_real M - b_real w0) + (b_real C - b_real w1) * (b_real C - b_real w1)) <=
    sqrt (b_real M * b_real M + b_real C * b_real C) + INR (length samples) * (65 / 32 * Z + bpow radix2 (-46)).
Proof.
  intros P AO Pw M C [FM BM] [FC BC] Z ps LZ Fp Lk.
  destruct (prog_bound P AO Pw M C FM BM FC BC Z ps LZ Fp Lk) as (fa & E & w0 & w1 & -> & F0 & F1 & D).
  exists w0, w1. split.
  - unfold prog_run. pose proof (start_is P) as St. change (SD64 P) with (ScalarF64 P) in St. rewrite St. cbn [obind]. unfold s_run.
    change (SD64 P) with (ScalarF64 P) in E. rewrite E. reflexivity.
  - split; [exact F0|]. split; [exact F1|]. rewrite !nn_two in D. unfold val in D. cbn [nth line2] in D.
    replace (bpow radix2 (-46)) with (128 * uro) by (unfold uro; change 128 with (bpow radix2 7); rewrite <- bpow_plus; reflexivity).
    exact D.
Qed.
Print Assumptions C91_runs.

(** Without noise that is rounding only: a thousand samples keep the weights as
    near as they started, up to 2^-36. *)
Theorem C91_noise_free : forall P, any_order P -> powers P -> forall (M C : f64), within 1 M -> within 1 C ->
  forall samples, Forall (fun p => within 1 (fst p) /\ snd p = b_zero) samples -> length samples = 1000%nat ->
  exists w0 w1 : f64, @prog_run f64 (ScalarF64 P) M C samples = Ret [w0; w1] /\
    sqrt ((b_real M - b_real w0) * (b_real M - b_real w0) + (b_real C - b_real w1) * (b_real C - b_real w1)) <=
    sqrt (b_real M * b_real M + b_real C * b_real C) + bpow radix2 (-36).
Proof.
  intros P AO Pw M C WM WC ps Fp L.
  destruct (C91_runs P AO Pw M C WM WC 0 ps ltac:(lra)) as (w0 & w1 & E & _ & _ & D).
  - revert Fp. apply Forall_impl. intros p [W ->]. split; [exact W|]. split; [reflexivity|]. change (b_real b_zero) with 0. rewrite Rabs_R0. lra.
  - rewrite L. simpl. lra.
  - exists w0, w1. split; [exact E|]. eapply Rle_trans; [exact D|]. apply Rplus_le_compat_l. rewrite L.
    replace (65 / 32 * 0 + bpow radix2 (-46)) with (bpow radix2 (-46)) by ring.
    replace (bpow radix2 (-36)) with (1024 * bpow radix2 (-46)) by (change 1024 with (bpow radix2 10); rewrite <- bpow_plus; reflexivity).
    apply Rmult_le_compat_r; [apply bpow_ge_0|]. simpl INR. lra.
Qed.
Print Assumptions C91_noise_free.

(** The assertion at the end, [rmse < 1e-3] as computed. Fix everything but the
    noise of the last sample: the noises for which the assertion holds lie within
    an interval of length 0.0021. *)
Theorem C91_assertion : forall P, any_order P -> powers P -> forall (M C : f64), within 1 M -> within 1 C ->
  forall samples (x z1 z2 : f64) w1 w2 (r1 r2 : f64),
  Forall (fun p => within 1 (fst p) /\ within 1 (snd p)) samples -> INR (length samples) <= bpow radix2 20 ->
  within 1 x -> within 1 z1 -> within 1 z2 ->
  let S := ScalarF64 P in
  prog_run M C (samples ++ [(x, z1)]) = Ret w1 -> prog_rmse M C w1 = Ret r1 -> fltb r1 (flit 1 1000) = true ->
  prog_run M C (samples ++ [(x, z2)]) = Ret w2 -> prog_rmse M C w2 = Ret r2 -> fltb r2 (flit 1 1000) = true ->
  Rabs (b_real z1 - b_real z2) < 21 / 10000.
Proof.
  intros P AO Pw M C [FM BM] [FC BC] ps x z1 z2 w1 w2 r1 r2 Fp Lk Wx W1 W2 S.
  exact (prog_window P AO Pw M C FM BM FC BC ps x z1 z2 w1 w2 r1 r2 Fp Lk Wx W1 W2).
Qed.
Print Assumptions C91_assertion.

(** So every run has a last noise, 0 or 2^-7, for which it fails; both are within
    the standard deviation of 0.01. *)
Theorem C91_assertion_refuted : forall P, any_order P -> powers P -> forall (M C : f64), within 1 M -> within 1 C ->
  forall samples (x : f64),
  Forall (fun p => within 1 (fst p) /\ within 1 (snd p)) samples -> INR (length samples) <= bpow radix2 20 -> within 1 x ->
  let S := ScalarF64 P in
  exists z w r, (z = b_zero \/ z = b_dyadic 1 (-7)) /\
    prog_run M C (samples ++ [(x, z)]) = Ret w /\ prog_rmse M C w = Ret r /\ fltb r (flit 1 1000) = false.
Proof.
  intros P AO Pw M C WM WC ps x Fp Lk Wx S.
  destruct (b_pow2 (-7) ltac:(lia)) as [F7 R7].
  assert (B7 : bpow radix2 (-7) = 1 / 128) by (simpl; lra).
  assert (W0 : within 1 b_zero) by (split; [reflexivity|change (b_real b_zero) with 0; rewrite Rabs_R0; lra]).
  assert (W7 : within 1 (b_dyadic 1 (-7))) by (split; [exact F7|rewrite R7, B7, Rabs_pos_eq; lra]).
  assert (G : forall z, within 1 z -> exists w r, prog_run M C (ps ++ [(x, z)]) = Ret w /\ prog_rmse M C w = Ret r).
  { intros z Wz. destruct (C91_runs P AO Pw M C WM WC 1 (ps ++ [(x, z)]) ltac:(lra)) as (w0 & w1 & E & _).
    - apply Forall_app. split; [exact Fp|]. constructor; [|constructor]. split; auto.
    - rewrite app_length, plus_INR. simpl INR at 2. simpl in Lk |- *. lra.
    - eexists. eexists. split; [exact E|]. exact (rmse_is P Pw M C w0 w1). }
  destruct (G b_zero W0) as (wa & ra & Ea & Da). destruct (G (b_dyadic 1 (-7)) W7) as (wb & rb & Eb & Db).
  destruct (fltb ra (flit 1 1000)) eqn:Pa; [|exists b_zero, wa, ra; auto].
  destruct (fltb rb (flit 1 1000)) eqn:Pb; [|exists (b_dyadic 1 (-7)), wb, rb; auto].
  exfalso. pose proof (C91_assertion P AO Pw M C WM WC ps x _ _ wb wa rb ra Fp Lk Wx W7 W0 Eb Db Pb Ea Da Pa) as Q.
  rewrite R7, B7 in Q. change (b_real b_zero) with 0 in Q. rewrite Rabs_pos_eq in Q by lra. lra.
Qed.
Print Assumptions C91_assertion_refuted.

(** With the example's own line, inputs of 1 and no noise bring the weights back
    to exactly (0, 0) every second sample, and the assertion fails. *)
Theorem C91_stuck_refuted : forall P, any_order P -> powers P -> forall n,
  let S := ScalarF64 P in
  exists samples, length samples = (n + n)%nat /\ Forall (fun p => within 1 (fst p) /\ snd p = b_zero) samples /\
  prog_run b_one (b_dyadic (-1) (-1)) samples = Ret [b_zero; b_zero] /\
  exists r, prog_rmse b_one (b_dyadic (-1) (-1)) [b_zero; b_zero] = Ret r /\ fltb r (flit 1 1000) = false.
Proof.
  intros P AO Pw n S. exists (repeat (b_one, b_zero) (n + n)). split; [apply repeat_length|]. split.
  - apply Forall_forall. intros p I. apply repeat_spec in I. subst p. split; [|reflexivity].
    split; [reflexivity|]. cbn [fst]. rewrite b_one_real, Rabs_pos_eq; lra.
  - split; [exact (stuck P AO Pw n)|exact (stuck_fails P Pw)].
Qed.
Print Assumptions C91_stuck_refuted.

(** Inputs -1/2 and 1/2, no noise: exact in binary64, so the weights are those of
    [C65_case]. *)
Example C91_case : exists w0 w1 : f64,
  @prog_run f64 (ScalarF64 SimplePlatform) b_one (b_dyadic (-1) (-1))
    [(b_dyadic (-1) (-1), b_zero); (b_dyadic 1 (-1), b_zero)] = Ret [w0; w1] /\
  w0 = b_dyadic 7 (-3) /\ w1 = b_dyadic (-1) (-2).
Proof.
  eexists. eexists. split; [reflexivity|]. split; apply B2SF_inj; vm_compute; reflexivity.
Qed.

(** The hypotheses are met by the example's line, by thousandths of noise and by
    the simple platform. *)
Example C91_met : any_order SimplePlatform /\ powers SimplePlatform /\ within 1 b_one /\ within 1 (b_dyadic (-1) (-1)) /\
  Forall (fun p => within 1 (fst p) /\ within (bpow radix2 (-9)) (snd p))
    [(b_dyadic (-3) (-2), b_dyadic 1 (-10)); (b_dyadic 5 (-3), b_dyadic (-3) (-12))].
Proof.
  splits; [exact simple_any_order|exact simple_powers| | |].
  1-2: apply (within_check 0); [lia|vm_compute; reflexivity].
  repeat (apply Forall_cons || apply Forall_nil); split; cbn [fst snd];
    (apply (within_check 0) || apply (within_check (-9))); try lia; vm_compute; reflexivity.
Qed.
