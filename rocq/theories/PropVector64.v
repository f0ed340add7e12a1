(** C86: vector approximators in binary64. Follows from C77, C83 and C84. *)
From Coq Require Import List Arith ZArith Lia Reals Lra Bool.
From Flocq Require Import Core.Core IEEE754.BinarySingleNaN.
From Verif Require Import Base Scalar ScalarR ScalarF64 F64Facts HMap NdArray VecFacts Features Spec FeatureFacts
  SumOrder NormF64 BoundF64 Optim OptimSpec Lfa LfaSpec LfaFacts Basis TableF64 SgdF64 SgdRun64 SgdFinite64 IsgdF64 IsgdRun64
  Outputs OutputFit PropTrain64 PropIsgd64.
Import ListNotations.
Local Open Scope R_scope.

(** ** C86 *)

(** What holds of the fit of each output by itself holds of their common fit. *)
Lemma together P {I} (o : Optimiser f64 f64) (b : Basis f64 I) wm lr h (Q : nat -> list f64 -> list f64 -> Prop) : let S := ScalarF64 P in
  keeps_length o -> memoryless o -> matrix_ok wm ->
  Forall (fun p => length (snd p) = ncols wm /\ b_project b (fst p) <> Panic) h ->
  (forall j c, (j < ncols wm)%nat -> column wm j = Ret c -> exists c',
     s_run o (map (fun p => SUpdateWith (fst p) (fun _ v => fsub (snd p) v)) (map (target j) h)) (MkLFA b c lr) = Ret (MkLFA b c' lr) /\ Q j c c') ->
  exists v, v_run o (map v_fit h) (MkLFA b wm lr) = Ret v /\ n_outputs v = ncols wm /\
    forall j c, column wm j = Ret c -> exists c', column (lfa_weights v) j = Ret c' /\ Q j c c'.
Proof.
  intros S KL ML OK Fh Each. set (v0 := MkLFA b wm lr : VectorLFA f64 I f64).
  assert (Lh : Forall (fun p => length (snd p) = n_outputs v0) h) by (eapply Forall_impl; [|exact Fh]; intros p [L _]; exact L).
  assert (Ph : Forall (fun p => b_project (lfa_basis v0) (fst p) <> Panic) h) by (eapply Forall_impl; [|exact Fh]; intros p [_ L]; exact L).
  destruct (fit_defined o KL ML h v0 OK Lh Ph) as (v & Ev & Bv & OK' & Rw & Cw).
  { intros j c C. destruct (Each j c (proj1 (column_Ret _ _ _ OK C)) C) as (c' & E & _). eauto. }
  exists v. split; [exact Ev|]. split; [exact Cw|]. intros j c C.
  destruct (fit_column o KL ML h v0 v j c OK Lh Ev C) as (c' & C' & E').
  destruct (Each j c (proj1 (column_Ret _ _ _ OK C)) C) as (c2 & E2 & HQ). exists c'. split; [exact C'|].
  pose proof (eq_trans (eq_sym E2) E') as X. injection X as ->. exact HQ.
Qed.

(** Fitting vectors of targets by SGD: with moderate numbers no output overflows
    and each ends at most a little further from its reference than it started. *)
Theorem C86_sgd : forall P I (b : Basis f64 I) n wm lr (ws : nat -> nat -> R) tau h, let S := ScalarF64 P in
  any_order P -> 0 <= b_real lr -> within (bpow radix2 200) lr -> 0 <= tau -> matrix_ok wm -> nrows wm = n ->
  Forall (fun p => length (snd p) = ncols wm /\ b_project b (fst p) <> Panic) h ->
  INR (length h) * INR (n + 5) <= bpow radix2 49 ->
  (forall j c, (j < ncols wm)%nat -> column wm j = Ret c ->
     finite_all c /\ Forall (tame b n lr (ws j) tau) (map (target j) h) /\
     nn n (fun i => ws j i - val c i) + nn n (ws j) + INR (length h) * tau <= bpow radix2 199) ->
  exists v, v_run SGD (map v_fit h) (MkLFA b wm lr) = Ret v /\ n_outputs v = ncols wm /\
    forall j c, column wm j = Ret c -> exists c', column (lfa_weights v) j = Ret c' /\ finite_all c' /\
      let e := INR (length h) * INR (n + 5) * bpow radix2 (-51) in
      nn n (fun i => ws j i - val c' i) <= (1 + e) * nn n (fun i => ws j i - val c i) + e * nn n (ws j) + 5 / 4 * (INR (length h) * tau).
Proof.
  intros P I b n wm lr ws tau h S AO L0 Wl T0 OK Nr Fh Nh Hj.
  apply (together P SGD b wm lr h (fun j c c' => finite_all c' /\
      let e := INR (length h) * INR (n + 5) * bpow radix2 (-51) in
      nn n (fun i => ws j i - val c' i) <= (1 + e) * nn n (fun i => ws j i - val c i) + e * nn n (ws j) + 5 / 4 * (INR (length h) * tau)));
    auto using sgd_keeps_length, sgd_memoryless.
  intros j c Lj C. destruct (Hj j c Lj C) as (Fc & Ta & Nb). destruct (column_lt wm j OK Lj) as (c2 & C2 & Lc & _).
  assert (c2 = c) by congruence. subst c2.
  rewrite <- (map_length (target j) h) in Nh, Nb.
  destruct (C77_stable P I b n lr (ws j) tau (map (target j) h) c AO L0 Wl T0 (eq_trans Lc Nr) Fc Ta Nh Nb) as (w' & E & _ & F' & B).
  rewrite map_length in B. exists w'. split; [exact E|]. split; [exact F'|exact B].
Qed.
Print Assumptions C86_sgd.

(** By ISGD: at any positive learning rate. *)
Theorem C86_isgd : forall P I (b : Basis f64 I) n wm lr (ws : nat -> nat -> R) tau h, let S := ScalarF64 P in
  any_order P -> 0 < b_real lr -> within (bpow radix2 200) lr -> 0 <= tau -> matrix_ok wm -> nrows wm = n ->
  Forall (fun p => length (snd p) = ncols wm /\ b_project b (fst p) <> Panic) h ->
  INR (length h) * INR (n + 5) <= bpow radix2 49 -> INR (n + 5) <= bpow radix2 49 ->
  (forall j c, (j < ncols wm)%nat -> column wm j = Ret c ->
     finite_all c /\ Forall (steady P b n lr (ws j) tau) (map (target j) h) /\
     nn n (fun i => ws j i - val c i) + nn n (ws j) + INR (length h) * tau <= bpow radix2 199) ->
  exists v, v_run ISGD (map v_fit h) (MkLFA b wm lr) = Ret v /\ n_outputs v = ncols wm /\
    forall j c, column wm j = Ret c -> exists c', column (lfa_weights v) j = Ret c' /\ finite_all c' /\
      let e := INR (length h) * INR (n + 5) * bpow radix2 (-51) in
      nn n (fun i => ws j i - val c' i) <= (1 + e) * nn n (fun i => ws j i - val c i) + e * nn n (ws j) + 5 / 4 * (INR (length h) * tau).
Proof.
  intros P I b n wm lr ws tau h S AO L0 Wl T0 OK Nr Fh Nh N5 Hj.
  apply (together P ISGD b wm lr h (fun j c c' => finite_all c' /\
      let e := INR (length h) * INR (n + 5) * bpow radix2 (-51) in
      nn n (fun i => ws j i - val c' i) <= (1 + e) * nn n (fun i => ws j i - val c i) + e * nn n (ws j) + 5 / 4 * (INR (length h) * tau)));
    auto using isgd_keeps_length, isgd_memoryless.
  intros j c Lj C. destruct (Hj j c Lj C) as (Fc & Ta & Nb). destruct (column_lt wm j OK Lj) as (c2 & C2 & Lc & _).
  assert (c2 = c) by congruence. subst c2.
  rewrite <- (map_length (target j) h) in Nh, Nb.
  destruct (C84_stable P I b n lr (ws j) tau (map (target j) h) c AO L0 Wl T0 (eq_trans Lc Nr) Fc Ta Nh N5 Nb) as (w' & E & _ & F' & B).
  rewrite map_length in B. exists w'. split; [exact E|]. split; [exact F'|exact B].
Qed.
Print Assumptions C86_isgd.

(** And what it answers differs from what the references answer by the distance
    of the weights and the rounding of one product, output by output. *)
Theorem C86_predict : forall P I (b : Basis f64 I) n (lr : f64) wm (ws : nat -> nat -> R) x phi, let S := ScalarF64 P in
  any_order P -> matrix_ok wm -> nrows wm = n -> b_project b x = Ret (Ok phi) -> wf phi -> size phi = n ->
  exists vs, v_evaluate (MkLFA b wm lr) x = Ret (Ok vs) /\ length vs = ncols wm /\
    forall j c y, column wm j = Ret c -> nth_error vs j = Some y -> b_finite y = true ->
      let d := nn n (fun i => ws j i - val c i) in let f := nn n (coeff64 phi) in
      Rabs (b_real y - sigma n (fun i => coeff64 phi i * ws j i)) <=
        f * d + ((1 + bpow radix2 (-53)) ^ (n + 5) - 1) * (f * (d + nn n (ws j)) + INR n * eta64) + INR n * eta64.
Proof.
  intros P I b n lr wm ws x phi S AO OK Nr Pr W Z. set (v := MkLFA b wm lr : VectorLFA f64 I f64).
  assert (Ev : forall j c, column wm j = Ret c -> exists y, s_evaluate (MkLFA b c lr) x = Ret (Ok y) /\
    (b_finite y = true -> let d := nn n (fun i => ws j i - val c i) in let f := nn n (coeff64 phi) in
      Rabs (b_real y - sigma n (fun i => coeff64 phi i * ws j i)) <=
        f * d + ((1 + bpow radix2 (-53)) ^ (n + 5) - 1) * (f * (d + nn n (ws j)) + INR n * eta64) + INR n * eta64)).
  { intros j c C. destruct (column_lt wm j OK (proj1 (column_Ret _ _ _ OK C))) as (c2 & C2 & Lc & _). assert (c2 = c) by congruence. subst c2.
    exact (C77_predict P I f64 b n lr (ws j) c x phi AO Pr W Z (eq_trans Lc Nr)). }
  destruct (evaluate_outputs v x OK) as (vs & Evs & Lvs & Nvs); [exists phi; exact Pr| |].
  { intros j c C. destruct (Ev j c C) as (y & Ey & _). eauto. }
  exists vs. split; [exact Evs|]. split; [exact Lvs|]. intros j c y C Ny Fy.
  destruct (Ev j c C) as (y' & Ey & B). rewrite (Nvs j c y' C Ey) in Ny. injection Ny as <-. exact (B Fy).
Qed.
Print Assumptions C86_predict.

(** Two outputs, both the line of C77 and starting at different weights, at the
    learning rate 2^100: the hypotheses of C86_isgd hold, so they stay within 4. *)
Definition pair_points : list (f64 * list f64) := map (fun p => (fst p, [snd p; snd p])) points.
Definition two_cols : matrix f64 := MkMatrix [[b_zero; b_one]; [b_zero; b_zero]] 2.
Example C86_case : forall P, let S := ScalarF64 P in any_order P ->
  exists v, v_run ISGD (map v_fit pair_points) (MkLFA line two_cols huge) = Ret v /\ n_outputs v = 2%nat /\
    forall j c, (j < 2)%nat -> column (lfa_weights v) j = Ret c -> finite_all c /\ nn 2 (fun i => slope i - val c i) <= 4.
Proof.
  intros P S AO.
  assert (OK : matrix_ok two_cols) by (unfold matrix_ok, two_cols; cbn; repeat constructor).
  assert (Ta : forall j, (j < 2)%nat -> Forall (steady P line 2 huge slope (bpow radix2 (-1000))) (map (target j) pair_points)).
  { intros j Lj. assert (X : map (target j) pair_points = points) by (destruct j as [|[|j]]; [reflexivity|reflexivity|lia]). rewrite X.
    constructor; [|constructor; [|constructor]]; apply line_steady; try reflexivity.
    - rewrite half_real, Rabs_pos_eq; lra.
    - rewrite two_real, half_real. lra.
    - rewrite one_real, Rabs_pos_eq; lra.
    - rewrite three_real, one_real. lra. }
  assert (W0 : nn 2 slope <= 9 / 4) by (apply nn_2; cbn [slope]; lra).
  assert (D0 : forall j c, column two_cols j = Ret c -> finite_all c /\ nn 2 (fun i => slope i - val c i) <= 9 / 4).
  { assert (Two : forall x y : f64, b_finite x = true -> b_finite y = true -> finite_all [x; y]).
    { intros x y Fx Fy. constructor; [exact Fx|constructor; [exact Fy|constructor]]. }
    intros [|[|j]] c C; [change (Ret [b_zero; b_zero] = Ret c) in C|change (Ret [b_one; b_zero] = Ret c) in C|discriminate];
      injection C as <-; (split; [apply Two; reflexivity|]); apply nn_2; unfold val; cbn [nth slope];
      change (b_real b_zero) with 0; rewrite ?one_real; lra. }
  assert (Tt : INR (length pair_points) * bpow radix2 (-1000) <= / 8).
  { change (INR (length pair_points)) with 2. change 2 with (bpow radix2 1). rewrite <- bpow_plus. change (/ 8) with (bpow radix2 (-3)). apply bpow_le. lia. }
  destruct (C86_isgd P f64 line 2 two_cols huge (fun _ => slope) (bpow radix2 (-1000)) pair_points) as (v & Ev & Nv & B); auto.
  - rewrite huge_real. apply bpow_gt_0.
  - split; [reflexivity|]. rewrite huge_real, Rabs_pos_eq by apply bpow_ge_0. apply bpow_le. lia.
  - apply bpow_ge_0.
  - repeat constructor; discriminate.
  - apply Rle_trans with (bpow radix2 4); [change (bpow radix2 4) with 16; simpl; lra|apply bpow_le; lia].
  - apply Rle_trans with (bpow radix2 3); [change (bpow radix2 3) with 8; simpl; lra|apply bpow_le; lia].
  - intros j c Lj C. destruct (D0 j c C) as [Fc Dc]. split; [exact Fc|]. split; [exact (Ta j Lj)|].
    apply Rle_trans with (bpow radix2 3); [change (bpow radix2 3) with 8; lra|apply bpow_le; lia].
  - exists v. split; [exact Ev|]. split; [exact Nv|]. intros j c' Lj C'.
    destruct (column_lt two_cols j OK Lj) as (c & C & _). destruct (B j c C) as (c2 & C2 & F2 & B2). assert (c2 = c') by congruence. subst c2.
    split; [exact F2|]. cbv zeta in B2. destruct (D0 j c C) as [_ Dc].
    change (INR (length pair_points)) with 2 in *. change (INR (2 + 5)) with (1 + 1 + 1 + 1 + 1 + 1 + 1) in B2.
    set (e := 2 * (1 + 1 + 1 + 1 + 1 + 1 + 1) * bpow radix2 (-51)) in *.
    assert (E4 : 0 <= e <= / 16).
    { unfold e. pose proof (bpow_ge_0 radix2 (-51)). assert (bpow radix2 (-51) <= bpow radix2 (-8)) by (apply bpow_le; lia). change (bpow radix2 (-8)) with (/ 256) in *. lra. }
    pose proof (nn_nonneg 2 slope) as N1. pose proof (nn_nonneg 2 (fun i => slope i - val c i)) as N2.
    set (s := nn 2 slope) in *. set (d := nn 2 (fun i => slope i - val c i)) in *.
    assert (e * d <= / 16 * (9 / 4)) by (apply Rmult_le_compat; lra). assert (e * s <= / 16 * (9 / 4)) by (apply Rmult_le_compat; lra).
    lra.
Qed.
Print Assumptions C86_case.
