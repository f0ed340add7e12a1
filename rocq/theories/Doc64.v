(** The example of the crate's documentation, /repo/src/lib.rs:10-51, in
    binary64. Facts for C91. *)
From Coq Require Import List Arith ZArith Lia Bool Reals Lra Permutation.
From Flocq Require Import Core.Core IEEE754.BinarySingleNaN.
From Verif Require Import Base Scalar ScalarR ScalarF64 F64Facts HMap NdArray VecFacts Features Spec FeatureFacts
  Optim OptimSpec OptimReal Lfa LfaSpec LfaFacts
  Coeffs Kernels TileCoding Basis EndToEnd DocExample NormF64 NormL2F64 NonnegF64 BoundF64 OptimF64 SumOrder TableF64 Near64 SgdF64 SgdRun64 SgdFinite64.
Import ListNotations.
Local Open Scope R_scope.

Section Program.
  Context {F : Type} `{Scalar F}.

  (** lib.rs:30: [Polynomial::new(1, 1).with_zeroth()]. *)
  Definition prog_basis : outcome (basis F) :=
    match polynomial_new 1 1 with
    | BPolynomial order exponents => let* es := polynomial_with_zeroth exponents in Ret (BPolynomial order es)
    | b => Ret b
    end.

  (** lib.rs:29-32. *)
  Definition prog_fa : outcome (ScalarLFA F (list F) F) :=
    let* b := prog_basis in Ret (scalar (as_basis b) fone).

  (** lib.rs:38-43: one turn of the loop. A sample is an input and its noise. *)
  Definition prog_call (slope intercept : F) (sample : F * F) : s_call F (list F) :=
    let (x, noise) := sample in
    let y_exp := fadd (fmul slope x) intercept in
    let y_sample := fadd y_exp noise in
    SUpdateWith [x] (fun _ y_pred => fsub y_sample y_pred).

  Definition prog_run (slope intercept : F) (samples : list (F * F)) : outcome (list F) :=
    let* fa := prog_fa in
    let* fa := s_run SGD (map (prog_call slope intercept) samples) fa in
    Ret (lfa_weights fa).

  (** lib.rs:45-48. *)
  Definition prog_rmse (slope intercept : F) (weights : list F) : outcome F :=
    let* w0 := vget weights 0 in
    let* w1 := vget weights 1 in
    Ret (fsqrt (fadd (fpowi (fsub w0 slope) 2) (fpowi (fsub w1 intercept) 2))).
End Program.

(** Over the reals this is the program of C65. *)
Lemma prog_real slope intercept samples :
  prog_run slope intercept samples = doc_run slope intercept samples.
Proof. unfold prog_run, doc_run, prog_fa, doc_fa. rewrite fone_R. reflexivity. Qed.

Section Doc64.
  Context (P : Platform) (AO : any_order P) (Pw : powers P).
  Local Instance SD64 : Scalar f64 := ScalarF64 P.

  Lemma muls_one x n y : muls x n y -> n = 1%nat -> y = x.
  Proof.
    induction 1 as [| |a b y z A IA B IB]; intros E; try discriminate; auto.
    destruct a as [|[|a]]; [|destruct b as [|b]; [|lia]|lia].
    - rewrite (muls_zero _ _ _ A eq_refl), b_mul_one. apply IB. lia.
    - rewrite (muls_zero _ _ _ B eq_refl), b_mul_one_r. apply IA. lia.
  Qed.

  Lemma muls_two x n y : muls x n y -> n = 2%nat -> y = b_mul x x.
  Proof.
    induction 1 as [| |a b y z A IA B IB]; intros E; try discriminate.
    destruct a as [|[|[|a]]]; [| |destruct b as [|b]; [|lia]|lia].
    - rewrite (muls_zero _ _ _ A eq_refl), b_mul_one. apply IB. lia.
    - rewrite (muls_one _ _ _ A eq_refl), (muls_one _ _ _ B ltac:(lia)). reflexivity.
    - rewrite (muls_zero _ _ _ B eq_refl), b_mul_one_r. apply IA. lia.
  Qed.

  Lemma prog_basis_is : @prog_basis f64 = Ret (BPolynomial 1 [[1%nat]; [0%nat]]).
  Proof. reflexivity. Qed.

  Definition prog_b : Basis f64 (list f64) := as_basis (BPolynomial 1 [[1%nat]; [0%nat]]).

  Lemma prog_project x : b_project prog_b [x] = Ret (Ok (Dense [x; b_one])).
  Proof.
    unfold prog_b, as_basis. cbn [b_project project]. unfold polynomial_feature, product. cbn [map map2 fold_left fmul fpowi SD64 ScalarF64].
    rewrite (fone_f64 P : @fone f64 SD64 = b_one). cbn [b_powi]. rewrite !b_mul_one.
    rewrite (muls_one _ _ _ (Pw x 1%nat) eq_refl), (muls_zero _ _ _ (Pw x 0%nat) eq_refl). reflexivity.
  Qed.

  (** ** The samples as C77 wants them *)

  Context (M C : f64) (FM : b_finite M = true) (BM : Rabs (b_real M) <= 1) (FC : b_finite C = true) (BC : Rabs (b_real C) <= 1).

  Definition target (p : f64 * f64) : f64 := b_add (b_add (b_mul M (fst p)) C) (snd p).
  Definition as_sample (p : f64 * f64) : list f64 * f64 := ([fst p], target p).

  Lemma calls ps : map (prog_call M C) ps =
    map (fun p => SUpdateWith (fst p) (fun _ v => fsub (snd p) v)) (map as_sample ps).
  Proof. rewrite map_map. apply map_ext. intros [x z]. reflexivity. Qed.

  (** An input in [-1, 1] and a noise of at most [Z]. *)
  Definition fair (Z : R) (p : f64 * f64) : Prop := within 1 (fst p) /\ within Z (snd p).

  Lemma target_acc p : fair 1 p -> acc (target p) (b_real M * b_real (fst p) + b_real C + b_real (snd p)) 7 3.
  Proof.
    intros [[Fx Bx] [Fz Bz]]. unfold target.
    pose proof (acc_mul _ _ _ _ _ _ _ _ (acc_unit M FM BM) (acc_unit (fst p) Fx Bx) ltac:(lia) ltac:(lia)) as A1.
    pose proof (acc_add _ _ _ _ _ _ _ _ A1 (acc_unit C FC BC) ltac:(lia)) as A2.
    exact (acc_add _ _ _ _ _ _ _ _ A2 (acc_unit (snd p) Fz Bz) ltac:(lia)).
  Qed.

  Lemma acts_prog p i : acts prog_b (as_sample p) i = match i with O => b_real (fst p) | 1%nat => 1 | _ => 0 end.
  Proof.
    unfold acts, as_sample. cbn [fst]. rewrite prog_project. destruct i as [|[|i]]; cbn [coeff64 nth]; [reflexivity|exact b_one_real|].
    destruct i; reflexivity.
  Qed.

  Lemma nn_le2 x a : x 0%nat * x 0%nat + x 1%nat * x 1%nat <= a * a -> 0 <= a -> nn 2 x <= a.
  Proof.
    intros L A. rewrite <- (sqrt_Rsqr a) by exact A. apply sqrt_le_1_alt. unfold sigma. simpl. unfold Rsqr. lra.
  Qed.

  Lemma nn_sq2 x : nn 2 x * nn 2 x = x 0%nat * x 0%nat + x 1%nat * x 1%nat.
  Proof. rewrite nn_sqr. unfold sigma. simpl. lra. Qed.

  Lemma nn_two x : nn 2 x = sqrt (x 0%nat * x 0%nat + x 1%nat * x 1%nat).
  Proof. unfold nn. f_equal. unfold sigma. simpl. lra. Qed.

  Lemma nn_comp x : Rabs (x 1%nat) <= nn 2 x.
  Proof.
    rewrite nn_two. rewrite <- sqrt_Rsqr_abs. apply sqrt_le_1_alt. unfold Rsqr. pose proof (Rle_0_sqr (x 0%nat)) as Q. unfold Rsqr in Q. lra.
  Qed.

  Lemma sq_unit y : Rabs y <= 1 -> y * y <= 1.
  Proof.
    intros B. replace 1 with (1 * 1) by ring. rewrite <- (Rabs_pos_eq (y * y)) by apply Rle_0_sqr. rewrite Rabs_mult.
    apply Rmult_le_compat; auto using Rabs_pos.
  Qed.

  Lemma acts_nn p Z : fair Z p -> nn 2 (acts prog_b (as_sample p)) * nn 2 (acts prog_b (as_sample p)) <= 2 /\
    nn 2 (acts prog_b (as_sample p)) <= 3 / 2.
  Proof.
    intros [[Fx Bx] _]. pose proof (sq_unit _ Bx) as Q. split.
    - rewrite nn_sq2, !acts_prog. lra.
    - apply nn_le2; rewrite ?acts_prog; lra.
  Qed.

  Lemma pow7_u : 1 <= (1 + uro) ^ 7 <= 1 + 8 * uro.
  Proof.
    pose proof uro_pos as U. assert (uro <= / 1000) by (unfold uro; simpl; lra). split; [apply pow_1_uro|].
    pose proof (pow_small uro 7 ltac:(lra)) as S. set (p := (1 + uro) ^ 7) in *. simpl INR in S. 
    assert (L : p * (1 - 7 * uro) <= 1) by lra.
    apply Rmult_le_reg_r with (1 - 7 * uro); [lra|]. apply Rle_trans with (1 := L). nra.
  Qed.

  (** The weights [ws] leave [m] of the sample unexplained. *)
  Lemma rest_prog p ws m : fair 1 p -> Rabs (misfit prog_b 2 ws (as_sample p)) <= m + 7 * uro -> 0 <= m ->
    rest 2 (b_real b_one) (nn 2 (acts prog_b (as_sample p))) (misfit prog_b 2 ws (as_sample p)) <= 13 / 8 * m + 12 * uro.
  Proof.
    intros Fp Mf Pm. destruct (acts_nn p 1 Fp) as [_ N]. pose proof (nn_nonneg 2 (acts prog_b (as_sample p))) as N0.
    unfold rest. rewrite b_one_real. change (2 + 5)%nat with 7%nat. destruct pow7_u as [P1 P2]. pose proof uro_pos as U. pose proof eta64_pos as Et.
    assert (Eu : 100 * eta64 <= uro).
    { apply Rle_trans with (bpow radix2 7 * eta64); [change (bpow radix2 7) with 128; lra|]. unfold eta64. rewrite <- bpow_plus. apply bpow_le. lia. }
    assert (Us : uro <= / 1000) by (unfold uro; simpl; lra).
    set (f := nn 2 (acts prog_b (as_sample p))) in *. set (z := Rabs (misfit prog_b 2 ws (as_sample p))) in *. assert (Z0 : 0 <= z) by apply Rabs_pos. simpl INR.
    assert (A : 1 * f * z <= 3 / 2 * (m + 7 * uro)).
    { rewrite Rmult_1_l. apply Rmult_le_compat; lra. }
    assert (B : eta64 * (1 * f * (1 + 1) + f + (1 + 1)) <= uro / 10).
    { apply Rle_trans with (eta64 * 10); [apply Rmult_le_compat_l; lra|lra]. }
    apply Rle_trans with ((1 + 8 * uro) * (3 / 2 * (m + 7 * uro) + uro / 10)).
    - apply Rmult_le_compat; try lra. apply Rplus_le_le_0_compat; [repeat apply Rmult_le_pos; lra|apply Rmult_le_pos; lra].
    - assert (m * uro <= m * / 1000) by (apply Rmult_le_compat_l; lra).
      assert (uro * uro <= uro * / 1000) by (apply Rmult_le_compat_l; lra). lra.
  Qed.

  Definition line2 (a b : R) (i : nat) : R := match i with O => a | _ => b end.

  Lemma misfit_prog p b : fair 1 p ->
    Rabs (misfit prog_b 2 (line2 (b_real M) b) (as_sample p)) <= Rabs (b_real C + b_real (snd p) - b) + 7 * uro.
  Proof.
    intros Fp. unfold misfit. destruct (target_acc p Fp) as (_ & E & _). cbn [as_sample snd].
    unfold sigma. cbn [seq map rsum fold_right]. rewrite !acts_prog. cbn [line2].
    replace (b_real (target p) - (b_real (fst p) * b_real M + (1 * b + 0)))
      with ((b_real C + b_real (snd p) - b) + (b_real (target p) - (b_real M * b_real (fst p) + b_real C + b_real (snd p)))) by ring.
    eapply Rle_trans; [apply Rabs_triang|]. lra.
  Qed.

  Lemma fair_le Z Y p : fair Z p -> Z <= Y -> fair Y p.
  Proof. intros [A B] L. split; auto. eapply within_le; eauto. Qed.

  Lemma defined p : exists phi, b_project prog_b (fst (as_sample p)) = Ret (Ok phi) /\ wf phi /\ size phi = 2%nat.
  Proof. eexists. cbn [as_sample fst]. rewrite prog_project. split; [reflexivity|]. split; [apply wf_dense|reflexivity]. Qed.

  Lemma tame_prog Z p : 0 <= Z <= 1 -> fair Z p ->
    tame prog_b 2 b_one (line2 (b_real M) (b_real C)) (13 / 8 * Z + 12 * uro) (as_sample p).
  Proof.
    intros [Z0 Z1] Fp. assert (F1 := fair_le _ _ _ Fp Z1). destruct (acts_nn p Z Fp) as [N1 N2]. split; [split; [apply defined|split]|split; [|split]].
    - rewrite b_one_real. lra.
    - apply rest_prog; auto. eapply Rle_trans; [apply misfit_prog; auto|].
      replace (b_real C + b_real (snd p) - b_real C) with (b_real (snd p)) by ring. destruct Fp as [_ [_ B]]. lra.
    - intros phi E. cbn [as_sample fst] in E. rewrite prog_project in E. injection E as <-.
      intros [|[|i]] v St; cbn [stores nth_error] in St; [injection St as <-; apply Fp|injection St as <-; reflexivity|destruct i; discriminate].
    - eapply Rle_trans; [exact N2|]. apply Rle_trans with (bpow radix2 1); [change (bpow radix2 1) with 2; lra|apply bpow_le; lia].
    - destruct (target_acc p F1) as (A & _ & B & _). split; [exact A|]. cbn [as_sample snd]. eapply Rle_trans; [exact B|].
      apply Rle_trans with (bpow radix2 2); [change (bpow radix2 2) with 4; lra|apply bpow_le; lia].
  Qed.

  Lemma line2_nn a b : Rabs a <= 1 -> Rabs b <= 1 -> nn 2 (line2 a b) <= 3 / 2.
  Proof. intros A B. pose proof (sq_unit a A). pose proof (sq_unit b B). apply nn_le2; cbn [line2]; lra. Qed.

  Lemma zeros_away ws : nn 2 (fun i => ws i - val [b_zero; b_zero] i) = nn 2 ws.
  Proof. rewrite !nn_two. unfold val. cbn [nth]. change (b_real b_zero) with 0. f_equal. ring. Qed.

  Lemma start_is : @prog_fa f64 SD64 = Ret (MkLFA prog_b [b_zero; b_zero] b_one).
  Proof.
    unfold prog_fa. rewrite prog_basis_is. cbn [obind]. rewrite (fone_f64 P : @fone f64 SD64 = b_one).
    unfold scalar, zeros. cbn [as_basis b_dim dim length repeat]. rewrite (fzero_f64 P : @fzero f64 SD64 = b_zero). reflexivity.
  Qed.

  Lemma uro_small : 0 < uro <= / 1000.
  Proof. split; [apply uro_pos|unfold uro; simpl; lra]. Qed.

  (** ** How far the weights can get *)

  Theorem prog_bound Z ps : 0 <= Z <= 1 -> Forall (fair Z) ps -> INR (length ps) <= bpow radix2 40 ->
    exists fa, ofold (s_do SGD) (map (prog_call M C) ps) (MkLFA prog_b [b_zero; b_zero] b_one) = Ret fa /\
    exists w0 w1, fa = MkLFA prog_b [w0; w1] b_one /\ b_finite w0 = true /\ b_finite w1 = true /\
      nn 2 (fun i => line2 (b_real M) (b_real C) i - val [w0; w1] i) <=
        nn 2 (line2 (b_real M) (b_real C)) + INR (length ps) * (65 / 32 * Z + 128 * uro).
  Proof.
    intros LZ Fp Lk. set (ws := line2 (b_real M) (b_real C)). set (tau := 13 / 8 * Z + 12 * uro).
    destruct uro_small as [U0 U1]. assert (K0 := pos_INR (length ps)).
    assert (Lh : length (map as_sample ps) = length ps) by apply map_length.
    assert (W := line2_nn _ _ BM BC). fold ws in W. assert (W0 := nn_nonneg 2 ws).
    assert (T : 0 <= tau <= 2) by (unfold tau; lra).
    destruct (stable64 P prog_b 2 b_one ws tau (map as_sample ps) [b_zero; b_zero] AO) as (w' & E & L & Fi & B).
    - rewrite b_one_real. lra.
    - split; [reflexivity|]. rewrite b_one_real, Rabs_R1. apply (bpow_le radix2 0 200). lia.
    - lra.
    - reflexivity.
    - repeat constructor.
    - apply Forall_forall. intros q Iq. apply in_map_iff in Iq. destruct Iq as (p & <- & Ip). apply tame_prog; auto.
      rewrite Forall_forall in Fp. auto.
    - rewrite Lh. apply Rle_trans with (bpow radix2 40 * bpow radix2 3).
      + apply Rmult_le_compat; auto; [apply pos_INR|]. simpl. lra.
      + rewrite <- bpow_plus. apply bpow_le. lia.
    - rewrite Lh, zeros_away. apply Rle_trans with (4 + bpow radix2 40 * 2).
      + assert (INR (length ps) * tau <= bpow radix2 40 * 2) by (apply Rmult_le_compat; lra). lra.
      + assert (A41 : bpow radix2 41 = bpow radix2 40 * 2) by (change 41%Z with (40 + 1)%Z; rewrite bpow_plus; reflexivity).
        assert (A42 : bpow radix2 42 = bpow radix2 41 * 2) by (change 42%Z with (41 + 1)%Z; rewrite bpow_plus; reflexivity).
        assert (A2 : 4 <= bpow radix2 41) by (change 4 with (bpow radix2 2); apply bpow_le; lia).
        assert (bpow radix2 42 <= bpow radix2 199) by (apply bpow_le; lia). lra.
    - unfold s_run in E. rewrite <- calls in E. eexists. split; [exact E|]. destruct w' as [|w0 [|w1 [|]]]; try discriminate L.
      inversion Fi as [|? ? F0 Fi1]; subst. inversion Fi1 as [|? ? F1 _]; subst.
      exists w0, w1. splits; auto. eapply Rle_trans; [exact B|]. cbv zeta. rewrite Lh, zeros_away. fold ws.
      replace (bpow radix2 (-51)) with (4 * uro).
      2: { unfold uro. change 4 with (bpow radix2 2). rewrite <- bpow_plus. reflexivity. }
      set (k := INR (length ps)) in *. simpl INR. unfold tau.
      assert (Q : k * 7 * (4 * uro) * nn 2 ws <= k * 7 * (4 * uro) * (3 / 2)).
      { apply Rmult_le_compat_l; [|exact W]. repeat apply Rmult_le_pos; lra. }
      assert (Ku : 0 <= k * uro) by (apply Rmult_le_pos; lra). lra.
  Qed.

  Lemma fit_same p : fit64 P (as_sample p) = prog_call M C p.
  Proof. destruct p. reflexivity. Qed.

  Lemma Forall_fair ps : Forall (fair 1) ps -> forall p, In p ps -> fair 1 p.
  Proof. intros Fp. apply Forall_forall, Fp. Qed.

  (** The state before the last sample, and where its intercept goes from there. *)
  Theorem prog_last ps : Forall (fair 1) ps -> INR (length ps) <= bpow radix2 20 ->
    exists w0 w1 : f64, forall x z : f64, within 1 x -> within 1 z ->
      exists v0 v1 : f64, prog_run M C (ps ++ [(x, z)]) = Ret [v0; v1] /\
        within (bpow radix2 23) v0 /\ within (bpow radix2 23) v1 /\
        Rabs (b_real v1 - (b_real x * (b_real M - b_real w0) + b_real C + b_real z)) <= bpow radix2 (-25).
  Proof.
    intros Fp Lk. destruct uro_small as [U0 U1].
    assert (B20 : bpow radix2 20 <= bpow radix2 40) by (apply bpow_le; lia).
    destruct (prog_bound 1 ps ltac:(lra) Fp ltac:(lra)) as (fa & E & w0 & w1 & -> & F0 & F1 & D).
    exists w0, w1. intros x z Wx Wz. assert (Fxz : fair 1 (x, z)) by (split; auto).
    assert (Fp' : Forall (fair 1) (ps ++ [(x, z)])) by (apply Forall_app; split; auto).
    assert (K0 := pos_INR (length ps)).
    assert (Lk' : INR (length (ps ++ [(x, z)])) <= 2 * bpow radix2 20).
    { rewrite app_length, plus_INR. simpl INR. assert (1 <= bpow radix2 20) by (apply (bpow_le radix2 0 20); lia). lra. }
    assert (B40 : 2 * bpow radix2 20 <= bpow radix2 40) by (change 2 with (bpow radix2 1); rewrite <- bpow_plus; apply bpow_le; lia).
    destruct (prog_bound 1 (ps ++ [(x, z)]) ltac:(lra) Fp' ltac:(lra)) as (fb & Eb & v0 & v1 & -> & G0 & G1 & Db).
    exists v0, v1.
    assert (Rn : prog_run M C (ps ++ [(x, z)]) = Ret [v0; v1]).
    { unfold prog_run. rewrite start_is. cbn [obind]. unfold s_run. rewrite Eb. reflexivity. }
    split; [exact Rn|].
    assert (W := line2_nn _ _ BM BC). assert (B20' : bpow radix2 20 = 1048576) by (simpl; lra).
    assert (Dv : nn 2 (val [v0; v1]) <= bpow radix2 23).
    { eapply Rle_trans; [apply (nn_from 2 (line2 (b_real M) (b_real C)))|]. change (bpow radix2 23) with (IZR (2 ^ 23)). change (2 ^ 23)%Z with 8388608%Z.
      set (k := INR (length (ps ++ [(x, z)]))) in *. assert (Pk : 0 <= k) by apply pos_INR.
      assert (k * (65 / 32 * 1 + 128 * uro) <= 2 * 1048576 * 3); [|lra].
      apply Rmult_le_compat; lra. }
    assert (Dw : nn 2 (fun i => line2 (b_real M) (b_real C) i - val [w0; w1] i) <= 3145730).
    { eapply Rle_trans; [exact D|]. assert (INR (length ps) * (65 / 32 * 1 + 128 * uro) <= 1048576 * (5 / 2)); [|lra].
      apply Rmult_le_compat; lra. }
    assert (V0 : Rabs (b_real v0) <= nn 2 (val [v0; v1])).
    { rewrite nn_two. rewrite <- sqrt_Rsqr_abs. apply sqrt_le_1_alt. unfold val. cbn [nth]. unfold Rsqr.
      pose proof (Rle_0_sqr (b_real v1)) as Q. unfold Rsqr in Q. lra. }
    assert (V1 := nn_comp (val [v0; v1])). change (val [v0; v1] 1) with (b_real v1) in V1.
    split; [split; [exact G0|lra]|]. split; [split; [exact G1|lra]|].
    (* the last step, measured against the line through this sample *)
    set (ws := line2 (b_real M) (b_real C + b_real z)). set (tau := 13 / 8 * 0 + 12 * uro).
    assert (Mi : mild prog_b 2 b_one ws 2 tau (as_sample (x, z))).
    { split; [apply defined|]. destruct (acts_nn _ 1 Fxz) as [N1 N2]. split; [rewrite b_one_real; lra|].
      apply rest_prog; auto; [|lra]. eapply Rle_trans; [apply misfit_prog; auto|]. cbn [snd].
      replace (b_real C + b_real z - (b_real C + b_real z)) with 0 by ring. rewrite Rabs_R0. lra. }
    assert (L1 : 0 <= b_real b_one) by (rewrite b_one_real; lra).
    destruct (fit_defined P AO prog_b 2 b_one ws 2 tau L1 (Rle_refl 2) [w0; w1] (as_sample (x, z)) Mi eq_refl) as (w' & L' & E' & St).
    rewrite fit_same in E'.
    assert (Ew : w' = [v0; v1]).
    { rewrite map_app in Eb. cbn [map] in Eb. rewrite ofold_app, E in Eb. cbn [obind ofold] in Eb.
      assert (Q : s_do SGD (MkLFA prog_b [w0; w1] b_one) (prog_call M C (x, z)) = Ret (MkLFA prog_b [v0; v1] b_one)).
      { destruct (s_do SGD (MkLFA prog_b [w0; w1] b_one) (prog_call M C (x, z))) in Eb |- *; [exact Eb|discriminate Eb]. }
      pose proof (eq_trans (eq_sym E') Q) as T. injection T as T. exact T. }
    subst w'. destruct St as [_ St]; [repeat constructor; auto|].
    pose proof (Rle_trans _ _ _ (nn_comp _) St) as Sc. cbv beta in Sc. rewrite b_one_real in Sc.
    unfold sigma in Sc. cbn [seq map rsum fold_right] in Sc. rewrite !acts_prog in Sc. unfold ws at 1 2 in Sc.
    unfold val at 1 2 3 4 in Sc. cbn [line2 nth fst snd] in Sc.
    replace (b_real x * (b_real M - b_real w0) + b_real C + b_real z)
      with (b_real w1 + 1 * (b_real x * (b_real M - b_real w0) + (1 * (b_real C + b_real z - b_real w1) + 0)) * 1) by ring.
    eapply Rle_trans; [exact Sc|].
    assert (Nz : nn 2 (line2 0 (b_real z)) <= 1).
    { apply nn_le2; cbn [line2]; [|lra]. pose proof (sq_unit _ (proj2 Wz)). lra. }
    assert (N1 : nn 2 ws <= 5 / 2).
    { apply Rle_trans with (nn 2 (line2 (b_real M) (b_real C)) + nn 2 (line2 0 (b_real z))); [|lra].
      replace (nn 2 ws) with (nn 2 (fun i => line2 (b_real M) (b_real C) i + line2 0 (b_real z) i)); [apply nn_triangle|].
      rewrite !nn_two. unfold ws. cbn [line2]. f_equal. ring. }
    assert (N2 : nn 2 (fun i => ws i - val [w0; w1] i) <= 3145731).
    { apply Rle_trans with (nn 2 (fun i => line2 (b_real M) (b_real C) i - val [w0; w1] i) + nn 2 (line2 0 (b_real z))); [|lra].
      replace (nn 2 (fun i => ws i - val [w0; w1] i)) with (nn 2 (fun i => (line2 (b_real M) (b_real C) i - val [w0; w1] i) + line2 0 (b_real z) i)); [apply nn_triangle|].
      rewrite !nn_two. unfold ws. cbn [line2]. f_equal. ring. }
    destruct pow7_u as [P1 P2]. unfold quot. change (2 + 5)%nat with 7%nat.
    assert (Nn1 := nn_nonneg 2 ws). assert (Nn2 := nn_nonneg 2 (fun i => ws i - val [w0; w1] i)).
    apply Rle_trans with (24 * uro * 4000000 + 12 * uro).
    - apply Rplus_le_compat; [|unfold tau; lra]. apply Rmult_le_compat; lra.
    - unfold uro. simpl. lra.
  Qed.

  (** ** The assertion *)

  Lemma rmse_is (w0 w1 : f64) : prog_rmse M C [w0; w1] =
    Ret (b_sqrt (b_add (b_mul (b_sub w0 M) (b_sub w0 M)) (b_mul (b_sub w1 C) (b_sub w1 C)))).
  Proof.
    unfold prog_rmse. cbn [vget nth_error obind fsqrt fadd fpowi fsub SD64 ScalarF64].
    rewrite (muls_two _ _ _ (Pw (b_sub w0 M) 2%nat) eq_refl), (muls_two _ _ _ (Pw (b_sub w1 C) 2%nat) eq_refl). reflexivity.
  Qed.

  Lemma sub_finite (a b : f64) : within (bpow radix2 23) a -> within 1 b -> b_finite (b_sub a b) = true.
  Proof.
    intros [Fa La] [Fb Lb]. replace (b_sub a b) with (b_add a (Bopp b)) by (destruct a, b; reflexivity).
    apply (b_add_rnd a (Bopp b) (bpow radix2 24)); auto; [rewrite is_finite_Bopp; exact Fb| |apply bpow_lt; lia].
    apply rnd64_abs; [apply fmt_bpow; lia|]. eapply Rle_trans; [apply Rabs_triang|].
    replace (b_real (Bopp b)) with (- b_real b) by (unfold b_real; symmetry; apply B2R_Bopp). rewrite Rabs_Ropp. change (bpow radix2 24) with (IZR (2 ^ 24)). change (bpow radix2 23) with (IZR (2 ^ 23)) in La. simpl IZR in *. lra.
  Qed.

  Definition passes (r : f64) : bool := Bltb r (@flit f64 SD64 1 1000).

  Lemma thousandth : b_finite (@flit f64 SD64 1 1000) = true /\ b_real (@flit f64 SD64 1 1000) <= 1001 / 1000000.
  Proof.
    cbn [flit SD64 ScalarF64]. destruct (b_Z 1 ltac:(lia)) as [F1 R1]. destruct (b_Z 1000 ltac:(lia)) as [F2 R2].
    assert (Fd : b_finite (b_div (b_dyadic 1 0) (b_dyadic 1000 0)) = true) by (vm_compute; reflexivity).
    split; [exact Fd|]. destruct (b_div_error _ _ Fd) as (d & e & Dd & De & ->); [rewrite R2; lra|].
    rewrite R1, R2. destruct uro_small as [U0 U1]. assert (E := eta_uro). apply Rabs_le_inv in Dd. apply Rabs_le_inv in De.
    assert (uro <= / 100000000) by (unfold uro; simpl; lra). lra.
  Qed.

  Lemma passes_close (w0 w1 r : f64) : within (bpow radix2 23) w0 -> within (bpow radix2 23) w1 ->
    prog_rmse M C [w0; w1] = Ret r -> passes r = true -> Rabs (b_real w1 - b_real C) <= 102 / 100000.
  Proof.
    intros W0 W1 Er Ps. rewrite rmse_is in Er. injection Er as Er.
    assert (D0 := sub_finite w0 M W0 (conj FM BM)). assert (D1 := sub_finite w1 C W1 (conj FC BC)).
    set (d0 := b_sub w0 M) in *. set (d1 := b_sub w1 C) in *.
    assert (A : above r (rnd64 (sqrt (rnd64 (b_real d1 * b_real d1))))).
    { rewrite <- Er. apply b_sqrt_above; [|apply rnd64_pos, Rle_0_sqr]. apply b_add_either; [apply b_mul_self, D0|apply b_mul_self, D1|].
      right. apply b_square_above, D1. }
    destruct thousandth as [Ft Lt]. unfold passes in Ps.
    assert (Rr : b_finite r = true /\ b_real r < b_real (@flit f64 SD64 1 1000)).
    { destruct A as [->|[Fr _]].
      - exfalso. revert Ps Ft. generalize (@flit f64 SD64 1 1000). intros t Ps Ft. destruct t as [[]|[]| |[]]; discriminate.
      - split; [exact Fr|]. rewrite (Bltb_correct 53 1024 r _ Fr Ft) in Ps.
        destruct (Rlt_bool_spec (B2R r) (B2R (@flit f64 SD64 1 1000))); [auto|discriminate]. }
    destruct Rr as [Fr Lr]. destruct A as [->|[_ A]]; [discriminate|].
    assert (Q : Rabs (b_real d1) <= 1001 / 1000000).
    { destruct (Rle_lt_dec (bpow radix2 (-511)) (Rabs (b_real d1))) as [L|L].
      - pose proof (sqrt_of_square (Rabs (b_real d1)) ltac:(apply generic_format_abs, b_real_format) L) as S.
        rewrite <- Rabs_mult, (Rabs_pos_eq (b_real d1 * b_real d1)) in S by apply Rle_0_sqr. lra.
      - apply Rle_trans with (bpow radix2 (-511)); [lra|]. apply Rle_trans with (bpow radix2 (-10)); [apply bpow_le; lia|]. simpl. lra. }
    destruct (b_sub_error w1 C D1) as (_ & _ & e & De & Ed). fold d1 in Ed. rewrite Ed in Q. rewrite Rabs_mult in Q.
    destruct uro_small as [U0 U1]. assert (E1 : 1 - / 1000 <= Rabs (1 + e)).
    { apply Rabs_le_inv in De. rewrite Rabs_pos_eq; lra. }
    set (t := Rabs (b_real w1 - b_real C)) in *. assert (T0 : 0 <= t) by apply Rabs_pos.
    assert (t * (1 - / 1000) <= t * Rabs (1 + e)) by (apply Rmult_le_compat_l; auto). lra.
  Qed.

  Theorem prog_window ps (x z1 z2 : f64) w1 w2 (r1 r2 : f64) : Forall (fair 1) ps -> INR (length ps) <= bpow radix2 20 ->
    within 1 x -> within 1 z1 -> within 1 z2 ->
    prog_run M C (ps ++ [(x, z1)]) = Ret w1 -> prog_rmse M C w1 = Ret r1 -> passes r1 = true ->
    prog_run M C (ps ++ [(x, z2)]) = Ret w2 -> prog_rmse M C w2 = Ret r2 -> passes r2 = true ->
    Rabs (b_real z1 - b_real z2) < 21 / 10000.
  Proof.
    intros Fp Lk Wx Wz1 Wz2 E1 D1 P1 E2 D2 P2. destruct (prog_last ps Fp Lk) as (u0 & u1 & K).
    destruct (K x z1 Wx Wz1) as (a0 & a1 & Ea & A0 & A1 & Ka). destruct (K x z2 Wx Wz2) as (c0 & c1 & Ec & C0 & C1 & Kc).
    rewrite Ea in E1. injection E1 as <-. rewrite Ec in E2. injection E2 as <-.
    pose proof (passes_close a0 a1 r1 A0 A1 D1 P1) as Qa. pose proof (passes_close c0 c1 r2 C0 C1 D2 P2) as Qc.
    assert (T : bpow radix2 (-25) <= / 10000000) by (simpl; lra).
    apply Rabs_le_inv in Ka. apply Rabs_le_inv in Kc. apply Rabs_le_inv in Qa. apply Rabs_le_inv in Qc.
    apply Rabs_def1; lra.
  Qed.

End Doc64.

(** ** Inputs of 1, no noise *)

Lemma dots_same c n l x : dots l x -> Forall (eq (b_one, c)) l -> (length l <= n)%nat -> forall t, nth_error t 0 = Some b_zero ->
  nth_error t 1 = Some (b_mul b_one c) -> length t = S n ->
  (forall i j a b, nth_error t i = Some a -> nth_error t j = Some b -> (i + j <= n)%nat -> nth_error t (i + j) = Some (b_add a b)) ->
  (forall i a, nth_error t i = Some a -> (i < n)%nat -> nth_error t (S i) = Some (b_fma b_one c a)) ->
  nth_error t (length l) = Some x.
Proof.
  intros A. induction A as [|a b|l1 l a b x A IA Pm|l1 l2 l x y A1 I1 A2 I2 Pm]; intros Fl L t T0 T1 Lt Cl Cf; auto.
  - inversion Fl as [|? ? E _]. injection E as <- <-. exact T1.
  - assert (Fa : Forall (eq (b_one, c)) ((a, b) :: l1)) by (rewrite Pm; exact Fl). inversion Fa as [|? ? E F1]. injection E as <- <-.
    apply Permutation_length in Pm. rewrite <- Pm. cbn [length] in *. apply Cf; [|lia]. apply IA; auto. lia.
  - assert (Fa : Forall (eq (b_one, c)) (l1 ++ l2)) by (rewrite Pm; exact Fl). apply Forall_app in Fa. destruct Fa as [F1 F2].
    apply Permutation_length in Pm. rewrite app_length in Pm. rewrite <- Pm. apply Cl; [| |lia].
    + apply I1; auto. lia.
    + apply I2; auto. lia.
Qed.

Definition half64 : f64 := b_dyadic 1 (-1).

Lemma dots_two_zeros x : dots [(b_one, b_zero); (b_one, b_zero)] x -> x = b_zero.
Proof.
  intros A. pose proof (dots_same b_zero 2 _ _ A ltac:(repeat constructor) ltac:(simpl; lia) [b_zero; b_zero; b_zero] eq_refl) as Q.
  cbn [length nth_error] in Q. symmetry. assert (T : Some b_zero = Some x); [|congruence]. apply Q; auto.
  - intros [|[|[|i]]] [|[|[|j]]] a b E1 E2 L; try (exfalso; lia); cbn in E1, E2; try discriminate; injection E1 as <-; injection E2 as <-; reflexivity.
  - intros [|[|[|i]]] a E1 L; try (exfalso; lia); cbn in E1; try discriminate; injection E1 as <-;
      cbn [nth_error]; f_equal; apply B2SF_inj; vm_compute; reflexivity.
Qed.

Lemma dots_two_halves x : dots [(b_one, half64); (b_one, half64)] x -> x = b_one.
Proof.
  intros A. pose proof (dots_same half64 2 _ _ A ltac:(repeat constructor) ltac:(simpl; lia) [b_zero; half64; b_one] eq_refl) as Q.
  cbn [length nth_error] in Q. symmetry. assert (T : Some b_one = Some x); [|congruence]. apply Q; auto.
  - cbn [nth_error]. f_equal. apply B2SF_inj. vm_compute. reflexivity.
  - intros [|[|[|i]]] [|[|[|j]]] a b E1 E2 L; try (exfalso; lia); cbn in E1, E2; try discriminate; injection E1 as <-; injection E2 as <-;
      cbn [nth_error Nat.add]; f_equal; apply B2SF_inj; vm_compute; reflexivity.
  - intros [|[|[|i]]] a E1 L; try (exfalso; lia); cbn in E1; try discriminate; injection E1 as <-;
      cbn [nth_error]; f_equal; apply B2SF_inj; vm_compute; reflexivity.
Qed.

Section Stuck.
  Context (P : Platform) (AO : any_order P) (Pw : powers P).
  Local Instance ST64 : Scalar f64 := ScalarF64 P.

  Lemma prog_one (v w M C : f64) : exists d, dots [(b_one, v); (b_one, w)] d /\
    let e := b_sub (b_add (b_add (b_mul M b_one) C) b_zero) d in
    let up := fun x => b_add x (b_mul (b_mul b_one e) b_one) in
    s_do SGD (MkLFA (prog_b P) [v; w] b_one) (prog_call M C (b_one, b_zero)) = Ret (MkLFA (prog_b P) [up v; up w] b_one).
  Proof.
    exists (p_dot P [b_one; b_one] [v; w]). split; [apply (proj2 AO [b_one; b_one] [v; w] eq_refl)|].
    cbv zeta. unfold prog_call, s_do, s_update_with. cbn [lfa_basis lfa_weights lfa_optimiser].
    rewrite (prog_project P Pw). reflexivity.
  Qed.

  Definition M64 : f64 := b_one.
  Definition C64 : f64 := b_dyadic (-1) (-1).

  Lemma out_and_back : exists a, s_do SGD (MkLFA (prog_b P) [b_zero; b_zero] b_one) (prog_call M64 C64 (b_one, b_zero)) = Ret a /\
    s_do SGD a (prog_call M64 C64 (b_one, b_zero)) = Ret (MkLFA (prog_b P) [b_zero; b_zero] b_one).
  Proof.
    destruct (prog_one b_zero b_zero M64 C64) as (d & A & E).
    apply dots_two_zeros in A. subst d. cbv zeta in E. eexists. split; [exact E|].
    cbv beta. set (q := b_add b_zero _). replace q with half64 by (apply B2SF_inj; vm_compute; reflexivity). clear q.
    destruct (prog_one half64 half64 M64 C64) as (d & A & E').
    apply dots_two_halves in A. subst d. cbv zeta in E'.
    eapply eq_trans; [exact E'|]. cbv beta. set (q := b_add half64 _).
    replace q with b_zero by (apply B2SF_inj; vm_compute; reflexivity). reflexivity.
  Qed.

  Lemma stuck n : prog_run M64 C64 (repeat (b_one, b_zero) (n + n)) = Ret [b_zero; b_zero].
  Proof.
    unfold prog_run. pose proof (start_is P) as St. change (SD64 P) with ST64 in St. rewrite St. cbn [obind]. unfold s_run.
    assert (Q : ofold (s_do SGD) (map (prog_call M64 C64) (repeat (b_one, b_zero) (n + n))) (MkLFA (prog_b P) [b_zero; b_zero] b_one) =
      Ret (MkLFA (prog_b P) [b_zero; b_zero] b_one)); [|rewrite Q; reflexivity].
    induction n as [|n IH]; [reflexivity|].
    replace (S n + S n)%nat with (S (S (n + n))) by lia. cbn [repeat map ofold].
    destruct out_and_back as (a & E1 & E2). rewrite E1. cbn [obind]. rewrite E2. exact IH.
  Qed.

  Lemma stuck_fails : exists r, prog_rmse M64 C64 [b_zero; b_zero] = Ret r /\ passes P r = false.
  Proof.
    eexists. split; [exact (rmse_is P Pw M64 C64 b_zero b_zero)|]. vm_compute. reflexivity.
  Qed.
End Stuck.
