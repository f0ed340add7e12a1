(** C97: infinite and NaN weights. Proofs are in Poison.v.

    [lost NotFinite x]: [x] is infinite or NaN; [lost NotANumber x]: [x] is NaN.
    [stored phi i]: feature [i] has an activation in [phi], whatever its value. *)
From Coq Require Import List Arith ZArith Lia Bool.
From Flocq Require Import Core.Core IEEE754.BinarySingleNaN.
From Verif Require Import Base Scalar ScalarF64 F64Facts HMap NdArray VecFacts Features Spec FeatureFacts
  Optim OptimSpec OptimFacts Lfa LfaSpec LfaFacts SumOrder Near64 Poison.
Import ListNotations.

(** ** C97 *)

(** With every optimiser, on every platform, and whatever is called: an infinite
    weight never becomes finite again and a NaN stays NaN. *)
Theorem C97_stays : forall P I (b : Basis f64 I) w o cs a, let S := ScalarF64 P in
  s_run LibOptimiser cs (MkLFA b w o) = Ret a ->
  length (lfa_weights a) = length w /\
  forall k i x, nth_error w i = Some x -> lost k x -> exists y, nth_error (lfa_weights a) i = Some y /\ lost k y.
Proof.
  intros P I b w o cs a S E. pose proof (keeps_run P NotFinite cs _ _ E) as [_ [L _]]. split; [exact L|].
  intros k. exact (proj2 (proj2 (keeps_run P k cs _ _ E))).
Qed.
Print Assumptions C97_stays.

(** Every prediction that reads such a weight is lost in the same way, even if the
    activation is 0. *)
Theorem C97_predicts : forall P I k (b : Basis f64 I) w (o : lib_opt f64) x phi i q r, let S := ScalarF64 P in
  any_order P -> b_project b x = Ret (Ok phi) -> stored phi i -> nth_error w i = Some q -> lost k q ->
  s_evaluate (MkLFA b w o) x = Ret r -> exists v, r = Ok v /\ lost k v.
Proof. intros P I k b w o x phi i q r S. exact (lost_evaluate P k (MkLFA b w o) x phi i q r). Qed.
Print Assumptions C97_predicts.

(** An infinite or NaN error loses every weight whose feature is stored; with
    Adagrad, every weight there is. *)
Theorem C97_error : forall P I k (b : Basis f64 I) n w o x phi e, let S := ScalarF64 P in
  b_project b x = Ret (Ok phi) -> sized n phi -> length w = n -> opt_sized n o -> lost k e ->
  exists w' o', s_do LibOptimiser (MkLFA b w o) (SUpdate x e) = Ret (MkLFA b w' o') /\ length w' = n /\ opt_sized n o' /\
    forall i, i < n -> (stored phi i \/ exists s, o = LAdagrad s) -> exists q, nth_error w' i = Some q /\ lost k q.
Proof.
  intros P I k b n w o x phi e S Pr Z L OS B. destruct (lost_update P k b n w o x phi e Pr Z L OS B) as (w' & o' & E & L' & OS' & H).
  exists w', o'. splits; auto. intros i Li Hi. apply H; [exact Li|]. destruct Hi as [Hi|[s ->]]; [destruct o; cbn; auto|exact Logic.I].
Qed.
Print Assumptions C97_error.

(** So does fitting a sample whose target is lost, or whose features reach a lost
    weight: one weight is enough to lose all that are in use with it. *)
Theorem C97_spreads : forall P I k (b : Basis f64 I) n w o x phi y, let S := ScalarF64 P in
  any_order P -> b_project b x = Ret (Ok phi) -> sized n phi -> length w = n -> opt_sized n o ->
  (lost k y \/ exists i v, stored phi i /\ nth_error w i = Some v /\ lost k v) ->
  exists w' o', s_do LibOptimiser (MkLFA b w o) (SUpdateWith x (fun _ v => fsub y v)) = Ret (MkLFA b w' o') /\ length w' = n /\ opt_sized n o' /\
    forall i, i < n -> (stored phi i \/ exists s, o = LAdagrad s) -> exists q, nth_error w' i = Some q /\ lost k q.
Proof.
  intros P I k b n w o x phi y S AO Pr Z L OS B. destruct (lost_fit P k b n w o x phi y AO Pr Z L OS B) as (w' & o' & E & L' & OS' & H).
  exists w', o'. splits; auto. intros i Li Hi. apply H; [exact Li|]. destruct Hi as [Hi|[s ->]]; [destruct o; cbn; auto|exact Logic.I].
Qed.
Print Assumptions C97_spreads.

(** After one lost error no later call brings back a prediction on features shared
    with that input; on a dense basis, none at all. *)
Theorem C97_for_ever : forall P I k (b : Basis f64 I) n w o x phi e cs a, let S := ScalarF64 P in
  any_order P -> b_project b x = Ret (Ok phi) -> sized n phi -> length w = n -> opt_sized n o -> lost k e ->
  s_run LibOptimiser (SUpdate x e :: cs) (MkLFA b w o) = Ret a ->
  forall z psi i r, b_project b z = Ret (Ok psi) -> sized n psi -> stored psi i -> (stored phi i \/ exists s, o = LAdagrad s) ->
    s_evaluate a z = Ret r -> exists v, r = Ok v /\ lost k v.
Proof.
  intros P I k b n w o x phi e cs a S AO Pr Z L OS B Ru z psi i r Pz Zz St Hi.
  apply (lost_for_ever P k b n w o x phi e cs a AO Pr Z L OS B Ru z psi i r Pz Zz St).
  destruct Hi as [Hi|[s ->]]; [destruct o; cbn; auto|exact Logic.I].
Qed.
Print Assumptions C97_for_ever.

(** Except with Adagrad, the step leaves the same weights at the other features
    whatever the error is. *)
Theorem C97_contained : forall P o w phi e e' n, let S := ScalarF64 P in
  sized n phi -> length w = n -> opt_sized n o -> (forall s, o <> LAdagrad s) ->
  exists o1 w1 o2 w2, lib_step_scaled o w phi e = Ret (o1, w1, Ok tt) /\ lib_step_scaled o w phi e' = Ret (o2, w2, Ok tt) /\
    forall i, ~ stored phi i -> nth_error w1 i = nth_error w2 i.
Proof. exact contained. Qed.
Print Assumptions C97_contained.

(** Not claimed: that an error touches only the features in use. With Adagrad an
    infinite error at one sparse feature makes every other weight NaN: the loop runs
    over all accumulators and computes 0 times the error. *)
Theorem C97_contained_refuted : forall P lr, let S := ScalarF64 P in
  exists o w, lib_step_scaled (LAdagrad (adagrad_new 2 lr)) [b_zero; b_zero] (Sparse (MkSparse 2 [(0, b_one)])) b_inf = Ret (o, w, Ok tt) /\
    ~ stored (Sparse (MkSparse 2 [(0, b_one)])) 1 /\ nth_error w 1 = Some b_nan.
Proof.
  intros P lr S.
  assert (Z : @sized f64 2 (Sparse (MkSparse 2 [(0, b_one)]))).
  { split; [split|reflexivity]; [repeat constructor; simpl; tauto|]. intros i [v [E|[]]]. injection E as <- <-. cbn. lia. }
  cbn [lib_step_scaled o_step_scaled Adagrad]. unfold lift_step, adagrad_step_scaled. cbn [adagrad_new ag_lr ag_acc zeros repeat sa_acts adagrad_sparse vupd obind].
  eexists _, _. split; [reflexivity|]. split; [intros [v [E|[]]]; discriminate E|]. cbn [nth_error]. f_equal.
  apply (lost_add NotANumber). right. apply (lost_div NotANumber), (lost_mul NotANumber). right. apply B2SF_inj. vm_compute. reflexivity.
Qed.
Print Assumptions C97_contained_refuted.

(** Not claimed: that outputs of a vector approximator fail separately. All but
    SGD and ISGD share what they remember: after one NaN error for output [j],
    whatever is called in between, the next update of any output [j'] makes its
    weights NaN at all features it shares with that error. *)
Theorem C97_outputs_refuted : forall P I (v v1 v2 v3 : VectorLFA f64 I (lib_opt f64)) n x phi j c cs z psi j' c' e r r',
  let S := ScalarF64 P in powers P ->
  (forall lr, lfa_optimiser v <> LSGD lr) -> (forall lr, lfa_optimiser v <> LISGD lr) ->
  opt_sized n (lfa_optimiser v) -> matrix_ok (lfa_weights v) -> nrows (lfa_weights v) = n ->
  b_project (lfa_basis v) x = Ret (Ok phi) -> sized n phi -> b_project (lfa_basis v) z = Ret (Ok psi) -> sized n psi ->
  column (lfa_weights v) j = Ret c -> v_update_index LibOptimiser v x j b_nan = Ret (v1, r) -> v_run LibOptimiser cs v1 = Ret v2 ->
  v_update_index LibOptimiser v2 z j' e = Ret (v3, r') -> column (lfa_weights v3) j' = Ret c' ->
  forall i, stored phi i -> stored psi i -> nth_error c' i = Some b_nan.
Proof.
  intros P I v v1 v2 v3 n x phi j c cs z psi j' c' e r r' S Pw N1 N2. apply nan_shared; auto.
  destruct (lfa_optimiser v) as [lr|lr|s|s|s|s|s]; try exact Logic.I; [apply (N1 lr)|apply (N2 lr)]; reflexivity.
Qed.
Print Assumptions C97_outputs_refuted.

(** Two dense features, SGD with rate 1: an infinite error gives infinite weights;
    a finite sample then gives NaN; and the second output of a vector approximator
    with momentum follows the first. *)
Definition pair_basis : Basis f64 unit := MkBasis 2 (fun _ => Ret (Ok (Dense [b_one; b_one]))).
Example C97_case : let S := ScalarF64 SimplePlatform in any_order SimplePlatform /\ powers SimplePlatform /\
  sized 2 (Dense [b_one; b_one]) /\ lost NotFinite b_inf /\ ~ lost NotANumber b_inf /\
  s_run LibOptimiser [SUpdate tt b_inf] (MkLFA pair_basis [b_one; b_zero] (LSGD b_one)) = Ret (MkLFA pair_basis [b_inf; b_inf] (LSGD b_one)) /\
  s_run LibOptimiser [SUpdate tt b_inf; SUpdateWith tt (fun _ v => fsub b_one v)] (MkLFA pair_basis [b_one; b_zero] (LSGD b_one)) =
    Ret (MkLFA pair_basis [b_nan; b_nan] (LSGD b_one)) /\
  v_run LibOptimiser [VUpdateIndex tt 0 b_nan; VUpdateIndex tt 1 b_one]
      (MkLFA pair_basis (MkMatrix [[b_one; b_zero]; [b_zero; b_one]] 2) (LMomentum (momentum_new 2 b_zero b_one))) =
    Ret (MkLFA pair_basis (MkMatrix [[b_nan; b_nan]; [b_nan; b_nan]] 2) (LMomentum (MkMomentum b_zero b_one [b_nan; b_nan]))).
Proof.
  cbv zeta. splits; try apply simple_any_order; try apply simple_powers; try (split; [apply wf_dense|reflexivity]); try reflexivity.
  - discriminate.
Qed.
