(** C77: training in binary64 follows the exact rule. Proofs are in SgdF64.v,
    SgdRun64.v and SgdFinite64.v. *)
From Coq Require Import List Arith ZArith Lia Reals Lra Bool.
From Flocq Require Import Core.Core IEEE754.BinarySingleNaN.
From Verif Require Import Base Scalar ScalarR ScalarF64 F64Facts HMap NdArray VecFacts Features Spec FeatureFacts
  SumOrder NormF64 BoundF64 Optim OptimSpec Lfa LfaSpec Basis TableF64 SgdF64 SgdRun64 SgdFinite64.
Import ListNotations.
Local Open Scope R_scope.

(** ** C77 *)

(** Fitting a sample, in exact arithmetic, moves the weights by [lr] times the
    error times the features. In binary64, if the new weights are finite, it does
    so up to a vector whose length is at most [3 ((1 + 2^-53)^(n+5) - 1)] times
    the lengths involved plus what the sample leaves unexplained. *)
Theorem C77_step : forall P I (b : Basis f64 I) n lr ws tau p w, let S := ScalarF64 P in
  any_order P -> 0 <= b_real lr -> length w = n ->
  (exists phi, b_project b (fst p) = Ret (Ok phi) /\ wf phi /\ size phi = n) ->
  b_real lr * (nn n (acts b p) * nn n (acts b p)) <= 2 ->
  rest n (b_real lr) (nn n (acts b p)) (b_real (snd p) - sigma n (fun i => acts b p i * ws i)) <= tau ->
  exists w', length w' = n /\
    s_do SGD (MkLFA b w lr) (SUpdateWith (fst p) (fun _ v => fsub (snd p) v)) = Ret (MkLFA b w' lr) /\
    (finite_all w' -> finite_all w /\
     nn n (fun i => val w' i - (val w i + b_real lr * sigma n (fun i => acts b p i * (ws i - val w i)) * acts b p i)) <=
     3 * ((1 + bpow radix2 (-53)) ^ (n + 5) - 1) * (nn n (fun i => ws i - val w i) + nn n ws) + tau).
Proof.
  intros P I b n lr ws tau p w S AO L0 Lw Pr En Re.
  exact (fit_defined P AO b n lr ws 2 tau L0 (Rle_refl 2) w p (conj Pr (conj En Re)) Lw).
Qed.
Print Assumptions C77_step.

(** Whatever weights [ws] are taken as the reference, a run of [k] samples ends
    at most a little further from them than it started. *)
Theorem C77_drift : forall P I (b : Basis f64 I) n lr ws tau h w, let S := ScalarF64 P in
  any_order P -> 0 <= b_real lr -> 0 <= tau -> length w = n -> Forall (mild b n lr ws 2 tau) h ->
  exists w', s_run SGD (map (fun p => SUpdateWith (fst p) (fun _ v => fsub (snd p) v)) h) (MkLFA b w lr) = Ret (MkLFA b w' lr) /\
    length w' = n /\
    (finite_all w' -> let q := 3 * ((1 + bpow radix2 (-53)) ^ (n + 5) - 1) in let k := length h in
      nn n (fun i => ws i - val w' i) <= (1 + q) ^ k * (nn n (fun i => ws i - val w i) + INR k * (q * nn n ws + tau))).
Proof. exact @drift64. Qed.
Print Assumptions C77_drift.

(** On the way it misses the reference's predictions by no more than that. *)
Theorem C77_regret : forall P I (b : Basis f64 I) n lr ws r tau h w, let S := ScalarF64 P in
  any_order P -> 0 <= b_real lr -> r <= 2 -> 0 <= tau -> length w = n -> Forall (mild b n lr ws r tau) h ->
  exists W, (forall t, (t <= length h)%nat ->
      s_run SGD (map (fun p => SUpdateWith (fst p) (fun _ v => fsub (snd p) v)) (firstn t h)) (MkLFA b w lr) = Ret (MkLFA b (W t) lr)) /\
    (finite_all (W (length h)) ->
      let k := length h in let q := 3 * ((1 + bpow radix2 (-53)) ^ (n + 5) - 1) in let d := nn n (fun i => ws i - val w i) in
      let D := (1 + q) ^ k * (d + INR k * (q * nn n ws + tau)) in let v := q * (D + nn n ws) + tau in
      b_real lr * (2 - r) * sigma k (fun t => let g := sigma n (fun i => feats b h t i * (ws i - val (W t) i)) in g * g) <=
      d * d + INR k * (v * (2 * D + v))).
Proof. exact @regret64. Qed.
Print Assumptions C77_regret.

(** One sample over and over: the gap shrinks geometrically down to the noise. *)
Theorem C77_repeat : forall P I (b : Basis f64 I) n lr ws tau p k w, let S := ScalarF64 P in
  any_order P -> 0 <= b_real lr -> 0 <= tau -> length w = n -> mild b n lr ws 2 tau p ->
  exists w', s_run SGD (map (fun p => SUpdateWith (fst p) (fun _ v => fsub (snd p) v)) (repeat p k)) (MkLFA b w lr) = Ret (MkLFA b w' lr) /\
    (finite_all w' ->
      let f := nn n (acts b p) in let q := 3 * ((1 + bpow radix2 (-53)) ^ (n + 5) - 1) in let d := nn n (fun i => ws i - val w i) in
      let D := (1 + q) ^ k * (d + INR k * (q * nn n ws + tau)) in let v := q * (D + nn n ws) + tau in
      let rho := Rabs (1 - b_real lr * (f * f)) in rho < 1 ->
      Rabs (sigma n (fun i => acts b p i * (ws i - val w' i))) <=
        rho ^ k * Rabs (sigma n (fun i => acts b p i * (ws i - val w i))) + f * v / (1 - rho)).
Proof. exact @repeat64. Qed.
Print Assumptions C77_repeat.

(** With moderate numbers and fewer than 2^49 products altogether nothing
    overflows, and the growth is at most [e = k (n + 5) 2^-51]. *)
Theorem C77_stable : forall P I (b : Basis f64 I) n lr ws tau h w, let S := ScalarF64 P in
  any_order P -> 0 <= b_real lr -> within (bpow radix2 200) lr -> 0 <= tau -> length w = n -> finite_all w ->
  Forall (tame b n lr ws tau) h -> INR (length h) * INR (n + 5) <= bpow radix2 49 ->
  nn n (fun i => ws i - val w i) + nn n ws + INR (length h) * tau <= bpow radix2 199 ->
  exists w', s_run SGD (map (fun p => SUpdateWith (fst p) (fun _ v => fsub (snd p) v)) h) (MkLFA b w lr) = Ret (MkLFA b w' lr) /\
    length w' = n /\ finite_all w' /\
    let e := INR (length h) * INR (n + 5) * bpow radix2 (-51) in
      nn n (fun i => ws i - val w' i) <= (1 + e) * nn n (fun i => ws i - val w i) + e * nn n ws + 5 / 4 * (INR (length h) * tau).
Proof. exact @stable64. Qed.
Print Assumptions C77_stable.

(** What it answers differs from the reference's answer by the distance of the
    weights and the rounding of one product. *)
Theorem C77_predict : forall P I T (b : Basis f64 I) n (lr : T) ws (w : list f64) x phi, let S := ScalarF64 P in
  any_order P -> b_project b x = Ret (Ok phi) -> wf phi -> size phi = n -> length w = n ->
  exists v, s_evaluate (MkLFA b w lr) x = Ret (Ok v) /\
    (b_finite v = true ->
      let d := nn n (fun i => ws i - val w i) in let f := nn n (coeff64 phi) in
      Rabs (b_real v - sigma n (fun i => coeff64 phi i * ws i)) <=
        f * d + ((1 + bpow radix2 (-53)) ^ (n + 5) - 1) * (f * (d + nn n ws) + INR n * eta64) + INR n * eta64).
Proof. exact @predict64. Qed.
Print Assumptions C77_predict.

(** A line [1 + 2 x] through two points. *)
Definition line : Basis f64 f64 := MkBasis 2 (fun x => Ret (Ok (Dense [b_one; x]))).
Definition half : f64 := b_dyadic 1 (-1).
Definition points : list (f64 * f64) := [(half, b_dyadic 1 1); (b_one, b_dyadic 3 0)].
Definition slope (i : nat) : R := match i with O => 1 | _ => 2 end.

Lemma half_real : b_real half = / 2.
Proof. exact (proj2 (b_pow2 (-1) ltac:(lia))). Qed.
Lemma one_real : b_real b_one = 1.
Proof. exact (proj2 (b_pow2 0 ltac:(lia))). Qed.
Lemma two_real : b_real (b_dyadic 1 1) = 2.
Proof. exact (proj2 (b_pow2 1 ltac:(lia))). Qed.
Lemma three_real : b_real (b_dyadic 3 0) = 3.
Proof. unfold b_real. vm_compute. lra. Qed.

Lemma acts_half : forall y i, acts line (half, y) i = match i with O => 1 | S O => / 2 | _ => 0 end.
Proof.
  intros y [|[|i]]; unfold acts, line; cbn [b_project fst coeff64 nth]; [exact one_real|exact half_real|].
  destruct i; reflexivity.
Qed.

Lemma acts_one : forall y i, acts line (b_one, y) i = match i with O => 1 | S O => 1 | _ => 0 end.
Proof.
  intros y [|[|i]]; unfold acts, line; cbn [b_project fst coeff64 nth]; [exact one_real|exact one_real|].
  destruct i; reflexivity.
Qed.

Lemma nn_2 x a : x 0%nat * x 0%nat + x 1%nat * x 1%nat <= a * a -> 0 <= a -> nn 2 x <= a.
Proof.
  intros L A. rewrite <- (sqrt_Rsqr a) by exact A. apply sqrt_le_1_alt. unfold sigma. simpl. unfold Rsqr. lra.
Qed.

Lemma pow7 : (1 + uro) ^ 7 <= 2.
Proof.
  pose proof (pow_small uro 7 ltac:(pose proof uro_pos; lra)) as S. pose proof (pow_1_uro 7) as P1. set (p := (1 + uro) ^ 7) in *.
  assert (uro <= / 100) by (unfold uro; simpl; lra). simpl INR in S. nra.
Qed.

Lemma points_tame : Forall (tame line 2 half slope (bpow radix2 (-1000))) points.
Proof.
  assert (Y : forall y, b_finite y = true -> Rabs (b_real y) <= 3 -> within (bpow radix2 400) y).
  { intros y F L. split; auto. apply Rle_trans with (bpow radix2 2); [simpl; lra|apply bpow_le; lia]. }
  assert (R : forall f, 0 <= f <= 2 -> rest 2 (b_real half) f 0 <= bpow radix2 (-1000)).
  { intros f [F0 F2]. unfold rest. rewrite half_real, Rabs_R0. change (2 + 5)%nat with 7%nat. pose proof pow7 as P7. pose proof (pow_1_uro 7). simpl INR.
    assert (E : eta64 * 16 <= bpow radix2 (-1000)).
    { unfold eta64. change 16 with (bpow radix2 4). rewrite <- bpow_plus. apply bpow_le. lia. }
    pose proof eta64_pos. apply Rle_trans with (2 * (eta64 * 8)); [|lra]. apply Rmult_le_compat; try lra.
    - apply Rplus_le_le_0_compat; [lra|]. apply Rmult_le_pos; lra.
    - rewrite Rmult_0_r, Rplus_0_l. apply Rmult_le_compat_l; lra. }
  assert (W : forall x : f64, exists phi, b_project line x = Ret (Ok phi) /\ wf phi /\ size phi = 2%nat).
  { intros x. exists (Dense [b_one; x]). split; [reflexivity|]. split; [apply wf_dense|reflexivity]. }
  assert (Fi : forall x : f64, b_finite x = true -> forall phi, b_project line x = Ret (Ok phi) -> finite_features phi).
  { intros x Fx phi E. injection E as <-. intros [|[|i]] v St; cbn [stores nth_error] in St; [now injection St as <-|now injection St as <-|].
    destruct i; discriminate. }
  assert (N : forall y x, nn 2 (acts line (x, y)) <= 2 -> nn 2 (acts line (x, y)) <= bpow radix2 200).
  { intros y x L. eapply Rle_trans; [exact L|]. change 2 with (bpow radix2 1). apply bpow_le. lia. }
  assert (H2 : nn 2 (acts line (half, b_dyadic 1 1)) <= 2) by (apply nn_2; rewrite ?acts_half; lra).
  assert (O2 : nn 2 (acts line (b_one, b_dyadic 3 0)) <= 2) by (apply nn_2; rewrite ?acts_one; lra).
  constructor; [|constructor; [|constructor]].
  - split; [split; [apply W|split]|split; [apply (Fi half); reflexivity|split; [now apply N|]]].
    + rewrite half_real. pose proof (nn_nonneg 2 (acts line (half, b_dyadic 1 1))). nra.
    + unfold misfit. cbn [snd]. replace (_ - _) with 0; [apply R; split; [apply nn_nonneg|exact H2]|].
      rewrite two_real. unfold sigma. cbn [seq map rsum fold_right slope]. rewrite !acts_half. lra.
    + apply Y; [reflexivity|]. cbn [snd]. rewrite two_real, Rabs_pos_eq; lra.
  - split; [split; [apply W|split]|split; [apply (Fi b_one); reflexivity|split; [now apply N|]]].
    + rewrite half_real. pose proof (nn_nonneg 2 (acts line (b_one, b_dyadic 3 0))). nra.
    + unfold misfit. cbn [snd]. replace (_ - _) with 0; [apply R; split; [apply nn_nonneg|exact O2]|].
      rewrite three_real. unfold sigma. cbn [seq map rsum fold_right slope]. rewrite !acts_one. lra.
    + apply Y; [reflexivity|]. cbn [snd]. rewrite three_real, Rabs_pos_eq; lra.
Qed.

(** Up to 2^43 passes over the two points, from zero, on any platform: the
    weights stay within 4 of the line's. *)
Example C77_case : forall P k, let S := ScalarF64 P in any_order P -> INR k <= bpow radix2 43 ->
  exists w', s_run SGD (map (fun p => SUpdateWith (fst p) (fun _ v => fsub (snd p) v)) (concat (repeat points k)))
      (MkLFA line [b_zero; b_zero] half) = Ret (MkLFA line w' half) /\ finite_all w' /\ nn 2 (fun i => slope i - val w' i) <= 4.
Proof.
  intros P k S AO Lk. set (h := concat (repeat points k)).
  assert (Ta : Forall (tame line 2 half slope (bpow radix2 (-1000))) h).
  { unfold h. induction k as [|k IH]; [constructor|]. cbn [repeat concat]. apply Forall_app. split; [apply points_tame|].
    apply IH. rewrite S_INR in Lk. lra. }
  assert (Lh : INR (length h) = 2 * INR k).
  { unfold h. clear. induction k as [|k IH]; [simpl; lra|]. cbn [repeat concat]. rewrite app_length, plus_INR, S_INR, IH. simpl. lra. }
  assert (K0 : 0 <= INR k) by apply pos_INR.
  assert (D0 : nn 2 (fun i => slope i - val [b_zero; b_zero] i) <= 9 / 4).
  { apply nn_2; unfold val; cbn [nth slope]; change (b_real b_zero) with 0; lra. }
  assert (W0 : nn 2 slope <= 9 / 4) by (apply nn_2; cbn [slope]; lra).
  assert (Kt : INR (length h) * bpow radix2 (-1000) <= / 8).
  { rewrite Lh. apply Rle_trans with (bpow radix2 44 * bpow radix2 (-1000)).
    - apply Rmult_le_compat_r; [apply bpow_ge_0|]. change 44%Z with (1 + 43)%Z. rewrite bpow_plus. change (bpow radix2 1) with 2. lra.
    - rewrite <- bpow_plus. change (/ 8) with (bpow radix2 (-3)). apply bpow_le. lia. }
  assert (K7 : INR (length h) * INR (2 + 5) <= bpow radix2 47).
  { rewrite Lh. change 47%Z with (4 + 43)%Z. rewrite bpow_plus. change (bpow radix2 4) with 16. simpl INR. lra. }
  destruct (C77_stable P f64 line 2 half slope (bpow radix2 (-1000)) h [b_zero; b_zero]) as (w' & E & L & F & B); auto.
  - rewrite half_real. lra.
  - split; [reflexivity|]. rewrite half_real, Rabs_pos_eq by lra. apply Rle_trans with (bpow radix2 0); [simpl; lra|apply bpow_le; lia].
  - apply bpow_ge_0.
  - repeat constructor.
  - eapply Rle_trans; [exact K7|]. apply bpow_le. lia.
  - apply Rle_trans with (bpow radix2 3); [change (bpow radix2 3) with 8; lra|apply bpow_le; lia].
  - exists w'. split; [exact E|]. split; [exact F|]. cbv zeta in B.
    set (e := INR (length h) * INR (2 + 5) * bpow radix2 (-51)) in *.
    assert (E4 : 0 <= e <= / 16).
    { unfold e. split; [repeat apply Rmult_le_pos; try apply pos_INR; apply bpow_ge_0|].
      apply Rle_trans with (bpow radix2 47 * bpow radix2 (-51)); [apply Rmult_le_compat_r; [apply bpow_ge_0|exact K7]|].
      rewrite <- bpow_plus. change (bpow radix2 (47 + -51)) with (/ 16). lra. }
    pose proof (nn_nonneg 2 slope). pose proof (nn_nonneg 2 (fun i => slope i - val [b_zero; b_zero] i)).
    eapply Rle_trans; [exact B|]. nra.
Qed.
Print Assumptions C77_case.

(** A step may really move away, even on a sample the reference explains exactly:
    feature 5.0, target 5.0, rate 1/16, weight 1 - 2^-53. *)
Definition five : Basis f64 unit :=
  MkBasis 1 (fun _ => Ret (Ok (Sparse (MkSparse 1 [(0%nat, b_dyadic 5 0)])))).
Theorem C77_nearer_refuted : forall P, let S := ScalarF64 P in exists (w w' : f64),
  s_run SGD [SUpdateWith tt (fun _ v => fsub (b_dyadic 5 0) v)] (MkLFA five [w] (b_dyadic 1 (-4))) =
    Ret (MkLFA five [w'] (b_dyadic 1 (-4))) /\
  b_real (b_dyadic 1 (-4)) * (5 * 5) < 2 /\ Rabs (1 - b_real w') = 2 * Rabs (1 - b_real w) /\ 0 < Rabs (1 - b_real w).
Proof.
  intros P S. exists (b_dyadic (2 ^ 53 - 1) (-53)), (b_dyadic (2 ^ 52 + 1) (-52)). split; [|split].
  - transitivity (Ret (MkLFA five [b_add (b_dyadic (2 ^ 53 - 1) (-53)) (b_mul (b_mul (b_dyadic 1 (-4)) (b_sub (b_dyadic 5 0)
      (b_add (@fzero f64 S) (b_mul (b_dyadic (2 ^ 53 - 1) (-53)) (b_dyadic 5 0))))) (b_dyadic 5 0))] (b_dyadic 1 (-4)))); [reflexivity|].
    unfold S. rewrite fzero_f64. do 3 f_equal. apply B2SF_inj. vm_compute. reflexivity.
  - rewrite (proj2 (b_pow2 (-4) ltac:(lia))). simpl. lra.
  - replace (b_real (b_dyadic (2 ^ 53 - 1) (-53))) with (1 - / 9007199254740992) by (vm_compute; lra).
    replace (b_real (b_dyadic (2 ^ 52 + 1) (-52))) with (1 + / 4503599627370496) by (vm_compute; lra).
    split; [|rewrite Rabs_pos_eq; lra]. rewrite Rabs_left, Rabs_pos_eq by lra. lra.
Qed.
Print Assumptions C77_nearer_refuted.
