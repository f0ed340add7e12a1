(** C84: ISGD in binary64 is stable at any learning rate. Proofs are in IsgdF64.v
    and IsgdRun64.v. *)
From Coq Require Import List Arith ZArith Lia Reals Lra Bool.
From Flocq Require Import Core.Core IEEE754.BinarySingleNaN.
From Verif Require Import Base Scalar ScalarR ScalarF64 F64Facts HMap NdArray VecFacts Features Spec FeatureFacts
  SumOrder NormF64 BoundF64 Optim OptimSpec Lfa LfaSpec Basis TableF64 SgdF64 SgdRun64 SgdFinite64 IsgdF64 IsgdRun64 PropTrain64.
Import ListNotations.
Local Open Scope R_scope.

(** ** C84 *)

(** In exact arithmetic the rate times the squared length of the features is at
    most 1: the step cannot overshoot. In binary64 it is at most 5/4, for any
    positive learning rate and any finite features, however large or small. *)
Theorem C84_energy : forall P (lr : f64) (phi : Features f64),
  wf phi -> finite_features phi -> b_finite lr = true -> 0 < b_real lr -> INR (size phi + 5) <= bpow radix2 49 ->
  let rate := b_real (@isgd_compute_lr f64 (ScalarF64 P) lr phi) in
  0 <= rate <= b_real lr /\ rate * sigma (size phi) (fun i => coeff64 phi i * coeff64 phi i) <= 5 / 4.
Proof.
  intros P lr phi W Ff Fl Pl N. destruct (rate64_energy P lr phi W Ff Fl Pl N) as (_ & A & B). rewrite nn_sqr in B. split; [exact A|exact B].
Qed.
Print Assumptions C84_energy.

(** For numbers of moderate size it is the exact value [s / (1 + s)] up to
    [(n + 5) 2^-52]. *)
Theorem C84_rate : forall P (lr : f64) (phi : Features f64),
  wf phi -> finite_features phi -> within (bpow radix2 200) lr -> 0 < b_real lr ->
  INR (size phi + 5) <= bpow radix2 49 -> nn (size phi) (coeff64 phi) <= bpow radix2 200 ->
  let rate := b_real (@isgd_compute_lr f64 (ScalarF64 P) lr phi) in
  let Q := sigma (size phi) (fun i => coeff64 phi i * coeff64 phi i) in let s := b_real lr * Q in
  Rabs (rate * Q - s / (1 + s)) <= INR (size phi + 5) * bpow radix2 (-52).
Proof.
  intros P lr phi W Ff Wl Pl N Nf. pose proof (rate64_near P lr phi W Ff Wl Pl N Nf) as B. cbv zeta in B. rewrite nn_sqr in B. exact B.
Qed.
Print Assumptions C84_rate.

(** So no condition on the learning rate is left: whatever weights [ws] are taken
    as the reference, a run of [k] samples ends at most a little further from
    them than it started. *)
Theorem C84_drift : forall P I (b : Basis f64 I) n lr ws tau h w, let S := ScalarF64 P in
  any_order P -> b_finite lr = true -> 0 < b_real lr -> INR (n + 5) <= bpow radix2 49 -> 0 <= tau -> length w = n ->
  Forall (calm P b n lr ws tau) h ->
  exists w', s_run ISGD (map (fun p => SUpdateWith (fst p) (fun _ v => fsub (snd p) v)) h) (MkLFA b w lr) = Ret (MkLFA b w' lr) /\
    length w' = n /\
    (finite_all w' -> let q := 3 * ((1 + bpow radix2 (-53)) ^ (n + 5) - 1) in let k := length h in
      nn n (fun i => ws i - val w' i) <= (1 + q) ^ k * (nn n (fun i => ws i - val w i) + INR k * (q * nn n ws + tau))).
Proof. exact @isgd_drift64. Qed.
Print Assumptions C84_drift.

(** On the way it misses the reference's predictions by no more than that. *)
Theorem C84_regret : forall P I (b : Basis f64 I) n lr ws tau h w, let S := ScalarF64 P in
  any_order P -> b_finite lr = true -> 0 < b_real lr -> INR (n + 5) <= bpow radix2 49 -> 0 <= tau -> length w = n ->
  Forall (calm P b n lr ws tau) h ->
  exists W, (forall t, (t <= length h)%nat ->
      s_run ISGD (map (fun p => SUpdateWith (fst p) (fun _ v => fsub (snd p) v)) (firstn t h)) (MkLFA b w lr) = Ret (MkLFA b (W t) lr)) /\
    (finite_all (W (length h)) ->
      let k := length h in let q := 3 * ((1 + bpow radix2 (-53)) ^ (n + 5) - 1) in let d := nn n (fun i => ws i - val w i) in
      let D := (1 + q) ^ k * (d + INR k * (q * nn n ws + tau)) in let v := q * (D + nn n ws) + tau in
      3 / 4 * sigma k (fun t => let g := sigma n (fun i => feats b h t i * (ws i - val (W t) i)) in rates P b lr h t * (g * g)) <=
      d * d + INR k * (v * (2 * D + v))).
Proof. exact @isgd_regret64. Qed.
Print Assumptions C84_regret.

(** One sample over and over: the gap shrinks by the implicit factor, up to
    [(n + 5) 2^-52], down to the noise. *)
Theorem C84_repeat : forall P I (b : Basis f64 I) n lr ws tau p k w, let S := ScalarF64 P in
  any_order P -> 0 < b_real lr -> within (bpow radix2 200) lr -> INR (n + 5) <= bpow radix2 49 -> 0 <= tau -> length w = n ->
  steady P b n lr ws tau p ->
  exists w', s_run ISGD (map (fun p => SUpdateWith (fst p) (fun _ v => fsub (snd p) v)) (repeat p k)) (MkLFA b w lr) = Ret (MkLFA b w' lr) /\
    (finite_all w' ->
      let f := nn n (acts b p) in let q := 3 * ((1 + bpow radix2 (-53)) ^ (n + 5) - 1) in let d := nn n (fun i => ws i - val w i) in
      let D := (1 + q) ^ k * (d + INR k * (q * nn n ws + tau)) in let v := q * (D + nn n ws) + tau in
      let rho := / (1 + b_real lr * (f * f)) + INR (n + 5) * bpow radix2 (-52) in rho < 1 ->
      Rabs (sigma n (fun i => acts b p i * (ws i - val w' i))) <=
        rho ^ k * Rabs (sigma n (fun i => acts b p i * (ws i - val w i))) + f * v / (1 - rho)).
Proof. exact @isgd_repeat64. Qed.
Print Assumptions C84_repeat.

(** With moderate numbers and fewer than 2^49 products altogether nothing
    overflows, and the growth is at most [e = k (n + 5) 2^-51]. *)
Theorem C84_stable : forall P I (b : Basis f64 I) n lr ws tau h w, let S := ScalarF64 P in
  any_order P -> 0 < b_real lr -> within (bpow radix2 200) lr -> 0 <= tau -> length w = n -> finite_all w ->
  Forall (steady P b n lr ws tau) h -> INR (length h) * INR (n + 5) <= bpow radix2 49 -> INR (n + 5) <= bpow radix2 49 ->
  nn n (fun i => ws i - val w i) + nn n ws + INR (length h) * tau <= bpow radix2 199 ->
  exists w', s_run ISGD (map (fun p => SUpdateWith (fst p) (fun _ v => fsub (snd p) v)) h) (MkLFA b w lr) = Ret (MkLFA b w' lr) /\
    length w' = n /\ finite_all w' /\
    let e := INR (length h) * INR (n + 5) * bpow radix2 (-51) in
      nn n (fun i => ws i - val w' i) <= (1 + e) * nn n (fun i => ws i - val w i) + e * nn n ws + 5 / 4 * (INR (length h) * tau).
Proof. exact @isgd_stable64. Qed.
Print Assumptions C84_stable.

(** The two points of the line [1 + 2 x], at the learning rate 2^100. *)
Definition huge : f64 := b_dyadic 1 100.

Lemma huge_real : b_real huge = bpow radix2 100.
Proof. exact (proj2 (b_pow2 100 ltac:(lia))). Qed.

Lemma line_steady P (x y : f64) : b_finite x = true -> Rabs (b_real x) <= 1 -> b_finite y = true -> b_real y = 1 + 2 * b_real x ->
  steady P line 2 huge slope (bpow radix2 (-1000)) (x, y).
Proof.
  intros Fx Bx Fy Ey. assert (Hp : 0 < b_real huge) by (rewrite huge_real; apply bpow_gt_0).
  apply abs_le in Bx. set (phi := Dense [b_one; x]).
  assert (W : wf phi) by apply wf_dense.
  assert (Ff : finite_features phi).
  { intros [|[|i]] v St; cbn [stores nth_error] in St; [now injection St as <-|now injection St as <-|]. destruct i; discriminate. }
  assert (N7 : INR (size phi + 5) <= bpow radix2 49) by (apply Rle_trans with (bpow radix2 3); [simpl; lra|apply bpow_le; lia]).
  destruct (rate64_energy P huge phi W Ff eq_refl Hp N7) as (_ & Rr & En).
  assert (Nn : nn (size phi) (coeff64 phi) * nn (size phi) (coeff64 phi) = 1 + b_real x * b_real x).
  { rewrite nn_sqr. unfold sigma. cbn [size phi length seq map rsum fold_right coeff64 nth]. rewrite one_real. lra. }
  assert (Nb : 0 <= nn (size phi) (coeff64 phi) <= 2).
  { split; [apply nn_nonneg|]. apply (nn_2 (coeff64 phi)); [|lra]. cbn [phi coeff64 nth]. rewrite one_real. nra. }
  rewrite Nn in En. set (c := b_real (rate64 P huge phi)) in *. assert (X0 : 0 <= b_real x * b_real x) by apply Rle_0_sqr.
  assert (C2 : 0 <= c <= 5 / 4) by nra.
  split; [split|split].
  - exists phi. splits; auto.
  - change (acts line (x, y)) with (coeff64 phi). change (b_real (rate_at P line huge (x, y))) with c.
    replace (misfit line 2 slope (x, y)) with 0.
    2: { unfold misfit. cbn [snd]. rewrite Ey. unfold sigma. cbn [seq map rsum fold_right slope].
         change (acts line (x, y)) with (coeff64 phi). cbn [phi coeff64 nth]. rewrite one_real. lra. }
    change (size phi) with 2%nat in Nb. set (f := nn 2 (coeff64 phi)) in *.
    unfold rest. rewrite Rabs_R0. change (2 + 5)%nat with 7%nat. pose proof pow7 as P7. pose proof (pow_1_uro 7) as P1.
    change (INR 2) with (1 + 1). pose proof eta64_pos as Ep.
    assert (E : eta64 * 32 <= bpow radix2 (-1000)).
    { unfold eta64. change 32 with (bpow radix2 5). rewrite <- bpow_plus. apply bpow_le. lia. }
    assert (Cf : 0 <= c * f <= 5 / 2) by nra.
    apply Rle_trans with (2 * (eta64 * 16)); [|lra]. apply Rmult_le_compat; try lra.
    + apply Rplus_le_le_0_compat; [lra|]. apply Rmult_le_pos; lra.
    + rewrite Rmult_0_r, Rplus_0_l. apply Rmult_le_compat_l; lra.
  - change (acts line (x, y)) with (coeff64 phi). change (size phi) with 2%nat in Nb. eapply Rle_trans; [apply Nb|].
    change 2 with (bpow radix2 1). apply bpow_le. lia.
  - split; [exact Fy|]. cbn [snd]. rewrite Ey. apply Rle_trans with (bpow radix2 2); [|apply bpow_le; lia].
    change (bpow radix2 2) with 4. apply Rabs_le. lra.
Qed.

(** Up to 2^43 passes over the two points, from zero, on any platform, at that
    rate: the weights stay within 4 of the line's. *)
Example C84_case : forall P k, let S := ScalarF64 P in any_order P -> INR k <= bpow radix2 43 ->
  exists w', s_run ISGD (map (fun p => SUpdateWith (fst p) (fun _ v => fsub (snd p) v)) (concat (repeat points k)))
      (MkLFA line [b_zero; b_zero] huge) = Ret (MkLFA line w' huge) /\ finite_all w' /\ nn 2 (fun i => slope i - val w' i) <= 4.
Proof.
  intros P k S AO Lk. set (h := concat (repeat points k)).
  assert (Ta : Forall (steady P line 2 huge slope (bpow radix2 (-1000))) h).
  { unfold h. induction k as [|k IH]; [constructor|]. cbn [repeat concat]. apply Forall_app. split.
    - constructor; [|constructor; [|constructor]]; apply line_steady; try reflexivity.
      + rewrite half_real, Rabs_pos_eq; lra.
      + rewrite two_real, half_real. lra.
      + rewrite one_real, Rabs_pos_eq; lra.
      + rewrite three_real, one_real. lra.
    - apply IH. rewrite S_INR in Lk. lra. }
  assert (Lh : INR (length h) = 2 * INR k).
  { unfold h. clear. induction k as [|k IH]; [simpl; lra|]. cbn [repeat concat]. rewrite app_length, plus_INR, S_INR, IH. simpl. lra. }
  assert (K0 : 0 <= INR k) by apply pos_INR.
  assert (D0 : nn 2 (fun i => slope i - val [b_zero; b_zero] i) <= 9 / 4).
  { apply nn_2; unfold val; cbn [nth slope]; change (b_real b_zero) with 0; lra. }
  assert (W0 : nn 2 slope <= 9 / 4) by (apply nn_2; cbn [slope]; lra).
  assert (Kt : INR (length h) * bpow radix2 (-1000) <= / 8).
  { rewrite Lh. apply Rle_trans with (bpow radix2 44 * bpow radix2 (-1000)).
    - apply Rmult_le_compat_r; [apply bpow_ge_0|]. change 44%Z with (1 + 43)%Z. rewrite bpow_plus. change (bpow radix2 1) with 2. lra.
    - rewrite <- bpow_plus. change (/ 8) with (bpow radix2 (-3)). apply bpow_le. lia. }
  assert (K7 : INR (length h) * INR (2 + 5) <= bpow radix2 47).
  { rewrite Lh. change 47%Z with (4 + 43)%Z. rewrite bpow_plus. change (bpow radix2 4) with 16. simpl INR. lra. }
  destruct (C84_stable P f64 line 2 huge slope (bpow radix2 (-1000)) h [b_zero; b_zero]) as (w' & E & L & F & B); auto.
  - rewrite huge_real. apply bpow_gt_0.
  - split; [reflexivity|]. rewrite huge_real, Rabs_pos_eq by apply bpow_ge_0. apply bpow_le. lia.
  - apply bpow_ge_0.
  - repeat constructor.
  - eapply Rle_trans; [exact K7|]. apply bpow_le. lia.
  - apply Rle_trans with (bpow radix2 3); [simpl; lra|apply bpow_le; lia].
  - apply Rle_trans with (bpow radix2 3); [change (bpow radix2 3) with 8; lra|apply bpow_le; lia].
  - exists w'. split; [exact E|]. split; [exact F|]. cbv zeta in B.
    set (e := INR (length h) * INR (2 + 5) * bpow radix2 (-51)) in *.
    assert (E4 : 0 <= e <= / 16).
    { unfold e. split; [repeat apply Rmult_le_pos; try apply pos_INR; apply bpow_ge_0|].
      apply Rle_trans with (bpow radix2 47 * bpow radix2 (-51)); [apply Rmult_le_compat_r; [apply bpow_ge_0|exact K7]|].
      rewrite <- bpow_plus. change (bpow radix2 (47 + -51)) with (/ 16). lra. }
    pose proof (nn_nonneg 2 slope). pose proof (nn_nonneg 2 (fun i => slope i - val [b_zero; b_zero] i)).
    eapply Rle_trans; [exact B|]. nra.
Qed.
Print Assumptions C84_case.

(** Without the division this fails: one feature 1.0, target 1.0, weight 0.0. ISGD
    lands on 1.0, SGD at the same rate on 2^100. *)
Definition unit_cell : Basis f64 unit := MkBasis 1 (fun _ => Ret (Ok (Sparse (MkSparse 1 [(0%nat, b_one)])))).
Theorem C84_sgd_refuted : forall P, let S := ScalarF64 P in
  s_run ISGD [SUpdateWith tt (fun _ v => fsub b_one v)] (MkLFA unit_cell [b_zero] huge) = Ret (MkLFA unit_cell [b_one] huge) /\
  s_run SGD [SUpdateWith tt (fun _ v => fsub b_one v)] (MkLFA unit_cell [b_zero] huge) = Ret (MkLFA unit_cell [huge] huge).
Proof.
  intros P S. split.
  - transitivity (Ret (MkLFA unit_cell [b_add b_zero (b_mul (b_mul (@isgd_compute_lr f64 S huge (Sparse (MkSparse 1 [(0%nat, b_one)])))
      (b_sub b_one (b_add (@fzero f64 S) (b_mul b_zero b_one)))) b_one)] huge)); [reflexivity|].
    change (@isgd_compute_lr f64 S huge (Sparse (MkSparse 1 [(0%nat, b_one)]))) with (rate64 P huge (Sparse (MkSparse 1 [(0%nat, b_one)]))).
    rewrite rate64_def. unfold S. rewrite fzero_f64. do 3 f_equal. apply B2SF_inj. vm_compute. reflexivity.
  - transitivity (Ret (MkLFA unit_cell [b_add b_zero (b_mul (b_mul huge
      (b_sub b_one (b_add (@fzero f64 S) (b_mul b_zero b_one)))) b_one)] huge)); [reflexivity|].
    unfold S. rewrite fzero_f64. do 3 f_equal. apply B2SF_inj. vm_compute. reflexivity.
Qed.
Print Assumptions C84_sgd_refuted.
