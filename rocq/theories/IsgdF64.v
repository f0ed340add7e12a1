(** The learning rate ISGD computes in binary64, and runs of ISGD (C84). *)
From Coq Require Import List Arith ZArith Lia Reals Lra Bool Psatz.
From Flocq Require Import Core.Core IEEE754.BinarySingleNaN.
From Verif Require Import Base Scalar ScalarR ScalarF64 F64Facts HMap HMapFacts NdArray VecFacts Features Spec FeatureFacts FeatureMore
  BasisFacts NormReal FeatureLast SumOrder NormF64 NonnegF64 BoundF64 FeatureF64 Optim OptimSpec OptimReal OptimF64 Lfa LfaSpec Basis Passes EndToEnd TableF64
  SgdF64 SgdRun64 SgdFinite64.
Import ListNotations.
Local Open Scope R_scope.

(** ** the norm *)

Lemma sq_fold : forall l acc, fold_left (fun acc x => b_add acc (b_mul x x)) l acc = fold_left b_add (map (fun x => b_mul x x) l) acc.
Proof. induction l as [|x l IH]; intros acc; cbn [fold_left map]; auto. Qed.

(** The square of the norm, as [isgd.rs:13] computes it. *)
Definition norm64 (phi : Features f64) : f64 := fold_left b_add (map (fun x => b_mul x x) (values phi)) b_zero.

Definition rate64 (P : Platform) (lr : f64) (phi : Features f64) : f64 := @isgd_compute_lr f64 (ScalarF64 P) lr phi.

Lemma rate64_def P lr phi : rate64 P lr phi = b_div lr (b_add b_one (b_mul lr (norm64 phi))).
Proof.
  unfold rate64, isgd_compute_lr, norm64. rewrite <- sq_fold. cbv zeta.
  change (@fdiv f64 (ScalarF64 P)) with b_div. change (@fadd f64 (ScalarF64 P)) with b_add. change (@fmul f64 (ScalarF64 P)) with b_mul.
  rewrite (fone_f64 P), fzero_f64. destruct phi; reflexivity.
Qed.

Lemma norm64_pos phi : finite_features phi -> nonneg (norm64 phi).
Proof.
  intros F. unfold norm64. rewrite <- sq_fold. apply (norm_pos); [apply values_finite, F|]. right. split; [reflexivity|simpl; lra].
Qed.

Lemma map_nth_seq {A} (l : list A) x : map (fun i => nth i l x) (seq 0 (length l)) = l.
Proof.
  induction l as [|a l IH]; [reflexivity|]. cbn [length seq map nth]. f_equal. rewrite <- seq_shift, map_map. exact IH.
Qed.

Lemma find_get {F} (m : hmap F) i : hm_get m i = option_map snd (find (fun kv => Nat.eqb (fst kv) i) m).
Proof.
  induction m as [|[k v] m IH]; [reflexivity|]. cbn [hm_get find fst]. destruct (Nat.eqb k i); [reflexivity|exact IH].
Qed.

Lemma values_sigma (P : Platform) (phi : Features f64) (g : R -> R) : wf phi -> g 0 = 0 ->
  rsum (map (fun x : f64 => g (b_real x)) (values phi)) = sigma (size phi) (fun i => g (coeff64 phi i)) /\ (length (values phi) <= size phi)%nat.
Proof.
  intros [K B] Z. destruct phi as [da|[d m]]; cbn [values size sa_acts sa_dim coeff64].
  - split; [|apply le_n]. unfold sigma. f_equal. rewrite <- (map_nth_seq da b_zero) at 1. rewrite map_map. reflexivity.
  - rewrite bounded_sparse in B. split; [|unfold hm_values; rewrite map_length; apply (keys_le m d K B)].
    unfold hm_values. rewrite map_map.
    rewrite (@rsum_entries f64 (ScalarF64 P) m d (fun _ x => g (b_real x)) K B) by (intros; rewrite b_real_fzero; exact Z).
    unfold sigma. f_equal. apply map_ext_in. intros i _. unfold get_or_zero. rewrite find_get.
    destruct (find (fun kv => Nat.eqb (fst kv) i) m) as [kv|]; cbn [option_map]; [reflexivity|]. now rewrite b_real_fzero.
Qed.

Lemma norm64_error (P : Platform) phi : wf phi -> b_finite (norm64 phi) = true -> let n := size phi in let Q := nn n (coeff64 phi) * nn n (coeff64 phi) in
  Rabs (b_real (norm64 phi) - Q) <= ((1 + uro) ^ S n - 1) * Q + (1 + uro) ^ n * (INR n * eta64).
Proof.
  intros W Fn n Q. destruct (values_sigma P phi (fun x => x * x) W (Rmult_0_l 0)) as [E L].
  pose proof (products_error (fun x : f64 => x) (fun x => x) (values phi) (norm64 phi) (adds_fold0 _) Fn) as B.
  assert (EQ : rsum (map (fun x : f64 => b_real x * b_real x) (values phi)) = Q) by (unfold Q; rewrite nn_sqr; exact E).
  assert (EA : rsum (map (fun x : f64 => Rabs (b_real x * b_real x)) (values phi)) = Q).
  { rewrite <- EQ. f_equal. apply map_ext. intros x. apply Rabs_pos_eq, Rle_0_sqr. }
  assert (B' : Rabs (b_real (norm64 phi) - rsum (map (fun x : f64 => b_real x * b_real x) (values phi))) <=
    ((1 + uro) ^ S (length (values phi)) - 1) * rsum (map (fun x : f64 => Rabs (b_real x * b_real x)) (values phi)) +
    (1 + uro) ^ length (values phi) * (INR (length (values phi)) * eta64)) by exact B.
  rewrite EQ, EA in B'. clear B. rename B' into B. eapply Rle_trans; [exact B|].
  assert (Q0 : 0 <= Q) by apply Rle_0_sqr. pose proof eta64_pos as Ep. fold n in L. set (m := length (values phi)) in *.
  pose proof (pow_uro_le _ _ L) as P1. assert (P2 : (1 + uro) ^ S m <= (1 + uro) ^ S n) by (apply pow_uro_le; lia).
  assert (Ln : INR m <= INR n) by (apply le_INR; exact L). pose proof (pos_INR m). pose proof (pow_1_uro m).
  apply Rplus_le_compat.
  - apply Rmult_le_compat_r; [exact Q0|lra].
  - apply Rmult_le_compat; try lra; [apply Rmult_le_pos; lra|]. apply Rmult_le_compat_r; lra.
Qed.

Lemma quot_small n : INR (n + 5) <= bpow radix2 49 -> quot n <= 16 / 15 * (INR (n + 5) * uro) /\ INR (n + 5) * uro <= / 16.
Proof.
  intros B. pose proof uro_pos as Up. set (m := INR (n + 5)) in *. assert (M0 : 0 <= m) by apply pos_INR.
  assert (Mu : m * uro <= / 16).
  { apply Rle_trans with (bpow radix2 49 * bpow radix2 (-53)); [apply Rmult_le_compat_r; [apply bpow_ge_0|exact B]|].
    rewrite <- bpow_plus. change (bpow radix2 (49 + -53)) with (/ IZR 16). lra. }
  split; [|exact Mu].
  pose proof (pow_small uro (n + 5) ltac:(lra)) as S. fold m in S. unfold quot in *. set (p := (1 + uro) ^ (n + 5)) in *.
  assert (0 <= m * uro) by (apply Rmult_le_pos; lra). pose proof (pow_1_uro (n + 5)) as P1. fold p in P1.
  assert (p <= 16 / 15). { assert (p * (15 / 16) <= p * (1 - m * uro)) by (apply Rmult_le_compat_l; lra). lra. }
  assert (p * (m * uro) <= 16 / 15 * (m * uro)) by (apply Rmult_le_compat_r; lra). lra.
Qed.

Lemma norm64_near (P : Platform) phi : wf phi -> b_finite (norm64 phi) = true -> let n := size phi in let Q := nn n (coeff64 phi) * nn n (coeff64 phi) in
  INR (n + 5) <= bpow radix2 49 -> Rabs (b_real (norm64 phi) - Q) <= ((1 + uro) ^ S n - 1) * Q + 16 / 15 * (INR n * eta64).
Proof.
  intros W Fn n Q B. eapply Rle_trans; [exact (norm64_error P phi W Fn)|]. apply Rplus_le_compat_l.
  apply Rmult_le_compat_r; [apply Rmult_le_pos; [apply pos_INR|left; apply eta64_pos]|].
  destruct (quot_small n B) as [A1 A2]. unfold quot in A1.
  pose proof (pow_uro_le (size phi) (n + 5) ltac:(unfold n; lia)). fold n in H |- *. lra.
Qed.

Lemma abs_le x y : Rabs x <= y -> - y <= x <= y.
Proof. intros L. split; [|]; unfold Rabs in L; destruct (Rcase_abs x); lra. Qed.

Lemma uro_tiny : uro <= / 1024.
Proof. apply Rle_trans with (bpow radix2 (-10)); [apply bpow_le; lia|]. simpl. lra. Qed.

Lemma eta_tiny : eta64 <= / 1024.
Proof. apply Rle_trans with (bpow radix2 (-10)); [apply bpow_le; lia|]. simpl. lra. Qed.

(** The denominator [1 + lr * norm]. *)
Lemma denominator64 lr q : 0 <= b_real lr -> 0 <= b_real q -> b_finite (b_add b_one (b_mul lr q)) = true ->
  b_finite q = true /\ b_finite lr = true /\ exists d1 h d2, Rabs d1 <= uro /\ Rabs h <= eta64 /\ Rabs d2 <= uro /\
    b_real (b_add b_one (b_mul lr q)) = (1 + (b_real lr * b_real q * (1 + d1) + h)) * (1 + d2).
Proof.
  intros L0 N0 Fd. destruct (b_add_finite_inv _ _ Fd) as (_ & Fm & _). destruct (b_mul_finite_inv _ _ Fm) as (Fl & Fq & _).
  splits; auto. destruct (b_add_error _ _ Fd) as (d2 & D2 & ->). destruct (b_mul_error _ _ Fm) as (d1 & h & D1 & H & ->).
  exists d1, h, d2. rewrite b_one_real. splits; auto.
Qed.

Lemma mul_low a d : 0 <= a -> Rabs d <= uro -> a * (1 - uro) <= a * (1 + d) <= a * (1 + uro).
Proof. intros A D. apply abs_le in D. split; apply Rmult_le_compat_l; lra. Qed.

(** The energy of a step of ISGD: the computed rate never lets it overshoot by
    more than a quarter, whatever the rate and the features. *)
Theorem rate64_energy P lr phi : wf phi -> finite_features phi -> b_finite lr = true -> 0 < b_real lr ->
  let n := size phi in INR (n + 5) <= bpow radix2 49 ->
  b_finite (rate64 P lr phi) = true /\ 0 <= b_real (rate64 P lr phi) <= b_real lr /\
  b_real (rate64 P lr phi) * (nn n (coeff64 phi) * nn n (coeff64 phi)) <= 5 / 4.
Proof.
  intros W Ff Fl Pl n N49. destruct (isgd_rate_f64 P lr phi Fl Pl Ff) as [Fr Br].
  change (@isgd_compute_lr f64 (S64 P) lr phi) with (rate64 P lr phi) in Fr, Br. splits; auto; try lra.
  rewrite rate64_def in *. set (q := norm64 phi) in *. pose proof (norm64_pos phi Ff) as Nq. fold q in Nq.
  assert (D : above (b_add b_one (b_mul lr q)) 1).
  { apply b_add_either; [right; split; [reflexivity|rewrite b_one_real; lra]|apply b_mul_pos; auto|].
    left. right. split; [reflexivity|rewrite b_one_real; lra]. }
  set (Q := nn n (coeff64 phi) * nn n (coeff64 phi)). assert (Q0 : 0 <= Q) by apply Rle_0_sqr.
  destruct D as [->|[Fd Ld]].
  { destruct (b_div_inf lr Fl) as [s ->]. simpl b_real. lra. }
  assert (N0 : 0 <= b_real q) by (destruct Nq as [->|[_ N]]; [simpl; lra|exact N]).
  destruct (denominator64 lr q ltac:(lra) N0 Fd) as (Fq & _ & d1 & h & d2 & D1 & H & D2 & Ed).
  destruct (b_div_error _ _ Fr ltac:(lra)) as (d3 & h3 & D3 & H3 & Er). rewrite Er.
  set (d := b_real (b_add b_one (b_mul lr q))) in *. set (N := b_real q) in *. set (l := b_real lr) in *.
  pose proof (norm64_near P phi W Fq N49) as B. cbv zeta in B. fold n in B. fold Q in B. fold q in B. fold N in B.
  destruct (quot_small n N49) as [A1 A2]. pose proof (pow_uro_le (S n) (n + 5) ltac:(lia)) as Pq. unfold quot in A1.
  assert (Q1 : (1 + uro) ^ S n - 1 <= / 15) by lra.
  pose proof (b_real_small lr) as Sl. fold l in Sl. rewrite Rabs_pos_eq in Sl by lra.
  pose proof (b_real_small q) as Sq. fold N in Sq. rewrite Rabs_pos_eq in Sq by lra.
  pose proof eta64_pos as Ep. pose proof (pos_INR n) as In.
  assert (Nn : INR n <= bpow radix2 49) by (rewrite plus_INR in N49; pose proof (pos_INR 5); lra).
  set (z := INR n * eta64) in *. assert (Z0 : 0 <= z) by (apply Rmult_le_pos; lra).
  assert (Z1 : l * z <= / 4).
  { apply Rle_trans with (bpow radix2 1024 * (bpow radix2 49 * bpow radix2 (-1075))).
    - apply Rmult_le_compat; try lra. apply Rmult_le_compat_r; [apply bpow_ge_0|exact Nn].
    - rewrite <- !bpow_plus. change (bpow radix2 (1024 + (49 + -1075))) with (/ IZR 4). lra. }
  assert (Z2 : eta64 * N <= / 1024).
  { apply Rle_trans with (bpow radix2 (-1075) * bpow radix2 1024); [apply Rmult_le_compat; [lra|lra|apply Rle_refl|lra]|].
    rewrite <- bpow_plus. apply Rle_trans with (bpow radix2 (-10)); [apply bpow_le; lia|]. simpl. lra. }
  assert (Z3 : z <= / 1024).
  { apply Rle_trans with (bpow radix2 49 * bpow radix2 (-1075)); [apply Rmult_le_compat_r; [apply bpow_ge_0|exact Nn]|].
    rewrite <- bpow_plus. apply Rle_trans with (bpow radix2 (-10)); [apply bpow_le; lia|]. simpl. lra. }
  apply abs_le in B. assert (HQ : Q <= 15 / 14 * (N + 16 / 15 * z)).
  { set (w := (1 + uro) ^ S n - 1) in *. assert (w * Q <= / 15 * Q) by (apply Rmult_le_compat_r; [exact Q0|exact Q1]). lra. }
  assert (T0 : 0 <= l * N) by (apply Rmult_le_pos; lra).
  assert (LQ : l * Q <= 15 / 14 * (1 + l * N)).
  { apply Rle_trans with (l * (15 / 14 * (N + 16 / 15 * z))); [apply Rmult_le_compat_l; lra|]. lra. }
  assert (EQ : eta64 * Q <= / 64).
  { apply Rle_trans with (eta64 * (15 / 14 * (N + 16 / 15 * z))); [apply Rmult_le_compat_l; lra|].
    pose proof eta_tiny. assert (eta64 * z <= / 1024 * / 1024) by (apply Rmult_le_compat; lra). lra. }
  pose proof uro_tiny as Ut. pose proof uro_pos as Up. pose proof eta_tiny as Et. apply abs_le in H. apply abs_le in H3.
  assert (Dl : 1 + l * N <= 128 / 127 * d).
  { destruct (mul_low (l * N) d1 T0 D1) as [M1 _].
    assert (M2 : (1 + l * N) * (1 - / 512) <= 1 + (l * N * (1 + d1) + h)).
    { assert (l * N * uro <= l * N * / 1024) by (apply Rmult_le_compat_l; lra). lra. }
    assert (P0 : 0 <= 1 + (l * N * (1 + d1) + h)) by lra.
    destruct (mul_low _ d2 P0 D2) as [M3 _]. rewrite <- Ed in M3.
    assert (M4 : (1 + (l * N * (1 + d1) + h)) * (1 - / 1024) <= d) by (eapply Rle_trans; [|exact M3]; apply Rmult_le_compat_l; lra). lra. }
  assert (Y : l / d * Q <= 15 / 14 * (128 / 127)).
  { apply Rmult_le_reg_r with d; [lra|]. replace (l / d * Q * d) with (l * Q) by (field; lra). lra. }
  assert (Y0 : 0 <= l / d * Q) by (apply Rmult_le_pos; [apply Rmult_le_pos; [lra|left; apply Rinv_0_lt_compat; lra]|exact Q0]).
  destruct (mul_low _ d3 Y0 D3) as [_ Y3].
  assert (l / d * Q * (1 + uro) <= l / d * Q * (1 + / 1024)) by (apply Rmult_le_compat_l; lra).
  assert (h3 * Q <= eta64 * Q) by (apply Rmult_le_compat_r; lra).
  replace ((l / d * (1 + d3) + h3) * Q) with (l / d * Q * (1 + d3) + h3 * Q) by ring. lra.
Qed.

(** ** features and rates of moderate size *)

Lemma values_within (P : Platform) (phi : Features f64) x : wf phi -> finite_features phi -> In x (values phi) ->
  within (nn (size phi) (coeff64 phi)) x.
Proof.
  intros W Ff Ix. split; [apply (values_finite phi Ff x Ix)|].
  destruct (values_sigma P phi (fun x => x * x) W (Rmult_0_l 0)) as [E _].
  rewrite <- (sqrt_Rsqr_abs (b_real x)). unfold nn. rewrite <- E. apply sqrt_le_1_alt. unfold Rsqr. clear E W Ff.
  induction (values phi) as [|y l IH]; [destruct Ix|]. cbn [map]. change (rsum (?a :: ?b)) with (a + rsum b).
  assert (S0 : 0 <= rsum (map (fun x : f64 => b_real x * b_real x) l)).
  { apply rsum_nonneg. intros z I. apply in_map_iff in I. destruct I as (v & <- & _). apply Rle_0_sqr. }
  destruct Ix as [->|Ix]; [lra|]. specialize (IH Ix). pose proof (Rle_0_sqr (b_real y)) as Y. unfold Rsqr in Y. lra.
Qed.

Lemma norm64_within (P : Platform) phi : wf phi -> finite_features phi -> let n := size phi in INR (n + 5) <= bpow radix2 49 ->
  nn n (coeff64 phi) <= bpow radix2 200 -> within (bpow radix2 450) (norm64 phi).
Proof.
  intros W Ff n N49 Nf. destruct (values_sigma P phi (fun x => x * x) W (Rmult_0_l 0)) as [_ L]. fold n in L.
  assert (Wi : Forall (within (bpow radix2 400)) (map (fun x => b_mul x x) (values phi))).
  { apply Forall_forall. intros y Iy. apply in_map_iff in Iy. destruct Iy as (x & <- & Ix).
    destruct (values_within P phi x W Ff Ix) as [Fx Lx]. apply b_mul_within; auto; [apply fmt_bpow; lia|apply bpow_lt; lia|].
    rewrite Rabs_mult. replace 400%Z with (200 + 200)%Z by lia. rewrite bpow_plus. apply Rmult_le_compat; auto using Rabs_pos; fold n in Lx; lra. }
  pose proof (many_terms n N49) as M. set (m := length (values phi)) in *.
  assert (Mm : INR m * (1 + uro) ^ m <= bpow radix2 50).
  { eapply Rle_trans; [|exact M]. apply Rmult_le_compat; [apply pos_INR|pose proof (pow_1_uro m); lra|apply le_INR, L|apply pow_uro_le, L]. }
  destruct (adds_within (bpow radix2 400) _ (norm64 phi) (adds_fold0 _) (bpow_ge_0 _ _) Wi) as [F B].
  - rewrite map_length. fold m. apply Rle_lt_trans with (bpow radix2 50 * bpow radix2 400); [|rewrite <- bpow_plus; apply bpow_lt; lia].
    replace (INR m * bpow radix2 400 * (1 + uro) ^ m) with (INR m * (1 + uro) ^ m * bpow radix2 400) by ring.
    apply Rmult_le_compat_r; [apply bpow_ge_0|exact Mm].
  - split; [exact F|]. eapply Rle_trans; [exact B|]. rewrite map_length. fold m. replace 450%Z with (50 + 400)%Z by lia. rewrite bpow_plus.
    replace (INR m * bpow radix2 400 * (1 + uro) ^ m) with (INR m * (1 + uro) ^ m * bpow radix2 400) by ring.
    apply Rmult_le_compat_r; [apply bpow_ge_0|exact Mm].
Qed.

(** There the computed rate is the implicit one up to [(n + 5) 2^-52]. *)
Theorem rate64_near P lr phi : wf phi -> finite_features phi -> within (bpow radix2 200) lr -> 0 < b_real lr ->
  let n := size phi in INR (n + 5) <= bpow radix2 49 -> nn n (coeff64 phi) <= bpow radix2 200 ->
  let Q := nn n (coeff64 phi) * nn n (coeff64 phi) in
  Rabs (b_real (rate64 P lr phi) * Q - b_real lr * Q / (1 + b_real lr * Q)) <= INR (n + 5) * bpow radix2 (-52).
Proof.
  intros W Ff [Fl Bl] Pl n N49 Nf Q. destruct (rate64_energy P lr phi W Ff Fl Pl N49) as (Fr & _ & _).
  destruct (norm64_within P phi W Ff N49 Nf) as [Fq Bq]. rewrite rate64_def in *. set (q := norm64 phi) in *.
  assert (N0 : 0 <= b_real q) by (destruct (norm64_pos phi Ff) as [E|[_ N]]; [fold q in E; rewrite E; simpl; lra|exact N]).
  assert (Wm : within (bpow radix2 650) (b_mul lr q)).
  { apply b_mul_within; auto; [apply fmt_bpow; lia|apply bpow_lt; lia|].
    rewrite Rabs_mult. replace 650%Z with (200 + 450)%Z by lia. rewrite bpow_plus. apply Rmult_le_compat; auto using Rabs_pos. }
  assert (W1 : within (bpow radix2 650) b_one).
  { split; [reflexivity|]. rewrite b_one_real, Rabs_R1. change 1 with (bpow radix2 0). apply bpow_le. lia. }
  assert (Fd : b_finite (b_add b_one (b_mul lr q)) = true).
  { apply (b_add_drift b_one (b_mul lr q) _ _ W1 Wm). apply Rle_lt_trans with (bpow radix2 2 * bpow radix2 650); [|rewrite <- bpow_plus; apply bpow_lt; lia].
    pose proof (bpow_gt_0 radix2 650). pose proof uro_tiny. pose proof uro_pos. simpl (bpow radix2 2). nra. }
  destruct (denominator64 lr q ltac:(lra) N0 Fd) as (_ & _ & d1 & h & d2 & D1 & H & D2 & Ed).
  assert (Q0 : 0 <= Q) by apply Rle_0_sqr.
  pose proof (norm64_near P phi W Fq N49) as B. cbv zeta in B. fold n in B. fold Q in B. fold q in B.
  pose proof uro_tiny as Ut. pose proof uro_pos as Up. pose proof eta_tiny as Et. pose proof eta64_pos as Ep.
  set (N := b_real q) in *. set (l := b_real lr) in *. set (s := l * Q) in *. assert (S0 : 0 <= s) by (apply Rmult_le_pos; lra).
  assert (Nn : INR n <= bpow radix2 49) by (rewrite plus_INR in N49; pose proof (pos_INR 5); lra).
  set (z := INR n * eta64) in *. assert (Z0 : 0 <= z) by (apply Rmult_le_pos; [apply pos_INR|lra]).
  assert (U16 : bpow radix2 (-57) = uro / 16).
  { unfold uro. replace (-57)%Z with (-53 + -4)%Z by lia. rewrite bpow_plus. change (bpow radix2 (-4)) with (/ IZR 16). field. }
  assert (Lb : 0 <= l <= bpow radix2 200) by (split; [lra|]; rewrite <- (Rabs_pos_eq l) by lra; exact Bl).
  assert (Z1 : l * z <= uro / 16).
  { rewrite <- U16. apply Rle_trans with (bpow radix2 200 * (bpow radix2 49 * bpow radix2 (-1075))).
    - apply Rmult_le_compat; try lra. apply Rmult_le_compat_r; [apply bpow_ge_0|exact Nn].
    - rewrite <- !bpow_plus. apply bpow_le. lia. }
  assert (Z2 : eta64 <= uro / 16) by (rewrite <- U16; apply bpow_le; lia).
  assert (Z3 : eta64 * Q <= uro / 16).
  { rewrite <- U16. apply Rle_trans with (bpow radix2 (-1075) * (bpow radix2 200 * bpow radix2 200)).
    - apply Rmult_le_compat_l; [apply bpow_ge_0|]. apply Rmult_le_compat; auto using nn_nonneg.
    - rewrite <- !bpow_plus. apply bpow_le. lia. }
  destruct (quot_small n N49) as [A1 A2]. unfold quot in A1.
  assert (Pw : (1 + uro) ^ (n + 5) = (1 + uro) ^ S n * ((1 + uro) * (1 + uro) * (1 + uro) * (1 + uro))).
  { replace (n + 5)%nat with (S n + 4)%nat by lia. rewrite pow_add. simpl. ring. }
  rewrite Pw in A1. pose proof (pow_1_uro (S n)) as P1. set (p := (1 + uro) ^ S n) in *. set (m := INR (n + 5)) in *.
  assert (M5 : 5 <= m) by (unfold m; rewrite plus_INR; pose proof (pos_INR n); simpl; lra).
  set (T := l * N) in *.
  assert (BT : Rabs (T - s) <= (p - 1) * s + 16 / 15 * (l * z)).
  { unfold T, s. replace (l * N - l * Q) with (l * (N - Q)) by ring. rewrite Rabs_mult, (Rabs_pos_eq l) by lra.
    replace ((p - 1) * (l * Q) + 16 / 15 * (l * z)) with (l * ((p - 1) * Q + 16 / 15 * z)) by ring. apply Rmult_le_compat_l; lra. }
  assert (T0 : 0 <= T) by (apply Rmult_le_pos; lra).
  apply abs_le in BT. pose proof (mul_low T d1 T0 D1) as M1. apply abs_le in H.
  set (g := 1 + (T * (1 + d1) + h)) in *. set (d := b_real (b_add b_one (b_mul lr q))) in *.
  assert (G1 : g <= 1 + (p * s + 16 / 15 * (uro / 16)) * (1 + uro) + uro / 16).
  { assert (T * (1 + uro) <= (p * s + 16 / 15 * (uro / 16)) * (1 + uro)) by (apply Rmult_le_compat_r; lra). unfold g. lra. }
  assert (G2 : 1 + ((2 - p) * s - 16 / 15 * (uro / 16)) * (1 - uro) - uro / 16 <= g).
  { assert (((2 - p) * s - 16 / 15 * (uro / 16)) * (1 - uro) <= T * (1 - uro)) by (apply Rmult_le_compat_r; lra). unfold g. lra. }
  assert (K4 : 1 <= (1 + uro) * (1 + uro) * (1 + uro) * (1 + uro)).
  { pose proof (pow_1_uro 4) as K. simpl in K. lra. }
  assert (P2 : p <= 16 / 15).
  { pose proof (Rmult_le_compat_l p _ _ ltac:(lra) K4). lra. }
  assert (S2 : 0 <= (2 - p) * s) by (apply Rmult_le_pos; lra).
  assert (G0 : 0 <= g).
  { assert (0 <= (2 - p) * s * (1 - uro)) by (apply Rmult_le_pos; lra).
    assert (0 <= uro * uro) by (apply Rmult_le_pos; lra). lra. }
  pose proof (mul_low g d2 G0 D2) as M2. rewrite <- Ed in M2.
  set (V := p * ((1 + uro) * (1 + uro)) - 1 + uro / 4).
  assert (K2 : 1 + 2 * uro <= (1 + uro) * (1 + uro) <= 2).
  { assert (0 <= uro * uro) by (apply Rmult_le_pos; lra). assert (uro * uro <= uro * / 1024) by (apply Rmult_le_compat_l; lra). lra. }
  set (k2 := (1 + uro) * (1 + uro)) in *.
  assert (Pk : k2 <= p * k2) by (pose proof (Rmult_le_compat_r k2 _ _ ltac:(lra) P1); lra).
  assert (UU : 0 <= uro * uro) by (apply Rmult_le_pos; lra). assert (UU2 : uro * uro <= uro * / 1024) by (apply Rmult_le_compat_l; lra).
  assert (SU : 0 <= s * uro) by (apply Rmult_le_pos; lra).
  assert (HV : Rabs (d - (1 + s)) <= V * (1 + s)).
  { apply Rabs_le. unfold V. split.
    - assert (X : (1 + ((2 - p) * s - 16 / 15 * (uro / 16)) * (1 - uro) - uro / 16) * (1 - uro) <= d).
      { eapply Rle_trans; [|apply M2]. apply Rmult_le_compat_r; lra. }
      assert (Y0 : 2 - p * k2 <= (2 - p) * ((1 - uro) * (1 - uro))).
      { assert (0 <= uro * (p - 1)) by (apply Rmult_le_pos; lra). assert (0 <= (2 - p) * (uro * uro)) by (apply Rmult_le_pos; lra).
        assert (0 <= p * (uro * uro)) by (apply Rmult_le_pos; lra). unfold k2. lra. }
      pose proof (Rmult_le_compat_l s _ _ S0 Y0) as Y1.
      replace ((1 + ((2 - p) * s - 16 / 15 * (uro / 16)) * (1 - uro) - uro / 16) * (1 - uro)) with
        (1 - uro + s * ((2 - p) * ((1 - uro) * (1 - uro))) - uro / 15 * ((1 - uro) * (1 - uro)) - uro / 16 * (1 - uro)) in X by field.
      assert (uro / 15 * ((1 - uro) * (1 - uro)) <= uro / 15 * 1) by (apply Rmult_le_compat_l; lra).
      assert (uro / 16 * (1 - uro) <= uro / 16 * 1) by (apply Rmult_le_compat_l; lra). lra.
    - assert (X : d <= (1 + (p * s + 16 / 15 * (uro / 16)) * (1 + uro) + uro / 16) * (1 + uro)).
      { eapply Rle_trans; [apply M2|]. apply Rmult_le_compat_r; lra. }
      replace ((1 + (p * s + 16 / 15 * (uro / 16)) * (1 + uro) + uro / 16) * (1 + uro)) with
        (1 + uro + s * (p * k2) + uro / 15 * k2 + uro / 16 * (1 + uro)) in X by (unfold k2; field).
      assert (uro / 15 * k2 <= uro / 15 * 2) by (apply Rmult_le_compat_l; lra).
      assert (uro / 16 * (1 + uro) <= uro / 16 * 2) by (apply Rmult_le_compat_l; lra). lra. }
  assert (UM : uro * 5 <= m * uro) by (rewrite (Rmult_comm m); apply Rmult_le_compat_l; lra).
  assert (V1 : V + uro <= 6 / 5 * (m * uro) /\ 0 <= V).
  { unfold V. split; [|lra].
    assert (p * k2 + uro <= p * ((1 + uro) * (1 + uro) * (1 + uro) * (1 + uro))).
    { replace (p * ((1 + uro) * (1 + uro) * (1 + uro) * (1 + uro))) with (p * k2 * k2) by (unfold k2; ring).
      pose proof (Rmult_le_compat_l (p * k2) _ _ ltac:(lra) (proj1 K2)). pose proof (Rmult_le_compat_r uro _ _ ltac:(lra) Pk).
      assert (uro * 1 <= uro * k2) by (apply Rmult_le_compat_l; lra). lra. }
    unfold k2 in *; lra. }
  assert (Dp : (1 - 6 / 80) * (1 + s) <= d).
  { apply abs_le in HV. assert (V * (1 + s) <= 6 / 80 * (1 + s)) by (apply Rmult_le_compat_r; lra). lra. }
  destruct (b_div_error _ _ Fr) as (d3 & h3 & D3 & H3 & Er); [fold d; lra|]. fold d in Er. fold l in Er. rewrite Er.
  replace ((l / d * (1 + d3) + h3) * Q - s / (1 + s)) with ((s / d - s / (1 + s)) + s / d * d3 + h3 * Q) by (unfold s; field; fold s; lra).
  assert (Y : 0 <= s / d <= 80 / 74).
  { split; [apply Rmult_le_pos; [lra|left; apply Rinv_0_lt_compat; lra]|].
    apply Rmult_le_reg_r with d; [lra|]. unfold Rdiv at 1. rewrite Rmult_assoc, Rinv_l by lra. lra. }
  assert (E1 : Rabs (s / d - s / (1 + s)) <= 80 / 74 * V).
  { replace (s / d - s / (1 + s)) with (s / d * ((1 + s - d) / (1 + s))) by (field; lra).
    rewrite Rabs_mult, (Rabs_pos_eq (s / d)) by lra. apply Rmult_le_compat; try lra; [apply Rabs_pos|].
    unfold Rdiv. rewrite Rabs_mult, (Rabs_pos_eq (/ (1 + s))) by (left; apply Rinv_0_lt_compat; lra).
    rewrite Rabs_minus_sym. apply Rmult_le_reg_r with (1 + s); [lra|]. rewrite Rmult_assoc, Rinv_l by lra. lra. }
  assert (E2 : Rabs (s / d * d3) <= 80 / 74 * uro).
  { rewrite Rabs_mult, (Rabs_pos_eq (s / d)) by lra. apply Rmult_le_compat; try lra. apply Rabs_pos. }
  assert (E3 : Rabs (h3 * Q) <= uro / 16).
  { rewrite Rabs_mult, (Rabs_pos_eq Q) by lra. eapply Rle_trans; [|exact Z3]. apply Rmult_le_compat_r; lra. }
  replace (m * bpow radix2 (-52)) with (2 * (m * uro)).
  2: { unfold uro. replace (-52)%Z with (1 + -53)%Z by lia. rewrite bpow_plus. change (bpow radix2 1) with 2. ring. }
  eapply Rle_trans; [apply Rabs_triang|]. pose proof (Rabs_triang (s / d - s / (1 + s)) (s / d * d3)).
  lra.
Qed.
