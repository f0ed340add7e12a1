(** The Fourier, Polynomial and Chebyshev features in binary64 against their
    values over the reals. *)
From Coq Require Import Reals ZArith List Lia Lra Psatz Bool.
From Flocq Require Import Core BinarySingleNaN.
From Verif Require Import Base Scalar ScalarR ScalarF64 F64Facts HMap NdArray Features Spec FeatureFacts
  Coeffs Basis BasisReal BoundF64 TableF64 NormF64 Near64.
Import ListNotations.
Open Scope R_scope.

Definition reals (limits : list (f64 * f64)) : list (R * R) :=
  map (fun l => (b_real (fst l), b_real (snd l))) limits.

(** Finite limits in increasing order, not so far apart that their difference
    overflows, and a finite input between them. *)
Definition inside64 (x : list f64) (limits : list (f64 * f64)) : Prop :=
  Forall2 (fun (v : f64) (l : f64 * f64) => b_finite v = true /\ b_finite (fst l) = true /\ b_finite (snd l) = true /\
    b_finite (b_sub (snd l) (fst l)) = true /\ b_real (fst l) < b_real (snd l) /\
    b_real (fst l) <= b_real v <= b_real (snd l)) x limits.

Lemma inside64_length x limits : inside64 x limits -> length x = length limits.
Proof. induction 1; simpl; auto. Qed.

Lemma rnd_le x y : x <= y -> rnd64 x <= rnd64 y.
Proof. intros L. apply round_le; auto; [apply fexp_correct, f64_prec|apply valid_rnd_N]. Qed.

Lemma rnd_0 : rnd64 0 = 0.
Proof. apply round_0, valid_rnd_N. Qed.

Lemma b_sub_rnd x y : b_finite (b_sub x y) = true ->
  b_finite x = true -> b_finite y = true -> b_real (b_sub x y) = rnd64 (b_real x - b_real y).
Proof.
  intros F Fx Fy. replace (b_sub x y) with (b_add x (Bopp y)) in * by (destruct x, y; reflexivity).
  destruct (b_add_finite_inv _ _ F) as (_ & _ & ->). f_equal.
  assert (V : b_real (Bopp y) = - b_real y) by apply B2R_Bopp. rewrite V. ring.
Qed.

Lemma b_sub_err x y : b_finite (b_sub x y) = true ->
  exists d, Rabs d <= uro /\ b_real (b_sub x y) = (b_real x - b_real y) * (1 + d).
Proof.
  intros F. replace (b_sub x y) with (b_add x (Bopp y)) in * by (destruct x, y; reflexivity).
  destruct (b_add_error _ _ F) as (d & D & ->). exists d. split; auto.
  assert (V : b_real (Bopp y) = - b_real y) by apply B2R_Bopp. rewrite V. ring.
Qed.

Lemma uro_tiny : 0 < uro <= / 1024.
Proof. split; [apply uro_pos|]. change (/ 1024) with (bpow radix2 (-10)). apply bpow_le. lia. Qed.

Lemma eta_tiny : eta64 <= uro / 2.
Proof.
  unfold Rdiv. change (/ 2) with (bpow radix2 (-1)). unfold uro. rewrite <- bpow_plus. apply bpow_le. lia.
Qed.

Lemma rescale_one v lo hi : b_finite v = true -> b_finite lo = true -> b_finite hi = true ->
  b_finite (b_sub hi lo) = true -> b_real lo < b_real hi -> b_real lo <= b_real v <= b_real hi ->
  acc (b_div (b_sub v lo) (b_sub hi lo)) ((b_real v - b_real lo) / (b_real hi - b_real lo)) 4 1 /\
  0 <= b_real (b_div (b_sub v lo) (b_sub hi lo)).
Proof.
  intros Fv Fl Fh Fw L B. set (w := b_sub hi lo) in *.
  assert (Ew := b_sub_rnd hi lo Fw Fh Fl). fold w in Ew.
  assert (M0 : 0 <= rnd64 (b_real v - b_real lo)) by (rewrite <- rnd_0; apply rnd_le; lra).
  assert (M1 : rnd64 (b_real v - b_real lo) <= b_real w) by (rewrite Ew; apply rnd_le; lra).
  destruct (b_sub_within v lo (b_real w) Fv Fl) as [[Fa Ba] Ea].
  { rewrite Rabs_pos_eq; auto. }
  { eapply Rle_lt_trans; [apply Rle_abs|]. apply b_real_small. }
  set (a := b_sub v lo) in *.
  destruct (b_sub_err v lo Fa) as (d1 & D1 & Ra). fold a in Ra.
  destruct (b_sub_err hi lo Fw) as (d2 & D2 & Rw). fold w in Rw.
  destruct uro_tiny as [U0 U1]. assert (U2 := eta_tiny).
  apply Rabs_le_inv in D1, D2.
  set (T := b_real hi - b_real lo) in *. set (t := b_real v - b_real lo) in *.
  assert (PT : 0 < T) by (unfold T; lra). assert (Bt : 0 <= t <= T) by (unfold t, T; lra).
  assert (Pw : 0 < b_real w) by (rewrite Rw; apply Rmult_lt_0_compat; lra).
  destruct (b_div_unit a w Fa Fw Pw Ba) as (Fq & Bq & Eq & _).
  set (q := t / T).
  assert (Q : 0 <= q <= 1).
  { unfold q. split; [apply Rmult_le_pos; [lra|]; left; apply Rinv_0_lt_compat; lra|].
    apply (Rmult_le_reg_r T); auto. unfold Rdiv. rewrite Rmult_assoc, Rinv_l by lra. lra. }
  assert (AW : b_real a / b_real w - q = q * ((d1 - d2) / (1 + d2))).
  { unfold q. rewrite Ra, Rw. field. lra. }
  assert (X : Rabs ((d1 - d2) / (1 + d2)) <= 5 / 2 * uro).
  { unfold Rdiv at 1. rewrite Rabs_mult, (Rabs_pos_eq (/ (1 + d2))) by (left; apply Rinv_0_lt_compat; lra).
    apply (Rmult_le_reg_r (1 + d2)); [lra|]. rewrite Rmult_assoc, Rinv_l by lra. rewrite Rmult_1_r.
    assert (Rabs (d1 - d2) <= 2 * uro) by (apply Rabs_le; lra).
    assert (2 * uro <= 5 / 2 * uro * (1 + d2)); [|lra].
    assert (5 / 2 * uro * (1 - / 1024) <= 5 / 2 * uro * (1 + d2)) by (apply Rmult_le_compat_l; lra). lra. }
  assert (Y : Rabs (b_real a / b_real w - q) <= 5 / 2 * uro).
  { rewrite AW, Rabs_mult, (Rabs_pos_eq q) by lra. pose proof (Rabs_pos ((d1 - d2) / (1 + d2))).
    assert (q * Rabs ((d1 - d2) / (1 + d2)) <= 1 * Rabs ((d1 - d2) / (1 + d2))) by (apply Rmult_le_compat_r; lra). lra. }
  assert (P : 0 <= b_real a / b_real w).
  { rewrite Ea. apply Rmult_le_pos; auto. left. apply Rinv_0_lt_compat; auto. }
  split.
  - unfold acc. splits; auto; try lia.
    + rewrite Eq. destruct (rnd64_error (b_real a / b_real w)) as (d & e & D & Ee & Er).
      assert (Z : Rabs (rnd64 (b_real a / b_real w) - b_real a / b_real w) <= uro + uro / 2).
      { eapply Rle_trans; [apply rnd64_off|].
        assert (Rabs (b_real a / b_real w) <= 1).
        { rewrite Rabs_pos_eq; auto. apply (Rmult_le_reg_r (b_real w)); auto.
          unfold Rdiv. rewrite Rmult_assoc, Rinv_l by lra. rewrite Ea. lra. }
        assert (uro * Rabs (b_real a / b_real w) <= uro * 1) by (apply Rmult_le_compat_l; lra). lra. }
      replace (rnd64 (b_real a / b_real w) - q)
        with ((rnd64 (b_real a / b_real w) - b_real a / b_real w) + (b_real a / b_real w - q)) by ring.
      eapply Rle_trans; [apply Rabs_triang|]. lra.
    + rewrite Rabs_pos_eq; lra.
  - rewrite Eq, <- rnd_0. apply rnd_le. auto.
Qed.

Lemma scale_one P v lo hi : b_finite v = true -> b_finite lo = true -> b_finite hi = true ->
  b_finite (b_sub hi lo) = true -> b_real lo < b_real hi -> b_real lo <= b_real v <= b_real hi ->
  acc (b_sub (b_mul (@ftwo f64 (ScalarF64 P)) (b_div (b_sub v lo) (b_sub hi lo))) (@fone f64 (ScalarF64 P)))
    (2 * ((b_real v - b_real lo) / (b_real hi - b_real lo)) - 1) 14 1.
Proof.
  intros Fv Fl Fh Fw L B. destruct (rescale_one v lo hi Fv Fl Fh Fw L B) as [A N].
  set (s := b_div _ _) in *. set (q := (b_real v - b_real lo) / (b_real hi - b_real lo)) in *.
  assert (A2 : acc (b_mul (@ftwo f64 (ScalarF64 P)) s) (2 * q) 11 2).
  { refine (acc_mul _ _ _ _ _ _ _ _ (acc_lit P 2 _) A _ _); lia. }
  assert (A3 : acc (b_sub (b_mul (@ftwo f64 (ScalarF64 P)) s) (@fone f64 (ScalarF64 P))) (2 * q - 1) 14 3).
  { refine (acc_sub _ _ _ _ _ _ _ _ A2 (acc_lit P 1 _) _); lia. }
  destruct (lit_Z P 2) as [F2 V2]; [lia|]. destruct (lit_Z P 1) as [F1 V1]; [lia|].
  fold (@ftwo f64 (ScalarF64 P)) in F2, V2. fold (@fone f64 (ScalarF64 P)) in F1, V1.
  destruct A as (Fs & _ & Bs & Bq & _). destruct A2 as (Fm & _ & Bm & _ & _).
  assert (N2 : 0 <= b_real (b_mul (@ftwo f64 (ScalarF64 P)) s)).
  { destruct (b_mul_finite_inv _ _ Fm) as (_ & _ & ->). rewrite <- rnd_0. apply rnd_le. rewrite V2. lra. }
  assert (Q : 0 <= q).
  { unfold q. apply Rmult_le_pos; [lra|]. left. apply Rinv_0_lt_compat. lra. }
  destruct A3 as (Fd & Ed & _ & _ & _). unfold acc. splits; auto; try lia.
  - rewrite (b_sub_rnd _ _ Fd Fm F1). apply rnd64_abs; [apply (fmt_Z 1); lia|]. rewrite V1.
    rewrite Rabs_pos_eq in Bm by auto. apply Rabs_le. lra.
  - rewrite Rabs_pos_eq in Bq by auto. apply Rabs_le. lra.
Qed.

(** ** The hard-coded Chebyshev polynomials *)

Lemma acc_R v r r' E A : acc v r E A -> r = r' -> acc v r' E A.
Proof. intros H ->. auto. Qed.

Ltac acc_tac :=
  match goal with
  | |- acc (b_add _ _) _ _ _ => eapply acc_add; [acc_tac|acc_tac|cbn; lia]
  | |- acc (b_sub _ _) _ _ _ => eapply acc_sub; [acc_tac|acc_tac|cbn; lia]
  | |- acc (b_mul _ _) _ _ _ => eapply acc_mul; [acc_tac|acc_tac|cbn; lia|cbn; lia]
  | |- acc (flit _ 1) _ _ _ => apply acc_lit; lia
  | Pw : powers ?P |- acc (p_powi ?P ?x ?n) _ _ _ => apply (acc_power x n); [assumption|assumption|apply Pw]
  | |- acc _ _ _ _ => apply acc_unit; assumption
  end.

Lemma cheb_acc P k : powers P -> (k <= 11)%nat -> exists f, @cheb_fn f64 (ScalarF64 P) k = Ret f /\
  forall x, b_finite x = true -> Rabs (b_real x) <= 1 ->
    exists A, acc (f x) (cheb k (b_real x)) (2 ^ 18) A.
Proof.
  intros Pw L. do 12 (destruct k as [|k]; [eexists; split; [reflexivity|]; intros x F B;
    unfold t_0, t_1, t_2, t_3, t_4, t_5, t_6, t_7, t_8, t_9, t_10, t_11; cbn [fadd fsub fmul fpowi ScalarF64];
    eexists; eapply acc_R; [eapply acc_E; [acc_tac|vm_compute; discriminate]|unfold cheb; simpl; try ring]|]).
  lia.
Qed.

(** ** [T_k] changes by at most [k^2] times its argument. *)

Lemma sin_multiple k t : Rabs (sin (INR k * t)) <= INR k * Rabs (sin t).
Proof.
  induction k as [|k IH].
  - simpl. rewrite Rmult_0_l, sin_0, Rabs_R0. lra.
  - rewrite S_INR, Rmult_plus_distr_r, Rmult_1_l, sin_plus.
    eapply Rle_trans; [apply Rabs_triang|]. rewrite !Rabs_mult.
    assert (Rabs (cos t) <= 1) by (apply Rabs_le, COS_bound).
    assert (Rabs (cos (INR k * t)) <= 1) by (apply Rabs_le, COS_bound).
    pose proof (Rabs_pos (sin t)). pose proof (Rabs_pos (sin (INR k * t))).
    assert (Rabs (sin (INR k * t)) * Rabs (cos t) <= Rabs (sin (INR k * t)) * 1) by (apply Rmult_le_compat_l; auto).
    assert (Rabs (cos (INR k * t)) * Rabs (sin t) <= 1 * Rabs (sin t)) by (apply Rmult_le_compat_r; auto).
    lra.
Qed.

Lemma cos_diff a b : cos a - cos b = - 2 * (sin ((a - b) / 2) * sin ((a + b) / 2)).
Proof.
  replace a with ((a + b) / 2 + (a - b) / 2) at 1 by field.
  replace b with ((a + b) / 2 - (a - b) / 2) at 3 by field.
  rewrite cos_plus, cos_minus. ring.
Qed.

Lemma cheb_lipschitz k x y : -1 <= x <= 1 -> -1 <= y <= 1 ->
  Rabs (cheb k x - cheb k y) <= INR k * INR k * Rabs (x - y).
Proof.
  intros Bx By. rewrite <- (cos_acos x Bx), <- (cos_acos y By), !cheb_cos.
  set (a := acos x). set (b := acos y). rewrite (cos_diff a b), (cos_diff (INR k * a)).
  replace ((INR k * a - INR k * b) / 2) with (INR k * ((a - b) / 2)) by field.
  replace ((INR k * a + INR k * b) / 2) with (INR k * ((a + b) / 2)) by field.
  assert (T : Rabs (-2) = 2) by (rewrite Rabs_left; lra). rewrite !Rabs_mult, T.
  pose proof (sin_multiple k ((a - b) / 2)). pose proof (sin_multiple k ((a + b) / 2)).
  pose proof (Rabs_pos (sin (INR k * ((a - b) / 2)))). pose proof (Rabs_pos (sin (INR k * ((a + b) / 2)))).
  assert (Rabs (sin (INR k * ((a - b) / 2))) * Rabs (sin (INR k * ((a + b) / 2))) <=
    (INR k * Rabs (sin ((a - b) / 2))) * (INR k * Rabs (sin ((a + b) / 2)))) by (apply Rmult_le_compat; auto).
  lra.
Qed.

(** ** Products of values near numbers in [-1, 1] *)

Lemma product_near P (fs : list f64) (rs : list R) :
  Forall2 (fun (f : f64) (r : R) => b_finite f = true /\ Rabs (b_real f - r) <= bpow radix2 (-34) /\ Rabs r <= 1) fs rs ->
  INR (length fs) * bpow radix2 (-32) <= 1 ->
  b_finite (@product f64 (ScalarF64 P) fs) = true /\
  Rabs (b_real (@product f64 (ScalarF64 P) fs) - rprod rs) <= INR (length fs) * bpow radix2 (-32).
Proof.
  intros H L. unfold product. rewrite fone_f64. cbn [fmul ScalarF64].
  set (e := bpow radix2 (-32)) in *. set (z := bpow radix2 (-34)) in *.
  assert (Ez : e = 4 * z) by (unfold e, z; change 4 with (bpow radix2 2); rewrite <- bpow_plus; reflexivity).
  assert (Pz : 0 < z) by apply bpow_gt_0.
  assert (Uz : 8 * uro <= z).
  { unfold uro, z. change 8 with (bpow radix2 3). rewrite <- bpow_plus. apply bpow_le. lia. }
  assert (Zs : z <= / 1024) by (unfold z; change (/ 1024) with (bpow radix2 (-10)); apply bpow_le; lia).
  destruct uro_tiny as [U0 U1]. assert (Et := eta_tiny). clearbody e z.
  enough (G : forall (p : f64) q (i : R), b_finite p = true -> 0 <= i -> Rabs (b_real p - q) <= i * e -> Rabs q <= 1 ->
    (i + INR (length fs)) * e <= 1 ->
    b_finite (fold_left b_mul fs p) = true /\
    Rabs (b_real (fold_left b_mul fs p) - q * rprod rs) <= (i + INR (length fs)) * e).
  { destruct (G b_one 1 0) as [A B]; try lra; auto.
    - rewrite b_one_real. unfold Rminus. rewrite Rplus_opp_r, Rabs_R0. lra.
    - rewrite Rabs_R1. lra.
    - rewrite Rplus_0_l in B. rewrite Rmult_1_l in B. auto. }
  clear L. induction H as [|f r fs rs (Ff & Df & Br) H IH]; intros p q i Fp Pi Dp Bq L.
  - cbn [fold_left length rprod fold_right INR] in *. rewrite Rmult_1_r, Rplus_0_r. auto.
  - cbn [length] in *. rewrite S_INR in *. cbn [fold_left]. 
    change (rprod (r :: rs)) with (r * rprod rs). rewrite <- Rmult_assoc.
    assert (Pn := pos_INR (length fs)).
    assert (Ie : i * e <= 1).
    { assert (0 <= (INR (length fs) + 1) * e) by (apply Rmult_le_pos; lra).
      rewrite Rmult_plus_distr_r in L. lra. }
    assert (Ap : Rabs (b_real p) <= 2).
    { replace (b_real p) with ((b_real p - q) + q) by ring. eapply Rle_trans; [apply Rabs_triang|]. lra. }
    assert (Af : Rabs (b_real f) <= 1 + z).
    { replace (b_real f) with ((b_real f - r) + r) by ring. eapply Rle_trans; [apply Rabs_triang|]. lra. }
    assert (Apf : Rabs (b_real p * b_real f) <= 2 * (1 + z)).
    { rewrite Rabs_mult. apply Rmult_le_compat; auto using Rabs_pos. }
    destruct (b_mul_within p f 4 Fp Ff) as [Fm _].
    { apply (fmt_Z 4). lia. } { apply (IZR_small 4). lia. } { lra. }
    destruct (IH (b_mul p f) (q * r) (i + 1) Fm) as [I1 I2]; try lra.
    + destruct (b_mul_error p f Fm) as (d & h & Dd & Dh & ->).
      replace (b_real p * b_real f * (1 + d) + h - q * r)
        with (b_real p * (b_real f - r) + r * (b_real p - q) + b_real p * b_real f * d + h) by ring.
      assert (X1 : Rabs (b_real p * (b_real f - r)) <= 2 * z)
        by (rewrite Rabs_mult; apply Rmult_le_compat; auto using Rabs_pos).
      assert (X2 : Rabs (r * (b_real p - q)) <= 1 * (i * e))
        by (rewrite Rabs_mult; apply Rmult_le_compat; auto using Rabs_pos).
      assert (X3 : Rabs (b_real p * b_real f * d) <= 2 * (1 + z) * uro)
        by (rewrite Rabs_mult; apply Rmult_le_compat; auto using Rabs_pos).
      assert (X4 : 2 * (1 + z) * uro <= 4 * uro) by (apply Rmult_le_compat_r; lra).
      eapply Rle_trans; [apply Rabs_triang|]. eapply Rle_trans; [apply Rplus_le_compat_r, Rabs_triang|].
      eapply Rle_trans; [apply Rplus_le_compat_r, Rplus_le_compat_r, Rabs_triang|]. lra.
    + rewrite Rabs_mult. rewrite <- (Rmult_1_l 1). apply Rmult_le_compat; auto using Rabs_pos.
    + split; auto. replace (i + (INR (length fs) + 1)) with (i + 1 + INR (length fs)) by ring. auto.
Qed.

(** ** Chebyshev *)

Lemma cheb_near P k f v s : powers P -> (k <= 11)%nat -> @cheb_fn f64 (ScalarF64 P) k = Ret f -> acc v s 14 1 ->
  b_finite (f v) = true /\ Rabs (b_real (f v) - cheb k s) <= bpow radix2 (-34) /\ Rabs (cheb k s) <= 1.
Proof.
  intros Pw L E (Fv & Dv & Bv & Bs & _). destruct (cheb_acc P k Pw L) as (f' & E' & C).
  rewrite E in E'. injection E' as <-. destruct (C v Fv Bv) as (A & Ff & Df & _).
  apply Rabs_le_inv in Bv, Bs. splits; auto; [|apply cheb_bound; auto].
  assert (Lp := cheb_lipschitz k (b_real v) s Bv Bs).
  assert (K : INR k * INR k <= 121).
  { assert (INR k <= 11) by (apply (le_INR k 11) in L; simpl in L; lra). pose proof (pos_INR k).
    assert (INR k * INR k <= 11 * 11) by (apply Rmult_le_compat; auto). lra. }
  assert (M : INR k * INR k * Rabs (b_real v - s) <= 121 * (14 * uro)).
  { apply Rmult_le_compat; auto using Rabs_pos. apply Rmult_le_pos; apply pos_INR. }
  assert (Z : bpow radix2 (-34) = 524288 * uro).
  { unfold uro. change 524288 with (bpow radix2 19). rewrite <- bpow_plus. reflexivity. }
  rewrite Z. replace (b_real (f v) - cheb k s)
    with ((b_real (f v) - cheb k (b_real v)) + (cheb k (b_real v) - cheb k s)) by ring.
  eapply Rle_trans; [apply Rabs_triang|]. change (IZR (2 ^ 18)) with 262144 in Df.
  pose proof uro_pos. lra.
Qed.

Lemma scaled P x limits : inside64 x limits ->
  Forall2 (fun v s => acc v s 14 1) (@chebyshev_scale f64 (ScalarF64 P) x limits)
    (to_unit (map (fun v : f64 => b_real v) x) (reals limits)).
Proof.
  unfold chebyshev_scale, rescale, to_unit, reals.
  induction 1 as [|v [lo hi] x limits (A & B & C & D & E & G) H IH]; cbn [map2 map]; constructor; auto.
  apply scale_one; auto.
Qed.

Lemma cheb_rows P row : powers P -> Forall (fun i => (i <= 11)%nat) row ->
  exists fs, omapM (@cheb_fn f64 (ScalarF64 P)) row = Ret fs /\
    forall vs ss, Forall2 (fun v s => acc v s 14 1) vs ss ->
      Forall2 (fun (f : f64) (r : R) => b_finite f = true /\ Rabs (b_real f - r) <= bpow radix2 (-34) /\ Rabs r <= 1)
        (map2 (fun v f => f v) vs fs) (map2 (fun s k => cheb k s) ss row).
Proof.
  intros Pw. induction 1 as [|k row L H IH].
  - exists []. split; auto. intros vs ss Hv. inversion Hv; subst; constructor.
  - destruct IH as (fs & E & V). destruct (cheb_acc P k Pw L) as (f & Ef & _).
    exists (f :: fs). cbn [omapM]. rewrite Ef, E. split; auto.
    intros vs ss [|v s vs' ss' Hv Hs]; cbn [map2]; constructor; auto. apply (cheb_near P); auto.
Qed.

Lemma map2_le {A B C} (f : A -> B -> C) xs ys : (length (map2 f xs ys) <= length xs)%nat.
Proof. revert ys. induction xs as [|x xs IH]; intros [|y ys]; simpl; try lia. specialize (IH ys). lia. Qed.

Theorem chebyshev_f64 P k limits es : powers P -> (k <= 11)%nat -> enumeration k (length limits) es ->
  INR (length limits) <= bpow radix2 32 ->
  exists b, @chebyshev_new f64 (ScalarF64 P) k limits = Ret b /\
    forall x, inside64 x limits -> exists l, @project f64 (ScalarF64 P) b x = Ret (Ok (Dense l)) /\
      Forall2 (fun (v : f64) e => b_finite v = true /\
        Rabs (b_real v - cheb_product (to_unit (map (fun v : f64 => b_real v) x) (reals limits)) e)
          <= INR (length limits) * bpow radix2 (-32)) l es.
Proof.
  intros Pw K En D. assert (Eq := enumeration_unique _ _ _ En). destruct En as (In & _ & _ & _).
  unfold chebyshev_new, make_polynomials.
  replace (11 <? k)%nat with false by (symmetry; apply Nat.ltb_ge; auto). rewrite <- Eq. clear Eq.
  assert (Le : forall row, List.In row es -> Forall (fun i => (i <= 11)%nat) row).
  { intros row I. apply In in I. destruct I as (_ & I & _). rewrite Forall_forall in *. intros i Hi. specialize (I i Hi). lia. }
  clear In. enough (G : exists ps, omapM (omapM (@cheb_fn f64 (ScalarF64 P))) es = Ret ps /\
    forall x, inside64 x limits -> 
      Forall2 (fun (v : f64) e => b_finite v = true /\
        Rabs (b_real v - cheb_product (to_unit (map (fun v : f64 => b_real v) x) (reals limits)) e)
          <= INR (length limits) * bpow radix2 (-32))
        (map (@chebyshev_feature f64 (ScalarF64 P) (@chebyshev_scale f64 (ScalarF64 P) x limits)) ps) es).
  { destruct G as (ps & E & V). rewrite E. eexists. split; [reflexivity|]. intros x I.
    eexists. split; [reflexivity|]. auto. }
  induction es as [|row es IH].
  - exists []. split; auto. intros x I. constructor.
  - destruct IH as (ps & E & V); [intros; apply Le; right; auto|].
    destruct (cheb_rows P row Pw (Le row (or_introl eq_refl))) as (fs & Ef & Vf).
    exists (fs :: ps). cbn [omapM]. rewrite Ef. change ((omapM (omapM (@cheb_fn f64 (ScalarF64 P))) es)) with
      (omapM (omapM (@cheb_fn f64 (ScalarF64 P))) es) in E. rewrite E. split; auto.
    intros x I. cbn [map]. constructor; auto.
    assert (Sc := scaled P x limits I). assert (N := Vf _ _ Sc). unfold chebyshev_feature, cheb_product.
    set (vs := map2 (fun v f => f v) _ fs) in *.
    assert (Lv : (length vs <= length limits)%nat).
    { unfold vs. eapply Nat.le_trans; [apply map2_le|]. unfold chebyshev_scale, rescale. rewrite map_length.
      eapply Nat.le_trans; [apply map2_le|]. rewrite (inside64_length _ _ I). auto. }
    assert (Pe : 0 < bpow radix2 (-32)) by apply bpow_gt_0.
    assert (Lr : INR (length vs) * bpow radix2 (-32) <= INR (length limits) * bpow radix2 (-32)).
    { apply Rmult_le_compat_r; [lra|]. apply le_INR, Lv. }
    assert (L1 : INR (length limits) * bpow radix2 (-32) <= 1).
    { change 1 with (bpow radix2 (32 + -32)). rewrite bpow_plus. apply Rmult_le_compat_r; lra. }
    destruct (product_near P vs _ N) as [F Dd]; [lra|]. split; auto. lra.
Qed.

(** ** Polynomial, inputs in [-1, 1] *)

Definition total (e : list nat) : nat := list_sum e.

Lemma polynomial_fold P x e (p : f64) r E : powers P ->
  Forall (fun v : f64 => b_finite v = true /\ Rabs (b_real v) <= 1) x -> acc p r E 1 -> (0 <= E)%Z ->
  acc (fold_left b_mul (map2 (p_powi P) x e) p) (r * monomial (map (fun v : f64 => b_real v) x) e)
    (E + 2 * Z.of_nat (total e + length x)) 1.
Proof.
  intros Pw H. revert e p r E. unfold monomial.
  induction H as [|v x [Fv Bv] H IH]; intros [|k e] p r E A PE; cbn [map2 map fold_left rprod fold_right length].
  - rewrite Rmult_1_r. eapply acc_E; [exact A|lia].
  - rewrite Rmult_1_r. eapply acc_E; [exact A|lia].
  - rewrite Rmult_1_r. eapply acc_E; [exact A|lia].
  - change (fold_right Rmult 1 (map2 pow (map (fun v : f64 => b_real v) x) e))
      with (rprod (map2 pow (map (fun v : f64 => b_real v) x) e)). rewrite <- Rmult_assoc.
    assert (A1 := acc_mul _ _ _ _ _ _ _ _ A (acc_power v k _ Fv Bv (Pw v k)) ltac:(lia) PE).
    eapply acc_E; [apply (IH e _ _ _ A1); lia|]. change (total (k :: e)) with (k + total e)%nat. lia.
Qed.

Theorem polynomial_f64_unit P x e : powers P ->
  Forall (fun v : f64 => b_finite v = true /\ Rabs (b_real v) <= 1) x ->
  let v := @polynomial_feature f64 (ScalarF64 P) x e in
  b_finite v = true /\ Rabs (b_real v) <= 1 /\
  Rabs (b_real v - monomial (map (fun v : f64 => b_real v) x) e) <= INR (2 * (total e + length x)) * uro.
Proof.
  intros Pw H. unfold polynomial_feature, product. rewrite fone_f64. cbn [fmul fpowi ScalarF64].
  assert (A1 : acc b_one 1 0 1) by (apply acc_exact; auto; [apply b_one_real|rewrite Rabs_R1; lra|lia]).
  destruct (polynomial_fold P x e b_one 1 0 Pw H A1 ltac:(lia)) as (F & D & B & _). cbv zeta. splits; auto.
  rewrite Rmult_1_l in D. rewrite INR_IZR_INZ. replace (Z.of_nat (2 * (total e + length x))) with
    (0 + 2 * Z.of_nat (total e + length x))%Z by lia. exact D.
Qed.

(** ** Polynomial, relative error *)

(** [v] is [r] up to [n] relative errors of 2^-53, and [r] is zero or between
    2^-s and 2^s in magnitude. *)
Definition rel (v : f64) (r : R) (n : nat) (s : Z) : Prop :=
  b_finite v = true /\ (exists t, b_real v = r * t /\ (1 - uro) ^ n <= t <= (1 + uro) ^ n) /\
  (r = 0 \/ bpow radix2 (- s) <= Rabs r <= bpow radix2 s).

Lemma theta n : INR n * uro <= / 2 -> / 2 <= (1 - uro) ^ n /\ (1 + uro) ^ n <= 2.
Proof.
  intros L. destruct uro_tiny as [U0 U1].
  assert (A : 1 - INR n * uro <= (1 - uro) ^ n).
  { clear L. induction n as [|n IH]; [simpl; lra|]. rewrite S_INR. cbn [pow].
    assert (P := pos_INR n). assert (0 <= INR n * uro * uro) by (repeat apply Rmult_le_pos; lra).
    assert ((1 - uro) * (1 - INR n * uro) <= (1 - uro) * (1 - uro) ^ n) by (apply Rmult_le_compat_l; lra). lra. }
  assert (B : (1 + uro) ^ n * (1 - uro) ^ n <= 1).
  { rewrite <- Rpow_mult_distr. apply Rle_trans with (1 ^ n); [|rewrite pow1; lra].
    apply pow_incr. split; [apply Rmult_le_pos; lra|].
    assert (0 <= uro * uro) by (apply Rmult_le_pos; lra). lra. }
  split; [lra|]. assert (C : 0 <= (1 + uro) ^ n) by (apply pow_le; lra).
  assert ((1 + uro) ^ n * / 2 <= (1 + uro) ^ n * (1 - uro) ^ n) by (apply Rmult_le_compat_l; lra). lra.
Qed.

Lemma pow_below a n : 0 <= a <= 1 -> a ^ n <= 1.
Proof. intros B. apply Rle_trans with (1 ^ n); [apply pow_incr; lra|rewrite pow1; lra]. Qed.

Lemma pow_above a n : 1 <= a -> 1 <= a ^ n.
Proof. intros B. apply Rle_trans with (1 ^ n); [rewrite pow1; lra|apply pow_incr; lra]. Qed.

Lemma rel_mul v r n s w q k t : rel v r n s -> rel w q k t -> (0 <= s)%Z -> (0 <= t)%Z -> (s + t <= 1000)%Z ->
  INR (n + k) * uro <= / 2 -> rel (b_mul v w) (r * q) (n + k + 1) (s + t).
Proof.
  intros (Fv & (tv & Ev & Bv) & Rv) (Fw & (tw & Ew & Bw) & Rw) Ps Pt L N.
  destruct uro_tiny as [U0 U1].
  destruct (theta (n + k) N) as [Tl Th]. rewrite pow_add in Tl, Th.
  assert (Cn := pow_le (1 - uro) n ltac:(lra)). assert (Ck := pow_le (1 - uro) k ltac:(lra)).
  assert (Tt : (1 - uro) ^ n * (1 - uro) ^ k <= tv * tw <= (1 + uro) ^ n * (1 + uro) ^ k).
  { split; apply Rmult_le_compat; lra. }
  assert (Z : b_real v * b_real w = r * q * (tv * tw)) by (rewrite Ev, Ew; ring).
  assert (M : r * q = 0 \/ bpow radix2 (- (s + t)) <= Rabs (r * q) <= bpow radix2 (s + t)).
  { destruct Rv as [->|Rv]; [left; ring|]. destruct Rw as [->|Rw]; [left; ring|]. right.
    rewrite Z.opp_add_distr, !bpow_plus, Rabs_mult.
    pose proof (bpow_gt_0 radix2 (- s)). pose proof (bpow_gt_0 radix2 (- t)).
    split; apply Rmult_le_compat; try lra; apply Rabs_pos. }
  assert (Fm : within (bpow radix2 1001) (b_mul v w)).
  { apply b_mul_within; auto; [apply fmt_bpow; lia|apply bpow_lt; lia|].
    rewrite Z, Rabs_mult, (Rabs_pos_eq (tv * tw)) by lra.
    change 1001%Z with (1000 + 1)%Z. rewrite bpow_plus. change (bpow radix2 1) with 2.
    apply Rmult_le_compat; try lra; [apply Rabs_pos|]. destruct M as [->|M].
    - rewrite Rabs_R0. apply bpow_ge_0.
    - eapply Rle_trans; [apply M|]. apply bpow_le. lia. }
  destruct Fm as [Fm _]. destruct (b_mul_finite_inv v w Fm) as (_ & _ & E).
  unfold rel. splits; auto. rewrite E, Z. destruct M as [M|M].
  - rewrite M, Rmult_0_l, rnd_0. exists 1. split; [ring|]. split.
    + apply pow_below; lra.
    + apply pow_above; lra.
  - assert (G : bpow radix2 (-1022) <= Rabs (r * q * (tv * tw))).
    { rewrite Rabs_mult, (Rabs_pos_eq (tv * tw)) by lra.
      apply Rle_trans with (bpow radix2 (- (s + t)) * / 2).
      - change (/ 2) with (bpow radix2 (-1)). rewrite <- bpow_plus. apply bpow_le. lia.
      - apply Rmult_le_compat; try lra. apply bpow_ge_0. }
    destruct (Relative.relative_error_N_FLT_ex radix2 (-1074) 53 eq_refl (fun z => negb (Z.even z)) _ G) as (d & D & Q).
    assert (Rq : rnd64 (r * q * (tv * tw)) = r * q * (tv * tw) * (1 + d)) by exact Q.
    assert (D' : Rabs d <= uro).
    { eapply Rle_trans; [exact D|]. change (/ 2) with (bpow radix2 (-1)). rewrite <- bpow_plus. apply Rle_refl. }
    apply Rabs_le_inv in D'. rewrite Rq. exists (tv * tw * (1 + d)). split; [ring|].
    rewrite !pow_add. cbn [pow]. rewrite !Rmult_1_r. split; apply Rmult_le_compat; lra.
Qed.

Lemma rel_n v r n n' s : rel v r n s -> (n <= n')%nat -> rel v r n' s.
Proof.
  intros (F & (t & E & B) & M) L. unfold rel. splits; auto. exists t. split; auto.
  destruct uro_tiny as [U0 U1]. replace n' with (n + (n' - n))%nat by lia. rewrite !pow_add.
  assert (Cn := pow_le (1 - uro) n ltac:(lra)). assert (Dn := pow_le (1 + uro) n ltac:(lra)).
  assert (A1 : (1 - uro) ^ (n' - n) <= 1) by (apply pow_below; lra).
  assert (A2 : 1 <= (1 + uro) ^ (n' - n)) by (apply pow_above; lra).
  assert ((1 - uro) ^ n * (1 - uro) ^ (n' - n) <= (1 - uro) ^ n * 1) by (apply Rmult_le_compat_l; lra).
  assert ((1 + uro) ^ n * 1 <= (1 + uro) ^ n * (1 + uro) ^ (n' - n)) by (apply Rmult_le_compat_l; lra). lra.
Qed.

Lemma rel_exact v s : b_finite v = true -> (b_real v = 0 \/ bpow radix2 (- s) <= Rabs (b_real v) <= bpow radix2 s) ->
  rel v (b_real v) 0 s.
Proof. intros F B. unfold rel. splits; auto. exists 1. simpl. split; [ring|lra]. Qed.

Lemma rel_power x n y m : b_finite x = true -> (b_real x = 0 \/ bpow radix2 (- m) <= Rabs (b_real x) <= bpow radix2 m) ->
  (0 <= m)%Z -> (Z.of_nat n * m <= 1000)%Z -> INR n * uro <= / 2 -> muls x n y ->
  rel y (b_real x ^ n) (n - 1) (Z.of_nat n * m).
Proof.
  intros F B Pm L N M. revert L N. induction M as [| |a b y z Ma IHa Mb IHb]; intros L N.
  - simpl. rewrite <- b_one_real. apply rel_exact; auto. right. rewrite b_one_real, Rabs_R1. simpl. lra.
  - rewrite pow_1. replace (Z.of_nat 1 * m)%Z with m by lia. apply rel_exact; auto.
  - destruct (Nat.eq_dec a 0) as [Ea|Na]; [|destruct (Nat.eq_dec b 0) as [Eb|Nb]].
    + rewrite (muls_zero _ _ _ Ma Ea), b_mul_one. subst a. auto.
    + rewrite (muls_zero _ _ _ Mb Eb), b_mul_one_r. subst b. rewrite Nat.add_0_r in *. auto.
    + rewrite plus_INR in N. pose proof (pos_INR a). pose proof (pos_INR b). destruct uro_tiny as [U0 U1].
      assert (0 <= INR a * uro) by (apply Rmult_le_pos; lra). assert (0 <= INR b * uro) by (apply Rmult_le_pos; lra).
      rewrite Rmult_plus_distr_r in N. rewrite Nat2Z.inj_add, Z.mul_add_distr_r in L.
      assert (0 <= Z.of_nat a * m)%Z by nia. assert (0 <= Z.of_nat b * m)%Z by nia.
      assert (Ra := IHa ltac:(lia) ltac:(lra)). assert (Rb := IHb ltac:(lia) ltac:(lra)).
      rewrite pow_add, Nat2Z.inj_add, Z.mul_add_distr_r.
      replace (a + b - 1)%nat with ((a - 1) + (b - 1) + 1)%nat by lia. apply rel_mul; auto.
      assert (C : INR (a - 1 + (b - 1)) <= INR a + INR b) by (rewrite <- plus_INR; apply le_INR; lia).
      assert (INR (a - 1 + (b - 1)) * uro <= (INR a + INR b) * uro) by (apply Rmult_le_compat_r; lra). lra.
Qed.

Lemma polynomial_rel P x e m (p : f64) r n s : powers P -> (0 <= m)%Z ->
  Forall (fun v : f64 => b_finite v = true /\ (b_real v = 0 \/ bpow radix2 (- m) <= Rabs (b_real v) <= bpow radix2 m)) x ->
  rel p r n s -> (0 <= s)%Z -> (s + Z.of_nat (total e) * m <= 1000)%Z ->
  INR (n + (total e + length x)) * uro <= / 2 ->
  exists n' s', (n' <= n + (total e + length x))%nat /\
    rel (fold_left b_mul (map2 (p_powi P) x e) p) (r * monomial (map (fun v : f64 => b_real v) x) e) n' s'.
Proof.
  intros Pw Pm H. revert e p r n s. unfold monomial. destruct uro_tiny as [U0 U1].
  induction H as [|v x [Fv Bv] H IH]; intros [|k e] p r n s A Ps L N; cbn [map2 map fold_left rprod fold_right length] in *.
  1-3: exists n, s; split; [lia|]; rewrite Rmult_1_r; exact A.
  change (fold_right Rmult 1 (map2 pow (map (fun v : f64 => b_real v) x) e))
    with (rprod (map2 pow (map (fun v : f64 => b_real v) x) e)). rewrite <- Rmult_assoc.
  change (total (k :: e)) with (k + total e)%nat in *.
  assert (Lk : (0 <= Z.of_nat k * m)%Z) by nia. assert (Le : (0 <= Z.of_nat (total e) * m)%Z) by nia.
  assert (Le' : (s + (Z.of_nat k * m + Z.of_nat (total e) * m) <= 1000)%Z) by nia.
  assert (Mono : forall i, (i <= n + (k + total e + S (length x)))%nat -> INR i * uro <= / 2).
  { intros i Hi. apply le_INR in Hi. assert (INR i * uro <= INR (n + (k + total e + S (length x))) * uro)
      by (apply Rmult_le_compat_r; lra). lra. }
  assert (Rk := rel_power v k _ m Fv Bv Pm ltac:(lia) (Mono k ltac:(lia)) (Pw v k)).
  assert (A1 := rel_mul _ _ _ _ _ _ _ _ A Rk Ps Lk ltac:(lia) (Mono (n + (k - 1))%nat ltac:(lia))).
  destruct (IH e _ _ _ _ A1) as (n' & s' & Ln & Hr).
  - lia.
  - lia.
  - destruct k as [|k].
    + simpl Nat.sub. apply Mono. lia.
    + apply Mono. lia.
  - exists n', s'. split; [lia|exact Hr].
Qed.

Theorem polynomial_f64_relative P x e m : powers P -> (0 <= m)%Z ->
  Forall (fun v : f64 => b_finite v = true /\ (b_real v = 0 \/ bpow radix2 (- m) <= Rabs (b_real v) <= bpow radix2 m)) x ->
  (Z.of_nat (total e) * m <= 1000)%Z -> INR (total e + length x) <= bpow radix2 52 ->
  let v := @polynomial_feature f64 (ScalarF64 P) x e in
  b_finite v = true /\ exists t, b_real v = monomial (map (fun v : f64 => b_real v) x) e * t /\
    (1 - uro) ^ (total e + length x) <= t <= (1 + uro) ^ (total e + length x).
Proof.
  intros Pw Pm H L N. unfold polynomial_feature, product. rewrite fone_f64. cbn [fmul fpowi ScalarF64].
  assert (R1 : rel b_one 1 0 0).
  { rewrite <- b_one_real. apply rel_exact; auto. right. rewrite b_one_real, Rabs_R1. simpl. lra. }
  destruct (polynomial_rel P x e m b_one 1 0 0 Pw Pm H R1) as (n' & s' & Ln & Hr); try lia.
  - rewrite Nat.add_0_l. replace (/ 2) with (bpow radix2 52 * uro).
    + apply Rmult_le_compat_r; [apply bpow_ge_0|exact N].
    + unfold uro. rewrite <- bpow_plus. reflexivity.
  - apply (rel_n _ _ _ _ _ Hr) in Ln. destruct Ln as (F & (t & E & B) & _). cbv zeta. split; auto.
    exists t. rewrite Rmult_1_l in E. auto.
Qed.

(** ** Fourier *)

(** The platform's cosine is within [eps] of the cosine, for arguments of
    magnitude at most [B]. *)
Definition cos_within (P : Platform) (eps B : R) : Prop := forall z : f64, b_finite z = true -> Rabs (b_real z) <= B ->
  b_finite (p_cos P z) = true /\ Rabs (b_real (p_cos P z) - cos (b_real z)) <= eps.

Lemma sin_le_abs t : Rabs (sin t) <= Rabs t.
Proof.
  assert (Pos : forall t, 0 < t -> Rabs (sin t) <= t).
  { clear. intros t P. apply Rabs_le. split; [|left; apply sin_lt_x; auto].
    destruct (Rle_lt_dec t 1) as [L|L].
    - assert (0 <= sin t); [|lra]. apply sin_ge_0; [lra|]. pose proof PI_close. lra.
    - pose proof (SIN_bound t). lra. }
  destruct (Rtotal_order t 0) as [L|[->|L]].
  - replace (sin t) with (- sin (- t)) by (rewrite sin_neg; ring). rewrite Rabs_Ropp, (Rabs_left t) by lra.
    apply Pos. lra.
  - rewrite sin_0. lra.
  - rewrite (Rabs_pos_eq t) by lra. apply Pos. lra.
Qed.

Lemma cos_lipschitz a b : Rabs (cos a - cos b) <= Rabs (a - b).
Proof.
  rewrite cos_diff. assert (T : Rabs (-2) = 2) by (rewrite Rabs_left; lra). rewrite !Rabs_mult, T.
  pose proof (sin_le_abs ((a - b) / 2)) as S. assert (S' : Rabs (sin ((a + b) / 2)) <= 1) by (apply Rabs_le, SIN_bound).
  unfold Rdiv in S at 2. rewrite Rabs_mult, (Rabs_pos_eq (/ 2)) in S by lra.
  pose proof (Rabs_pos (sin ((a - b) / 2))).
  assert (Rabs (sin ((a - b) / 2)) * Rabs (sin ((a + b) / 2)) <= Rabs (sin ((a - b) / 2)) * 1) by (apply Rmult_le_compat_l; auto).
  lra.
Qed.

Lemma fourier_fold64 P vs ss cs (p : f64) r E A : Forall2 (fun v s => acc v s 4 1) vs ss ->
  acc p r E A -> (A + Z.of_nat (total cs) <= 2 ^ 53)%Z -> (0 <= E)%Z ->
  acc (fold_left (fun acc vc => b_add acc (b_mul (snd vc) (fst vc)))
        (combine vs (map (@fofnat f64 (ScalarF64 P)) cs)) p)
    (r + rdot (map INR cs) ss)
    (E + 5 * Z.of_nat (total cs) + Z.of_nat (length vs) + Z.of_nat (length vs) * (A + Z.of_nat (total cs)))
    (A + Z.of_nat (total cs)).
Proof.
  intros H. revert cs p r E A. unfold rdot.
  induction H as [|v s vs ss Hv H IH]; intros [|c cs] p r E A Hp L PE; cbn [map combine fold_left map2 rsum fold_right length] in *;
    assert (PA : (0 <= A)%Z) by (apply Hp).
  1-3: rewrite Rplus_0_r; eapply acc_A; [eapply acc_E; [exact Hp|nia]|lia].
  change (total (c :: cs)) with (c + total cs)%nat in *.
  change (fold_right Rplus 0 (map2 Rmult (map INR cs) ss)) with (rsum (map2 Rmult (map INR cs) ss)).
  cbn [fst snd fofnat ScalarF64].
  assert (Hc : acc (b_dyadic (Z.of_nat c) 0) (INR c) 0 (Z.of_nat c)).
  { destruct (b_Z (Z.of_nat c)) as [F V]; [lia|]. rewrite INR_IZR_INZ. apply acc_exact; auto; [|lia].
    rewrite Rabs_pos_eq; [lra|]. apply (IZR_le 0). lia. }
  assert (Hm := acc_mul _ _ _ _ _ _ _ _ Hc Hv ltac:(lia) ltac:(lia)).
  rewrite Z.mul_1_r in Hm.
  assert (Ha := acc_add _ _ _ _ _ _ _ _ Hp Hm ltac:(lia)).
  assert (Hi := IH cs _ _ _ _ Ha ltac:(lia) ltac:(lia)).
  rewrite <- Rplus_assoc. eapply acc_A; [eapply acc_E; [exact Hi|]|]; nia.
Qed.

Lemma rescaled P x limits : inside64 x limits ->
  Forall2 (fun v s => acc v s 4 1) (@rescale f64 (ScalarF64 P) x limits)
    (to_01 (map (fun v : f64 => b_real v) x) (reals limits)).
Proof.
  unfold rescale, to_01, reals.
  induction 1 as [|v [lo hi] x limits (A & B & C & D & E & G) H IH]; cbn [map2 map]; constructor; auto.
  apply rescale_one; auto.
Qed.

Theorem fourier_f64_feature P x limits cs eps : inside64 x limits ->
  (Z.of_nat (total cs) <= 2 ^ 50)%Z -> cos_within P eps (4 * INR (total cs)) ->
  let v := @fourier_feature f64 (ScalarF64 P) (@rescale f64 (ScalarF64 P) x limits)
    (map (@fofnat f64 (ScalarF64 P)) cs) in
  b_finite v = true /\
  Rabs (b_real v - cosine (to_01 (map (fun v : f64 => b_real v) x) (reals limits)) cs) <=
    eps + INR (28 * total cs + 4 * length limits * (total cs + 1) + 1) * uro.
Proof.
  intros I K C. assert (Hs := rescaled P x limits I). set (ss := to_01 _ _) in *.
  assert (Ll : length (@rescale f64 (ScalarF64 P) x limits) = length limits).
  { clear - I. unfold rescale. induction I; simpl; auto. }
  assert (H0 : acc b_zero 0 0 0) by (apply acc_exact; auto; [rewrite Rabs_R0; lra|lia]).
  assert (Hf := fourier_fold64 P _ _ cs b_zero 0 0 0 Hs H0 ltac:(lia) ltac:(lia)).
  rewrite Ll in Hf. assert (Hm := acc_mul _ _ _ _ _ _ _ _ (acc_pi P) Hf ltac:(lia) ltac:(lia)).
  unfold fourier_feature. cbv zeta. rewrite fzero_f64. cbn [fcos fadd fmul ScalarF64] in *.
  set (z := b_mul fpi _) in *. destruct Hm as (Fz & Dz & Bz & _ & _).
  destruct (C z Fz) as [Fc Dc].
  { eapply Rle_trans; [exact Bz|]. rewrite INR_IZR_INZ, <- mult_IZR. apply IZR_le. lia. }
  split; auto. rewrite Rplus_0_l in Dz. unfold cosine.
  pose proof (cos_lipschitz (b_real z) (PI * rdot (map INR cs) ss)) as Lc.
  replace (b_real (p_cos P z) - cos (PI * rdot (map INR cs) ss))
    with ((b_real (p_cos P z) - cos (b_real z)) + (cos (b_real z) - cos (PI * rdot (map INR cs) ss))) by ring.
  eapply Rle_trans; [apply Rabs_triang|]. apply Rplus_le_compat; auto.
  eapply Rle_trans; [exact Lc|]. eapply Rle_trans; [exact Dz|].
  apply Rmult_le_compat_r; [left; apply uro_pos|]. rewrite INR_IZR_INZ. apply IZR_le. nia.
Qed.

(** A platform with correctly rounded elementary functions. *)
Definition nearest (y : R) : f64 :=
  b_dyadic (Ztrunc (scaled_mantissa radix2 (SpecFloat.fexp 53 1024) (rnd64 y)))
    (cexp radix2 (SpecFloat.fexp 53 1024) (rnd64 y)).

Lemma nearest_spec y : Rabs (rnd64 y) < bpow radix2 1024 -> b_finite (nearest y) = true /\ b_real (nearest y) = rnd64 y.
Proof.
  intros L. unfold nearest, b_dyadic. set (r := rnd64 y) in *.
  assert (G : fmt64 r) by (apply generic_format_round; [apply fexp_correct, f64_prec|apply valid_rnd_N]).
  assert (E : F2R (Float radix2 (Ztrunc (scaled_mantissa radix2 (SpecFloat.fexp 53 1024) r))
    (cexp radix2 (SpecFloat.fexp 53 1024) r)) = r) by (symmetry; exact G).
  pose proof (binary_normalize_correct 53 1024 f64_prec f64_emax mode_NE
    (Ztrunc (scaled_mantissa radix2 (SpecFloat.fexp 53 1024) r)) (cexp radix2 (SpecFloat.fexp 53 1024) r) false) as C.
  cbv zeta in C. rewrite E in C. rewrite (round_generic _ _ _ r) in C by exact G.
  rewrite Rlt_bool_true in C by exact L. destruct C as (C1 & C2 & _). auto.
Qed.

Definition RoundedPlatform : Platform := {|
  p_cos z := nearest (cos (b_real z));
  p_exp z := nearest (exp (b_real z));
  p_ln1p z := nearest (ln (1 + b_real z));
  p_powi := b_powi;
  p_sum l := fold_left b_add l b_zero;
  p_dot a b := fold_left b_add (map2 b_mul a b) b_zero
|}.

Lemma rounded_powers : powers RoundedPlatform.
Proof. exact simple_powers. Qed.

Lemma rounded_cos B : cos_within RoundedPlatform (2 * uro) B.
Proof.
  intros z F _. cbn [p_cos RoundedPlatform]. assert (C : Rabs (cos (b_real z)) <= 1) by (apply Rabs_le, COS_bound).
  destruct (nearest_spec (cos (b_real z))) as [Fn ->].
  { eapply Rle_lt_trans; [apply (rnd64_abs _ 1); auto; apply (fmt_Z 1); lia|]. apply (bpow_lt radix2 0). lia. }
  split; auto. eapply Rle_trans; [apply rnd64_off|]. pose proof eta_uro. pose proof uro_pos.
  assert (uro * Rabs (cos (b_real z)) <= uro * 1) by (apply Rmult_le_compat_l; lra). lra.
Qed.

Lemma total_le k e : Forall (fun i => (i <= k)%nat) e -> (total e <= k * length e)%nat.
Proof.
  induction 1 as [|i e L H IH]; simpl; [lia|]. change (list_sum e) with (total e). nia.
Qed.

Theorem fourier_f64 P k limits es eps : enumeration k (length limits) es ->
  (Z.of_nat (k * length limits) <= 2 ^ 50)%Z -> cos_within P eps (4 * INR (k * length limits)) ->
  forall x, inside64 x limits -> exists l, @project f64 (ScalarF64 P) (@fourier_new f64 (ScalarF64 P) k limits) x = Ret (Ok (Dense l)) /\
    Forall2 (fun (v : f64) e => b_finite v = true /\
      Rabs (b_real v - cosine (to_01 (map (fun v : f64 => b_real v) x) (reals limits)) e) <=
        eps + INR (28 * (k * length limits) + 4 * length limits * (k * length limits + 1) + 1) * uro) l es.
Proof.
  intros En K C x I. assert (Eq := enumeration_unique _ _ _ En). destruct En as (In & _).
  eexists. split; [reflexivity|]. rewrite <- Eq. clear Eq. rewrite map_map.
  assert (T : forall e, List.In e es -> (total e <= k * length limits)%nat).
  { intros e Ie. apply In in Ie. destruct Ie as (L & Fe & _). rewrite <- L. apply total_le, Fe. }
  clear In. induction es as [|e es IH]; cbn [map]; constructor.
  - assert (Te := T e (or_introl eq_refl)).
    destruct (fourier_f64_feature P x limits e eps I) as [Fv Dv]; [lia| |].
    + intros z Fz Bz. apply C; auto. apply le_INR in Te. lra.
    + split; auto. eapply Rle_trans; [exact Dv|]. apply Rplus_le_compat_l.
      apply Rmult_le_compat_r; [left; apply uro_pos|]. apply le_INR. nia.
  - apply IH. intros e' I'. apply T. right. auto.
Qed.
