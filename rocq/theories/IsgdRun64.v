(** Runs of ISGD in binary64 against the exact rule (C84). *)
From Coq Require Import List Arith ZArith Lia Reals Lra Bool Psatz.
From Flocq Require Import Core.Core IEEE754.BinarySingleNaN.
From Verif Require Import Base Scalar ScalarR ScalarF64 F64Facts HMap HMapFacts NdArray VecFacts Features Spec FeatureFacts FeatureMore
  SumOrder NormF64 NonnegF64 BoundF64 FeatureF64 Optim OptimSpec OptimReal OptimF64 Lfa LfaSpec Basis Passes EndToEnd TableF64
  SgdF64 SgdRun64 SgdFinite64 IsgdF64.
Import ListNotations.
Local Open Scope R_scope.

Section IsgdRun.
  Context (P : Platform) (AO : any_order P) {I : Type} (b : Basis f64 I) (n : nat) (lr : f64) (ws : nat -> R) (tau : R).
  #[local] Instance SI64 : Scalar f64 := ScalarF64 P.

  (** The rate of the step on a sample. *)
  Definition rate_at (p : I * f64) : f64 :=
    match b_project b (fst p) with
    | Ret (Ok phi) => rate64 P lr phi
    | _ => b_zero
    end.

  (** A sample the basis can represent by finite features, whose rest is at most
      [tau]: nothing is said about the learning rate. *)
  Definition calm (p : I * f64) : Prop :=
    (exists phi, b_project b (fst p) = Ret (Ok phi) /\ wf phi /\ size phi = n /\ finite_features phi) /\
    rest n (b_real (rate_at p)) (nn n (acts b p)) (misfit b n ws p) <= tau.

  Context (Fl : b_finite lr = true) (Pl : 0 < b_real lr) (N49 : INR (n + 5) <= bpow radix2 49).

  Lemma calm_rate p : calm p -> b_finite (rate_at p) = true /\ 0 <= b_real (rate_at p) <= b_real lr /\
    b_real (rate_at p) * (nn n (acts b p) * nn n (acts b p)) <= 5 / 4.
  Proof.
    intros [(phi & Pr & W & Sz & Ff) _]. unfold rate_at. rewrite Pr. subst n.
    pose proof (rate64_energy P lr phi W Ff Fl Pl N49) as E. cbv zeta in E.
    rewrite (nn_ext (size phi) (acts b p) (coeff64 phi)); [exact E|]. intros i _. unfold acts. now rewrite Pr.
  Qed.

  Lemma calm_mild p : calm p -> mild b n (rate_at p) ws 2 tau p.
  Proof.
    intros C. destruct (calm_rate p C) as (_ & _ & E). destruct C as [(phi & Pr & W & Sz & Ff) Re].
    split; [exists phi; auto|]. split; [lra|exact Re].
  Qed.

  (** A step of ISGD is one of SGD with that rate, bit for bit. *)
  Lemma isgd_is_sgd w w' p : s_do SGD (MkLFA b w (rate_at p)) (fit64 P p) = Ret (MkLFA b w' (rate_at p)) ->
    (exists phi, b_project b (fst p) = Ret (Ok phi)) -> s_do ISGD (MkLFA b w lr) (fit64 P p) = Ret (MkLFA b w' lr).
  Proof.
    intros E [phi Pr]. unfold rate_at in E. unfold s_do, fit64, omap, s_update_with in *. cbn [fst snd lfa_basis lfa_weights lfa_optimiser] in *.
    rewrite Pr in E |- *. cbn [obind] in *. destruct (dot phi w) as [v|]; [|discriminate]. cbn [obind] in *.
    cbn [o_step_scaled SGD ISGD] in *. unfold sgd_step_scaled, isgd_step_scaled, rate64 in *.
    change (@TableF64.SP P) with SI64 in *. change (@isgd_compute_lr f64 (ScalarF64 P)) with (@isgd_compute_lr f64 SI64) in *.
    destruct (scaled_addto phi (fmul (isgd_compute_lr lr phi) (fsub (snd p) v)) w) as [w2|]; [|discriminate].
    cbn [obind] in *. injection E as ->. reflexivity.
  Qed.

  Lemma isgd_defined w p : calm p -> length w = n -> exists w', length w' = n /\
    s_do ISGD (MkLFA b w lr) (fit64 P p) = Ret (MkLFA b w' lr) /\
    (finite_all w' -> finite_all w /\
     nn n (fun i => val w' i - (val w i + b_real (rate_at p) * sigma n (fun i => acts b p i * (ws i - val w i)) * acts b p i)) <=
     3 * quot n * (nn n (fun i => ws i - val w i) + nn n ws) + tau).
  Proof.
    intros C Lw. destruct (calm_rate p C) as (_ & R0 & _).
    destruct (fit_defined P AO b n (rate_at p) ws 2 tau (proj1 R0) (Rle_refl 2) w p (calm_mild p C) Lw) as (w' & L & E & B).
    exists w'. splits; auto. apply isgd_is_sgd; [exact E|]. destruct C as [(phi & Pr & _) _]. eauto.
  Qed.

  Context (h : list (I * f64)) (w : list f64) (Calm : Forall calm h) (Lw : length w = n).

  Definition irun64 (t : nat) : list f64 :=
    match s_run ISGD (map (fit64 P) (firstn t h)) (MkLFA b w lr) with
    | Ret a => lfa_weights a
    | Panic => []
    end.

  (** The features of the sample of step [t], scaled by the root of its rate. *)
  Definition rates (t : nat) : R := match nth_error h t with Some p => b_real (rate_at p) | None => 0 end.
  Definition scaled (t i : nat) : R := sqrt (rates t) * feats b h t i.

  Lemma irun64_spec t : (t <= length h)%nat ->
    s_run ISGD (map (fit64 P) (firstn t h)) (MkLFA b w lr) = Ret (MkLFA b (irun64 t) lr) /\ length (irun64 t) = n.
  Proof.
    induction t as [|t IH]; intros Lt.
    - unfold irun64. cbn [firstn map s_run ofold]. split; [reflexivity|exact Lw].
    - destruct (IH ltac:(lia)) as [E L]. destruct (nth_error h t) as [p|] eqn:Ep; [|apply nth_error_None in Ep; lia].
      assert (Mp : calm p) by (rewrite Forall_forall in Calm; apply Calm; eapply nth_error_In; eauto).
      destruct (isgd_defined (irun64 t) p Mp L) as (w' & L' & D & _).
      assert (Q : s_run ISGD (map (fit64 P) (firstn (S t) h)) (MkLFA b w lr) = Ret (MkLFA b w' lr)).
      { rewrite (firstn_next h t p Ep), map_app. unfold s_run in *. rewrite ofold_app, E. cbn [obind map ofold]. rewrite D. reflexivity. }
      unfold irun64. rewrite Q. auto.
  Qed.

  Lemma irun64_step t : (t < length h)%nat -> finite_all (irun64 (S t)) -> finite_all (irun64 t) /\
    nn n (fun i => val (irun64 (S t)) i - (val (irun64 t) i +
      rates t * gap n ws (fun t => val (irun64 t)) (feats b h) t * feats b h t i)) <=
    noise n (3 * quot n) tau ws (off n ws (fun t => val (irun64 t)) t).
  Proof.
    intros Lt F. destruct (nth_error h t) as [p|] eqn:Ep; [|apply nth_error_None in Ep; lia].
    assert (Mp : calm p) by (rewrite Forall_forall in Calm; apply Calm; eapply nth_error_In; eauto).
    destruct (irun64_spec t ltac:(lia)) as [E L]. destruct (irun64_spec (S t) Lt) as [E' _].
    destruct (isgd_defined (irun64 t) p Mp L) as (w' & L' & D & B).
    rewrite (firstn_next h t p Ep), map_app in E'. unfold s_run in *. rewrite ofold_app, E in E'. cbn [obind map ofold] in E'. rewrite D in E'.
    cbn [obind] in E'. injection E' as E'. rewrite <- E' in F |- *. destruct (B F) as [F' B']. split; [exact F'|].
    unfold gap, off, noise. unfold rates, feats. rewrite Ep. exact B'.
  Qed.

  Lemma irun64_finite : finite_all (irun64 (length h)) -> forall t, (t <= length h)%nat -> finite_all (irun64 t).
  Proof.
    intros F. assert (Q : forall j, (j <= length h)%nat -> finite_all (irun64 (length h - j))).
    { induction j as [|j IH]; intros Lj; [now rewrite Nat.sub_0_r|]. specialize (IH ltac:(lia)).
      replace (length h - j)%nat with (S (length h - S j)) in IH by lia. apply irun64_step in IH; [|lia]. apply IH. }
    intros t Lt. replace t with (length h - (length h - t))%nat by lia. apply Q. lia.
  Qed.

  Lemma rates_pos t : 0 <= rates t.
  Proof.
    unfold rates. destruct (nth_error h t) as [p|] eqn:Ep; [|lra].
    assert (Mp : calm p) by (rewrite Forall_forall in Calm; apply Calm; eapply nth_error_In; eauto). apply (calm_rate p Mp).
  Qed.

  Lemma scaled_nn t : nn n (scaled t) * nn n (scaled t) = rates t * (nn n (feats b h t) * nn n (feats b h t)).
  Proof.
    unfold scaled. rewrite nn_scale, (Rabs_pos_eq (sqrt _)) by apply sqrt_pos.
    replace (sqrt (rates t) * nn n (feats b h t) * (sqrt (rates t) * nn n (feats b h t))) with
      (sqrt (rates t) * sqrt (rates t) * (nn n (feats b h t) * nn n (feats b h t))) by ring.
    rewrite sqrt_sqrt by apply rates_pos. reflexivity.
  Qed.

  Lemma scaled_energy t : (t < length h)%nat -> 1 * (nn n (scaled t) * nn n (scaled t)) <= 5 / 4.
  Proof.
    intros Lt. rewrite Rmult_1_l, scaled_nn. unfold rates, feats. destruct (nth_error h t) as [p|] eqn:Ep; [|apply nth_error_None in Ep; lia].
    assert (Mp : calm p) by (rewrite Forall_forall in Calm; apply Calm; eapply nth_error_In; eauto). apply (calm_rate p Mp).
  Qed.

  Lemma scaled_gap X t : gap n ws X scaled t = sqrt (rates t) * gap n ws X (feats b h) t.
  Proof.
    unfold gap, scaled. rewrite <- sigma_scal. apply sigma_ext. intros i _. ring.
  Qed.

  Lemma scaled_step t : (t < length h)%nat -> finite_all (irun64 (length h)) ->
    nn n (fun i => val (irun64 (S t)) i - (val (irun64 t) i + 1 * gap n ws (fun t => val (irun64 t)) scaled t * scaled t i)) <=
    noise n (3 * quot n) tau ws (off n ws (fun t => val (irun64 t)) t).
  Proof.
    intros Lt F. pose proof (irun64_finite F (S t) ltac:(lia)) as F'. destruct (irun64_step t Lt F') as [_ B].
    rewrite (nn_ext n _ (fun i => val (irun64 (S t)) i - (val (irun64 t) i +
      rates t * gap n ws (fun t => val (irun64 t)) (feats b h) t * feats b h t i))); [exact B|].
    intros i _. rewrite scaled_gap. unfold scaled.
    replace (1 * (sqrt (rates t) * gap n ws (fun t => val (irun64 t)) (feats b h) t) * (sqrt (rates t) * feats b h t i)) with
      (sqrt (rates t) * sqrt (rates t) * gap n ws (fun t => val (irun64 t)) (feats b h) t * feats b h t i) by ring.
    rewrite sqrt_sqrt by apply rates_pos. reflexivity.
  Qed.
End IsgdRun.

(** The distance to any reference weights, at any learning rate. *)
Theorem isgd_drift64 P {I} (b : Basis f64 I) n lr ws tau h w : let S := ScalarF64 P in any_order P -> b_finite lr = true -> 0 < b_real lr ->
  INR (n + 5) <= bpow radix2 49 -> 0 <= tau -> length w = n -> Forall (calm P b n lr ws tau) h ->
  exists w', s_run ISGD (map (fit64 P) h) (MkLFA b w lr) = Ret (MkLFA b w' lr) /\ length w' = n /\
    (finite_all w' -> nn n (fun i => ws i - val w' i) <=
      (1 + 3 * quot n) ^ length h * (nn n (fun i => ws i - val w i) + INR (length h) * (3 * quot n * nn n ws + tau))).
Proof.
  intros S AO Fl Pl N49 T0 Lw Ca. pose proof (irun64_spec P AO b n lr ws tau Fl Pl N49 h w Ca Lw) as Sp.
  destruct (Sp (length h) (le_n _)) as [E L]. rewrite firstn_all in E. exists (irun64 P b lr h w (length h)). splits; auto.
  intros F. pose proof (quot_nonneg n) as Q0.
  apply (off_bound n 1 (5 / 4) (3 * quot n) tau ws (fun t => val (irun64 P b lr h w t)) (scaled P b lr h) (length h)); auto; try lra.
  - intros t Lt. eapply scaled_energy; eauto.
  - intros t Lt. eapply scaled_step; eauto.
Qed.

(** The sum of the squared gaps, each weighted by the rate of its step. *)
Theorem isgd_regret64 P {I} (b : Basis f64 I) n lr ws tau h w : let S := ScalarF64 P in any_order P -> b_finite lr = true -> 0 < b_real lr ->
  INR (n + 5) <= bpow radix2 49 -> 0 <= tau -> length w = n -> Forall (calm P b n lr ws tau) h ->
  exists W, (forall t, (t <= length h)%nat -> s_run ISGD (map (fit64 P) (firstn t h)) (MkLFA b w lr) = Ret (MkLFA b (W t) lr)) /\
    (finite_all (W (length h)) ->
      let k := length h in let d := nn n (fun i => ws i - val w i) in
      let D := (1 + 3 * quot n) ^ k * (d + INR k * (3 * quot n * nn n ws + tau)) in
      let v := 3 * quot n * (D + nn n ws) + tau in
      3 / 4 * sigma k (fun t => let g := sigma n (fun i => feats b h t i * (ws i - val (W t) i)) in rates P b lr h t * (g * g)) <=
      d * d + INR k * (v * (2 * D + v))).
Proof.
  intros S AO Fl Pl N49 T0 Lw Ca. pose proof (irun64_spec P AO b n lr ws tau Fl Pl N49 h w Ca Lw) as Sp.
  exists (irun64 P b lr h w). split; [intros t Lt; apply (Sp t Lt)|].
  intros F k d D v. pose proof (quot_nonneg n) as Q0. pose proof (nn_nonneg n ws) as W0. pose proof (nn_nonneg n (fun i => ws i - val w i)) as D0. fold d in D0.
  assert (Cz : 0 <= 3 * quot n * nn n ws + tau) by (pose proof (Rmult_le_pos (3 * quot n) _ ltac:(lra) W0); lra).
  set (X := fun t => val (irun64 P b lr h w t)). set (ph := scaled P b lr h).
  assert (En : forall t, (t < k)%nat -> 1 * (nn n (ph t) * nn n (ph t)) <= 5 / 4) by (intros t Lt; eapply scaled_energy; eauto).
  assert (St : forall t, (t < k)%nat -> nn n (fun i => X (Datatypes.S t) i - (X t i + 1 * gap n ws X ph t * ph t i)) <=
      noise n (3 * quot n) tau ws (off n ws X t)) by (intros t Lt; eapply scaled_step; eauto).
  assert (HD : forall t, (t < k)%nat -> off n ws X t <= D).
  { intros t Lt. eapply Rle_trans; [apply (off_bound n 1 (5 / 4) (3 * quot n) tau ws X ph k); auto; try lra; lia|].
    change (off n ws X 0) with d. unfold D.
    assert (1 <= (1 + 3 * quot n) ^ t) by (apply pow_R1_Rle; lra). pose proof (pos_INR t).
    assert (0 <= INR t * (3 * quot n * nn n ws + tau)) by (apply Rmult_le_pos; auto).
    apply Rmult_le_compat; [lra|lra|apply Rle_pow; [lra|lia]|]. apply Rplus_le_compat_l. apply Rmult_le_compat_r; auto. apply le_INR. lia. }
  pose proof (gaps_bound n 1 (5 / 4) (3 * quot n) tau ws X ph k ltac:(lra) ltac:(lra) ltac:(lra) T0 En St D HD k (le_n _)) as G.
  change (off n ws X 0) with d in G. cbv zeta.
  pose proof (Rle_0_sqr (off n ws X k)) as O. unfold Rsqr in O.
  unfold noise in G. fold v in G.
  rewrite (sigma_ext k (fun s => gap n ws X ph s * gap n ws X ph s)
    (fun t => let g := sigma n (fun i => feats b h t i * (ws i - val (irun64 P b lr h w t) i)) in rates P b lr h t * (g * g))) in G.
  - lra.
  - intros t Lt. unfold ph. rewrite (scaled_gap P b n lr ws h X t). cbv zeta. change (sigma n (fun i => feats b h t i * (ws i - val (irun64 P b lr h w t) i))) with (gap n ws X (feats b h) t).
    replace (sqrt (rates P b lr h t) * gap n ws X (feats b h) t * (sqrt (rates P b lr h t) * gap n ws X (feats b h) t)) with
      (sqrt (rates P b lr h t) * sqrt (rates P b lr h t) * (gap n ws X (feats b h) t * gap n ws X (feats b h) t)) by ring.
    rewrite sqrt_sqrt; [reflexivity|]. apply (rates_pos P b n lr ws tau Fl Pl N49 h Ca).
Qed.

Theorem isgd_drift64_round P {I} (b : Basis f64 I) n lr ws tau h w : let S := ScalarF64 P in any_order P -> b_finite lr = true -> 0 < b_real lr ->
  INR (n + 5) <= bpow radix2 49 -> 0 <= tau -> length w = n -> Forall (calm P b n lr ws tau) h -> INR (length h) * INR (n + 5) <= bpow radix2 49 ->
  exists w', s_run ISGD (map (fit64 P) h) (MkLFA b w lr) = Ret (MkLFA b w' lr) /\ length w' = n /\
    (finite_all w' -> let e := INR (length h) * INR (n + 5) * bpow radix2 (-51) in
      nn n (fun i => ws i - val w' i) <= (1 + e) * nn n (fun i => ws i - val w i) + e * nn n ws + 5 / 4 * (INR (length h) * tau)).
Proof.
  intros S AO Fl Pl N49 T0 Lw Mi B. destruct (isgd_drift64 P b n lr ws tau h w AO Fl Pl N49 T0 Lw Mi) as (w' & E & L & D). exists w'. splits; auto.
  intros F e. specialize (D F).
  assert (U : uro = bpow radix2 (-53)) by reflexivity.
  assert (B16 : INR (length h) * INR (n + 5) * uro <= / 16).
  { rewrite U. apply Rle_trans with (bpow radix2 49 * bpow radix2 (-53)); [apply Rmult_le_compat_r; [apply bpow_ge_0|exact B]|].
    rewrite <- bpow_plus. change (bpow radix2 (49 + -53)) with (/ IZR 16). lra. }
  destruct (round_numbers n (length h) B16) as (A1 & A2 & A3).
  assert (Ee : 4 * INR (length h) * INR (n + 5) * uro = e).
  { unfold e. rewrite U. replace (bpow radix2 (-51)) with (4 * bpow radix2 (-53)); [ring|]. change 4 with (bpow radix2 2). rewrite <- bpow_plus. reflexivity. }
  cbv zeta in A1, A2. rewrite Ee in A1, A2. eapply Rle_trans; [exact D|].
  set (p := (1 + 3 * quot n) ^ length h) in *. set (K := INR (length h)) in *.
  pose proof (nn_nonneg n ws) as W0. pose proof (nn_nonneg n (fun i => ws i - val w i)) as D0. assert (K0 : 0 <= K) by apply pos_INR.
  pose proof (Rmult_le_compat_r _ _ _ D0 A1). pose proof (Rmult_le_compat_r _ _ _ W0 A2).
  assert (p * (K * tau) <= 5 / 4 * (K * tau)) by (apply Rmult_le_compat_r; [apply Rmult_le_pos|]; auto). lra.
Qed.

(** A sample of moderate size. *)
Definition steady P {I} (b : Basis f64 I) n lr ws tau (p : I * f64) : Prop :=
  calm P b n lr ws tau p /\ nn n (acts b p) <= bpow radix2 200 /\ within (bpow radix2 400) (snd p).

Lemma steady_tame P {I} (b : Basis f64 I) n lr ws tau p : b_finite lr = true -> 0 < b_real lr -> INR (n + 5) <= bpow radix2 49 ->
  steady P b n lr ws tau p -> tame b n (rate_at P b lr p) ws tau p.
Proof.
  intros Fl Pl N49 (C & Nf & Wy). split; [apply calm_mild; auto|]. splits; auto.
  intros phi E. destruct C as [(phi' & Pr & _ & _ & Ff) _]. rewrite Pr in E. now injection E as <-.
Qed.

(** Nothing overflows. *)
Theorem isgd_stable64 P {I} (b : Basis f64 I) n lr ws tau h w : let S := ScalarF64 P in any_order P -> 0 < b_real lr ->
  within (bpow radix2 200) lr -> 0 <= tau -> length w = n -> finite_all w -> Forall (steady P b n lr ws tau) h ->
  INR (length h) * INR (n + 5) <= bpow radix2 49 -> INR (n + 5) <= bpow radix2 49 ->
  nn n (fun i => ws i - val w i) + nn n ws + INR (length h) * tau <= bpow radix2 199 ->
  exists w', s_run ISGD (map (fit64 P) h) (MkLFA b w lr) = Ret (MkLFA b w' lr) /\ length w' = n /\ finite_all w' /\
    let e := INR (length h) * INR (n + 5) * bpow radix2 (-51) in
      nn n (fun i => ws i - val w' i) <= (1 + e) * nn n (fun i => ws i - val w i) + e * nn n ws + 5 / 4 * (INR (length h) * tau).
Proof.
  intros S AO Pl [Fl L1] T0 Lw Fw Ta K49 N49 Sm.
  assert (Q : exists w', s_run ISGD (map (fit64 P) h) (MkLFA b w lr) = Ret (MkLFA b w' lr) /\ length w' = n /\ finite_all w').
  { induction h as [|p h IH] using rev_ind; [exists w; auto|].
    apply Forall_app in Ta. destruct Ta as [Ta Tp]. inversion Tp as [|? ? Tp' _]; subst x l.
    rewrite app_length in *. cbn [length] in *. rewrite plus_INR in K49, Sm. change (INR 1) with 1 in K49, Sm.
    pose proof (pos_INR (length h)) as H0. pose proof (pos_INR (n + 5)) as N0.
    assert (K1 : INR (length h) * INR (n + 5) <= bpow radix2 49) by lra.
    destruct (IH Ta K1 ltac:(lra)) as (w1 & E1 & Lw1 & F1).
    assert (Mi : Forall (calm P b n lr ws tau) h) by (eapply Forall_impl; [|exact Ta]; intros a A; apply A).
    destruct (isgd_drift64_round P b n lr ws tau h w AO Fl Pl N49 T0 Lw Mi K1) as (w2 & E2 & _ & D). pose proof (eq_trans (eq_sym E1) E2) as E3. injection E3 as <-.
    specialize (D F1). cbv zeta in D. set (e := INR (length h) * INR (n + 5) * bpow radix2 (-51)) in *.
    assert (E4 : 0 <= e <= / 4).
    { unfold e. split; [repeat apply Rmult_le_pos; auto; apply bpow_ge_0|].
      apply Rle_trans with (bpow radix2 49 * bpow radix2 (-51)); [apply Rmult_le_compat_r; [apply bpow_ge_0|exact K1]|].
      rewrite <- bpow_plus. change (bpow radix2 (49 + -51)) with (/ IZR 4). lra. }
    pose proof (nn_nonneg n ws) as W0. pose proof (nn_nonneg n (fun i => ws i - val w i)) as D0.
    assert (Nw : nn n (val w1) <= bpow radix2 200).
    { eapply Rle_trans; [apply (nn_from n ws)|]. replace 200%Z with (1 + 199)%Z by lia. rewrite bpow_plus. change (bpow radix2 1) with 2.
      pose proof (Rmult_le_compat_r _ _ _ D0 (proj2 E4)). pose proof (Rmult_le_compat_r _ _ _ W0 (proj2 E4)).
      pose proof (Rmult_le_pos _ _ H0 T0). lra. }
    pose proof (steady_tame P b n lr ws tau p Fl Pl N49 Tp') as Tm.
    destruct (calm_rate P b n lr ws tau Fl Pl N49 p (proj1 Tp')) as (Fr & Rr & _).
    assert (Wr : within (bpow radix2 200) (rate_at P b lr p)).
    { split; [exact Fr|]. rewrite Rabs_pos_eq by lra. rewrite Rabs_pos_eq in L1 by lra. lra. }
    destruct (fit_finite P AO b n (rate_at P b lr p) ws tau Wr N49 w1 p Tm Lw1 F1 Nw) as (w' & L' & F' & E').
    apply isgd_is_sgd in E'; [|destruct Tp' as [[(phi & Pr & _) _] _]; eauto].
    exists w'. splits; auto. rewrite map_app. unfold s_run in *. rewrite ofold_app, E1. cbn [obind map ofold].
    exact (f_equal (fun o => obind o (fun a => Ret a)) E'). }
  destruct Q as (w' & E & L & F). exists w'. splits; auto.
  assert (Mi : Forall (calm P b n lr ws tau) h) by (eapply Forall_impl; [|exact Ta]; intros a A; apply A).
  destruct (isgd_drift64_round P b n lr ws tau h w AO Fl Pl N49 T0 Lw Mi K49) as (w2 & E2 & _ & D). pose proof (eq_trans (eq_sym E) E2) as E3. injection E3 as <-. exact (D F).
Qed.

(** One sample over and over is SGD at its rate. *)
Lemma isgd_repeat_sgd P {I} (b : Basis f64 I) lr p k : let S := ScalarF64 P in (exists phi, b_project b (fst p) = Ret (Ok phi)) -> forall w w',
  s_run SGD (map (fit64 P) (repeat p k)) (MkLFA b w (rate_at P b lr p)) = Ret (MkLFA b w' (rate_at P b lr p)) ->
  s_run ISGD (map (fit64 P) (repeat p k)) (MkLFA b w lr) = Ret (MkLFA b w' lr).
Proof.
  intros S Pr. induction k as [|k IH]; intros w w' E; [injection E as ->; reflexivity|].
  unfold s_run in *. cbn [repeat map ofold] in *.
  destruct (s_do SGD (MkLFA b w (rate_at P b lr p)) (fit64 P p)) as [[b1 w1 l1]|] eqn:E1; [|discriminate]. cbn [obind] in E.
  assert (B1 : b1 = b /\ l1 = rate_at P b lr p).
  { clear - E1 Pr. destruct Pr as [phi Pr]. unfold s_do, fit64, omap, s_update_with in E1. cbn [fst snd lfa_basis lfa_weights lfa_optimiser] in E1.
    rewrite Pr in E1. cbn [obind] in E1. destruct (dot phi w) as [v|]; [|discriminate]. cbn [obind o_step_scaled SGD] in E1. unfold sgd_step_scaled in E1.
    destruct (scaled_addto phi _ w) as [w2|]; [|discriminate]. cbn [obind] in E1. injection E1 as <- _ <-. auto. }
  destruct B1 as [-> ->]. pose proof (isgd_is_sgd P b lr w w1 p E1 Pr) as E2.
  apply IH in E. exact (eq_trans (f_equal (fun o => obind o (fun a => ofold (s_do ISGD) (map (fit64 P) (repeat p k)) a)) E2) E).
Qed.

(** One sample over and over: the gap shrinks by the implicit factor
    [1 / (1 + lr |phi|^2)], up to [(n + 5) 2^-52], down to the noise. *)
Theorem isgd_repeat64 P {I} (b : Basis f64 I) n lr ws tau p k w : let S := ScalarF64 P in any_order P -> 0 < b_real lr ->
  within (bpow radix2 200) lr -> INR (n + 5) <= bpow radix2 49 ->
  0 <= tau -> length w = n -> steady P b n lr ws tau p ->
  exists w', s_run ISGD (map (fit64 P) (repeat p k)) (MkLFA b w lr) = Ret (MkLFA b w' lr) /\
    (finite_all w' ->
      let f := nn n (acts b p) in let d := nn n (fun i => ws i - val w i) in
      let D := (1 + 3 * quot n) ^ k * (d + INR k * (3 * quot n * nn n ws + tau)) in
      let v := 3 * quot n * (D + nn n ws) + tau in let rho := / (1 + b_real lr * (f * f)) + INR (n + 5) * bpow radix2 (-52) in
      rho < 1 ->
      Rabs (sigma n (fun i => acts b p i * (ws i - val w' i))) <=
        rho ^ k * Rabs (sigma n (fun i => acts b p i * (ws i - val w i))) + f * v / (1 - rho)).
Proof.
  intros S AO Pl [Fl L1] N49 T0 Lw St. destruct (steady_tame P b n lr ws tau p Fl Pl N49 St) as (Mi & Ff & Nf & _).
  destruct (calm_rate P b n lr ws tau Fl Pl N49 p (proj1 St)) as (Fr & Rr & _).
  destruct (repeat64 P b n (rate_at P b lr p) ws tau p k w AO (proj1 Rr) T0 Lw Mi) as (w' & E & B).
  exists w'. destruct Mi as ((phi & Pr & W & Sz) & _). split; [apply isgd_repeat_sgd; eauto|].
  intros F f d D v rho R1. specialize (B F). cbv zeta in B. fold f in B. fold d in B. fold D in B. fold v in B.
  assert (Nr : Rabs (1 - b_real (rate_at P b lr p) * (f * f)) <= rho).
  { assert (Ef : forall i, acts b p i = coeff64 phi i) by (intros i; unfold acts; now rewrite Pr).
    assert (Ef' : f = nn (size phi) (coeff64 phi)) by (unfold f; rewrite Sz; apply nn_ext; auto).
    pose proof (rate64_near P lr phi W (Ff phi Pr) (conj Fl L1) Pl) as Nr. cbv zeta in Nr. rewrite <- Ef', Sz in Nr.
    specialize (Nr N49 Nf). unfold rate_at. rewrite Pr. set (c := b_real (rate64 P lr phi)) in *. set (s := b_real lr * (f * f)) in *.
    assert (S0 : 0 <= s) by (apply Rmult_le_pos; [lra|apply Rle_0_sqr]).
    assert (X : 1 - c * (f * f) = / (1 + s) - (c * (f * f) - s / (1 + s))) by (field; lra).
    rewrite X. unfold rho. fold s. eapply Rle_trans; [apply Rabs_triang|]. rewrite Rabs_Ropp, (Rabs_pos_eq (/ (1 + s))); [lra|].
    left. apply Rinv_0_lt_compat. lra. }
  set (r0 := Rabs (1 - b_real (rate_at P b lr p) * (f * f))) in *. assert (R0 : 0 <= r0) by apply Rabs_pos.
  eapply Rle_trans; [apply B; lra|]. apply Rplus_le_compat.
  - apply Rmult_le_compat_r; [apply Rabs_pos|]. apply pow_incr. lra.
  - unfold Rdiv. apply Rmult_le_compat_l; [|apply Rinv_le; lra].
    pose proof (quot_nonneg n) as Q0. pose proof (nn_nonneg n ws) as W0. pose proof (nn_nonneg n (fun i => ws i - val w i)) as D0. fold d in D0.
    assert (Cz : 0 <= 3 * quot n * nn n ws + tau) by (pose proof (Rmult_le_pos (3 * quot n) _ ltac:(lra) W0); lra).
    assert (0 <= D).
    { unfold D. apply Rmult_le_pos; [apply pow_le; lra|]. pose proof (Rmult_le_pos (INR k) _ (pos_INR k) Cz). lra. }
    apply Rmult_le_pos; [apply nn_nonneg|]. unfold v. pose proof (Rmult_le_pos (3 * quot n) (D + nn n ws) ltac:(lra) ltac:(lra)). lra.
Qed.
