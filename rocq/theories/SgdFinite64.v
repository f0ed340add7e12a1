(** Runs of SGD in binary64 on moderate numbers do not overflow (C77). *)
From Coq Require Import List Arith ZArith Lia Reals Lra Bool Psatz Permutation.
From Flocq Require Import Core.Core IEEE754.BinarySingleNaN.
From Verif Require Import Base Scalar ScalarR ScalarF64 F64Facts HMap HMapFacts NdArray VecFacts Features Spec FeatureFacts FeatureMore
  SumOrder FeatureF64 NormF64 NonnegF64 BoundF64 FeatureLast Optim OptimSpec OptimReal Lfa LfaSpec Basis Passes EndToEnd TableF64 SgdF64 SgdRun64.
Import ListNotations.
Local Open Scope R_scope.

Lemma adds_within C l x : adds l x -> 0 <= C -> Forall (within C) l -> INR (length l) * C * (1 + uro) ^ length l < bpow radix2 1024 ->
  within (INR (length l) * C * (1 + uro) ^ length l) x.
Proof.
  intros A C0. pose proof uro_pos as Up. induction A as [|x|l1 l2 l x y A1 IH1 A2 IH2 Pm]; intros W B.
  - split; [reflexivity|]. change (b_real b_zero) with 0. rewrite Rabs_R0. simpl. lra.
  - inversion W as [|? ? [F L] _]; subst. split; auto. cbn [length] in *. simpl. nra.
  - assert (Ll : length l = (length l1 + length l2)%nat) by (rewrite <- (Permutation_length Pm), app_length; reflexivity).
    assert (Wa : Forall (within C) (l1 ++ l2)) by (eapply Permutation_Forall; [apply Permutation_sym; exact Pm|exact W]).
    apply Forall_app in Wa. destruct Wa as [W1 W2].
    pose proof (pow_1_uro (length l1)) as P1. pose proof (pow_1_uro (length l2)) as P2. pose proof (pos_INR (length l1)) as N1. pose proof (pos_INR (length l2)) as N2.
    assert (M : forall j, (j <= length l)%nat -> INR j * C * (1 + uro) ^ j <= INR (length l) * C * (1 + uro) ^ length l).
    { intros j Lj. apply Rmult_le_compat; [apply Rmult_le_pos; auto using pos_INR|pose proof (pow_1_uro j); lra| |apply pow_uro_le; auto].
      apply Rmult_le_compat_r; auto. apply le_INR; auto. }
    specialize (IH1 W1 (Rle_lt_trans _ _ _ (M (length l1) ltac:(lia)) B)). specialize (IH2 W2 (Rle_lt_trans _ _ _ (M (length l2) ltac:(lia)) B)).
    destruct l1 as [|a1 l1].
    { apply adds_nil in A1. subst x. destruct (zero_add y (proj1 IH2)) as [Fz Ez]. split; auto. rewrite Ez.
      replace (length l) with (length l2) by (rewrite Ll; reflexivity). apply IH2. }
    destruct l2 as [|a2 l2].
    { apply adds_nil in A2. subst y. split.
      - apply (b_add_rnd x b_zero (Rabs (b_real x))); [apply IH1|reflexivity| |].
        + change (b_real b_zero) with 0. rewrite Rplus_0_r. rewrite rnd64_id; [lra|apply (generic_format_B2R 53 1024)].
        + eapply Rle_lt_trans; [apply IH1|]. eapply Rle_lt_trans; [apply M|exact B]. lia.
      - assert (Q : b_finite (b_add x b_zero) = true).
        { apply (b_add_rnd x b_zero (Rabs (b_real x))); [apply IH1|reflexivity| |].
          + change (b_real b_zero) with 0. rewrite Rplus_0_r. rewrite rnd64_id; [lra|apply (generic_format_B2R 53 1024)].
          + eapply Rle_lt_trans; [apply IH1|]. eapply Rle_lt_trans; [apply M|exact B]. lia. }
        rewrite b_add_real_zero_r by exact Q. replace (length l) with (length (a1 :: l1)) by (rewrite Ll; cbn [length]; lia). apply IH1. }
    set (n1 := length (a1 :: l1)) in *. set (n2 := length (a2 :: l2)) in *.
    assert (S1 : INR n1 * C * (1 + uro) ^ n1 <= INR n1 * C * (1 + uro) ^ (length l - 1)).
    { apply Rmult_le_compat_l; [apply Rmult_le_pos; auto|]. apply pow_uro_le. unfold n1, n2 in *. cbn [length] in *. lia. }
    assert (S2 : INR n2 * C * (1 + uro) ^ n2 <= INR n2 * C * (1 + uro) ^ (length l - 1)).
    { apply Rmult_le_compat_l; [apply Rmult_le_pos; auto|]. apply pow_uro_le. unfold n1, n2 in *. cbn [length] in *. lia. }
    assert (E : (INR n1 * C * (1 + uro) ^ (length l - 1) + INR n2 * C * (1 + uro) ^ (length l - 1)) * (1 + uro) = INR (length l) * C * (1 + uro) ^ length l).
    { replace ((1 + uro) ^ length l) with ((1 + uro) ^ (length l - 1) * (1 + uro)).
      - rewrite Ll at 3. rewrite plus_INR. ring.
      - replace (length l) with (S (length l - 1)) at 2 by (unfold n1 in *; cbn [length] in *; lia). simpl. ring. }
    rewrite <- E in *. apply b_add_drift; auto; eapply within_le; eauto.
Qed.

(** A fused operation on numbers that are not tiny. *)
Lemma b_fma_drift a b x W : b_finite a = true -> b_finite b = true -> b_finite x = true -> bpow radix2 (-1022) <= W ->
  Rabs (b_real a * b_real b + b_real x) <= W -> W * (1 + uro) < bpow radix2 1024 ->
  within (W * (1 + uro)) (b_fma a b x).
Proof.
  intros Fa Fb Fx Lw L S. pose proof (bpow_gt_0 radix2 (-1022)) as P0.
  assert (Q : Rabs (rnd64 (b_real a * b_real b + b_real x)) <= W * (1 + uro)).
  { eapply Rle_trans with (rnd64 W).
    - apply Rabs_le. apply Rabs_le_inv in L. unfold rnd64. rewrite <- (round_NE_opp radix2 _ W). split; apply round_le; try apply fexp_correct; try apply f64_prec; try apply valid_rnd_N; lra.
    - destruct (@Relative.relative_error_N_FLT_ex radix2 (-1074) 53 eq_refl (fun z => negb (Z.even z)) W) as (e & E & Q).
      { rewrite Rabs_pos_eq by lra. exact Lw. }
      change (rnd64 W = W * (1 + e)) in Q. rewrite Q. apply Rmult_le_compat_l; [lra|]. change (/ 2 * bpow radix2 (- (53) + 1)) with (Relative.u_ro radix2 53) in E.
      rewrite u_ro_uro in E. apply Rabs_le_inv in E. lra. }
  pose proof (Bfma_correct 53 1024 f64_prec f64_emax mode_NE a b x Fa Fb Fx) as C. cbv zeta in C.
  fold (b_fma a b x) in C. fold (rnd64 (b_real a * b_real b + b_real x)) in C. rewrite Rlt_bool_true in C by lra.
  destruct C as (C1 & C2 & _). split; [exact C2|]. rewrite C1. exact Q.
Qed.

Lemma dots_within C L x : dots L x -> fmt64 C -> bpow radix2 (-1022) <= C ->
  Forall (fun p => b_finite (fst p) = true /\ b_finite (snd p) = true /\ Rabs (prod_of p) <= C) L ->
  INR (length L) * C * (1 + uro) ^ length L < bpow radix2 1024 ->
  within (INR (length L) * C * (1 + uro) ^ length L) x.
Proof.
  intros D G C1. pose proof uro_pos as Up. pose proof (bpow_gt_0 radix2 (-1022)) as P0. assert (C0 : 0 <= C) by lra.
  assert (M0 : forall i j, (i <= j)%nat -> INR i * C * (1 + uro) ^ i <= INR j * C * (1 + uro) ^ j).
  { intros i j Lj. apply Rmult_le_compat; [apply Rmult_le_pos; auto using pos_INR|pose proof (pow_1_uro i); lra| |apply pow_uro_le; auto].
    apply Rmult_le_compat_r; auto. apply le_INR; auto. }
  induction D as [|a b|l1 l a b x D IH P|l1 l2 l x y D1 IH1 D2 IH2 P]; intros W B.
  - split; [reflexivity|]. change (b_real b_zero) with 0. rewrite Rabs_R0. simpl. lra.
  - inversion W as [|? ? (Fa & Fb & L) _]; subst. cbn [length fst snd INR] in *.
    assert (Q : C <= 1 * C * (1 + uro) ^ 1). { simpl. assert (0 <= uro * C) by (apply Rmult_le_pos; lra). lra. }
    eapply within_le; [|exact Q]. apply b_mul_within; auto. lra.
  - assert (E : length l = S (length l1)) by (rewrite <- (Permutation_length P); reflexivity).
    assert (Wa := Permutation_Forall (Permutation_sym P) W). inversion Wa as [|? ? (Fa & Fb & L) W1]; subst. cbn [fst snd] in *.
    rewrite E in *. specialize (IH W1 (Rle_lt_trans _ _ _ (M0 _ _ (Nat.le_succ_diag_r _)) B)). destruct IH as [Fx Lx].
    set (n := length l1) in *. rewrite S_INR in *. change ((1 + uro) ^ S n) with ((1 + uro) * (1 + uro) ^ n) in *.
    assert (Q1 : 1 <= (1 + uro) ^ n) by apply pow_1_uro. set (q := (1 + uro) ^ n) in *.
    assert (Cq : C <= C * q) by (rewrite <- (Rmult_1_r C) at 1; apply Rmult_le_compat_l; auto).
    assert (N0 := pos_INR n). assert (0 <= INR n * C * q) by (apply Rmult_le_pos; [apply Rmult_le_pos; auto|lra]).
    replace ((INR n + 1) * C * ((1 + uro) * q)) with ((INR n * C * q + C * q) * (1 + uro)) in * by ring.
    apply b_fma_drift; auto; [lra|]. eapply Rle_trans; [apply Rabs_triang|]. unfold prod_of in L. cbn [fst snd] in L. lra.
  - assert (Ll : length l = (length l1 + length l2)%nat) by (rewrite <- (Permutation_length P), app_length; reflexivity).
    assert (Wa := Permutation_Forall (Permutation_sym P) W). apply Forall_app in Wa. destruct Wa as [W1 W2].
    specialize (IH1 W1 (Rle_lt_trans _ _ _ (M0 (length l1) (length l) ltac:(lia)) B)).
    specialize (IH2 W2 (Rle_lt_trans _ _ _ (M0 (length l2) (length l) ltac:(lia)) B)).
    destruct l1 as [|a1 l1].
    { apply dots_nil in D1. subst x. destruct (zero_add y (proj1 IH2)) as [Fz Ez]. split; auto. rewrite Ez.
      replace (length l) with (length l2) by (rewrite Ll; reflexivity). apply IH2. }
    destruct l2 as [|a2 l2].
    { apply dots_nil in D2. subst y.
      assert (Q : b_finite (b_add x b_zero) = true).
      { apply (b_add_rnd x b_zero (Rabs (b_real x))); [apply IH1|reflexivity| |].
        + change (b_real b_zero) with 0. rewrite Rplus_0_r. rewrite rnd64_id; [lra|apply (generic_format_B2R 53 1024)].
        + eapply Rle_lt_trans; [apply IH1|]. eapply Rle_lt_trans; [apply M0|exact B]. lia. }
      split; [exact Q|]. rewrite b_add_real_zero_r by exact Q.
      replace (length l) with (length (a1 :: l1)) by (rewrite Ll; cbn [length]; lia). apply IH1. }
    set (n1 := length (a1 :: l1)) in *. set (n2 := length (a2 :: l2)) in *. pose proof (pos_INR n1). pose proof (pos_INR n2).
    assert (S1 : INR n1 * C * (1 + uro) ^ n1 <= INR n1 * C * (1 + uro) ^ (length l - 1)).
    { apply Rmult_le_compat_l; [apply Rmult_le_pos; auto|]. apply pow_uro_le. unfold n1, n2 in *. cbn [length] in *. lia. }
    assert (S2 : INR n2 * C * (1 + uro) ^ n2 <= INR n2 * C * (1 + uro) ^ (length l - 1)).
    { apply Rmult_le_compat_l; [apply Rmult_le_pos; auto|]. apply pow_uro_le. unfold n1, n2 in *. cbn [length] in *. lia. }
    assert (E : (INR n1 * C * (1 + uro) ^ (length l - 1) + INR n2 * C * (1 + uro) ^ (length l - 1)) * (1 + uro) = INR (length l) * C * (1 + uro) ^ length l).
    { replace ((1 + uro) ^ length l) with ((1 + uro) ^ (length l - 1) * (1 + uro)).
      - rewrite Ll at 3. rewrite plus_INR. ring.
      - replace (length l) with (S (length l - 1)) at 2 by (unfold n1 in *; cbn [length] in *; lia). simpl. ring. }
    rewrite <- E in *. apply b_add_drift; auto; eapply within_le; eauto.
Qed.

Lemma nn_coord n x i : (i < n)%nat -> Rabs (x i) <= nn n x.
Proof.
  intros Li. rewrite <- (sqrt_Rsqr_abs (x i)). unfold nn. apply sqrt_le_1_alt.
  exact (sigma_term (fun i => x i * x i) (fun i => Rle_0_sqr (x i)) n i Li).
Qed.

Lemma two_pow_lt a c : (a < c)%Z -> bpow radix2 a < bpow radix2 c.
Proof. apply bpow_lt. Qed.

(** The product of two moderate vectors. *)
Lemma dot_within P (phi : Features f64) l w v : let S := ScalarF64 P in any_order P -> wf phi -> expands phi l ->
  length w = size phi -> finite_all l -> finite_all w -> let n := size phi in
  nn n (val l) <= bpow radix2 200 -> nn n (val w) <= bpow radix2 200 -> INR n * (1 + uro) ^ n <= bpow radix2 50 ->
  dot phi w = Ret v -> within (bpow radix2 450) v.
Proof.
  intros S [AO1 AO] [K B] X Lw Fl Fw n Nl Nw Nn Dv. assert (Ll : length l = n) by apply X.
  assert (Pw : forall i, (i < n)%nat -> within (bpow radix2 200) (nth i w b_zero)).
  { intros i Li. split; [unfold finite_all in Fw; rewrite Forall_forall in Fw; apply Fw, nth_In; fold n in Lw; lia|].
    eapply Rle_trans; [apply (nn_coord n (val w) i Li)|exact Nw]. }
  assert (Pl : forall i, (i < n)%nat -> within (bpow radix2 200) (nth i l b_zero)).
  { intros i Li. split; [unfold finite_all in Fl; rewrite Forall_forall in Fl; apply Fl, nth_In; lia|].
    eapply Rle_trans; [apply (nn_coord n (val l) i Li)|exact Nl]. }
  assert (Pr : forall x y, within (bpow radix2 200) x -> within (bpow radix2 200) y -> within (bpow radix2 400) (b_mul x y)).
  { intros x y [Fx Lx] [Fy Ly]. apply b_mul_within; auto; [apply fmt_bpow; lia|apply bpow_lt; lia|].
    rewrite Rabs_mult. replace 400%Z with (200 + 200)%Z by lia. rewrite bpow_plus. apply Rmult_le_compat; auto using Rabs_pos. }
  assert (Sm : forall terms, adds terms v -> (length terms <= n)%nat -> Forall (within (bpow radix2 400)) terms -> within (bpow radix2 450) v).
  { intros terms Ad Lt Wt. pose proof (pos_INR (length terms)). pose proof (bpow_gt_0 radix2 400).
    assert (Q : INR (length terms) * bpow radix2 400 * (1 + uro) ^ length terms <= bpow radix2 450).
    { replace 450%Z with (50 + 400)%Z by lia. rewrite (bpow_plus radix2 50 400).
      replace (INR (length terms) * bpow radix2 400 * (1 + uro) ^ length terms) with (INR (length terms) * (1 + uro) ^ length terms * bpow radix2 400) by ring.
      apply Rmult_le_compat_r; [lra|]. eapply Rle_trans; [|exact Nn]. apply Rmult_le_compat; auto; [pose proof (pow_1_uro (length terms)); lra|apply le_INR; auto|apply pow_uro_le; auto]. }
    eapply within_le; [|exact Q]. apply adds_within; auto; [lra|]. eapply Rle_lt_trans; [exact Q|]. apply bpow_lt. lia. }
  destruct phi as [da|[d m]].
  - apply expands_dense in X. subst l. cbn [dot] in Dv. unfold dot1 in Dv. cbn [size] in *.
    rewrite (proj2 (Nat.eqb_eq _ _)) in Dv by auto. injection Dv as <-.
    pose proof (AO da w (eq_sym Lw)) as Ad.
    assert (Le : length (combine da w) = n) by (rewrite combine_length, Lw; apply Nat.min_id).
    assert (Q : INR n * bpow radix2 400 * (1 + uro) ^ n <= bpow radix2 450).
    { replace 450%Z with (50 + 400)%Z by lia. rewrite (bpow_plus radix2 50 400). pose proof (bpow_gt_0 radix2 400).
      replace (INR n * bpow radix2 400 * (1 + uro) ^ n) with (INR n * (1 + uro) ^ n * bpow radix2 400) by ring.
      apply Rmult_le_compat_r; [lra|exact Nn]. }
    eapply within_le; [|exact Q]. rewrite <- Le. apply dots_within; auto.
    + apply fmt_bpow. lia.
    + apply bpow_le. lia.
    + rewrite (combine_seq b_zero b_zero) by auto. apply Forall_forall. intros z Iz. apply in_map_iff in Iz.
      destruct Iz as (i & <- & Ii). apply in_seq in Ii. cbn [fst snd]. unfold prod_of. cbn [fst snd].
      destruct (Pl i ltac:(unfold n; lia)) as [Fx Lx]. destruct (Pw i ltac:(unfold n; lia)) as [Fy Ly]. splits; auto.
      rewrite Rabs_mult. replace 400%Z with (200 + 200)%Z by lia. rewrite bpow_plus. apply Rmult_le_compat; auto using Rabs_pos.
    + rewrite Le. eapply Rle_lt_trans; [exact Q|]. apply bpow_lt. lia.
  - rewrite bounded_sparse in B. apply dot_f64_fold in Dv. subst v.
    pose proof (adds_fold0 (dot_terms m w)) as Ad. eapply Sm; [exact Ad| |].
    + unfold dot_terms. rewrite map_length. apply (keys_le m d K B).
    + unfold dot_terms. apply Forall_forall. intros z Iz. apply in_map_iff in Iz. destruct Iz as ([k v0] & <- & Ik). cbn [fst snd].
      assert (Lk : (k < d)%nat) by (apply B, in_map_iff; exists (k, v0); auto).
      apply Pr; [apply Pw; exact Lk|]. assert (St : stores (Sparse (MkSparse d m)) k v0) by exact Ik.
      destruct (nth_error l k) as [x|] eqn:Ex; [|apply nth_error_None in Ex; exfalso; exact (Nat.lt_irrefl _ (Nat.le_lt_trans _ _ _ (eq_ind _ (fun z => (z <= k)%nat) Ex _ Ll) Lk))].
      destruct (proj2 X k x Ex) as [St'|[Ns _]]; [|exfalso; apply Ns; exists v0; exact St].
      apply get_stores in St; auto. apply get_stores in St'; auto.
      assert (x = v0) by congruence. subst x. specialize (Pl k Lk). rewrite (nth_error_nth _ _ _ Ex) in Pl. exact Pl.
Qed.

(** A step on moderate numbers stays finite. *)
Lemma sgd_finite P (phi : Features f64) l w lr y v w' : let S := ScalarF64 P in any_order P -> wf phi -> expands phi l ->
  length w = size phi -> finite_all l -> finite_all w -> let n := size phi in
  nn n (val l) <= bpow radix2 200 -> nn n (val w) <= bpow radix2 200 -> INR n * (1 + uro) ^ n <= bpow radix2 50 ->
  within (bpow radix2 200) lr -> within (bpow radix2 400) y ->
  dot phi w = Ret v -> scaled_addto phi (fmul lr (fsub y v)) w = Ret w' -> finite_all w'.
Proof.
  intros S AO W X Lw Fl Fw n Nl Nw Nn Wl Wy Dv Aw.
  pose proof (dot_within P phi l w v AO W X Lw Fl Fw Nl Nw Nn Dv) as Wv.
  assert (We : within (bpow radix2 451) (b_sub y v)).
  { apply b_sub_within; [apply Wy|apply Wv| |apply bpow_lt; lia]. apply rnd64_abs; [apply fmt_bpow; lia|].
    replace 451%Z with (1 + 450)%Z by lia. rewrite bpow_plus. change (bpow radix2 1) with 2.
    assert (bpow radix2 400 <= bpow radix2 450) by (apply bpow_le; lia). destruct Wy as [_ Ly], Wv as [_ Lv].
    unfold Rminus. eapply Rle_trans; [apply Rabs_triang|]. rewrite Rabs_Ropp. lra. }
  assert (Wa : within (bpow radix2 651) (b_mul lr (b_sub y v))).
  { apply b_mul_within; [apply Wl|apply We|apply fmt_bpow; lia|apply bpow_lt; lia|].
    rewrite Rabs_mult. replace 651%Z with (200 + 451)%Z by lia. rewrite bpow_plus. apply Rmult_le_compat; auto using Rabs_pos; [apply Wl|apply We]. }
  destruct (scaled_addto_spec phi (fmul lr (fsub y v)) w (proj1 W) (wf_fits phi w W (eq_sym Lw))) as (w2 & E2 & Len & Bp).
  rewrite E2 in Aw. injection Aw as ->. apply Forall_forall. intros x Ix. destruct (In_nth w' x b_zero Ix) as (i & Li & <-).
  assert (Ln : (i < n)%nat) by (unfold n; rewrite <- Lw; rewrite Len in Li; exact Li).
  destruct (nth_error w i) as [a|] eqn:Ea; [|apply nth_error_None in Ea; rewrite Len in Li; apply Nat.lt_nge in Li; contradiction].
  destruct (Bp i a Ea) as [B1 B2].
  assert (Wi : within (bpow radix2 200) a).
  { split; [unfold finite_all in Fw; rewrite Forall_forall in Fw; apply Fw; eapply nth_error_In; eauto|].
    pose proof (nn_coord n (val w) i Ln) as C. unfold val in C at 1. rewrite (nth_error_nth _ _ _ Ea) in C. lra. }
  destruct (nth_error l i) as [f|] eqn:Ef; [|apply nth_error_None in Ef; unfold n in Ln; rewrite (proj1 X) in Ef; apply Nat.lt_nge in Ln; contradiction].
  destruct (proj2 X i f Ef) as [St|[Ns _]].
  - specialize (B1 f St). rewrite (nth_error_nth _ _ _ B1). change (b_finite (b_add a (b_mul (b_mul lr (b_sub y v)) f)) = true).
    assert (Wf : within (bpow radix2 200) f).
    { split; [unfold finite_all in Fl; rewrite Forall_forall in Fl; apply Fl; eapply nth_error_In; eauto|].
      pose proof (nn_coord n (val l) i Ln) as C. unfold val in C at 1. rewrite (nth_error_nth _ _ _ Ef) in C. lra. }
    assert (Wm : within (bpow radix2 851) (b_mul (b_mul lr (b_sub y v)) f)).
    { apply b_mul_within; [apply Wa|apply Wf|apply fmt_bpow; lia|apply bpow_lt; lia|].
      rewrite Rabs_mult. replace 851%Z with (651 + 200)%Z by lia. rewrite bpow_plus. apply Rmult_le_compat; auto using Rabs_pos; [apply Wa|apply Wf]. }
    apply (b_add_rnd _ _ (bpow radix2 852)); [apply Wi|apply Wm| |apply bpow_lt; lia]. apply rnd64_abs; [apply fmt_bpow; lia|].
    replace 852%Z with (1 + 851)%Z by lia. rewrite bpow_plus. change (bpow radix2 1) with 2.
    assert (bpow radix2 200 <= bpow radix2 851) by (apply bpow_le; lia). destruct Wi as [_ Ly], Wm as [_ Lv].
    eapply Rle_trans; [apply Rabs_triang|]. lra.
  - specialize (B2 Ns). rewrite (nth_error_nth _ _ _ B2). apply Wi.
Qed.

Lemma expands_finite P (phi : Features f64) l : let S := ScalarF64 P in expands phi l -> finite_features phi -> finite_all l.
Proof.
  intros S X F. apply Forall_forall. intros x Ix. destruct (In_nth_error l x Ix) as [i E].
  destruct (proj2 X i x E) as [St|[_ ->]]; [eapply F; eauto|]. unfold S. rewrite fzero_f64. reflexivity.
Qed.

Section Tame.
  Context (P : Platform) (AO : any_order P) {I : Type} (b : Basis f64 I) (n : nat) (lr : f64) (ws : nat -> R) (tau : R).
  #[local] Instance ST64 : Scalar f64 := ScalarF64 P.

  (** A sample of moderate size: finite features of length at most 2^200, and a
      target of at most 2^400. *)
  Definition tame (p : I * f64) : Prop :=
    mild b n lr ws 2 tau p /\ (forall phi, b_project b (fst p) = Ret (Ok phi) -> finite_features phi) /\
    nn n (acts b p) <= bpow radix2 200 /\ within (bpow radix2 400) (snd p).

  Context (L0 : 0 <= b_real lr) (L1 : within (bpow radix2 200) lr).
  Context (N49 : INR (n + 5) <= bpow radix2 49).

  Lemma many_terms : INR n * (1 + uro) ^ n <= bpow radix2 50.
  Proof.
    pose proof (pow_small uro n ltac:(pose proof uro_pos; lra)) as S. pose proof (pos_INR n) as N0. pose proof (pow_1_uro n) as P1.
    assert (Nn : INR n <= bpow radix2 49) by (rewrite plus_INR in N49; pose proof (pos_INR 5); lra).
    assert (U : INR n * uro <= / 16).
    { apply Rle_trans with (bpow radix2 49 * bpow radix2 (-53)); [apply Rmult_le_compat_r; [apply bpow_ge_0|exact Nn]|].
      rewrite <- bpow_plus. change (bpow radix2 (49 + -53)) with (/ IZR 16). lra. }
    assert (P2 : (1 + uro) ^ n <= 2).
    { set (p := (1 + uro) ^ n) in *. assert (p * (15 / 16) <= p * (1 - INR n * uro)) by (apply Rmult_le_compat_l; lra). lra. }
    replace 50%Z with (49 + 1)%Z by lia. rewrite bpow_plus. change (bpow radix2 1) with 2. apply Rmult_le_compat; lra.
  Qed.

  Lemma fit_finite w p : tame p -> length w = n -> finite_all w -> nn n (val w) <= bpow radix2 200 ->
    exists w', length w' = n /\ finite_all w' /\ s_do SGD (MkLFA b w lr) (fit64 P p) = Ret (MkLFA b w' lr).
  Proof.
    intros (((phi & Pr & W & Sz) & En & Re) & Ff & Nf & Wy) Lw Fw Nw. destruct (expands_exists phi (proj1 W)) as [l X].
    assert (Fi : FeatureFacts.fits phi w) by (apply wf_fits; auto; congruence).
    assert (Dd : exists v, dot phi w = Ret v) by (apply (dot_sized phi w n); [split; auto|exact Lw]). destruct Dd as [v Dv].
    destruct (scaled_addto_spec phi (fmul lr (fsub (snd p) v)) w (proj1 W) Fi) as (w' & Aw & Len & _).
    exists w'. split; [rewrite <- Lw; exact Len|]. split.
    - assert (Lw2 : length w = size phi) by (rewrite Sz; exact Lw).
      apply (sgd_finite P phi l w lr (snd p) v w' AO W X Lw2 (expands_finite P phi l X (Ff phi Pr)) Fw); auto.
      + rewrite Sz. rewrite (nn_ext n _ (acts b p)); [exact Nf|]. intros i Li. unfold acts. rewrite Pr. apply (coeff64_expands P); auto. now rewrite Sz.
      + now rewrite Sz.
      + rewrite Sz. exact many_terms.
    - unfold s_do, fit64, omap, s_update_with. cbn [fst snd lfa_basis lfa_weights lfa_optimiser]. rewrite Pr. cbn [obind].
      rewrite Dv. cbn [obind]. cbn [o_step_scaled SGD]. unfold sgd_step_scaled.
      change (@TableF64.SP P) with ST64. rewrite Aw. reflexivity.
  Qed.
End Tame.

Lemma nn_from n ws x : nn n x <= nn n (fun i => ws i - x i) + nn n ws.
Proof.
  rewrite (nn_ext n x (fun i => (-1) * (ws i - x i) + ws i)) by (intros; ring).
  eapply Rle_trans; [apply nn_triangle|]. rewrite nn_scale, abs_m1. lra.
Qed.

(** Training on moderate numbers: no overflow, and the weights stay as close to
    any reference as it and the samples agree. *)
Theorem stable64 P {I} (b : Basis f64 I) n lr ws tau h w : let S := ScalarF64 P in any_order P -> 0 <= b_real lr ->
  within (bpow radix2 200) lr -> 0 <= tau -> length w = n -> finite_all w -> Forall (tame b n lr ws tau) h ->
  INR (length h) * INR (n + 5) <= bpow radix2 49 ->
  nn n (fun i => ws i - val w i) + nn n ws + INR (length h) * tau <= bpow radix2 199 ->
  exists w', s_run SGD (map (fit64 P) h) (MkLFA b w lr) = Ret (MkLFA b w' lr) /\ length w' = n /\ finite_all w' /\
    let e := INR (length h) * INR (n + 5) * bpow radix2 (-51) in
      nn n (fun i => ws i - val w' i) <= (1 + e) * nn n (fun i => ws i - val w i) + e * nn n ws + 5 / 4 * (INR (length h) * tau).
Proof.
  intros S AO L0 L1 T0 Lw Fw Ta K49 Sm.
  assert (Q : exists w', s_run SGD (map (fit64 P) h) (MkLFA b w lr) = Ret (MkLFA b w' lr) /\ length w' = n /\ finite_all w').
  { induction h as [|p h IH] using rev_ind; [exists w; auto|].
    apply Forall_app in Ta. destruct Ta as [Ta Tp]. inversion Tp as [|? ? Tp' _]; subst x l.
    rewrite app_length in *. cbn [length] in *. rewrite plus_INR in K49, Sm. change (INR 1) with 1 in K49, Sm.
    pose proof (pos_INR (length h)) as H0. pose proof (pos_INR (n + 5)) as N0.
    assert (K1 : INR (length h) * INR (n + 5) <= bpow radix2 49) by lra.
    destruct (IH Ta K1 ltac:(lra)) as (w1 & E1 & Lw1 & F1).
    assert (Mi : Forall (mild b n lr ws 2 tau) h) by (eapply Forall_impl; [|exact Ta]; intros a A; apply A).
    destruct (drift64_round P b n lr ws tau h w AO L0 T0 Lw Mi K1) as (w2 & E2 & _ & D). pose proof (eq_trans (eq_sym E1) E2) as E3. injection E3 as <-.
    specialize (D F1). cbv zeta in D. set (e := INR (length h) * INR (n + 5) * bpow radix2 (-51)) in *.
    assert (E4 : 0 <= e <= / 4).
    { unfold e. split; [repeat apply Rmult_le_pos; auto; apply bpow_ge_0|].
      apply Rle_trans with (bpow radix2 49 * bpow radix2 (-51)); [apply Rmult_le_compat_r; [apply bpow_ge_0|exact K1]|].
      rewrite <- bpow_plus. change (bpow radix2 (49 + -51)) with (/ IZR 4). lra. }
    pose proof (nn_nonneg n ws) as W0. pose proof (nn_nonneg n (fun i => ws i - val w i)) as D0.
    assert (Nw : nn n (val w1) <= bpow radix2 200).
    { eapply Rle_trans; [apply (nn_from n ws)|]. replace 200%Z with (1 + 199)%Z by lia. rewrite bpow_plus. change (bpow radix2 1) with 2.
      pose proof (Rmult_le_compat_r _ _ _ D0 (proj2 E4)). pose proof (Rmult_le_compat_r _ _ _ W0 (proj2 E4)).
      pose proof (Rmult_le_pos _ _ H0 T0). lra. }
    assert (N49 : INR (n + 5) <= bpow radix2 49).
    { assert (0 <= INR (length h) * INR (n + 5)) by (apply Rmult_le_pos; auto). lra. }
    destruct (fit_finite P AO b n lr ws tau L1 N49 w1 p Tp' Lw1 F1 Nw) as (w' & L' & F' & E').
    exists w'. splits; auto. rewrite map_app. unfold s_run in *. rewrite ofold_app, E1. cbn [obind map ofold].
    exact (f_equal (fun o => obind o (fun a => Ret a)) E'). }
  destruct Q as (w' & E & L & F). exists w'. splits; auto.
  assert (Mi : Forall (mild b n lr ws 2 tau) h) by (eapply Forall_impl; [|exact Ta]; intros a A; apply A).
  destruct (drift64_round P b n lr ws tau h w AO L0 T0 Lw Mi K49) as (w2 & E2 & _ & D). pose proof (eq_trans (eq_sym E) E2) as E3. injection E3 as <-. exact (D F).
Qed.

(** What the approximator then answers. *)
Theorem predict64 P {I T} (b : Basis f64 I) n (lr : T) ws (w : list f64) x phi : let S := ScalarF64 P in any_order P ->
  b_project b x = Ret (Ok phi) -> wf phi -> size phi = n -> length w = n ->
  exists v, s_evaluate (MkLFA b w lr) x = Ret (Ok v) /\
    (b_finite v = true ->
      let d := nn n (fun i => ws i - val w i) in let f := nn n (coeff64 phi) in
      Rabs (b_real v - sigma n (fun i => coeff64 phi i * ws i)) <= f * d + quot n * (f * (d + nn n ws) + INR n * eta64) + INR n * eta64).
Proof.
  intros S AO Pr W Sz Lw. destruct (expands_exists phi (proj1 W)) as [l X].
  destruct (dot_sized phi w n (conj W Sz) Lw) as [v Dv]. exists v. split.
  - unfold s_evaluate. cbn [lfa_basis lfa_weights]. rewrite Pr. cbn [obind].
    exact (f_equal (fun o => omap Ok o) Dv).
  - intros Fv d f. assert (Lw2 : length w = size phi) by (rewrite Sz; exact Lw).
    pose proof (dot_f64_error P phi l w v AO W X Lw2 Dv Fv) as Er. rewrite Sz in Er.
    assert (Ll : length l = n) by (rewrite <- Sz; apply X).
    assert (Vc : forall i, (i < n)%nat -> val l i = coeff64 phi i) by (intros; apply (coeff64_expands P); auto; now rewrite Sz).
    assert (Rd : rdot (map b_real l) (map b_real w) = sigma n (fun i => coeff64 phi i * val w i)).
    { rewrite rdot_seq by (rewrite !map_length; transitivity n; [exact Ll|symmetry; exact Lw]). rewrite map_length. change (length l) with (@length f64 l). replace (@length f64 l) with n by (symmetry; exact Ll).
      apply sigma_ext. intros i Li. rewrite <- Vc by auto. unfold val. change 0 with (b_real b_zero). now rewrite !(map_nth b_real). }
    assert (Rb : rdot (map (fun x => Rabs (b_real x)) l) (map (fun x => Rabs (b_real x)) w) = sigma n (fun i => Rabs (coeff64 phi i) * Rabs (val w i))).
    { rewrite rdot_seq by (rewrite !map_length; transitivity n; [exact Ll|symmetry; exact Lw]). rewrite map_length. change (length l) with (@length f64 l). replace (@length f64 l) with n by (symmetry; exact Ll).
      apply sigma_ext. intros i Li. rewrite <- Vc by auto. unfold val. replace 0 with (Rabs (b_real b_zero)) by (apply Rabs_R0).
      now rewrite !(map_nth (fun x => Rabs (b_real x))). }
    rewrite Rd, Rb in Er.
    assert (Dc : sigma n (fun i => Rabs (coeff64 phi i) * Rabs (val w i)) <= f * (d + nn n ws)).
    { eapply Rle_trans; [apply Rle_abs|]. eapply Rle_trans; [apply cauchy_nn|]. rewrite !nn_abs. apply Rmult_le_compat_l; [apply nn_nonneg|apply nn_from]. }
    assert (G : Rabs (sigma n (fun i => coeff64 phi i * (ws i - val w i))) <= f * d) by apply cauchy_nn.
    assert (Eg : b_real v - sigma n (fun i => coeff64 phi i * ws i) = (b_real v - sigma n (fun i => coeff64 phi i * val w i)) + - sigma n (fun i => coeff64 phi i * (ws i - val w i))).
    { rewrite (sigma_ext n (fun i => coeff64 phi i * (ws i - val w i)) (fun i => coeff64 phi i * ws i + (-1) * (coeff64 phi i * val w i))) by (intros; ring).
      rewrite sigma_plus, sigma_scal. ring. }
    rewrite Eg. eapply Rle_trans; [apply Rabs_triang|]. rewrite Rabs_Ropp.
    pose proof (pow_uro_le (Datatypes.S n) (n + 5) ltac:(lia)) as P1. pose proof (pow_uro_le n (n + 5) ltac:(lia)) as P2. unfold quot.
    pose proof (nn_nonneg n (coeff64 phi)) as F0. fold f in F0. pose proof (nn_nonneg n ws) as W0. pose proof (nn_nonneg n (fun i => ws i - val w i)) as D0. fold d in D0.
    pose proof (pow_1_uro (Datatypes.S n)) as Q1. pose proof (pos_INR n) as N0. pose proof eta64_pos as Ep.
    assert (A1 : ((1 + uro) ^ Datatypes.S n - 1) * sigma n (fun i => Rabs (coeff64 phi i) * Rabs (val w i)) <= ((1 + uro) ^ (n + 5) - 1) * (f * (d + nn n ws))).
    { apply Rmult_le_compat; auto; [lra| |lra]. apply sigma_nonneg. intros i. apply Rmult_le_pos; apply Rabs_pos. }
    assert (A2 : (1 + uro) ^ n * (INR n * eta64) <= (1 + uro) ^ (n + 5) * (INR n * eta64)) by (apply Rmult_le_compat_r; auto; apply Rmult_le_pos; lra).
    lra.
Qed.
