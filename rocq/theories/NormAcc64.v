(** How accurate the normalisers of /repo/src/basis/normalisation.rs are in
    binary64. Facts for C93. *)
From Coq Require Import List Arith ZArith Lia Bool Reals Lra.
From Flocq Require Import Core.Core IEEE754.BinarySingleNaN.
From Verif Require Import Base Scalar ScalarR ScalarF64 F64Facts HMap NdArray VecFacts Features Spec FeatureFacts
  Coeffs Kernels TileCoding Basis BasisFacts NormReal NormF64 NormL2F64 NonnegF64.
Import ListNotations.
Local Open Scope R_scope.

(** Sums over a list. *)
Definition total (g : f64 -> R) (l : list f64) : R := fold_right (fun v s => g v + s) 0 l.

Lemma total_nonneg g l : (forall v, In v l -> 0 <= g v) -> 0 <= total g l.
Proof.
  induction l as [|v l IH]; intros G; cbn [total fold_right]; [lra|].
  assert (0 <= g v) by (apply G; left; auto). assert (0 <= total g l) by (apply IH; intros; apply G; right; auto). unfold total in *. lra.
Qed.

Lemma total_in g l v : (forall v, In v l -> 0 <= g v) -> In v l -> g v <= total g l.
Proof.
  induction l as [|x l IH]; intros G I; [destruct I|]. cbn [total fold_right]. destruct I as [<-|I].
  - assert (0 <= total g l) by (apply total_nonneg; intros; apply G; right; auto). unfold total in *. lra.
  - assert (0 <= g x) by (apply G; left; auto). assert (g v <= total g l) by (apply IH; auto; intros; apply G; right; auto). unfold total in *. lra.
Qed.

Lemma total_map g h l : total g (map h l) = total (fun v => g (h v)) l.
Proof. induction l; cbn [map total fold_right]; [reflexivity|]. unfold total in *. rewrite IHl. reflexivity. Qed.

Lemma total_diff g h c k l : (forall v, In v l -> Rabs (g v - h v) <= c * h v + k) ->
  Rabs (total g l - total h l) <= c * total h l + INR (length l) * k.
Proof.
  induction l as [|v l IH]; intros D.
  - cbn. rewrite Rminus_0_r, Rabs_R0. lra.
  - cbn [total fold_right]. change (fold_right (fun v s => g v + s) 0 l) with (total g l).
    change (fold_right (fun v s => h v + s) 0 l) with (total h l). cbn [length]. rewrite S_INR.
    assert (D1 : Rabs (g v - h v) <= c * h v + k) by (apply D; left; auto).
    assert (D2 : Rabs (total g l - total h l) <= c * total h l + INR (length l) * k) by (apply IH; intros; apply D; right; auto).
    replace (g v + total g l - (h v + total h l)) with ((g v - h v) + (total g l - total h l)) by ring.
    eapply Rle_trans; [apply Rabs_triang|]. lra.
Qed.

Lemma total_scale g c l : total (fun v => g v / c) l = total g l / c.
Proof.
  induction l as [|v l IH]; cbn [total fold_right]; [unfold Rdiv; ring|]. unfold total in *. rewrite IH. unfold Rdiv. ring.
Qed.

(** ** Powers of [1 + u] and [1 - u] *)

Lemma uro_bounds : 0 < uro /\ uro <= / 1024.
Proof. split; [apply bpow_gt_0|]. unfold uro. simpl. lra. Qed.

Lemma pow_down n : 1 - INR n * uro <= (1 - uro) ^ n.
Proof.
  destruct uro_bounds as [U0 U1]. induction n as [|n IH]; [simpl; lra|]. rewrite S_INR. cbn [pow].
  assert (N := pos_INR n). assert (P : 0 <= (1 - uro) ^ n) by (apply pow_le; lra).
  apply Rle_trans with ((1 - uro) * (1 - INR n * uro)); [|apply Rmult_le_compat_l; lra].
  assert (0 <= INR n * uro * uro) by (apply Rmult_le_pos; [apply Rmult_le_pos; lra|lra]). lra.
Qed.

Lemma pow_up n : INR n * uro <= 1 / 2 -> (1 + uro) ^ n <= 1 + 2 * (INR n * uro).
Proof.
  destruct uro_bounds as [U0 U1]. intros L.
  assert (Q : forall m, (m <= n)%nat -> (1 + uro) ^ m * (1 - INR m * uro) <= 1).
  { induction m as [|m IH]; intros Lm; [simpl; lra|]. rewrite S_INR. cbn [pow].
    assert (H := IH ltac:(lia)). assert (Nm := pos_INR m). assert (P : 0 <= (1 + uro) ^ m) by (apply pow_le; lra).
    apply Rle_trans with ((1 + uro) ^ m * (1 - INR m * uro)); [|exact H].
    replace ((1 + uro) * (1 + uro) ^ m * (1 - (INR m + 1) * uro)) with ((1 + uro) ^ m * ((1 + uro) * (1 - (INR m + 1) * uro))) by ring.
    apply Rmult_le_compat_l; [exact P|]. assert (0 <= (INR m + 1) * uro * uro) by (apply Rmult_le_pos; [apply Rmult_le_pos; lra|lra]). lra. }
  specialize (Q n (le_n n)). set (a := INR n * uro) in *. assert (A : 0 <= a) by (apply Rmult_le_pos; [apply pos_INR|lra]).
  assert (P : 1 <= (1 + 2 * a) * (1 - a)).
  { assert (0 <= a * (1 - 2 * a)) by (apply Rmult_le_pos; lra). lra. }
  apply Rmult_le_reg_r with (1 - a); lra.
Qed.

(** ** A sum of non-negative numbers *)

Lemma sum_rel (g : f64 -> f64) : forall l acc, 0 <= b_real acc -> (forall x, In x l -> 0 <= b_real (g x)) ->
  b_finite (fold_left (fun a x => b_add a (g x)) l acc) = true ->
  (b_real acc + total (fun x => b_real (g x)) l) * (1 - uro) ^ length l <= b_real (fold_left (fun a x => b_add a (g x)) l acc) <=
  (b_real acc + total (fun x => b_real (g x)) l) * (1 + uro) ^ length l /\ (forall x, In x l -> b_finite (g x) = true).
Proof.
  destruct uro_bounds as [U0 U1].
  induction l as [|y l IH]; intros acc A G Fz; cbn [fold_left] in *.
  - cbn. split; [lra|]. intros x [].
  - assert (Fa : b_finite (b_add acc (g y)) = true).
    { destruct (b_finite (b_add acc (g y))) eqn:E; auto. exfalso.
      pose proof (fold_bad_in g l (b_add acc (g y)) (or_introl E)) as Q. congruence. }
    destruct (b_add_finite_inv _ _ Fa) as (_ & Fy & _).
    destruct (b_add_error _ _ Fa) as (d & Dd & Ea). apply Rabs_le_inv in Dd.
    assert (Gy : 0 <= b_real (g y)) by (apply G; left; auto).
    assert (Gl : forall x, In x l -> 0 <= b_real (g x)) by (intros; apply G; right; auto).
    assert (A' : 0 <= b_real (b_add acc (g y))) by (rewrite Ea; apply Rmult_le_pos; lra).
    destruct (IH _ A' Gl Fz) as [[L1 L2] Fl]. split; [|intros x [<-|I]; auto].
    cbn [total fold_right length pow]. change (fold_right (fun v s => b_real (g v) + s) 0 l) with (total (fun x => b_real (g x)) l).
    set (T := total (fun x => b_real (g x)) l) in *. assert (T0 : 0 <= T) by (apply total_nonneg; auto).
    assert (P1 : 0 <= (1 - uro) ^ length l) by (apply pow_le; lra). assert (P2 : 0 <= (1 + uro) ^ length l) by (apply pow_le; lra).
    set (s := b_real acc + b_real (g y)) in *. assert (S0 : 0 <= s) by (unfold s; lra).
    assert (E1 : s * (1 - uro) <= s * (1 + d)) by (apply Rmult_le_compat_l; lra).
    assert (E2 : s * (1 + d) <= s * (1 + uro)) by (apply Rmult_le_compat_l; lra).
    assert (E3 : 0 <= T * uro) by (apply Rmult_le_pos; lra). rewrite Ea in L1, L2.
    split.
    + eapply Rle_trans; [|exact L1].
      replace ((b_real acc + (b_real (g y) + T)) * ((1 - uro) * (1 - uro) ^ length l)) with (((s + T) * (1 - uro)) * (1 - uro) ^ length l) by (unfold s; ring).
      apply Rmult_le_compat_r; [exact P1|]. lra.
    + eapply Rle_trans; [exact L2|].
      replace ((b_real acc + (b_real (g y) + T)) * ((1 + uro) * (1 + uro) ^ length l)) with (((s + T) * (1 + uro)) * (1 + uro) ^ length l) by (unfold s; ring).
      apply Rmult_le_compat_r; [exact P2|]. lra.
Qed.

(** ** Dividing by an approximate norm *)

Lemma quotient v z N t : b_finite v = true -> b_finite z = true -> 0 < N -> Rabs (b_real v) <= N -> Rabs (b_real v) <= b_real z ->
  uro <= t <= 1 / 4 ->
  N * (1 - t) <= b_real z <= N * (1 + t) ->
  b_finite (b_div v z) = true /\
  exists th e, Rabs th <= 3 * t /\ Rabs e <= eta64 /\ b_real (b_div v z) = b_real v / N * (1 + th) + e.
Proof.
  intros Fv Fz PN LN Lz T [Z1 Z2]. destruct uro_bounds as [U0 U1].
  assert (PZ : 0 < b_real z). { apply Rlt_le_trans with (N * (1 - t)); [apply Rmult_lt_0_compat; lra|exact Z1]. }
  destruct (b_div_unit v z Fv Fz PZ Lz) as (F & _). split; [exact F|].
  destruct (b_div_error v z F ltac:(lra)) as (d & e & Dd & De & E). apply Rabs_le_inv in Dd.
  exists (N / b_real z * (1 + d) - 1), e. split; [|split; [exact De|rewrite E; field; lra]].
  set (q := N / b_real z). assert (Q : q * b_real z = N) by (unfold q; field; lra).
  assert (Q0 : 0 < q) by (apply Rdiv_lt_0_compat; lra).
  assert (Qu : q * (1 - t) <= 1).
  { apply Rmult_le_reg_l with N; [exact PN|]. rewrite Rmult_1_r. rewrite <- Q at 2.
    replace (N * (q * (1 - t))) with (q * (N * (1 - t))) by ring. apply Rmult_le_compat_l; lra. }
  assert (Ql : 1 <= q * (1 + t)).
  { apply Rmult_le_reg_l with N; [exact PN|]. rewrite Rmult_1_r. rewrite <- Q at 1.
    replace (N * (q * (1 + t))) with (q * (N * (1 + t))) by ring. apply Rmult_le_compat_l; lra. }
  assert (Qt : q <= 4 / 3). { assert (q * (3 / 4) <= q * (1 - t)) by (apply Rmult_le_compat_l; lra). lra. }
  assert (Dq : Rabs (q * d) <= 4 / 3 * t).
  { rewrite Rabs_mult, (Rabs_pos_eq q) by lra. apply Rmult_le_compat; try lra; [apply Rabs_pos|]. apply Rabs_le. lra. }
  apply Rabs_le_inv in Dq. assert (q * t <= 4 / 3 * t) by (apply Rmult_le_compat_r; lra).
  apply Rabs_le. lra.
Qed.

(** ** L1 *)

Section Norms.
  Context (P : Platform).
  Local Instance SN64 : Scalar f64 := ScalarF64 P.

  Lemma l1_is (l : list f64) : l1_norm l = fold_left (fun a x => b_add a (Babs x)) l b_zero.
  Proof. unfold l1_norm, SN64. cbn [fadd fabs ScalarF64]. rewrite fzero_f64. reflexivity. Qed.

  Lemma l2_is (l : list f64) : l2_norm l = b_sqrt (fold_left (fun a x => b_add a (b_mul x x)) l b_zero).
  Proof. unfold l2_norm, SN64. cbn [fadd fmul fsqrt ScalarF64]. rewrite fzero_f64. reflexivity. Qed.

  Definition mag (v : f64) : R := Rabs (b_real v).
  Definition sq (v : f64) : R := b_real v * b_real v.

  Lemma total_pos g l : (forall v, 0 <= g v) -> (exists v, In v l /\ 0 < g v) -> 0 < total g l.
  Proof. intros G (v & I & L). apply Rlt_le_trans with (1 := L). apply total_in; auto. Qed.

  Lemma l1_near (l : list f64) : b_finite (l1_norm l) = true -> INR (length l) * uro <= 1 / 2 ->
    total mag l * (1 - 2 * (INR (length l) * uro)) <= b_real (l1_norm l) <= total mag l * (1 + 2 * (INR (length l) * uro)).
  Proof.
    rewrite l1_is. intros Fz Ln. destruct (sum_rel Babs l b_zero) as [[L1 L2] _]; auto.
    - apply Rle_refl.
    - intros x _. rewrite b_abs_real. apply Rabs_pos.
    - change (b_real b_zero) with 0 in L1, L2. rewrite Rplus_0_l in L1, L2.
      replace (total (fun x => b_real (Babs x)) l) with (total mag l) in L1, L2.
      2: { clear. induction l; cbn [total fold_right]; [reflexivity|]. unfold total in *. rewrite IHl, b_abs_real. reflexivity. }
      assert (T0 : 0 <= total mag l) by (apply total_nonneg; intros; apply Rabs_pos).
      assert (N0 : 0 <= INR (length l) * uro) by (apply Rmult_le_pos; [apply pos_INR|apply bpow_ge_0]).
      split.
      + eapply Rle_trans; [|exact L1]. apply Rmult_le_compat_l; auto. pose proof (pow_down (length l)). lra.
      + eapply Rle_trans; [exact L2|]. apply Rmult_le_compat_l; auto. apply pow_up, Ln.
  Qed.

  Lemma len_u (l : list f64) v : In v l -> uro <= INR (length l) * uro.
  Proof.
    intros I. destruct uro_bounds as [U0 _]. assert (1 <= INR (length l)). { destruct l; [destruct I|]. cbn [length]. rewrite S_INR. pose proof (pos_INR (length l)). lra. }
    replace uro with (1 * uro) at 1 by ring. apply Rmult_le_compat_r; lra.
  Qed.

  Lemma l1_each (l : list f64) (v : f64) : all_finite l -> b_finite (l1_norm l) = true -> INR (length l) * uro <= 1 / 8 -> (exists x, In x l /\ b_real x <> 0) -> In v l ->
    b_finite (b_div v (l1_norm l)) = true /\
    exists th e, Rabs th <= 6 * (INR (length l) * uro) /\ Rabs e <= eta64 /\
      b_real (b_div v (l1_norm l)) = b_real v / total mag l * (1 + th) + e.
  Proof.
    intros Fl Fz Ln (x & Ix & Nx) I. pose proof (l1_near l Fz ltac:(lra)) as [L1 L2].
    assert (PN : 0 < total mag l) by (apply total_pos; [intros; apply Rabs_pos|]; exists x; split; auto; apply Rabs_pos_lt, Nx).
    replace (6 * (INR (length l) * uro)) with (3 * (2 * (INR (length l) * uro))) by ring.
    apply quotient; auto.
    - apply (total_in mag); auto. intros; apply Rabs_pos.
    - destruct (b_l1_fold l b_zero 0 Fl) as [_ A]; [right; split; [reflexivity|apply Rle_refl]|apply Rle_refl|].
      rewrite l1_is in Fz |- *. destruct (A v I) as [E|[_ E]]; [rewrite E in Fz; discriminate|exact E].
    - pose proof (len_u l v I). destruct uro_bounds. lra.
  Qed.

  Theorem l1_total (l : list f64) : all_finite l -> b_finite (l1_norm l) = true -> INR (length l) * uro <= 1 / 8 -> (exists x, In x l /\ b_real x <> 0) ->
    Rabs (total mag (map (fun v => b_div v (l1_norm l)) l) - 1) <= 6 * (INR (length l) * uro) + INR (length l) * eta64.
  Proof.
    intros Fl Fz Ln Nz. rewrite total_map.
    assert (PN : 0 < total mag l) by (destruct Nz as (x & Ix & Nx); apply total_pos; [intros; apply Rabs_pos|]; exists x; split; auto; apply Rabs_pos_lt, Nx).
    replace 1 with (total (fun v => mag v / total mag l) l) at 1 by (rewrite total_scale; field; lra).
    eapply Rle_trans; [apply (total_diff _ _ (6 * (INR (length l) * uro)) eta64)|].
    - intros v I. destruct (l1_each l v Fl Fz Ln Nz I) as (_ & th & e & Ht & He & E). cbv beta.
      set (T := total mag l) in *. unfold mag. rewrite E.
      replace (Rabs (b_real v) / T) with (Rabs (b_real v / T)).
      2: { unfold Rdiv. rewrite Rabs_mult, (Rabs_pos_eq (/ T)); auto. apply Rlt_le, Rinv_0_lt_compat, PN. }
      set (w := b_real v / T). eapply Rle_trans; [apply Rabs_triang_inv2|].
      apply Rle_trans with (Rabs (w * th + e)); [right; f_equal; ring|]. eapply Rle_trans; [apply Rabs_triang|].
      apply Rplus_le_compat; [|exact He]. rewrite Rabs_mult, Rmult_comm. apply Rmult_le_compat_r; [apply Rabs_pos|exact Ht].
    - rewrite total_scale. replace (total mag l / total mag l) with 1 by (field; lra). lra.
  Qed.

  (** ** L2 *)

  Lemma sq_rnd x : bpow radix2 (-1022) * 0 <= 0 -> rnd64 (sq x) <= sq x * (1 + uro) + eta64 /\ sq x * (1 - uro) - eta64 <= rnd64 (sq x).
  Proof.
    intros _. destruct (rnd64_error (sq x)) as (d & e & Dd & De & ->). apply Rabs_le_inv in Dd. apply Rabs_le_inv in De.
    assert (S0 : 0 <= sq x) by apply Rle_0_sqr.
    assert (sq x * (1 - uro) <= sq x * (1 + d)) by (apply Rmult_le_compat_l; lra).
    assert (sq x * (1 + d) <= sq x * (1 + uro)) by (apply Rmult_le_compat_l; lra). lra.
  Qed.

  Lemma b_mul_sq x : b_finite (b_mul x x) = true -> b_real (b_mul x x) = rnd64 (sq x).
  Proof. intros E. destruct (b_mul_finite_inv x x E) as (_ & _ & ->). reflexivity. Qed.

  Lemma eta_u : eta64 = uro * bpow radix2 (-1022).
  Proof. unfold eta64, uro. rewrite <- bpow_plus. reflexivity. Qed.

  Lemma sum_squares (l : list f64) : let z := fold_left (fun a x => b_add a (b_mul x x)) l b_zero in
    all_finite l -> b_finite z = true -> INR (length l) * uro <= 1 / 64 -> not_tiny l ->
    let N2 := total sq l in let a := INR (length l) * uro in
    bpow radix2 (-1022) <= N2 /\ N2 * (1 - 3 * a) <= b_real z <= N2 * (1 + 5 * a).
  Proof.
    intros z Fl Fz Ln (x0 & I0 & L0) N2 a. destruct uro_bounds as [U0 U1].
    assert (Ga : forall v, 0 <= sq v) by (intros; apply Rle_0_sqr).
    assert (LN : bpow radix2 (-1022) <= N2).
    { apply Rle_trans with (sq x0); [|apply (total_in sq); auto].
      replace (-1022)%Z with (-511 + -511)%Z by lia. rewrite bpow_plus. unfold sq.
      replace (b_real x0 * b_real x0) with (Rabs (b_real x0) * Rabs (b_real x0)) by (rewrite <- Rabs_mult; apply Rabs_pos_eq, Rle_0_sqr).
      apply Rmult_le_compat; auto; apply bpow_ge_0. }
    split; [exact LN|].
    assert (Gm : forall x, In x l -> 0 <= b_real (b_mul x x)).
    { intros x I. destruct (b_mul_self x (Fl x I)) as [E|[_ E]]; [|exact E]. rewrite E. apply Rle_refl. }
    destruct (sum_rel (fun x => b_mul x x) l b_zero (Rle_refl _) Gm Fz) as [[L1 L2] Fm].
    change (b_real b_zero) with 0 in L1, L2. rewrite Rplus_0_l in L1, L2. fold z in L1, L2.
    set (T := total (fun x => b_real (b_mul x x)) l) in *.
    assert (N0 : 0 < N2) by (pose proof (bpow_gt_0 radix2 (-1022)); lra).
    assert (D : Rabs (T - N2) <= uro * N2 + INR (length l) * eta64).
    { apply total_diff. intros v I. rewrite b_mul_sq by auto. destruct (sq_rnd v) as [A B]; [lra|]. apply Rabs_le. lra. }
    assert (D' : Rabs (T - N2) <= 2 * a * N2).
    { eapply Rle_trans; [exact D|]. rewrite eta_u.
      assert (INR (length l) * (uro * bpow radix2 (-1022)) <= a * N2).
      { unfold a. rewrite <- Rmult_assoc. apply Rmult_le_compat_l; [|exact LN]. apply Rmult_le_pos; [apply pos_INR|lra]. }
      assert (uro * N2 <= a * N2) by (apply Rmult_le_compat_r; [lra|]; exact (len_u l x0 I0)). lra. }
    apply Rabs_le_inv in D'. assert (A0 : 0 <= a) by (apply Rmult_le_pos; [apply pos_INR|lra]). fold a in Ln.
    assert (AN : 0 <= a * N2) by (apply Rmult_le_pos; lra). assert (AAN : a * (a * N2) <= 1 / 64 * (a * N2)) by (apply Rmult_le_compat_r; lra).
    assert (AAN0 : 0 <= a * (a * N2)) by (apply Rmult_le_pos; lra).
    assert (AN2 : a * N2 <= 1 / 64 * N2) by (apply Rmult_le_compat_r; lra).
    assert (T0 : 0 <= T) by (apply total_nonneg; exact Gm).
    pose proof (pow_down (length l)) as Pd. pose proof (pow_up (length l) ltac:(fold a; lra)) as Pu. fold a in Pd, Pu.
    split.
    - eapply Rle_trans; [|exact L1]. apply Rle_trans with (T * (1 - a)); [|apply Rmult_le_compat_l; auto].
      apply Rle_trans with ((N2 - 2 * (a * N2)) * (1 - a)); [|apply Rmult_le_compat_r; lra]. lra.
    - eapply Rle_trans; [exact L2|]. apply Rle_trans with (T * (1 + 2 * a)); [apply Rmult_le_compat_l; auto|].
      apply Rle_trans with ((N2 + 2 * (a * N2)) * (1 + 2 * a)); [apply Rmult_le_compat_r; lra|]. lra.
  Qed.

  Lemma l2_near (l : list f64) : all_finite l -> b_finite (l2_norm l) = true -> INR (length l) * uro <= 1 / 64 -> not_tiny l ->
    let N := sqrt (total sq l) in let a := INR (length l) * uro in
    0 < N /\ N * (1 - 4 * a) <= b_real (l2_norm l) <= N * (1 + 4 * a).
  Proof.
    intros Fl Fz Ln Nt N a. rewrite l2_is in *. set (z := fold_left (fun a x => b_add a (b_mul x x)) l b_zero) in *.
    assert (Nn : nonneg z). { apply (b_l2_fold l b_zero 0 Fl); right; split; try reflexivity; apply Rle_refl. }
    assert (Fq : b_finite z = true). { destruct Nn as [E|[E _]]; [rewrite E in Fz; discriminate|exact E]. }
    destruct (sum_squares l Fl Fq Ln Nt) as (LN & L1 & L2). fold z in L1, L2. fold a in L1, L2, Ln.
    set (N2 := total sq l) in *. assert (N20 : 0 < N2) by (pose proof (bpow_gt_0 radix2 (-1022)); lra).
    assert (PN : 0 < N) by (apply sqrt_lt_R0; exact N20). split; [exact PN|].
    assert (NN : N * N = N2) by (apply sqrt_sqrt; lra).
    destruct uro_bounds as [U0 U1]. destruct Nt as (x0 & I0 & L0). assert (Ua := len_u l x0 I0). fold a in Ua.
    assert (Z0 : 0 <= b_real z) by (apply Rle_trans with (2 := L1); apply Rmult_le_pos; lra).
    (* the square root before rounding *)
    assert (S1 : N * (1 - 3 * a) <= sqrt (b_real z)).
    { rewrite <- (sqrt_Rsqr (N * (1 - 3 * a))) by (apply Rmult_le_pos; lra). apply sqrt_le_1_alt. unfold Rsqr.
      replace (N * (1 - 3 * a) * (N * (1 - 3 * a))) with (N2 * (1 - 3 * a) * (1 - 3 * a)) by (rewrite <- NN; ring).
      apply Rle_trans with (N2 * (1 - 3 * a) * 1); [|lra]. apply Rmult_le_compat_l; [apply Rmult_le_pos; lra|lra]. }
    assert (S2 : sqrt (b_real z) <= N * (1 + 5 / 2 * a)).
    { rewrite <- (sqrt_Rsqr (N * (1 + 5 / 2 * a))) by (apply Rmult_le_pos; lra). apply sqrt_le_1_alt. unfold Rsqr.
      replace (N * (1 + 5 / 2 * a) * (N * (1 + 5 / 2 * a))) with (N2 * (1 + 5 * a) + N2 * (25 / 4 * (a * a))) by (rewrite <- NN; field).
      assert (0 <= N2 * (25 / 4 * (a * a))) by (apply Rmult_le_pos; [lra|]; apply Rmult_le_pos; [lra|apply Rle_0_sqr]). lra. }
    assert (Er : b_real (b_sqrt z) = rnd64 (sqrt (b_real z))).
    { pose proof (Bsqrt_correct 53 1024 f64_prec f64_emax mode_NE z) as C. destruct C as [C _]. exact C. }
    rewrite Er.
    assert (Big : bpow radix2 (-1022) <= Rabs (sqrt (b_real z))).
    { rewrite Rabs_pos_eq by apply sqrt_pos. eapply Rle_trans; [|exact S1].
      apply Rle_trans with (N * (1 / 2)); [|apply Rmult_le_compat_l; lra].
      assert (bpow radix2 (-511) <= N).
      { unfold N. rewrite <- (sqrt_Rsqr (bpow radix2 (-511))) by apply bpow_ge_0. apply sqrt_le_1_alt. unfold Rsqr. rewrite <- bpow_plus. exact LN. }
      assert (bpow radix2 (-1022) <= bpow radix2 (-512)) by (apply bpow_le; lia).
      replace (bpow radix2 (-511)) with (2 * bpow radix2 (-512)) in H by (change 2 with (bpow radix2 1); rewrite <- bpow_plus; reflexivity). lra. }
    set (s := sqrt (b_real z)) in *. assert (s0 : 0 <= s) by apply sqrt_pos.
    pose proof (rnd64_normal_error _ Big) as Dd. rewrite (Rabs_pos_eq s s0) in Dd.
    assert (Du : Rabs (rnd64 s - s) <= a * s).
    { eapply Rle_trans; [exact Dd|]. apply Rmult_le_compat_r; [exact s0|]. apply Rle_trans with (uro / 1); [|lra].
      apply Rmult_le_compat_l; [lra|]. apply Rinv_le; lra. }
    apply Rabs_le_inv in Du.
    assert (aN : 0 <= N * a) by (apply Rmult_le_pos; lra). assert (aaN : N * a * a <= N * a * (1 / 64)) by (apply Rmult_le_compat_l; lra).
    assert (aaN0 : 0 <= N * a * a) by (apply Rmult_le_pos; lra).
    split.
    - apply Rle_trans with (s * (1 - a)); [|lra].
      apply Rle_trans with (N * (1 - 3 * a) * (1 - a)); [|apply Rmult_le_compat_r; lra]. lra.
    - apply Rle_trans with (s * (1 + a)); [lra|].
      apply Rle_trans with (N * (1 + 5 / 2 * a) * (1 + a)); [apply Rmult_le_compat_r; lra|]. lra.
  Qed.

  Lemma l2_each (l : list f64) (v : f64) : all_finite l -> b_finite (l2_norm l) = true -> INR (length l) * uro <= 1 / 64 -> not_tiny l -> In v l ->
    b_finite (b_div v (l2_norm l)) = true /\ Rabs (b_real v) <= sqrt (total sq l) /\
    exists th e, Rabs th <= 12 * (INR (length l) * uro) /\ Rabs e <= eta64 /\
      b_real (b_div v (l2_norm l)) = b_real v / sqrt (total sq l) * (1 + th) + e.
  Proof.
    intros Fl Fz Ln Nt I. destruct (l2_near l Fl Fz Ln Nt) as (PN & L1 & L2).
    assert (LN : Rabs (b_real v) <= sqrt (total sq l)).
    { rewrite <- sqrt_Rsqr_abs. apply sqrt_le_1_alt. apply (total_in sq); auto. intros; apply Rle_0_sqr. }
    replace (12 * (INR (length l) * uro)) with (3 * (4 * (INR (length l) * uro))) by ring.
    destruct (quotient v (l2_norm l) (sqrt (total sq l)) (4 * (INR (length l) * uro))) as (F & Q); auto.
    destruct (b_l2_covers P l Fl Nt) as [_ A]. destruct (A v I) as [E|[_ E]].
    - exfalso. change (l2_norm l = b_inf) in E. rewrite E in Fz. discriminate.
    - exact E.
    - pose proof (len_u l v I). destruct uro_bounds. lra.
  Qed.

  Theorem l2_total (l : list f64) : all_finite l -> b_finite (l2_norm l) = true -> INR (length l) * uro <= 1 / 64 -> not_tiny l ->
    Rabs (total sq (map (fun v => b_div v (l2_norm l)) l) - 1) <= 27 * (INR (length l) * uro) + INR (length l) * (4 * eta64).
  Proof.
    intros Fl Fz Ln Nt. rewrite total_map. set (a := INR (length l) * uro) in *.
    destruct (l2_near l Fl Fz Ln Nt) as (PN & _ & _). set (N := sqrt (total sq l)) in *.
    assert (NN : N * N = total sq l). { apply sqrt_sqrt, total_nonneg. intros; apply Rle_0_sqr. }
    assert (A0 : 0 <= a) by (apply Rmult_le_pos; [apply pos_INR|apply bpow_ge_0]).
    assert (N2 : total sq l <> 0) by (rewrite <- NN; assert (0 < N * N) by (apply Rmult_lt_0_compat; auto); lra).
    replace 1 with (total (fun v => sq v / total sq l) l) at 1 by (rewrite total_scale; field; exact N2).
    eapply Rle_trans; [apply (total_diff _ _ (27 * a) (4 * eta64))|].
    - intros v I. destruct (l2_each l v Fl Fz Ln Nt I) as (_ & LN & th & e & Ht & He & E). fold a in Ht. fold N in LN, E.
      unfold sq at 1. rewrite E. replace (sq v / total sq l) with (b_real v / N * (b_real v / N)) by (rewrite <- NN; unfold sq; field; lra).
      set (w := b_real v / N). assert (W : Rabs w <= 1).
      { unfold w, Rdiv. rewrite Rabs_mult, (Rabs_pos_eq (/ N)) by (apply Rlt_le, Rinv_0_lt_compat, PN).
        apply Rmult_le_reg_r with N; [exact PN|]. rewrite Rmult_assoc, Rinv_l by lra. lra. }
      replace ((w * (1 + th) + e) * (w * (1 + th) + e) - w * w) with (w * w * (th * (2 + th)) + (2 * w * (1 + th) + e) * e) by ring.
      assert (Ta : Rabs th <= 3 / 16) by lra.
      assert (T1 : Rabs (th * (2 + th)) <= 27 * a).
      { rewrite Rabs_mult. apply Rle_trans with (12 * a * (9 / 4)); [|lra]. apply Rmult_le_compat; auto using Rabs_pos.
        apply Rabs_le_inv in Ta. apply Rabs_le. lra. }
      assert (Et : eta64 <= 1). { unfold eta64. apply (bpow_le radix2 (-1075) 0). lia. }
      assert (T2 : Rabs (2 * w * (1 + th) + e) <= 4).
      { apply Rabs_le_inv in Ta. eapply Rle_trans; [apply Rabs_triang|]. rewrite !Rabs_mult, (Rabs_pos_eq 2) by lra.
        rewrite (Rabs_pos_eq (1 + th)) by lra.
        assert (2 * Rabs w * (1 + th) <= 2 * 1 * (1 + 3 / 16)) by (apply Rmult_le_compat; try lra; pose proof (Rabs_pos w); lra). lra. }
      eapply Rle_trans; [apply Rabs_triang|]. rewrite !Rabs_mult with (y := th * (2 + th)), Rabs_mult with (y := e).
      assert (W2 : Rabs (w * w) = w * w) by (apply Rabs_pos_eq, Rle_0_sqr). rewrite W2. rewrite (Rmult_comm (27 * a)).
      apply Rplus_le_compat; [apply Rmult_le_compat_l; [apply Rle_0_sqr|exact T1]|apply Rmult_le_compat; auto using Rabs_pos].
    - rewrite total_scale. replace (total sq l / total sq l) with 1 by (field; exact N2). lra.
  Qed.
End Norms.

(** ** Features *)

Section Features.
  Context (P : Platform).
  Local Instance SM64 : Scalar f64 := ScalarF64 P.

  Lemma values_normalised (norm : list f64 -> f64) (phi : Features f64) : keyed phi ->
    values (normalise_by norm phi) = map (fun v => b_div v (norm (values phi))) (values phi).
  Proof.
    destruct phi as [da|[d m]]; intros K; [reflexivity|]. cbn [normalise_by values sa_acts sa_dim].
    rewrite (map_collect_id (fun x => fdiv x (norm (hm_values m)))) by exact K. unfold hm_values. rewrite !map_map. reflexivity.
  Qed.

  Lemma stores_normalised (norm : list f64 -> f64) (phi : Features f64) i v y : keyed phi ->
    stores phi i v -> stores (normalise_by norm phi) i y -> y = b_div v (norm (values phi)).
  Proof.
    intros K V Y. destruct (normalise_by_spec norm phi K) as (K' & _ & _ & G & _).
    apply get_stores in V; auto. apply get_stores in Y; auto. rewrite G, V in Y. injection Y as <-. reflexivity.
  Qed.

  Lemma quot_form y w th e k c : Rabs th <= c -> Rabs e <= k -> y = w * (1 + th) + e -> Rabs (y - w) <= c * Rabs w + k.
  Proof.
    intros T E ->. replace (w * (1 + th) + e - w) with (w * th + e) by ring. eapply Rle_trans; [apply Rabs_triang|].
    rewrite Rabs_mult, Rmult_comm. apply Rplus_le_compat; [apply Rmult_le_compat_r; [apply Rabs_pos|exact T]|exact E].
  Qed.

  Theorem l1_accuracy (phi : Features f64) : keyed phi -> finite_features phi -> nonzero_features phi ->
    b_finite (l1_norm (values phi)) = true -> INR (length (values phi)) * uro <= 1 / 8 ->
    let n := INR (length (values phi)) in
    let psi := normalise_by l1_norm phi in
    (forall i v y, stores phi i v -> stores psi i y -> b_finite y = true /\
      Rabs (b_real y - b_real v / total mag (values phi)) <= 6 * (n * uro) * Rabs (b_real v / total mag (values phi)) + eta64) /\
    Rabs (total mag (values psi) - 1) <= 6 * (n * uro) + n * eta64.
  Proof.
    intros K Fp (i0 & v0 & S0 & N0) Fz Ln n psi. assert (Fl := values_finite phi Fp).
    assert (Nz : exists x, In x (values phi) /\ b_real x <> 0) by (exists v0; split; auto; apply values_in; eauto).
    split.
    - intros i v y V Y. rewrite (stores_normalised _ phi i v y K V Y).
      destruct (l1_each P (values phi) v Fl Fz Ln Nz) as (F & th & e & Ht & He & E); [apply values_in; eauto|].
      split; [exact F|]. exact (quot_form _ _ _ _ _ _ Ht He E).
    - unfold psi. rewrite values_normalised by exact K. exact (l1_total P (values phi) Fl Fz Ln Nz).
  Qed.

  Theorem l2_accuracy (phi : Features f64) : keyed phi -> finite_features phi -> not_tiny_features phi ->
    b_finite (l2_norm (values phi)) = true -> INR (length (values phi)) * uro <= 1 / 64 ->
    let n := INR (length (values phi)) in
    let N := sqrt (total sq (values phi)) in
    let psi := normalise_by l2_norm phi in
    (forall i v y, stores phi i v -> stores psi i y -> b_finite y = true /\
      Rabs (b_real y - b_real v / N) <= 12 * (n * uro) * Rabs (b_real v / N) + eta64) /\
    Rabs (total sq (values psi) - 1) <= 27 * (n * uro) + n * (4 * eta64).
  Proof.
    intros K Fp (i0 & v0 & S0 & N0) Fz Ln n N psi. assert (Fl := values_finite phi Fp).
    assert (Nt : not_tiny (values phi)) by (exists v0; split; auto; apply values_in; eauto).
    split.
    - intros i v y V Y. rewrite (stores_normalised _ phi i v y K V Y).
      destruct (l2_each P (values phi) v Fl Fz Ln Nt) as (F & _ & th & e & Ht & He & E); [apply values_in; eauto|].
      split; [exact F|]. exact (quot_form _ _ _ _ _ _ Ht He E).
    - unfold psi. rewrite values_normalised by exact K. exact (l2_total P (values phi) Fl Fz Ln Nt).
  Qed.

  (** Linf: the norm is exact, and 1 after one normalisation. *)
  Theorem linf_accuracy (phi : Features f64) : keyed phi -> finite_features phi -> nonzero_features phi ->
    let z := linf_norm (values phi) in
    0 < b_real z /\ (exists v, In v (values phi) /\ Rabs (b_real v) = b_real z) /\
    forall i v y, stores phi i v -> stores (normalise_by linf_norm phi) i y ->
      Rabs (b_real y - b_real v / b_real z) <= uro * Rabs (b_real v / b_real z) + eta64.
  Proof.
    intros K Fp (i0 & v0 & S0 & N0) z.
    assert (I0 : In v0 (values phi)) by (apply values_in; eauto).
    destruct (b_linf_norm P (values phi)) as (Fz & B & x & Ix & Ez).
    { apply values_finite, Fp. } { intros E. rewrite E in I0. destruct I0. }
    change (@linf_norm f64 (ScalarF64 P)) with (@linf_norm f64 SM64) in Fz, B, Ez. fold z in Fz, B, Ez.
    assert (Pz : 0 < b_real z). { assert (C := B v0 I0). assert (D := Rabs_pos_lt _ N0). lra. }
    split; [exact Pz|]. split. { exists x. split; [exact Ix|]. rewrite Ez, b_abs_real. reflexivity. }
    intros i v y V Y. rewrite (stores_normalised _ phi i v y K V Y). fold z.
    assert (Iv : In v (values phi)) by (apply values_in; eauto).
    destruct (b_div_unit v z) as (D1 & _); auto. { eapply Fp, V. }
    destruct (b_div_error v z D1 ltac:(lra)) as (d & e & Dd & De & E). exact (quot_form _ _ _ _ _ _ Dd De E).
  Qed.

  Lemma div_one (x : f64) : b_div x b_one = x.
  Proof.
    destruct (b_finite x) eqn:Fx.
    - assert (O := b_one_real). pose proof (Bdiv_correct 53 1024 f64_prec f64_emax mode_NE x b_one ltac:(change (b_real b_one <> 0); lra)) as C.
      fold (b_div x b_one) in C. change (B2R b_one) with (b_real b_one) in C. rewrite O in C.
      replace (B2R x / 1) with (b_real x) in C by (unfold b_real; field).
      assert (Rx : rnd64 (b_real x) = b_real x) by (apply round_generic; [apply valid_rnd_N|apply b_real_format]).
      change (round radix2 (SpecFloat.fexp 53 1024) (round_mode mode_NE) (b_real x)) with (rnd64 (b_real x)) in C. rewrite Rx in C.
      rewrite Rlt_bool_true in C by apply b_real_small. destruct C as (C1 & C2 & C3).
      apply B2R_Bsign_inj; auto; [change (is_finite (b_div x b_one) = true); rewrite C2; exact Fx|].
      rewrite C3; [destruct x as [[]|[]| |[] m e H]; reflexivity|].
      destruct (b_div x b_one) eqn:E; try reflexivity. exfalso. revert C2. cbn. rewrite Fx. discriminate.
    - destruct x as [[]|[]| |[] m e H]; try discriminate; reflexivity.
  Qed.

  (** Largest magnitude exactly 1: normalising again changes nothing. *)
  Theorem linf_twice (phi : Features f64) : keyed phi -> finite_features phi -> nonzero_features phi ->
    normalise_by linf_norm (normalise_by linf_norm phi) = normalise_by linf_norm phi.
  Proof.
    intros K Fp Nz. set (psi := normalise_by linf_norm phi).
    destruct (linf_f64 P phi K Fp Nz) as (_ & Bd & i1 & v1 & S1 & V1).
    change (@normalise_by f64 (ScalarF64 P) (@linf_norm f64 (ScalarF64 P)) phi) with psi in *.
    destruct (normalise_by_spec linf_norm phi K) as (K' & _ & _ & G & St). fold psi in K', G, St.
    assert (Fq : forall i v, stores psi i v -> b_finite v = true /\ Rabs (b_real v) <= 1).
    { intros i v V. assert (Si : stored psi i) by (exists v; exact V). apply St in Si. destruct Si as [u U].
      destruct (Bd i u v U V) as (A & B & _). auto. }
    assert (I1 : In v1 (values psi)) by (apply values_in; eauto).
    destruct (b_linf_norm P (values psi)) as (Fz & B & x & Ix & Ez).
    { intros v I. apply values_in in I. destruct I as [i I]. apply (Fq i v I). } { intros E. rewrite E in I1. destruct I1. }
    assert (Z1 : b_real (linf_norm (values psi)) = 1).
    { change (@linf_norm f64 (ScalarF64 P)) with (@linf_norm f64 SM64) in Fz, B, Ez. apply Rle_antisym.
      - rewrite Ez, b_abs_real. apply values_in in Ix. destruct Ix as [i Ix]. apply (Fq i x Ix).
      - rewrite <- V1. apply B, I1. }
    assert (Z : linf_norm (values psi) = b_one).
    { apply B2R_Bsign_inj; auto.
      - change (b_real (linf_norm (values psi)) = b_real b_one). rewrite Z1, b_one_real. reflexivity.
      - change (@linf_norm f64 (ScalarF64 P)) with (@linf_norm f64 SM64) in Ez. rewrite Ez in Z1 |- *. rewrite b_abs_sign; [reflexivity|].
        destruct x; auto. simpl in Z1. lra. }
    clearbody psi. destruct psi as [da|[d m]]; cbn [normalise_by]; cbn [values sa_acts sa_dim] in Z |- *; rewrite Z.
    - f_equal. rewrite <- (map_id da) at 2. apply map_ext. exact div_one.
    - rewrite (map_collect_id (fun x => fdiv x b_one)) by exact K'. do 2 f_equal.
      rewrite <- (map_id m) at 2. apply map_ext. intros [k v]. cbn [fst snd]. f_equal. exact (div_one v).
  Qed.
End Features.
