(** Adagrad fitting one sample again and again, over the reals. Facts for C73. *)
From Coq Require Import List Arith ZArith Lia Reals Lra Classical.
From Verif Require Import Base Scalar ScalarR HMap NdArray VecFacts Features Spec FeatureFacts
  Optim OptimSpec OptimFacts OptimReal Lfa LfaSpec LfaFacts LfaReal LfaRegret Passes HeavyBall.
Import ListNotations.
Local Open Scope R_scope.

Lemma nat_above x : exists M : nat, x < INR M.
Proof.
  destruct (archimed x) as [A _]. exists (Z.to_nat (up x)). eapply Rlt_le_trans; [apply Rgt_lt, A|].
  rewrite INR_IZR_INZ. apply IZR_le. lia.
Qed.

(** ** Rates that fall with the accumulated squared error *)
Section Rates.
  Context (eta : R -> R) (a b : R) (e T : nat -> R).
  Context (Pos : forall t, 0 <= t -> 0 < eta t) (Anti : forall t t', 0 <= t <= t' -> eta t' <= eta t).
  Context (Small : exists t0, 0 <= t0 /\ eta t0 <= 1).
  Context (Pa : 0 < a) (Pb : 0 <= b) (Slow : forall r, 0 <= r -> a / (b + r + 1) <= eta (r * r)).
  Context (T0 : 0 <= T 0%nat) (Ts : forall k, T (S k) = T k + e k * e k).
  Context (Es : forall k, e (S k) = e k * (1 - eta (T (S k)))).

  Lemma T_mono j k : (j <= k)%nat -> T j <= T k.
  Proof. intros L. induction L as [|k L IH]; [lra|]. rewrite Ts. pose proof (Rle_0_sqr (e k)). unfold Rsqr in *. lra. Qed.

  Lemma T_nonneg k : 0 <= T k.
  Proof. pose proof (T_mono 0 k ltac:(lia)). lra. Qed.

  Lemma bounded_case B : (forall k, T k <= B) -> forall eps, 0 < eps -> exists N, forall k, (N <= k)%nat -> Rabs (e k) < eps.
  Proof.
    intros Bd eps P. destruct (growing_cv T) as [l Cv].
    - intros k. apply T_mono. lia.
    - exists B. intros x [k ->]. auto.
    - destruct (Cv (eps * eps / 2) ltac:(nra)) as [N Near]. exists N. intros k Nk.
      pose proof (Near k Nk) as A1. pose proof (Near (S k) ltac:(lia)) as A2. unfold R_dist in *.
      apply Rabs_def2 in A1. apply Rabs_def2 in A2. rewrite Ts in A2.
      apply Rsqr_incrst_0; [|apply Rabs_pos|lra]. rewrite <- Rsqr_abs. unfold Rsqr. lra.
  Qed.

  Lemma no_floor K L : eta (T (S K)) <= 1 -> 0 < L -> ~ (forall k, (K <= k)%nat -> L <= Rabs (e k)).
  Proof.
    intros E1 PL Fl. set (E := Rabs (e K)). assert (PE : 0 < E) by (specialize (Fl K ltac:(lia)); fold E in Fl; lra).
    assert (Dec : forall j, Rabs (e (S (K + j))) = Rabs (e (K + j)%nat) * (1 - eta (T (S (K + j))))).
    { intros j. rewrite Es, Rabs_mult. f_equal. apply Rabs_pos_eq.
      assert (eta (T (S (K + j))) <= eta (T (S K))); [|lra].
      apply Anti. split; [apply T_nonneg|apply T_mono; lia]. }
    assert (Le : forall j, Rabs (e (K + j)%nat) <= E).
    { induction j as [|j IH]; [rewrite Nat.add_0_r; unfold E; lra|].
      replace (K + S j)%nat with (S (K + j)) by lia. rewrite Dec. pose proof (Pos (T (S (K + j))) (T_nonneg _)).
      pose proof (Rabs_pos (e (K + j)%nat)). nra. }
    assert (Tb : forall j, T (K + j)%nat <= T K + INR j * (E * E)).
    { induction j as [|j IH]; [rewrite Nat.add_0_r; simpl; lra|].
      replace (K + S j)%nat with (S (K + j)) by lia. rewrite Ts, S_INR.
      assert (e (K + j)%nat * e (K + j)%nat <= E * E).
      { replace (e (K + j)%nat * e (K + j)%nat) with (Rabs (e (K + j)%nat) * Rabs (e (K + j)%nat)).
        - apply Rmult_le_compat; auto using Rabs_pos.
        - rewrite <- Rabs_mult. apply Rabs_pos_eq. apply Rle_0_sqr. }
      lra. }
    set (s := sqrt (T K)). assert (Ss : s * s = T K) by (apply sqrt_sqrt, T_nonneg). assert (S0 : 0 <= s) by apply sqrt_pos.
    assert (Key : forall M : nat, INR M * INR M * (L * a) <= E * (b + s + INR M * E + 1)).
    { intros M. pose proof (pos_INR M) as M0. set (r := s + INR M * E).
      assert (R0 : 0 <= r) by (unfold r; assert (0 <= INR M * E) by (apply Rmult_le_pos; lra); lra).
      set (h := a / (b + r + 1)). assert (Ph : 0 < h) by (apply Rdiv_lt_0_compat; lra).
      assert (Hr : forall j, (S j <= M * M)%nat -> h <= eta (T (S (K + j)))).
      { intros j Lj. eapply Rle_trans; [apply Slow; exact R0|]. apply Anti. split; [apply T_nonneg|].
        replace (S (K + j)) with (K + S j)%nat by lia. eapply Rle_trans; [apply Tb|].
        apply le_INR in Lj. rewrite mult_INR in Lj. unfold r. rewrite <- Ss.
        assert (INR (S j) * (E * E) <= INR M * INR M * (E * E)) by (apply Rmult_le_compat_r; [nra|auto]).
        assert (0 <= 2 * s * (INR M * E)) by (apply Rmult_le_pos; [lra|apply Rmult_le_pos; lra]). nra. }
      assert (Dn : forall j, (j <= M * M)%nat -> Rabs (e (K + j)%nat) <= E - INR j * (L * h)).
      { induction j as [|j IH]; intros Lj; [rewrite Nat.add_0_r; simpl; unfold E; lra|].
        specialize (IH ltac:(lia)). replace (K + S j)%nat with (S (K + j)) by lia. rewrite Dec, S_INR.
        specialize (Hr j Lj). specialize (Fl (K + j)%nat ltac:(lia)).
        assert (L * h <= Rabs (e (K + j)%nat) * eta (T (S (K + j)))) by (apply Rmult_le_compat; lra). lra. }
      specialize (Dn (M * M)%nat ltac:(lia)). rewrite mult_INR in Dn. pose proof (Rabs_pos (e (K + M * M)%nat)).
      assert (F : INR M * INR M * (L * h) <= E) by lra.
      apply Rmult_le_compat_r with (r := b + r + 1) in F; [|lra].
      replace (INR M * INR M * (L * h) * (b + r + 1)) with (INR M * INR M * (L * a)) in F by (unfold h; field; lra).
      unfold r in F. lra. }
    assert (La : 0 < L * a) by (apply Rmult_lt_0_compat; auto).
    destruct (nat_above (1 + (E * (b + s + 1) + E * E) / (L * a))) as [M HM].
    specialize (Key M). set (m := INR M) in *.
    assert (Q0 : 0 <= (E * (b + s + 1) + E * E) / (L * a)).
    { apply Rmult_le_pos; [nra|left; apply Rinv_0_lt_compat; auto]. }
    assert (M1 : 1 < m) by lra.
    assert (HM' : (E * (b + s + 1) + E * E) < m * (L * a)).
    { apply Rmult_lt_reg_r with (/ (L * a)); [apply Rinv_0_lt_compat; auto|].
      replace (m * (L * a) * / (L * a)) with m by (field; lra). unfold Rdiv in HM. lra. }
    assert (m * (E * (b + s + 1) + E * E) < m * (m * (L * a))) by (apply Rmult_lt_compat_l; lra).
    assert (E * (b + s + 1) <= m * (E * (b + s + 1))).
    { rewrite <- (Rmult_1_l (E * (b + s + 1))) at 1. apply Rmult_le_compat_r; [apply Rmult_le_pos; lra|lra]. }
    nra.
  Qed.

  Theorem rates_vanish : forall eps, 0 < eps -> exists N, forall k, (N <= k)%nat -> Rabs (e k) < eps.
  Proof.
    intros eps P. destruct (classic (exists B, forall k, T k <= B)) as [[B Bd]|Un]; [apply (bounded_case B Bd eps P)|].
    destruct Small as (t0 & Pt & E1).
    assert (Ex : exists K, t0 <= T (S K)).
    { apply NNPP. intros C. apply Un. exists t0. intros k. left. apply Rnot_le_lt. intros X. apply C. exists k.
      eapply Rle_trans; [exact X|]. apply T_mono. lia. }
    destruct Ex as [K TK]. assert (EK : eta (T (S K)) <= 1) by (eapply Rle_trans; [apply Anti; split; [exact Pt|exact TK]|exact E1]).
    apply NNPP. intros C. apply (no_floor K eps EK P). intros k Lk. apply Rnot_lt_le. intros X. apply C. exists k.
    assert (Dec : forall j, (k <= j)%nat -> Rabs (e j) <= Rabs (e k)).
    { intros j Lj. induction Lj as [|j Lj IH]; [lra|]. rewrite Es, Rabs_mult.
      assert (A : eta (T (S j)) <= eta (T (S K))) by (apply Anti; split; [apply T_nonneg|apply T_mono; lia]).
      pose proof (Pos (T (S j)) (T_nonneg _)). rewrite (Rabs_pos_eq (1 - eta (T (S j)))) by lra.
      pose proof (Rabs_pos (e j)). nra. }
    intros j Lj. specialize (Dec j Lj). lra.
  Qed.
End Rates.

(** ** Adagrad *)

Lemma adagrad_R lr acc w phi e : sized (length w) phi -> length acc = length w -> exists acc' w',
  o_step_scaled Adagrad (MkAdagrad lr acc) w phi e = Ret (MkAdagrad lr acc', w', Ok tt) /\
  length acc' = length w /\ length w' = length w /\
  (forall i, at_ acc' i = at_ acc i + coeff phi i * coeff phi i * (e * e)) /\
  (forall i, at_ w' i = at_ w i + lr * (coeff phi i * e) / (sqrt (at_ acc' i) + 1 / 10000000)).
Proof.
  intros Z L. destruct (expands_exists phi (proj1 (proj1 Z))) as [l X].
  destruct (adagrad_step_spec (MkAdagrad lr acc) w phi l e Z X L) as (acc' & w' & E & La & Lw & N).
  exists acc', w'.
  assert (In : forall i, (i < length w)%nat ->
    at_ acc' i = at_ acc i + coeff phi i * coeff phi i * (e * e) /\
    at_ w' i = at_ w i + lr * (coeff phi i * e) / (sqrt (at_ acc' i) + 1 / 10000000)).
  { intros i Li. destruct (N i (coeff phi i) (at_ w i) (at_ acc i)) as [A B].
    - apply coeff_expands_err; [apply Z|exact X|]. destruct Z as [_ Zs]. rewrite Zs. lia.
    - apply at_nth_error. lia.
    - apply at_nth_error. simpl. lia.
    - rewrite (nth_error_at _ _ _ A), (nth_error_at _ _ _ B). unfold adagrad_move. rewrite EPS_R.
      unfold adagrad_acc. simpl. split; [ring|]. reflexivity. }
  splits; auto.
  - intros i. destruct (Nat.lt_ge_cases i (length w)) as [Li|Li]; [apply In; auto|].
    rewrite (coeff_beyond phi _ i Z Li). unfold at_. rewrite !nth_overflow by lia. ring.
  - intros i. destruct (Nat.lt_ge_cases i (length w)) as [Li|Li]; [apply In; auto|].
    rewrite (coeff_beyond phi _ i Z Li). unfold at_ at 1 2. rewrite !nth_overflow by lia. unfold Rdiv. ring.
Qed.

Section OneSample.
  Context {I : Type} (b : Basis R I) (x : I) (y : R) (phi : Features R) (lr : R) (acc w : list R).
  Context (P : b_project b x = Ret (Ok phi)) (Z : sized (length w) phi) (La : length acc = length w).
  Context (Pl : 0 < lr) (Pn : 0 < norm2 phi) (Pacc : forall i, 0 <= at_ acc i).

  Let term t i := coeff phi i * coeff phi i / (sqrt (at_ acc i + coeff phi i * coeff phi i * t) + 1 / 10000000).
  Let eta t := lr * sigma (size phi) (term t).

  (** Residual and sum of the squared residuals before. *)
  Fixpoint atrack (k : nat) : R * R :=
    match k with
    | 0%nat => (y - predict phi w, 0)
    | S k => let '(e, t) := atrack k in (e * (1 - eta (t + e * e)), t + e * e)
    end.

  Lemma den_pos s t i : 0 <= s -> 0 < sqrt (s + coeff phi i * coeff phi i * t) + 1 / 10000000.
  Proof. intros _. pose proof (sqrt_pos (s + coeff phi i * coeff phi i * t)). lra. Qed.

  Lemma atrack_run : forall k, exists ak wk,
    s_run Adagrad (repeat (fit_call (x, y)) k) (MkLFA b w (MkAdagrad lr acc)) = Ret (MkLFA b wk (MkAdagrad lr ak)) /\
    length wk = length w /\ length ak = length w /\
    s_evaluate (MkLFA b wk (MkAdagrad lr ak)) x = Ret (Ok (predict phi wk)) /\
    y - predict phi wk = fst (atrack k) /\
    forall i, at_ ak i = at_ acc i + coeff phi i * coeff phi i * snd (atrack k).
  Proof.
    assert (Ev : forall wk s, length wk = length w -> s_evaluate (MkLFA b wk s : ScalarLFA R I (adagrad_state R)) x = Ret (Ok (predict phi wk))).
    { intros wk s L. unfold s_evaluate. simpl. rewrite P. simpl. rewrite dot_predict by (rewrite L; auto). reflexivity. }
    induction k as [|k (ak & wk & E & Lw & Lk & _ & Te & Ta)].
    - exists acc, w. splits; auto. intros i. simpl. ring.
    - assert (Rp : repeat (fit_call (x, y)) (S k) = repeat (fit_call (x, y)) k ++ [fit_call (x, y)])
        by (replace (S k) with (k + 1)%nat by lia; rewrite repeat_app; reflexivity).
      rewrite Rp, s_run_app, E.
      destruct (adagrad_R lr ak wk phi (y - predict phi wk)) as (a' & w' & St & La' & Lw' & Na & Nw); [rewrite Lw; auto|congruence|].
      exists a', w'. splits; try congruence.
      + cbn [obind]. unfold s_run. cbn [ofold]. unfold s_do, fit_call, omap, s_update_with. simpl. rewrite P. simpl.
        rewrite dot_predict by (rewrite Lw; auto). simpl. simpl in St. rewrite St. reflexivity.
      + apply Ev. congruence.
      + rewrite Te in Na, Nw. cbn [atrack]. destruct (atrack k) as [e t]. cbn [fst snd] in *.
        assert (Pw : predict phi w' = predict phi wk + e * (lr * sigma (size phi) (term (t + e * e)))).
        { unfold predict. rewrite <- !sigma_scal, <- sigma_plus. apply sigma_ext. intros i _. rewrite Nw.
          unfold term. rewrite Na, Ta.
          replace (at_ acc i + coeff phi i * coeff phi i * t + coeff phi i * coeff phi i * (e * e))
            with (at_ acc i + coeff phi i * coeff phi i * (t + e * e)) by ring.
          unfold Rdiv. ring. }
        rewrite Pw. unfold eta. rewrite <- Te. ring.
      + intros i. rewrite Na, Ta, Te. cbn [atrack]. destruct (atrack k) as [e t]. cbn [fst snd]. ring.
  Qed.

  Lemma term_nonneg t i : 0 <= term t i.
  Proof.
    unfold term. apply Rmult_le_pos; [apply Rle_0_sqr|]. left. apply Rinv_0_lt_compat, den_pos, Pacc.
  Qed.

  Lemma active : exists j, (j < size phi)%nat /\ coeff phi j <> 0.
  Proof.
    apply NNPP. intros C. assert (E : norm2 phi = 0); [|lra]. unfold norm2. rewrite (sigma_ext _ _ (fun _ => 0)).
    - rewrite sigma_const. ring.
    - intros i Li. assert (coeff phi i = 0); [|nra]. apply NNPP. intros X. apply C. exists i. auto.
  Qed.

  Lemma eta_slow j : (j < size phi)%nat -> coeff phi j <> 0 -> forall r, 0 <= r ->
    lr * Rabs (coeff phi j) / ((sqrt (at_ acc j) + 1) / Rabs (coeff phi j) + r + 1) <= eta (r * r).
  Proof.
    intros Lj Cj r R0. set (c := Rabs (coeff phi j)). assert (Pc : 0 < c) by (apply Rabs_pos_lt; auto).
    assert (Cc : coeff phi j * coeff phi j = c * c).
    { unfold c. rewrite <- Rabs_mult. symmetry. apply Rabs_pos_eq, Rle_0_sqr. }
    pose proof (sigma_term (term (r * r)) (term_nonneg (r * r)) (size phi) j Lj) as St.
    assert (Sq : sqrt (at_ acc j + c * c * (r * r)) <= sqrt (at_ acc j) + c * r).
    { pose proof (sqrt_pos (at_ acc j)) as Sp. assert (0 <= c * r) by (apply Rmult_le_pos; lra).
      apply Rsqr_incr_0; [|apply sqrt_pos|lra]. rewrite Rsqr_sqrt.
      - unfold Rsqr. pose proof (sqrt_sqrt (at_ acc j) (Pacc j)). nra.
      - pose proof (Pacc j). assert (0 <= (c * r) * (c * r)) by apply Rle_0_sqr. nra. }
    assert (Tj : c / ((sqrt (at_ acc j) + 1) / c + r + 1) <= term (r * r) j).
    { unfold term. rewrite Cc. pose proof (sqrt_pos (at_ acc j)) as Sp.
      pose proof (sqrt_pos (at_ acc j + c * c * (r * r))) as Sp'.
      replace (c / ((sqrt (at_ acc j) + 1) / c + r + 1)) with (c * c / (sqrt (at_ acc j) + 1 + c * r + c)).
      - apply Rmult_le_compat_l; [nra|]. apply Rinv_le_contravar; lra.
      - field. assert (0 <= c * r) by (apply Rmult_le_pos; lra). splits; nra. }
    unfold eta. replace (lr * c / ((sqrt (at_ acc j) + 1) / c + r + 1)) with (lr * (c / ((sqrt (at_ acc j) + 1) / c + r + 1))) by (unfold Rdiv; ring).
    apply Rmult_le_compat_l; lra.
  Qed.

  Lemma eta_anti t t' : 0 <= t <= t' -> eta t' <= eta t.
  Proof.
    intros [T0 Tt]. unfold eta. apply Rmult_le_compat_l; [lra|]. apply sigma_le. intros i _. unfold term.
    assert (C0 : 0 <= coeff phi i * coeff phi i) by apply Rle_0_sqr. pose proof (Pacc i).
    apply Rmult_le_compat_l; auto. apply Rinv_le_contravar; [apply den_pos, Pacc|].
    apply Rplus_le_compat_r, sqrt_le_1_alt. nra.
  Qed.

  (** Bounded by lr * sum |phi_i| / r at t = r^2. *)
  Lemma eta_fades : exists t0, 0 <= t0 /\ eta t0 <= 1.
  Proof.
    set (m := sigma (size phi) (fun i => Rabs (coeff phi i))).
    assert (M0 : 0 <= m) by (apply sigma_nonneg; intros; apply Rabs_pos).
    set (r := 1 + lr * m). assert (R1 : 1 <= r) by (unfold r; assert (0 <= lr * m) by (apply Rmult_le_pos; lra); lra).
    exists (r * r). split; [nra|]. unfold eta.
    assert (Le : sigma (size phi) (term (r * r)) <= / r * m).
    { unfold m. rewrite <- sigma_scal. apply sigma_le. intros i _. unfold term.
      set (c := Rabs (coeff phi i)). assert (C0 : 0 <= c) by apply Rabs_pos.
      assert (Cc : coeff phi i * coeff phi i = c * c).
      { unfold c. rewrite <- Rabs_mult. symmetry. apply Rabs_pos_eq, Rle_0_sqr. }
      rewrite Cc. assert (Sq : c * r <= sqrt (at_ acc i + c * c * (r * r))).
      { rewrite <- (sqrt_square (c * r)) by (apply Rmult_le_pos; lra). apply sqrt_le_1_alt. pose proof (Pacc i). lra. }
      destruct (Req_dec c 0) as [->|Ne]; [unfold Rdiv; lra|].
      assert (Pc : 0 < c) by lra. apply Rle_trans with (c * c / (c * r)).
      - apply Rmult_le_compat_l; [nra|]. apply Rinv_le_contravar; [apply Rmult_lt_0_compat; lra|lra].
      - right. field. lra. }
    apply Rle_trans with (lr * (/ r * m)); [apply Rmult_le_compat_l; lra|].
    apply Rmult_le_reg_r with r; [lra|]. replace (lr * (/ r * m) * r) with (lr * m) by (field; lra). unfold r. lra.
  Qed.

  Theorem adagrad_fits : forall eps, 0 < eps -> exists N, forall k, (N <= k)%nat -> exists a r,
    s_run Adagrad (repeat (fit_call (x, y)) k) (MkLFA b w (MkAdagrad lr acc)) = Ret a /\
    s_evaluate a x = Ret (Ok r) /\ Rabs (r - y) < eps.
  Proof.
    intros eps Pe. destruct active as (j & Lj & Cj).
    assert (Pc : 0 < Rabs (coeff phi j)) by (apply Rabs_pos_lt; auto).
    destruct (rates_vanish eta (lr * Rabs (coeff phi j)) ((sqrt (at_ acc j) + 1) / Rabs (coeff phi j))
      (fun k => fst (atrack k)) (fun k => snd (atrack k))) with (eps := eps) as [N V]; auto.
    - intros t T0. unfold eta. apply Rmult_lt_0_compat; auto.
      eapply Rlt_le_trans; [|apply (sigma_term (term t) (term_nonneg t) (size phi) j Lj)].
      unfold term. apply Rdiv_lt_0_compat; [|apply den_pos, Pacc]. nra.
    - apply eta_anti.
    - apply eta_fades.
    - apply Rmult_lt_0_compat; auto.
    - apply Rmult_le_pos; [pose proof (sqrt_pos (at_ acc j)); lra|left; apply Rinv_0_lt_compat; auto].
    - apply eta_slow; auto.
    - simpl. lra.
    - intros k. simpl. destruct (atrack k); reflexivity.
    - intros k. simpl. destruct (atrack k); reflexivity.
    - exists N. intros k Nk. destruct (atrack_run k) as (ak & wk & E & _ & _ & Ev & Te & _).
      eexists _, _. splits; [exact E|exact Ev|]. specialize (V k Nk). cbn beta in V. rewrite <- Te in V.
      rewrite <- Rabs_Ropp. replace (- (predict phi wk - y)) with (y - predict phi wk) by ring. exact V.
  Qed.
End OneSample.
