(** SGDMomentum and NAG fitting one sample again and again, over the reals.
    Facts for C72. *)
From Coq Require Import List Arith Lia Reals Lra.
From Verif Require Import Base Scalar ScalarR HMap NdArray VecFacts Features Spec FeatureFacts
  Optim OptimSpec OptimFacts OptimReal Lfa LfaSpec LfaFacts LfaReal LfaRegret Passes.
Import ListNotations.
Local Open Scope R_scope.

(** ** Second-order recurrences *)

Lemma two_step_geometric (V : nat -> R) g : 0 < g < 1 -> (forall k, 0 <= V k) ->
  (forall k, V (S (S k)) <= g * V k) ->
  exists M h, 0 <= M /\ 0 < h < 1 /\ forall k, V k <= M * h ^ k.
Proof.
  intros [G0 G1] Nn St. set (h := sqrt g).
  assert (Hh : h * h = g) by (apply sqrt_sqrt; lra).
  assert (H0 : 0 < h) by (apply sqrt_lt_R0; lra).
  assert (H1 : h < 1) by nra.
  set (M := V 0%nat + V 1%nat / h).
  assert (M0 : 0 <= V 1%nat / h) by (apply Rmult_le_pos; [auto|left; apply Rinv_0_lt_compat; auto]).
  exists M, h. splits; auto; [unfold M; pose proof (Nn 0%nat); lra|].
  assert (Both : forall k, V k <= M * h ^ k /\ V (S k) <= M * h ^ S k).
  { induction k as [|k [A B]].
    - split; simpl; unfold M.
      + lra.
      + replace ((V 0%nat + V 1%nat / h) * (h * 1)) with (V 0%nat * h + V 1%nat) by (field; lra).
        pose proof (Nn 0%nat). nra.
    - split; auto. eapply Rle_trans; [apply St|].
      replace (M * h ^ S (S k)) with (g * (M * h ^ k)) by (simpl; rewrite <- Hh; ring).
      apply Rmult_le_compat_l; lra. }
  intros k. apply Both.
Qed.

(** Inside the triangle |m| < 1, |t| < 1 + m solutions vanish geometrically. *)
Lemma recurrence_stable (x : nat -> R) t m : -1 < m < 1 -> - (1 + m) < t < 1 + m ->
  (forall k, x (S (S k)) = t * x (S k) - m * x k) ->
  exists C g, 0 <= g < 1 /\ forall k, Rabs (x k) <= C * g ^ k.
Proof.
  intros Hm Ht Rec. set (r := t / (1 + m)).
  assert (T : t = r * (1 + m)) by (unfold r; field; lra).
  assert (Hr : -1 < r < 1).
  { split; apply Rmult_lt_reg_r with (1 + m); lra. }
  assert (Hr2 : 0 < 1 - r * r) by nra. assert (Hm2 : 0 < 1 - m * m) by nra.
  set (z := fun k => x k - r * x (S k)).
  set (V := fun k => (1 - r * r) * (x (S k) * x (S k)) + z k * z k).
  assert (V0 : forall k, 0 <= V k).
  { intros k. unfold V. apply Rplus_le_le_0_compat; [apply Rmult_le_pos; [lra|apply Rle_0_sqr]|apply Rle_0_sqr]. }
  assert (Dec : forall k, V (S k) = V k - (1 - m * m) * (z k * z k)).
  { intros k. unfold V, z. rewrite Rec, T. ring. }
  assert (Zn : forall k, z (S k) = (1 - r * r) * x (S k) + r * m * z k).
  { intros k. unfold z. rewrite Rec, T. ring. }
  set (g := 1 - (1 - m * m) * (1 - r * r) / 4).
  assert (Hg : 0 < g < 1).
  { unfold g. assert (0 < (1 - m * m) * (1 - r * r)) by (apply Rmult_lt_0_compat; lra).
    assert ((1 - m * m) * (1 - r * r) <= 1 * 1).
    { apply Rmult_le_compat; try lra; [pose proof (Rle_0_sqr m)|pose proof (Rle_0_sqr r)]; unfold Rsqr in *; lra. }
    lra. }
  assert (Two : forall k, V (S (S k)) <= g * V k).
  { intros k. rewrite Dec, Dec, Zn. unfold g, V. set (a := x (S k)). set (y := z k).
    assert (R1 : r * r < 1) by lra. assert (M1 : m * m < 1) by lra.
    set (p := 1 - r * r) in *. set (q := 1 - m * m) in *.
    assert (Key : p * (p * (a * a) + y * y) / 4 <= y * y + (p * a + r * m * y) * (p * a + r * m * y)).
    { assert (B : (r * m * y) * (r * m * y) <= y * y).
      { assert (r * m * (r * m) <= 1).
        { replace (r * m * (r * m)) with ((r * r) * (m * m)) by ring. pose proof (Rle_0_sqr m). pose proof (Rle_0_sqr r).
          unfold Rsqr in *. rewrite <- (Rmult_1_r 1). apply Rmult_le_compat; lra. }
        pose proof (Rle_0_sqr y). unfold Rsqr in *. nra. }
      set (c := r * m * y) in *.
      assert (S1 : (p * a) * (p * a) / 2 - c * c <= (p * a + c) * (p * a + c)).
      { pose proof (Rle_0_sqr (p * a + 2 * c)). unfold Rsqr in *. nra. }
      assert (P1 : p <= 1) by (unfold p; pose proof (Rle_0_sqr r); unfold Rsqr in *; lra).
      pose proof (Rle_0_sqr y). pose proof (Rle_0_sqr (p * a + c)). unfold Rsqr in *.
      assert (p * (y * y) <= y * y) by nra. lra. }
    assert (q * (p * (p * (a * a) + y * y) / 4) <= q * (y * y + (p * a + r * m * y) * (p * a + r * m * y)))
      by (apply Rmult_le_compat_l; lra). lra. }
  destruct (two_step_geometric V g Hg V0 Two) as (M & h & M0 & Hh & B).
  assert (Sh : 0 < sqrt h < 1).
  { split; [apply sqrt_lt_R0; lra|]. rewrite <- sqrt_1. apply sqrt_lt_1; lra. }
  set (C := Rmax (Rabs (x 0%nat)) (sqrt (M / (1 - r * r)) / sqrt h)).
  exists C, (sqrt h). split; [lra|]. intros [|k].
  - simpl. rewrite Rmult_1_r. apply Rmax_l.
  - assert (Sq : x (S k) * x (S k) <= M / (1 - r * r) * h ^ k).
    { apply Rmult_le_reg_l with (1 - r * r); auto.
      replace ((1 - r * r) * (M / (1 - r * r) * h ^ k)) with (M * h ^ k) by (field; lra).
      specialize (B k). unfold V in B. pose proof (Rle_0_sqr (z k)). unfold Rsqr in *. lra. }
    assert (Md : 0 <= M / (1 - r * r)) by (apply Rmult_le_pos; [auto|left; apply Rinv_0_lt_compat; auto]).
    assert (Ab : Rabs (x (S k)) <= sqrt (M / (1 - r * r)) * sqrt h ^ k).
    { apply Rsqr_incr_0; [|apply Rabs_pos|apply Rmult_le_pos; [apply sqrt_pos|apply pow_le; lra]].
      rewrite <- Rsqr_abs, Rsqr_mult, Rsqr_sqrt by auto. unfold Rsqr at 1 2.
        rewrite <- Rpow_mult_distr, sqrt_sqrt by lra. exact Sq. }
    replace (sqrt (M / (1 - r * r)) * sqrt h ^ k) with (sqrt (M / (1 - r * r)) / sqrt h * sqrt h ^ S k) in Ab
      by (simpl; field; lra).
    eapply Rle_trans; [exact Ab|]. apply Rmult_le_compat_r; [apply pow_le; lra|apply Rmax_r].
Qed.

(** Below it they never vanish. *)
Lemma recurrence_unstable (x : nat -> R) t m : -1 < m < 1 -> t <= - (1 + m) ->
  (forall k, x (S (S k)) = t * x (S k) - m * x k) -> x 1%nat = (t - m) * x 0%nat -> x 0%nat <> 0 ->
  exists d, 0 < d /\ forall N, exists k, (N <= k)%nat /\ d <= Rabs (x k).
Proof.
  intros Hm Ht Rec X1 X0.
  assert (Disc : 0 <= t * t - 4 * m) by nra.
  set (s := sqrt (t * t - 4 * m)). assert (S0 : 0 <= s) by apply sqrt_pos.
  assert (SS : s * s = t * t - 4 * m) by (apply sqrt_sqrt; auto).
  set (l := (t - s) / 2). set (u := (t + s) / 2).
  assert (Sum : l + u = t) by (unfold l, u; lra).
  assert (Prod : l * u = m) by (unfold l, u; nra).
  assert (L1 : l <= -1).
  { unfold l. assert (s >= 2 + t); [|lra]. destruct (Rle_lt_dec (2 + t) 0) as [A|A]; [lra|].
    apply Rle_ge, Rsqr_incr_0; [unfold Rsqr; nra|lra|auto]. }
  assert (U1 : Rabs u <= 1).
  { apply Rabs_le. assert (L2 : 1 <= l * l) by nra. split; nra. }
  set (z := fun k => x (S k) - u * x k).
  assert (Zs : forall k, z (S k) = l * z k) by (intros k; unfold z; rewrite Rec; nra).
  assert (Z0 : z 0%nat = (l - m) * x 0%nat) by (unfold z; rewrite X1, <- Sum; ring).
  assert (Zn : z 0%nat <> 0) by (rewrite Z0; apply Rmult_integral_contrapositive_currified; [lra|auto]).
  assert (Grow : forall k, Rabs (z 0%nat) <= Rabs (z k)).
  { induction k as [|k IH]; [lra|]. rewrite Zs, Rabs_mult. assert (1 <= Rabs l) by (rewrite Rabs_left; lra).
    pose proof (Rabs_pos (z k)). nra. }
  exists (Rabs (z 0%nat) / 2). split; [apply Rabs_pos_lt in Zn; lra|]. intros N.
  specialize (Grow N). destruct (Rle_lt_dec (Rabs (z 0%nat) / 2) (Rabs (x N))) as [A|A]; [exists N; auto|].
  exists (S N). split; auto. pose proof (Rabs_triang (x (S N)) (- (u * x N))) as T.
  rewrite Rabs_Ropp, Rabs_mult in T. unfold z in Grow at 2. unfold Rminus in Grow.
  pose proof (Rabs_pos (x N)). pose proof (Rabs_pos u). nra.
Qed.

(** ** The optimisers *)

(** Velocity and weights after a step; [d] is what NAG adds on top. *)
Definition heavy_rule (o : Optimiser R (momentum_state R)) (d : R -> R) : Prop :=
  forall m lr v w phi e, sized (length w) phi -> length v = length w -> exists v' w',
    o_step_scaled o (MkMomentum m lr v) w phi e = Ret (MkMomentum m lr v', w', Ok tt) /\
    length v' = length w /\ length w' = length w /\
    (forall i, at_ v' i = m * at_ v i + coeff phi i * e) /\
    (forall i, at_ w' i = at_ w i + lr * at_ v' i + d m * coeff phi i).

Lemma coeff_beyond phi n i : sized n phi -> (n <= i)%nat -> coeff phi i = 0.
Proof. intros [[K B] Z] L. apply coeff_unstored; auto. intros S. apply B in S. lia. Qed.

Lemma momentum_heavy : heavy_rule SGDMomentum (fun _ => 0).
Proof.
  intros m lr v w phi e Z L.
  destruct (momentum_step_spec (MkMomentum m lr v) w phi e Z L) as (v' & w' & E & Lv & Lw & N).
  exists v', w'. splits; auto.
  - intros i. destruct (Nat.lt_ge_cases i (length w)) as [Li|Li].
    + destruct (N i (at_ w i) (at_ v i)) as [A _]; [apply at_nth_error; lia|apply at_nth_error; simpl; lia|].
      rewrite (nth_error_at _ _ _ A), new_velocity_R. simpl. ring.
    + rewrite (coeff_beyond phi _ i Z Li). unfold at_. rewrite !nth_overflow by lia. ring.
  - intros i. destruct (Nat.lt_ge_cases i (length w)) as [Li|Li].
    + destruct (N i (at_ w i) (at_ v i)) as [A B]; [apply at_nth_error; lia|apply at_nth_error; simpl; lia|].
      rewrite (nth_error_at _ _ _ A), (nth_error_at _ _ _ B). simpl. ring.
    + unfold at_. rewrite !nth_overflow by lia. ring.
Qed.

Lemma nag_heavy : heavy_rule NAG (fun m => m).
Proof.
  intros m lr v w phi e Z L.
  destruct (nag_step_spec (MkMomentum m lr v) w phi e Z L) as (v' & w' & E & Lv & Lw & N).
  exists v', w'. splits; auto.
  - intros i. destruct (Nat.lt_ge_cases i (length w)) as [Li|Li].
    + destruct (N i (at_ w i) (at_ v i)) as [A _]; [apply at_nth_error; lia|apply at_nth_error; simpl; lia|].
      rewrite (nth_error_at _ _ _ A), new_velocity_R. simpl. ring.
    + rewrite (coeff_beyond phi _ i Z Li). unfold at_. rewrite !nth_overflow by lia. ring.
  - intros i. destruct (Nat.lt_ge_cases i (length w)) as [Li|Li].
    + destruct (N i (at_ w i) (at_ v i)) as [A [B1 B2]]; [apply at_nth_error; lia|apply at_nth_error; simpl; lia|].
      rewrite (nth_error_at _ _ _ A). destruct (stored_dec phi i (proj1 (proj1 Z))) as [[a S]|S].
      * rewrite (nth_error_at _ _ _ (B1 a S)), (coeff_stores phi i a (proj1 (proj1 Z)) S). reflexivity.
      * rewrite (nth_error_at _ _ _ (B2 S)), (coeff_unstored phi i (proj1 (proj1 Z)) S). simpl. ring.
    + rewrite (coeff_beyond phi _ i Z Li). unfold at_. rewrite !nth_overflow by lia. ring.
Qed.

Lemma predict_lin phi (w u v : list R) a b c :
  (forall i, at_ w i = a * at_ u i + b * at_ v i + c * coeff phi i) ->
  predict phi w = a * predict phi u + b * predict phi v + c * norm2 phi.
Proof.
  intros E. unfold predict, norm2. rewrite <- !sigma_scal, <- !sigma_plus. apply sigma_ext. intros i _. rewrite E. ring.
Qed.

Section OneSample.
  Context {I : Type} (o : Optimiser R (momentum_state R)) (d : R -> R) (Rule : heavy_rule o d).
  Context (b : Basis R I) (x : I) (y : R) (phi : Features R) (m lr : R) (v w : list R).
  Context (P : b_project b x = Ret (Ok phi)) (Z : sized (length w) phi) (Lv : length v = length w).

  (** Residual, and inner product of the velocity with the features. *)
  Fixpoint track (k : nat) : R * R :=
    match k with
    | 0%nat => (y - predict phi w, predict phi v)
    | S k => let '(e, u) := track k in
        let u' := m * u + e * norm2 phi in (e - lr * u' - d m * norm2 phi, u')
    end.

  Lemma track_run : forall k, exists vk wk,
    s_run o (repeat (fit_call (x, y)) k) (MkLFA b w (MkMomentum m lr v)) = Ret (MkLFA b wk (MkMomentum m lr vk)) /\
    length wk = length w /\ length vk = length w /\
    s_evaluate (MkLFA b wk (MkMomentum m lr vk)) x = Ret (Ok (predict phi wk)) /\
    y - predict phi wk = fst (track k) /\ predict phi vk = snd (track k).
  Proof.
    assert (Ev : forall wk s, length wk = length w -> s_evaluate (MkLFA b wk s : ScalarLFA R I (momentum_state R)) x = Ret (Ok (predict phi wk))).
    { intros wk s L. unfold s_evaluate. simpl. rewrite P. simpl. rewrite dot_predict by (rewrite L; auto). reflexivity. }
    induction k as [|k (vk & wk & E & Lw & Lk & _ & Te & Tu)].
    - exists v, w. splits; auto.
    - assert (Rp : repeat (fit_call (x, y)) (S k) = repeat (fit_call (x, y)) k ++ [fit_call (x, y)])
        by (replace (S k) with (k + 1)%nat by lia; rewrite repeat_app; reflexivity).
      rewrite Rp, s_run_app, E.
      destruct (Rule m lr vk wk phi (y - predict phi wk)) as (v' & w' & St & Lv' & Lw' & Nv & Nw); [rewrite Lw; auto|congruence|].
      exists v', w'. splits; try congruence.
      + cbn [obind]. unfold s_run. cbn [ofold]. unfold s_do, fit_call, omap, s_update_with. simpl. rewrite P. simpl.
        rewrite dot_predict by (rewrite Lw; auto). simpl. rewrite St. reflexivity.
      + apply Ev. congruence.
      + cbn [track]. destruct (track k) as [e u]. cbn [fst snd] in *.
        assert (A : predict phi w' = 1 * predict phi wk + lr * predict phi v' + d m * norm2 phi)
          by (apply predict_lin; intros i; rewrite Nw; ring).
        assert (B : predict phi v' = m * predict phi vk + 0 * predict phi vk + (y - predict phi wk) * norm2 phi)
          by (apply predict_lin; intros i; rewrite Nv; ring).
        rewrite A, B, Tu, Te. rewrite <- Te. ring.
      + cbn [track]. destruct (track k) as [e u]. cbn [fst snd] in *.
        assert (B : predict phi v' = m * predict phi vk + 0 * predict phi vk + (y - predict phi wk) * norm2 phi)
          by (apply predict_lin; intros i; rewrite Nv; ring).
        rewrite B, Tu, Te. ring.
  Qed.

  (** Deviation of the residual from its fixed point. *)
  Let dev k := fst (track k) + (1 - m) * d m / lr.

  Lemma dev_rec : lr <> 0 -> forall k, dev (S (S k)) = (1 + m - lr * norm2 phi) * dev (S k) - m * dev k.
  Proof.
    intros L k. unfold dev. cbn [track]. destruct (track k) as [e u]. cbn [fst snd]. field. auto.
  Qed.

  Theorem heavy_converges : -1 < m < 1 -> 0 < lr -> 0 < lr * norm2 phi < 2 * (1 + m) ->
    exists C g, 0 <= g < 1 /\ forall k, exists a r,
      s_run o (repeat (fit_call (x, y)) k) (MkLFA b w (MkMomentum m lr v)) = Ret a /\
      s_evaluate a x = Ret (Ok r) /\ Rabs (r - y - (1 - m) * d m / lr) <= C * g ^ k.
  Proof.
    intros Hm Hl Hs. destruct (recurrence_stable dev (1 + m - lr * norm2 phi) m Hm ltac:(lra)) as (C & g & Hg & B).
    { apply dev_rec. lra. }
    exists C, g. split; auto. intros k. destruct (track_run k) as (vk & wk & E & _ & _ & Ev & Te & _).
    eexists _, _. splits; [exact E|exact Ev|]. specialize (B k). unfold dev in B. rewrite <- Te in B.
    rewrite <- Rabs_Ropp. replace (- (predict phi wk - y - (1 - m) * d m / lr)) with (y - predict phi wk + (1 - m) * d m / lr) by ring.
    exact B.
  Qed.

  Theorem heavy_diverges : d m = 0 -> -1 < m < 1 -> 0 < lr -> 2 * (1 + m) <= lr * norm2 phi ->
    predict phi v = 0 -> predict phi w <> y ->
    exists del, 0 < del /\ forall N, exists k a r, (N <= k)%nat /\
      s_run o (repeat (fit_call (x, y)) k) (MkLFA b w (MkMomentum m lr v)) = Ret a /\
      s_evaluate a x = Ret (Ok r) /\ del <= Rabs (r - y).
  Proof.
    intros D0 Hm Hl Hs V0 Ne.
    destruct (recurrence_unstable dev (1 + m - lr * norm2 phi) m Hm ltac:(lra)) as (del & Pd & B).
    { apply dev_rec. lra. }
    { unfold dev. cbn [track fst snd]. rewrite D0, V0. field. lra. }
    { unfold dev. cbn [track fst snd]. rewrite D0. unfold Rdiv. rewrite Rmult_0_r, Rmult_0_l. lra. }
    exists del. split; auto. intros N. destruct (B N) as (k & Nk & G).
    destruct (track_run k) as (vk & wk & E & _ & _ & Ev & Te & _).
    exists k, (MkLFA b wk (MkMomentum m lr vk)), (predict phi wk). splits; auto. unfold dev in G. rewrite <- Te, D0 in G.
    rewrite <- Rabs_Ropp. replace (- (predict phi wk - y)) with (y - predict phi wk + (1 - m) * 0 / lr) by (unfold Rdiv; ring).
    exact G.
  Qed.
End OneSample.
