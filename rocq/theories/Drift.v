(** Fitting a target that moves, over the reals. *)
From Coq Require Import List Arith Lia Reals Lra.
From Verif Require Import Base Scalar ScalarR HMap NdArray VecFacts Features Spec FeatureFacts
  Optim OptimSpec OptimFacts OptimReal Lfa LfaSpec LfaFacts LfaReal LfaRegret SgdF64.
Import ListNotations.
Local Open Scope R_scope.

(** Euclidean distance of two weight vectors. *)
Definition dist (w v : list R) : R := sqrt (dist2 w v).

Lemma dist_nn w v : dist w v = nn (length w) (fun i => at_ w i - at_ v i).
Proof. reflexivity. Qed.

Lemma dist_nonneg w v : 0 <= dist w v.
Proof. apply sqrt_pos. Qed.

Lemma dist_sqr w v : dist w v * dist w v = dist2 w v.
Proof. apply sqrt_sqrt, dist2_nonneg. Qed.

Lemma dist_triangle w u v : length u = length w -> dist w v <= dist w u + dist u v.
Proof.
  intros L. rewrite !dist_nn, L. eapply Rle_trans; [|apply nn_triangle]. unfold nn. right. f_equal. apply sigma_ext. intros i _. ring.
Qed.

(** How far the weights [ws], [wss]... travel. *)
Fixpoint path (ws : list R) (wss : list (list R)) : R :=
  match wss with [] => 0 | ws' :: wss' => dist ws ws' + path ws' wss' end.

Lemma path_nonneg : forall wss ws, 0 <= path ws wss.
Proof. induction wss as [|v wss IH]; intros ws; cbn; [lra|]. pose proof (dist_nonneg ws v). specialize (IH v). lra. Qed.

(** Sample [k] is explained by the [k]-th weights. *)
Definition explained {I} (b : Basis R I) (n : nat) (h : list (I * R)) (wss : list (list R)) : Prop :=
  Forall2 (fun p ws => length ws = n /\ consistent b n ws p) h wss.

Section Drift.
  Context {I : Type} (o : Optimiser R R) (lr : R) (c : Features R -> R) (Rule : linear_rule o lr c).

  (** [k]: what a step gains for each unit of squared error. *)
  Theorem drift_gen (b : Basis R I) k : 0 <= k -> forall h wss w ws, explained b (length w) h (ws :: wss) ->
    Forall (fun p => forall phi, b_project b (fst p) = Ret (Ok phi) -> k <= c phi * (2 - c phi * norm2 phi)) h ->
    exists w', s_run o (map fit_call h) (MkLFA b w lr) = Ret (MkLFA b w' lr) /\ length w' = length w /\
      dist w' (last wss ws) <= dist w ws + path ws wss /\
      (exists es, residuals o (MkLFA b w lr) h es) /\
      forall es, residuals o (MkLFA b w lr) h es ->
        k * sum_sq es <= (dist w ws + path ws wss) * (dist w ws + path ws wss).
  Proof.
    intros K0. induction h as [|[x y] h IH]; intros wss w ws Ex Rs; inversion Ex as [|? ? ? ? [Lws (phi & P & Z & Y)] Ex']; subst.
    inversion Rs as [|? ? R1 Rs']; subst. cbn [fst snd] in *. specialize (R1 phi P).
    destruct (fit_step o lr c Rule b w x y phi P Z) as (w1 & E & L & Ev & N & _).
    pose proof (dist2_step c phi w w1 ws _ L (proj2 Z) N) as D. rewrite Y in D.
    set (e := y - predict phi w) in *.
    assert (G : k * (e * e) <= dist2 w ws - dist2 w1 ws).
    { replace (dist2 w ws - dist2 w1 ws) with (c phi * (2 - c phi * norm2 phi) * (e * e)) by (rewrite D; unfold e; rewrite Y; ring).
      apply Rmult_le_compat_r; [apply Rle_0_sqr|exact R1]. }
    rewrite <- !dist_sqr in G. pose proof (dist_nonneg w ws) as D0. pose proof (dist_nonneg w1 ws) as D1.
    assert (Ke : 0 <= k * (e * e)) by (apply Rmult_le_pos; [exact K0|apply Rle_0_sqr]).
    assert (Le : dist w1 ws <= dist w ws) by (apply Rsqr_incr_0_var; [unfold Rsqr; lra|exact D0]).
    destruct wss as [|ws' wss].
    - inversion Ex'; subst. exists w1. cbn [last path]. splits; auto; [unfold s_run; cbn [map ofold]; rewrite E; reflexivity|lra| |].
      + exists [e]. apply (residuals_cons _ _ _ _ _ _ _ _ E Ev). split; [reflexivity|]. split; [reflexivity|]. intros [|j] z Q; discriminate.
      + intros es Hr. destruct es as [|e0 [|]]; try (destruct Hr as [Hl _]; discriminate).
        apply (residuals_cons _ _ _ _ _ _ _ _ E Ev) in Hr. destruct Hr as [-> _]. cbn [fst snd]. fold e.
        unfold sum_sq. cbn. rewrite !Rplus_0_r. assert (0 <= dist w1 ws * dist w1 ws) by apply Rle_0_sqr. lra.
    - rewrite <- L in Ex'. destruct (IH wss w1 ws' Ex' Rs') as (w' & E' & L' & Dl & [es Res] & Bd).
      pose proof (dist_triangle w1 ws ws' ltac:(congruence)) as T. pose proof (path_nonneg wss ws') as Pn.
      pose proof (dist_nonneg ws ws') as Dn. pose proof (dist_nonneg w1 ws') as Dn'. cbn [path].
      exists w'. splits; [unfold s_run; cbn [map ofold]; rewrite E; exact E'|congruence| | |].
      + replace (last (ws' :: wss) ws) with (last wss ws'); [lra|].
        clear. revert ws'. induction wss as [|a wss IHw]; intros ws'; [reflexivity|]. cbn [last] in *. destruct wss; [reflexivity|]. apply IHw.
      + exists (e :: es). apply (residuals_cons _ _ _ _ _ _ _ _ E Ev). auto.
      + intros [|e0 es'] Hr; [destruct Hr; discriminate|].
        apply (residuals_cons _ _ _ _ _ _ _ _ E Ev) in Hr. destruct Hr as [-> Hr]. cbn [snd]. fold e.
        specialize (Bd es' Hr). unfold sum_sq in *. cbn [map]. unfold rsum in *. cbn [fold_right].
        set (s := fold_right Rplus 0 (map (fun e => e * e) es')) in *. set (V := dist ws ws' + path ws' wss) in *.
        assert (B1 : (dist w1 ws' + path ws' wss) * (dist w1 ws' + path ws' wss) <= (dist w1 ws + V) * (dist w1 ws + V)).
        { apply Rmult_le_compat; unfold V; lra. }
        assert (B2 : dist w1 ws * V <= dist w ws * V) by (apply Rmult_le_compat_r; unfold V; lra).
        replace (k * (e * e + s)) with (k * (e * e) + k * s) by ring.
        replace ((dist w ws + V) * (dist w ws + V)) with (dist w ws * dist w ws + 2 * (dist w ws * V) + V * V) by ring.
        replace ((dist w1 ws + V) * (dist w1 ws + V)) with (dist w1 ws * dist w1 ws + 2 * (dist w1 ws * V) + V * V) in B1 by ring.
        lra.
  Qed.
End Drift.

(** ** The rates of SGD and ISGD *)

Lemma sgd_gain lr r q : 0 < lr -> lr * q <= r -> lr * (2 - r) <= lr * (2 - lr * q).
Proof. intros P L. apply Rmult_le_compat_l; lra. Qed.

Lemma isgd_gain lr q x : 0 < lr -> 0 <= x <= q -> lr / (1 + lr * q) <= lr / (1 + lr * x) * (2 - lr / (1 + lr * x) * x).
Proof.
  intros P [X0 X1]. assert (A : 0 <= lr * x) by (apply Rmult_le_pos; lra). assert (B : lr * x <= lr * q) by (apply Rmult_le_compat_l; lra).
  set (r := lr / (1 + lr * x)). assert (R0 : 0 < r) by (apply Rdiv_lt_0_compat; lra).
  assert (Q : r * x = 1 - / (1 + lr * x)) by (unfold r; field; lra).
  assert (0 < / (1 + lr * x)) by (apply Rinv_0_lt_compat; lra).
  apply Rle_trans with (r * 1); [|apply Rmult_le_compat_l; lra].
  rewrite Rmult_1_r. unfold r, Rdiv. apply Rmult_le_compat_l; [lra|]. apply Rinv_le_contravar; lra.
Qed.

Lemma norm2_energy {I} (b : Basis R I) p phi : b_project b (fst p) = Ret (Ok phi) -> energy b p = norm2 phi.
Proof. intros E. unfold energy. rewrite E. reflexivity. Qed.

Theorem sgd_drift {I} (b : Basis R I) lr r h wss w ws : 0 < lr -> r <= 2 -> explained b (length w) h (ws :: wss) ->
  Forall (fun p => lr * energy b p <= r) h ->
  exists w', s_run SGD (map fit_call h) (MkLFA b w lr) = Ret (MkLFA b w' lr) /\ length w' = length w /\
    dist w' (last wss ws) <= dist w ws + path ws wss /\
    (exists es, residuals SGD (MkLFA b w lr) h es) /\
    forall es, residuals SGD (MkLFA b w lr) h es ->
      lr * (2 - r) * sum_sq es <= (dist w ws + path ws wss) * (dist w ws + path ws wss).
Proof.
  intros P R2 Ex En. apply (drift_gen SGD lr (fun _ => lr) (sgd_rule lr) b (lr * (2 - r))); auto.
  - apply Rmult_le_pos; lra.
  - eapply Forall_impl; [|exact En]. intros p L phi E. apply sgd_gain; auto. rewrite <- (norm2_energy b p phi E). exact L.
Qed.

Theorem isgd_drift {I} (b : Basis R I) lr q h wss w ws : 0 < lr -> 0 <= q -> explained b (length w) h (ws :: wss) ->
  Forall (fun p => energy b p <= q) h ->
  exists w', s_run ISGD (map fit_call h) (MkLFA b w lr) = Ret (MkLFA b w' lr) /\ length w' = length w /\
    dist w' (last wss ws) <= dist w ws + path ws wss /\
    (exists es, residuals ISGD (MkLFA b w lr) h es) /\
    forall es, residuals ISGD (MkLFA b w lr) h es ->
      lr / (1 + lr * q) * sum_sq es <= (dist w ws + path ws wss) * (dist w ws + path ws wss).
Proof.
  intros P Q0 Ex En. assert (0 <= lr * q) by (apply Rmult_le_pos; lra).
  apply (drift_gen ISGD lr (fun phi => lr / (1 + lr * norm2 phi)) (isgd_rule lr) b (lr / (1 + lr * q))); auto.
  - apply Rlt_le, Rdiv_lt_0_compat; lra.
  - eapply Forall_impl; [|exact En]. intros p L phi E. apply isgd_gain; auto. rewrite <- (norm2_energy b p phi E). split; [apply energy_nonneg|exact L].
Qed.

(** ** One input, a target that moves *)

Section Lag.
  Context {I : Type} (o : Optimiser R R) (lr : R) (c : Features R -> R) (Rule : linear_rule o lr c).
  Context (b : Basis R I) (x : I) (phi : Features R) (P : b_project b x = Ret (Ok phi)).

  (** Residuals for the targets [y], [ys], the first being [e]. *)
  Fixpoint lags (e y : R) (ys : list R) : list R :=
    e :: match ys with [] => [] | y' :: ys' => lags ((1 - c phi * norm2 phi) * e + (y' - y)) y' ys' end.

  Lemma lag_residuals : forall ys y w es, sized (length w) phi ->
    residuals o (MkLFA b w lr) (map (fun y => (x, y)) (y :: ys)) es <-> es = lags (y - predict phi w) y ys.
  Proof.
    induction ys as [|y' ys IH]; intros y w es Z;
      destruct (fit_step o lr c Rule b w x y phi P Z) as (w1 & E & L & Ev & _ & Rs).
    - cbn [map lags]. split.
      + intros Hr. destruct es as [|e [|]]; try (destruct Hr as [Hl _]; discriminate).
        apply (residuals_cons _ _ _ _ _ _ _ _ E Ev) in Hr. destruct Hr as [-> _]. reflexivity.
      + intros ->. apply (residuals_cons _ _ _ _ _ _ _ _ E Ev). split; [reflexivity|]. split; [reflexivity|]. intros [|j] z Q; discriminate.
    - cbn [lags]. replace ((1 - c phi * norm2 phi) * (y - predict phi w) + (y' - y)) with (y' - predict phi w1) by (rewrite <- Rs; ring).
      change (map (fun y => (x, y)) (y :: y' :: ys)) with ((x, y) :: map (fun y => (x, y)) (y' :: ys)). split.
      + intros Hr. destruct es as [|e es]; [destruct Hr; discriminate|].
        apply (residuals_cons _ _ _ _ _ _ _ _ E Ev) in Hr. destruct Hr as [-> Hr]. cbn [snd]. f_equal. apply IH; [rewrite L; exact Z|exact Hr].
      + intros ->. apply (residuals_cons _ _ _ _ _ _ _ _ E Ev). split; [reflexivity|]. apply IH; [rewrite L; exact Z|reflexivity].
  Qed.

  Lemma lags_step : forall ys e y k e1 e2 y1 y2, nth_error (lags e y ys) k = Some e1 -> nth_error (lags e y ys) (S k) = Some e2 ->
    nth_error (y :: ys) k = Some y1 -> nth_error (y :: ys) (S k) = Some y2 ->
    e2 = (1 - c phi * norm2 phi) * e1 + (y2 - y1).
  Proof.
    induction ys as [|y' ys IH]; intros e y k e1 e2 y1 y2 E1 E2 Y1 Y2; cbn [lags] in *.
    - cbn in Y2. destruct k; discriminate.
    - destruct k as [|k]; cbn [nth_error] in E1, E2, Y1, Y2.
      + destruct ys; cbn [lags nth_error] in E2; congruence.
      + eapply IH; eauto.
  Qed.
End Lag.

(** A linear recurrence with bounded input, and with a constant one. *)
Lemma lag_bounded (e : nat -> R) a d N : 0 <= d -> Rabs a < 1 ->
  (forall k, (k < N)%nat -> Rabs (e (S k) - a * e k) <= d) ->
  forall k, (k <= N)%nat -> Rabs (e k) <= Rabs a ^ k * Rabs (e 0%nat) + d * ((1 - Rabs a ^ k) / (1 - Rabs a)).
Proof.
  intros D0 A1 St. induction k as [|k IH]; intros Lk.
  - cbn [pow]. replace ((1 - 1) / (1 - Rabs a)) with 0 by (field; lra). lra.
  - specialize (IH ltac:(lia)). specialize (St k ltac:(lia)).
    replace (e (S k)) with (a * e k + (e (S k) - a * e k)) by ring.
    eapply Rle_trans; [apply Rabs_triang|]. rewrite Rabs_mult. cbn [pow].
    pose proof (Rmult_le_compat_l (Rabs a) _ _ (Rabs_pos a) IH) as M.
    replace (Rabs a * Rabs a ^ k * Rabs (e 0%nat) + d * ((1 - Rabs a * Rabs a ^ k) / (1 - Rabs a)))
      with (Rabs a * (Rabs a ^ k * Rabs (e 0%nat) + d * ((1 - Rabs a ^ k) / (1 - Rabs a))) + d) by (field; lra).
    lra.
Qed.

Lemma lag_ramp (e : nat -> R) q d N : q <> 0 -> (forall k, (k < N)%nat -> e (S k) = (1 - q) * e k + d) ->
  forall k, (k <= N)%nat -> e k = d / q + (1 - q) ^ k * (e 0%nat - d / q).
Proof.
  intros Q St. induction k as [|k IH]; intros Lk; [cbn; ring|]. rewrite St, IH by lia. cbn [pow]. field. exact Q.
Qed.

(** [q]: the share of a residual that one fit of the same sample removes. *)
Definition share_of (o : Optimiser R R) (lr : R) (phi : Features R) (q : R) : Prop :=
  (o = SGD /\ q = lr * norm2 phi) \/ (o = ISGD /\ q = lr * norm2 phi / (1 + lr * norm2 phi)).

Lemma share_rule o lr phi q : share_of o lr phi q -> exists c, linear_rule o lr c /\ c phi * norm2 phi = q.
Proof.
  intros [[-> ->]|[-> ->]].
  - exists (fun _ => lr). split; [apply sgd_rule|reflexivity].
  - exists (fun phi => lr / (1 + lr * norm2 phi)). split; [apply isgd_rule|]. unfold Rdiv. ring.
Qed.

Section OneInput.
  Context {I : Type} (o : Optimiser R R) (lr q : R) (b : Basis R I) (x : I) (phi : Features R) (w : list R).
  Context (P : b_project b x = Ret (Ok phi)) (Z : sized (length w) phi) (H : share_of o lr phi q).
  Notation at_x := (map (fun y : R => (x, y))).

  Lemma track_exists ys : exists es, residuals o (MkLFA b w lr) (at_x ys) es.
  Proof.
    destruct (share_rule o lr phi q H) as (c & Rule & _). destruct ys as [|y ys].
    - exists []. split; [reflexivity|]. intros [|k] e N; discriminate.
    - eexists. apply (lag_residuals o lr c Rule b x phi P ys y w _ Z). reflexivity.
  Qed.

  Lemma track_step ys es k e e' y y' : residuals o (MkLFA b w lr) (at_x ys) es ->
    nth_error es k = Some e -> nth_error es (S k) = Some e' -> nth_error ys k = Some y -> nth_error ys (S k) = Some y' ->
    e' = (1 - q) * e + (y' - y).
  Proof.
    destruct (share_rule o lr phi q H) as (c & Rule & <-). destruct ys as [|y0 ys]; intros Re E1 E2 Y1 Y2; [destruct k; discriminate|].
    apply (lag_residuals o lr c Rule b x phi P ys y0 w _ Z) in Re. subst es. eapply lags_step; eauto.
  Qed.

  Lemma track_seq ys es k : residuals o (MkLFA b w lr) (at_x ys) es -> (S k < length ys)%nat ->
    nth (S k) es 0 = (1 - q) * nth k es 0 + (nth (S k) ys 0 - nth k ys 0).
  Proof.
    intros Re L. assert (Le : length es = length ys) by (destruct Re as [-> _]; apply map_length).
    apply (track_step ys es k); auto; apply nth_error_nth'; lia.
  Qed.

  Theorem track_bound ys es d : Rabs (1 - q) < 1 -> residuals o (MkLFA b w lr) (at_x ys) es ->
    (forall k, (S k < length ys)%nat -> Rabs (nth (S k) ys 0 - nth k ys 0) <= d) ->
    forall k, (k < length ys)%nat ->
      Rabs (nth k es 0) <= Rabs (1 - q) ^ k * Rabs (nth 0 es 0) + d * ((1 - Rabs (1 - q) ^ k) / (1 - Rabs (1 - q))).
  Proof.
    intros A Re Dr k L. destruct k as [|k].
    { cbn [pow]. replace ((1 - 1) / (1 - Rabs (1 - q))) with 0 by (field; lra). lra. }
    apply (lag_bounded (fun k => nth k es 0) (1 - q) d (S k)); auto.
    - eapply Rle_trans; [apply Rabs_pos|]. apply (Dr 0%nat). lia.
    - intros j Lj. cbv beta. rewrite (track_seq ys es j Re) by lia.
      replace ((1 - q) * nth j es 0 + (nth (S j) ys 0 - nth j ys 0) - (1 - q) * nth j es 0) with (nth (S j) ys 0 - nth j ys 0) by ring.
      apply Dr. lia.
  Qed.

  Theorem track_ramp y d N es : q <> 0 -> residuals o (MkLFA b w lr) (at_x (map (fun k => y + INR k * d) (seq 0 N))) es ->
    forall k, (k < N)%nat -> nth_error es k = Some (d / q + (1 - q) ^ k * (y - predict phi w - d / q)).
  Proof.
    intros Q Re k L. set (ys := map (fun k => y + INR k * d) (seq 0 N)) in *.
    assert (Ly : length ys = N) by (unfold ys; now rewrite map_length, seq_length).
    assert (Le : length es = N) by (destruct Re as [-> _]; rewrite map_length; exact Ly).
    assert (Ny : forall j, (j < N)%nat -> nth j ys 0 = y + INR j * d).
    { intros j Lj. unfold ys. rewrite (nth_indep _ 0 (y + INR 0 * d)) by (now rewrite map_length, seq_length).
      rewrite (map_nth (fun k => y + INR k * d)). now rewrite seq_nth. }
    rewrite (nth_error_nth' es 0) by lia. f_equal.
    assert (E0 : nth 0 es 0 = y - predict phi w).
    { destruct (share_rule o lr phi q H) as (c & Rule & _). destruct N as [|N]; [lia|].
      unfold ys in Re. cbn [seq map] in Re. change (at_x ?a) with (at_x a) in Re.
      change ((x, y + INR 0 * d) :: ?t) with ((x, y + INR 0 * d) :: t) in Re.
      apply (lag_residuals o lr c Rule b x phi P (map (fun k => y + INR k * d) (seq 1 N)) (y + INR 0 * d) w es Z) in Re.
      subst es. destruct N; cbn [seq map lags nth]; cbn; ring. }
    rewrite <- E0. apply (lag_ramp (fun k => nth k es 0) q d (N - 1)); auto; [|lia].
    intros j Lj. cbv beta. rewrite (track_seq ys es j Re) by lia. rewrite !Ny by lia. rewrite S_INR. ring.
  Qed.
End OneInput.
