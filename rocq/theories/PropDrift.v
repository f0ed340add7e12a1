(** C96: following a target that moves. Proofs are in Drift.v.

    [explained b n h wss]: the [k]-th sample of [h] is what the [k]-th weights of
    [wss] predict for its input; [path ws wss] is the distance travelled by these
    weights; [residuals o a h es]: [es] are the residuals, target minus
    prediction, met before each update of the run over [h]. *)
From Coq Require Import List Arith Lia Reals Lra.
From Verif Require Import Base Scalar ScalarR HMap NdArray VecFacts Features Spec FeatureFacts
  Optim OptimSpec OptimFacts OptimReal Lfa LfaSpec LfaFacts LfaReal LfaRegret Drift.
Import ListNotations.
Local Open Scope R_scope.

(** ** C96 *)

(** SGD with a rate at most [2] over every squared feature norm: the final
    weights are no further from the last target weights than the initial ones
    were from the first plus the distance the target has moved, and the squared
    residuals are bounded by the square of that number, however long the run. *)
Theorem C96_sgd : forall I (b : Basis R I) lr r h wss w ws, 0 < lr -> r <= 2 -> explained b (length w) h (ws :: wss) ->
  Forall (fun p => lr * energy b p <= r) h ->
  exists w', s_run SGD (map fit_call h) (MkLFA b w lr) = Ret (MkLFA b w' lr) /\ length w' = length w /\
    dist w' (last wss ws) <= dist w ws + path ws wss /\
    (exists es, residuals SGD (MkLFA b w lr) h es) /\
    forall es, residuals SGD (MkLFA b w lr) h es ->
      lr * (2 - r) * sum_sq es <= (dist w ws + path ws wss) * (dist w ws + path ws wss).
Proof. exact @sgd_drift. Qed.
Print Assumptions C96_sgd.

(** ISGD: the same at every positive rate. *)
Theorem C96_isgd : forall I (b : Basis R I) lr q h wss w ws, 0 < lr -> 0 <= q -> explained b (length w) h (ws :: wss) ->
  Forall (fun p => energy b p <= q) h ->
  exists w', s_run ISGD (map fit_call h) (MkLFA b w lr) = Ret (MkLFA b w' lr) /\ length w' = length w /\
    dist w' (last wss ws) <= dist w ws + path ws wss /\
    (exists es, residuals ISGD (MkLFA b w lr) h es) /\
    forall es, residuals ISGD (MkLFA b w lr) h es ->
      lr / (1 + lr * q) * sum_sq es <= (dist w ws + path ws wss) * (dist w ws + path ws wss).
Proof. exact @isgd_drift. Qed.
Print Assumptions C96_isgd.

(** So large residuals are few, as long as the target moves little. *)
Theorem C96_mistakes : forall I (b : Basis R I) lr r h wss w ws eps, 0 < lr -> r < 2 -> 0 < eps ->
  explained b (length w) h (ws :: wss) -> Forall (fun p => lr * energy b p <= r) h ->
  forall es, residuals SGD (MkLFA b w lr) h es ->
  INR (length (filter (fun e => if Rle_dec eps (Rabs e) then true else false) es)) * (lr * (2 - r) * (eps * eps))
    <= (dist w ws + path ws wss) * (dist w ws + path ws wss).
Proof.
  intros I b lr r h wss w ws eps P R2 Pe Ex En es Re.
  destruct (sgd_drift b lr r h wss w ws P (Rlt_le _ _ R2) Ex En) as (w' & _ & _ & _ & _ & A). specialize (A es Re).
  assert (B := count_big eps es Pe). assert (K : 0 < lr * (2 - r)) by (apply Rmult_lt_0_compat; lra).
  apply Rle_trans with (2 := A). apply Rmult_le_compat_l with (1 := Rlt_le _ _ K) in B. lra.
Qed.
Print Assumptions C96_mistakes.

(** One input whose target changes: each residual is the share left of the one
    before plus the change of the target. *)
Theorem C96_recurrence : forall I o lr q (b : Basis R I) x phi w ys es k e e' y y',
  b_project b x = Ret (Ok phi) -> sized (length w) phi -> share_of o lr phi q ->
  residuals o (MkLFA b w lr) (map (fun y => (x, y)) ys) es ->
  nth_error es k = Some e -> nth_error es (S k) = Some e' -> nth_error ys k = Some y -> nth_error ys (S k) = Some y' ->
  e' = (1 - q) * e + (y' - y).
Proof. intros I o lr q b x phi w ys es k e e' y y' P Z H. exact (track_step o lr q b x phi w P Z H ys es k e e' y y'). Qed.
Print Assumptions C96_recurrence.

(** A target that moves at most [d] a call is followed up to a multiple of [d]. *)
Theorem C96_follows : forall I o lr q (b : Basis R I) x phi w ys d,
  b_project b x = Ret (Ok phi) -> sized (length w) phi -> share_of o lr phi q -> Rabs (1 - q) < 1 ->
  (forall k, (S k < length ys)%nat -> Rabs (nth (S k) ys 0 - nth k ys 0) <= d) ->
  exists es, residuals o (MkLFA b w lr) (map (fun y => (x, y)) ys) es /\ forall k, (k < length ys)%nat ->
    Rabs (nth k es 0) <= Rabs (1 - q) ^ k * Rabs (nth 0 es 0) + d * ((1 - Rabs (1 - q) ^ k) / (1 - Rabs (1 - q))).
Proof.
  intros I o lr q b x phi w ys d P Z H A D. destruct (track_exists o lr q b x phi w P Z H ys) as (es & Re).
  exists es. split; [exact Re|]. exact (track_bound o lr q b x phi w P Z H ys es d A Re D).
Qed.
Print Assumptions C96_follows.

(** A target that moves steadily is followed at a distance: the residuals tend
    to [d / q], not to zero. *)
Theorem C96_ramp : forall I o lr q (b : Basis R I) x phi w y d N es,
  b_project b x = Ret (Ok phi) -> sized (length w) phi -> share_of o lr phi q -> q <> 0 ->
  residuals o (MkLFA b w lr) (map (fun y => (x, y)) (map (fun k => y + INR k * d) (seq 0 N))) es ->
  forall k, (k < N)%nat -> nth_error es k = Some (d / q + (1 - q) ^ k * (y - predict phi w - d / q)).
Proof. intros I o lr q b x phi w y d N es P Z H. exact (track_ramp o lr q b x phi w P Z H y d N es). Qed.
Print Assumptions C96_ramp.

(** Not claimed: that training catches up with a moving target. With either
    optimiser, at every rate, some steady target is missed by at least its step at
    every call. *)
Theorem C96_catches_up_refuted : forall I o lr q (b : Basis R I) x phi w d N,
  b_project b x = Ret (Ok phi) -> sized (length w) phi -> share_of o lr phi q -> 0 < q <= 1 -> 0 < d ->
  exists ys es, length ys = N /\ (forall k, (S k < N)%nat -> nth (S k) ys 0 = nth k ys 0 + d) /\
    residuals o (MkLFA b w lr) (map (fun y => (x, y)) ys) es /\ Forall (fun e => d <= e) es.
Proof.
  intros I o lr q b x phi w d N P Z H [Q0 Q1] D. set (ys := map (fun k => (predict phi w + d / q) + INR k * d) (seq 0 N)).
  assert (Ly : length ys = N) by (unfold ys; now rewrite map_length, seq_length).
  destruct (track_exists o lr q b x phi w P Z H ys) as (es & Re). exists ys, es. splits; auto.
  - assert (Ny : forall j, (j < N)%nat -> nth j ys 0 = (predict phi w + d / q) + INR j * d).
    { intros j Lj. unfold ys. rewrite (nth_indep _ 0 ((predict phi w + d / q) + INR 0 * d)) by (now rewrite map_length, seq_length).
      rewrite (map_nth (fun k => (predict phi w + d / q) + INR k * d)). now rewrite seq_nth. }
    intros k L. rewrite !Ny, S_INR by lia. ring.
  - assert (Le : length es = N) by (destruct Re as [-> _]; rewrite map_length; exact Ly).
    apply Forall_forall. intros e In. apply In_nth_error in In. destruct In as [k Ek].
    assert (Lk : (k < N)%nat) by (rewrite <- Le; apply nth_error_Some; congruence).
    rewrite (track_ramp o lr q b x phi w P Z H (predict phi w + d / q) d N es) in Ek by (auto; lra). injection Ek as <-.
    replace (predict phi w + d / q - predict phi w - d / q) with 0 by ring. rewrite Rmult_0_r, Rplus_0_r.
    unfold Rdiv. rewrite <- (Rmult_1_r d) at 1. apply Rmult_le_compat_l; [lra|]. rewrite <- Rinv_1. apply Rinv_le_contravar; lra.
Qed.
Print Assumptions C96_catches_up_refuted.

(** Two dense features; the target weights go from [(1, 0)] to [(1, 1)]. *)
Definition drift_basis : Basis R nat := MkBasis 2 (fun x => Ret (Ok (Dense [1; INR x]))).
Example C96_case : explained drift_basis 2 [(0%nat, 1); (1%nat, 2)] [[1; 0]; [1; 1]] /\
  Forall (fun p => 1 / 2 * energy drift_basis p <= 1) [(0%nat, 1); (1%nat, 2)] /\
  dist [0; 0] [1; 0] + path [1; 0] [[1; 1]] = 2 /\
  s_run SGD (map fit_call [(0%nat, 1); (1%nat, 2)]) (MkLFA drift_basis [0; 0] (1 / 2)) = Ret (MkLFA drift_basis [5 / 4; 3 / 4] (1 / 2)) /\
  residuals SGD (MkLFA drift_basis [0; 0] (1 / 2)) [(0%nat, 1); (1%nat, 2)] [1; 3 / 2].
Proof.
  assert (Z : forall x, sized 2 (Dense [1; INR x])) by (intros x; split; [apply wf_dense|reflexivity]).
  splits.
  - repeat constructor; eexists; (split; [reflexivity|]); (split; [apply Z|]); unfold predict, sigma, coeff, at_; cbn; lra.
  - repeat constructor; unfold energy, norm2, sigma, coeff, at_; cbn; lra.
  - assert (S1 : forall t, t = 1 -> sqrt t = 1) by (intros t ->; apply sqrt_1).
    unfold path, dist. rewrite !S1; [ring| |]; unfold dist2, sigma, at_; cbn; lra.
  - cbn. unfold with_state. cbn. match goal with |- Ret (MkLFA _ [?a; ?c] _) = _ => replace a with (5 / 4) by lra; replace c with (3 / 4) by lra end. reflexivity.
  - split; [reflexivity|]. intros [|[|[|k]]] e E; try discriminate; injection E as <-.
    + exists 0%nat, 1, (MkLFA drift_basis [0; 0] (1 / 2)), 0. splits; try reflexivity; [cbn; do 2 f_equal; lra|lra].
    + exists 1%nat, 2, (MkLFA drift_basis [1 / 2; 0] (1 / 2)), (1 / 2). splits; try reflexivity; [cbn; unfold with_state; cbn; match goal with |- Ret (MkLFA _ [?a; ?c] _) = _ => replace a with (1 / 2) by lra; replace c with 0 by lra end; reflexivity|cbn; do 2 f_equal; lra|lra].
Qed.
