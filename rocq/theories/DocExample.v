(** The example of the crate's documentation, /repo/src/lib.rs:10-51, in exact
    arithmetic. *)
From Coq Require Import List Arith ZArith Lia Bool Reals Lra.
From Verif Require Import Base Scalar ScalarR HMap NdArray VecFacts Features Spec FeatureFacts Optim Lfa LfaSpec LfaFacts Coeffs Kernels TileCoding
  Basis EndToEnd.
Import ListNotations.
Local Open Scope R_scope.

(** lib.rs:30: [Polynomial::new(1, 1).with_zeroth()]. *)
Definition doc_basis : outcome (basis R) :=
  match polynomial_new 1 1 with
  | BPolynomial order exponents => let* es := polynomial_with_zeroth exponents in Ret (BPolynomial order es)
  | b => Ret b
  end.

(** lib.rs:29-32: [LFA::scalar(.., SGD(1.0))]. *)
Definition doc_fa : outcome (ScalarLFA R (list R) R) :=
  let* b := doc_basis in Ret (scalar (as_basis b) 1).

(** lib.rs:38-43: the loop. A sample is an input and its noise; [slope] and
    [intercept] are [M] and [C]. *)
Definition doc_call (slope intercept : R) (sample : R * R) : s_call R (list R) :=
  let (x, noise) := sample in
  let y_exp := slope * x + intercept in
  let y_sample := y_exp + noise in
  SUpdateWith [x] (fun _ y_pred => y_sample - y_pred).

Definition doc_run (slope intercept : R) (samples : list (R * R)) : outcome (list R) :=
  let* fa := doc_fa in
  let* fa := s_run SGD (map (doc_call slope intercept) samples) fa in
  Ret (lfa_weights fa).

(** lib.rs:45-48. *)
Definition doc_rmse (slope intercept : R) (weights : list R) : outcome R :=
  let* w0 := vget weights 0 in
  let* w1 := vget weights 1 in
  Ret (sqrt ((w0 - slope) ^ 2 + (w1 - intercept) ^ 2)).

(** ** Facts *)

Lemma doc_basis_is : doc_basis = Ret (BPolynomial 1 [[1%nat]; [0%nat]]).
Proof. reflexivity. Qed.

Lemma doc_project x : project (F := R) (BPolynomial 1 [[1%nat]; [0%nat]]) [x] = Ret (Ok (Dense [x; 1])).
Proof.
  cbn [project]. unfold polynomial_feature, product. cbn [map map2 fold_left]. to_R. simpl.
  do 3 f_equal. all: repeat (f_equal; try (simpl; ring)).
Qed.

Section Run.
  Context (M C : R).

  (** One iteration, on the two weights. *)
  Definition residual_of (w : R * R) (p : R * R) : R := M * fst p + C + snd p - (fst w * fst p + snd w).
  Definition move (w : R * R) (p : R * R) : R * R :=
    (fst w + residual_of w p * fst p, snd w + residual_of w p).
  Definition off (w : R * R) : R := (fst w - M) * (fst w - M) + (snd w - C) * (snd w - C).

  Definition state (w : R * R) : ScalarLFA R (list R) R :=
    MkLFA (as_basis (BPolynomial 1 [[1%nat]; [0%nat]])) [fst w; snd w] 1.

  Lemma doc_step w p : s_do SGD (state w) (doc_call M C p) = Ret (state (move w p)).
  Proof.
    destruct w as [u v], p as [x z]. unfold s_do, doc_call, s_update_with, state.
    cbn [lfa_basis lfa_weights lfa_optimiser as_basis b_project fst snd]. rewrite doc_project. cbn [obind].
    unfold dot. cbn [length Nat.eqb]. 
    cbv [o_step_scaled SGD sgd_step_scaled scaled_addto zip_mut_with broadcast]. cbn [length Nat.eqb obind omap].
    cbn. unfold with_state. cbn. unfold move, residual_of. cbn [fst snd]. do 3 f_equal; [ring|f_equal; ring].
  Qed.

  Lemma doc_steps ps : forall w, s_run SGD (map (doc_call M C) ps) (state w) = Ret (state (fold_left move ps w)).
  Proof.
    unfold s_run. induction ps as [|p ps IH]; intros w; cbn [map ofold fold_left]; auto. rewrite doc_step. apply IH.
  Qed.

  Lemma doc_run_is ps : doc_run M C ps = let w := fold_left move ps (0, 0) in Ret [fst w; snd w].
  Proof.
    unfold doc_run, doc_fa. rewrite doc_basis_is. cbn [obind].
    replace (scalar (as_basis (BPolynomial 1 [[1%nat]; [0%nat]])) 1) with (state (0, 0)).
    - rewrite doc_steps. reflexivity.
    - unfold state, scalar, zeros. cbn [fst snd as_basis b_dim dim length repeat]. to_R. reflexivity.
  Qed.

  Lemma doc_rmse_is w : doc_rmse M C [fst w; snd w] = Ret (sqrt (off w)).
  Proof. unfold doc_rmse. cbn [vget nth_error obind]. unfold off. do 2 f_equal. ring. Qed.

  Lemma off_nonneg w : 0 <= off w.
  Proof. unfold off. pose proof (Rle_0_sqr (fst w - M)). pose proof (Rle_0_sqr (snd w - C)). unfold Rsqr in *. lra. Qed.

  (** Without noise the squared distance falls by [(1 - x^2) e^2]. *)
  Lemma off_exact w x : off (move w (x, 0)) = off w - (1 - x * x) * (residual_of w (x, 0) * residual_of w (x, 0)).
  Proof. destruct w as [u v]. unfold off, move, residual_of. cbn [fst snd]. ring. Qed.

  Lemma off_never_grows ps : Forall (fun p => -1 <= fst p <= 1 /\ snd p = 0) ps -> forall w, off (fold_left move ps w) <= off w.
  Proof.
    induction 1 as [|[x z] ps [B Z] _ IH]; intros w; cbn [fold_left]; [lra|]. cbn [fst snd] in *. subst z.
    apply Rle_trans with (1 := IH _). rewrite off_exact.
    assert (0 <= (1 - x * x) * (residual_of w (x, 0) * residual_of w (x, 0))); [|lra].
    apply Rmult_le_pos; [nra|apply Rle_0_sqr].
  Qed.

  Lemma off_corners ps : Forall (fun p => fst p * fst p = 1 /\ snd p = 0) ps -> forall w, off (fold_left move ps w) = off w.
  Proof.
    induction 1 as [|[x z] ps [B Z] _ IH]; intros w; cbn [fold_left]; auto. cbn [fst snd] in *. subst z.
    rewrite IH, off_exact, B. ring.
  Qed.

  (** The triangle inequality in the plane. *)
  Lemma triangle a b c d : sqrt ((a + c) * (a + c) + (b + d) * (b + d)) <= sqrt (a * a + b * b) + sqrt (c * c + d * d).
  Proof.
    assert (P1 : 0 <= a * a + b * b) by nra. assert (P2 : 0 <= c * c + d * d) by nra.
    pose proof (sqrt_pos (a * a + b * b)) as S1. pose proof (sqrt_pos (c * c + d * d)) as S2.
    pose proof (sqrt_sqrt _ P1) as Q1. pose proof (sqrt_sqrt _ P2) as Q2.
    rewrite <- (sqrt_square (sqrt (a * a + b * b) + sqrt (c * c + d * d))) by lra. apply sqrt_le_1_alt.
    assert (K : a * c + b * d <= sqrt (a * a + b * b) * sqrt (c * c + d * d)).
    { rewrite <- sqrt_mult by auto. destruct (Rle_lt_dec (a * c + b * d) 0) as [N|N].
      - apply Rle_trans with (1 := N). apply sqrt_pos.
      - rewrite <- (sqrt_square (a * c + b * d)) by lra. apply sqrt_le_1_alt.
        assert (0 <= (a * d - b * c) * (a * d - b * c)) by apply Rle_0_sqr. nra. }
    nra.
  Qed.

  Lemma move_noise w x z : move w (x, z) = (fst (move w (x, 0)) + z * x, snd (move w (x, 0)) + z).
  Proof. destruct w as [u v]. unfold move, residual_of. cbn [fst snd]. f_equal; ring. Qed.

  Lemma off_noise w x z : -1 <= x <= 1 -> sqrt (off (move w (x, z))) <= sqrt (off w) + Rabs z * sqrt 2.
  Proof.
    intros B. rewrite move_noise. unfold off at 1. cbn [fst snd].
    replace (fst (move w (x, 0)) + z * x - M) with ((fst (move w (x, 0)) - M) + z * x) by ring.
    replace (snd (move w (x, 0)) + z - C) with ((snd (move w (x, 0)) - C) + z) by ring.
    apply Rle_trans with (1 := triangle _ _ _ _). apply Rplus_le_compat.
    - apply sqrt_le_1_alt. change (off (move w (x, 0)) <= off w). rewrite off_exact.
      assert (0 <= (1 - x * x) * (residual_of w (x, 0) * residual_of w (x, 0))); [|lra]. apply Rmult_le_pos; [nra|apply Rle_0_sqr].
    - rewrite <- (sqrt_Rsqr_abs z), <- sqrt_mult_alt by apply Rle_0_sqr. apply sqrt_le_1_alt. unfold Rsqr.
      assert (0 <= z * z * (1 - x * x)) by (apply Rmult_le_pos; [apply Rle_0_sqr|nra]). lra.
  Qed.

  Lemma off_noisy ps : Forall (fun p => -1 <= fst p <= 1) ps -> forall w,
    sqrt (off (fold_left move ps w)) <= sqrt (off w) + sqrt 2 * fold_right (fun p s => Rabs (snd p) + s) 0 ps.
  Proof.
    induction 1 as [|[x z] ps B _ IH]; intros w; cbn [fold_left fold_right fst snd] in *; [lra|].
    apply Rle_trans with (1 := IH _). pose proof (off_noise w x z B). lra.
  Qed.

  (** The noise of the last sample moves the weights, whatever came before. *)
  Lemma window w x z1 z2 eps : sqrt (off (move w (x, z1))) < eps -> sqrt (off (move w (x, z2))) < eps ->
    Rabs (z1 - z2) * sqrt (1 + x * x) < 2 * eps.
  Proof.
    intros A B. rewrite <- (sqrt_Rsqr_abs (z1 - z2)), <- sqrt_mult_alt by apply Rle_0_sqr.
    rewrite move_noise in A, B. unfold off in A, B. cbn [fst snd] in A, B.
    set (p := fst (move w (x, 0))) in *. set (q := snd (move w (x, 0))) in *.
    pose proof (triangle (p + z1 * x - M) (q + z1 - C) (- (p + z2 * x - M)) (- (q + z2 - C))) as T.
    replace ((p + z1 * x - M + - (p + z2 * x - M)) * (p + z1 * x - M + - (p + z2 * x - M)) +
      (q + z1 - C + - (q + z2 - C)) * (q + z1 - C + - (q + z2 - C))) with (Rsqr (z1 - z2) * (1 + x * x)) in T by (unfold Rsqr; ring).
    replace (- (p + z2 * x - M) * - (p + z2 * x - M) + - (q + z2 - C) * - (q + z2 - C)) with
      ((p + z2 * x - M) * (p + z2 * x - M) + (q + z2 - C) * (q + z2 - C)) in T by ring.
    lra.
  Qed.

  (** An input of 1, over and over: the weights go back and forth. *)
  Lemma bounce w : move (move w (1, 0)) (1, 0) = w.
  Proof. destruct w as [u v]. unfold move, residual_of. cbn [fst snd]. f_equal; ring. Qed.

  Lemma bounces n : forall w, fold_left move (repeat (1, 0) (n + n)) w = w.
  Proof.
    induction n as [|n IH]; intros w; auto. replace (S n + S n)%nat with (S (S (n + n))) by lia. cbn [repeat fold_left].
    rewrite bounce. apply IH.
  Qed.
End Run.
