(** Approximators over the reals (C42, C46, C50, C51). *)
From Coq Require Import List Arith Lia Reals Lra.
From Verif Require Import Base Scalar ScalarR HMap HMapFacts NdArray VecFacts Features Spec
  FeatureFacts FeatureMore BasisFacts NormReal Optim OptimSpec OptimFacts OptimReal Lfa LfaSpec LfaFacts.
Import ListNotations.
Local Open Scope R_scope.

Lemma predict_zeros (phi : Features R) n : predict phi (zeros n) = 0.
Proof.
  unfold predict. rewrite (sigma_ext _ _ (fun i => 0 * 0)).
  - rewrite sigma_scal. lra.
  - intros i _. rewrite at_zeros. lra.
Qed.

Lemma dot_zeros (phi : Features R) n : sized n phi -> dot phi (zeros n) = Ret 0.
Proof.
  intros Z. assert (L : length (zeros n : list R) = n) by apply repeat_length.
  rewrite dot_predict by (rewrite L; auto). rewrite predict_zeros. reflexivity.
Qed.

Lemma scalar_new_zero {I S} (b : Basis R I) (s : S) x phi :
  b_project b x = Ret (Ok phi) -> sized (b_dim b) phi ->
  s_evaluate (scalar b s) x = Ret (Ok 0).
Proof.
  intros P Z. unfold s_evaluate, scalar. simpl. rewrite P. simpl. rewrite dot_zeros; auto.
Qed.

Lemma omapM_const {A B} (f : A -> outcome B) y : forall l, (forall x, In x l -> f x = Ret y) ->
  omapM f l = Ret (repeat y (length l)).
Proof.
  induction l as [|a l IH]; intros E; simpl; auto.
  rewrite E by (left; auto). simpl. rewrite IH by (intros; apply E; right; auto). reflexivity.
Qed.

Lemma mzeros_columns {F} `{Scalar F} n k : columns (mzeros n k : matrix F) = Ret (repeat (zeros n) k).
Proof.
  unfold columns. rewrite (omapM_const _ (zeros n)).
  - rewrite seq_length. reflexivity.
  - intros j I. apply in_seq in I. cbn [mcols mzeros] in I. apply mzeros_column. lia.
Qed.

Lemma vector_eval_const {F I S} `{Scalar F} (b : Basis F I) (s : S) n x phi y :
  b_project b x = Ret (Ok phi) -> dot phi (zeros (b_dim b)) = Ret y ->
  v_evaluate (vector b s n) x = Ret (Ok (repeat y n)).
Proof.
  intros P D. rewrite (v_evaluate_matmul (vector b s n) x phi (mzeros_ok _ _) P).
  unfold matmul, vector. cbn [lfa_weights]. rewrite mzeros_columns. cbn [obind].
  rewrite (omapM_const _ y).
  - rewrite repeat_length. reflexivity.
  - intros c I0. apply repeat_spec in I0. subst. auto.
Qed.

Lemma vector_new_zero {I S} (b : Basis R I) (s : S) n x phi :
  b_project b x = Ret (Ok phi) -> sized (b_dim b) phi ->
  v_evaluate (vector b s n) x = Ret (Ok (repeat 0 n)).
Proof. intros P Z. apply (vector_eval_const b s n x phi); auto. apply dot_zeros; auto. Qed.

(** ** Fitting *)

(** One update by the residual, for a rate [c phi] effective at [phi]. *)
Definition linear_rule (o : Optimiser R R) (lr : R) (c : Features R -> R) : Prop :=
  forall w phi e, sized (length w) phi -> exists w',
    o_step_scaled o lr w phi e = Ret (lr, w', Ok tt) /\ length w' = length w /\
    forall i, at_ w' i = at_ w i + c phi * e * coeff phi i.

Lemma sgd_rule lr : linear_rule SGD lr (fun _ => lr).
Proof. intros w phi e Z. apply sgd_R. auto. Qed.

Lemma isgd_rule lr : linear_rule ISGD lr (fun phi => lr / (1 + lr * norm2 phi)).
Proof. intros w phi e Z. apply isgd_R. auto. Qed.

Section Fit.
  Context {I : Type} (o : Optimiser R R) (lr : R) (c : Features R -> R).
  Context (Rule : linear_rule o lr c).

  Lemma fit_step (b : Basis R I) w x y phi : b_project b x = Ret (Ok phi) -> sized (length w) phi ->
    exists w', s_do o (MkLFA b w lr) (fit_call (x, y)) = Ret (MkLFA b w' lr) /\ length w' = length w /\
      s_evaluate (MkLFA b w lr) x = Ret (Ok (predict phi w)) /\
      (forall i, at_ w' i = at_ w i + c phi * (y - predict phi w) * coeff phi i) /\
      y - predict phi w' = (1 - c phi * norm2 phi) * (y - predict phi w).
  Proof.
    intros P Z. destruct (Rule w phi (y - predict phi w) Z) as (w' & E & L & N).
    exists w'. splits; auto.
    - unfold s_do, fit_call, omap, s_update_with. simpl. rewrite P. simpl.
      rewrite dot_predict by auto. simpl. rewrite E. reflexivity.
    - unfold s_evaluate. simpl. rewrite P. simpl. rewrite dot_predict by auto. reflexivity.
    - rewrite (predict_shift phi phi _ w w' N), inner_self. ring.
  Qed.

  Lemma fit_repeat (b : Basis R I) x y phi : b_project b x = Ret (Ok phi) ->
    forall k w, sized (length w) phi -> exists w',
      s_run o (repeat (fit_call (x, y)) k) (MkLFA b w lr) = Ret (MkLFA b w' lr) /\ length w' = length w /\
      y - predict phi w' = (1 - c phi * norm2 phi) ^ k * (y - predict phi w).
  Proof.
    intros P. unfold s_run. induction k as [|k IH]; intros w Z.
    - exists w. splits; auto. simpl. lra.
    - destruct (fit_step b w x y phi P Z) as (w1 & E & L & _ & _ & Res).
      destruct (IH w1) as (w' & E' & L' & Res'); [rewrite L; auto|].
      exists w'. splits; [|congruence|].
      + cbn [repeat ofold]. rewrite E. exact E'.
      + rewrite Res', Res. simpl. ring.
  Qed.

  (** Consistent samples: generated by [ws]. *)
  Definition consistent (b : Basis R I) (n : nat) (ws : list R) (p : I * R) : Prop :=
    exists phi, b_project b (fst p) = Ret (Ok phi) /\ sized n phi /\ snd p = predict phi ws.

  Lemma dist2_step phi w w' ws e : length w' = length w -> size phi = length w ->
    (forall i, at_ w' i = at_ w i + c phi * e * coeff phi i) ->
    dist2 w' ws = dist2 w ws + 2 * c phi * e * (predict phi w - predict phi ws)
                  + c phi * c phi * e * e * norm2 phi.
  Proof.
    intros L Z N. unfold dist2, predict, norm2. rewrite L, Z.
    replace (sigma (length w) (fun i => coeff phi i * at_ w i) - sigma (length w) (fun i => coeff phi i * at_ ws i))
      with (sigma (length w) (fun i => coeff phi i * (at_ w i - at_ ws i))).
    2:{ rewrite (sigma_ext _ _ (fun i => coeff phi i * at_ w i + (-1) * (coeff phi i * at_ ws i)))
          by (intros; ring). rewrite sigma_plus, sigma_scal. ring. }
    rewrite (sigma_ext (length w) _ (fun i => (at_ w i - at_ ws i) * (at_ w i - at_ ws i) +
       (2 * c phi * e * (coeff phi i * (at_ w i - at_ ws i)) + c phi * c phi * e * e * (coeff phi i * coeff phi i)))).
    - rewrite !sigma_plus, !sigma_scal. ring.
    - intros i _. rewrite N. ring.
  Qed.

  Lemma fit_contracts (b : Basis R I) ws : forall h w,
    Forall (consistent b (length w) ws) h ->
    Forall (fun p => forall phi, b_project b (fst p) = Ret (Ok phi) ->
      0 <= c phi /\ c phi * norm2 phi <= 2) h ->
    exists w', s_run o (map fit_call h) (MkLFA b w lr) = Ret (MkLFA b w' lr) /\ length w' = length w /\
      dist2 w' ws <= dist2 w ws.
  Proof.
    unfold s_run. induction h as [|[x y] h IH]; intros w Cs Rs.
    - exists w. splits; auto. lra.
    - inversion Cs as [|? ? [phi (P & Z & Y)] Cs']; subst. inversion Rs as [|? ? R1 Rs']; subst.
      simpl in P, Y. destruct (R1 phi P) as [C0 C2].
      destruct (fit_step b w x y phi P Z) as (w1 & E & L & _ & N & _).
      destruct (IH w1) as (w' & E' & L' & D'); [rewrite L; auto|auto|].
      exists w'. splits; [|congruence|].
      + cbn [map ofold]. rewrite E. exact E'.
      + pose proof (dist2_step phi w w1 ws _ L (proj2 Z) N) as D. rewrite Y in D.
        set (r := predict phi ws - predict phi w) in *.
        replace (predict phi w - predict phi ws) with (- r) in D by (unfold r; ring).
        assert (0 <= c phi * (2 - c phi * norm2 phi) * (r * r)).
        { apply Rmult_le_pos; [apply Rmult_le_pos; lra|nra]. }
        nra.
  Qed.
End Fit.

Lemma isgd_rate lr phi : 0 <= lr ->
  0 <= lr / (1 + lr * norm2 phi) /\ lr / (1 + lr * norm2 phi) * norm2 phi <= 2.
Proof.
  intros P. pose proof (norm2_nonneg phi) as N. assert (D : 0 < 1 + lr * norm2 phi) by nra. split.
  - unfold Rdiv. apply Rmult_le_pos; [lra|]. left. apply Rinv_0_lt_compat. auto.
  - apply Rmult_le_reg_r with (1 + lr * norm2 phi); auto. field_simplify; [|lra]. nra.
Qed.

Lemma isgd_factor lr phi : 1 + lr * norm2 phi <> 0 ->
  1 - lr / (1 + lr * norm2 phi) * norm2 phi = / (1 + lr * norm2 phi).
Proof. intros N. field. auto. Qed.

(** ** One optimiser, several columns *)

Definition leaky (p : hyper R) : Prop :=
  match p with
  | HSGD _ | HISGD _ => False
  | HMomentum m lr | HNAG m lr => m <> 0 /\ lr <> 0
  | HAdagrad lr => lr <> 0
  | HAdam lr b1 _ | HAdaMax lr b1 _ => lr <> 0 /\ 0 < b1 < 1
  end.

Definition unit_basis : Basis R unit := MkBasis 1 (fun _ => Ret (Ok (Dense [1]))).

Lemma cons_neq (x y : R) l l' : x <> y -> x :: l <> y :: l'.
Proof. congruence. Qed.

Lemma move_nonzero lr a b d : lr <> 0 -> a <> 0 -> b <> 0 -> 0 < d -> lr * (a / b) / d <> 0.
Proof.
  intros L A B D. unfold Rdiv. repeat apply Rmult_integral_contrapositive_currified; auto;
    apply Rinv_neq_0_compat; lra.
Qed.

Theorem stateful_leak p : leaky p -> exists es j e v' a' c,
  nth_error es j = Some e /\ length es = 2%nat /\
  v_update LibOptimiser (vector unit_basis (construct 1 p) 2) tt es = Ret (v', Ok tt) /\
  s_update LibOptimiser (scalar unit_basis (construct 1 p)) tt e = Ret (a', Ok tt) /\
  column (lfa_weights v') j = Ret c /\ c <> lfa_weights a'.
Proof.
  destruct p as [lr|lr|m lr|m lr|lr|lr b1 b2|lr b1 b2]; simpl leaky; try tauto.
  - intros [M L]. exists [1; 0], 1%nat, 0. eexists _, _, _. splits; try reflexivity. simpl.
    apply cons_neq. to_R. intros E. apply (Rmult_integral_contrapositive_currified lr m); auto. lra.
  - intros [M L]. exists [1; 0], 1%nat, 0. eexists _, _, _. splits; try reflexivity. simpl.
    apply cons_neq. to_R. intros E. apply (Rmult_integral_contrapositive_currified lr m); auto. lra.
  - intros L. exists [1; 1], 1%nat, 1. eexists _, _, _. splits; try reflexivity. simpl.
    apply cons_neq. to_R.
    replace (0 + 1 * 1 * (1 * 1 * 1) + 1 * 1 * (1 * 1 * 1)) with 2 by ring.
    replace (0 + 1 * 1 * (1 * 1 * 1)) with 1 by ring. rewrite sqrt_1.
    pose proof EPS_pos as P. assert (S2 : 1 < sqrt 2) by (rewrite <- sqrt_1 at 1; apply sqrt_lt_1; lra).
    assert (D : / (sqrt 2 + EPS) < / (1 + EPS)).
    { apply Rinv_lt_contravar; [|lra]. apply Rmult_lt_0_compat; lra. }
    unfold Rdiv. intros E. assert (E' : lr * (/ (sqrt 2 + EPS) - / (1 + EPS)) = 0) by lra.
    apply Rmult_integral in E'. destruct E'; lra.
  - intros [L B]. exists [1; 0], 1%nat, 0. eexists _, _, _. splits; try reflexivity. simpl.
    apply cons_neq. to_R. pose proof EPS_pos as P.
    replace ((b1 * 0 + (1 - b1) * (1 * 0)) / (1 - b1 * b1)) with 0 by (unfold Rdiv; ring).
    assert (Z0 : forall d, 0 + lr * 0 / d = 0) by (intros; unfold Rdiv; ring). rewrite Z0, Rplus_0_l.
    apply move_nonzero; auto; try nra.
    match goal with |- 0 < sqrt ?e + _ => pose proof (sqrt_pos e) end. lra.
  - intros [L B]. exists [1; 0], 1%nat, 0. eexists _, _, _. splits; try reflexivity. simpl.
    apply cons_neq. to_R. pose proof EPS_pos as P.
    replace ((b1 * 0 + (1 - b1) * (1 * 0)) / (1 - b1 * b1)) with 0 by (unfold Rdiv; ring).
    assert (Z0 : forall d, 0 + lr * 0 / d = 0) by (intros; unfold Rdiv; ring). rewrite Z0, Rplus_0_l.
    apply move_nonzero; auto; try nra.
    match goal with |- 0 < Rmax ?a (Rabs ?b) + _ => pose proof (Rmax_r a (Rabs b)); pose proof (Rabs_pos b) end. lra.
Qed.

(** Momentum: the error of output 0 moves output 1, whose own error is 0. *)
Theorem momentum_leak {I} (b : Basis R I) x phi m lr e : b_project b x = Ret (Ok phi) -> sized (b_dim b) phi ->
  exists v' c, v_update SGDMomentum (vector b (momentum_new (b_dim b) m lr) 2) x [e; 0] = Ret (v', Ok tt) /\
    column (lfa_weights v') 1 = Ret c /\ forall i, at_ c i = lr * m * (coeff phi i * e).
Proof.
  intros P Z. set (n := b_dim b) in *.
  assert (Lz : length (zeros n : list R) = n) by apply repeat_length.
  assert (KL : keeps_length (SGDMomentum (F := R))).
  { intros s w p0 e0 s' w' r E. apply (lib_keeps_length (LMomentum s) w p0 e0 (LMomentum s') w' r).
    cbn [LibOptimiser o_step_scaled lib_step_scaled]. rewrite E. reflexivity. }
  pose proof (v_update_spec SGDMomentum KL (vector b (momentum_new n m lr) 2) x [e; 0] phi
    (repeat (zeros n) 2) (mzeros_ok _ _) (mzeros_columns _ _) P) as U.
  cbn [repeat step_each] in U.
  destruct (momentum_step_spec (momentum_new n m lr) (zeros n) phi e) as (v1 & w1 & E1 & Lv1 & Lw1 & N1);
    [rewrite Lz; auto|reflexivity|].
  destruct (momentum_step_spec (MkMomentum m lr v1) (zeros n) phi 0) as (v2 & w2 & E2 & Lv2 & Lw2 & N2);
    [rewrite Lz; auto|auto|].
  cbn [lfa_optimiser vector] in U. cbn [SGDMomentum o_step_scaled] in U. rewrite E1 in U.
  cbn [momentum_new mo_momentum mo_lr] in U. rewrite E2 in U.
  destruct U as (wm' & Ev & OK & _ & _ & Cs).
  exists (MkLFA b wm' (MkMomentum m lr v2)), w2. splits; auto.
  { apply (columns_nth _ _ 1 w2 OK Cs). reflexivity. }
  intros i. destruct (Nat.lt_ge_cases i n) as [Li|Li].
  - assert (Nz : nth_error (zeros n : list R) i = Some 0) by (rewrite at_nth_error, at_zeros; auto; lia).
    destruct (N1 i 0 0 Nz Nz) as [V1 _].
    destruct (N2 i 0 _ Nz V1) as [_ W2]. apply nth_error_at in W2. rewrite W2.
    rewrite !new_velocity_R. cbn [momentum_new mo_momentum mo_lr]. to_R. ring.
  - unfold at_. rewrite nth_overflow by lia.
    assert (C0 : coeff phi i = 0).
    { destruct Z as [[K B] Zs]. apply coeff_unstored; auto. intros X. apply B in X. lia. }
    rewrite C0. ring.
Qed.
