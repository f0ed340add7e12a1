(** Optimisers over the reals: closed forms over training histories (C32-C38, C40). *)
From Coq Require Import List Arith Lia Reals Lra Bool.
From Verif Require Import Base Scalar ScalarR HMap HMapFacts NdArray VecFacts Features Spec
  FeatureFacts FeatureMore BasisFacts NormReal Optim OptimSpec OptimFacts.
Import ListNotations.
Local Open Scope R_scope.

#[global] Arguments EPS {F H} : simpl never.

(** ** coefficients *)

Lemma get_coeff (phi : Features R) i :
  coeff phi i = match get phi i with Some a => a | None => 0 end.
Proof.
  destruct phi as [da|[d m]]; simpl.
  - destruct (nth_error da i) eqn:E.
    + apply nth_error_nth, E.
    + apply nth_overflow, nth_error_None, E.
  - induction m as [|[k a] m IH]; simpl; auto. destruct (k =? i); auto.
Qed.

Lemma coeff_entry (phi : Features R) i : coeff phi i = entry phi i.
Proof. rewrite get_coeff. unfold entry. destruct (get phi i); auto. rewrite fzero_R. auto. Qed.

Lemma coeff_stores (phi : Features R) i a : keyed phi -> stores phi i a -> coeff phi i = a.
Proof. intros K S. apply get_stores in S; auto. rewrite get_coeff, S. reflexivity. Qed.

Lemma coeff_unstored (phi : Features R) i : keyed phi -> ~ stored phi i -> coeff phi i = 0.
Proof. intros K S. apply get_not_stored in S; auto. rewrite get_coeff, S. reflexivity. Qed.

Lemma coeff_expands (phi : Features R) l i : wf phi -> expands phi l -> nth i l 0 = coeff phi i.
Proof.
  intros W X. rewrite coeff_entry. rewrite <- (nth0_entry phi l i W X).
  unfold nth0. rewrite fzero_R. reflexivity.
Qed.

Lemma coeff_expands_err (phi : Features R) l i : wf phi -> expands phi l -> (i < size phi)%nat ->
  nth_error l i = Some (coeff phi i).
Proof. intros [K B] X L. rewrite coeff_entry. apply expands_nth; auto. Qed.

Lemma at_nth_error l i : (i < length l)%nat -> nth_error l i = Some (at_ l i).
Proof. intros L. unfold at_. apply nth_error_nth', L. Qed.

Lemma nth_error_at l i x : nth_error l i = Some x -> at_ l i = x.
Proof. apply nth_error_nth. Qed.

Lemma at_zeros n i : at_ (zeros n) i = 0.
Proof.
  unfold at_, zeros. rewrite fzero_R. revert i. induction n; intros [|i]; simpl; auto.
Qed.

Lemma sigma_ext n f g : (forall i, (i < n)%nat -> f i = g i) -> sigma n f = sigma n g.
Proof.
  intros E. unfold sigma. f_equal. apply map_ext_in. intros i I. apply in_seq in I. apply E. lia.
Qed.

Lemma rsum_map_plus {A} (f g : A -> R) l :
  rsum (map (fun i => f i + g i) l) = rsum (map f l) + rsum (map g l).
Proof. induction l; simpl; lra. Qed.

Lemma rsum_map_scal {A} (c : R) (f : A -> R) l :
  rsum (map (fun i => c * f i) l) = c * rsum (map f l).
Proof. induction l; simpl; lra. Qed.

Lemma sigma_plus n f g : sigma n (fun i => f i + g i) = sigma n f + sigma n g.
Proof. apply rsum_map_plus. Qed.

Lemma sigma_scal n c f : sigma n (fun i => c * f i) = c * sigma n f.
Proof. apply rsum_map_scal. Qed.

Lemma sigma_nonneg n f : (forall i, 0 <= f i) -> 0 <= sigma n f.
Proof.
  intros N. apply rsum_nonneg. intros x I. apply in_map_iff in I. destruct I as (i & <- & _). auto.
Qed.

Lemma norm2_nonneg phi : 0 <= norm2 phi.
Proof. apply sigma_nonneg. intros i. nra. Qed.

Lemma dot_predict (phi : Features R) w : sized (length w) phi -> dot phi w = Ret (predict phi w).
Proof.
  intros [W Z]. destruct (expands_exists phi (proj1 W)) as [l X].
  rewrite (dot_expands phi l w W X) by auto. f_equal.
  rewrite rdot_seq by (rewrite (proj1 X); auto). unfold predict, sigma. rewrite (proj1 X).
  f_equal. apply map_ext. intros i. rewrite (coeff_expands phi l i W X). reflexivity.
Qed.

(** ** SGD and ISGD, one step *)

Lemma scaled_addto_R (phi : Features R) a w : sized (length w) phi ->
  exists w', scaled_addto phi a w = Ret w' /\ length w' = length w /\
    forall i, at_ w' i = at_ w i + a * coeff phi i.
Proof.
  intros Z. destruct (sized_fits _ phi w Z eq_refl) as [K Fi].
  destruct (scaled_addto_spec phi a w K Fi) as (w' & E & L & N). exists w'. splits; auto.
  intros i. destruct (Nat.lt_ge_cases i (length w)) as [Li|Li].
  - destruct (N i _ (at_nth_error w i Li)) as [A B]. destruct (stored_dec phi i K) as [S|S].
    + destruct S as [v V]. rewrite (coeff_stores phi i v K V). apply nth_error_at. rewrite (A v V). reflexivity.
    + rewrite (coeff_unstored phi i K S). rewrite (nth_error_at _ _ _ (B S)). lra.
  - unfold at_. rewrite !nth_overflow by lia. destruct Z as [[_ B] Zs].
    rewrite (coeff_unstored phi i K); [lra|]. intros S. apply B in S. lia.
Qed.

Lemma sgd_R lr (phi : Features R) e w : sized (length w) phi ->
  exists w', sgd_step_scaled lr w phi e = Ret (lr, w', Ok tt) /\ length w' = length w /\
    forall i, at_ w' i = at_ w i + lr * e * coeff phi i.
Proof.
  intros Z. unfold sgd_step_scaled. destruct (scaled_addto_R phi (lr * e) w Z) as (w' & E & L & N).
  exists w'. simpl. rewrite E. simpl. splits; auto.
Qed.

Lemma norm2_values (phi : Features R) : wf phi ->
  ffold phi fzero (fun acc x => fadd acc (fmul x x)) = norm2 phi.
Proof.
  intros W. destruct (expands_exists phi (proj1 W)) as [l X].
  assert (E : ffold phi fzero (fun acc x => fadd acc (fmul x x)) =
              rsum (map (fun x => x * x) (values phi))).
  { destruct phi as [da|[d m]]; simpl; rewrite fzero_R;
      rewrite (fold_left_rsum (fun x => x * x)); lra. }
  rewrite E, (values_sum (fun x => x * x) phi l W X) by lra.
  unfold norm2, sigma. rewrite <- (proj1 X).
  rewrite <- (map_map (coeff phi) (fun x => x * x)). f_equal. f_equal.
  apply nth_error_ext. intros i. rewrite nth_error_map', nth_error_seq.
  destruct (Nat.ltb_spec i (length l)) as [L|L]; simpl.
  - apply coeff_expands_err; auto. rewrite <- (proj1 X). auto.
  - apply nth_error_None. auto.
Qed.

Lemma isgd_lr_R lr (phi : Features R) : wf phi ->
  isgd_compute_lr lr phi = lr / (1 + lr * norm2 phi).
Proof. intros W. unfold isgd_compute_lr. rewrite norm2_values by assumption. to_R. reflexivity. Qed.

Lemma isgd_R lr (phi : Features R) e w : sized (length w) phi ->
  exists w', isgd_step_scaled lr w phi e = Ret (lr, w', Ok tt) /\ length w' = length w /\
    forall i, at_ w' i = at_ w i + lr / (1 + lr * norm2 phi) * e * coeff phi i.
Proof.
  intros Z. unfold isgd_step_scaled. rewrite isgd_lr_R by apply Z.
  destruct (scaled_addto_R phi (lr / (1 + lr * norm2 phi) * e) w Z) as (w' & E & L & N).
  exists w'. simpl. rewrite E. simpl. splits; auto.
Qed.

Lemma predict_shift (phi : Features R) psi c w w' :
  (forall i, at_ w' i = at_ w i + c * coeff phi i) ->
  predict psi w' = predict psi w + c * inner psi phi.
Proof.
  intros N. unfold predict, inner. rewrite <- sigma_scal, <- sigma_plus.
  apply sigma_ext. intros i _. rewrite N. ring.
Qed.

Lemma inner_self phi : inner phi phi = norm2 phi.
Proof. reflexivity. Qed.

Lemma sgd_step_effect lr (phi : Features R) e w : sized (length w) phi ->
  exists w', o_step_scaled SGD lr w phi e = Ret (lr, w', Ok tt) /\ length w' = length w /\
    (forall i, at_ w' i = at_ w i + lr * e * coeff phi i) /\
    dot phi w = Ret (predict phi w) /\
    dot phi w' = Ret (predict phi w + lr * e * norm2 phi) /\
    forall psi, sized (length w) psi -> inner psi phi = 0 -> dot psi w' = dot psi w.
Proof.
  intros Z. destruct (sgd_R lr phi e w Z) as (w' & E & L & N). exists w'. splits; auto.
  - apply dot_predict, Z.
  - rewrite dot_predict by (rewrite L; exact Z). f_equal.
    rewrite (predict_shift phi phi (lr * e) w w' N). rewrite inner_self. ring.
  - intros psi Zp I. rewrite !dot_predict by (rewrite ?L; exact Zp). f_equal.
    rewrite (predict_shift phi psi (lr * e) w w' N), I. ring.
Qed.

Lemma isgd_step_effect lr (phi : Features R) y w : sized (length w) phi ->
  1 + lr * norm2 phi <> 0 ->
  exists w', o_step_scaled ISGD lr w phi (y - predict phi w) = Ret (lr, w', Ok tt) /\
    length w' = length w /\ dot phi w = Ret (predict phi w) /\ dot phi w' = Ret (predict phi w') /\
    (forall i, at_ w' i = at_ w i + lr * (y - predict phi w') * coeff phi i) /\
    y - predict phi w' = (y - predict phi w) / (1 + lr * norm2 phi).
Proof.
  intros Z D. destruct (isgd_R lr phi (y - predict phi w) w Z) as (w' & E & L & N).
  exists w'. assert (P := predict_shift phi phi _ w w' N). rewrite inner_self in P.
  assert (Q : y - predict phi w' = (y - predict phi w) / (1 + lr * norm2 phi)).
  { rewrite P. field. exact D. }
  splits; auto.
  - apply dot_predict, Z.
  - apply dot_predict. rewrite L. exact Z.
  - intros i. rewrite N, Q. field. exact D.
Qed.

Lemma isgd_no_overshoot lr (phi : Features R) y w : sized (length w) phi -> 0 <= lr ->
  exists w', o_step_scaled ISGD lr w phi (y - predict phi w) = Ret (lr, w', Ok tt) /\
    let before := y - predict phi w in
    let after := y - predict phi w' in
    Rabs after <= Rabs before /\ 0 <= after * before /\ (before <> 0 -> after <> 0).
Proof.
  intros Z P. assert (0 <= norm2 phi) by apply norm2_nonneg.
  assert (D : 0 < 1 + lr * norm2 phi) by nra.
  destruct (isgd_step_effect lr phi y w Z) as (w' & E & _ & _ & _ & _ & Q); [lra|].
  exists w'. split; auto. simpl. rewrite Q. set (q := 1 + lr * norm2 phi) in *. set (b := y - predict phi w).
  assert (I : 0 < / q <= 1).
  { split; [apply Rinv_0_lt_compat, D|]. rewrite <- Rinv_1. apply Rinv_le_contravar; [lra|].
    unfold q. nra. }
  unfold Rdiv. splits.
  - rewrite Rabs_mult. rewrite (Rabs_right (/ q)) by lra. assert (0 <= Rabs b) by apply Rabs_pos. nra.
  - nra.
  - intros B C. apply B. apply Rmult_integral in C. destruct C; auto. lra.
Qed.

(** ** histories *)

Lemma train_snoc {F S} (o : Optimiser F S) h phi e s w :
  train o (h ++ [(phi, e)]) s w =
  match train o h s w with
  | Ret (s', w') =>
      match o_step_scaled o s' w' phi e with
      | Ret (s2, w2, _) => Ret (s2, w2)
      | Panic => Panic
      end
  | Panic => Panic
  end.
Proof.
  revert s w. induction h as [|[p x] h IH]; intros s w; simpl.
  - destruct (o_step_scaled o s w phi e) as [[[? ?] ?]|]; auto.
  - destruct (o_step_scaled o s w p x) as [[[s' w'] ?]|]; auto.
Qed.

Lemma well_sized_snoc {F} `{Scalar F} n (h : history F) phi e :
  well_sized n (h ++ [(phi, e)]) <-> well_sized n h /\ sized n phi.
Proof.
  unfold well_sized. rewrite Forall_app. split; intros [A B]; split; auto.
  - inversion B; auto.
Qed.

Lemma grads_snoc i h phi e : grads i (h ++ [(phi, e)]) = grads i h ++ [coeff phi i * e].
Proof. unfold grads. rewrite map_app. reflexivity. Qed.

Lemma grads_length i h : length (grads i h) = length h.
Proof. apply map_length. Qed.

Lemma discounted_snoc b gs g : discounted b (gs ++ [g]) = b * discounted b gs + g.
Proof.
  induction gs as [|x gs IH]; simpl; [lra|]. rewrite IH, app_length. simpl.
  rewrite Nat.add_1_r. simpl. ring.
Qed.

Lemma prefix_sum_snoc {A} (f : list A -> R) h p :
  prefix_sum f (h ++ [p]) = prefix_sum f h + f (h ++ [p]).
Proof.
  unfold prefix_sum. rewrite app_length. simpl. rewrite Nat.add_1_r.
  rewrite seq_S, map_app, rsum_app. cbn [map rsum fold_right]. f_equal.
  - f_equal. apply map_ext_in. intros k I. apply in_seq in I. f_equal.
    rewrite firstn_app. replace (k - length h)%nat with 0%nat by lia. simpl. apply app_nil_r.
  - rewrite firstn_all2; [unfold rsum; simpl; lra|]. rewrite app_length. simpl. lia.
Qed.

Lemma prefix_sum_nil {A} (f : list A -> R) : prefix_sum f [] = 0.
Proof. reflexivity. Qed.

(** With [beta = 0] only the newest gradient counts. *)
Lemma discounted_zero_snoc gs g : discounted 0 (gs ++ [g]) = g.
Proof. rewrite discounted_snoc. lra. Qed.

Lemma prefix_sum_last gs : prefix_sum (discounted 0) gs = rsum gs.
Proof.
  induction gs as [|g gs IH] using rev_ind; [reflexivity|].
  rewrite prefix_sum_snoc, discounted_zero_snoc, IH, rsum_app. simpl. lra.
Qed.

(** ** SGD *)

Theorem sgd_history n h lr w : well_sized n h -> length w = n ->
  exists w', train SGD h lr w = Ret (lr, w') /\ length w' = n /\
    forall i, at_ w' i = at_ w i + lr * rsum (grads i h).
Proof.
  intros Wh L. induction h as [|[phi e] h IH] using rev_ind.
  - exists w. simpl. splits; auto. intros i. lra.
  - apply well_sized_snoc in Wh. destruct Wh as [Wh Z]. destruct (IH Wh) as (w1 & E & L1 & N).
    rewrite train_snoc, E. subst n. rewrite <- L1 in Z.
    destruct (sgd_R lr phi e w1 Z) as (w2 & E2 & L2 & N2). simpl. rewrite E2.
    exists w2. splits; auto; try congruence. intros i. rewrite N2, N, grads_snoc, rsum_app. simpl. ring.
Qed.

(** ** Momentum *)

Lemma new_velocity_R m sf (phi : Features R) i x :
  new_velocity m sf phi i x = m * x + coeff phi i * sf.
Proof.
  rewrite get_coeff. destruct phi as [da|[d mm]]; simpl.
  - rewrite fzero_R. destruct (nth_error da i) eqn:E.
    + rewrite (nth_error_nth da i 0 E). reflexivity.
    + rewrite nth_overflow by (apply nth_error_None, E). reflexivity.
  - destruct (hm_get mm i); lra.
Qed.

Theorem momentum_history n h m lr w : well_sized n h -> length w = n ->
  exists s' w', train SGDMomentum h (momentum_new n m lr) w = Ret (s', w') /\
    mo_momentum s' = m /\ mo_lr s' = lr /\ length (mo_velocity s') = n /\ length w' = n /\
    forall i, (i < n)%nat ->
      at_ (mo_velocity s') i = discounted m (grads i h) /\
      at_ w' i = at_ w i + lr * prefix_sum (discounted m) (grads i h).
Proof.
  intros Wh L. induction h as [|[phi e] h IH] using rev_ind.
  - exists (momentum_new n m lr), w. simpl. splits; auto.
    + apply repeat_length.
    + intros i _. rewrite prefix_sum_nil. change (repeat fzero n) with (@zeros R _ n).
      rewrite at_zeros. split; lra.
  - apply well_sized_snoc in Wh. destruct Wh as [Wh Z].
    destruct (IH Wh) as (s1 & w1 & E & M & LR & Lv & Lw & N).
    rewrite train_snoc, E. subst n. rewrite <- Lw in Z.
    destruct (momentum_step_spec s1 w1 phi e Z ltac:(congruence)) as (v2 & w2 & E2 & Lv2 & Lw2 & N2).
    simpl. rewrite E2. eexists _, w2. splits; [reflexivity|simpl; congruence..|].
    simpl. intros i Li. destruct (N i Li) as [Nv Nw].
    destruct (N2 i (at_ w1 i) (at_ (mo_velocity s1) i)) as [A B].
    { apply at_nth_error. lia. } { apply at_nth_error. lia. }
    rewrite (nth_error_at _ _ _ A), (nth_error_at _ _ _ B).
    rewrite new_velocity_R, grads_snoc, prefix_sum_snoc, discounted_snoc, M, LR, Nv, Nw. simpl.
    split; ring.
Qed.

Lemma at_ext (l l' : list R) : length l = length l' ->
  (forall i, (i < length l)%nat -> at_ l i = at_ l' i) -> l = l'.
Proof.
  intros L E. apply (nth_ext l l' 0 0 L). intros i Li. apply E, Li.
Qed.

Theorem momentum_zero n h lr w : well_sized n h -> length w = n ->
  exists s' w', train SGDMomentum h (momentum_new n 0 lr) w = Ret (s', w') /\
    train SGD h lr w = Ret (lr, w').
Proof.
  intros Wh L.
  destruct (momentum_history n h 0 lr w Wh L) as (s' & w' & E & _ & _ & _ & Lw & N).
  destruct (sgd_history n h lr w Wh L) as (w2 & E2 & L2 & N2).
  exists s', w'. split; auto. rewrite E2. f_equal. f_equal. apply at_ext; [congruence|].
  intros i Li. rewrite N2. destruct (N i) as [_ Nw]; [lia|]. rewrite Nw, prefix_sum_last. reflexivity.
Qed.

(** ** NAG *)

Theorem nag_history n h m lr w : well_sized n h -> length w = n ->
  exists s' w', train NAG h (momentum_new n m lr) w = Ret (s', w') /\
    mo_momentum s' = m /\ mo_lr s' = lr /\ length (mo_velocity s') = n /\ length w' = n /\
    forall i, (i < n)%nat ->
      at_ (mo_velocity s') i = discounted m (grads i h) /\
      at_ w' i = at_ w i + lr * prefix_sum (discounted m) (grads i h)
                 + m * rsum (map (fun p => coeff (fst p) i) h).
Proof.
  intros Wh L. induction h as [|[phi e] h IH] using rev_ind.
  - exists (momentum_new n m lr), w. simpl. splits; auto.
    + apply repeat_length.
    + intros i _. rewrite prefix_sum_nil. change (repeat fzero n) with (@zeros R _ n).
      rewrite at_zeros. split; lra.
  - apply well_sized_snoc in Wh. destruct Wh as [Wh Z].
    destruct (IH Wh) as (s1 & w1 & E & M & LR & Lv & Lw & N).
    rewrite train_snoc, E. subst n. rewrite <- Lw in Z.
    destruct (nag_step_spec s1 w1 phi e Z ltac:(congruence)) as (v2 & w2 & E2 & Lv2 & Lw2 & N2).
    simpl. rewrite E2. eexists _, w2. splits; [reflexivity|simpl; congruence..|].
    simpl. intros i Li. destruct (N i Li) as [Nv Nw].
    destruct (N2 i (at_ w1 i) (at_ (mo_velocity s1) i)) as [A [B1 B2]].
    { apply at_nth_error. lia. } { apply at_nth_error. lia. }
    assert (B : at_ w2 i = at_ w1 i + lr * (m * at_ (mo_velocity s1) i + coeff phi i * e)
                           + m * coeff phi i).
    { destruct (stored_dec phi i (proj1 (proj1 Z))) as [[a S]|S].
      - rewrite (nth_error_at _ _ _ (B1 a S)), new_velocity_R, M, LR.
        rewrite (coeff_stores phi i a (proj1 (proj1 Z)) S). reflexivity.
      - rewrite (nth_error_at _ _ _ (B2 S)), new_velocity_R, M, LR.
        rewrite (coeff_unstored phi i (proj1 (proj1 Z)) S). simpl. ring. }
    rewrite (nth_error_at _ _ _ A), B.
    rewrite new_velocity_R, grads_snoc, prefix_sum_snoc, discounted_snoc, M, Nv, Nw.
    rewrite map_app, rsum_app. simpl. split; ring.
Qed.

Theorem nag_zero n h lr w : well_sized n h -> length w = n ->
  exists s' w', train NAG h (momentum_new n 0 lr) w = Ret (s', w') /\
    train SGD h lr w = Ret (lr, w').
Proof.
  intros Wh L.
  destruct (nag_history n h 0 lr w Wh L) as (s' & w' & E & _ & _ & _ & Lw & N).
  destruct (sgd_history n h lr w Wh L) as (w2 & E2 & L2 & N2).
  exists s', w'. split; auto. rewrite E2. f_equal. f_equal. apply at_ext; [congruence|].
  intros i Li. rewrite N2. destruct (N i) as [_ Nw]; [lia|]. rewrite Nw, prefix_sum_last. ring.
Qed.

(** A zero-error step of a fresh optimiser adds momentum * phi. *)
Theorem nag_drift n m lr (phi : Features R) w : sized n phi -> length w = n ->
  exists s' w', o_step_scaled NAG (momentum_new n m lr) w phi 0 = Ret (s', w', Ok tt) /\
    length w' = n /\ forall i, (i < n)%nat -> at_ w' i = at_ w i + m * coeff phi i.
Proof.
  intros Z L.
  destruct (nag_history n [(phi, 0)] m lr w) as (s' & w' & E & _ & _ & _ & Lw & N); auto.
  { constructor; auto. }
  simpl in E. subst n.
  destruct (nag_step_spec (momentum_new (length w) m lr) w phi 0 Z) as (v2 & w2 & E2 & _).
  { apply repeat_length. }
  rewrite E2 in E. inversion E; subst s' w'. simpl. rewrite E2. eexists _, _. splits; eauto.
  intros i Li. destruct (N i Li) as [_ Nw]. rewrite Nw. simpl.
  unfold prefix_sum. simpl. ring.
Qed.

(** ** Adagrad *)

Lemma EPS_R : (EPS : R) = 1 / 10000000.
Proof. reflexivity. Qed.

Lemma EPS_pos : 0 < (EPS : R).
Proof. rewrite EPS_R. lra. Qed.

Definition sq (x : R) : R := x * x.

(** The step Adagrad takes for gradients [gs], the last one being the current. *)
Definition adagrad_delta (lr : R) (gs : list R) : R :=
  lr * last gs 0 / (sqrt (rsum (map sq gs)) + EPS).

Theorem adagrad_history n h lr w : well_sized n h -> length w = n ->
  exists s' w', train Adagrad h (adagrad_new n lr) w = Ret (s', w') /\
    ag_lr s' = lr /\ length (ag_acc s') = n /\ length w' = n /\
    forall i, (i < n)%nat ->
      at_ (ag_acc s') i = rsum (map sq (grads i h)) /\
      at_ w' i = at_ w i + prefix_sum (adagrad_delta lr) (grads i h).
Proof.
  intros Wh L. induction h as [|[phi e] h IH] using rev_ind.
  - exists (adagrad_new n lr), w. simpl. splits; auto.
    + apply repeat_length.
    + intros i _. rewrite prefix_sum_nil. change (repeat fzero n) with (@zeros R _ n).
      rewrite at_zeros. split; lra.
  - apply well_sized_snoc in Wh. destruct Wh as [Wh Z].
    destruct (IH Wh) as (s1 & w1 & E & LR & La & Lw & N).
    rewrite train_snoc, E. subst n. rewrite <- Lw in Z.
    destruct (expands_exists phi (proj1 (proj1 Z))) as [l X].
    destruct (adagrad_step_spec s1 w1 phi l e Z X ltac:(congruence)) as (v2 & w2 & E2 & Lv2 & Lw2 & N2).
    simpl. rewrite E2. eexists _, w2. splits; [reflexivity|simpl; congruence..|].
    simpl. intros i Li. destruct (N i Li) as [Nv Nw].
    destruct (N2 i (coeff phi i) (at_ w1 i) (at_ (ag_acc s1) i)) as [A B].
    { apply coeff_expands_err; [apply Z|exact X|]. destruct Z as [_ Zs]. rewrite Zs. lia. }
    { apply at_nth_error. lia. } { apply at_nth_error. lia. }
    rewrite (nth_error_at _ _ _ A), (nth_error_at _ _ _ B).
    assert (Q : adagrad_acc e (coeff phi i) (at_ (ag_acc s1) i) =
                rsum (map sq (grads i (h ++ [(phi, e)])))).
    { unfold adagrad_acc. rewrite Nv, grads_snoc, map_app, rsum_app. unfold sq. simpl. ring. }
    split; auto. unfold adagrad_move. rewrite Q, Nw, grads_snoc, prefix_sum_snoc, LR.
    assert (D : adagrad_delta lr (grads i h ++ [coeff phi i * e]) =
      lr * (coeff phi i * e) / (sqrt (rsum (map sq (grads i h ++ [coeff phi i * e]))) + EPS)).
    { unfold adagrad_delta. rewrite last_last. reflexivity. }
    rewrite D. to_R. ring.
Qed.

Lemma sq_sum_nonneg gs : 0 <= rsum (map sq gs).
Proof.
  apply rsum_nonneg. intros x I. apply in_map_iff in I. destruct I as (g & <- & _). unfold sq. nra.
Qed.

(** No step is longer than the learning rate, and it points along the gradient. *)
Lemma adagrad_delta_bound lr gs g : 0 <= lr ->
  Rabs (adagrad_delta lr (gs ++ [g])) <= lr /\ 0 <= adagrad_delta lr (gs ++ [g]) * g /\
  (g <> 0 -> 0 < lr -> adagrad_delta lr (gs ++ [g]) <> 0).
Proof.
  intros P. unfold adagrad_delta. rewrite last_last, map_app, rsum_app. simpl.
  assert (S := sq_sum_nonneg gs). set (a := rsum (map sq gs)) in *.
  assert (G : Rabs g <= sqrt (a + (sq g + 0))).
  { apply Rsqr_incr_0_var; [|apply sqrt_pos]. rewrite Rsqr_sqrt by (unfold sq; nra).
    rewrite <- Rsqr_abs. unfold Rsqr, sq. lra. }
  assert (E := EPS_pos). set (d := sqrt (a + (sq g + 0)) + EPS) in *.
  assert (D : 0 < d). { unfold d. pose proof (Rabs_pos g). lra. }
  assert (I : 0 < / d) by (apply Rinv_0_lt_compat, D).
  unfold Rdiv. splits.
  - rewrite !Rabs_mult. rewrite (Rabs_right lr), (Rabs_right (/ d)) by lra.
    rewrite Rmult_assoc. rewrite <- (Rmult_1_r lr) at 2. apply Rmult_le_compat_l; auto.
    apply (Rmult_le_reg_r d); auto. rewrite Rmult_assoc, Rinv_l by lra. unfold d. lra.
  - replace (lr * g * / d * g) with (lr * / d * (g * g)) by ring.
    apply Rmult_le_pos; [apply Rmult_le_pos; lra|nra].
  - intros G0 L0 C. apply Rmult_integral in C. destruct C as [C|C]; [|lra].
    apply Rmult_integral in C. destruct C; lra.
Qed.

Theorem adagrad_step_bound s w (phi : Features R) e : sized (length w) phi ->
  length (ag_acc s) = length w -> 0 <= ag_lr s -> (forall i, 0 <= at_ (ag_acc s) i) ->
  exists s' w', o_step_scaled Adagrad s w phi e = Ret (s', w', Ok tt) /\
    forall i, (i < length w)%nat ->
      at_ (ag_acc s) i <= at_ (ag_acc s') i /\
      Rabs (at_ w' i - at_ w i) <= ag_lr s /\
      0 <= (at_ w' i - at_ w i) * (coeff phi i * e).
Proof.
  intros Z L P Q. destruct (expands_exists phi (proj1 (proj1 Z))) as [l X].
  destruct (adagrad_step_spec s w phi l e Z X L) as (v2 & w2 & E2 & Lv2 & Lw2 & N2).
  simpl. rewrite E2. eexists _, _. split; [reflexivity|]. simpl. intros i Li.
  destruct (N2 i (coeff phi i) (at_ w i) (at_ (ag_acc s) i)) as [A B].
  { apply coeff_expands_err; [apply Z|exact X|]. destruct Z as [_ Zs]. rewrite Zs. lia. }
  { apply at_nth_error. lia. } { apply at_nth_error. lia. }
  rewrite (nth_error_at _ _ _ A), (nth_error_at _ _ _ B).
  set (g := coeff phi i * e). set (a := at_ (ag_acc s) i). assert (A0 : 0 <= a) by apply Q.
  assert (Eq : adagrad_move (ag_lr s) e (coeff phi i) a = adagrad_delta (ag_lr s) ([sqrt a] ++ [g])).
  { unfold adagrad_move, adagrad_acc, adagrad_delta. rewrite last_last. simpl. fold g.
    unfold sq. rewrite sqrt_sqrt by assumption. f_equal. f_equal. f_equal. f_equal. ring. }
  destruct (adagrad_delta_bound (ag_lr s) [sqrt a] g P) as (B1 & B2 & _).
  rewrite <- Eq in B1, B2.
  change (fadd (at_ w i) (adagrad_move (ag_lr s) e (coeff phi i) a))
    with (at_ w i + adagrad_move (ag_lr s) e (coeff phi i) a).
  replace (at_ w i + adagrad_move (ag_lr s) e (coeff phi i) a - at_ w i)
    with (adagrad_move (ag_lr s) e (coeff phi i) a) by ring.
  splits; auto. unfold adagrad_acc. simpl. fold g. nra.
Qed.
