(** Approximators over bases and optimisers that compare equal (C76). *)
From Coq Require Import List Arith ZArith Lia Bool Reals.
From Flocq Require Import Core.Core IEEE754.BinarySingleNaN.
From Verif Require Import Base Scalar ScalarF64 HMap NdArray Features FeatureFacts Coeffs Kernels TileCoding Basis
  Optim Lfa LfaSpec EndToEnd F64Facts ZeroSign DerivedEq ZeroBasis.
Import ListNotations.
Local Open Scope nat_scope.

(** Matrices that agree up to the signs of zeros. *)
Definition xsim (m m' : matrix f64) : Prop := Forall2 lsim (mrows m) (mrows m') /\ mcols m = mcols m'.

Lemma column_sim m m' j : xsim m m' -> orel lsim (column m j) (column m' j).
Proof.
  intros [R C]. unfold column. rewrite C. destruct (j <? mcols m'); [|exact I].
  eapply omapM_rel; [exact R|]. intros r r' Hr. now apply vget_rel.
Qed.

Lemma columns_sim m m' : xsim m m' -> orel (Forall2 lsim) (columns m) (columns m').
Proof.
  intros X. unfold columns. rewrite <- (proj2 X). eapply omapM_rel; [apply eq_rel|]. intros i i' <-. now apply column_sim.
Qed.

Lemma set_rows_sim r r' j c c' : Forall2 lsim r r' -> lsim c c' -> orel (Forall2 lsim) (set_rows r j c) (set_rows r' j c').
Proof.
  intros R. revert c c'. induction R as [|a a' r r' A R IH]; intros c c' C; destruct C as [|x x' c c' X C]; simpl; auto.
  eapply bind_rel; [now apply vset_rel|]. intros b b' Hb. eapply bind_rel; [now apply IH|]. intros q q' Q. simpl. auto.
Qed.

Lemma set_column_sim m m' j c c' : xsim m m' -> lsim c c' -> orel xsim (set_column m j c) (set_column m' j c').
Proof.
  intros [R C] Hc. unfold set_column. eapply bind_rel; [apply set_rows_sim; eauto|]. intros q q' Q. split; auto.
Qed.

Section Runs.
Context (P : Platform) (B : zero_blind P).
Local Notation FP := (ScalarF64 P).
Local Notation opt := (@LibOptimiser f64 FP).
Local Notation LFAs := (ScalarLFA f64 (list f64) (lib_opt f64)).
Local Notation LFAv := (VectorLFA f64 (list f64) (lib_opt f64)).

Definition projections_sim (b c : Basis f64 (list f64)) : Prop :=
  forall x x', lsim x x' -> orel (rrel fsim) (b_project b x) (b_project c x').

(** Approximators that agree up to the signs of zeros. *)
Definition s_sim (a a' : LFAs) : Prop :=
  projections_sim (lfa_basis a) (lfa_basis a') /\ lsim (lfa_weights a) (lfa_weights a') /\
  opt_sim (lfa_optimiser a) (lfa_optimiser a').
Definition v_sim (a a' : LFAv) : Prop :=
  projections_sim (lfa_basis a) (lfa_basis a') /\ xsim (lfa_weights a) (lfa_weights a') /\
  opt_sim (lfa_optimiser a) (lfa_optimiser a').

(** The same call, up to the signs of zeros. *)
Definition s_call_sim (c c' : s_call f64 (list f64)) : Prop :=
  match c, c' with
  | SEvaluate x, SEvaluate x' => lsim x x'
  | SUpdate x e, SUpdate x' e' => lsim x x' /\ sim e e'
  | SUpdateWith x f, SUpdateWith x' f' => lsim x x' /\
      forall phi psi v v', fsim phi psi -> sim v v' -> sim (f phi v) (f' psi v')
  | _, _ => False
  end.
Definition v_call_sim (c c' : v_call f64 (list f64)) : Prop :=
  match c, c' with
  | VEvaluate x, VEvaluate x' => lsim x x'
  | VEvaluateIndex x j, VEvaluateIndex x' j' => lsim x x' /\ j = j'
  | VUpdate x es, VUpdate x' es' => lsim x x' /\ lsim es es'
  | VUpdateIndex x j e, VUpdateIndex x' j' e' => lsim x x' /\ j = j' /\ sim e e'
  | VUpdateWith x f, VUpdateWith x' f' => lsim x x' /\
      forall phi psi v v', fsim phi psi -> lsim v v' -> lsim (ow_raw (f phi v)) (ow_raw (f' psi v'))
  | _, _ => False
  end.

Lemma s_evaluate_sim a a' x x' : s_sim a a' -> lsim x x' ->
  orel (rrel sim) (@s_evaluate f64 _ _ FP a x) (@s_evaluate f64 _ _ FP a' x').
Proof.
  intros (Pb & W & _) X. unfold s_evaluate. eapply bind_rel; [now apply Pb|]. intros r r' R.
  eapply rmap_rel; [exact R|]. intros phi psi F. now apply dot_sim.
Qed.

Definition done_sim {W} (Q : LFA f64 (list f64) W (lib_opt f64) -> LFA f64 (list f64) W (lib_opt f64) -> Prop)
  (p q : LFA f64 (list f64) W (lib_opt f64) * result unit) : Prop := Q (fst p) (fst q) /\ snd p = snd q.

Lemma s_stepped a a' phi psi e e' : s_sim a a' -> fsim phi psi -> sim e e' ->
  orel (done_sim s_sim)
    (let* (s, w, x) := o_step_scaled opt (lfa_optimiser a) (lfa_weights a) phi e in Ret (with_state a w s, x))
    (let* (s, w, x) := o_step_scaled opt (lfa_optimiser a') (lfa_weights a') psi e' in Ret (with_state a' w s, x)).
Proof.
  intros (Pb & W & O) F E. eapply bind_rel; [apply (step_scaled_sim P B); eauto|].
  intros [[s w] x] [[s' w'] x'] (Q1 & Q2 & Q3). simpl in *. split; auto. repeat split; auto.
Qed.

Lemma s_update_sim a a' x x' e e' : s_sim a a' -> lsim x x' -> sim e e' ->
  orel (done_sim s_sim) (@s_update f64 _ _ opt a x e) (@s_update f64 _ _ opt a' x' e').
Proof.
  intros A X E. unfold s_update. eapply bind_rel; [now apply (proj1 A)|]. intros r r' R.
  destruct r as [phi|er], r' as [psi|er']; try contradiction.
  - now apply s_stepped.
  - simpl. split; auto. simpl. congruence.
Qed.

Lemma s_update_with_sim a a' x x' f f' : s_sim a a' -> lsim x x' ->
  (forall phi psi v v', fsim phi psi -> sim v v' -> sim (f phi v) (f' psi v')) ->
  orel (done_sim s_sim) (@s_update_with f64 _ _ FP opt a x f) (@s_update_with f64 _ _ FP opt a' x' f').
Proof.
  intros A X E. unfold s_update_with. eapply bind_rel; [now apply (proj1 A)|]. intros r r' R.
  destruct r as [phi|er], r' as [psi|er']; try contradiction.
  - eapply bind_rel; [apply (dot_sim P B); [exact R|apply A]|]. intros v v' V. apply s_stepped; auto.
  - simpl. split; auto. simpl. congruence.
Qed.

Theorem s_run_sim cs cs' : Forall2 s_call_sim cs cs' -> forall a a', s_sim a a' ->
  orel s_sim (@s_run f64 _ _ FP opt cs a) (@s_run f64 _ _ FP opt cs' a').
Proof.
  intros C a a' A. unfold s_run. refine (ofold_rel s_call_sim s_sim _ _ _ _ C _ _ _ A). clear a a' A C.
  intros a a' c c' A C. destruct c as [x|x e|x f], c' as [x'|x' e'|x' f']; try contradiction; simpl in C; cbn [s_do].
  - unfold omap. eapply bind_rel; [apply s_evaluate_sim; eauto|]. intros. exact A.
  - destruct C as [X E]. unfold omap. eapply bind_rel; [apply s_update_sim; eauto|]. intros p q [Q _]. exact Q.
  - destruct C as [X E]. unfold omap. eapply bind_rel; [apply s_update_with_sim; eauto|]. intros p q [Q _]. exact Q.
Qed.

(** Vector approximators. *)

Lemma update_columns_sim phi psi es es' : fsim phi psi -> lsim es es' -> forall j wm wm' s s' acc,
  xsim wm wm' -> opt_sim s s' ->
  orel (fun p q => opt_sim (fst (fst p)) (fst (fst q)) /\ xsim (snd (fst p)) (snd (fst q)) /\ snd p = snd q)
    (update_columns opt phi es j wm s acc) (update_columns opt psi es' j wm' s' acc).
Proof.
  intros F E. induction E as [|e e' es es' He E IH]; intros j wm wm' s s' acc X O; cbn [update_columns]; [simpl; auto|].
  unfold ncols. rewrite <- (proj2 X). destruct (j <? mcols wm); [|simpl; auto].
  eapply bind_rel; [now apply column_sim|]. intros c c' C.
  eapply bind_rel; [apply (step_scaled_sim P B); eauto|]. intros [[t d] x] [[t' d'] x'] (Q1 & Q2 & Q3). simpl in Q1, Q2, Q3. subst x'.
  eapply bind_rel; [apply set_column_sim; eauto|]. intros m m' M. now apply IH.
Qed.

Lemma try_iter_sim a a' x x' : v_sim a a' -> lsim x x' ->
  orel (rrel (fun i i' => fsim (it_basis i) (it_basis i') /\ Forall2 lsim (it_lanes i) (it_lanes i')))
    (v_try_iter a x) (v_try_iter a' x').
Proof.
  intros (Pb & W & _) X. unfold v_try_iter. eapply bind_rel; [now apply Pb|]. intros r r' R.
  eapply rmap_rel; [exact R|]. intros phi psi F. eapply bind_rel; [now apply columns_sim|]. intros cs cs' C. split; auto.
Qed.

Lemma collect_n_sim n phi psi : fsim phi psi -> forall cs cs', Forall2 lsim cs cs' ->
  orel lsim (@it_collect_n f64 FP n (MkIter phi cs)) (@it_collect_n f64 FP n (MkIter psi cs')).
Proof.
  intros F. induction n as [|n IH]; intros cs cs' C; [constructor|]. destruct C as [|c c' cs cs' Hc C]; [constructor|].
  cbn [it_collect_n it_next it_lanes it_basis].
  pose proof (dot_sim P B phi psi c c' F Hc) as D. destruct (dot phi c), (dot psi c'); try contradiction; [|exact I].
  cbn [obind]. eapply bind_rel; [now apply IH|]. intros vs vs' V. simpl. constructor; auto.
Qed.

Lemma v_evaluate_sim a a' x x' : v_sim a a' -> lsim x x' ->
  orel (rrel lsim) (@v_evaluate f64 _ _ FP a x) (@v_evaluate f64 _ _ FP a' x').
Proof.
  intros A X. unfold v_evaluate. eapply bind_rel; [now apply try_iter_sim|]. intros r r' R.
  eapply rmap_rel; [exact R|]. intros [phi cs] [psi cs'] [F C]. simpl in F, C. unfold it_collect, it_len. simpl it_lanes.
  rewrite (len_rel _ _ _ C). now apply collect_n_sim.
Qed.

Lemma v_evaluate_index_sim a a' x x' j : v_sim a a' -> lsim x x' ->
  orel (rrel sim) (@v_evaluate_index f64 _ _ FP a x j) (@v_evaluate_index f64 _ _ FP a' x' j).
Proof.
  intros (Pb & W & _) X. unfold v_evaluate_index. eapply bind_rel; [now apply Pb|]. intros r r' R.
  eapply rmap_rel; [exact R|]. intros phi psi F. eapply bind_rel; [now apply column_sim|]. intros c c' C. now apply dot_sim.
Qed.

Lemma v_stepped a a' phi psi es es' : v_sim a a' -> fsim phi psi -> lsim es es' ->
  orel (done_sim v_sim)
    (let* (s, wm, x) := update_columns opt phi es 0 (lfa_weights a) (lfa_optimiser a) (Ok tt) in Ret (with_state a wm s, x))
    (let* (s, wm, x) := update_columns opt psi es' 0 (lfa_weights a') (lfa_optimiser a') (Ok tt) in Ret (with_state a' wm s, x)).
Proof.
  intros (Pb & W & O) F E. eapply bind_rel; [apply update_columns_sim; eauto|].
  intros [[s w] x] [[s' w'] x'] (Q1 & Q2 & Q3). simpl in Q1, Q2, Q3. split; auto. repeat split; auto; apply Q2.
Qed.

Lemma v_do_sim a a' c c' : v_sim a a' -> v_call_sim c c' -> orel v_sim (@v_do f64 _ _ FP opt a c) (@v_do f64 _ _ FP opt a' c').
Proof.
  intros A C. destruct c as [x|x j|x es|x j e|x f], c' as [x'|x' j'|x' es'|x' j' e'|x' f']; try contradiction; simpl in C; cbn [v_do]; unfold omap.
  - eapply bind_rel; [apply v_evaluate_sim; eauto|]. intros. exact A.
  - destruct C as [X <-]. eapply bind_rel; [apply v_evaluate_index_sim; eauto|]. intros. exact A.
  - destruct C as [X E]. apply (bind_rel (done_sim v_sim)); [|intros p q [Q _]; exact Q]. unfold v_update.
    eapply bind_rel; [now apply (proj1 A)|]. intros r r' R. destruct r, r'; try contradiction; [now apply v_stepped|].
    simpl. split; auto. simpl. congruence.
  - destruct C as (X & <- & E). apply (bind_rel (done_sim v_sim)); [|intros p q [Q _]; exact Q]. unfold v_update_index.
    eapply bind_rel; [now apply (proj1 A)|]. intros r r' R. destruct r as [phi|], r' as [psi|]; try contradiction;
      [|simpl; split; auto; simpl; congruence].
    destruct A as (Pb & W & O). eapply bind_rel; [now apply column_sim|]. intros c c' C.
    eapply bind_rel; [apply (step_scaled_sim P B); eauto|]. intros [[t d] y] [[t' d'] y'] (Q1 & Q2 & Q3). simpl in Q1, Q2, Q3. subst y'.
    eapply bind_rel; [apply set_column_sim; eauto|]. intros m m' M. split; auto. repeat split; auto; apply M.
  - destruct C as [X E]. apply (bind_rel (done_sim v_sim)); [|intros p q [Q _]; exact Q]. unfold v_update_with.
    eapply bind_rel; [now apply (proj1 A)|]. intros r r' R. destruct r as [phi|], r' as [psi|]; try contradiction;
      [|simpl; split; auto; simpl; congruence].
    eapply bind_rel.
    { unfold matmul. eapply bind_rel; [apply columns_sim, A|]. intros cs cs' Cs. eapply omapM_rel; [exact Cs|].
      intros c c' C. apply (dot_sim P B); [exact R|exact C]. }
    intros v v' V. apply v_stepped; auto.
Qed.

Theorem v_run_sim cs cs' : Forall2 v_call_sim cs cs' -> forall a a', v_sim a a' ->
  orel v_sim (@v_run f64 _ _ FP opt cs a) (@v_run f64 _ _ FP opt cs' a').
Proof.
  intros C a a' A. unfold v_run. refine (ofold_rel v_call_sim v_sim _ _ _ _ C _ _ _ A). intros; now apply v_do_sim.
Qed.

(** ** from [==] *)

Lemma eq_projections b c : basis_eq b c -> regular b -> same_walk b c ->
  projections_sim (@as_basis f64 FP b) (@as_basis f64 FP c).
Proof. intros E R W x x' X. now apply (project_sim P B). Qed.

Lemma basis_eq_dim b : forall c, basis_eq b c -> dim b = dim c.
Proof.
  induction b; intros d E; destruct d; try contradiction; simpl in E; auto; simpl.
  - apply slice_eqb_spec in E. exact (len_rel _ _ _ E).
  - apply E.
  - destruct E as (_ & _ & E). apply vec_eqb_spec in E. exact (len_rel _ _ _ E).
  - destruct E as (_ & <-). reflexivity.
  - destruct E as (_ & _ & <-). reflexivity.
  - apply vec_eqb_spec in E. exact (len_rel _ _ _ E).
  - destruct E as (_ & _ & _ & ->). reflexivity.
  - apply E.
  - apply E.
  - destruct E as [E1 E2]. rewrite (IHb1 _ E1), (IHb2 _ E2). reflexivity.
  - now apply IHb.
  - now apply IHb.
  - now apply IHb.
  - now apply IHb.
Qed.
End Runs.

(** ** zeros *)

Lemma powi_blind n : forall x y, sim x y -> sim (b_powi x n) (b_powi y n).
Proof. induction n as [|n IH]; intros x y S; simpl; auto. apply sim_mul; auto. Qed.

Lemma simple_blind : zero_blind SimplePlatform.
Proof.
  unfold zero_blind, SimplePlatform. simpl. splits; auto using powi_blind.
  - intros l l' L. refine (fold_rel sim sim _ _ _ _ L _ _ _ (sim_refl _)). intros; now apply sim_add.
  - intros a a' b b' A C. refine (fold_rel sim sim _ _ _ _ (map2_rel sim sim sim _ _ _ _ _ _ A C _) _ _ _ (sim_refl _)).
    + intros; now apply sim_mul.
    + intros; now apply sim_add.
Qed.

(** ** back to [==] *)

Definition no_nan (l : list f64) : Prop := Forall (fun x => b_is_nan x = false) l.

Lemma sim_slice l m : lsim l m -> no_nan l -> slice_eqb l m = true.
Proof.
  intros L N. apply slice_eqb_spec. induction L; [constructor|]. inversion N; subst. constructor; auto. now apply sim_eqb.
Qed.

Lemma sim_opt o o' : opt_sim o o' -> no_nan (opt_numbers o) -> opt_eqb o o' = true.
Proof.
  assert (E : forall x y : f64, sim x y -> b_is_nan x = false -> Beqb x y = true) by (intros; apply sim_eqb; auto).
  unfold no_nan. destruct o, o'; simpl; try contradiction; intros S N;
    unfold momentum_sim, adagrad_sim, adam_sim, adamax_sim in S;
    unfold momentum_eqb, adagrad_eqb, adam_eqb, adamax_eqb; rewrite ?Forall_cons_iff, ?Forall_app in N;
    repeat match goal with H : _ /\ _ |- _ => destruct H end; splitb; auto using sim_slice.
Qed.
