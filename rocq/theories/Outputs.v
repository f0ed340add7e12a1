(** The outputs of a vector approximator as scalar approximators of their own,
    over whole sequences of calls. Facts for C83. *)
From Coq Require Import List Arith ZArith Lia Bool.
From Verif Require Import Base Scalar HMap NdArray VecFacts Features Spec FeatureFacts Optim OptimSpec Lfa LfaSpec LfaFacts.
Import ListNotations.

Section Outputs.
  Context {F I : Type}.

  (** What output [j] of [n] sees of a call, as calls on a scalar approximator.
      The closure of [update_with] may read the features and that output only. *)
  Inductive on_output (n j : nat) : v_call F I -> list (s_call F I) -> Prop :=
  | on_evaluate x : on_output n j (VEvaluate x) [SEvaluate x]
  | on_evaluate_index x : on_output n j (VEvaluateIndex x j) [SEvaluate x]
  | on_evaluate_other x k : k <> j -> on_output n j (VEvaluateIndex x k) []
  | on_update x es e : nth_error es j = Some e -> on_output n j (VUpdate x es) [SUpdate x e]
  | on_update_short x es : length es <= j -> on_output n j (VUpdate x es) []
  | on_update_index x e : on_output n j (VUpdateIndex x j e) [SUpdate x e]
  | on_update_other x k e : k <> j -> on_output n j (VUpdateIndex x k e) []
  | on_update_with x f g :
      (forall phi vs v, length vs = n -> nth_error vs j = Some v -> nth_error (ow_raw (f phi vs)) j = Some (g phi v)) ->
      on_output n j (VUpdateWith x f) [SUpdateWith x g]
  | on_update_with_short x f :
      (forall phi vs, length vs = n -> length (ow_raw (f phi vs)) <= j) ->
      on_output n j (VUpdateWith x f) [SEvaluate x].

  Definition call_input (c : v_call F I) : I :=
    match c with VEvaluate x | VEvaluateIndex x _ | VUpdate x _ | VUpdateIndex x _ _ | VUpdateWith x _ => x end.
  Definition call_index (n : nat) (c : v_call F I) : Prop :=
    match c with VEvaluateIndex _ k | VUpdateIndex _ k _ => k < n | _ => True end.

  Context {S : Type} `{Scalar F} (o : Optimiser F S).
  Hypothesis KL : keeps_length o.
  Hypothesis ML : memoryless o.

  Notation on v c := (MkLFA (lfa_basis v) c (lfa_optimiser v)).

  Lemma matmul_nth phi wm vs j c : matrix_ok wm -> matmul phi wm = Ret vs -> column wm j = Ret c ->
    length vs = ncols wm /\ exists v, nth_error vs j = Some v /\ dot phi c = Ret v.
  Proof.
    intros OK M C. unfold matmul in M. destruct (columns_Ret wm OK) as (cs & Ec & L & _). rewrite Ec in M. cbn [obind] in M.
    split; [rewrite (omapM_length _ _ _ M); exact L|].
    apply (columns_nth _ _ _ _ OK Ec) in C. pose proof (omapM_nth _ _ _ j M) as N. rewrite C in N.
    destruct (nth_error vs j) as [v|]; [exists v; auto|destruct N].
  Qed.

  (** One update, seen from one output. *)
  Lemma v_update_output (v : VectorLFA F I S) x es v' r j c : matrix_ok (lfa_weights v) -> column (lfa_weights v) j = Ret c ->
    v_update o v x es = Ret (v', r) ->
    lfa_optimiser v' = lfa_optimiser v /\ exists c', column (lfa_weights v') j = Ret c' /\
      match nth_error es j with
      | Some e => exists r', s_update o (on v c) x e = Ret (on v c', r')
      | None => c' = c
      end.
  Proof.
    intros OK C Ev. destruct (b_project (lfa_basis v) x) as [[phi|er]|] eqn:P.
    - destruct (columns_Ret _ OK) as (cs & Cs & _).
      pose proof (v_update_spec o KL v x es phi cs OK Cs P) as U.
      destruct (step_each o phi es cs (lfa_optimiser v)) as [[[s' cs'] rs]|] eqn:Se; [|congruence].
      destruct U as (wm' & Ew & OKw & Rw & Cw & Csw). rewrite Ew in Ev. injection Ev as <- <-.
      apply (columns_nth _ _ _ _ OK Cs) in C.
      destruct (step_each_column o ML _ _ _ _ _ _ _ j c Se C) as [Es Nj]. simpl. subst s'. split; auto.
      destruct (nth_error es j) as [e|].
      + destruct Nj as (c1 & r' & Est & Nc). exists c1. split; [apply (columns_nth _ _ _ _ OKw Csw); auto|].
        exists r'. unfold s_update. simpl. rewrite P. simpl. rewrite Est. reflexivity.
      + exists c. split; [apply (columns_nth _ _ _ _ OKw Csw); auto|]. reflexivity.
    - unfold v_update in Ev. rewrite P in Ev. simpl in Ev. injection Ev as <- <-. split; auto.
      exists c. split; auto. destruct (nth_error es j) as [e|]; auto.
      exists (Err er). unfold s_update. simpl. rewrite P. reflexivity.
    - unfold v_update in Ev. rewrite P in Ev. discriminate.
  Qed.

  (** One call. *)
  Lemma v_do_output (v : VectorLFA F I S) k v' j c scs : matrix_ok (lfa_weights v) -> column (lfa_weights v) j = Ret c ->
    on_output (n_outputs v) j k scs -> v_do o v k = Ret v' ->
    lfa_optimiser v' = lfa_optimiser v /\ exists c', column (lfa_weights v') j = Ret c' /\ s_run o scs (on v c) = Ret (on v c').
  Proof.
    intros OK C On E. assert (Same : lfa_optimiser v = lfa_optimiser v) by reflexivity.
    assert (Ev : forall x phi vs, b_project (lfa_basis v) x = Ret (Ok phi) -> matmul phi (lfa_weights v) = Ret vs ->
      s_run o [SEvaluate x] (on v c) = Ret (on v c)).
    { intros x phi vs P M. destruct (matmul_nth _ _ _ _ _ OK M C) as (_ & y & _ & D).
      unfold s_run. cbn [ofold s_do]. unfold omap, s_evaluate. cbn [lfa_basis lfa_weights]. rewrite P. cbn [obind rmap]. rewrite D. reflexivity. }
    assert (Er : forall x er, b_project (lfa_basis v) x = Ret (Err er) -> s_run o [SEvaluate x] (on v c) = Ret (on v c)).
    { intros x er P. unfold s_run. cbn [ofold s_do]. unfold omap, s_evaluate. cbn [lfa_basis lfa_weights]. rewrite P. reflexivity. }
    destruct On as [x|x|x k Nk|x es e Ne|x es Ne|x e|x k e Nk|x f g G|x f G]; cbn [v_do] in E; unfold omap in E.
    - destruct (v_evaluate v x) as [rr|] eqn:Ee; cbn [obind] in E; [|discriminate]. injection E as <-. split; auto. exists c. split; auto.
      destruct (b_project (lfa_basis v) x) as [[phi|er]|] eqn:P.
      + rewrite (v_evaluate_matmul v x phi OK P) in Ee. destruct (matmul phi (lfa_weights v)) as [vs|] eqn:M; [|discriminate]. eauto.
      + eauto.
      + unfold v_evaluate, v_try_iter in Ee. rewrite P in Ee. discriminate.
    - destruct (v_evaluate_index v x j) as [rr|] eqn:Ee; cbn [obind] in E; [|discriminate]. injection E as <-. split; auto. exists c. split; auto.
      unfold v_evaluate_index in Ee. unfold s_run. cbn [ofold s_do]. unfold omap, s_evaluate. cbn [lfa_basis lfa_weights].
      destruct (b_project (lfa_basis v) x) as [[phi|er]|]; cbn [obind rmap] in *; [|reflexivity|discriminate].
      rewrite C in Ee. cbn [obind] in Ee. destruct (dot phi c); [reflexivity|discriminate].
    - destruct (v_evaluate_index v x k) as [rr|] eqn:Ee; cbn [obind] in E; [|discriminate]. injection E as <-. split; auto. exists c. split; auto.
    - destruct (v_update o v x es) as [[v1 r]|] eqn:Eu; cbn [obind fst] in E; [|discriminate]. injection E as <-.
      destruct (v_update_output _ _ _ _ _ _ _ OK C Eu) as (So & c' & C' & Q). rewrite Ne in Q. destruct Q as [r' Q].
      split; auto. exists c'. split; auto. unfold s_run. cbn [ofold s_do]. unfold omap. rewrite Q. reflexivity.
    - destruct (v_update o v x es) as [[v1 r]|] eqn:Eu; cbn [obind fst] in E; [|discriminate]. injection E as <-.
      destruct (v_update_output _ _ _ _ _ _ _ OK C Eu) as (So & c' & C' & Q). rewrite (proj2 (nth_error_None es j) Ne) in Q. subst c'.
      split; auto. exists c. split; auto.
    - destruct (v_update_index o v x j e) as [[v1 r]|] eqn:Eu; cbn [obind fst] in E; [|discriminate]. injection E as <-.
      pose proof (v_update_index_spec o KL v x j e c OK C) as U. destruct (s_update o (on v c) x e) as [[a' r']|] eqn:Es; [|congruence].
      destruct U as (v2 & E2 & B2 & O2 & _ & _ & _ & Cj & _). rewrite E2 in Eu. injection Eu as <- <-.
      assert (A : a' = on v (lfa_weights a')).
      { unfold s_update in Es. cbn [lfa_basis lfa_weights lfa_optimiser] in Es.
        destruct (b_project (lfa_basis v) x) as [[phi|er]|]; cbn [obind] in Es; [|injection Es as <- <-; reflexivity|discriminate].
        destruct (o_step_scaled o (lfa_optimiser v) c phi e) as [[[s1 w1] r1]|] eqn:St; cbn [obind] in Es; [|discriminate].
        injection Es as <- <-. apply ML in St. subst s1. reflexivity. }
      split; [rewrite O2, A; reflexivity|]. exists (lfa_weights a'). split; auto.
      unfold s_run. cbn [ofold s_do]. unfold omap. rewrite Es. cbn [obind fst]. f_equal. exact A.
    - destruct (v_update_index o v x k e) as [[v1 r]|] eqn:Eu; cbn [obind fst] in E; [|discriminate]. injection E as <-.
      destruct (column (lfa_weights v) k) as [ck|] eqn:Ck.
      + pose proof (v_update_index_spec o KL v x k e ck OK Ck) as U. destruct (s_update o (on v ck) x e) as [[a' r']|] eqn:Es; [|congruence].
        destruct U as (v2 & E2 & B2 & O2 & _ & _ & _ & _ & Cj). rewrite E2 in Eu. injection Eu as <- <-.
        assert (A : lfa_optimiser a' = lfa_optimiser v).
        { unfold s_update in Es. cbn [lfa_basis lfa_weights lfa_optimiser] in Es.
          destruct (b_project (lfa_basis v) x) as [[phi|er]|]; cbn [obind] in Es; [|injection Es as <- <-; reflexivity|discriminate].
          destruct (o_step_scaled o (lfa_optimiser v) ck phi e) as [[[s1 w1] r1]|] eqn:St; cbn [obind] in Es; [|discriminate].
          injection Es as <- <-. apply ML in St. subst s1. reflexivity. }
        split; [congruence|]. exists c. split; [|reflexivity]. rewrite Cj by auto. exact C.
      + unfold v_update_index in Eu. destruct (b_project (lfa_basis v) x) as [[phi|er]|]; cbn [obind] in Eu; [|injection Eu as <- <-; split; auto; exists c; auto|discriminate].
        rewrite Ck in Eu. discriminate.
    - destruct (v_update_with o v x f) as [[v1 r]|] eqn:Eu; cbn [obind fst] in E; [|discriminate]. injection E as <-.
      destruct (b_project (lfa_basis v) x) as [[phi|er]|] eqn:P.
      + destruct (matmul phi (lfa_weights v)) as [vs|] eqn:M; [|unfold v_update_with in Eu; rewrite P in Eu; cbn [obind] in Eu; rewrite M in Eu; discriminate].
        assert (W : v_update_with o v x f = v_update o v x (ow_raw (f phi vs))).
        { unfold v_update_with, v_update. rewrite P. cbn [obind]. rewrite M. reflexivity. }
        rewrite W in Eu. destruct (v_update_output _ _ _ _ _ _ _ OK C Eu) as (So & c' & C' & Q).
        destruct (matmul_nth _ _ _ _ _ OK M C) as (Lv & y & Ny & D). rewrite (G phi vs y Lv Ny) in Q. destruct Q as [r' Q].
        split; auto. exists c'. split; auto. unfold s_run. cbn [ofold s_do]. unfold omap.
        assert (W' : s_update_with o (on v c) x g = s_update o (on v c) x (g phi y)).
        { unfold s_update_with, s_update. cbn [lfa_basis lfa_weights]. rewrite P. cbn [obind]. rewrite D. reflexivity. }
        rewrite W', Q. reflexivity.
      + unfold v_update_with in Eu. rewrite P in Eu. cbn [obind] in Eu. injection Eu as <- <-. split; auto. exists c. split; auto.
        unfold s_run. cbn [ofold s_do]. unfold omap, s_update_with. cbn [lfa_basis]. rewrite P. reflexivity.
      + unfold v_update_with in Eu. rewrite P in Eu. discriminate.
    - destruct (v_update_with o v x f) as [[v1 r]|] eqn:Eu; cbn [obind fst] in E; [|discriminate]. injection E as <-.
      destruct (b_project (lfa_basis v) x) as [[phi|er]|] eqn:P.
      + destruct (matmul phi (lfa_weights v)) as [vs|] eqn:M; [|unfold v_update_with in Eu; rewrite P in Eu; cbn [obind] in Eu; rewrite M in Eu; discriminate].
        assert (W : v_update_with o v x f = v_update o v x (ow_raw (f phi vs))).
        { unfold v_update_with, v_update. rewrite P. cbn [obind]. rewrite M. reflexivity. }
        rewrite W in Eu. destruct (v_update_output _ _ _ _ _ _ _ OK C Eu) as (So & c' & C' & Q).
        destruct (matmul_nth _ _ _ _ _ OK M C) as (Lv & y & Ny & D).
        rewrite (proj2 (nth_error_None _ j) (G phi vs Lv)) in Q. subst c'. split; auto. exists c. split; eauto.
      + unfold v_update_with in Eu. rewrite P in Eu. cbn [obind] in Eu. injection Eu as <- <-. split; auto. exists c. split; eauto.
      + unfold v_update_with in Eu. rewrite P in Eu. discriminate.
  Qed.

  Theorem v_run_output : forall cs scs (v v' : VectorLFA F I S) j c, matrix_ok (lfa_weights v) -> column (lfa_weights v) j = Ret c ->
    Forall2 (on_output (n_outputs v) j) cs scs -> v_run o cs v = Ret v' ->
    exists c', column (lfa_weights v') j = Ret c' /\ s_run o (concat scs) (on v c) = Ret (on v c').
  Proof.
    unfold v_run. induction cs as [|k cs IH]; intros scs v v' j c OK C R E; inversion R as [|? sc ? scs' R1 R2]; subst; clear R.
    - injection E as <-. exists c. auto.
    - cbn [ofold] in E. destruct (v_do o v k) as [v1|] eqn:E1; cbn [obind] in E; [|discriminate].
      destruct (v_do_output v k v1 j c sc OK C R1 E1) as (O1 & c1 & C1 & S1).
      destruct (v_do_shape o KL v k v1 OK E1) as [B1 (OK1 & Rw & Cw)].
      assert (N1 : n_outputs v1 = n_outputs v) by exact Cw. rewrite <- N1 in R2.
      destruct (IH scs' v1 v' j c1 OK1 C1 R2 E) as (c' & C' & S'). exists c'. split; auto.
      cbn [concat]. unfold s_run in *. rewrite ofold_app, S1. cbn [obind]. rewrite B1, O1 in S'. exact S'.
  Qed.

  (** *** When nothing panics *)

  Lemma step_each_defined phi s : forall es cs,
    (forall j c e, nth_error cs j = Some c -> nth_error es j = Some e -> exists c' r, o_step_scaled o s c phi e = Ret (s, c', r)) ->
    exists cs' rs, step_each o phi es cs s = Ret (s, cs', rs).
  Proof.
    induction es as [|e es IH]; intros [|c cs] D; cbn [step_each]; eauto.
    destruct (D 0 c e eq_refl eq_refl) as (c' & r & E). rewrite E.
    destruct (IH cs) as (cs' & rs & E'); [intros j; exact (D (Datatypes.S j))|]. rewrite E'. eauto.
  Qed.

  Lemma s_update_step (v : VectorLFA F I S) c x e phi a' : b_project (lfa_basis v) x = Ret (Ok phi) -> omap fst (s_update o (on v c) x e) = Ret a' ->
    exists c' r, o_step_scaled o (lfa_optimiser v) c phi e = Ret (lfa_optimiser v, c', r).
  Proof.
    intros P. unfold omap, s_update. cbn [lfa_basis lfa_weights lfa_optimiser]. rewrite P. cbn [obind].
    destruct (o_step_scaled o (lfa_optimiser v) c phi e) as [[[s1 w1] r1]|] eqn:St; cbn [obind]; [|discriminate].
    intros _. pose proof (ML _ _ _ _ _ _ _ St). subst s1. eauto.
  Qed.

  Lemma s_run_one k (a a' : ScalarLFA F I S) : s_run o [k] a = Ret a' -> s_do o a k = Ret a'.
  Proof. unfold s_run. cbn [ofold]. destruct (s_do o a k); cbn [obind]; congruence. Qed.

  Lemma v_update_defined (v : VectorLFA F I S) x es phi : matrix_ok (lfa_weights v) -> b_project (lfa_basis v) x = Ret (Ok phi) ->
    (forall j c e, column (lfa_weights v) j = Ret c -> nth_error es j = Some e ->
       exists c' r, o_step_scaled o (lfa_optimiser v) c phi e = Ret (lfa_optimiser v, c', r)) ->
    exists v' r, v_update o v x es = Ret (v', r).
  Proof.
    intros OK P D. destruct (columns_Ret _ OK) as (cs & Cs & _).
    pose proof (v_update_spec o KL v x es phi cs OK Cs P) as U.
    destruct (step_each_defined phi (lfa_optimiser v) es cs) as (cs' & rs & Se).
    { intros j c e Nc Ne. apply (columns_nth _ _ _ _ OK Cs) in Nc. eauto. }
    rewrite Se in U. destruct U as (wm' & E & _). eauto.
  Qed.

  Lemma matmul_defined phi wm : matrix_ok wm -> (forall j c, column wm j = Ret c -> exists y, dot phi c = Ret y) -> exists vs, matmul phi wm = Ret vs.
  Proof.
    intros OK D. unfold matmul. destruct (columns_Ret wm OK) as (cs & Ec & L & _). rewrite Ec. cbn [obind].
    assert (G : forall l, (forall c, In c l -> exists y, dot phi c = Ret y) -> exists vs, omapM (dot phi) l = Ret vs).
    { induction l as [|c l IH]; intros Dl; cbn [omapM]; eauto. destruct (Dl c (or_introl eq_refl)) as [y Ey]. rewrite Ey. cbn [obind].
      destruct IH as [vs Ev]; [intros; apply Dl; now right|]. rewrite Ev. cbn [obind]. eauto. }
    apply G. intros c Ic. apply In_nth_error in Ic. destruct Ic as [j Nj]. apply (columns_nth _ _ _ _ OK Ec) in Nj. eauto.
  Qed.

  Lemma eval_dot (v : VectorLFA F I S) c x phi a' : b_project (lfa_basis v) x = Ret (Ok phi) -> s_run o [SEvaluate x] (on v c) = Ret a' ->
    exists y, dot phi c = Ret y.
  Proof.
    intros P E. apply s_run_one in E. cbn [s_do] in E. unfold omap, s_evaluate in E. cbn [lfa_basis lfa_weights] in E. rewrite P in E.
    cbn [obind rmap] in E. destruct (dot phi c); [eauto|discriminate].
  Qed.

  Lemma v_do_defined (v : VectorLFA F I S) k : matrix_ok (lfa_weights v) -> b_project (lfa_basis v) (call_input k) <> Panic -> call_index (n_outputs v) k ->
    (forall j c, column (lfa_weights v) j = Ret c -> exists scs a', on_output (n_outputs v) j k scs /\ s_run o scs (on v c) = Ret a') ->
    exists v', v_do o v k = Ret v'.
  Proof.
    intros OK NP Ix D.
    destruct (b_project (lfa_basis v) (call_input k)) as [[phi|er]|] eqn:P; [| |congruence].
    2:{ destruct k as [x|x j|x es|x j e|x f]; cbn [v_do call_input] in *; unfold omap, v_evaluate, v_try_iter, v_evaluate_index, v_update, v_update_index, v_update_with;
        rewrite P; cbn [obind rmap fst]; eauto. }
    destruct k as [x|x j|x es|x j e|x f]; cbn [v_do call_input call_index] in *; unfold omap.
    - destruct (matmul_defined phi (lfa_weights v) OK) as [vs M].
      { intros j c C. destruct (D j c C) as (scs & a' & On & E). inversion On; subst. exact (eval_dot v c x phi a' P E). }
      rewrite (v_evaluate_matmul v x phi OK P), M. cbn [obind]. eauto.
    - destruct (column_lt (lfa_weights v) j OK Ix) as (c & C & _). destruct (D j c C) as (scs & a' & On & E).
      unfold v_evaluate_index. rewrite P. cbn [obind rmap]. rewrite C. cbn [obind].
      inversion On; subst; [|congruence]. destruct (eval_dot v c x phi a' P E) as [y Ey]. rewrite Ey. cbn [obind]. eauto.
    - destruct (v_update_defined v x es phi OK P) as (v' & r & E).
      { intros j c e C Ne. destruct (D j c C) as (scs & a' & On & E). inversion On as [| | |x0 es0 e0 N0|x0 es0 N0| | | |]; subst.
        - assert (e0 = e) by congruence. subst e0. apply s_run_one in E. exact (s_update_step v c x e phi a' P E).
        - apply nth_error_None in N0. congruence. }
      rewrite E. cbn [obind]. eauto.
    - destruct (column_lt (lfa_weights v) j OK Ix) as (c & C & _). destruct (D j c C) as (scs & a' & On & E).
      inversion On; subst; [|congruence]. apply s_run_one in E. cbn [s_do] in E. unfold omap in E.
      pose proof (v_update_index_spec o KL v x j e c OK C) as U. destruct (s_update o (on v c) x e) as [[a1 r1]|]; [|discriminate].
      destruct U as (v' & E' & _). rewrite E'. cbn [obind]. eauto.
    - destruct (matmul_defined phi (lfa_weights v) OK) as [vs M].
      { intros j c C. destruct (D j c C) as (scs & a' & On & E). inversion On; subst; [|exact (eval_dot v c x phi a' P E)].
        apply s_run_one in E. cbn [s_do] in E. unfold omap, s_update_with in E. cbn [lfa_basis lfa_weights] in E. rewrite P in E. cbn [obind] in E.
        destruct (dot phi c); [eauto|discriminate]. }
      assert (W : v_update_with o v x f = v_update o v x (ow_raw (f phi vs))).
      { unfold v_update_with, v_update. rewrite P. cbn [obind]. rewrite M. reflexivity. }
      rewrite W. destruct (v_update_defined v x (ow_raw (f phi vs)) phi OK P) as (v' & r & E).
      { intros j c e C Ne. destruct (D j c C) as (scs & a' & On & E). destruct (matmul_nth _ _ _ _ _ OK M C) as (Lv & y & Ny & Dy).
        inversion On as [| | | | | | |x0 f0 g G|x0 f0 G]; subst.
        - rewrite (G phi vs y Lv Ny) in Ne. injection Ne as <-. apply s_run_one in E. cbn [s_do] in E.
          assert (W' : s_update_with o (on v c) x g = s_update o (on v c) x (g phi y)).
          { unfold s_update_with, s_update. cbn [lfa_basis lfa_weights]. rewrite P. cbn [obind]. rewrite Dy. reflexivity. }
          rewrite W' in E. exact (s_update_step v c x (g phi y) phi a' P E).
        - pose proof (G phi vs Lv) as Ln. apply nth_error_None in Ln. congruence. }
      rewrite E. cbn [obind]. eauto.
  Qed.

  Theorem v_run_defined : forall cs (v : VectorLFA F I S), matrix_ok (lfa_weights v) ->
    Forall (fun k => b_project (lfa_basis v) (call_input k) <> Panic /\ call_index (n_outputs v) k) cs ->
    (forall j c, column (lfa_weights v) j = Ret c -> exists scs a', Forall2 (on_output (n_outputs v) j) cs scs /\ s_run o (concat scs) (on v c) = Ret a') ->
    exists v', v_run o cs v = Ret v'.
  Proof.
    unfold v_run. induction cs as [|k cs IH]; intros v OK Ok D; cbn [ofold]; [eauto|].
    inversion Ok as [|? ? [NP Ix] Ok']; subst. destruct (v_do_defined v k OK NP Ix) as [v1 E1].
    { intros j c C. destruct (D j c C) as (scs & a' & R & E). inversion R as [|? sc ? scs' R1 R2]; subst. cbn [concat] in E.
      unfold s_run in E. rewrite ofold_app in E. destruct (ofold (s_do o) sc (on v c)) as [a1|] eqn:E1; [|discriminate]. exists sc, a1. auto. }
    rewrite E1. cbn [obind]. destruct (v_do_shape o KL v k v1 OK E1) as [B1 (OK1 & Rw & Cw)].
    assert (N1 : n_outputs v1 = n_outputs v) by exact Cw. apply IH; auto; rewrite ?B1, ?N1; auto.
    intros j c1 C1. assert (Lj : j < ncols (lfa_weights v)) by (rewrite <- Cw; apply (column_Ret _ _ _ OK1 C1)).
    destruct (column_lt (lfa_weights v) j OK Lj) as (c & C & _). destruct (D j c C) as (scs & a' & R & E).
    inversion R as [|? sc ? scs' R1 R2]; subst. destruct (v_do_output v k v1 j c sc OK C R1 E1) as (O1 & c1' & C1' & S1).
    assert (c1' = c1) by congruence. subst c1'. exists scs', a'. split; [exact R2|].
    cbn [concat] in E. unfold s_run in *. rewrite ofold_app, S1 in E. cbn [obind] in E. rewrite O1. exact E.
  Qed.
End Outputs.
