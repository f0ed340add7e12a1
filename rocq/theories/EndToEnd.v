(** Whole approximators: a library basis, a library optimiser, any sequence of
    calls. Facts for C55. *)
From Coq Require Import List Arith ZArith Lia Bool.
From Verif Require Import Base Scalar HMap NdArray Features Spec FeatureFacts Coeffs Kernels TileCoding
  Basis BasisFacts TileFacts VecFacts CoeffFacts Optim OptimSpec OptimFacts Lfa LfaSpec LfaFacts.
Import ListNotations.

Section EndToEnd.
  Context {F : Type} `{Scalar F}.
  Implicit Types (b : basis F) (phi psi : Features F) (x : list F).

  (** The bases at the tips of an expression, in order of evaluation. *)
  Fixpoint leaves b : list (basis F) :=
    match b with
    | BStack b1 b2 => leaves b1 ++ leaves b2
    | BL0 b' | BL1 b' | BL2 b' | BLinf b' => leaves b'
    | _ => [b]
    end.

  Definition projects b x : Prop := exists phi, project b x = Ret (Ok phi).

  Lemma projects_stack b1 b2 x : sound b1 -> sound b2 -> projects b1 x -> projects b2 x ->
    projects (BStack b1 b2) x.
  Proof.
    intros S1 S2 [f1 E1] [f2 E2]. destruct (project_stack b1 b2 x) as (_ & _ & P).
    destruct (project_dim b1 x f1 S1 E1) as [W1 _]. destruct (project_dim b2 x f2 S2 E2) as [W2 _].
    destruct (P f1 f2 E1 E2 W1 W2) as (f & E & _). exists f. exact E.
  Qed.

  Lemma projects_norm N b x : normaliser N -> sound b -> projects b x -> projects (N b) x.
  Proof.
    intros HN S [f E]. destruct (project_dim b x f S E) as [W _].
    destruct HN as [ -> | [ -> | [ -> | -> ]]]; unfold projects; simpl; rewrite E; simpl; eauto.
    destruct (l0_normalise_spec f W) as (psi & -> & _). simpl. eauto.
  Qed.

  Theorem leaves_ok b x : sound b -> (forall l, In l (leaves b) -> projects l x) -> projects b x.
  Proof.
    induction b; intros S A; try (apply A; simpl; auto; fail); simpl in S, A.
    - destruct S as [S1 S2]. apply projects_stack; auto; [apply IHb1|apply IHb2]; auto;
        intros l I; apply A, in_or_app; auto.
    - apply (projects_norm BL0); auto. left. reflexivity.
    - apply (projects_norm BL1); auto. right; left. reflexivity.
    - apply (projects_norm BL2); auto. right; right; left. reflexivity.
    - apply (projects_norm BLinf); auto. right; right; right. reflexivity.
  Qed.

  (** The first leaf that does not project decides. *)
  Theorem leaves_first b x : forall ls l ls', sound b -> leaves b = ls ++ l :: ls' ->
    (forall l', In l' ls -> projects l' x) -> ~ projects l x -> project b x = project l x.
  Proof.
    assert (One : forall (b0 : basis F) ls l ls', [b0] = ls ++ l :: ls' -> ls = [] /\ l = b0 /\ ls' = []).
    { intros b0 [|l0 ls] l ls' E; inversion E; subst; auto. destruct ls; discriminate. }
    assert (Nrm : forall (r : outcome (result (Features F))) (g : Features F -> outcome (Features F)),
      (forall phi, r <> Ret (Ok phi)) -> (let* a := r in rmap g a) = r).
    { intros [[phi|e]|] g Hn; auto. exfalso. apply (Hn phi). reflexivity. }
    induction b; intros ls l ls' S E A N; simpl in E;
      try (apply One in E; destruct E as (_ & -> & _); reflexivity).
    - destruct S as [S1 S2]. simpl.
      destruct (le_lt_dec (length (leaves b1)) (length ls)) as [L|L].
      + (* in the second half *)
        assert (X : exists k, ls = leaves b1 ++ k).
        { exists (skipn (length (leaves b1)) ls).
          rewrite <- (firstn_skipn (length (leaves b1)) ls) at 1. f_equal.
          assert (Q := f_equal (firstn (length (leaves b1))) E).
          rewrite firstn_app, firstn_all, Nat.sub_diag, firstn_O, app_nil_r in Q.
          rewrite firstn_app in Q. replace (length (leaves b1) - length ls) with 0 in Q by lia.
          rewrite firstn_O, app_nil_r in Q. symmetry. exact Q. }
        destruct X as [k ->]. rewrite <- app_assoc in E. apply app_inv_head in E.
        assert (P1 : projects b1 x) by (apply leaves_ok; auto; intros l' I; apply A, in_or_app; auto).
        destruct P1 as [f1 E1]. rewrite E1. simpl.
        rewrite (IHb2 k l ls' S2 E) by (auto; intros l' I; apply A, in_or_app; auto).
        apply Nrm. intros phi Ep. apply N. exists phi. exact Ep.
      + assert (X : exists k, leaves b1 = ls ++ l :: k).
        { exists (skipn (Datatypes.S (length ls)) (leaves b1)).
          assert (Q := f_equal (firstn (Datatypes.S (length ls))) E).
          rewrite firstn_app in Q. replace (Datatypes.S (length ls) - length (leaves b1)) with 0 in Q by lia.
          rewrite firstn_O, app_nil_r in Q. rewrite firstn_app in Q.
          replace (Datatypes.S (length ls) - length ls) with 1 in Q by lia.
          rewrite (firstn_all2 ls) in Q by lia. change (firstn 1 (l :: ls')) with [l] in Q.
          rewrite <- (firstn_skipn (Datatypes.S (length ls)) (leaves b1)) at 1. rewrite Q, <- app_assoc. reflexivity. }
        destruct X as [k Ek]. rewrite (IHb1 ls l k S1 Ek A N).
        destruct (project l x) as [[f1|e]|] eqn:El; simpl; auto. exfalso. apply N. exists f1. exact El.
    - simpl. rewrite (IHb ls l ls' S E A N). apply Nrm. intros phi Ep. apply N. exists phi. exact Ep.
    - simpl. rewrite (IHb ls l ls' S E A N). apply Nrm. intros phi Ep. apply N. exists phi. exact Ep.
    - simpl. rewrite (IHb ls l ls' S E A N). apply Nrm. intros phi Ep. apply N. exists phi. exact Ep.
    - simpl. rewrite (IHb ls l ls' S E A N). apply Nrm. intros phi Ep. apply N. exists phi. exact Ep.
  Qed.

  (** Inputs every part of the expression can take: tile coders have memory and
      no overflow, grids have an axis and get a coordinate, closures succeed. *)
  Fixpoint accepts b x : Prop :=
    match b with
    | BTile _ _ nt ms => nt = 0 \/ (1 <= ms /\ tame nt (bin_state x nt))
    | BGrid _ space => space <> [] /\ x <> []
    | BClosure _ f => exists phi, f x = Ret (Ok phi)
    | BStack b1 b2 => accepts b1 x /\ accepts b2 x
    | BL0 b' | BL1 b' | BL2 b' | BLinf b' => accepts b' x
    | _ => True
    end.

  Theorem accepts_projects b x : sound b -> accepts b x -> projects b x.
  Proof.
    intros S A. apply leaves_ok; auto. clear S. intros l I. revert A l I.
    induction b; simpl; intros A l I;
      try (destruct I as [<-|[]]; eexists; reflexivity); auto.
    - destruct I as [<-|[]]. destruct A as [->|[Ms T]]; [eexists; reflexivity|].
      destruct (tile_same_cells bld bld h n_tilings memory_size x x T T Ms) as (phi & E & _); auto.
      exists phi. exact E.
    - destruct I as [<-|[]]. destruct A as [Ns Nx]. destruct space as [|e space]; [tauto|].
      destruct x as [|v x]; [tauto|]. eexists. reflexivity.
    - destruct I as [<-|[]]. destruct A as [phi E]. exists phi. exact E.
    - destruct A as [A1 A2]. apply in_app_or in I. destruct I; auto.
  Qed.

  (** ** Approximators *)

  (** A basis of the library as the approximator sees it. *)
  Definition as_basis b : Basis F (list F) := MkBasis (dim b) (project b).

  Definition s_accepted b (c : s_call F (list F)) : Prop :=
    match c with SEvaluate x | SUpdate x _ | SUpdateWith x _ => accepts b x end.

  Definition v_accepted b k (c : v_call F (list F)) : Prop :=
    match c with
    | VEvaluate x | VUpdate x _ | VUpdateWith x _ => accepts b x
    | VEvaluateIndex x j | VUpdateIndex x j _ => accepts b x /\ j < k
    end.

  Lemma dot_sized phi w n : sized n phi -> length w = n -> exists y, dot phi w = Ret y.
  Proof.
    intros Z L. destruct phi as [da|sa].
    - destruct Z as [_ Sz]. simpl in *. unfold dot1. rewrite (proj2 (Nat.eqb_eq _ _)) by lia. eauto.
    - destruct Z as [[_ B] Sz]. simpl in Sz. subst n. cbn [dot]. unfold dot_sparse.
      assert (Bm : forall kv, In kv (sa_acts sa) -> fst kv < length w).
      { intros [i v] I. rewrite L. apply B. exists v. exact I. }
      revert Bm. generalize (sa_acts sa) as m. clear. intros m Bm.
      match goal with |- exists y, ofold ?f m ?a = Ret y => set (g := f); generalize a end.
      induction m as [|[i v] m IH]; intros a; simpl; eauto.
      unfold g at 1. unfold vget. simpl. destruct (nth_error w i) eqn:E.
      2:{ apply nth_error_None in E. specialize (Bm (i, v) (or_introl eq_refl)). simpl in Bm. lia. }
      simpl. apply IH. intros kv I. apply Bm. simpl. auto.
  Qed.

  Notation lfa_ok b a := (lfa_basis a = as_basis b /\ length (lfa_weights a) = dim b /\
    opt_sized (dim b) (lfa_optimiser a)).

  Lemma s_calls_ok b (a : ScalarLFA F (list F) (lib_opt F)) x : sound b -> lfa_ok b a -> accepts b x ->
    (exists v, s_evaluate a x = Ret (Ok v)) /\
    (forall e, exists a', s_update LibOptimiser a x e = Ret (a', Ok tt) /\ lfa_ok b a') /\
    (forall f, exists a', s_update_with LibOptimiser a x f = Ret (a', Ok tt) /\ lfa_ok b a').
  Proof.
    intros Sb (Eb & Lw & Os) A. destruct (accepts_projects b x Sb A) as [phi E].
    destruct (project_dim b x phi Sb E) as [W D]. assert (Z : sized (dim b) phi) by (split; auto).
    destruct (dot_sized phi _ _ Z Lw) as [y Ey].
    unfold s_evaluate, s_update, s_update_with. rewrite Eb. cbn [as_basis b_project]. rewrite E. simpl. rewrite Ey. simpl.
    split; [eauto|]. split.
    - intros e. destruct (lib_step_scaled_ok (dim b) (lfa_optimiser a) _ phi e Z Lw Os) as (o' & w' & Es & Lw' & Os').
      rewrite Es. simpl. eexists. split; [reflexivity|]. simpl. rewrite Eb. auto.
    - intros f. destruct (lib_step_scaled_ok (dim b) (lfa_optimiser a) _ phi (f phi y) Z Lw Os) as (o' & w' & Es & Lw' & Os').
      rewrite Es. simpl. eexists. split; [reflexivity|]. simpl. rewrite Eb. auto.
  Qed.

  Theorem s_run_ok b cs : sound b -> Forall (s_accepted b) cs ->
    forall a : ScalarLFA F (list F) (lib_opt F), lfa_ok b a ->
    exists a', s_run LibOptimiser cs a = Ret a' /\ lfa_ok b a'.
  Proof.
    intros Sb. unfold s_run. induction cs as [|c cs IH]; intros Ac a K; simpl; eauto.
    inversion Ac as [|? ? A1 A2]; subst.
    assert (X : exists a1, s_do LibOptimiser a c = Ret a1 /\ lfa_ok b a1).
    { destruct c as [x|x e|x f]; simpl in A1; destruct (s_calls_ok b a x Sb K A1) as (Ev & Up & Uw); simpl.
      - destruct Ev as [v ->]. simpl. eauto.
      - destruct (Up e) as (a1 & -> & K1). simpl. eauto.
      - destruct (Uw f) as (a1 & -> & K1). simpl. eauto. }
    destruct X as (a1 & -> & K1). simpl. apply IH; auto.
  Qed.

  (** Vector *)

  Notation vfa_ok b k a := (lfa_basis a = as_basis b /\ matrix_ok (lfa_weights a) /\
    nrows (lfa_weights a) = dim b /\ ncols (lfa_weights a) = k /\ opt_sized (dim b) (lfa_optimiser a)).

  Lemma step_each_ok n phi : sized n phi -> forall es cs (s : lib_opt F), opt_sized n s ->
    Forall (fun c => length c = n) cs ->
    exists s' cs' rs, step_each LibOptimiser phi es cs s = Ret (s', cs', rs) /\
      opt_sized n s' /\ Forall (fun r => r = Ok tt) rs.
  Proof.
    intros Z. induction es as [|e es IH]; intros [|c cs] s Os L; cbn [step_each];
      try (exists s; eexists; exists []; split; [reflexivity|auto]; fail).
    inversion L as [|? ? Lc Lcs]; subst.
    destruct (lib_step_scaled_ok _ s c phi e Z eq_refl Os) as (s1 & c1 & E1 & _ & Os1).
    change (o_step_scaled LibOptimiser) with (@lib_step_scaled F _). rewrite E1.
    destruct (IH cs s1 Os1 Lcs) as (s2 & cs2 & rs & E2 & Os2 & R2). rewrite E2.
    do 3 eexists. split; [reflexivity|]. auto.
  Qed.

  Lemma update_columns_ok n phi es wm (s : lib_opt F) : sized n phi -> opt_sized n s ->
    matrix_ok wm -> nrows wm = n ->
    exists s' wm', update_columns LibOptimiser phi es 0 wm s (Ok tt) = Ret (s', wm', Ok tt) /\
      opt_sized n s' /\ matrix_ok wm' /\ nrows wm' = nrows wm /\ ncols wm' = ncols wm.
  Proof.
    intros Z Os OK Rn. destruct (columns_Ret wm OK) as (cs & C & Lc & N).
    pose proof (update_columns_spec LibOptimiser lib_keeps_length phi es 0 wm s (Ok tt) cs OK (Nat.le_0_l _) C) as U.
    assert (Fc : Forall (fun c => length c = n) cs).
    { apply Forall_forall. intros c I. apply In_nth_error in I. destruct I as [j Nj].
      apply (columns_nth _ _ _ _ OK C) in Nj. apply (column_Ret _ _ _ OK) in Nj. lia. }
    destruct (step_each_ok n phi Z es cs s Os Fc) as (s' & cs' & rs & E & Os' & R).
    rewrite skipn_O, E in U. destruct U as (wm' & Eu & OK' & Rw & Cw & _).
    exists s', wm'. rewrite Eu. splits; auto. simpl. do 2 f_equal. apply first_error_Ok. exact R.
  Qed.

  Lemma matmul_ok n phi wm : sized n phi -> matrix_ok wm -> nrows wm = n ->
    exists vs, matmul phi wm = Ret vs /\ length vs = ncols wm.
  Proof.
    intros Z OK Rn. unfold matmul. destruct (columns_Ret wm OK) as (cs & C & Lc & N). rewrite C. simpl.
    destruct (omapM_dot_ok phi n cs) as [vs M]; auto.
    - intros c I. apply In_nth_error in I. destruct I as [j Nj].
      apply (columns_nth _ _ _ _ OK C) in Nj. apply (column_Ret _ _ _ OK) in Nj. lia.
    - intros w Lw. apply (dot_sized phi w n); auto.
    - exists vs. split; auto. apply omapM_length in M. lia.
  Qed.

  Lemma v_calls_ok b k (a : VectorLFA F (list F) (lib_opt F)) x : sound b -> vfa_ok b k a -> accepts b x ->
    (exists vs, v_evaluate a x = Ret (Ok vs) /\ length vs = k) /\
    (forall j, j < k -> exists v, v_evaluate_index a x j = Ret (Ok v)) /\
    (forall es, exists a', v_update LibOptimiser a x es = Ret (a', Ok tt) /\ vfa_ok b k a') /\
    (forall j e, j < k -> exists a', v_update_index LibOptimiser a x j e = Ret (a', Ok tt) /\ vfa_ok b k a') /\
    (forall f, exists a', v_update_with LibOptimiser a x f = Ret (a', Ok tt) /\ vfa_ok b k a').
  Proof.
    intros Sb (Eb & OK & Rn & Ck & Os) A. destruct (accepts_projects b x Sb A) as [phi E].
    destruct (project_dim b x phi Sb E) as [W D]. assert (Z : sized (dim b) phi) by (split; auto).
    destruct (matmul_ok (dim b) phi _ Z OK Rn) as (vs & M & Lv).
    assert (P : b_project (lfa_basis a) x = Ret (Ok phi)) by (rewrite Eb; exact E).
    split. { exists vs. rewrite (v_evaluate_matmul a x phi OK P), M. simpl. split; congruence. }
    split. { intros j Lj. unfold v_evaluate_index. rewrite P. simpl.
             destruct (column_lt (lfa_weights a) j OK ltac:(lia)) as (c & Ec & Lc & _). rewrite Ec. simpl.
             destruct (dot_sized phi c (dim b) Z ltac:(lia)) as [y ->]. simpl. eauto. }
    assert (U : forall es, exists s' wm', update_columns LibOptimiser phi es 0 (lfa_weights a) (lfa_optimiser a) (Ok tt)
        = Ret (s', wm', Ok tt) /\ vfa_ok b k (with_state a wm' s')).
    { intros es. destruct (update_columns_ok (dim b) phi es (lfa_weights a) (lfa_optimiser a) Z Os OK Rn)
        as (s' & wm' & Eu & Os' & OK' & Rw & Cw).
      exists s', wm'. split; auto. simpl. splits; auto; congruence. }
    split. { intros es. unfold v_update. rewrite P. simpl. destruct (U es) as (s' & wm' & -> & K'). simpl. eauto. }
    split.
    - intros j e Lj. unfold v_update_index. rewrite P. simpl.
      destruct (column_lt (lfa_weights a) j OK ltac:(lia)) as (c & Ec & Lc & _). rewrite Ec. simpl.
      destruct (lib_step_scaled_ok (dim b) (lfa_optimiser a) c phi e Z ltac:(lia) Os) as (o' & w' & Es & Lw' & Os').
      rewrite Es. simpl.
      destruct (set_column_Ret (lfa_weights a) j w' OK ltac:(lia) ltac:(lia)) as (m' & Em & OKm & Rm & Cm & _).
      rewrite Em. simpl. eexists. split; [reflexivity|]. simpl. splits; auto; congruence.
    - intros f. unfold v_update_with. rewrite P. simpl. rewrite M. simpl.
      destruct (U (ow_raw (f phi vs))) as (s' & wm' & -> & K'). simpl. eauto.
  Qed.

  Theorem v_run_ok b k cs : sound b -> Forall (v_accepted b k) cs ->
    forall a : VectorLFA F (list F) (lib_opt F), vfa_ok b k a ->
    exists a', v_run LibOptimiser cs a = Ret a' /\ vfa_ok b k a'.
  Proof.
    intros Sb. unfold v_run. induction cs as [|c cs IH]; intros Ac a K; simpl; eauto.
    inversion Ac as [|? ? A1 A2]; subst.
    assert (X : exists a1, v_do LibOptimiser a c = Ret a1 /\ vfa_ok b k a1).
    { destruct c as [x|x j|x es|x j e|x f]; simpl in A1;
        [assert (Ax := A1)|destruct A1 as [Ax Lj]|assert (Ax := A1)|destruct A1 as [Ax Lj]|assert (Ax := A1)];
        destruct (v_calls_ok b k a x Sb K Ax) as (Ev & Ei & Up & Ui & Uw); simpl.
      - destruct Ev as (vs & -> & _). simpl. eauto.
      - destruct (Ei j Lj) as [v ->]. simpl. eauto.
      - destruct (Up es) as (a1 & -> & K1). simpl. eauto.
      - destruct (Ui j e Lj) as (a1 & -> & K1). simpl. eauto.
      - destruct (Uw f) as (a1 & -> & K1). simpl. eauto. }
    destruct X as (a1 & -> & K1). simpl. apply IH; auto.
  Qed.

  Lemma scalar_ok b (p : hyper F) : lfa_ok b (scalar (as_basis b) (construct (dim b) p)).
  Proof. simpl. splits; auto. { apply repeat_length. } apply construct_sized. Qed.

  Lemma vector_ok b (p : hyper F) k : vfa_ok b k (vector (as_basis b) (construct (dim b) p) k).
  Proof.
    simpl. splits; auto; [| |apply construct_sized].
    - unfold matrix_ok. simpl. apply Forall_forall. intros r I. apply repeat_spec in I. subst r. apply repeat_length.
    - apply repeat_length.
  Qed.
End EndToEnd.
