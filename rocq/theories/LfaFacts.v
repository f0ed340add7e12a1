(** Approximators over any scalar type (C42-C49). *)
From Coq Require Import List Arith Lia ZArith.
From Verif Require Import Base Scalar HMap HMapFacts NdArray VecFacts Features Spec FeatureFacts
  Optim OptimSpec OptimFacts Lfa LfaSpec.
Import ListNotations.

(** ** matrices *)

Section Mat.
  Context {F : Type}.
  Implicit Types m : matrix F.

  Lemma column_lt m j : matrix_ok m -> j < ncols m -> exists c,
    column m j = Ret c /\ length c = nrows m /\
    forall i r, nth_error (mrows m) i = Some r -> nth_error c i = nth_error r j.
  Proof.
    unfold column, ncols, nrows. intros OK L. rewrite (proj2 (Nat.ltb_lt _ _) L).
    unfold matrix_ok in OK. induction (mrows m) as [|r rows IH]; simpl.
    - exists []. splits; auto. intros [|i] r E; discriminate.
    - inversion OK; subst. destruct IH as (c & E & Lc & N); auto.
      destruct (vget_lt r j) as (x & Ex & Nx); [lia|]. rewrite Ex. simpl. rewrite E. simpl.
      exists (x :: c). splits; auto. { simpl. lia. }
      intros [|i] r' Er; simpl in *; auto. congruence.
  Qed.

  Lemma column_ge m j : ncols m <= j -> column m j = Panic.
  Proof. unfold column, ncols. intros L. destruct (Nat.ltb_spec j (mcols m)); auto. lia. Qed.

  Lemma column_Ret m j c : matrix_ok m -> column m j = Ret c -> j < ncols m /\ length c = nrows m.
  Proof.
    intros OK E. destruct (Nat.lt_ge_cases j (ncols m)) as [L|L].
    - destruct (column_lt m j OK L) as (c' & E' & Lc & _). split; congruence.
    - rewrite column_ge in E by auto. discriminate.
  Qed.

  Lemma columns_Ret m : matrix_ok m -> exists cs, columns m = Ret cs /\ length cs = ncols m /\
    forall j, j < ncols m -> exists c, nth_error cs j = Some c /\ column m j = Ret c.
  Proof.
    intros OK. unfold columns.
    assert (H : forall l, Forall (fun j => j < ncols m) l -> exists cs, omapM (column m) l = Ret cs).
    { induction l as [|j l IH]; intros Fl; simpl; eauto. inversion Fl; subst.
      destruct (column_lt m j OK) as (c & E & _); auto. rewrite E. simpl.
      destruct IH as [cs E']; auto. rewrite E'. simpl. eauto. }
    destruct (H (seq 0 (mcols m))) as [cs E].
    { apply Forall_forall. intros j I. apply in_seq in I. unfold ncols. lia. }
    exists cs. splits; auto.
    { apply omapM_length in E. rewrite seq_length in E. auto. }
    intros j L. pose proof (omapM_nth _ _ _ j E) as N.
    rewrite nth_error_seq in N. unfold ncols in L. rewrite (proj2 (Nat.ltb_lt _ _) L) in N.
    destruct (nth_error cs j) as [c|]; [eauto|destruct N].
  Qed.

  Lemma columns_nth m cs j c : matrix_ok m -> columns m = Ret cs ->
    (nth_error cs j = Some c <-> column m j = Ret c).
  Proof.
    intros OK E. destruct (columns_Ret m OK) as (cs' & E' & L & N). assert (cs' = cs) by congruence. subst.
    split; intros X.
    - assert (Lj : j < ncols m) by (rewrite <- L; apply nth_error_Some; congruence).
      destruct (N j Lj) as (c' & ? & ?). congruence.
    - destruct (column_Ret m j c OK X) as [Lj _]. destruct (N j Lj) as (c' & ? & ?). congruence.
  Qed.

  Lemma columns_length m cs : columns m = Ret cs -> length cs = ncols m.
  Proof. unfold columns. intros E. apply omapM_length in E. rewrite seq_length in E. auto. Qed.

  (** Matrices with the same shape and columns are equal. *)
  Lemma matrix_ext m m' : matrix_ok m -> matrix_ok m' -> nrows m = nrows m' -> ncols m = ncols m' ->
    (forall j, j < ncols m -> column m j = column m' j) -> m = m'.
  Proof.
    intros OK OK' Ln Lc E. destruct m as [rows k], m' as [rows' k'].
    unfold ncols, nrows in *. simpl in *. subst k'. f_equal.
    apply nth_error_ext. intros i.
    destruct (nth_error rows i) as [r|] eqn:Er.
    2:{ apply nth_error_None in Er. symmetry. apply nth_error_None. lia. }
    destruct (nth_error_lt rows' i) as [r' Er'].
    { rewrite <- Ln. apply nth_error_Some. congruence. }
    rewrite Er'. f_equal.
    assert (Lr : length r = k) by (eapply Forall_forall in OK; [exact OK|]; eapply nth_error_In; eauto).
    assert (Lr' : length r' = k) by (eapply Forall_forall in OK'; [exact OK'|]; eapply nth_error_In; eauto).
    apply nth_error_ext. intros j. destruct (Nat.lt_ge_cases j k) as [Lj|Lj].
    - specialize (E j Lj).
      destruct (column_lt (MkMatrix rows k) j OK Lj) as (c & Ec & _ & N).
      destruct (column_lt (MkMatrix rows' k) j OK' Lj) as (c' & Ec' & _ & N').
      rewrite Ec, Ec' in E. injection E as <-.
      rewrite <- (N i r Er), <- (N' i r' Er'). reflexivity.
    - rewrite (proj2 (nth_error_None r j)), (proj2 (nth_error_None r' j)) by lia. reflexivity.
  Qed.

  Lemma set_rows_Ret : forall rows j (c : list F), length c = length rows ->
    Forall (fun r => j < length r) rows -> exists rows', set_rows rows j c = Ret rows' /\
    length rows' = length rows /\
    forall i r x, nth_error rows i = Some r -> nth_error c i = Some x ->
      exists r', nth_error rows' i = Some r' /\ length r' = length r /\
        nth_error r' j = Some x /\ forall k, k <> j -> nth_error r' k = nth_error r k.
  Proof.
    induction rows as [|r rows IH]; intros j [|x c] L Fr; try discriminate; simpl.
    - exists []. splits; auto. intros [|i] r x E; discriminate.
    - inversion Fr; subst. destruct (vset_lt x r j) as (r' & Er & Lr & Nr); auto.
      rewrite Er. simpl. destruct (IH j c) as (rows' & E & L' & N); auto. rewrite E. simpl.
      exists (r' :: rows'). splits; auto. { simpl. lia. }
      intros [|i] r0 x0 E0 E1; simpl in *; eauto.
      injection E0 as <-. injection E1 as <-. exists r'. splits; auto.
      + rewrite Nr, Nat.eqb_refl. reflexivity.
      + intros k K. rewrite Nr. apply Nat.eqb_neq in K. rewrite K. reflexivity.
  Qed.

  Lemma set_rows_len : forall rows j (c : list F) rows', set_rows rows j c = Ret rows' ->
    length c = length rows.
  Proof.
    induction rows as [|r rows IH]; intros j [|x c] rows' E; simpl in E; try discriminate; auto.
    destruct (vset r j x); try discriminate. simpl in E.
    destruct (set_rows rows j c) eqn:E'; try discriminate. simpl. erewrite IH; eauto.
  Qed.

  Lemma set_column_Ret m j (c : list F) : matrix_ok m -> j < ncols m -> length c = nrows m ->
    exists m', set_column m j c = Ret m' /\ matrix_ok m' /\ nrows m' = nrows m /\ ncols m' = ncols m /\
      column m' j = Ret c /\ forall k, k <> j -> column m' k = column m k.
  Proof.
    intros OK Lj Lc. unfold set_column.
    assert (Fr : Forall (fun r => j < length r) (mrows m)).
    { eapply Forall_impl; [|exact OK]. simpl. intros r Er. unfold ncols in Lj. lia. }
    destruct (set_rows_Ret (mrows m) j c Lc Fr) as (rows' & E & L & N). rewrite E. simpl.
    set (m' := MkMatrix rows' (mcols m)).
    assert (OK' : matrix_ok m').
    { apply Forall_forall. intros r' I. apply In_nth_error in I. destruct I as [i I]. simpl in I.
      assert (Li : i < length (mrows m)) by (rewrite <- L; apply nth_error_Some; congruence).
      destruct (nth_error_lt _ _ Li) as [r Er]. destruct (nth_error_lt c i) as [x Ex]; [unfold nrows in *; lia|].
      destruct (N i r x Er Ex) as (r'' & E1 & E2 & _). simpl.
      eapply Forall_forall in OK; [|eapply nth_error_In; exact Er]. simpl in OK. congruence. }
    assert (C : forall k d, k < ncols m -> length d = nrows m ->
      (forall i r x, nth_error (mrows m) i = Some r -> nth_error c i = Some x ->
         forall r', nth_error rows' i = Some r' -> nth_error r' k = nth_error d i) ->
      column m' k = Ret d).
    { intros k d Lk Ld Nd. destruct (column_lt m' k OK') as (d' & Ed & Ld' & Nd'); auto.
      rewrite Ed. f_equal. apply nth_error_ext. intros i.
      destruct (Nat.lt_ge_cases i (nrows m)) as [Li|Li].
      - unfold nrows in *. destruct (nth_error_lt (mrows m) i) as [r Er]; auto.
        destruct (nth_error_lt c i) as [x Ex]; [lia|].
        destruct (N i r x Er Ex) as (r' & Er' & _). rewrite (Nd' i r' Er'). eauto.
      - unfold nrows in *. simpl in Ld'. rewrite (proj2 (nth_error_None d' i)), (proj2 (nth_error_None d i)) by lia.
        reflexivity. }
    exists m'. splits; auto.
    - apply C; auto. intros i r x Er Ex r' Er'. destruct (N i r x Er Ex) as (r'' & E1 & _ & E2 & _). congruence.
    - intros k K. destruct (Nat.lt_ge_cases k (ncols m)) as [Lk|Lk].
      + destruct (column_lt m k OK Lk) as (d & Ed & Ld & Nd). rewrite Ed. apply C; auto.
        intros i r x Er Ex r' Er'. destruct (N i r x Er Ex) as (r'' & E1 & _ & _ & E2).
        rewrite (Nd i r Er). rewrite <- E2 by auto. congruence.
      + rewrite !column_ge; auto.
  Qed.

  Lemma set_column_len m j (c : list F) m' : set_column m j c = Ret m' -> length c = nrows m.
  Proof.
    unfold set_column. destruct (set_rows (mrows m) j c) eqn:E; try discriminate. intros _.
    eapply set_rows_len; eauto.
  Qed.
End Mat.

Lemma mzeros_ok {F} `{Scalar F} n k : matrix_ok (mzeros n k : matrix F).
Proof. apply Forall_forall. intros r I. apply repeat_spec in I. subst. apply repeat_length. Qed.

Lemma mzeros_shape {F} `{Scalar F} n k : nrows (mzeros n k : matrix F) = n /\ ncols (mzeros n k : matrix F) = k.
Proof. split; auto. apply repeat_length. Qed.

Lemma mzeros_column {F} `{Scalar F} n k j : j < k -> column (mzeros n k : matrix F) j = Ret (zeros n).
Proof.
  intros L. unfold column, mzeros. cbn [mcols mrows]. rewrite (proj2 (Nat.ltb_lt _ _) L).
  induction n; simpl; auto. rewrite IHn. unfold vget, zeros at 1. rewrite nth_error_repeat'.
  rewrite (proj2 (Nat.ltb_lt _ _) L). reflexivity.
Qed.

(** ** lengths are kept by the library's optimisers *)

Section Lengths.
  Context {F : Type} `{Scalar F}.

  Lemma vupd_len {A} (f : A -> A) l i l' : vupd l i f = Ret l' -> length l' = length l.
  Proof. intros E. apply vupd_Ret in E. tauto. Qed.

  Lemma ofold_inv {A B} (P : B -> Prop) (f : B -> A -> outcome B) :
    (forall b a b', P b -> f b a = Ret b' -> P b') ->
    forall l b b', P b -> ofold f l b = Ret b' -> P b'.
  Proof.
    intros St. induction l as [|a l IH]; simpl; intros b b' Pb E; [inversion E; subst; auto|].
    destruct (f b a) eqn:Ef; simpl in E; [|discriminate]. eapply IH; [|exact E]. eapply St; eauto.
  Qed.

  Lemma scaled_addto_len (phi : Features F) a w w' : scaled_addto phi a w = Ret w' -> length w' = length w.
  Proof.
    destruct phi as [da|sa]; simpl.
    - apply zip_mut_with_length.
    - intros E. revert E. apply (ofold_inv (fun v => length v = length w)); auto.
      intros v kv v' L E. apply vupd_len in E. congruence.
  Qed.

  Lemma adagrad_dense_len lr sf : forall (da w ss : list F),
    length (fst (adagrad_dense lr sf da w ss)) = length w.
  Proof.
    induction da as [|a da IH]; intros [|x w] [|s ss]; simpl; auto.
    specialize (IH w ss). destruct (adagrad_dense lr sf da w ss). simpl in *. congruence.
  Qed.

  Lemma adagrad_sparse_len lr sf (m : hmap F) : forall ss i (w : list F) w' ss',
    adagrad_sparse lr sf m i ss w = Ret (w', ss') -> length w' = length w.
  Proof.
    induction ss as [|s ss IH]; simpl; intros i w w' ss' E; [congruence|].
    destruct (vupd w i _) eqn:Ev; simpl in E; [|discriminate].
    destruct (adagrad_sparse lr sf m (S i) ss a) as [[w2 ss2]|] eqn:Ea; simpl in E; [|discriminate].
    injection E as <- <-. apply IH in Ea. apply vupd_len in Ev. congruence.
  Qed.

  Ltac ostep E :=
    match type of E with
    | obind ?x _ = Ret _ => let H := fresh "Eo" in destruct x eqn:H; simpl in E; [|discriminate E]
    end.

  Lemma adam_coord_len d lr b1 b2 p1 p2 sf (st : list F * list F * list F) ia st' :
    adam_coord d lr b1 b2 p1 p2 sf st ia = Ret st' -> length (snd st') = length (snd st).
  Proof.
    destruct st as [[m1 m2] w], ia as [i a]. cbn [adam_coord]. intros E.
    repeat ostep E. injection E as <-. simpl. eapply vupd_len; eauto.
  Qed.

  Lemma adamax_coord_len d lr b1 b2 p1 sf (st : list F * list F * list F) ia st' :
    adamax_coord d lr b1 b2 p1 sf st ia = Ret st' -> length (snd st') = length (snd st).
  Proof.
    destruct st as [[m1 m2] w], ia as [i a]. cbn [adamax_coord]. intros E.
    repeat ostep E. injection E as <-. simpl. eapply vupd_len; eauto.
  Qed.

  Lemma lift_step_Ret {S} (inj : S -> lib_opt F) r o' w' x : lift_step inj r = Ret (o', w', x) ->
    exists s', r = Ret (s', w', x).
  Proof. destruct r as [[[s1 w1] x1]|]; simpl; [|discriminate]. injection 1 as <- <- <-. eauto. Qed.

  Lemma lib_keeps_length : keeps_length (LibOptimiser (F := F)).
  Proof.
    intros o w phi e o' w' r. destruct o; simpl; intros E; apply lift_step_Ret in E; destruct E as [s' E]; simpl in E.
    - unfold sgd_step_scaled in E. repeat ostep E. injection E as <- <- <-.
      eapply scaled_addto_len; eauto.
    - unfold isgd_step_scaled in E. repeat ostep E. injection E as <- <- <-.
      eapply scaled_addto_len; eauto.
    - unfold momentum_step_scaled in E. repeat ostep E. injection E as <- <- <-.
      eapply zip_mut_with_length; eauto.
    - unfold nag_step_scaled in E. repeat ostep E. injection E as <- <- <-.
      etransitivity; [eapply scaled_addto_len|eapply zip_mut_with_length]; eauto.
    - unfold adagrad_step_scaled in E. destruct phi as [da|sa].
      + simpl in E. pose proof (adagrad_dense_len (ag_lr s) e da w (ag_acc s)) as L.
        destruct (adagrad_dense (ag_lr s) e da w (ag_acc s)). simpl in E, L. injection E as <- <- <-. auto.
      + destruct (adagrad_sparse _ _ _ _ _ _) as [[w2 ss2]|] eqn:Ea; simpl in E; [|discriminate].
        injection E as <- <- <-. eapply adagrad_sparse_len; eauto.
    - unfold adam_step_scaled in E.
      assert (X : forall d p1 p2 l st st',
        ofold (adam_coord d (ad_lr s) (ad_beta1 s) (ad_beta2 s) p1 p2 e) l st = Ret st' ->
        length (snd st') = length (snd st)).
      { intros d p1 p2 l st st'. apply (ofold_inv (fun x => length (snd x) = length (snd st))); auto.
        intros b a b' L Ec. apply adam_coord_len in Ec. congruence. }
      destruct phi; simpl in E;
        (destruct (ofold _ _ _) as [[[m1 m2] w2]|] eqn:Eo; simpl in E; [|discriminate];
         injection E as <- <- <-; apply X in Eo; exact Eo).
    - unfold adamax_step_scaled in E.
      assert (X : forall d p1 l st st',
        ofold (adamax_coord d (am_lr s) (am_beta1 s) (am_beta2 s) p1 e) l st = Ret st' ->
        length (snd st') = length (snd st)).
      { intros d p1 l st st'. apply (ofold_inv (fun x => length (snd x) = length (snd st))); auto.
        intros b a b' L Ec. apply adamax_coord_len in Ec. congruence. }
      destruct phi; simpl in E;
        (destruct (ofold _ _ _) as [[[m1 m2] w2]|] eqn:Eo; simpl in E; [|discriminate];
         injection E as <- <- <-; apply X in Eo; exact Eo).
  Qed.
End Lengths.

(** ** updates *)

Lemma nth_error_firstn' {A} (l : list A) : forall j k, k < j -> nth_error (firstn j l) k = nth_error l k.
Proof.
  induction l as [|x l IH]; intros [|j] [|k] L; simpl; auto; try lia. apply IH. lia.
Qed.

Lemma nth_error_skipn' {A} (l : list A) : forall j k, nth_error (skipn j l) k = nth_error l (j + k).
Proof.
  induction l as [|x l IH]; intros [|j] k; simpl; auto. destruct k; reflexivity.
Qed.

Section Update.
  Context {F I S : Type} `{Scalar F} (o : Optimiser F S).
  Implicit Types a : ScalarLFA F I S.
  Implicit Types v : VectorLFA F I S.

  (** The fold of [update] is [step_each] on the columns. *)
  Lemma update_columns_spec (KL : keeps_length o) phi : forall es j wm s acc cs,
    matrix_ok wm -> j <= ncols wm -> columns wm = Ret cs ->
    match step_each o phi es (skipn j cs) s with
    | Panic => update_columns o phi es j wm s acc = Panic
    | Ret (s', cs', rs) => exists wm',
        update_columns o phi es j wm s acc = Ret (s', wm', rand acc (first_error rs)) /\
        matrix_ok wm' /\ nrows wm' = nrows wm /\ ncols wm' = ncols wm /\
        columns wm' = Ret (firstn j cs ++ cs')
    end.
  Proof.
    induction es as [|e es IH]; intros j wm s acc cs OK Lj C; simpl.
    { exists wm. splits; auto. { destruct acc as [[]|]; reflexivity. }
      rewrite firstn_skipn. auto. }
    pose proof (columns_length _ _ C) as Lc.
    destruct (Nat.ltb_spec j (ncols wm)) as [L|L].
    2:{ assert (j = length cs) by lia. rewrite skipn_all2 by lia.
        exists wm. splits; auto. { destruct acc as [[]|]; reflexivity. }
        rewrite app_nil_r, firstn_all2 by lia. auto. }
    destruct (column_lt wm j OK L) as (c & Ec & Len & _).
    pose proof (proj2 (columns_nth wm cs j c OK C) Ec) as Nc.
    rewrite Ec. simpl.
    assert (Sk : skipn j cs = c :: skipn (Datatypes.S j) cs).
    { clear - Nc. revert j Nc. induction cs as [|c0 cs IH]; intros [|j] Nc; try discriminate; simpl in *.
      - congruence.
      - rewrite (IH j Nc). reflexivity. }
    rewrite Sk. destruct (o_step_scaled o s c phi e) as [[[s1 c1] r]|] eqn:Est; simpl; auto.
    assert (L1 : length c1 = nrows wm) by (rewrite (KL _ _ _ _ _ _ _ Est); auto).
    destruct (set_column_Ret wm j c1 OK L L1) as (wm1 & E1 & OK1 & R1 & C1 & Cj & Ck).
    rewrite E1. simpl.
    destruct (columns_Ret wm1 OK1) as (cs1 & Ecs1 & Lcs1 & N1).
    assert (Ecs : cs1 = firstn j cs ++ c1 :: skipn (Datatypes.S j) cs).
    { apply nth_error_ext. intros k.
      assert (Lf : length (firstn j cs) = j) by (apply firstn_length_le; lia).
      destruct (Nat.lt_trichotomy k j) as [Lk|[->|Lk]].
      - rewrite nth_error_app1 by lia. rewrite nth_error_firstn'; auto.
        destruct (N1 k) as (d & Nd & Ed); [lia|]. rewrite Nd. symmetry.
        apply (columns_nth wm); auto. rewrite <- Ck by lia. auto.
      - rewrite nth_error_app2 by lia. rewrite Lf, Nat.sub_diag. simpl.
        destruct (N1 j) as (d & Nd & Ed); [lia|]. congruence.
      - rewrite nth_error_app2 by lia. rewrite Lf.
        replace (k - j) with (Datatypes.S (k - Datatypes.S j)) by lia.
        cbn [nth_error]. rewrite nth_error_skipn'.
        replace (Datatypes.S j + (k - Datatypes.S j)) with k by lia.
        destruct (Nat.lt_ge_cases k (ncols wm)) as [Lw|Lw].
        + destruct (N1 k) as (d & Nd & Ed); [lia|]. rewrite Nd. symmetry.
          apply (columns_nth wm); auto. rewrite <- Ck by lia. auto.
        + rewrite (proj2 (nth_error_None cs1 k)), (proj2 (nth_error_None cs k)) by lia. auto. }
    assert (Lf : length (firstn j cs) = j) by (apply firstn_length_le; lia).
    assert (Sk1 : skipn (Datatypes.S j) cs1 = skipn (Datatypes.S j) cs).
    { rewrite Ecs. rewrite skipn_app. rewrite skipn_all2 by lia. rewrite Lf.
      replace (Datatypes.S j - j) with 1 by lia. reflexivity. }
    assert (Fi1 : firstn (Datatypes.S j) cs1 = firstn j cs ++ [c1]).
    { rewrite Ecs. rewrite firstn_app. rewrite firstn_all2 by lia. rewrite Lf.
      replace (Datatypes.S j - j) with 1 by lia. reflexivity. }
    specialize (IH (Datatypes.S j) wm1 s1 (rand acc r) cs1 OK1 ltac:(lia) Ecs1).
    rewrite Sk1 in IH. change (match cs with [] => [] | _ :: l => skipn j l end) with (skipn (Datatypes.S j) cs).
    destruct (step_each o phi es (skipn (Datatypes.S j) cs) s1) as [[[s2 cs2] rs]|]; auto.
    destruct IH as (wm' & E' & OK' & R' & C' & Cs').
    exists wm'. splits; auto; try congruence.
    - rewrite E'. f_equal. f_equal. destruct acc as [[]|]; simpl; auto. destruct r as [[]|]; reflexivity.
    - rewrite Cs', Fi1, <- app_assoc. reflexivity.
  Qed.

  Lemma v_update_spec (KL : keeps_length o) v x es phi cs :
    matrix_ok (lfa_weights v) -> columns (lfa_weights v) = Ret cs ->
    b_project (lfa_basis v) x = Ret (Ok phi) ->
    match step_each o phi es cs (lfa_optimiser v) with
    | Panic => v_update o v x es = Panic
    | Ret (s', cs', rs) => exists wm', v_update o v x es = Ret (MkLFA (lfa_basis v) wm' s', first_error rs) /\
        matrix_ok wm' /\ nrows wm' = nrows (lfa_weights v) /\ ncols wm' = ncols (lfa_weights v) /\
        columns wm' = Ret cs'
    end.
  Proof.
    intros OK C P. unfold v_update. rewrite P. simpl.
    pose proof (update_columns_spec KL phi es 0 (lfa_weights v) (lfa_optimiser v) (Ok tt) cs OK
      (Nat.le_0_l _) C) as U. simpl in U.
    destruct (step_each o phi es cs (lfa_optimiser v)) as [[[s' cs'] rs]|].
    - destruct U as (wm' & E & R). rewrite E. simpl. exists wm'. split; auto.
    - rewrite U. reflexivity.
  Qed.

  (** *** step_each *)

  Lemma step_each_trace phi : forall es cs s s' cs' rs, step_each o phi es cs s = Ret (s', cs', rs) ->
    length cs' = length cs /\ length rs = Nat.min (length es) (length cs) /\
    (forall k, length rs <= k -> nth_error cs' k = nth_error cs k) /\
    exists ss, length ss = Datatypes.S (length rs) /\ nth_error ss 0 = Some s /\
      nth_error ss (length rs) = Some s' /\
      forall k, k < length rs -> exists c e c' r s1 s2,
        nth_error cs k = Some c /\ nth_error es k = Some e /\ nth_error cs' k = Some c' /\
        nth_error rs k = Some r /\ nth_error ss k = Some s1 /\ nth_error ss (Datatypes.S k) = Some s2 /\
        o_step_scaled o s1 c phi e = Ret (s2, c', r).
  Proof.
    induction es as [|e es IH]; intros [|c cs] s s' cs' rs E; cbn [step_each] in E.
    1,2,3: injection E as <- <- <-; splits; auto; exists [s]; splits; auto; simpl; intros; lia.
    destruct (o_step_scaled o s c phi e) as [[[s1 c1] r]|] eqn:St; [|discriminate].
    destruct (step_each o phi es cs s1) as [[[s2 cs2] rs2]|] eqn:Se; [|discriminate].
    injection E as <- <- <-. destruct (IH _ _ _ _ _ Se) as (L1 & L2 & N & ss & Ls & S0 & S1 & T).
    splits; simpl; auto.
    - intros [|k] Lk; [lia|]. simpl. apply N. lia.
    - exists (s :: ss). splits; simpl; auto. intros [|k] Lk; simpl.
      + exists c, e, c1, r, s, s1. splits; auto.
      + apply T. lia.
  Qed.

  Lemma step_each_surplus phi : forall es cs s,
    step_each o phi es cs s = step_each o phi (firstn (length cs) es) cs s.
  Proof.
    induction es as [|e es IH]; intros [|c cs] s; cbn [step_each firstn length]; auto.
    destruct (o_step_scaled o s c phi e) as [[[s1 c1] r]|]; auto. rewrite IH. reflexivity.
  Qed.

  Lemma first_error_Ok rs : first_error rs = Ok tt <-> Forall (fun r => r = Ok tt) rs.
  Proof.
    unfold first_error. induction rs as [|[[]|e] rs IH]; simpl.
    - split; auto.
    - rewrite IH. split; intros X; [constructor; auto|inversion X; auto].
    - split; [discriminate|]. intros X; inversion X; discriminate.
  Qed.

  Lemma first_error_Err rs e : first_error rs = Err e <->
    exists k, nth_error rs k = Some (Err e) /\ forall i, i < k -> nth_error rs i = Some (Ok tt).
  Proof.
    unfold first_error. induction rs as [|[[]|e'] rs IH]; simpl.
    - split; [discriminate|]. intros (k & E & _). destruct k; discriminate.
    - rewrite IH. split; intros (k & E & N).
      + exists (Datatypes.S k). split; auto. intros [|i] Li; auto. simpl. apply N. lia.
      + destruct k as [|k]; [discriminate|]. exists k. split; auto.
        intros i Li. apply (N (Datatypes.S i)). lia.
    - split.
      + injection 1 as ->. exists 0. split; auto. intros i Li. lia.
      + intros (k & E & N). destruct k as [|k]; simpl in E; [congruence|].
        specialize (N 0 ltac:(lia)). discriminate.
  Qed.

  (** *** update_index *)

  Lemma v_update_index_spec (KL : keeps_length o) v x j e c :
    matrix_ok (lfa_weights v) -> column (lfa_weights v) j = Ret c ->
    match s_update o (MkLFA (lfa_basis v) c (lfa_optimiser v)) x e with
    | Panic => v_update_index o v x j e = Panic
    | Ret (a', r) => exists v', v_update_index o v x j e = Ret (v', r) /\
        lfa_basis v' = lfa_basis v /\ lfa_optimiser v' = lfa_optimiser a' /\
        matrix_ok (lfa_weights v') /\ nrows (lfa_weights v') = nrows (lfa_weights v) /\
        ncols (lfa_weights v') = ncols (lfa_weights v) /\
        column (lfa_weights v') j = Ret (lfa_weights a') /\
        forall k, k <> j -> column (lfa_weights v') k = column (lfa_weights v) k
    end.
  Proof.
    intros OK C. destruct (column_Ret _ _ _ OK C) as [Lj Lc].
    unfold s_update, v_update_index. simpl.
    destruct (b_project (lfa_basis v) x) as [[phi|er]|]; simpl; auto.
    - rewrite C. simpl.
      destruct (o_step_scaled o (lfa_optimiser v) c phi e) as [[[s1 c1] r]|] eqn:St; simpl; auto.
      destruct (set_column_Ret (lfa_weights v) j c1 OK Lj) as (wm & E & OK' & R & Cn & Cj & Ck).
      { rewrite (KL _ _ _ _ _ _ _ St). auto. }
      rewrite E. simpl. exists (with_state v wm s1). splits; auto.
    - exists v. splits; auto.
  Qed.

  (** *** iteration *)

  Lemma it_collect_omapM phi : forall cs, it_collect (MkIter phi cs) = omapM (dot phi) cs.
  Proof.
    assert (G : forall n cs, length cs < n -> it_collect_n n (MkIter phi cs) = omapM (dot phi) cs).
    { induction n as [|n IH]; intros cs L; [lia|]. destruct cs as [|c cs]; auto. cbn [length] in L.
      cbn [it_collect_n omapM]. unfold it_next. cbn [it_lanes it_basis].
      destruct (dot phi c); cbn [obind]; auto. rewrite IH by lia. reflexivity. }
    intros cs. apply G. unfold it_len. simpl. lia.
  Qed.

  Lemma v_evaluate_matmul v x phi : matrix_ok (lfa_weights v) ->
    b_project (lfa_basis v) x = Ret (Ok phi) ->
    v_evaluate v x = let* vs := matmul phi (lfa_weights v) in Ret (Ok vs).
  Proof.
    intros OK P. unfold v_evaluate, v_try_iter, matmul. rewrite P. simpl.
    destruct (columns_Ret _ OK) as (cs & E & _). rewrite E. simpl.
    rewrite it_collect_omapM. reflexivity.
  Qed.

  Lemma advance_spec phi : forall k cs vs, omapM (dot phi) cs = Ret vs ->
    advance k (MkIter phi cs) = Ret (MkIter phi (skipn k cs)).
  Proof.
    induction k as [|k IH]; intros cs vs E; auto.
    cbn [advance]. unfold it_next. cbn [it_lanes it_basis].
    destruct cs as [|c cs].
    - simpl. rewrite (IH [] [] eq_refl). rewrite skipn_nil. reflexivity.
    - simpl in *. destruct (dot phi c); simpl in *; [|discriminate].
      destruct (omapM (dot phi) cs) eqn:E'; [|discriminate]. apply (IH cs a0 E').
  Qed.

  Lemma omapM_dot_ok phi n : forall cs, (forall c, In c cs -> length c = n) -> sized n phi ->
    (forall w, length w = n -> exists y, dot phi w = Ret y) ->
    exists vs, omapM (dot phi) cs = Ret vs.
  Proof.
    induction cs as [|c cs IH]; intros L Z D; simpl; eauto.
    destruct (D c) as [y Ey]; [apply L; left; auto|]. rewrite Ey. simpl.
    destruct IH as [vs E]; auto. { intros c' I'. apply L. right. auto. } rewrite E. simpl. eauto.
  Qed.

  (** *** shapes *)

  Lemma s_do_shape (KL : keeps_length o) a c a' : s_do o a c = Ret a' ->
    lfa_basis a' = lfa_basis a /\ length (lfa_weights a') = length (lfa_weights a).
  Proof.
    destruct c as [x|x e|x f]; simpl; unfold omap.
    - destruct (s_evaluate a x); simpl; [|discriminate]. injection 1 as <-. auto.
    - unfold s_update. destruct (b_project (lfa_basis a) x) as [[phi|er]|]; simpl; [| |discriminate].
      + destruct (o_step_scaled _ _ _ _ _) as [[[s1 w1] r]|] eqn:E; simpl; [|discriminate].
        injection 1 as <-. simpl. split; auto. eapply KL; eauto.
      + injection 1 as <-. auto.
    - unfold s_update_with. destruct (b_project (lfa_basis a) x) as [[phi|er]|]; simpl; [| |discriminate].
      + destruct (dot phi (lfa_weights a)); simpl; [|discriminate].
        destruct (o_step_scaled _ _ _ _ _) as [[[s1 w1] r]|] eqn:E; simpl; [|discriminate].
        injection 1 as <-. simpl. split; auto. eapply KL; eauto.
      + injection 1 as <-. auto.
  Qed.

  Lemma s_run_shape (KL : keeps_length o) cs : forall a a', s_run o cs a = Ret a' ->
    lfa_basis a' = lfa_basis a /\ length (lfa_weights a') = length (lfa_weights a).
  Proof.
    unfold s_run. induction cs as [|c cs IH]; simpl; intros a a' E; [injection E as <-; auto|].
    destruct (s_do o a c) as [a1|] eqn:E1; simpl in E; [|discriminate].
    apply s_do_shape in E1; auto. apply IH in E. destruct E1, E. split; congruence.
  Qed.

  Definition same_shape (wm wm' : matrix F) : Prop :=
    matrix_ok wm' /\ nrows wm' = nrows wm /\ ncols wm' = ncols wm.

  Lemma update_columns_shape (KL : keeps_length o) phi es wm s s' wm' r : matrix_ok wm ->
    update_columns o phi es 0 wm s (Ok tt) = Ret (s', wm', r) -> same_shape wm wm'.
  Proof.
    intros OK E. destruct (columns_Ret wm OK) as (cs & C & _).
    pose proof (update_columns_spec KL phi es 0 wm s (Ok tt) cs OK (Nat.le_0_l _) C) as U.
    destruct (step_each _ _ _ _ _) as [[[s1 cs1] rs]|]; [|congruence].
    destruct U as (wm1 & E1 & A & B & D & _). rewrite E1 in E. injection E as <- <- <-.
    split; auto.
  Qed.

  Lemma v_do_shape (KL : keeps_length o) v c v' : matrix_ok (lfa_weights v) -> v_do o v c = Ret v' ->
    lfa_basis v' = lfa_basis v /\ same_shape (lfa_weights v) (lfa_weights v').
  Proof.
    intros OK. assert (Same : lfa_basis v = lfa_basis v /\ same_shape (lfa_weights v) (lfa_weights v))
      by (unfold same_shape; auto).
    destruct c as [x|x j|x es|x j e|x f]; simpl; unfold omap.
    - destruct (v_evaluate v x); simpl; [|discriminate]. injection 1 as <-. auto.
    - destruct (v_evaluate_index v x j); simpl; [|discriminate]. injection 1 as <-. auto.
    - unfold v_update. destruct (b_project (lfa_basis v) x) as [[phi|er]|]; simpl; [| |discriminate].
      + destruct (update_columns _ _ _ _ _ _ _) as [[[s1 w1] r]|] eqn:E; simpl; [|discriminate].
        injection 1 as <-. simpl. split; auto. eapply update_columns_shape; eauto.
      + injection 1 as <-. auto.
    - intros E. destruct (column (lfa_weights v) j) as [c|] eqn:C.
      + pose proof (v_update_index_spec KL v x j e c OK C) as U.
        destruct (s_update _ _ _ _) as [[a' r]|].
        * destruct U as (v1 & E1 & B & _ & A). rewrite E1 in E. injection E as <-.
          split; auto. unfold same_shape. tauto.
        * rewrite U in E. discriminate.
      + revert E. unfold v_update_index.
        destruct (b_project (lfa_basis v) x) as [[phi|er]|]; simpl; [| |discriminate].
        * rewrite C. discriminate.
        * injection 1 as <-. auto.
    - unfold v_update_with. destruct (b_project (lfa_basis v) x) as [[phi|er]|]; simpl; [| |discriminate].
      + destruct (matmul phi (lfa_weights v)); simpl; [|discriminate].
        destruct (update_columns _ _ _ _ _ _ _) as [[[s1 w1] r]|] eqn:E; simpl; [|discriminate].
        injection 1 as <-. simpl. split; auto. eapply update_columns_shape; eauto.
      + injection 1 as <-. auto.
  Qed.

  Lemma v_run_shape (KL : keeps_length o) cs : forall v v', matrix_ok (lfa_weights v) ->
    v_run o cs v = Ret v' ->
    lfa_basis v' = lfa_basis v /\ same_shape (lfa_weights v) (lfa_weights v').
  Proof.
    unfold v_run. induction cs as [|c cs IH]; simpl; intros v v' OK E.
    { injection E as <-. unfold same_shape. auto. }
    destruct (v_do o v c) as [v1|] eqn:E1; simpl in E; [|discriminate].
    apply v_do_shape in E1; auto. destruct E1 as [B1 (O1 & R1 & C1)].
    apply IH in E; auto. destruct E as [B2 (O2 & R2 & C2)]. unfold same_shape.
    splits; auto; congruence.
  Qed.

  (** *** independent columns *)

  Lemma step_each_column (ML : memoryless o) phi : forall es cs s s' cs' rs j c,
    step_each o phi es cs s = Ret (s', cs', rs) -> nth_error cs j = Some c ->
    s' = s /\
    match nth_error es j with
    | None => nth_error cs' j = Some c
    | Some e => exists c' r, o_step_scaled o s c phi e = Ret (s, c', r) /\ nth_error cs' j = Some c'
    end.
  Proof.
    induction es as [|e es IH]; intros [|c0 cs] s s' cs' rs j c E N; cbn [step_each] in E;
      try (destruct j; discriminate N).
    { injection E as <- <- <-. split; auto. destruct j; auto. }
    destruct (o_step_scaled o s c0 phi e) as [[[s1 c1] r]|] eqn:St; [|discriminate].
    assert (s1 = s) by (eapply ML; eauto). subst s1.
    destruct (step_each o phi es cs s) as [[[s2 cs2] rs2]|] eqn:Se; [|discriminate].
    injection E as <- <- <-. destruct j as [|j]; simpl in N |- *.
    - injection N as <-. split; eauto. destruct cs as [|c2 cs]; [|eapply (IH _ _ _ _ _ 0); eauto; reflexivity].
      destruct es; simpl in Se; congruence.
    - eapply IH; eauto.
  Qed.

  Lemma v_train_column (KL : keeps_length o) (ML : memoryless o) h : forall v v' j c,
    matrix_ok (lfa_weights v) -> column (lfa_weights v) j = Ret c ->
    v_train o h v = Ret v' ->
    exists c', column (lfa_weights v') j = Ret c' /\
      s_train o (errors_of j h) (MkLFA (lfa_basis v) c (lfa_optimiser v)) =
        Ret (MkLFA (lfa_basis v) c' (lfa_optimiser v)) /\ lfa_optimiser v' = lfa_optimiser v.
  Proof.
    unfold v_train, v_run, s_train, s_run.
    induction h as [|[x es] h IH]; simpl; intros v v' j c OK C E.
    { injection E as <-. eauto. }
    destruct (omap fst (v_update o v x es)) as [v1|] eqn:E1; simpl in E; [|discriminate].
    assert (V : lfa_basis v1 = lfa_basis v /\ same_shape (lfa_weights v) (lfa_weights v1)).
    { apply (v_do_shape KL v (VUpdate x es)); auto. }
    destruct V as [B1 (OK1 & R1 & C1)].
    (* the one step *)
    assert (St : lfa_optimiser v1 = lfa_optimiser v /\ exists c1, column (lfa_weights v1) j = Ret c1 /\
       ofold (s_do o) (map (fun p => SUpdate (fst p) (snd p))
          match nth_error es j with Some e => [(x, e)] | None => [] end)
          (MkLFA (lfa_basis v) c (lfa_optimiser v)) = Ret (MkLFA (lfa_basis v) c1 (lfa_optimiser v))).
    { unfold omap in E1. destruct (v_update o v x es) as [[v2 r2]|] eqn:Ev; simpl in E1; [|discriminate].
      injection E1 as ->.
      destruct (b_project (lfa_basis v) x) as [[phi|er]|] eqn:P.
      - destruct (columns_Ret _ OK) as (cs & Cs & _).
        pose proof (v_update_spec KL v x es phi cs OK Cs P) as U.
        destruct (step_each o phi es cs (lfa_optimiser v)) as [[[s' cs'] rs]|] eqn:Se; [|congruence].
        destruct U as (wm' & Ew & OKw & Rw & Cw & Csw). rewrite Ew in Ev. injection Ev as <- <-.
        apply (columns_nth _ _ _ _ OK Cs) in C.
        destruct (step_each_column ML _ _ _ _ _ _ _ j c Se C) as [Es Nj]. simpl. subst s'. split; auto.
        destruct (nth_error es j) as [e|].
        + destruct Nj as (c1 & r & Est & Nc). exists c1. split; [apply (columns_nth _ _ _ _ OKw Csw); auto|].
          simpl. unfold omap, s_update. simpl. rewrite P. simpl. rewrite Est. reflexivity.
        + exists c. split; [apply (columns_nth _ _ _ _ OKw Csw); auto|]. reflexivity.
      - unfold v_update in Ev. rewrite P in Ev. simpl in Ev. injection Ev as <- <-. split; auto.
        exists c. split; auto. destruct (nth_error es j) as [e|]; auto.
        simpl. unfold omap, s_update. simpl. rewrite P. reflexivity.
      - unfold v_update in Ev. rewrite P in Ev. discriminate. }
    destruct St as (So & c1 & Cj & Sf).
    destruct (IH v1 v' j c1 OK1 Cj E) as (c' & Cj' & Sr & So'). rewrite B1, So in Sr.
    exists c'. split; auto. split; [|congruence].
    rewrite map_app, ofold_app, Sf. simpl. exact Sr.
  Qed.
End Update.

Lemma lib_memoryless {F} `{Scalar F} lr : forall w phi e s' w' r,
  (o_step_scaled SGD lr w phi e = Ret (s', w', r) -> s' = lr) /\
  (o_step_scaled ISGD lr w phi e = Ret (s', w', r) -> s' = lr).
Proof.
  intros w phi e s' w' r. simpl. unfold sgd_step_scaled, isgd_step_scaled.
  split; destruct (scaled_addto _ _ _); simpl; congruence.
Qed.

Lemma sgd_memoryless {F} `{Scalar F} : memoryless SGD.
Proof. intros s w phi e s' w' r E. exact (proj1 (lib_memoryless s w phi e s' w' r) E). Qed.
Lemma isgd_memoryless {F} `{Scalar F} : memoryless ISGD.
Proof. intros s w phi e s' w' r E. exact (proj2 (lib_memoryless s w phi e s' w' r) E). Qed.

Lemma sgd_keeps_length {F} `{Scalar F} : keeps_length SGD.
Proof.
  intros s w phi e s' w' r E. simpl in E. apply (lib_keeps_length (LSGD s) w phi e (LSGD s') w' r).
  simpl. rewrite E. reflexivity.
Qed.
Lemma isgd_keeps_length {F} `{Scalar F} : keeps_length ISGD.
Proof.
  intros s w phi e s' w' r E. simpl in E. apply (lib_keeps_length (LISGD s) w phi e (LISGD s') w' r).
  simpl. rewrite E. reflexivity.
Qed.
