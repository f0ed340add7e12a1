(** The coefficient enumeration lists every non-zero vector once, in order. *)
From Coq Require Import List Arith Lia Bool Sorted.
From Verif Require Import VecFacts FeatureFacts Coeffs.
Import ListNotations.

(** Lexicographic order: at the first difference the left one is smaller. *)
Definition lex_lt (a b : list nat) : Prop :=
  exists p x y s t, a = p ++ x :: s /\ b = p ++ y :: t /\ x < y.

Lemma lex_lt_head x y a b : x < y -> lex_lt (x :: a) (y :: b).
Proof. intros L. exists [], x, y, a, b. auto. Qed.

Lemma lex_lt_cons x a b : lex_lt a b -> lex_lt (x :: a) (x :: b).
Proof. intros (p & u & v & s & t & -> & -> & L). exists (x :: p), u, v, s, t. auto. Qed.

Lemma lex_compare_lt a b : lex_lt a b -> lex_compare a b = Lt.
Proof.
  intros (p & x & y & s & t & -> & -> & L). induction p as [|z p IH]; simpl.
  - apply Nat.compare_lt_iff in L. rewrite L. reflexivity.
  - rewrite Nat.compare_refl. exact IH.
Qed.

Lemma lex_lt_irrefl a : ~ lex_lt a a.
Proof.
  intros L. apply lex_compare_lt in L. induction a as [|x a IH]; simpl in L; [discriminate|].
  rewrite Nat.compare_refl in L. auto.
Qed.

Lemma sorted_map_cons x l : StronglySorted lex_lt l -> StronglySorted lex_lt (map (cons x) l).
Proof.
  induction 1 as [|a l S IH Fa]; simpl; constructor; auto.
  rewrite Forall_forall in *. intros b I. apply in_map_iff in I. destruct I as (c & <- & I).
  apply lex_lt_cons, Fa, I.
Qed.

Lemma sorted_app (a b : list (list nat)) : StronglySorted lex_lt a -> StronglySorted lex_lt b ->
  (forall x y, In x a -> In y b -> lex_lt x y) -> StronglySorted lex_lt (a ++ b).
Proof.
  induction 1 as [|x a S IH Fa]; simpl; intros Sb C; auto. constructor.
  - apply IH; auto.
  - rewrite Forall_app. split; auto. rewrite Forall_forall. intros y I. apply C; auto.
Qed.

Lemma product_sorted ls : Forall (StronglySorted lt) ls -> StronglySorted lex_lt (multi_product ls).
Proof.
  induction 1 as [|l ls Sl Fls IH]; simpl.
  - repeat constructor.
  - induction Sl as [|x l Sl IHl Fx]; simpl; [constructor|].
    apply sorted_app; auto.
    + apply sorted_map_cons, IH.
    + intros a b Ia Ib. apply in_map_iff in Ia. destruct Ia as (a' & <- & _).
      apply in_flat_map in Ib. destruct Ib as (y & Iy & Ib). apply in_map_iff in Ib.
      destruct Ib as (b' & <- & _). apply lex_lt_head.
      rewrite Forall_forall in Fx. apply Fx, Iy.
Qed.

Lemma product_in ls v : In v (multi_product ls) <-> Forall2 (@In nat) v ls.
Proof.
  revert v. induction ls as [|l ls IH]; simpl; intros v.
  - split; [intros [<-|[]]; constructor|]. intros E. inversion E. auto.
  - rewrite in_flat_map. split.
    + intros (x & I & J). apply in_map_iff in J. destruct J as (w & <- & J).
      constructor; auto. apply IH, J.
    + intros E. inversion E; subst. exists x. split; auto. apply in_map_iff.
      exists l0. split; auto. apply IH. auto.
Qed.

Lemma product_length {A} (ls : list (list A)) :
  length (multi_product ls) = fold_right Nat.mul 1 (map (@length A) ls).
Proof.
  induction ls as [|l ls IH]; simpl; auto. rewrite <- IH. clear IH.
  induction l as [|x l IHl]; simpl; auto. rewrite app_length, map_length, IHl. reflexivity.
Qed.

Lemma product_head ls hs : Forall2 (fun h l => exists t, l = h :: t) hs ls ->
  exists r, @multi_product nat ls = hs :: r.
Proof.
  induction 1 as [|h l hs ls (t & ->) Fs IH]; simpl; eauto.
  destruct IH as (r & ->). simpl. eauto.
Qed.

Lemma lex_sort_id l : StronglySorted lex_lt l -> lex_sort l = l.
Proof.
  induction 1 as [|x l S IH Fx]; simpl; auto. rewrite IH. destruct l as [|y l]; auto.
  simpl. inversion Fx; subst. unfold lex_leb. rewrite lex_compare_lt; auto.
Qed.

Lemma dedup_id l : StronglySorted lex_lt l -> dedup l = l.
Proof.
  intros S. destruct l as [|x l]; auto. simpl. f_equal. revert x S.
  induction l as [|y l IH]; intros x S; auto.
  simpl. inversion S as [|? ? S' Fx]; subst. inversion Fx; subst.
  unfold vec_nat_eqb. rewrite lex_compare_lt by assumption. f_equal. apply IH, S'.
Qed.

Lemma seq_sorted n : forall a, StronglySorted lt (seq a n).
Proof.
  induction n as [|n IH]; simpl; intros a; constructor; auto.
  rewrite Forall_forall. intros x I. apply in_seq in I. lia.
Qed.

Lemma compute_coefficients_skip order dim :
  exists r, multi_product (repeat (seq 0 (S order)) dim) = repeat 0 dim :: r /\
    compute_coefficients order dim = r /\ StronglySorted lex_lt (repeat 0 dim :: r).
Proof.
  destruct (product_head (repeat (seq 0 (S order)) dim) (repeat 0 dim)) as (r & E).
  { induction dim; simpl; constructor; eauto. }
  assert (Sr : StronglySorted lex_lt (repeat 0 dim :: r)).
  { rewrite <- E. apply product_sorted. apply Forall_forall. intros l I.
    apply repeat_spec in I. subst l. apply seq_sorted. }
  exists r. splits; auto. unfold compute_coefficients.
  replace (skipn 1 (cartesian_product (repeat (seq 0 (S order)) dim))) with r.
  2: { destruct dim; [simpl in E; injection E as <-; reflexivity|].
       change (cartesian_product (repeat (seq 0 (S order)) (S dim))) with (multi_product (repeat (seq 0 (S order)) (S dim))).
       rewrite E. reflexivity. }
  inversion Sr; subst. rewrite lex_sort_id, dedup_id; auto.
Qed.

Lemma forall2_repeat v l (n : nat) : Forall2 (@In nat) v (repeat l n) <->
  length v = n /\ Forall (fun k => In k l) v.
Proof.
  revert n. induction v as [|x v IH]; intros [|n]; simpl; split.
  - intros _. auto.
  - constructor.
  - intros E. inversion E.
  - intros [E _]. discriminate.
  - intros E. inversion E.
  - intros [E _]. discriminate.
  - intros E. inversion E; subst. apply IH in H4. split; [|constructor]; intuition.
  - intros [E Fa]. inversion Fa; subst. constructor; auto. apply IH. split; auto.
Qed.

Theorem compute_coefficients_spec order dim :
  (forall v, In v (compute_coefficients order dim) <->
     length v = dim /\ Forall (fun k => k <= order) v /\ exists k, In k v /\ k <> 0) /\
  StronglySorted lex_lt (compute_coefficients order dim) /\
  NoDup (compute_coefficients order dim) /\
  length (compute_coefficients order dim) = (order + 1) ^ dim - 1.
Proof.
  destruct (compute_coefficients_skip order dim) as (r & E & -> & S). splits.
  - intros v.
    assert (M : In v (repeat 0 dim :: r) <-> length v = dim /\ Forall (fun k => k <= order) v).
    { rewrite <- E, product_in, forall2_repeat. split; intros [L Fa]; split; auto;
        rewrite Forall_forall in *; intros k I; specialize (Fa k I); rewrite in_seq in *; lia. }
    simpl in M. split.
    + intros I. destruct M as [M _]. destruct M as [L Fa]; auto. splits; auto.
      destruct (Exists_dec (fun k => k <> 0) v) as [Ex|Ex].
      { intros k. destruct (Nat.eq_dec k 0); auto. }
      * apply Exists_exists in Ex. exact Ex.
      * exfalso.
        assert (v = repeat 0 dim).
        { subst dim. clear -Ex. induction v as [|k v IH]; simpl; auto.
          f_equal; [|apply IH; intros C; apply Ex; auto].
          destruct (Nat.eq_dec k 0); auto. exfalso. apply Ex. auto. }
        subst v. inversion S as [|? ? _ Fr]; subst. rewrite Forall_forall in Fr.
        apply (lex_lt_irrefl (repeat 0 dim)), Fr, I.
    + intros (L & Fa & k & I & N). destruct M as [_ M]. destruct M as [Z|I']; auto.
      exfalso. subst v. apply repeat_spec in I. contradiction.
  - inversion S; auto.
  - inversion S as [|? ? Sr _]; subst. clear -Sr. induction Sr as [|x l S IH Fx]; constructor; auto.
    intros I. rewrite Forall_forall in Fx. apply (lex_lt_irrefl x), Fx, I.
  - assert (L := product_length (repeat (seq 0 (Datatypes.S order)) dim)). rewrite E in L. simpl in L.
    assert (P : fold_right Nat.mul 1 (map (@length nat) (repeat (seq 0 (Datatypes.S order)) dim)) = (order + 1) ^ dim).
    { clear. induction dim as [|d IH]; cbn [repeat map fold_right Nat.pow]; auto.
      rewrite IH, seq_length. f_equal. lia. }
    cbn [seq] in P. rewrite P in L. lia.
Qed.
