(** The sort and the dedup of the coefficient enumeration, on any list (C19). *)
From Coq Require Import List Arith Lia Bool Sorted Permutation.
From Verif Require Import VecFacts FeatureFacts Coeffs CoeffFacts.
Import ListNotations.

Lemma lex_compare_eq : forall a b, lex_compare a b = Eq <-> a = b.
Proof.
  induction a as [|x a IH]; intros [|y b]; cbn [lex_compare]; try (split; congruence).
  destruct (Nat.compare_spec x y) as [->|L|L]; rewrite ?IH; split; try congruence; intros E; injection E; intros; subst; lia.
Qed.

Lemma lex_compare_sides : forall a b, length a = length b ->
  (lex_compare a b = Lt -> lex_lt a b) /\ (lex_compare a b = Gt -> lex_lt b a).
Proof.
  induction a as [|x a IH]; intros [|y b] L; cbn [length lex_compare] in *; try discriminate; [split; discriminate|].
  destruct (IH b ltac:(lia)) as [A B]. destruct (Nat.compare_spec x y) as [->|C|C].
  - split; intros E; apply lex_lt_cons; auto.
  - split; [intros _; now apply lex_lt_head|discriminate].
  - split; [discriminate|intros _; now apply lex_lt_head].
Qed.

Lemma lex_lt_trans a b c : length a = length b -> length b = length c -> lex_lt a b -> lex_lt b c -> lex_lt a c.
Proof.
  intros L1 L2 A B. apply lex_compare_lt in A. apply lex_compare_lt in B.
  assert (T : lex_compare a c = Lt).
  { revert b c L1 L2 A B. induction a as [|x a IH]; intros [|y b] [|z c] L1 L2 A B; cbn [length lex_compare] in *; try discriminate.
    destruct (Nat.compare_spec x y) as [->|C|C]; try discriminate; destruct (Nat.compare_spec y z) as [->|D|D]; try discriminate.
    - apply (IH b c); auto; lia.
    - reflexivity.
    - apply Nat.compare_lt_iff in C. now rewrite C.
    - assert (x < z) as E by lia. apply Nat.compare_lt_iff in E. now rewrite E. }
  exact (proj1 (lex_compare_sides a c (eq_trans L1 L2)) T).
Qed.

Lemma lex_insert_perm x l : Permutation (lex_insert x l) (x :: l).
Proof.
  induction l as [|y l IH]; cbn [lex_insert]; auto. destruct (lex_leb x y); auto.
  transitivity (y :: x :: l); [now constructor|constructor].
Qed.

Lemma lex_sort_perm l : Permutation (lex_sort l) l.
Proof.
  induction l as [|x l IH]; cbn [lex_sort]; auto. etransitivity; [apply lex_insert_perm|]. now constructor.
Qed.

Definition lex_le (a b : list nat) : Prop := a = b \/ lex_lt a b.

Lemma lex_leb_le a b : length a = length b -> (lex_leb a b = true -> lex_le a b) /\ (lex_leb a b = false -> lex_lt b a).
Proof.
  intros L. unfold lex_leb. destruct (lex_compare_sides a b L) as [A B]. pose proof (lex_compare_eq a b) as E.
  destruct (lex_compare a b); split; intros H; try discriminate; auto; [left; now apply E|right; auto].
Qed.

Lemma lex_le_trans a b c : length a = length b -> length b = length c -> lex_le a b -> lex_le b c -> lex_le a c.
Proof.
  intros L1 L2 [->|A] [->|B]; [left; auto|right; auto|right; auto|]. right. eapply lex_lt_trans; [| |exact A|exact B]; auto.
Qed.

Lemma lex_insert_sorted d x l : length x = d -> Forall (fun v => length v = d) l -> StronglySorted lex_le l -> StronglySorted lex_le (lex_insert x l).
Proof.
  intros Lx. induction l as [|y l IH]; intros Fl S; cbn [lex_insert]; [repeat constructor|].
  inversion Fl as [|? ? Ly Fl']; subst. inversion S as [|? ? S' Fy]; subst.
  destruct (lex_leb x y) eqn:E.
  - apply (lex_leb_le x y) in E; [|congruence]. constructor; auto. constructor; auto.
    rewrite Forall_forall in *. intros v Iv. eapply lex_le_trans; [| |exact E|apply Fy, Iv]; [congruence|]. rewrite Ly. symmetry. now apply Fl'.
  - apply (lex_leb_le x y) in E; [|congruence]. constructor; [apply IH; auto|].
    apply Forall_forall. intros v Iv. apply (Permutation_in _ (lex_insert_perm x l)) in Iv. destruct Iv as [<-|Iv]; [now right|].
    rewrite Forall_forall in Fy. now apply Fy.
Qed.

Lemma lex_sort_sorted d l : Forall (fun v => length v = d) l -> StronglySorted lex_le (lex_sort l).
Proof.
  induction l as [|x l IH]; intros Fl; cbn [lex_sort]; [constructor|]. inversion Fl; subst. apply (lex_insert_sorted (length x)); auto.
  eapply Permutation_Forall; [apply Permutation_sym, lex_sort_perm|assumption].
Qed.

Lemma vec_nat_eqb_spec a b : vec_nat_eqb a b = true <-> a = b.
Proof.
  unfold vec_nat_eqb. rewrite <- lex_compare_eq. destruct (lex_compare a b); split; congruence.
Qed.

Lemma dedup_from_in v : forall l prev, In v (dedup_from prev l) \/ v = prev <-> In v l \/ v = prev.
Proof.
  induction l as [|x l IH]; intros prev; cbn [dedup_from]; [tauto|]. destruct (vec_nat_eqb prev x) eqn:E.
  - apply vec_nat_eqb_spec in E. subst x. rewrite IH. cbn [In]. intuition congruence.
  - specialize (IH x). cbn [In]. intuition congruence.
Qed.

Lemma dedup_in v l : In v (dedup l) <-> In v l.
Proof.
  destruct l as [|x l]; cbn [dedup]; [tauto|]. pose proof (dedup_from_in v l x) as D. cbn [In]. intuition congruence.
Qed.

Lemma dedup_from_sorted d : forall l prev, Forall (fun v => length v = d) (prev :: l) -> StronglySorted lex_le (prev :: l) ->
  StronglySorted lex_lt (prev :: dedup_from prev l).
Proof.
  induction l as [|x l IH]; intros prev Fl S; cbn [dedup_from]; [repeat constructor|].
  inversion Fl as [|? ? Lp Fl']; subst. inversion Fl' as [|? ? Lx Fl'']; subst. inversion S as [|? ? S' Fp]; subst. inversion S' as [|? ? S'' Fx]; subst.
  destruct (vec_nat_eqb prev x) eqn:E.
  - apply vec_nat_eqb_spec in E. subst x. apply IH; auto.
  - assert (Sx : StronglySorted lex_lt (x :: dedup_from x l)) by (apply IH; auto). constructor; [exact Sx|].
    assert (Px : lex_lt prev x).
    { inversion Fp as [|? ? Q ?]; subst. destruct Q as [Q|Q]; auto. subst. rewrite (proj2 (vec_nat_eqb_spec x x) eq_refl) in E. discriminate. }
    constructor; [exact Px|]. inversion Sx as [|? ? _ Fd]; subst. rewrite Forall_forall in *. intros v Iv.
    assert (Lv : length v = length prev).
    { destruct (proj1 (dedup_from_in v l x) (or_introl Iv)) as [I|I]; [now apply Fl''|subst v; exact Lx]. }
    eapply lex_lt_trans; [| |exact Px|apply Fd, Iv]; congruence.
Qed.

Theorem sort_dedup d l : Forall (fun v => length v = d) l ->
  StronglySorted lex_lt (dedup (lex_sort l)) /\ forall v, In v (dedup (lex_sort l)) <-> In v l.
Proof.
  intros Fl. split.
  - pose proof (lex_sort_sorted d l Fl) as S. assert (Fs : Forall (fun v => length v = d) (lex_sort l)) by (eapply Permutation_Forall; [apply Permutation_sym, lex_sort_perm|exact Fl]).
    destruct (lex_sort l) as [|x r]; cbn [dedup]; [constructor|]. apply (dedup_from_sorted d); auto.
  - intros v. rewrite dedup_in. split; apply Permutation_in; [apply lex_sort_perm|apply Permutation_sym, lex_sort_perm].
Qed.
