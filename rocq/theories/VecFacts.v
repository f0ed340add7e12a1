(** Facts about vectors and loops over them. *)
From Coq Require Import List Arith Lia Permutation.
From Verif Require Import Base Scalar HMap HMapFacts NdArray.
Import ListNotations.

Lemma nth_error_ext {A} (l l' : list A) :
  (forall i, nth_error l i = nth_error l' i) -> l = l'.
Proof.
  revert l'. induction l as [|x l IH]; intros [|y l'] E; auto.
  - specialize (E 0). discriminate.
  - specialize (E 0). discriminate.
  - f_equal.
    + specialize (E 0). simpl in E. congruence.
    + apply IH. intros i. apply (E (S i)).
Qed.

Lemma nth_error_map' {A B} (f : A -> B) l i :
  nth_error (map f l) i = option_map f (nth_error l i).
Proof. revert i. induction l; intros [|i]; simpl; auto. Qed.

Lemma nth_error_repeat' {A} (x : A) n i :
  nth_error (repeat x n) i = if i <? n then Some x else None.
Proof.
  revert i. induction n; intros [|i]; simpl; auto.
  rewrite IHn. reflexivity.
Qed.

Lemma nth_error_lt {A} (l : list A) i : i < length l -> exists x, nth_error l i = Some x.
Proof.
  intros L. destruct (nth_error l i) eqn:E; eauto.
  apply nth_error_None in E. lia.
Qed.

Lemma nth_error_seq n i : nth_error (seq 0 n) i = if i <? n then Some i else None.
Proof.
  destruct (Nat.ltb_spec i n).
  - rewrite (nth_error_nth' _ 0) by (rewrite seq_length; lia).
    rewrite seq_nth; auto.
  - apply nth_error_None. rewrite seq_length. lia.
Qed.

Lemma nth_error_map2 {A B C} (f : A -> B -> C) xs ys i :
  nth_error (map2 f xs ys) i =
  match nth_error xs i, nth_error ys i with
  | Some x, Some y => Some (f x y)
  | _, _ => None
  end.
Proof.
  revert ys i. induction xs as [|x xs IH]; intros [|y ys] [|i]; simpl; auto.
  destruct (nth_error xs i); auto.
Qed.

Lemma map2_length {A B C} (f : A -> B -> C) xs ys :
  length (map2 f xs ys) = Nat.min (length xs) (length ys).
Proof. revert ys. induction xs; intros [|y ys]; simpl; auto. Qed.

Lemma map2_length_eq {A B C} (f : A -> B -> C) xs ys :
  length xs = length ys -> length (map2 f xs ys) = length xs.
Proof. intros E. rewrite map2_length. lia. Qed.

(** ** vget / vupd *)

Lemma vget_lt {A} (l : list A) i : i < length l -> exists x, vget l i = Ret x /\ nth_error l i = Some x.
Proof. intros L. unfold vget. destruct (nth_error_lt l i L) as [x E]. rewrite E. eauto. Qed.

Lemma vget_ge {A} (l : list A) i : length l <= i -> vget l i = Panic.
Proof. intros L. unfold vget. rewrite (proj2 (nth_error_None l i) L). reflexivity. Qed.

Lemma vget_Ret {A} (l : list A) i x : vget l i = Ret x <-> nth_error l i = Some x.
Proof. unfold vget. destruct (nth_error l i); split; congruence. Qed.

Lemma vupd_lt {A} (f : A -> A) : forall l i, i < length l -> exists l',
  vupd l i f = Ret l' /\ length l' = length l /\
  forall k, nth_error l' k = if k =? i then option_map f (nth_error l k) else nth_error l k.
Proof.
  induction l as [|x l IH]; simpl; intros i L; [lia|].
  destruct i as [|i].
  - exists (f x :: l). repeat split; auto. intros [|k]; reflexivity.
  - destruct (IH i ltac:(lia)) as (l' & E & Len & N). rewrite E. simpl.
    exists (x :: l'). repeat split; simpl; auto. intros [|k]; simpl; auto.
Qed.

Lemma vupd_ge {A} (f : A -> A) : forall l i, length l <= i -> vupd l i f = Panic.
Proof.
  induction l as [|x l IH]; simpl; intros i L; auto.
  destruct i as [|i]; [lia|]. rewrite IH by lia. reflexivity.
Qed.

Lemma vupd_Ret {A} (f : A -> A) l i l' : vupd l i f = Ret l' ->
  i < length l /\ length l' = length l /\
  forall k, nth_error l' k = if k =? i then option_map f (nth_error l k) else nth_error l k.
Proof.
  intros E. destruct (Nat.lt_ge_cases i (length l)) as [L|L].
  - destruct (vupd_lt f l i L) as (l2 & E2 & P). rewrite E2 in E. inversion E; subst. auto.
  - rewrite vupd_ge in E by assumption. discriminate.
Qed.

Lemma vset_lt {A} (v : A) : forall l i, i < length l -> exists l',
  vset l i v = Ret l' /\ length l' = length l /\
  forall k, nth_error l' k = if k =? i then Some v else nth_error l k.
Proof.
  intros l i L. destruct (vupd_lt (fun _ => v) l i L) as (l' & E & Len & N).
  exists l'. repeat split; auto. intros k. rewrite N.
  destruct (Nat.eqb_spec k i) as [->|]; auto.
  destruct (nth_error_lt l i L) as [x X]. rewrite X. reflexivity.
Qed.

Lemma vset_ge {A} (v : A) l i : length l <= i -> vset l i v = Panic.
Proof. apply vupd_ge. Qed.

(** ** The loop over a map: [for (i, a) in m { l[i] = g(a, l[i]) }] *)

Section Loop.
  Context {A F : Type} (g : F -> A -> A).
  Definition upd_loop (m : hmap F) (l : list A) : outcome (list A) :=
    ofold (fun p kv => vupd p (fst kv) (g (snd kv))) m l.

  Lemma upd_loop_Ret : forall (m : hmap F) (l : list A), hm_ok m ->
    (forall k, In k (hm_keys m) -> k < length l) ->
    exists l', upd_loop m l = Ret l' /\ length l' = length l /\
      forall k, nth_error l' k =
        match hm_get m k with
        | Some v => option_map (g v) (nth_error l k)
        | None => nth_error l k
        end.
  Proof.
    unfold upd_loop, hm_ok. induction m as [|[i v] m IH]; simpl; intros l ND B.
    - exists l. auto.
    - inversion ND; subst.
      destruct (vupd_lt (g v) l i) as (l1 & E1 & Len1 & N1); [apply B; auto|].
      rewrite E1. simpl.
      destruct (IH l1 H2) as (l2 & E2 & Len2 & N2).
      { intros k K. rewrite Len1. apply B. auto. }
      exists l2. rewrite E2. repeat split; try congruence.
      intros k. rewrite N2, N1. rewrite (Nat.eqb_sym i k).
      destruct (Nat.eqb_spec k i) as [->|]; auto.
      apply hm_get_None in H1. rewrite H1. reflexivity.
  Qed.

  Lemma upd_loop_Panic : forall (m : hmap F) (l : list A) k,
    In k (hm_keys m) -> length l <= k -> upd_loop m l = Panic.
  Proof.
    unfold upd_loop. induction m as [|[i v] m IH]; simpl; intros l k HI L; [tauto|].
    destruct (vupd l i (g v)) as [l1|] eqn:E; auto. simpl.
    destruct HI as [->|HI].
    - rewrite vupd_ge in E by assumption. discriminate.
    - apply vupd_Ret in E. destruct E as (_ & E & _). apply IH with k; auto. lia.
  Qed.

  Lemma upd_loop_Ret_iff m l : hm_ok m ->
    ((exists l', upd_loop m l = Ret l') <-> forall k, In k (hm_keys m) -> k < length l).
  Proof.
    intros ok. split.
    - intros [l' E] k K. destruct (Nat.lt_ge_cases k (length l)) as [|L]; auto.
      rewrite (upd_loop_Panic m l k K L) in E. discriminate.
    - intros B. destruct (upd_loop_Ret m l ok B) as (l' & E & _). eauto.
  Qed.

  Lemma upd_loop_perm m m' l : hm_ok m -> Permutation m m' -> upd_loop m l = upd_loop m' l.
  Proof.
    intros ok P. assert (ok' := hm_ok_perm _ _ P ok).
    assert (K : forall k, In k (hm_keys m) <-> In k (hm_keys m')).
    { intros k. split; apply Permutation_in; [|apply Permutation_sym]; apply Permutation_map, P. }
    destruct (upd_loop m l) as [l1|] eqn:E1.
    - assert (B := proj1 (upd_loop_Ret_iff m l ok) (ex_intro _ _ E1)).
      destruct (upd_loop_Ret m l ok B) as (l1' & E1' & _ & N1).
      rewrite E1 in E1'. inversion E1'; subst l1'.
      destruct (upd_loop_Ret m' l ok') as (l2 & E2 & _ & N2).
      { intros k HK. apply B, K, HK. }
      rewrite E2. f_equal. apply nth_error_ext. intros i. rewrite N1, N2.
      rewrite (hm_get_perm m m') by assumption. reflexivity.
    - destruct (upd_loop m' l) as [l2|] eqn:E2; auto.
      assert (B := proj1 (upd_loop_Ret_iff m' l ok') (ex_intro _ _ E2)).
      destruct (upd_loop_Ret m l ok) as (l1 & E & _).
      { intros k HK. apply B, K, HK. }
      congruence.
  Qed.
End Loop.

(** ** broadcasting *)

Lemma broadcast_eq {A} (r : list A) n : length r = n -> broadcast r n = Ret r.
Proof. intros <-. unfold broadcast. rewrite Nat.eqb_refl. reflexivity. Qed.

Lemma zip_mut_with_eq {A} (f : A -> A -> A) l r :
  length r = length l -> zip_mut_with f l r = Ret (map2 f l r).
Proof. intros E. unfold zip_mut_with. rewrite broadcast_eq by assumption. reflexivity. Qed.

Lemma zip_mut_with_one {A} (f : A -> A -> A) l x :
  zip_mut_with f l [x] = Ret (map (fun y => f y x) l).
Proof.
  unfold zip_mut_with, broadcast. simpl.
  assert (E : forall (l : list A), map2 f l (repeat x (length l)) = map (fun y => f y x) l).
  { clear. induction l; simpl; congruence. }
  destruct l as [|a [|b l]]; simpl; auto. rewrite E. reflexivity.
Qed.

Lemma zip_mut_with_bad {A} (f : A -> A -> A) l r :
  length r <> length l -> length r <> 1 -> zip_mut_with f l r = Panic.
Proof.
  intros E1 E2. unfold zip_mut_with, broadcast.
  destruct (Nat.eqb_spec (length r) (length l)); [contradiction|].
  destruct r as [|x [|y r]]; simpl in *; auto; lia.
Qed.

Lemma zip_mut_with_length {A} (f : A -> A -> A) l r l' :
  zip_mut_with f l r = Ret l' -> length l' = length l.
Proof.
  destruct (Nat.eq_dec (length r) (length l)) as [E|E].
  - rewrite zip_mut_with_eq by assumption. intros X; inversion X.
    apply map2_length_eq. auto.
  - destruct (Nat.eq_dec (length r) 1) as [E1|E1].
    + destruct r as [|x [|]]; try discriminate. rewrite zip_mut_with_one.
      intros X; inversion X. apply map_length.
    + rewrite zip_mut_with_bad by assumption. discriminate.
Qed.

(** ** ofold, omapM *)

Lemma ofold_app {A B} (f : B -> A -> outcome B) l1 l2 b :
  ofold f (l1 ++ l2) b = let* b' := ofold f l1 b in ofold f l2 b'.
Proof.
  revert b. induction l1 as [|a l1 IH]; intros b; simpl; auto.
  destruct (f b a); simpl; auto.
Qed.

Lemma omapM_Ret {A B} (f : A -> B) l : omapM (fun x => Ret (f x)) l = Ret (map f l).
Proof. induction l as [|a l IH]; simpl; auto. rewrite IH. reflexivity. Qed.

Lemma omapM_ext {A B} (f g : A -> outcome B) l :
  (forall x, In x l -> f x = g x) -> omapM f l = omapM g l.
Proof.
  induction l as [|a l IH]; simpl; intros E; auto.
  rewrite E by auto. rewrite IH; auto.
Qed.

Lemma omapM_length {A B} (f : A -> outcome B) l r :
  omapM f l = Ret r -> length r = length l.
Proof.
  revert r. induction l as [|a l IH]; simpl; intros r E; [inversion E; auto|].
  destruct (f a); simpl in E; [|discriminate].
  destruct (omapM f l); simpl in E; [|discriminate].
  inversion E; subst. simpl. f_equal. auto.
Qed.

Lemma omapM_nth {A B} (f : A -> outcome B) l r i :
  omapM f l = Ret r ->
  match nth_error l i, nth_error r i with
  | Some a, Some b => f a = Ret b
  | None, None => True
  | _, _ => False
  end.
Proof.
  revert r i. induction l as [|a l IH]; simpl; intros r i E.
  - inversion E; subst. destruct i; simpl; auto.
  - destruct (f a) eqn:Fa; simpl in E; [|discriminate].
    destruct (omapM f l) eqn:M; simpl in E; [|discriminate].
    inversion E; subst. destruct i; simpl; auto. apply IH. reflexivity.
Qed.

Lemma omapM_Panic {A B} (f : A -> outcome B) l :
  omapM f l = Panic <-> exists a, In a l /\ f a = Panic.
Proof.
  induction l as [|a l IH]; simpl.
  - split; [discriminate|]. intros (a & [] & _).
  - destruct (f a) eqn:Fa; simpl.
    + destruct (omapM f l) eqn:M; simpl.
      * split; [discriminate|]. intros (x & [->|X] & P); [congruence|].
        assert (Q : @Ret (list B) a1 = Panic) by (apply IH; eauto). discriminate.
      * split; auto. intros _. destruct (proj1 IH eq_refl) as (x & X & P). eauto.
    + split; auto. intros _. exists a. auto.
Qed.
