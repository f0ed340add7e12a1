(** Facts about association-list maps. *)
From Coq Require Import List Arith Permutation Lia.
From Verif Require Import Base HMap.
Import ListNotations.

Section Facts.
  Context {F : Type}.
  Implicit Types (m l : hmap F) (i k : nat) (v w : F).

  Lemma hm_get_In m i v : hm_get m i = Some v -> In (i, v) m.
  Proof.
    induction m as [|[k w] m IH]; simpl; [discriminate|].
    destruct (Nat.eqb_spec k i) as [->|]; intros E; [inversion E; subst|]; auto.
  Qed.

  Lemma hm_get_None m i : hm_get m i = None <-> ~ In i (hm_keys m).
  Proof.
    induction m as [|[k w] m IH]; simpl; [tauto|].
    destruct (Nat.eqb_spec k i) as [->|N].
    - split; [discriminate|]. intros E; exfalso; apply E; auto.
    - rewrite IH. tauto.
  Qed.

  Lemma hm_In_get m i v : hm_ok m -> In (i, v) m -> hm_get m i = Some v.
  Proof.
    unfold hm_ok, hm_keys. induction m as [|[k w] m IH]; simpl; [tauto|].
    intros ND [E|E].
    - inversion E; subst. rewrite Nat.eqb_refl. reflexivity.
    - inversion ND; subst. destruct (Nat.eqb_spec k i) as [->|N]; auto.
      exfalso. apply H1. change i with (fst (i, v)). apply in_map, E.
  Qed.

  Lemma hm_get_iff m i v : hm_ok m -> (hm_get m i = Some v <-> In (i, v) m).
  Proof. split; [apply hm_get_In | apply hm_In_get; assumption]. Qed.

  Lemma hm_key_get m i : In i (hm_keys m) -> exists v, hm_get m i = Some v.
  Proof.
    intros HI. destruct (hm_get m i) eqn:E; eauto.
    apply hm_get_None in E. contradiction.
  Qed.

  Lemma hm_get_key m i v : hm_get m i = Some v -> In i (hm_keys m).
  Proof.
    intros E. apply hm_get_In in E. unfold hm_keys. change i with (fst (i, v)).
    apply in_map, E.
  Qed.

  Lemma hm_mem_In m i : hm_mem m i = true <-> In i (hm_keys m).
  Proof.
    unfold hm_mem. destruct (hm_get m i) eqn:E.
    - split; auto. intros _. eapply hm_get_key; eauto.
    - apply hm_get_None in E. split; [discriminate|contradiction].
  Qed.

  Lemma hm_mem_false m i : hm_mem m i = false <-> ~ In i (hm_keys m).
  Proof. rewrite <- hm_mem_In. destruct (hm_mem m i); split; congruence. Qed.

  (** ** insert *)

  Lemma hm_get_insert m i v k :
    hm_get (hm_insert m i v) k = if i =? k then Some v else hm_get m k.
  Proof.
    induction m as [|[j w] m IH]; simpl.
    - destruct (i =? k); reflexivity.
    - destruct (Nat.eqb_spec j i) as [->|N]; simpl.
      + destruct (i =? k); reflexivity.
      + rewrite IH. destruct (Nat.eqb_spec j k) as [->|]; auto.
        destruct (Nat.eqb_spec i k); congruence.
  Qed.

  Lemma hm_insert_keys_In m i v k :
    In k (hm_keys (hm_insert m i v)) <-> k = i \/ In k (hm_keys m).
  Proof.
    induction m as [|[j w] m IH]; simpl.
    - intuition.
    - destruct (Nat.eqb_spec j i) as [->|N]; simpl; [|rewrite IH]; intuition.
  Qed.

  Lemma hm_insert_ok m i v : hm_ok m -> hm_ok (hm_insert m i v).
  Proof.
    unfold hm_ok. induction m as [|[j w] m IH]; simpl; intros ND.
    - constructor; [simpl; tauto|constructor].
    - inversion ND; subst. destruct (Nat.eqb_spec j i) as [->|N]; simpl.
      + constructor; auto.
      + constructor; auto. intros HI. apply hm_insert_keys_In in HI. intuition congruence.
  Qed.

  Lemma hm_insert_notin m i v : ~ In i (hm_keys m) -> hm_insert m i v = m ++ [(i, v)].
  Proof.
    induction m as [|[j w] m IH]; simpl; intros HI; auto.
    destruct (Nat.eqb_spec j i) as [->|N]; [tauto|]. rewrite IH; tauto.
  Qed.

  Lemma hm_fold_insert_get l : forall m k,
    hm_get (fold_left (fun m kv => hm_insert m (fst kv) (snd kv)) l m) k =
    match hm_get (rev l) k with Some v => Some v | None => hm_get m k end.
  Proof.
    induction l as [|[i v] l IH]; intros m k; simpl; auto.
    rewrite IH, hm_get_insert. clear IH.
    assert (R : forall a b : hmap F, hm_get (a ++ b) k =
      match hm_get a k with Some v => Some v | None => hm_get b k end).
    { induction a as [|[j w] a IHa]; intros b; simpl; auto. destruct (j =? k); auto. }
    rewrite R. simpl. destruct (hm_get (rev l) k); auto. destruct (i =? k); auto.
  Qed.

  Lemma hm_fold_insert_ok l : forall m, hm_ok m ->
    hm_ok (fold_left (fun m kv => hm_insert m (fst kv) (snd kv)) l m).
  Proof.
    induction l as [|[i v] l IH]; intros m E; simpl; auto.
    apply IH, hm_insert_ok, E.
  Qed.

  Lemma hm_fold_insert_keys l : forall m k,
    In k (hm_keys (fold_left (fun m kv => hm_insert m (fst kv) (snd kv)) l m)) <->
    In k (hm_keys m) \/ In k (hm_keys l).
  Proof.
    induction l as [|[i v] l IH]; intros m k; simpl; [tauto|].
    rewrite IH, hm_insert_keys_In. intuition.
  Qed.

  (** Inserting keys that are fresh and distinct just appends. *)
  Lemma hm_fold_insert_fresh l : forall m,
    hm_ok (m ++ l) ->
    fold_left (fun m kv => hm_insert m (fst kv) (snd kv)) l m = m ++ l.
  Proof.
    induction l as [|[i v] l IH]; intros m E; simpl.
    - rewrite app_nil_r. reflexivity.
    - rewrite hm_insert_notin.
      + rewrite IH; rewrite <- app_assoc; auto.
      + unfold hm_ok, hm_keys in *. rewrite map_app in E. simpl in E.
        apply NoDup_remove_2 in E. intros HI. apply E, in_or_app. auto.
  Qed.

  Lemma hm_collect_ok l : hm_ok (hm_collect l).
  Proof. apply hm_fold_insert_ok. constructor. Qed.

  Lemma hm_collect_keys l k : In k (hm_keys (hm_collect l)) <-> In k (hm_keys l).
  Proof. unfold hm_collect. rewrite hm_fold_insert_keys. simpl. tauto. Qed.

  (** Last write wins. *)
  Lemma hm_collect_get l k : hm_get (hm_collect l) k = hm_get (rev l) k.
  Proof. unfold hm_collect. rewrite hm_fold_insert_get. destruct hm_get; auto. Qed.

  Lemma hm_collect_id l : hm_ok l -> hm_collect l = l.
  Proof. intros E. unfold hm_collect. rewrite hm_fold_insert_fresh; auto. Qed.

  (** ** permutations *)

  Lemma hm_ok_perm m m' : Permutation m m' -> hm_ok m -> hm_ok m'.
  Proof.
    unfold hm_ok, hm_keys. intros P. apply Permutation_NoDup, Permutation_map, P.
  Qed.

  Lemma hm_get_perm m m' i : Permutation m m' -> hm_ok m -> hm_get m i = hm_get m' i.
  Proof.
    intros P ok. destruct (hm_get m i) eqn:E.
    - symmetry. apply hm_In_get; [eapply hm_ok_perm; eauto|].
      eapply Permutation_in; eauto. apply hm_get_In, E.
    - symmetry. apply hm_get_None. apply hm_get_None in E. intros HI. apply E.
      eapply Permutation_in; [|exact HI]. apply Permutation_map, Permutation_sym, P.
  Qed.

  (** Maps with the same lookups are permutations of each other. *)
  Lemma hm_ext_perm m m' : hm_ok m -> hm_ok m' ->
    (forall i, hm_get m i = hm_get m' i) -> Permutation m m'.
  Proof.
    intros ok ok' E. apply NoDup_Permutation.
    - eapply NoDup_map_inv, ok.
    - eapply NoDup_map_inv, ok'.
    - intros [i v]. rewrite <- !hm_get_iff by assumption. rewrite E. tauto.
  Qed.

  Lemma hm_insert_perm m m' i v : hm_ok m -> Permutation m m' ->
    Permutation (hm_insert m i v) (hm_insert m' i v).
  Proof.
    intros ok P. assert (ok' := hm_ok_perm _ _ P ok).
    apply hm_ext_perm; auto using hm_insert_ok.
    intros k. rewrite !hm_get_insert. destruct (i =? k); auto using hm_get_perm.
  Qed.

  (** ** remove, map, or_insert *)

  Lemma hm_remove_get m i k :
    hm_get (hm_remove m i) k = if i =? k then None else hm_get m k.
  Proof.
    induction m as [|[j w] m IH]; simpl.
    - destruct (i =? k); auto.
    - destruct (Nat.eqb_spec j i) as [->|N]; simpl.
      + rewrite IH. destruct (i =? k); auto.
      + rewrite IH. destruct (Nat.eqb_spec j k) as [->|]; auto.
        destruct (Nat.eqb_spec i k); congruence.
  Qed.

  Lemma hm_remove_keys m i k :
    In k (hm_keys (hm_remove m i)) <-> k <> i /\ In k (hm_keys m).
  Proof.
    induction m as [|[j w] m IH]; simpl; [tauto|].
    destruct (Nat.eqb_spec j i) as [->|N]; simpl; rewrite IH; intuition congruence.
  Qed.

  Lemma hm_remove_ok m i : hm_ok m -> hm_ok (hm_remove m i).
  Proof.
    unfold hm_ok. induction m as [|[j w] m IH]; simpl; intros ND; auto.
    inversion ND; subst. destruct (Nat.eqb_spec j i) as [->|N]; simpl; auto.
    constructor; auto. intros HI. apply hm_remove_keys in HI. tauto.
  Qed.

  Lemma hm_map_keys {G} (f : nat * F -> G) m :
    map fst (map (fun kv => (fst kv, f kv)) m) = hm_keys m.
  Proof. rewrite map_map. reflexivity. Qed.

  Lemma hm_map_get (f : nat -> F -> F) m k :
    hm_get (map (fun kv => (fst kv, f (fst kv) (snd kv))) m) k =
    option_map (f k) (hm_get m k).
  Proof.
    induction m as [|[j w] m IH]; simpl; auto.
    destruct (Nat.eqb_spec j k) as [->|]; auto.
  Qed.

  Lemma hm_map_ok (f : nat -> F -> F) m : hm_ok m ->
    hm_ok (map (fun kv => (fst kv, f (fst kv) (snd kv))) m).
  Proof. unfold hm_ok, hm_keys. rewrite map_map. auto. Qed.

  Lemma hm_or_insert_get m i v k :
    hm_get (hm_or_insert m i v) k =
    match hm_get m k with
    | Some w => Some w
    | None => if i =? k then Some v else None
    end.
  Proof.
    unfold hm_or_insert. destruct (hm_mem m i) eqn:E.
    - apply hm_mem_In in E. destruct (hm_get m k) eqn:G; auto.
      destruct (Nat.eqb_spec i k) as [->|]; auto. apply hm_get_None in G. contradiction.
    - rewrite hm_get_insert. destruct (Nat.eqb_spec i k) as [->|].
      + apply hm_mem_false, hm_get_None in E. rewrite E. reflexivity.
      + destruct (hm_get m k); auto.
  Qed.

  Lemma hm_or_insert_ok m i v : hm_ok m -> hm_ok (hm_or_insert m i v).
  Proof. unfold hm_or_insert. destruct hm_mem; auto using hm_insert_ok. Qed.

  Lemma hm_or_insert_fold_ok (f : nat * F -> F) l : forall m, hm_ok m ->
    hm_ok (fold_left (fun m kv => hm_or_insert m (fst kv) (f kv)) l m).
  Proof.
    induction l as [|[i v] l IH]; intros m E; simpl; auto.
    apply IH, hm_or_insert_ok, E.
  Qed.

  Lemma hm_or_insert_fold_get (f : F -> F) l : hm_ok l -> forall m k,
    hm_get (fold_left (fun m kv => hm_or_insert m (fst kv) (f (snd kv))) l m) k =
    match hm_get m k with
    | Some w => Some w
    | None => option_map f (hm_get l k)
    end.
  Proof.
    unfold hm_ok. induction l as [|[i v] l IH]; intros ND m k; simpl.
    - destruct (hm_get m k); auto.
    - inversion ND; subst. rewrite IH by assumption. rewrite hm_or_insert_get.
      destruct (hm_get m k); auto.
      destruct (Nat.eqb_spec i k) as [->|]; auto.
  Qed.
End Facts.
