(** More proofs about feature vectors: layout independence (C02), equality
    (C13), active counts (C14), and exact-arithmetic reductions (C03, C11). *)
From Coq Require Import List Arith Lia Permutation Bool Reals Lra.
From Verif Require Import Base Scalar ScalarR HMap HMapFacts NdArray VecFacts Features Spec FeatureFacts.
Import ListNotations.

(** ** Maps as lists over an index range *)

Section Enumerate.
  Context {F : Type} `{Scalar F}.

  Lemma enum_keys (m : hmap F) d : hm_ok m -> (forall k, In k (hm_keys m) -> k < d) ->
    Permutation (hm_keys m) (filter (hm_mem m) (seq 0 d)).
  Proof.
    intros K B. apply NoDup_Permutation; auto.
    - apply NoDup_filter, seq_NoDup.
    - intros k. rewrite filter_In, hm_mem_In, in_seq. split; [|tauto].
      intros I. specialize (B k I). split; auto. lia.
  Qed.

  Lemma enum_map (m : hmap F) d : hm_ok m -> (forall k, In k (hm_keys m) -> k < d) ->
    Permutation m (map (fun i => (i, get_or_zero m i)) (filter (hm_mem m) (seq 0 d))).
  Proof.
    intros K B.
    assert (E : m = map (fun i => (i, get_or_zero m i)) (hm_keys m)).
    { unfold hm_keys. rewrite map_map. rewrite <- (map_id m) at 1. apply map_ext_in.
      intros [k v] I. simpl. unfold get_or_zero. rewrite (hm_In_get m k v K I). reflexivity. }
    rewrite E at 1. apply Permutation_map, enum_keys; auto.
  Qed.

  Lemma expands_map (d : nat) (m : hmap F) l : hm_ok m ->
    expands (Sparse (MkSparse d m)) l -> l = map (get_or_zero m) (seq 0 d).
  Proof.
    intros K X. apply nth_error_ext. intros i.
    rewrite (expands_nth_all (Sparse (MkSparse d m)) l i K X), nth_error_map', nth_error_seq. simpl.
    destruct (i <? d); reflexivity.
  Qed.
End Enumerate.

(** ** C13: equality *)

Section Equality.
  Context {F : Type} `{Scalar F}.

  (** Same shape, and index by index either both hold IEEE-equal activations or
      neither holds any. *)
  Definition ieee_equal (a b : Features F) : Prop :=
    is_sparse a = is_sparse b /\ size a = size b /\
    forall i, (exists x y, stores a i x /\ stores b i y /\ feqb x y = true) \/
              (~ stored a i /\ ~ stored b i).

  Lemma vec_eqb_spec (a b : list F) : vec_eqb a b = true <->
    length a = length b /\
    forall i x y, nth_error a i = Some x -> nth_error b i = Some y -> feqb x y = true.
  Proof.
    revert b. induction a as [|x a IH]; intros [|y b]; simpl.
    - split; auto. intros _. split; auto. intros [|i]; discriminate.
    - split; [discriminate|]. intros [E _]. discriminate.
    - split; [discriminate|]. intros [E _]. discriminate.
    - rewrite andb_true_iff, IH. split.
      + intros [E [L N]]. split; [lia|]. intros [|i] u v U V; simpl in *; [congruence|].
        eapply N; eauto.
      + intros [L N]. splits.
        * apply (N 0 x y); reflexivity.
        * lia.
        * intros i u v U V. apply (N (S i) u v U V).
  Qed.

  Lemma hm_eqb_spec (m1 m2 : hmap F) : hm_ok m1 -> hm_ok m2 ->
    (hm_eqb m1 m2 = true <->
     forall i, match hm_get m1 i, hm_get m2 i with
               | Some x, Some y => feqb x y = true
               | None, None => True
               | _, _ => False
               end).
  Proof.
    intros K1 K2. unfold hm_eqb. rewrite andb_true_iff, Nat.eqb_eq, forallb_forall. split.
    - intros [L E].
      assert (Inc : incl (hm_keys m1) (hm_keys m2)).
      { intros k I. apply hm_key_get in I. destruct I as [v V].
        specialize (E _ (hm_get_In _ _ _ V)). simpl in E.
        destruct (hm_get m2 k) eqn:G; [|discriminate]. eapply hm_get_key; eauto. }
      assert (Inc' : incl (hm_keys m2) (hm_keys m1)).
      { apply NoDup_length_incl; auto. unfold hm_keys. rewrite !map_length. lia. }
      intros i. destruct (hm_get m1 i) as [x|] eqn:G1.
      + specialize (E _ (hm_get_In _ _ _ G1)). simpl in E.
        destruct (hm_get m2 i); [assumption|discriminate].
      + destruct (hm_get m2 i) eqn:G2; auto. apply hm_get_key in G2. apply Inc' in G2.
        apply hm_get_None in G1. contradiction.
    - intros E. split.
      + assert (P : Permutation (hm_keys m1) (hm_keys m2)).
        { apply NoDup_Permutation; auto. intros k. specialize (E k). split; intros I;
            apply hm_key_get in I; destruct I as [v V]; rewrite V in E.
          - destruct (hm_get m2 k) eqn:G; [|tauto]. eapply hm_get_key; eauto.
          - destruct (hm_get m1 k) eqn:G; [|tauto]. eapply hm_get_key; eauto. }
        apply Permutation_length in P. unfold hm_keys in P. rewrite !map_length in P. exact P.
      + intros [k v] I. simpl. specialize (E k). rewrite (hm_In_get m1 k v K1 I) in E.
        destruct (hm_get m2 k); tauto.
  Qed.

  Theorem features_eqb_spec (a b : Features F) : keyed a -> keyed b ->
    (features_eqb a b = Panic <-> is_sparse a <> is_sparse b) /\
    (features_eqb a b = Ret true <-> ieee_equal a b) /\
    (features_eqb a b = Ret false <-> is_sparse a = is_sparse b /\ ~ ieee_equal a b).
  Proof.
    intros Ka Kb. unfold ieee_equal.
    enough (E : (features_eqb a b = Panic <-> is_sparse a <> is_sparse b) /\
                (features_eqb a b = Ret true <-> ieee_equal a b)).
    { destruct E as [P T]. splits; auto. unfold ieee_equal in T. split.
      - intros X. split.
        + destruct (Bool.bool_dec (is_sparse a) (is_sparse b)) as [|N]; auto.
          apply P in N. congruence.
        + intros Y. apply T in Y. congruence.
      - intros [V N]. destruct (features_eqb a b) as [[|]|]; auto.
        + exfalso. apply N, T. reflexivity.
        + exfalso. destruct P as [P _]. specialize (P eq_refl). contradiction. }
    unfold ieee_equal.
    destruct a as [la|[d1 m1]], b as [lb|[d2 m2]]; simpl.
    - split; [split; [discriminate|congruence]|].
      assert (X : Ret (vec_eqb la lb) = Ret true <-> vec_eqb la lb = true) by (split; congruence).
      rewrite X, vec_eqb_spec. clear X. split.
      + intros [L E]. splits; auto. intros i.
        destruct (nth_error la i) as [x|] eqn:G1.
        * left. assert (I : i < length lb) by (rewrite <- L; apply nth_error_Some; congruence).
          destruct (nth_error_lt lb i I) as [y G2]. exists x, y. eauto.
        * right. apply nth_error_None in G1. split; intros [v V]; simpl in V.
          -- apply nth_error_None in G1. congruence.
          -- rewrite L in G1. apply nth_error_None in G1. congruence.
      + intros (_ & L & E). split; auto. intros i x y U V.
        destruct (E i) as [(x' & y' & U' & V' & Q)|[N _]].
        * simpl in *. congruence.
        * exfalso. apply N. exists x. exact U.
    - split; [split; [congruence|reflexivity]|]. split; [discriminate|]. intros [E _]. discriminate.
    - split; [split; [congruence|reflexivity]|]. split; [discriminate|]. intros [E _]. discriminate.
    - split; [split; [discriminate|congruence]|].
      assert (X : forall c, Ret c = Ret true <-> c = true) by (split; congruence).
      rewrite X, andb_true_iff, Nat.eqb_eq, hm_eqb_spec by assumption. clear X.
      split.
      + intros [L E]. splits; auto. intros i. specialize (E i).
        destruct (hm_get m1 i) as [x|] eqn:G1, (hm_get m2 i) as [y|] eqn:G2; try tauto.
        * left. exists x, y. splits; auto; apply hm_get_In; auto.
        * right. rewrite !stored_key. split; apply hm_get_None; auto.
      + intros (_ & L & E). split; auto. intros i.
        destruct (E i) as [(x & y & U & V & Q)|[N1 N2]].
        * rewrite (hm_In_get m1 i x Ka U), (hm_In_get m2 i y Kb V). exact Q.
        * rewrite stored_key, <- hm_get_None in N1, N2. rewrite N1, N2. exact I.
  Qed.

  Theorem features_eqb_same (a a' b b' : Features F) : keyed a -> keyed b ->
    same a a' -> same b b' -> features_eqb a b = features_eqb a' b'.
  Proof.
    intros Ka Kb Ea Eb.
    assert (Ka' := same_keyed _ _ Ea Ka). assert (Kb' := same_keyed _ _ Eb Kb).
    destruct (features_eqb_spec a b Ka Kb) as (P & T & _).
    destruct (features_eqb_spec a' b' Ka' Kb') as (P' & T' & _).
    assert (V : forall x y : Features F, same x y -> is_sparse x = is_sparse y).
    { intros x y E. destruct x, y; simpl in E; tauto. }
    assert (Q : ieee_equal a b <-> ieee_equal a' b').
    { unfold ieee_equal. rewrite (V _ _ Ea), (V _ _ Eb), (same_size _ _ Ea), (same_size _ _ Eb).
      split; intros (X & Y & Z); splits; auto; intros i; specialize (Z i).
      - rewrite <- (same_stored _ _ i Ea), <- (same_stored _ _ i Eb).
        destruct Z as [(x & y & U & W & Z)|Z]; auto. left. exists x, y.
        rewrite <- (same_stores _ _ i x Ea), <- (same_stores _ _ i y Eb). auto.
      - rewrite (same_stored _ _ i Ea), (same_stored _ _ i Eb).
        destruct Z as [(x & y & U & W & Z)|Z]; auto. left. exists x, y.
        rewrite (same_stores _ _ i x Ea), (same_stores _ _ i y Eb). auto. }
    rewrite (V _ _ Ea), (V _ _ Eb) in P.
    destruct (features_eqb a b) as [[|]|], (features_eqb a' b') as [[|]|]; auto; exfalso.
    - destruct T as [T _]. specialize (T eq_refl). apply Q, T' in T. discriminate.
    - destruct P' as [P' _]. specialize (P' eq_refl). apply P in P'. discriminate.
    - destruct T' as [T' _]. specialize (T' eq_refl). apply Q, T in T'. discriminate.
    - destruct P' as [P' _]. specialize (P' eq_refl). apply P in P'. discriminate.
    - destruct P as [P _]. specialize (P eq_refl). apply P' in P. discriminate.
    - destruct P as [P _]. specialize (P eq_refl). apply P' in P. discriminate.
  Qed.

  Definition eq_sym_law := forall x y : F, feqb x y = feqb y x.
  Definition eq_trans_law := forall x y z : F, feqb x y = true -> feqb y z = true -> feqb x z = true.

  Lemma ieee_sym : eq_sym_law -> forall a b, ieee_equal a b -> ieee_equal b a.
  Proof.
    intros S a b (V & L & E). unfold ieee_equal. splits; auto. intros i.
    destruct (E i) as [(x & y & U & W & Q)|[N M]]; auto.
    left. exists y, x. rewrite S. auto.
  Qed.

  Lemma features_eqb_sym : eq_sym_law -> forall a b : Features F, keyed a -> keyed b ->
    features_eqb a b = features_eqb b a.
  Proof.
    intros S a b Ka Kb.
    destruct (features_eqb_spec a b Ka Kb) as (P & T & N).
    destruct (features_eqb_spec b a Kb Ka) as (P' & T' & N').
    destruct (features_eqb a b) as [[|]|].
    - destruct T as [T _]. specialize (T eq_refl). apply (ieee_sym S), T' in T. auto.
    - destruct N as [N _]. specialize (N eq_refl). symmetry. apply N'. destruct N as [V N].
      split; auto. intros E. apply N, (ieee_sym S), E.
    - destruct P as [P _]. specialize (P eq_refl). symmetry. apply P'. auto.
  Qed.

  Lemma features_eqb_trans : eq_trans_law -> forall a b c : Features F,
    keyed a -> keyed b -> keyed c ->
    features_eqb a b = Ret true -> features_eqb b c = Ret true -> features_eqb a c = Ret true.
  Proof.
    intros S a b c Ka Kb Kc E1 E2.
    apply features_eqb_spec in E1, E2; auto. apply features_eqb_spec; auto.
    destruct E1 as (V & L & E), E2 as (V' & L' & E').
    unfold ieee_equal. splits; try congruence. intros i.
    destruct (E i) as [(x & y & U & W & Q)|[N M]].
    - destruct (E' i) as [(y' & z & U' & W' & Q')|[N M]].
      + left. exists x, z. splits; auto.
        assert (y = y') as <-.
        { apply get_stores in W, U'; auto. congruence. }
        eapply S; eauto.
      + exfalso. apply N. exists y. exact W.
    - destruct (E' i) as [(y' & z & U' & W' & Q')|[N' M']]; auto.
      exfalso. apply M. exists y'. exact U'.
  Qed.

  Lemma features_eqb_refl (a : Features F) : keyed a ->
    (features_eqb a a = Ret true <-> forall i v, stores a i v -> feqb v v = true).
  Proof.
    intros K. rewrite (proj1 (proj2 (features_eqb_spec a a K K))). split.
    - intros (_ & _ & E) i v V. destruct (E i) as [(x & y & U & W & Q)|[N _]].
      + apply get_stores in U, W, V; auto. congruence.
      + exfalso. apply N. exists v. exact V.
    - intros E. unfold ieee_equal. splits; auto. intros i. destruct (stored_dec a i K) as [[v V]|N]; auto.
      left. exists v, v. eauto.
  Qed.

  Lemma features_eqb_expands (a b : Features F) la lb : feqb fzero fzero = true ->
    keyed a -> keyed b -> features_eqb a b = Ret true -> expands a la -> expands b lb ->
    vec_eqb la lb = true.
  Proof.
    intros Z Ka Kb E Xa Xb. apply features_eqb_spec in E; auto. destruct E as (_ & L & E).
    apply vec_eqb_spec. split; [destruct Xa, Xb; congruence|].
    intros i x y U V.
    rewrite (expands_nth_all _ la i Ka Xa) in U. rewrite (expands_nth_all _ lb i Kb Xb) in V.
    destruct (i <? size a); [|discriminate]. destruct (i <? size b); [|discriminate].
    inversion U; inversion V; subst. unfold entry.
    destruct (E i) as [(x & y & A & B & Q)|[N M]].
    - apply get_stores in A, B; auto. rewrite A, B. exact Q.
    - apply get_not_stored in N, M; auto. rewrite N, M. exact Z.
  Qed.
End Equality.

(** ** C14: active counts *)

Section Active.
  Context {F : Type} `{Scalar F}.

  Lemma filter_length_perm {A} (p : A -> bool) l l' :
    Permutation l l' -> length (filter p l) = length (filter p l').
  Proof.
    induction 1; simpl; auto; try (destruct (p x); simpl; congruence).
    - destruct (p x), (p y); simpl; auto.
    - congruence.
  Qed.

  Lemma filter_map_length {A B} (p : B -> bool) (f : A -> B) l :
    length (filter p (map f l)) = length (filter (fun x => p (f x)) l).
  Proof. induction l; simpl; auto. destruct (p (f a)); simpl; congruence. Qed.

  Lemma filter_filter_length {A} (p q : A -> bool) l :
    (forall x, In x l -> p x = true -> q x = true) ->
    length (filter p l) = length (filter p (filter q l)).
  Proof.
    induction l as [|x l IH]; simpl; intros E; auto.
    destruct (q x) eqn:Q; simpl.
    - destruct (p x); simpl; rewrite IH; auto.
    - destruct (p x) eqn:P; [|auto]. rewrite E in Q; auto; discriminate.
  Qed.

  Lemma filter_length_le' {A} (p : A -> bool) l : length (filter p l) <= length l.
  Proof. induction l as [|x l IH]; simpl; auto. destruct (p x); simpl; lia. Qed.

  Lemma filter_all_length {A} (p : A -> bool) l :
    length (filter p l) = length l <-> forall x, In x l -> p x = true.
  Proof.
    induction l as [|x l IH]; simpl.
    - split; auto.
    - destruct (p x) eqn:P; simpl.
      + rewrite <- (Nat.succ_inj_wd (length (filter p l))) in IH. rewrite IH. split.
        * intros E y [<-|I]; auto.
        * intros E y I. auto.
      + split.
        * intros E. exfalso. pose proof (filter_length_le' p l). lia.
        * intros E. rewrite (E x) in P; auto. discriminate.
  Qed.

  Theorem n_active_expand (phi : Features F) l :
    fltb active_tol (fabs fzero) = false -> wf phi -> expands phi l ->
    n_active (Dense l) <= n_active phi /\
    (is_sparse phi = true ->
     (n_active (Dense l) = n_active phi <->
      forall i v, stores phi i v -> fltb active_tol (fabs v) = true)) /\
    (is_sparse phi = false -> n_active (Dense l) = n_active phi).
  Proof.
    intros Z [K B] X. destruct phi as [da|[d m]].
    - apply expands_dense in X. subst. splits; auto. discriminate.
    - rewrite bounded_sparse in B. apply expands_map in X; auto. subst l. simpl.
      assert (E : length (filter (fun v => fltb active_tol (fabs v)) (map (get_or_zero m) (seq 0 d))) =
                  length (filter (fun kv => fltb active_tol (fabs (snd kv))) m)).
      { rewrite filter_map_length.
        rewrite (filter_length_perm _ _ _ (enum_map m d K B)), filter_map_length. simpl.
        apply (filter_filter_length (fun x => fltb active_tol (fabs (get_or_zero m x)))).
        intros i _. unfold get_or_zero, hm_mem. destruct (hm_get m i); auto.
        intros E. congruence. }
      rewrite E. splits.
      + apply filter_length_le'.
      + intros _. rewrite filter_all_length. split.
        * intros A i v V. apply (A (i, v) V).
        * intros A [i v] I. apply (A i v I).
      + discriminate.
  Qed.

  Theorem n_active_sparse d (m : hmap F) : hm_ok m ->
    exists l, NoDup l /\ (forall i, In i l <-> stored (Sparse (MkSparse d m)) i) /\
              n_active (Sparse (MkSparse d m)) = length l.
  Proof.
    intros K. exists (hm_keys m). splits; auto.
    - intros i. rewrite stored_key. tauto.
    - simpl. unfold hm_keys. rewrite map_length. reflexivity.
  Qed.
End Active.

(** ** C02: reshuffling a hash map between operations is unobservable *)

Section Commands.
  Context {F : Type} `{Scalar F}.

  (** One method call on a feature vector; operands are feature vectors too. *)
  Inductive cmd : Type :=
  | CRemove (i : nat)
  | CMap (f : F -> F)
  | CMapInto (f : F -> F)
  | CMapInplace (f : F -> F)
  | CMerge (psi : Features F) (f : F -> F -> F)
  | CMergeInto (psi : Features F) (f : F -> F -> F)
  | CMergeInplace (psi : Features F) (f : F -> F -> F)
  | CMergeRight (psi : Features F) (f : F -> F -> F)
  | CStack (psi : Features F)
  | CStackRight (psi : Features F)
  | CIntoDense.

  Definition run_cmd (c : cmd) (phi : Features F) : outcome (Features F) :=
    match c with
    | CRemove i => Ret (remove phi i)
    | CMap f => fmap phi f
    | CMapInto f => fmap_into phi f
    | CMapInplace f => fmap_inplace phi f
    | CMerge psi f => merge phi psi f
    | CMergeInto psi f => merge_into phi psi f
    | CMergeInplace psi f => merge_inplace phi psi f
    | CMergeRight psi f => merge_into psi phi f
    | CStack psi => stack phi psi
    | CStackRight psi => stack psi phi
    | CIntoDense => omap Dense (into_dense phi)
    end.

  (** The same call with its operand in another layout. *)
  Definition same_cmd (c c' : cmd) : Prop :=
    match c, c' with
    | CRemove i, CRemove j => i = j
    | CMap f, CMap g | CMapInto f, CMapInto g | CMapInplace f, CMapInplace g => f = g
    | CMerge psi f, CMerge psi' g | CMergeInto psi f, CMergeInto psi' g
    | CMergeInplace psi f, CMergeInplace psi' g | CMergeRight psi f, CMergeRight psi' g =>
        same psi psi' /\ f = g
    | CStack psi, CStack psi' | CStackRight psi, CStackRight psi' => same psi psi'
    | CIntoDense, CIntoDense => True
    | _, _ => False
    end.

  Definition operand_keyed (c : cmd) : Prop :=
    match c with
    | CMerge psi _ | CMergeInto psi _ | CMergeInplace psi _ | CMergeRight psi _
    | CStack psi | CStackRight psi => keyed psi
    | _ => True
    end.

  (** An execution may find every map in any layout, at every step. *)
  Inductive exec : list cmd -> Features F -> outcome (Features F) -> Prop :=
  | exec_done : forall phi psi, same phi psi -> exec [] phi (Ret psi)
  | exec_step : forall c c1 cs phi phi1 phi2 r,
      same phi phi1 -> same_cmd c c1 -> run_cmd c1 phi1 = Ret phi2 ->
      exec cs phi2 r -> exec (c :: cs) phi r
  | exec_panic : forall c c1 cs phi phi1,
      same phi phi1 -> same_cmd c c1 -> run_cmd c1 phi1 = Panic ->
      exec (c :: cs) phi Panic.

  Lemma run_cmd_same c c' phi phi' : keyed phi -> operand_keyed c ->
    same phi phi' -> same_cmd c c' -> same_outcome (run_cmd c phi) (run_cmd c' phi').
  Proof.
    intros K Kc E Ec. destruct c, c'; simpl in Ec; try tauto; simpl.
    - subst. apply remove_same; auto.
    - subst. apply fmap_same; auto.
    - subst. apply fmap_same; auto.
    - subst. apply fmap_same; auto.
    - destruct Ec as [Ep ->]. apply merge_same; auto.
    - destruct Ec as [Ep ->]. apply merge_into_same; auto.
    - destruct Ec as [Ep ->]. apply merge_into_same; auto.
    - destruct Ec as [Ep ->]. apply merge_into_same; auto.
    - apply stack_same; auto.
    - apply stack_same; auto.
    - rewrite (same_into_dense phi phi') by assumption.
      destruct (into_dense phi'); simpl; auto.
  Qed.

  Lemma run_cmd_keyed c phi psi : keyed phi -> operand_keyed c ->
    run_cmd c phi = Ret psi -> keyed psi.
  Proof.
    intros K Kc. destruct c; simpl; intros E.
    - inversion E. apply remove_keyed, K.
    - eapply fmap_keyed; eauto.
    - eapply fmap_keyed; eauto.
    - eapply fmap_keyed; eauto.
    - eapply merge_keyed; [| |exact E]; auto.
    - eapply merge_into_keyed; [| |exact E]; auto.
    - eapply merge_into_keyed; [| |exact E]; auto.
    - eapply merge_into_keyed; [| |exact E]; auto.
    - eapply stack_keyed; [| |exact E]; auto.
    - eapply stack_keyed; [| |exact E]; auto.
    - destruct (into_dense phi); inversion E. exact I.
  Qed.

  Lemma same_operand_keyed c c' : same_cmd c c' -> operand_keyed c -> operand_keyed c'.
  Proof.
    destruct c, c'; simpl; try tauto; try (intros [E _]); try intros E; eauto using same_keyed.
  Qed.

  Lemma same_cmd_sym c c' : same_cmd c c' -> same_cmd c' c.
  Proof. destruct c, c'; simpl; try tauto; try congruence; intuition auto using same_sym. Qed.

  Lemma same_cmd_trans c d e : same_cmd c d -> same_cmd d e -> same_cmd c e.
  Proof.
    destruct c, d; simpl; try tauto; destruct e; simpl; try tauto; try congruence;
      try (intros [? ->] [? ->]; split; auto); try intros ? ?; eauto using same_trans.
  Qed.

  Lemma exec_cons_inv c cs phi r : exec (c :: cs) phi r ->
    exists c1 phi1, same phi phi1 /\ same_cmd c c1 /\
      ((exists phi2, run_cmd c1 phi1 = Ret phi2 /\ exec cs phi2 r) \/
       (run_cmd c1 phi1 = Panic /\ r = Panic)).
  Proof. inversion 1; subst; do 2 eexists; splits; eauto. Qed.

  Theorem exec_deterministic cs : Forall operand_keyed cs -> forall phi phi' r r',
    keyed phi -> same phi phi' -> exec cs phi r -> exec cs phi' r' -> same_outcome r r'.
  Proof.
    induction cs as [|c cs IH]; intros Kc phi phi' r r' K E X X'.
    - inversion X; subst. inversion X'; subst. simpl.
      eapply same_trans; [apply same_sym; eassumption|]. eapply same_trans; [exact E|eassumption].
    - inversion Kc; subst.
      assert (Step : forall c1 c2 p1 p2, same phi p1 -> same phi' p2 -> same_cmd c c1 -> same_cmd c c2 ->
        keyed p1 /\ operand_keyed c1 /\ same_outcome (run_cmd c1 p1) (run_cmd c2 p2)).
      { intros c1 c2 p1 p2 E1 E2 C1 C2. splits.
        - eapply same_keyed; eauto.
        - eapply same_operand_keyed; eauto.
        - apply run_cmd_same.
          + eapply same_keyed; eauto.
          + eapply same_operand_keyed; eauto.
          + eapply same_trans; [apply same_sym; eassumption|]. eapply same_trans; [exact E|eassumption].
          + eapply same_cmd_trans; [apply same_cmd_sym; eassumption|]. assumption. }
      apply exec_cons_inv in X, X'.
      destruct X as (c1 & p1 & E1 & C1 & X), X' as (c2 & p2 & E2 & C2 & X').
      destruct (Step c1 c2 p1 p2) as (K1 & Ko & S); auto.
      destruct X as [(q & R & X)|[R ->]], X' as [(q' & R' & X')|[R' ->]]; rewrite R, R' in S;
        simpl in S; try contradiction; auto.
      eapply IH; [assumption| |exact S|exact X|exact X'].
      eapply run_cmd_keyed; [| |exact R]; auto.
  Qed.

  (** Executions exist: the deterministic run is one. *)
  Fixpoint run_cmds (cs : list cmd) (phi : Features F) : outcome (Features F) :=
    match cs with
    | [] => Ret phi
    | c :: cs => let* psi := run_cmd c phi in run_cmds cs psi
    end.

  Lemma same_cmd_refl c : same_cmd c c.
  Proof. destruct c; simpl; auto using same_refl. Qed.

  Lemma exec_run cs : forall phi, exec cs phi (run_cmds cs phi).
  Proof.
    induction cs as [|c cs IH]; intros phi; simpl.
    - apply exec_done, same_refl.
    - destruct (run_cmd c phi) as [psi|] eqn:E; simpl.
      + eapply exec_step; eauto using same_refl, same_cmd_refl.
      + eapply exec_panic; eauto using same_refl, same_cmd_refl.
  Qed.
End Commands.

(** ** C03, C11: reductions in exact arithmetic *)

Local Open Scope R_scope.

Lemma rsum_perm l l' : Permutation l l' -> rsum l = rsum l'.
Proof. induction 1; simpl; try lra; congruence. Qed.

Lemma rsum_app a b : rsum (a ++ b) = rsum a + rsum b.
Proof. induction a; simpl; try lra. Qed.

Lemma fold_left_rsum {A} (g : A -> R) l acc :
  fold_left (fun a x => a + g x) l acc = acc + rsum (map g l).
Proof. revert acc. induction l as [|x l IH]; intros acc; simpl; [lra|]. rewrite IH. lra. Qed.

Lemma fold_left_Rplus l acc : fold_left Rplus l acc = acc + rsum l.
Proof. revert acc. induction l as [|x l IH]; intros acc; simpl; [lra|]. rewrite IH. lra. Qed.

Lemma rsum_filter {A} (p : A -> bool) (g : A -> R) l :
  (forall x, In x l -> p x = false -> g x = 0) ->
  rsum (map g l) = rsum (map g (filter p l)).
Proof.
  induction l as [|x l IH]; simpl; intros E; auto.
  destruct (p x) eqn:P; simpl; rewrite IH; auto. rewrite (E x); auto. lra.
Qed.

(** A sum over the stored entries is a sum over all indices. *)
Lemma rsum_sparse (m : hmap R) d (g : nat -> R -> R) : hm_ok m ->
  (forall k, In k (hm_keys m) -> (k < d)%nat) -> (forall k, g k 0 = 0) ->
  rsum (map (fun kv => g (fst kv) (snd kv)) m) =
  rsum (map (fun i => g i (get_or_zero m i)) (seq 0 d)).
Proof.
  intros K B Z.
  rewrite (rsum_perm _ _ (Permutation_map _ (enum_map m d K B))), map_map. simpl.
  symmetry. apply rsum_filter. intros i _. unfold hm_mem, get_or_zero.
  destruct (hm_get m i); [discriminate|]. intros _. rewrite fzero_R. apply Z.
Qed.

Lemma dot_sparse_sum d (m : hmap R) w :
  (forall k, In k (hm_keys m) -> (k < length w)%nat) ->
  dot_sparse (MkSparse d m) w = Ret (rsum (map (fun kv => nth (fst kv) w 0 * snd kv) m)).
Proof.
  unfold dot_sparse. simpl. rewrite fzero_R.
  assert (G : forall acc, (forall k, In k (hm_keys m) -> (k < length w)%nat) ->
    ofold (fun acc kv => let* x := vget w (fst kv) in Ret (acc + x * snd kv)) m acc =
    Ret (acc + rsum (map (fun kv => nth (fst kv) w 0 * snd kv) m))).
  { induction m as [|[k v] m IH]; intros acc B; simpl.
    - f_equal. lra.
    - destruct (vget_lt w k) as (x & E & N); [apply B; simpl; auto|]. rewrite E. simpl.
      rewrite IH by (intros j J; apply B; simpl; auto).
      rewrite (nth_error_nth w k 0 N). f_equal. lra. }
  intros B. rewrite G by assumption. f_equal. lra.
Qed.

Lemma nth_map_seq {A} (g : nat -> A) d i x : (i < d)%nat -> nth i (map g (seq 0 d)) x = g i.
Proof.
  intros L. apply nth_error_nth. rewrite nth_error_map', nth_error_seq.
  destruct (Nat.ltb_spec i d); [reflexivity|lia].
Qed.

Lemma rdot_seq (a b : list R) : length a = length b ->
  rdot a b = rsum (map (fun i => nth i a 0 * nth i b 0) (seq 0 (length a))).
Proof.
  unfold rdot. revert b. induction a as [|x a IH]; intros [|y b]; simpl; try discriminate; auto.
  intros L. rewrite IH by lia. f_equal. rewrite <- seq_shift, map_map. reflexivity.
Qed.

Lemma rdot_comm a b : rdot a b = rdot b a.
Proof.
  unfold rdot. revert b. induction a as [|x a IH]; intros [|y b]; simpl; auto.
  rewrite IH. lra.
Qed.

Theorem fsum_expands (phi : Features R) l : wf phi -> expands phi l -> fsum phi = rsum l.
Proof.
  intros [K B] X. destruct phi as [da|[d m]].
  - apply expands_dense in X. subst. reflexivity.
  - rewrite bounded_sparse in B. apply expands_map in X; auto. subst l.
    simpl. rewrite fzero_R.
    rewrite fold_left_Rplus.
    pose proof (rsum_sparse m d (fun _ v => v) K B (fun _ => eq_refl)) as E. simpl in E.
    change (map (fun kv => snd kv) m) with (hm_values m) in E. rewrite E. ring_simplify.
    reflexivity.
Qed.

Theorem dot_expands (phi : Features R) l w : wf phi -> expands phi l ->
  length w = size phi -> dot phi w = Ret (rdot l w).
Proof.
  intros [K B] X L. destruct phi as [da|[d m]].
  - apply expands_dense in X. subst. simpl in *. unfold dot1.
    rewrite L, Nat.eqb_refl. reflexivity.
  - rewrite bounded_sparse in B. simpl in L. simpl.
    rewrite dot_sparse_sum by (rewrite L; auto). f_equal.
    rewrite (rsum_sparse m d (fun i v => nth i w 0 * v) K B) by (intros; lra).
    apply expands_map in X; auto. subst l. rewrite rdot_seq by (rewrite map_length, seq_length; auto).
    rewrite map_length, seq_length. f_equal. apply map_ext_in. intros i I. apply in_seq in I.
    rewrite nth_map_seq by lia. lra.
Qed.

Theorem fsum_same (phi psi : Features R) : same phi psi -> fsum phi = fsum psi.
Proof.
  destruct phi as [|[d m]], psi as [|[d' m']]; simpl; try tauto; try congruence.
  intros [_ P]. rewrite fzero_R, !fold_left_Rplus.
  f_equal. apply rsum_perm, Permutation_map, P.
Qed.

Theorem dot_same (phi psi : Features R) w : keyed phi -> same phi psi -> dot phi w = dot psi w.
Proof.
  destruct phi as [|[d m]], psi as [|[d' m']]; simpl; try tauto; try congruence.
  intros K [-> P].
  destruct (forallb (fun k => (k <? length w)%nat) (hm_keys m)) eqn:E.
  - rewrite forallb_forall in E.
    rewrite !dot_sparse_sum.
    + f_equal. apply rsum_perm, Permutation_map, P.
    + intros k I. apply Nat.ltb_lt, E. eapply Permutation_in; [|exact I].
      apply Permutation_sym, Permutation_map, P.
    + intros k I. apply Nat.ltb_lt, E, I.
  - assert (G : forall q, (exists k, In k (hm_keys q) /\ (length w <= k)%nat) ->
      dot_sparse (MkSparse d' q) w = Panic).
    { clear. intros q (k & I & L). unfold dot_sparse. simpl. generalize (fzero : R).
      induction q as [|[j v] q IH]; simpl in *; [tauto|]. intros acc.
      destruct I as [->|I].
      - rewrite vget_ge by assumption. reflexivity.
      - destruct (vget w j); simpl; auto. }
    assert (Ex : exists k, In k (hm_keys m) /\ (length w <= k)%nat).
    { clear -E. revert E. generalize (hm_keys m). induction l as [|k l IH]; simpl; [discriminate|].
      destruct (Nat.ltb_spec k (length w)); simpl.
      - intros E. destruct (IH E) as (j & J & L). eauto.
      - eauto. }
    rewrite !G; auto. destruct Ex as (k & I & L). exists k. split; auto.
    eapply Permutation_in; [|exact I]. apply Permutation_map, P.
Qed.

(** *** inner product of two feature vectors *)

Lemma count_common {F} (m1 m2 : hmap F) acc :
  fold_left (fun acc k => (acc + if hm_mem m2 k then 1 else 0)%nat) (hm_keys m1) acc =
  (acc + length (filter (hm_mem m2) (hm_keys m1)))%nat.
Proof.
  revert acc. induction (hm_keys m1) as [|k l IH]; intros acc; simpl; [lia|].
  rewrite IH. destruct (hm_mem m2 k); simpl; lia.
Qed.

Theorem dot_features_sparse {F} `{Scalar F} d1 m1 d2 m2 : hm_ok m1 -> hm_ok m2 ->
  exists l, NoDup l /\
    (forall i, In i l <-> stored (Sparse (MkSparse d1 m1)) i /\ stored (Sparse (MkSparse d2 m2)) i) /\
    dot_features (Sparse (MkSparse d1 m1)) (Sparse (MkSparse d2 m2)) = Ret (fofnat (length l)).
Proof.
  intros K1 K2. exists (filter (hm_mem m2) (hm_keys m1)). splits.
  - apply NoDup_filter, K1.
  - intros i. rewrite !stored_key, filter_In, hm_mem_In. tauto.
  - simpl. rewrite count_common. reflexivity.
Qed.

Theorem dot_features_spec (a b : Features R) la lb : wf a -> wf b -> size a = size b ->
  expands a la -> expands b lb -> is_sparse a && is_sparse b = false ->
  dot_features a b = Ret (rdot la lb).
Proof.
  intros Wa Wb S Xa Xb V.
  destruct a as [da|[d1 m1]], b as [db|[d2 m2]]; try discriminate.
  - apply expands_dense in Xa, Xb. subst. simpl in *. unfold dot1. rewrite S, Nat.eqb_refl. reflexivity.
  - apply expands_dense in Xa. subst. simpl in S.
    change (dot (Sparse (MkSparse d2 m2)) da = Ret (rdot da lb)).
    rewrite rdot_comm. apply dot_expands; auto.
  - apply expands_dense in Xb. subst. simpl in S.
    change (dot (Sparse (MkSparse d1 m1)) db = Ret (rdot la db)).
    apply dot_expands; auto.
Qed.

Lemma rsum_const_INR {A} (l : list A) (g : A -> R) :
  (forall x, In x l -> g x = 1) -> rsum (map g l) = INR (length l).
Proof.
  induction l as [|x l IH]; intros E; auto.
  change (rsum (map g (x :: l))) with (g x + rsum (map g l)).
  rewrite E by (simpl; auto). rewrite IH by (intros; apply E; simpl; auto).
  change (length (x :: l)) with (S (length l)). rewrite S_INR. lra.
Qed.

Theorem dot_features_unitary (a b : Features R) la lb : wf a -> wf b -> size a = size b ->
  is_sparse a = true -> is_sparse b = true ->
  (forall i v, stores a i v -> v = 1) -> (forall i v, stores b i v -> v = 1) ->
  expands a la -> expands b lb -> dot_features a b = Ret (rdot la lb).
Proof.
  intros [Ka Ba] [Kb Bb] S Va Vb Ua Ub Xa Xb.
  destruct a as [|[d m1]], b as [|[d2 m2]]; try discriminate. simpl in S. subst d2.
  rewrite bounded_sparse in Ba, Bb.
  simpl. rewrite count_common. simpl. f_equal.
  apply expands_map in Xa, Xb; auto. subst.
  rewrite rdot_seq by (rewrite !map_length; auto). rewrite map_length, seq_length.
  assert (E : map (fun i => nth i (map (get_or_zero m1) (seq 0 d)) 0 * nth i (map (get_or_zero m2) (seq 0 d)) 0) (seq 0 d)
            = map (fun i => get_or_zero m1 i * get_or_zero m2 i) (seq 0 d)).
  { apply map_ext_in. intros i I. apply in_seq in I.
    rewrite !nth_map_seq by lia. reflexivity. }
  rewrite E.
  assert (G : forall (m : hmap R) i, hm_ok m -> (forall j v, In (j, v) m -> v = 1) ->
     get_or_zero m i = if hm_mem m i then 1 else 0).
  { intros m i K U. unfold get_or_zero, hm_mem. destruct (hm_get m i) eqn:G.
    - apply hm_get_In in G. eauto.
    - apply fzero_R. }
  rewrite (rsum_filter (fun i => hm_mem m1 i && hm_mem m2 i)).
  - rewrite rsum_const_INR.
    + f_equal. assert (P := enum_keys m1 d Ka Ba).
      rewrite (filter_length_perm _ _ _ P).
      clear. induction (seq 0 d) as [|i l IH]; simpl; auto.
      destruct (hm_mem m1 i); simpl; auto. destruct (hm_mem m2 i); simpl; auto.
    + intros i I. apply filter_In in I. destruct I as [_ I]. apply andb_true_iff in I.
      destruct I as [I1 I2].
      rewrite (G m1 i Ka Ua), (G m2 i Kb Ub), I1, I2. lra.
  - intros i _. rewrite (G m1 i Ka Ua), (G m2 i Kb Ub).
    destruct (hm_mem m1 i), (hm_mem m2 i); simpl; try discriminate; intros; lra.
Qed.

Theorem dot_features_sym (a b : Features R) : wf a -> wf b -> size a = size b ->
  dot_features a b = dot_features b a.
Proof.
  intros Wa Wb S. destruct (is_sparse a && is_sparse b) eqn:V.
  - destruct a as [|[d1 m1]], b as [|[d2 m2]]; try discriminate.
    destruct (dot_features_sparse d1 m1 d2 m2) as (l & N & I & ->); [apply Wa|apply Wb|].
    destruct (dot_features_sparse d2 m2 d1 m1) as (l' & N' & I' & ->); [apply Wb|apply Wa|].
    do 2 f_equal. apply Permutation_length, NoDup_Permutation; auto.
    intros i. rewrite I, I'. tauto.
  - destruct (expands_exists a (proj1 Wa)) as [la Xa], (expands_exists b (proj1 Wb)) as [lb Xb].
    rewrite (dot_features_spec a b la lb), (dot_features_spec b a lb la); auto.
    + rewrite rdot_comm. reflexivity.
    + rewrite andb_comm. exact V.
Qed.
