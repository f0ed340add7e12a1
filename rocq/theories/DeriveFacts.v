(** Facts about derived (de)serialisation. *)
From Coq Require Import String List Arith Lia Permutation Bool.
From Verif Require Import Base Scalar HMap NdArray Features FeatureFacts Kernels TileCoding Basis Optim Serde SerdeFacts Derive.
Import ListNotations.
Local Open Scope list_scope.
Local Open Scope nat_scope.

Lemma dbind_ok {A B} (x : outcome (de_result A)) (f : A -> outcome (de_result B)) b :
  dbind x f = Ret (DeOk b) <-> exists a, x = Ret (DeOk a) /\ f a = Ret (DeOk b).
Proof.
  destruct x as [[a|e]|]; simpl; split; try discriminate.
  - eauto.
  - intros (a' & E & Q). congruence.
  - intros (a' & E & _). discriminate.
  - intros (a' & E & _). discriminate.
Qed.

Lemma dbind_total {A B} (x : outcome (de_result A)) (f : A -> outcome (de_result B)) :
  x <> Panic -> (forall a, x = Ret (DeOk a) -> f a <> Panic) -> dbind x f <> Panic.
Proof. destruct x as [[a|e]|]; simpl; intros; auto; discriminate. Qed.

Section Facts.
  Context {F : Type} `{Scalar F}.
  Local Notation value := (value F).
  Local Notation dec := (dec F).
  Implicit Types (m : list (wire_key * value)) (fs : list (field_de F)).

  (** ** Derived structs *)

  (** [m] has exactly one entry for the field called [name] at position [i],
      and its value is read as [x]. *)
  Definition holds {T} m (name : string) (i : nat) (d : dec T) (x : T) : Prop :=
    exists k v, filter (fun kv => names (fst kv) name i) m = [(k, v)] /\ d v = Ret (DeOk x).

  Fixpoint holds_all (i : nat) fs m : full fs -> Prop :=
    match fs with
    | [] => fun _ => True
    | f :: fs' => fun x => holds m (fd_name f) i (fd_de f) (fst x) /\ holds_all (S i) fs' m (snd x)
    end.

  Fixpoint putall (i : nat) fs m (s : slots fs) : outcome (de_result (slots fs)) :=
    match m with
    | [] => dret s
    | (k, v) :: m' => dbind (put i fs k v s) (putall i fs m')
    end.
  Lemma put_all_0 fs m s : put_all fs m s = putall 0 fs m s.
  Proof.
    revert s. induction m as [|[k v] m IH]; intros s; [reflexivity|]. cbn [put_all putall].
    destruct (put 0 fs k v s) as [[s'|e]|]; [apply IH|reflexivity|reflexivity].
  Qed.

  Definition matching (f : field_de F) i m := filter (fun kv => names (fst kv) (fd_name f) i) m.
  Definition others (f : field_de F) i m := filter (fun kv => negb (names (fst kv) (fd_name f) i)) m.

  Definition first_slot (f : field_de F) i m (o o' : option (fd_type f)) : Prop :=
    match matching f i m with
    | [] => o' = o
    | [(k, v)] => o = None /\ exists x, fd_de f v = Ret (DeOk x) /\ o' = Some x
    | _ => False
    end.

  Lemma putall_cons i f fs m (o o' : option (fd_type f)) (s s' : slots fs) :
    putall i (f :: fs) m (o, s) = Ret (DeOk (o', s')) <->
    first_slot f i m o o' /\ putall (S i) fs (others f i m) s = Ret (DeOk s').
  Proof.
    revert o s. induction m as [|[k v] m IH]; intros o s.
    - unfold first_slot. simpl. unfold dret. split; [intros E; injection E as -> ->; auto|intros [-> E]; injection E as ->; reflexivity].
    - unfold first_slot, matching, others. cbn [putall put filter fst snd].
      destruct (names k (fd_name f) i) eqn:N; cbn [negb].
      + destruct o as [x|].
        * simpl. split; [discriminate|]. intros [X _]. destruct (filter _ m); [|contradiction]. destruct X; discriminate.
        * fold (matching f i m). fold (others f i m). destruct (fd_de f v) as [[x|e]|] eqn:D; simpl.
          -- rewrite IH. unfold first_slot. destruct (matching f i m) as [|[k' v'] [|]].
             ++ split; intros [A B]; (split; [|exact B]).
                ** subst. eauto.
                ** destruct A as (_ & y & Q & ->). congruence.
             ++ split; intros [A B]; [destruct A; discriminate|contradiction].
             ++ split; intros [A B]; contradiction.
          -- split; [discriminate|]. intros [A _]. destruct (matching f i m); [|contradiction]. destruct A as (_ & y & Q & _). congruence.
          -- split; [discriminate|]. intros [A _]. destruct (matching f i m); [|contradiction]. destruct A as (_ & y & Q & _). congruence.
      + fold (matching f i m). fold (others f i m). cbn [putall]. destruct (put (S i) fs k v s) as [[s1|e]|]; simpl.
        * rewrite IH. reflexivity.
        * split; [discriminate|]. intros [_ A]. discriminate.
        * split; [discriminate|]. intros [_ A]. discriminate.
  Qed.

  (** A key belongs to one field only. *)
  Lemma names_once k n n' i i' : names k n i = true -> n <> n' -> i <> i' -> names k n' i' = false.
  Proof.
    destruct k as [s|p]; simpl; intros E N I.
    - apply String.eqb_eq in E. subst. now apply String.eqb_neq.
    - apply Nat.eqb_eq in E. subst. now apply Nat.eqb_neq.
  Qed.

  Lemma others_holds {T} f i m name j (d : dec T) x : fd_name f <> name -> i <> j ->
    holds (others f i m) name j d x <-> holds m name j d x.
  Proof.
    intros N I. unfold holds, others.
    replace (filter (fun kv => names (fst kv) name j) (filter (fun kv => negb (names (fst kv) (fd_name f) i)) m))
      with (filter (fun kv => names (fst kv) name j) m); [reflexivity|].
    induction m as [|[k v] m IH]; [reflexivity|]. cbn [filter fst]. destruct (names k name j) eqn:E.
    - assert (Q : names k (fd_name f) i = false) by (apply (names_once k name (fd_name f) j i E); auto).
      rewrite Q. cbn [negb filter fst]. rewrite E. now f_equal.
    - destruct (names k (fd_name f) i); cbn [negb filter fst]; [exact IH|]. rewrite E. exact IH.
  Qed.

  Lemma others_holds_all f i j fs m (x : full fs) : i < j -> ~ In (fd_name f) (map fd_name fs) ->
    holds_all j fs (others f i m) x <-> holds_all j fs m x.
  Proof.
    revert j. induction fs as [|g fs IH]; intros j L N; [reflexivity|]. cbn [holds_all].
    simpl in N. rewrite others_holds, IH; [reflexivity|lia|tauto| |lia]. intros E. apply N. left. auto.
  Qed.

  Lemma struct_map_holds i fs m (x : full fs) : NoDup (map fd_name fs) ->
    (exists s, putall i fs m (no_slots fs) = Ret (DeOk s) /\ finish fs s = Ret (DeOk x)) <-> holds_all i fs m x.
  Proof.
    revert i m. induction fs as [|f fs IH]; intros i m ND.
    - simpl. split; [auto|]. intros _. exists tt. destruct x. split; [|reflexivity].
      induction m as [|[k v] m IHm]; [reflexivity|]. simpl. exact IHm.
    - simpl in ND. apply NoDup_cons_iff in ND. destruct ND as [NI ND]. destruct x as [x y]. cbn [holds_all fst snd].
      rewrite <- (others_holds_all f i (S i)) by (auto; lia). rewrite <- IH by auto. split.
      + intros ([o s] & P & Q). cbn [no_slots] in P. apply putall_cons in P. destruct P as [P1 P2].
        cbn [finish fst snd] in Q. destruct o as [x'|]; [|discriminate]. apply dbind_ok in Q. destruct Q as (y' & Q & R).
        injection R as -> ->. split; [|exists s; auto]. unfold first_slot in P1. unfold holds. fold (matching f i m).
        destruct (matching f i m) as [|[k v] [|]]; [discriminate| |contradiction].
        destruct P1 as (_ & z & D & E). injection E as <-. eauto.
      + intros [(k & v & E & D) (s & P & Q)]. exists (Some x, s). split.
        * cbn [no_slots]. apply putall_cons. split; [|exact P]. unfold first_slot. fold (matching f i m) in E. rewrite E. eauto.
        * cbn [finish fst snd]. rewrite Q. reflexivity.
  Qed.

  Lemma de_struct_map_ok fs m (x : full fs) : NoDup (map fd_name fs) ->
    de_struct_map fs m = Ret (DeOk x) <-> holds_all 0 fs m x.
  Proof.
    intros ND. unfold de_struct_map. rewrite dbind_ok, <- struct_map_holds by auto.
    split; intros (s & A & B); exists s; rewrite ?put_all_0 in *; auto.
  Qed.

  Lemma de_struct_map_iff {A} fs (mk : full fs -> A) m a : NoDup (map fd_name fs) ->
    de_struct fs mk (VMap m) = Ret (DeOk a) <-> exists x, holds_all 0 fs m x /\ a = mk x.
  Proof.
    intros ND. unfold de_struct. rewrite dbind_ok. split; intros (x & E & Q); exists x.
    - apply de_struct_map_ok in E; auto. unfold dret in Q. split; congruence.
    - subst a. split; [now apply de_struct_map_ok|reflexivity].
  Qed.

  (** The sequence starts with one value per field, in order. *)
  Fixpoint holds_seq fs (l : list value) : full fs -> Prop :=
    match fs with
    | [] => fun _ => True
    | f :: fs' => fun x => exists v l', l = v :: l' /\ fd_de f v = Ret (DeOk (fst x)) /\ holds_seq fs' l' (snd x)
    end.
  Lemma de_struct_seq_ok i fs l (x : full fs) : de_struct_seq i fs l = Ret (DeOk x) <-> holds_seq fs l x.
  Proof.
    revert i l. induction fs as [|f fs IH]; intros i l.
    - simpl. destruct x. split; auto.
    - cbn [de_struct_seq holds_seq]. destruct l as [|v l].
      + split; [discriminate|]. intros (v & l' & E & _). discriminate.
      + destruct x as [x y]. cbn [fst snd]. rewrite dbind_ok. split.
        * intros (a & D & Q). apply dbind_ok in Q. destruct Q as (b & Q & R). injection R as -> ->.
          exists v, l. splits; auto. eapply IH; eauto.
        * intros (v' & l' & E & D & Q). injection E as <- <-. exists x. split; [exact D|]. apply dbind_ok.
          exists y. split; [now apply IH|reflexivity].
  Qed.
  Lemma de_struct_seq_iff {A} fs (mk : full fs -> A) l a :
    de_struct fs mk (VSeq l) = Ret (DeOk a) <-> exists x, holds_seq fs l x /\ a = mk x.
  Proof.
    unfold de_struct. rewrite dbind_ok. split; intros (x & E & Q); exists x.
    - apply de_struct_seq_ok in E. unfold dret in Q. split; congruence.
    - subst a. split; [now apply de_struct_seq_ok|reflexivity].
  Qed.

  (** The order of the entries does not matter. *)
  Lemma filter_perm {A} (p : A -> bool) l l' : Permutation l l' -> Permutation (filter p l) (filter p l').
  Proof.
    induction 1 as [|a l l' P IH|a b l|l l' l'' P1 IH1 P2 IH2]; simpl.
    - constructor.
    - destruct (p a); auto.
    - destruct (p a), (p b); auto. apply perm_swap.
    - now transitivity (filter p l').
  Qed.
  Lemma holds_perm {T} m m' name i (d : dec T) x : Permutation m m' -> holds m name i d x -> holds m' name i d x.
  Proof.
    intros P (k & v & E & D). exists k, v. split; auto.
    assert (Q := filter_perm (fun kv => names (fst kv) name i) _ _ P). rewrite E in Q. now apply Permutation_length_1_inv in Q.
  Qed.
  Lemma holds_all_perm i fs m m' (x : full fs) : Permutation m m' -> holds_all i fs m x -> holds_all i fs m' x.
  Proof.
    intros P. revert i. induction fs as [|f fs IH]; intros i; [auto|]. cbn [holds_all]. intros [A B].
    split; eauto using holds_perm.
  Qed.

  (** Entries under keys of no field do not matter. *)
  Definition stranger fs (k : wire_key) : Prop :=
    match k with KName s => ~ In s (map fd_name fs) | KPos n => length fs <= n end.
  Lemma put_stranger i fs k v s : (match k with KName n => ~ In n (map fd_name fs) | KPos n => n < i \/ i + length fs <= n end) ->
    put i fs k v s = Ret (DeOk s).
  Proof.
    revert i s. induction fs as [|f fs IH]; intros i s N; [reflexivity|]. destruct s as [o s].
    cbn [put fst snd]. assert (E : names k (fd_name f) i = false).
    { destruct k as [n|n]; simpl in *; [apply String.eqb_neq|apply Nat.eqb_neq; lia]. intros ->. apply N. now left. }
    rewrite E, IH; [reflexivity|]. destruct k as [n|n]; simpl in *; [tauto|lia].
  Qed.
  Lemma de_struct_map_stranger fs m1 k v m2 : stranger fs k ->
    de_struct_map fs (m1 ++ (k, v) :: m2) = de_struct_map fs (m1 ++ m2).
  Proof.
    intros N. unfold de_struct_map. f_equal. generalize (no_slots fs). induction m1 as [|[k' v'] m1 IH]; intros s.
    - cbn [app put_all]. rewrite put_stranger; [reflexivity|]. destruct k; simpl in *; auto.
    - cbn [app put_all]. destruct (put 0 fs k' v' s) as [[s'|e]|]; simpl; auto.
  Qed.
  Lemma de_struct_stranger {A} fs (mk : full fs -> A) m1 k v m2 : stranger fs k ->
    de_struct fs mk (VMap (m1 ++ (k, v) :: m2)) = de_struct fs mk (VMap (m1 ++ m2)).
  Proof. intros N. unfold de_struct. now rewrite de_struct_map_stranger. Qed.

  (** ** Which error *)

  (** Each field has at most one entry in [m], and that one is read. *)
  Fixpoint partly (i : nat) fs m : slots fs -> Prop :=
    match fs with
    | [] => fun _ => True
    | f :: fs' => fun s =>
        match fst s with
        | None => filter (fun kv => names (fst kv) (fd_name f) i) m = []
        | Some x => holds m (fd_name f) i (fd_de f) x
        end /\ partly (S i) fs' m (snd s)
    end.
  Lemma others_filter f i m name j : fd_name f <> name -> i <> j ->
    filter (fun kv => names (fst kv) name j) (others f i m) = filter (fun kv => names (fst kv) name j) m.
  Proof.
    intros N I. unfold others. induction m as [|[k v] m IH]; [reflexivity|]. cbn [filter fst]. destruct (names k name j) eqn:E.
    - assert (Q : names k (fd_name f) i = false) by (apply (names_once k name (fd_name f) j i E); auto).
      rewrite Q. cbn [negb filter fst]. rewrite E. now f_equal.
    - destruct (names k (fd_name f) i); cbn [negb filter fst]; [exact IH|]. rewrite E. exact IH.
  Qed.
  Lemma others_partly f i j fs m (s : slots fs) : i < j -> ~ In (fd_name f) (map fd_name fs) ->
    partly j fs (others f i m) s <-> partly j fs m s.
  Proof.
    revert j. induction fs as [|g fs IH]; intros j L N; [reflexivity|]. cbn [partly]. simpl in N.
    rewrite IH by (try lia; tauto). assert (Ng : fd_name f <> fd_name g) by (intros E; apply N; left; auto).
    destruct (fst s) as [x|].
    - rewrite others_holds; [reflexivity|auto|lia].
    - rewrite others_filter; [reflexivity|auto|lia].
  Qed.
  Lemma putall_partly i fs m (s : slots fs) : NoDup (map fd_name fs) ->
    putall i fs m (no_slots fs) = Ret (DeOk s) <-> partly i fs m s.
  Proof.
    revert i m. induction fs as [|f fs IH]; intros i m ND.
    - simpl. split; [auto|]. intros _. destruct s. induction m as [|[k v] m IHm]; [reflexivity|]. simpl. exact IHm.
    - simpl in ND. apply NoDup_cons_iff in ND. destruct ND as [NI ND]. destruct s as [o s]. cbn [no_slots partly fst snd].
      rewrite putall_cons, IH by auto. rewrite (others_partly f i (S i)) by (auto; lia).
      apply and_iff_compat_r. unfold first_slot, holds. fold (matching f i m).
      destruct (matching f i m) as [|[k v] [|kv' r]].
      + split; [intros ->; reflexivity|]. destruct o; [|auto]. intros (k & v & E & _). discriminate.
      + split.
        * intros (_ & x & D & ->). eauto.
        * destruct o as [x|]; [|discriminate]. intros (k' & v' & E & D). injection E as <- <-. eauto.
      + split; [contradiction|]. destruct o as [x|]; [|discriminate]. intros (k' & v' & E & _). discriminate.
  Qed.

  (** The first field without an entry is reported. *)
  Fixpoint first_missing fs : slots fs -> option string :=
    match fs with
    | [] => fun _ => None
    | f :: fs' => fun s => match fst s with None => Some (fd_name f) | Some _ => first_missing fs' (snd s) end
    end.
  Lemma finish_missing fs s name : first_missing fs s = Some name -> finish fs s = Ret (DeErr (MissingField name)).
  Proof.
    induction fs as [|f fs IH]; intros E; [discriminate|]. cbn [first_missing finish] in *. destruct (fst s).
    - now rewrite (IH _ E).
    - injection E as <-. reflexivity.
  Qed.
  Lemma de_struct_missing {A} fs (mk : full fs -> A) m s name : NoDup (map fd_name fs) -> partly 0 fs m s ->
    first_missing fs s = Some name -> de_struct fs mk (VMap m) = Ret (DeErr (MissingField name)).
  Proof.
    intros ND P E. unfold de_struct, de_struct_map. rewrite put_all_0, (proj2 (putall_partly 0 fs m s ND) P). simpl.
    now rewrite (finish_missing _ _ _ E).
  Qed.

  (** A second entry is refused before its value is looked at. *)
  Fixpoint has_slot (i : nat) fs (k : wire_key) (name : string) : slots fs -> Prop :=
    match fs with
    | [] => fun _ => False
    | f :: fs' => fun s => (names k (fd_name f) i = true /\ fd_name f = name /\ fst s <> None) \/
        (names k (fd_name f) i = false /\ has_slot (S i) fs' k name (snd s))
    end.
  Lemma put_twice i fs k v s name : has_slot i fs k name s -> put i fs k v s = Ret (DeErr (DuplicateField name)).
  Proof.
    revert i s. induction fs as [|f fs IH]; intros i s E; [contradiction|]. cbn [has_slot put] in *.
    destruct E as [(N & <- & E)|(N & E)]; rewrite N.
    - destruct (fst s); [reflexivity|congruence].
    - now rewrite (IH _ _ E).
  Qed.
  Lemma put_all_app fs m1 m2 s : put_all fs (m1 ++ m2) s = dbind (put_all fs m1 s) (put_all fs m2).
  Proof.
    revert s. induction m1 as [|[k v] m1 IH]; intros s; [reflexivity|]. cbn [app put_all].
    destruct (put 0 fs k v s) as [[s'|e]|]; simpl; auto.
  Qed.
  Lemma de_struct_twice {A} fs (mk : full fs -> A) m s k v rest name : NoDup (map fd_name fs) -> partly 0 fs m s ->
    has_slot 0 fs k name s -> de_struct fs mk (VMap (m ++ (k, v) :: rest)) = Ret (DeErr (DuplicateField name)).
  Proof.
    intros ND P E. unfold de_struct, de_struct_map. rewrite put_all_app, put_all_0, (proj2 (putall_partly 0 fs m s ND) P). simpl.
    now rewrite (put_twice 0 fs k v s name E).
  Qed.

  (** ** Collections *)

  Lemma de_list_ok {T} (d : dec T) l xs : de_list d l = Ret (DeOk xs) <-> Forall2 (fun v x => d v = Ret (DeOk x)) l xs.
  Proof.
    revert xs. induction l as [|v l IH]; intros xs; cbn [de_list].
    - split; [intros E; injection E as <-; constructor|intros E; inversion E; reflexivity].
    - rewrite dbind_ok. split.
      + intros (x & D & E). apply dbind_ok in E. destruct E as (ys & E & Q). injection Q as <-. constructor; auto. now apply IH.
      + intros E. inversion E as [|? x ? ys D Q]; subst. exists x. split; auto. apply IH in Q. now rewrite Q.
  Qed.
  Lemma de_pair_ok {A B} (da : dec A) (db : dec B) v x y : de_pair da db v = Ret (DeOk (x, y)) <->
    exists a b more, v = VSeq (a :: b :: more) /\ da a = Ret (DeOk x) /\ db b = Ret (DeOk y).
  Proof.
    split.
    - destruct v; try discriminate. destruct l as [|a [|b l]]; try discriminate; cbn [de_pair]; intros E; apply dbind_ok in E;
        destruct E as (x' & D & E); [discriminate|]. apply dbind_ok in E. destruct E as (y' & D' & E). injection E as <- <-. eauto 6.
    - intros (a & b & more & -> & D & D'). cbn [de_pair]. rewrite D. simpl. rewrite D'. reflexivity.
  Qed.
  Lemma de_entries_get m acc a : de_entries m acc = Ret (DeOk a) <->
    exists es, Forall2 (fun kv ix => fst kv = KPos (fst ix) /\ de_f64 (snd kv) = Ret (DeOk (snd ix))) m es /\
      a = fold_left (fun acc ix => hm_insert acc (fst ix) (snd ix)) es acc.
  Proof.
    revert acc. induction m as [|[k v] m IH]; intros acc; cbn [de_entries].
    - split; [intros E; injection E as <-; exists []; split; [constructor|reflexivity]|].
      intros (es & Q & ->). inversion Q. reflexivity.
    - rewrite dbind_ok. split.
      + intros (i & K & E). apply dbind_ok in E. destruct E as (x & D & E). apply IH in E. destruct E as (es & Q & ->).
        exists ((i, x) :: es). split; [|reflexivity]. constructor; auto. split; [|exact D].
        destruct k; [discriminate|]. unfold de_index_key, dret in K. simpl. congruence.
      + intros (es & Q & ->). inversion Q as [|? [i x] ? es' [K D] Q']; subst. simpl in K, D. subst k.
        exists i. split; [reflexivity|]. apply dbind_ok. exists x. split; [exact D|]. apply IH. eauto.
  Qed.
  Lemma hm_get_insert (a : hmap F) i x j : hm_get (hm_insert a i x) j = if i =? j then Some x else hm_get a j.
  Proof.
    induction a as [|[k y] a IH]; simpl; [reflexivity|]. destruct (Nat.eqb_spec k i) as [->|N]; simpl.
    - destruct (i =? j); reflexivity.
    - rewrite IH. destruct (Nat.eqb_spec k j) as [->|]; [|reflexivity]. rewrite (proj2 (Nat.eqb_neq i j)) by auto. reflexivity.
  Qed.
  Lemma fold_insert_get (es : list (nat * F)) acc j :
    hm_get (fold_left (fun acc ix => hm_insert acc (fst ix) (snd ix)) es acc) j =
    match find (fun ix => fst ix =? j) (rev es) with Some ix => Some (snd ix) | None => hm_get acc j end.
  Proof.
    revert acc. induction es as [|[i x] es IH]; intros acc; [reflexivity|]. cbn [fold_left rev fst snd]. rewrite IH, hm_get_insert.
    assert (X : forall (p : nat * F -> bool) l y, find p (l ++ [y]) = match find p l with Some z => Some z | None => if p y then Some y else None end).
    { intros p l y. induction l as [|z l IHl]; simpl; [reflexivity|]. destruct (p z); auto. }
    rewrite X. destruct (find _ (rev es)); [reflexivity|]. simpl. destruct (i =? j); reflexivity.
  Qed.
  Lemma set_collect_in l acc i : In i (fold_left set_insert l acc) <-> In i acc \/ In i l.
  Proof.
    revert acc. induction l as [|j l IH]; intros acc; simpl; [tauto|]. rewrite IH. unfold set_insert.
    destruct (existsb (Nat.eqb j) acc) eqn:E.
    - apply existsb_exists in E. destruct E as (k & I & E). apply Nat.eqb_eq in E. subst k. split; [tauto|]. intros [?|[->|?]]; auto.
    - rewrite in_app_iff. simpl. tauto.
  Qed.

  (** ** No panics *)

  Lemma put_total i fs k v s : Forall (fun f => forall w, fd_de f w <> Panic) fs -> put i fs k v s <> Panic.
  Proof.
    intros T. revert i s. induction T as [|f fs Tf T IH]; intros i s; [discriminate|]. cbn [put].
    destruct (names k (fd_name f) i).
    - destruct (fst s); [discriminate|]. apply dbind_total; [apply Tf|]. intros; discriminate.
    - apply dbind_total; [apply IH|]. intros; discriminate.
  Qed.
  Lemma finish_total fs s : finish fs s <> Panic.
  Proof.
    induction fs as [|f fs IH]; [discriminate|]. cbn [finish]. destruct (fst s); [|discriminate].
    apply dbind_total; [apply IH|]. intros; discriminate.
  Qed.
  Lemma de_struct_total {A} fs (mk : full fs -> A) v : Forall (fun f => forall w, fd_de f w <> Panic) fs ->
    de_struct fs mk v <> Panic.
  Proof.
    intros T. destruct v; try discriminate; simpl; apply dbind_total; try (intros; discriminate).
    - clear mk. revert l. generalize 0. induction T as [|f fs Tf T IH]; intros i l; [discriminate|]. cbn [de_struct_seq].
      destruct l; [discriminate|]. apply dbind_total; [apply Tf|]. intros. apply dbind_total; [apply IH|]. intros; discriminate.
    - unfold de_struct_map. apply dbind_total; [|intros; apply finish_total]. generalize (no_slots fs).
      induction m as [|[k v] m IH]; intros s; [discriminate|]. cbn [put_all]. apply dbind_total; [now apply put_total|]. auto.
  Qed.

  Lemma de_f64_total (v : value) : de_f64 v <> Panic. Proof. destruct v; discriminate. Qed.
  Lemma de_usize_total (v : value) : de_usize v <> Panic. Proof. destruct v; discriminate. Qed.
  Lemma de_string_total (v : value) : de_string v <> Panic. Proof. destruct v; discriminate. Qed.
  Lemma de_byte_total (v : value) : de_byte v <> Panic.
  Proof. destruct v; try discriminate. simpl. destruct (n <=? 255); discriminate. Qed.
  Lemma de_list_total {T} (d : dec T) l : (forall w, d w <> Panic) -> de_list d l <> Panic.
  Proof.
    intros D. induction l as [|v l IH]; [discriminate|]. cbn [de_list]. apply dbind_total; [apply D|]. intros.
    apply dbind_total; [exact IH|]. intros; discriminate.
  Qed.
  Lemma de_vec_total {T} (d : dec T) v : (forall w, d w <> Panic) -> de_vec d v <> Panic.
  Proof. intros D. destruct v; try discriminate. now apply de_list_total. Qed.
  Lemma de_pair_total {A B} (da : dec A) (db : dec B) v : (forall w, da w <> Panic) -> (forall w, db w <> Panic) ->
    de_pair da db v <> Panic.
  Proof.
    intros Da Db. destruct v; try discriminate. destruct l as [|a [|b l]]; [discriminate| |]; simpl.
    - apply dbind_total; [apply Da|]. intros; discriminate.
    - apply dbind_total; [apply Da|]. intros. apply dbind_total; [apply Db|]. intros; discriminate.
  Qed.
  Lemma de_entries_total m acc : de_entries m acc <> Panic.
  Proof.
    revert acc. induction m as [|[k v] m IH]; intros acc; [discriminate|]. cbn [de_entries].
    apply dbind_total; [destruct k; discriminate|]. intros i _. apply dbind_total; [apply de_f64_total|]. auto.
  Qed.
  Lemma de_hmap_total (v : value) : de_hmap v <> Panic.
  Proof. destruct v; try discriminate. apply de_entries_total. Qed.
  Lemma de_hset_total (v : value) : de_hset v <> Panic.
  Proof. unfold de_hset. apply dbind_total; [apply de_vec_total, de_usize_total|]. intros; discriminate. Qed.
  Lemma de_version_total (v : value) : de_version v <> Panic.
  Proof. unfold de_version. apply dbind_total; [apply de_byte_total|]. intros a _. destruct (a =? 1); discriminate. Qed.
  Lemma from_shape_total {A} (o : option A) : from_shape o <> Panic. Proof. destruct o; discriminate. Qed.
  Lemma de_array_total {D A} (dd : dec D) (b : D -> list F -> option A) v : (forall w, dd w <> Panic) -> de_array dd b v <> Panic.
  Proof.
    intros Dt. destruct v; try discriminate; simpl.
    - destruct l as [|x l]; [discriminate|]. apply dbind_total; [apply de_version_total|]. intros.
      destruct l as [|y l]; [discriminate|]. apply dbind_total; [apply Dt|]. intros.
      destruct l as [|z l]; [discriminate|]. apply dbind_total; [apply de_vec_total, de_f64_total|]. intros. apply from_shape_total.
    - generalize (@None nat) (@None D) (@None (list F)). induction m as [|[k x] m IH]; intros o1 o2 o3; cbn [array_entries].
      + destruct o1; [|discriminate]. destruct o3; [|discriminate]. destruct o2; [|discriminate]. apply from_shape_total.
      + destruct k as [s|]; [|discriminate]. destruct (String.eqb s "v"); [|destruct (String.eqb s "dim"); [|destruct (String.eqb s "data"); [|discriminate]]];
          (apply dbind_total; [|intros; apply IH]); auto using de_version_total, de_vec_total, de_f64_total.
  Qed.
  Lemma de_dim1_total (v : value) : de_dim1 v <> Panic.
  Proof. destruct v; try discriminate. destruct l; [discriminate|]. apply de_usize_total. Qed.
  Lemma de_array1_total (v : value) : de_array1 v <> Panic.
  Proof. apply de_array_total, de_dim1_total. Qed.
  Lemma de_array2_total (v : value) : de_array2 v <> Panic.
  Proof. apply de_array_total. intros. apply de_pair_total; apply de_usize_total. Qed.

  Ltac total := repeat (apply Forall_cons; [cbn [fd_de fd_type]; intros ?w|]); try apply Forall_nil;
    auto using de_f64_total, de_usize_total, de_string_total, de_byte_total, de_vec_total, de_pair_total, de_hmap_total, de_array1_total, de_array2_total.

  Lemma de_opt_total t (v : value) : de_opt t v <> Panic.
  Proof.
    destruct t; cbn [de_opt]; (apply dbind_total; [|intros; discriminate]); try apply de_f64_total; apply de_struct_total; total.
  Qed.
  Lemma de_kind_total (v : value) : de_kind v <> Panic.
  Proof.
    destruct v; try discriminate. unfold de_kind, de_unit_variant.
    repeat (destruct (names _ _ _); [destruct v; discriminate|]). discriminate.
  Qed.
  Lemma de_err_total (v : value) : de_err v <> Panic.
  Proof. apply de_struct_total. total. apply de_kind_total. Qed.
  Lemma de_features_total (v : value) : de_features v <> Panic.
  Proof.
    destruct v; try discriminate. unfold de_features. destruct (names _ _ _).
    - apply dbind_total; [apply de_array1_total|]. intros; discriminate.
    - destruct (names _ _ _); [|discriminate]. apply dbind_total; [|intros; discriminate]. apply de_struct_total. total.
  Qed.
  Lemma de_kernel_total t (v : value) : de_kernel t v <> Panic.
  Proof. destruct t; apply de_struct_total; total. Qed.
  Lemma de_proto_total t (v : value) : de_proto t v <> Panic.
  Proof. apply de_struct_total. total. apply de_kernel_total. Qed.

  (** ** Round trips *)

  Lemma de_list_ser {T} (d : dec T) (s : T -> value) l : (forall x, In x l -> d (s x) = Ret (DeOk x)) ->
    de_list d (map s l) = Ret (DeOk l).
  Proof.
    induction l as [|x l IH]; intros E; [reflexivity|]. cbn [map de_list]. rewrite E by (now left). simpl.
    rewrite IH; [reflexivity|]. intros y I. apply E. now right.
  Qed.
  Lemma de_floats_ser (l : list F) : de_vec de_f64 (ser_floats l) = Ret (DeOk l).
  Proof. simpl. apply de_list_ser. reflexivity. Qed.
  Lemma de_floats2_ser (l : list (list F)) : de_vec (de_vec de_f64) (VSeq (map ser_floats l)) = Ret (DeOk l).
  Proof. apply (de_list_ser _ ser_floats). intros. apply de_floats_ser. Qed.
  Lemma de_limits_ser (l : list (F * F)) : de_vec (de_pair de_f64 de_f64) (ser_limits l) = Ret (DeOk l).
  Proof. apply (de_list_ser (de_pair de_f64 de_f64) (fun p => VSeq [VFloat (fst p); VFloat (snd p)])). intros [a b] _. reflexivity. Qed.

  Ltac rt := cbn -[ser_floats de_vec ser_array1 de_array1 ser_hmap de_hmap de_kernel type_of_kernel ser_kernel]; unfold de_struct_map;
    cbn -[ser_floats de_vec ser_array1 de_array1 ser_hmap de_hmap de_kernel type_of_kernel ser_kernel].

  Lemma de_array1_ser sh (l : list F) : de_array1 (ser_array1 sh l) = Ret (DeOk l).
  Proof.
    destruct sh; cbn -[ser_floats de_vec]; rewrite de_floats_ser; simpl; unfold shape1; rewrite Nat.eqb_refl; reflexivity.
  Qed.

  Lemma chunks_concat (rows : list (list F)) c : Forall (fun r => length r = c) rows ->
    chunks (length rows) c (concat rows) = rows.
  Proof.
    induction 1 as [|r rows L _ IH]; [reflexivity|]. cbn [length chunks concat]. subst c.
    rewrite firstn_app, Nat.sub_diag, firstn_all, firstn_O, app_nil_r, skipn_app, skipn_all, Nat.sub_diag. simpl. now rewrite IH.
  Qed.
  Lemma concat_length (rows : list (list F)) c : Forall (fun r => length r = c) rows -> length (concat rows) = length rows * c.
  Proof. induction 1 as [|r rows L _ IH]; [reflexivity|]. simpl. rewrite app_length. lia. Qed.
  Lemma de_array2_ser sh (m : matrix F) : matrix_ok m -> de_array2 (ser_array2 sh m) = Ret (DeOk m).
  Proof.
    intros M. destruct m as [rows c]. unfold matrix_ok in M. simpl in M.
    destruct sh; cbn -[ser_floats de_vec]; rewrite de_floats_ser; simpl; unfold shape2; cbn [fst snd];
      rewrite (concat_length _ _ M), Nat.eqb_refl, (chunks_concat _ _ M); reflexivity.
  Qed.

  Lemma de_error_ser sh (e : error) : @de_err F (ser_error sh e) = Ret (DeOk e).
  Proof. destruct e as [[| |] s], sh; reflexivity. Qed.

  Lemma hm_insert_new (acc : hmap F) i x : ~ In i (hm_keys acc) -> hm_insert acc i x = acc ++ [(i, x)].
  Proof.
    induction acc as [|[k y] acc IH]; intros N; [reflexivity|]. simpl in N. cbn [hm_insert app].
    rewrite (proj2 (Nat.eqb_neq k i)) by tauto. rewrite IH by tauto. reflexivity.
  Qed.
  Lemma de_entries_ser (m acc : hmap F) : NoDup (hm_keys (acc ++ m)) ->
    de_entries (map (fun kv => (KPos (fst kv), VFloat (snd kv))) m) acc = Ret (DeOk (acc ++ m)).
  Proof.
    revert acc. induction m as [|[i x] m IH]; intros acc ND; [now rewrite app_nil_r|]. simpl.
    rewrite hm_insert_new.
    - rewrite IH; rewrite <- app_assoc; [reflexivity|exact ND].
    - unfold hm_keys in *. rewrite map_app in ND. apply NoDup_remove_2 in ND. simpl in ND. rewrite in_app_iff in ND. tauto.
  Qed.
  Lemma de_hmap_ser (m : hmap F) : hm_ok m -> de_hmap (ser_hmap m) = Ret (DeOk m).
  Proof. intros O. apply (de_entries_ser m []). exact O. Qed.

  Lemma de_features_ser sh (f : Features F) : (forall a, f = Sparse a -> hm_ok (sa_acts a)) ->
    de_features (ser_features sh f) = Ret (DeOk f).
  Proof.
    intros O. destruct f as [l|[n a]].
    - destruct sh; cbn -[ser_array1 de_array1]; rewrite de_array1_ser; reflexivity.
    - specialize (O _ eq_refl). simpl in O.
      destruct sh; rt; rewrite (de_hmap_ser _ O); reflexivity.
  Qed.

  Lemma de_opt_ser sh (o : lib_opt F) : de_opt (type_of_opt o) (ser_opt sh o) = Ret (DeOk o).
  Proof.
    destruct o as [lr|lr|[a b c]|[a b c]|[a b]|[a b c d e f g]|[a b c d e f]]; try reflexivity;
      destruct sh; rt; rewrite ?de_array1_ser; rt; rewrite ?de_array1_ser; reflexivity.
  Qed.

  Lemma de_kernel_ser sh (k : kernel F) : de_kernel (type_of_kernel k) (ser_kernel sh k) = Ret (DeOk k).
  Proof.
    destruct k as [[| | | | |p] v l], sh; unfold type_of_kernel, ser_kernel; cbn [k_kind k_variance k_lengthscales]; unfold de_kernel, de_stationary, de_rational; rt; rewrite de_floats_ser; reflexivity.
  Qed.
  Lemma de_proto_ser sh (p : prototype F) : de_proto (type_of_kernel (p_kernel p)) (ser_proto sh p) = Ret (DeOk p).
  Proof.
    destruct p as [c k]. destruct sh; rt; rewrite de_floats_ser; rt; rewrite de_kernel_ser; reflexivity.
  Qed.

  Lemma de_bytes_ser l : Forall (fun i => i <= 255) l -> de_vec (@de_byte F) (ser_indices l) = Ret (DeOk l).
  Proof.
    intros B. apply (de_list_ser _ VNat). intros x I. rewrite Forall_forall in B. simpl.
    now rewrite (proj2 (Nat.leb_le _ _) (B x I)).
  Qed.
  Lemma set_insert_new s i : ~ In i s -> set_insert s i = s ++ [i].
  Proof.
    intros N. unfold set_insert. destruct (existsb (Nat.eqb i) s) eqn:E; [|reflexivity].
    apply existsb_exists in E. destruct E as (j & I & E). apply Nat.eqb_eq in E. subst. contradiction.
  Qed.
  Lemma set_collect l acc : NoDup (acc ++ l) -> fold_left set_insert l acc = acc ++ l.
  Proof.
    revert acc. induction l as [|i l IH]; intros acc ND; [now rewrite app_nil_r|]. simpl. rewrite set_insert_new.
    - rewrite IH; rewrite <- app_assoc; [reflexivity|exact ND].
    - apply NoDup_remove_2 in ND. rewrite in_app_iff in ND. tauto.
  Qed.
  Lemma de_hset_ser l : NoDup l -> @de_hset F (ser_indices l) = Ret (DeOk l).
  Proof.
    intros ND. unfold de_hset, ser_indices. cbn [de_vec]. rewrite (de_list_ser _ VNat) by reflexivity. simpl.
    now rewrite (set_collect l []).
  Qed.
End Facts.
