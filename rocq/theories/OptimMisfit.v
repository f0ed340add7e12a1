(** What the optimisers do with features whose size is not the number of
    weights. Facts for C57. *)
From Coq Require Import List Arith ZArith Lia Permutation.
From Verif Require Import Base Scalar HMap HMapFacts NdArray VecFacts Features Spec FeatureFacts
  Optim OptimSpec OptimFacts OptimOrder.
Import ListNotations.

Section Coord.
  Context {A V : Type} (g : V -> A -> A -> A -> A * A * A).

  Lemma put_app (a b : list A) : forall i v, i < length a -> put (a ++ b) i v = put a i v ++ b.
  Proof. induction a as [|x a IH]; intros [|i] v L; simpl in *; try lia; auto. f_equal. apply IH. lia. Qed.

  Lemma coordwise_prefix m1 m2 w m1' m2' w' ia : fst ia < length m1 ->
    length m2 = length m1 -> length w = length m1 ->
    coordwise g (m1 ++ m1', m2 ++ m2', w ++ w') ia =
    let* (a, b, c) := coordwise g (m1, m2, w) ia in Ret (a ++ m1', b ++ m2', c ++ w').
  Proof.
    intros L L2 Lw. unfold coordwise. rewrite !nth_error_app1 by lia.
    destruct (nth_error m1 (fst ia)), (nth_error m2 (fst ia)), (nth_error w (fst ia)); simpl; auto.
    destruct (g (snd ia) a a0 a1) as [[y1 y2] y]. simpl. rewrite !put_app by lia. reflexivity.
  Qed.

  Lemma coordwise_lt m1 m2 w ia : length m2 = length m1 -> length w = length m1 ->
    match coordwise g (m1, m2, w) ia with
    | Ret (a, b, c) => fst ia < length m1 /\ length a = length m1 /\ length b = length m1 /\ length c = length m1
    | Panic => length m1 <= fst ia
    end.
  Proof.
    intros L2 Lw. unfold coordwise. destruct (Nat.lt_ge_cases (fst ia) (length m1)) as [L|L].
    - destruct (nth_error m1 (fst ia)) eqn:E1; [|apply nth_error_None in E1; lia].
      destruct (nth_error m2 (fst ia)) eqn:E2; [|apply nth_error_None in E2; lia].
      destruct (nth_error w (fst ia)) eqn:E3; [|apply nth_error_None in E3; lia].
      destruct (g (snd ia) a a0 a1) as [[y1 y2] y]. rewrite !put_length. auto.
    - rewrite (proj2 (nth_error_None m1 (fst ia)) L). auto.
  Qed.

  Lemma loop_prefix : forall l m1 m2 w m1' m2' w', Forall (fun ia => fst ia < length m1) l ->
    length m2 = length m1 -> length w = length m1 ->
    ofold (coordwise g) l (m1 ++ m1', m2 ++ m2', w ++ w') =
    let* (a, b, c) := ofold (coordwise g) l (m1, m2, w) in Ret (a ++ m1', b ++ m2', c ++ w').
  Proof.
    induction l as [|ia l IH]; intros m1 m2 w m1' m2' w' Fl L2 Lw; cbn [ofold]; auto.
    inversion Fl as [|? ? F1 F2]; subst. rewrite coordwise_prefix by auto.
    pose proof (coordwise_lt m1 m2 w ia L2 Lw) as C.
    destruct (coordwise g (m1, m2, w) ia) as [[[a b] c]|]; simpl; auto.
    destruct C as (_ & La & Lb & Lc). apply IH; try congruence. rewrite La. auto.
  Qed.

  Lemma loop_panics : forall l m1 m2 w, length m2 = length m1 -> length w = length m1 ->
    (ofold (coordwise g) l (m1, m2, w) = Panic <-> exists ia, In ia l /\ length m1 <= fst ia).
  Proof.
    induction l as [|ia l IH]; intros m1 m2 w L2 Lw; cbn [ofold].
    - split; [discriminate|]. intros (? & [] & _).
    - pose proof (coordwise_lt m1 m2 w ia L2 Lw) as C.
      destruct (coordwise g (m1, m2, w) ia) as [[[a b] c]|]; simpl.
      + destruct C as (L & La & Lb & Lc). rewrite IH by congruence. rewrite La. split.
        * intros (k & I & G). eauto.
        * intros (k & [->|I] & G); [lia|eauto].
      + split; auto. intros _. exists ia. auto.
  Qed.

  Lemma loop_len : forall l m1 m2 w a b c, length m2 = length m1 -> length w = length m1 ->
    ofold (coordwise g) l (m1, m2, w) = Ret (a, b, c) ->
    length a = length m1 /\ length b = length m1 /\ length c = length m1.
  Proof.
    induction l as [|ia l IH]; intros m1 m2 w a b c L2 Lw; cbn [ofold].
    - injection 1 as <- <- <-. auto.
    - pose proof (coordwise_lt m1 m2 w ia L2 Lw) as C.
      destruct (coordwise g (m1, m2, w) ia) as [[[a' b'] c']|]; simpl; [|discriminate].
      destruct C as (_ & La & Lb & Lc). intros E. apply IH in E; intuition congruence.
  Qed.
End Coord.

Section Misfit.
  Context {F : Type} `{Scalar F}.
  Implicit Types (phi psi : Features F) (w da : list F) (o : lib_opt F).

  Definition step o w phi sf := o_step_scaled (@LibOptimiser F _) o w phi sf.

  Definition strict o : Prop :=
    match o with LSGD _ | LISGD _ | LMomentum _ | LNAG _ => True | _ => False end.
  Definition is_adagrad o : Prop := match o with LAdagrad _ => True | _ => False end.
  Definition adamlike o : Prop := match o with LAdam _ | LAdaMax _ => True | _ => False end.

  (** A step panics, in whichever optimiser. *)
  Lemma lift_panics {S} (inj : S -> lib_opt F) r : lift_step inj r = Panic <-> r = Panic.
  Proof. destruct r as [[[s w] x]|]; simpl; split; auto; discriminate. Qed.

  Lemma zip_panics {A} (f : A -> A -> A) l r : zip_mut_with f l r = Panic <-> length r <> length l /\ length r <> 1.
  Proof.
    split.
    - intros E. split; intros L.
      + rewrite zip_mut_with_eq in E by auto. discriminate.
      + destruct r as [|x [|y r]]; try discriminate. rewrite zip_mut_with_one in E. discriminate.
    - intros [N1 N2]. apply zip_mut_with_bad; auto.
  Qed.

  Lemma obind_panics {A B} (x : outcome A) (f : A -> outcome B) :
    obind x f = Panic <-> x = Panic \/ exists a, x = Ret a /\ f a = Panic.
  Proof.
    destruct x; simpl; split; auto.
    - intros E. right. eauto.
    - intros [E|(a' & E & E')]; [discriminate|congruence].
  Qed.

  Lemma zip_mut_with_len {A} (f : A -> A -> A) l r l' : zip_mut_with f l r = Ret l' -> length l' = length l.
  Proof. apply zip_mut_with_length. Qed.

  Theorem dense_strict o w da sf : strict o -> opt_sized (length w) o ->
    (step o w (Dense da) sf = Panic <-> length da <> length w /\ length da <> 1).
  Proof.
    intros St Os. unfold step. destruct o as [lr|lr|s|s|s|s|s]; simpl in St, Os; try tauto; simpl; rewrite lift_panics.
    - unfold sgd_step_scaled. cbn [scaled_addto]. rewrite obind_panics. unfold scaled_add. rewrite zip_panics.
      split; [intros [E|(? & _ & E)]; [auto|discriminate]|auto].
    - unfold isgd_step_scaled. cbn [scaled_addto]. rewrite obind_panics. unfold scaled_add. rewrite zip_panics.
      split; [intros [E|(? & _ & E)]; [auto|discriminate]|auto].
    - unfold momentum_step_scaled. cbn [velocity_update]. rewrite obind_panics, zip_panics, Os.
      split; auto. intros [E|(v & E & E')]; auto. exfalso. apply zip_mut_with_len in E.
      unfold scaled_add in E'. rewrite zip_mut_with_eq in E' by congruence. discriminate.
    - unfold nag_step_scaled. cbn [velocity_update]. rewrite obind_panics, zip_panics, Os.
      split; auto. intros [E|(v & E & E')]; auto.
      pose proof (zip_mut_with_len _ _ _ _ E) as Lv.
      assert (X : length da = length w \/ length da = 1).
      { destruct (Nat.eq_dec (length da) (length w)); auto. destruct (Nat.eq_dec (length da) 1); auto.
        exfalso. rewrite (proj2 (zip_panics _ _ _)) in E; [discriminate|]. split; congruence. }
      exfalso. unfold scaled_add at 1 in E'. rewrite zip_mut_with_eq in E' by congruence. cbn [obind scaled_addto] in E'.
      unfold scaled_add in E'.
      assert (Lm : forall (f : F -> F -> F) (a b : list F), length a = length b -> length (map2 f a b) = length a).
      { clear. induction a; intros [|y b]; simpl; auto; try discriminate. }
      destruct X as [X|X].
      + rewrite zip_mut_with_eq in E' by (rewrite Lm; congruence). discriminate.
      + destruct da as [|x [|? ?]]; try discriminate. rewrite zip_mut_with_one in E'. discriminate.
  Qed.

  (** A single activation is broadcast to every weight. *)
  Lemma zip_broadcast {A} (f : A -> A -> A) l x : zip_mut_with f l [x] = zip_mut_with f l (repeat x (length l)).
  Proof.
    rewrite zip_mut_with_one, zip_mut_with_eq by apply repeat_length. f_equal.
    induction l; simpl; congruence.
  Qed.

  Theorem dense_broadcast o w x sf : opt_sized (length w) o ->
    match o with LSGD _ | LMomentum _ | LNAG _ => True | _ => False end ->
    step o w (Dense [x]) sf = step o w (Dense (repeat x (length w))) sf.
  Proof.
    intros Os St. unfold step. destruct o as [lr|lr|s|s|s|s|s]; try tauto; simpl; simpl in Os.
    - unfold sgd_step_scaled. cbn [scaled_addto]. unfold scaled_add. rewrite zip_broadcast. reflexivity.
    - unfold momentum_step_scaled. cbn [velocity_update]. rewrite zip_broadcast, Os. reflexivity.
    - unfold nag_step_scaled. cbn [velocity_update]. rewrite zip_broadcast, Os.
      destruct (zip_mut_with _ _ _) as [v|] eqn:E; cbn [obind]; auto.
      destruct (scaled_add (mo_lr s) w v) as [w'|] eqn:Ew; cbn [obind]; auto.
      apply zip_mut_with_len in Ew. cbn [scaled_addto]. unfold scaled_add. rewrite zip_broadcast, Ew. reflexivity.
  Qed.

  (** *** Adagrad *)

  Lemma adagrad_dense_app lr sf : forall da w ss w2 ss2, length w = length da -> length ss = length da ->
    adagrad_dense lr sf da (w ++ w2) (ss ++ ss2) =
    (fst (adagrad_dense lr sf da w ss) ++ w2, snd (adagrad_dense lr sf da w ss) ++ ss2).
  Proof.
    induction da as [|a da IH]; intros [|x w] [|s ss] w2 ss2 Lw Ls; simpl in Lw, Ls; try discriminate.
    - simpl. destruct w2, ss2; reflexivity.
    - simpl. rewrite IH by lia. destruct (adagrad_dense lr sf da w ss). reflexivity.
  Qed.

  Lemma adagrad_dense_firstn lr sf : forall da w ss, length ss = length w ->
    adagrad_dense lr sf da w ss = adagrad_dense lr sf (firstn (length w) da) w ss.
  Proof.
    induction da as [|a da IH]; intros [|x w] [|s ss] L; simpl in *; try discriminate; auto.
    rewrite IH by lia. reflexivity.
  Qed.

  Theorem adagrad_never_panics s w phi sf : length (ag_acc s) <= length w ->
    exists s' w', adagrad_step_scaled s w phi sf = Ret (s', w', Ok tt).
  Proof.
    intros L. unfold adagrad_step_scaled. destruct phi as [da|sa]; cbn [obind].
    - destruct (adagrad_dense (ag_lr s) sf da w (ag_acc s)) as [w' acc']. eauto.
    - assert (G : forall ss i w, i + length ss <= length w ->
        exists r, adagrad_sparse (ag_lr s) sf (sa_acts sa) i ss w = Ret r).
      { clear. induction ss as [|x ss IH]; intros i w L; simpl in *; eauto.
        destruct (vupd_lt (fun x0 => fadd x0 (fdiv (fmul (ag_lr s) (fmul (get_or_zero (sa_acts sa) i) sf))
            (fadd (fsqrt (fadd x (fpowi (fmul (get_or_zero (sa_acts sa) i) sf) 2))) EPS))) w i ltac:(lia))
          as (w1 & E & L1 & _). rewrite E. simpl.
        destruct (IH (S i) w1 ltac:(lia)) as [[w2 ss2] E2]. rewrite E2. simpl. eauto. }
      destruct (G (ag_acc s) 0 w L) as [[w' acc'] E]. rewrite E. simpl. eauto.
  Qed.

  (** Stored features beyond the accumulator have no effect. *)
  Theorem adagrad_ignores s w d m m' sf :
    (forall i, i < length (ag_acc s) -> hm_get m i = hm_get m' i) ->
    forall d', adagrad_step_scaled s w (Sparse (MkSparse d m)) sf =
               adagrad_step_scaled s w (Sparse (MkSparse d' m')) sf.
  Proof.
    intros E d'. unfold adagrad_step_scaled. cbn [sa_acts].
    assert (G : forall ss i w, (forall k, i <= k < i + length ss -> hm_get m k = hm_get m' k) ->
      adagrad_sparse (ag_lr s) sf m i ss w = adagrad_sparse (ag_lr s) sf m' i ss w).
    { clear. induction ss as [|x ss IH]; intros i w E; simpl in *; auto.
      replace (get_or_zero m i) with (get_or_zero m' i) by (unfold get_or_zero; rewrite (E i) by lia; reflexivity).
      destruct (vupd _ _ _); simpl; auto.
      rewrite IH by (intros k K; apply E; lia). reflexivity. }
    rewrite G; auto. intros k K. apply E. lia.
  Qed.

  (** A dense vector reaches the first weights only; what is beyond either
      vector is left alone. *)
  Theorem adagrad_prefix lr da w1 acc1 w2 acc2 sf : length w1 = length da -> length acc1 = length da ->
    exists acc1' w1', adagrad_step_scaled (MkAdagrad lr acc1) w1 (Dense da) sf = Ret (MkAdagrad lr acc1', w1', Ok tt) /\
      length w1' = length da /\ length acc1' = length da /\
      adagrad_step_scaled (MkAdagrad lr (acc1 ++ acc2)) (w1 ++ w2) (Dense da) sf =
        Ret (MkAdagrad lr (acc1' ++ acc2), w1' ++ w2, Ok tt).
  Proof.
    intros Lw La. unfold adagrad_step_scaled. cbn [obind ag_lr ag_acc].
    rewrite adagrad_dense_app by auto.
    assert (G : forall da w ss, length w = length da -> length ss = length da ->
      length (fst (adagrad_dense lr sf da w ss)) = length da /\ length (snd (adagrad_dense lr sf da w ss)) = length da).
    { clear. induction da as [|a da IH]; intros [|x w] [|s ss] Lw Ls; simpl in *; try discriminate; auto.
      specialize (IH w ss ltac:(lia) ltac:(lia)). destruct (adagrad_dense lr sf da w ss). simpl in *. lia. }
    specialize (G da w1 acc1 Lw La).
    destruct (adagrad_dense lr sf da w1 acc1) as [w' a']. simpl in *. do 2 eexists. split; [reflexivity|]. tauto.
  Qed.

  Theorem adagrad_truncates s w da sf : length (ag_acc s) = length w ->
    adagrad_step_scaled s w (Dense da) sf = adagrad_step_scaled s w (Dense (firstn (length w) da)) sf.
  Proof. intros L. unfold adagrad_step_scaled. rewrite adagrad_dense_firstn by auto. reflexivity. Qed.

  (** *** Adam and AdaMax *)

  Lemma In_indexed da ia : In ia (indexed da) -> fst ia < length da.
  Proof. unfold indexed. destruct ia as [i a]. intros I. apply in_combine_l in I. apply in_seq in I. simpl. lia. Qed.

  Lemma indexed_keys da : map fst (indexed da) = seq 0 (length da).
  Proof.
    unfold indexed. generalize 0. induction da as [|a da IH]; intros k; simpl; auto. f_equal. apply IH.
  Qed.

  Lemma indexed_reach da n : (exists ia, In ia (indexed da) /\ n <= fst ia) <-> n < length da.
  Proof.
    split.
    - intros (ia & I & L). apply In_indexed in I. lia.
    - intros L. assert (I : In n (map fst (indexed da))) by (rewrite indexed_keys; apply in_seq; lia).
      apply in_map_iff in I. destruct I as (ia & E & I). exists ia. split; auto. lia.
  Qed.

  Theorem dense_adam o w da sf : adamlike o -> opt_sized (length w) o ->
    (step o w (Dense da) sf = Panic <-> length w < length da).
  Proof.
    intros Ad Os. unfold step. destruct o as [lr|lr|s|s|s|s|s]; simpl in Ad; try tauto; simpl in Os; simpl; rewrite lift_panics.
    - unfold adam_step_scaled. rewrite (ofold_ext _ _ (adam_coordwise _ _ _ _ _ _ _)), obind_panics.
      rewrite loop_panics by lia. rewrite indexed_reach. destruct Os as [-> _].
      split; [intros [E|([[? ?] ?] & _ & E)]; [auto|discriminate]|auto].
    - unfold adamax_step_scaled. rewrite (ofold_ext _ _ (adamax_coordwise _ _ _ _ _ _)), obind_panics.
      rewrite loop_panics by lia. rewrite indexed_reach. destruct Os as [-> _].
      split; [intros [E|([[? ?] ?] & _ & E)]; [auto|discriminate]|auto].
  Qed.

  Theorem adam_prefix b1 p1 b2 p2 lr m v w m2 v2 w2 da sf : length m = length da -> length v = length da ->
    length w = length da ->
    exists m' v' w', adam_step_scaled (MkAdam b1 p1 b2 p2 lr m v) w (Dense da) sf =
        Ret (MkAdam b1 (fmul p1 b1) b2 (fmul p2 b2) lr m' v', w', Ok tt) /\
      length m' = length da /\ length v' = length da /\ length w' = length da /\
      adam_step_scaled (MkAdam b1 p1 b2 p2 lr (m ++ m2) (v ++ v2)) (w ++ w2) (Dense da) sf =
        Ret (MkAdam b1 (fmul p1 b1) b2 (fmul p2 b2) lr (m' ++ m2) (v' ++ v2), w' ++ w2, Ok tt).
  Proof.
    intros Lm Lv Lw. unfold adam_step_scaled. cbn [ad_beta1 ad_beta1_prod ad_beta2 ad_beta2_prod ad_lr ad_exp_avg ad_exp_avg_sq].
    rewrite !(ofold_ext _ _ (adam_coordwise _ _ _ _ _ _ _)).
    rewrite loop_prefix by (try lia; apply Forall_forall; intros ia I; apply In_indexed in I; lia).
    destruct (ofold (coordwise _) (indexed da) (m, v, w)) as [[[m' v'] w']|] eqn:E; cbn [obind].
    - apply loop_len in E; try congruence. destruct E as (L1 & L2 & L3).
      exists m', v', w'. repeat split; congruence.
    - exfalso. apply loop_panics in E; try congruence. apply indexed_reach in E. lia.
  Qed.

  Theorem adamax_prefix b1 p1 b2 lr m v w m2 v2 w2 da sf : length m = length da -> length v = length da ->
    length w = length da ->
    exists m' v' w', adamax_step_scaled (MkAdaMax b1 p1 b2 lr m v) w (Dense da) sf =
        Ret (MkAdaMax b1 (fmul p1 b1) b2 lr m' v', w', Ok tt) /\
      length m' = length da /\ length v' = length da /\ length w' = length da /\
      adamax_step_scaled (MkAdaMax b1 p1 b2 lr (m ++ m2) (v ++ v2)) (w ++ w2) (Dense da) sf =
        Ret (MkAdaMax b1 (fmul p1 b1) b2 lr (m' ++ m2) (v' ++ v2), w' ++ w2, Ok tt).
  Proof.
    intros Lm Lv Lw. unfold adamax_step_scaled. cbn [am_beta1 am_beta1_prod am_beta2 am_lr am_exp_avg am_exp_inf].
    rewrite !(ofold_ext _ _ (adamax_coordwise _ _ _ _ _ _)).
    rewrite loop_prefix by (try lia; apply Forall_forall; intros ia I; apply In_indexed in I; lia).
    destruct (ofold (coordwise _) (indexed da) (m, v, w)) as [[[m' v'] w']|] eqn:E; cbn [obind].
    - apply loop_len in E; try congruence. destruct E as (L1 & L2 & L3).
      exists m', v', w'. repeat split; congruence.
    - exfalso. apply loop_panics in E; try congruence. apply indexed_reach in E. lia.
  Qed.

  (** *** Sparse *)

  Lemma upd_panics (g : F -> F -> F) (m : hmap F) : forall w,
    (ofold (fun v kv => vupd v (fst kv) (g (snd kv))) m w = Panic <-> exists i v, In (i, v) m /\ length w <= i).
  Proof.
    induction m as [|[i v] m IH]; intros w; cbn [ofold].
    - split; [discriminate|]. intros (? & ? & [] & _).
    - rewrite obind_panics. simpl. rewrite vupd_put.
      destruct (nth_error w i) as [x|] eqn:E.
      + split.
        * intros [C|(w' & E' & P)]; [discriminate|]. injection E' as <-. apply IH in P.
          rewrite put_length in P. destruct P as (k & u & I & L). eauto.
        * intros (k & u & [C|I] & L).
          { injection C as -> ->. apply nth_error_None in L. congruence. }
          right. eexists. split; [reflexivity|]. apply IH. rewrite put_length. eauto.
      + split; auto. intros _. exists i, v. split; auto. apply nth_error_None. auto.
  Qed.

  Lemma mul_assign_len (l : list F) x : length (mul_assign l x) = length l.
  Proof. apply map_length. Qed.

  Lemma ofold_vupd_len (g : F -> F -> F) (m : hmap F) : forall w w',
    ofold (fun v kv => vupd v (fst kv) (g (snd kv))) m w = Ret w' -> length w' = length w.
  Proof.
    induction m as [|[i v] m IH]; intros w w'; cbn [ofold]; [injection 1 as <-; auto|].
    simpl. rewrite vupd_put. destruct (nth_error w i); simpl; [|discriminate]. intros E. apply IH in E.
    rewrite put_length in E. auto.
  Qed.

  Theorem sparse_panics o w sa sf : ~ is_adagrad o -> opt_sized (length w) o ->
    (step o w (Sparse sa) sf = Panic <-> exists i v, In (i, v) (sa_acts sa) /\ length w <= i).
  Proof.
    intros Na Os. unfold step. destruct o as [lr|lr|s|s|s|s|s]; simpl in Na; try tauto; simpl; rewrite lift_panics; simpl in Os.
    - unfold sgd_step_scaled. cbn [scaled_addto]. rewrite obind_panics.
      rewrite (upd_panics (fun v x => fadd x (fmul (fmul lr sf) v))).
      split; [intros [E|(? & _ & E)]; [auto|discriminate]|auto].
    - unfold isgd_step_scaled. cbn [scaled_addto]. rewrite obind_panics.
      rewrite (upd_panics (fun v x => fadd x (fmul (fmul (isgd_compute_lr lr (Sparse sa)) sf) v))).
      split; [intros [E|(? & _ & E)]; [auto|discriminate]|auto].
    - unfold momentum_step_scaled. cbn [velocity_update]. rewrite obind_panics.
      rewrite (upd_panics (fun v x => fadd x (fmul v sf))), mul_assign_len, Os.
      split; auto. intros [E|(v & E & E')]; auto. exfalso.
      apply (ofold_vupd_len (fun v x => fadd x (fmul v sf))) in E. rewrite mul_assign_len in E.
      unfold scaled_add in E'. rewrite zip_mut_with_eq in E' by congruence. discriminate.
    - unfold nag_step_scaled. cbn [velocity_update]. rewrite obind_panics.
      rewrite (upd_panics (fun v x => fadd x (fmul v sf))), mul_assign_len, Os.
      split; auto. intros [E|(v & E & E')]; auto.
      apply (ofold_vupd_len (fun v x => fadd x (fmul v sf))) in E. rewrite mul_assign_len in E.
      apply obind_panics in E'. destruct E' as [E'|(w' & Ew & E')].
      { exfalso. unfold scaled_add in E'. rewrite zip_mut_with_eq in E' by congruence. discriminate. }
      apply zip_mut_with_len in Ew. apply obind_panics in E'. destruct E' as [E'|(? & _ & E')]; [|discriminate].
      cbn [scaled_addto] in E'. apply (upd_panics (fun v x => fadd x (fmul (mo_momentum s) v))) in E'.
      rewrite Ew in E'. exact E'.
    - unfold adam_step_scaled. rewrite (ofold_ext _ _ (adam_coordwise _ _ _ _ _ _ _)), obind_panics.
      destruct Os as [O1 O2]. rewrite loop_panics by (rewrite ?mul_assign_len; lia). rewrite mul_assign_len, O1.
      split.
      + intros [(ia & I & L)|([[? ?] ?] & _ & E)]; [|discriminate]. exists (fst ia), (snd ia). destruct ia; auto.
      + intros (i & v & I & L). left. exists (i, v). auto.
    - unfold adamax_step_scaled. rewrite (ofold_ext _ _ (adamax_coordwise _ _ _ _ _ _)), obind_panics.
      destruct Os as [O1 O2]. rewrite loop_panics by (rewrite ?mul_assign_len; lia). rewrite mul_assign_len, O1.
      split.
      + intros [(ia & I & L)|([[? ?] ?] & _ & E)]; [|discriminate]. exists (fst ia), (snd ia). destruct ia; auto.
      + intros (i & v & I & L). left. exists (i, v). auto.
  Qed.

  (** The advertised size of a sparse vector plays no part. *)
  Theorem sparse_dim_unused o w d d' m sf :
    step o w (Sparse (MkSparse d m)) sf = step o w (Sparse (MkSparse d' m)) sf.
  Proof. destruct o; reflexivity. Qed.
End Misfit.
