(** More facts for C63: Adagrad with a mismatched accumulator, approximators,
    in-place operations, uninitialised arrays, unchecked reads. *)
From Coq Require Import List Arith ZArith Lia Bool.
From Verif Require Import Base Scalar HMap HMapFacts NdArray VecFacts Features Spec FeatureFacts
  Optim OptimSpec OptimFacts OptimOrder OptimMisfit Lfa LfaSpec LfaFacts Coeffs Kernels TileCoding Basis BasisFacts
  Unwind UnwindFacts.
Import ListNotations.

Section UnwindMore.
  Context {F : Type} `{Scalar F}.
  Implicit Types (phi : Features F) (w da : list F) (o : lib_opt F).

  (** ** Adagrad *)

  Lemma adagrad_runs_over lr sf (m : hmap F) s : forall acc1 i w acc2, length w = i + length acc1 ->
    exists w' acc1', adagrad_sparse lr sf m i acc1 w = Ret (w', acc1') /\
      adagrad_sparse_u lr sf m i (acc1 ++ s :: acc2) w =
        (w', acc1' ++ fadd s (fpowi (fmul (get_or_zero m (length w)) sf) 2) :: acc2, false).
  Proof.
    induction acc1 as [|t acc1 IH]; intros i w acc2 L; cbn [adagrad_sparse adagrad_sparse_u app].
    - simpl in L. rewrite Nat.add_0_r in L. exists w, []. split; [reflexivity|]. rewrite L.
      unfold upd_u. rewrite vupd_ge by lia. reflexivity.
    - simpl in L. unfold upd_u.
      match goal with |- context [vupd w i ?h] => destruct (vupd_lt h w i) as (w1 & E & L1 & _); [lia|]; rewrite E end. cbn [obind].
      destruct (IH (S i) w1 acc2) as (w' & acc1' & E1 & E2); [lia|]. rewrite E1. cbn [obind].
      exists w'. eexists. split; [reflexivity|]. rewrite E2, L1. reflexivity.
  Qed.

  Theorem adagrad_overrun lr (acc1 acc2 : list F) s w d (m : hmap F) sf : length acc1 = length w ->
    exists acc' w', step (LAdagrad (MkAdagrad lr acc1)) w (Sparse (MkSparse d m)) sf =
        Ret (LAdagrad (MkAdagrad lr acc'), w', Ok tt) /\
      lib_u (LAdagrad (MkAdagrad lr (acc1 ++ s :: acc2))) w (Sparse (MkSparse d m)) sf =
        (LAdagrad (MkAdagrad lr (acc' ++ fadd s (fpowi (fmul (get_or_zero m (length w)) sf) 2) :: acc2)), w', false).
  Proof.
    intros L. destruct (adagrad_runs_over lr sf m s acc1 0 w acc2) as (w' & acc' & E1 & E2); [simpl; auto|].
    exists acc', w'. unfold step. simpl. unfold adagrad_step_scaled, adagrad_u. cbn [sa_acts ag_lr ag_acc]. rewrite E1, E2.
    split; reflexivity.
  Qed.

  (** ** Approximators *)

  Section Lfa.
    Context {I : Type}.
    Implicit Types (a : ScalarLFA F I (lib_opt F)) (v : VectorLFA F I (lib_opt F)).

    Theorem s_update_left a x e : match s_update_u a x e with
      | (a', Some r) => s_update LibOptimiser a x e = Ret (a', r)
      | (a', None) => s_update LibOptimiser a x e = Panic
      end /\
      let a' := fst (s_update_u a x e) in
      lfa_basis a' = lfa_basis a /\ length (lfa_weights a') = length (lfa_weights a) /\
      (forall n, opt_sized n (lfa_optimiser a) -> opt_sized n (lfa_optimiser a')) /\
      (~ (exists phi, b_project (lfa_basis a) x = Ret (Ok phi)) -> a' = a).
    Proof.
      unfold s_update_u, s_update. destruct (b_project (lfa_basis a) x) as [[phi|er]|] eqn:P; cbn [obind].
      - pose proof (left_agrees (lfa_optimiser a) (lfa_weights a) phi e) as Ag.
        destruct (lib_u (lfa_optimiser a) (lfa_weights a) phi e) as [[s w] ok] eqn:E.
        destruct (left_sized _ _ _ _ _ _ _ E) as [L K]. unfold step in Ag. split.
        + destruct ok; rewrite Ag; reflexivity.
        + cbn [fst with_state lfa_basis lfa_weights lfa_optimiser]. splits; auto. intros N. destruct N. eauto.
      - cbn [fst]. splits; auto.
      - cbn [fst]. splits; auto.
    Qed.

    Lemma update_columns_u_agrees phi : forall es j wm s acc, matrix_ok wm ->
      match update_columns_u phi es j wm s with
      | (s', wm', true) => exists r, update_columns LibOptimiser phi es j wm s acc = Ret (s', wm', r) /\ (acc = Ok tt -> r = Ok tt)
      | (_, _, false) => update_columns LibOptimiser phi es j wm s acc = Panic
      end.
    Proof.
      induction es as [|e es IH]; intros j wm s acc OK; cbn [update_columns_u update_columns]; [eauto|].
      destruct (Nat.ltb_spec j (ncols wm)) as [L|L]; [|eauto].
      destruct (column_lt wm j OK L) as (c & Ec & Len & _). rewrite Ec. cbn [obind].
      pose proof (left_agrees s c phi e) as Ag. unfold step in Ag.
      destruct (lib_u s c phi e) as [[s' c'] ok] eqn:E. destruct (left_sized _ _ _ _ _ _ _ E) as [Lc _].
      destruct (set_column_Ret wm j c' OK L) as (wm' & Es & OK' & _); [congruence|]. rewrite Es.
      destruct ok; rewrite Ag; cbn [obind]; auto. rewrite Es. cbn [obind].
      specialize (IH (S j) wm' s' (rand acc (Ok tt)) OK').
      destruct (update_columns_u phi es (S j) wm' s') as [[s2 wm2] [|]]; auto.
      destruct IH as (r & Er & Q). exists r. split; auto. intros ->. apply Q. reflexivity.
    Qed.

    Lemma update_columns_u_stops phi : forall es j wm s acc s' wm', matrix_ok wm ->
      update_columns_u phi es j wm s = (s', wm', false) ->
      exists k e s1 wm1 r c c', nth_error es k = Some e /\ j + k < ncols wm /\
        update_columns LibOptimiser phi (firstn k es) j wm s acc = Ret (s1, wm1, r) /\
        column wm1 (j + k) = Ret c /\ column wm (j + k) = Ret c /\
        lib_u s1 c phi e = (s', c', false) /\ column wm' (j + k) = Ret c' /\
        (forall i, i <> j + k -> column wm' i = column wm1 i) /\
        (forall i, i < j \/ j + k < i -> column wm' i = column wm i) /\
        matrix_ok wm' /\ nrows wm' = nrows wm /\ ncols wm' = ncols wm.
    Proof.
      induction es as [|e es IH]; intros j wm s acc s' wm' OK; cbn [update_columns_u]; [discriminate|].
      destruct (Nat.ltb_spec j (ncols wm)) as [L|L]; [|discriminate].
      destruct (column_lt wm j OK L) as (c & Ec & Len & _). rewrite Ec.
      pose proof (left_agrees s c phi e) as Ag. unfold step in Ag.
      destruct (lib_u s c phi e) as [[s1 c1] ok] eqn:E. destruct (left_sized _ _ _ _ _ _ _ E) as [Lc _].
      destruct (set_column_Ret wm j c1 OK L) as (wm1 & Es & OK1 & R1 & C1 & Cj & Ck); [congruence|]. rewrite Es.
      destruct ok; intros U.
      - destruct (IH (S j) wm1 s1 (rand acc (Ok tt)) s' wm' OK1 U)
          as (k & e' & s2 & wm2 & r & d & d' & Ne & Lk & Uk & D2 & D & Lu & D' & O1 & O2 & OK' & R' & C').
        exists (S k), e', s2, wm2, r, d, d'. replace (j + S k) with (S j + k) by lia. splits; auto; try congruence.
        + cbn [firstn update_columns]. rewrite (proj2 (Nat.ltb_lt _ _) L), Ec. cbn [obind]. rewrite Ag. cbn [obind].
          rewrite Es. cbn [obind]. exact Uk.
        + rewrite <- Ck by lia. exact D.
        + intros i Hi. rewrite O2 by lia. apply Ck. lia.
      - injection U as <- <-. exists 0, e, s, wm, acc, c, c1. rewrite Nat.add_0_r. splits; auto.
        intros i Hi. apply Ck. lia.
    Qed.

    Theorem v_update_agrees v x es : matrix_ok (lfa_weights v) -> match v_update_u v x es with
      | (v', Some r) => v_update LibOptimiser v x es = Ret (v', r)
      | (v', None) => v_update LibOptimiser v x es = Panic
      end.
    Proof.
      intros OK. unfold v_update_u, v_update. destruct (b_project (lfa_basis v) x) as [[phi|er]|]; cbn [obind]; auto.
      pose proof (update_columns_u_agrees phi es 0 (lfa_weights v) (lfa_optimiser v) (Ok tt) OK) as U.
      destruct (update_columns_u phi es 0 (lfa_weights v) (lfa_optimiser v)) as [[s wm] [|]].
      - destruct U as (r & E & Q). rewrite E. cbn [obind]. rewrite Q by reflexivity. reflexivity.
      - rewrite U. reflexivity.
    Qed.

    Theorem v_update_left v x es v' phi : matrix_ok (lfa_weights v) -> b_project (lfa_basis v) x = Ret (Ok phi) ->
      v_update_u v x es = (v', None) ->
      exists k e vk r c c', nth_error es k = Some e /\ k < n_outputs v /\
        v_update LibOptimiser v x (firstn k es) = Ret (vk, r) /\
        column (lfa_weights v) k = Ret c /\
        lib_u (lfa_optimiser vk) c phi e = (lfa_optimiser v', c', false) /\
        column (lfa_weights v') k = Ret c' /\
        (forall i, i < k -> column (lfa_weights v') i = column (lfa_weights vk) i) /\
        (forall i, k < i -> column (lfa_weights v') i = column (lfa_weights v) i) /\
        lfa_basis v' = lfa_basis v /\ matrix_ok (lfa_weights v') /\
        nrows (lfa_weights v') = nrows (lfa_weights v) /\ n_outputs v' = n_outputs v.
    Proof.
      intros OK P. unfold v_update_u. rewrite P.
      destruct (update_columns_u phi es 0 (lfa_weights v) (lfa_optimiser v)) as [[s wm] [|]] eqn:U; intros [= <-].
      destruct (update_columns_u_stops phi es 0 _ _ (Ok tt) _ _ OK U)
        as (k & e & s1 & wm1 & r & c & c' & Ne & Lk & Uk & D1 & D & Lu & D' & O1 & O2 & OK' & R' & C').
      simpl in Lk, D1, D, D', O1, O2.
      exists k, e, (with_state v wm1 s1), r, c, c'. unfold v_update. rewrite P. cbn [obind]. rewrite Uk. cbn [obind].
      cbn [with_state lfa_weights lfa_optimiser lfa_basis]. unfold n_outputs. cbn [with_state lfa_weights]. splits; auto.
      intros i Li. apply O1. lia.
    Qed.
  End Lfa.

  (** ** In-place operations *)

  Lemma fmap_into_p_pure phi (f : F -> F) : fmap_into_p phi (fun x => Ret (f x)) = fmap_into phi f.
  Proof.
    destruct phi as [da|[d m]]; cbn [fmap_into_p fmap_into sa_acts sa_dim obind].
    - rewrite omapM_Ret. reflexivity.
    - destruct (fltb _ _).
      + rewrite (omapM_Ret (fun kv => (fst kv, f (snd kv)))). reflexivity.
      + reflexivity.
  Qed.

  Lemma omapM_combine (f : F -> F -> F) : forall a b, length a = length b ->
    omapM (fun xy => Ret (f (fst xy) (snd xy))) (combine a b) = Ret (map2 f a b).
  Proof.
    induction a as [|x a IH]; intros [|y b] L; try discriminate; auto. cbn [combine omapM map2 fst snd obind].
    rewrite IH by auto. reflexivity.
  Qed.

  Lemma broadcast_length {A} (r : list A) n r' : broadcast r n = Ret r' -> length r' = n.
  Proof.
    unfold broadcast. destruct (Nat.eqb_spec (length r) n) as [E|E]; [intros [= <-]; auto|].
    destruct r as [|x [|y r]]; try discriminate. intros [= <-]. apply repeat_length.
  Qed.

  Lemma merge_into_p_pure phi1 phi2 (f : F -> F -> F) : merge_into_p phi1 phi2 (fun x y => Ret (f x y)) = merge_into phi1 phi2 f.
  Proof.
    destruct phi1 as [da1|[d1 m1]], phi2 as [da2|[d2 m2]]; cbn [merge_into_p merge_into sa_acts sa_dim].
    - unfold zip_mut_with. destruct (broadcast da2 (length da1)) as [r|] eqn:E; cbn [obind]; auto.
      rewrite omapM_combine by (symmetry; eapply broadcast_length; eauto). reflexivity.
    - unfold merge_sparse_into_dense.
      assert (X : forall m p, ofold (fun p kv => let* x := vget p (fst kv) in let* v := Ret (f x (snd kv)) in vset p (fst kv) v) m p =
        ofold (fun p kv => vupd p (fst kv) (fun x => f x (snd kv))) m p).
      { apply ofold_ext. intros p [k v]. cbn [fst snd obind]. unfold vget, vset. rewrite !vupd_put.
        destruct (nth_error p k) as [x|] eqn:E; cbn [obind]; auto. rewrite vupd_put, E. reflexivity. }
      rewrite X. reflexivity.
    - rewrite omapM_Ret. reflexivity.
    - cbn [obind]. rewrite (omapM_Ret (fun kv => (fst kv, f (snd kv) (get_or_zero m2 (fst kv))))). cbn [obind].
      assert (X : forall l m, ofold (fun m kv => if hm_mem m (fst kv) then Ret m
            else let* v := Ret (f fzero (snd kv)) in Ret (hm_insert m (fst kv) v)) l m =
          Ret (fold_left (fun m kv => hm_or_insert m (fst kv) (f fzero (snd kv))) l m)).
      { induction l as [|[k v] l IH]; intros m; cbn [ofold fold_left fst snd]; auto. unfold hm_or_insert at 2.
        destruct (hm_mem m k); cbn [obind]; apply IH. }
      rewrite X. reflexivity.
  Qed.

  (** A closure that does not panic: the slot is valid exactly when the
      operation returns. *)
  Theorem inplace_pure phi other (f : F -> F) (g : F -> F -> F) :
    map_inplace_u phi (fun x => Ret (f x)) =
      match fmap_inplace phi f with Ret r => (Valid r, true) | Panic => (Zeroed, false) end /\
    merge_inplace_u phi other (fun x y => Ret (g x y)) =
      match merge_inplace phi other g with Ret r => (Valid r, true) | Panic => (Zeroed, false) end.
  Proof.
    unfold map_inplace_u, merge_inplace_u, inplace_u, fmap_inplace, merge_inplace.
    rewrite fmap_into_p_pure, merge_into_p_pure. auto.
  Qed.

  Lemma omapM_panics {A B} (f : A -> outcome B) l : omapM f l = Panic <-> exists a, In a l /\ f a = Panic.
  Proof.
    induction l as [|a l IH]; simpl; [split; [discriminate|intros (? & [] & _)]|].
    destruct (f a) as [b|] eqn:E; cbn [obind].
    - destruct (omapM f l) as [bs|]; cbn [obind].
      + split; [discriminate|]. intros (a' & [<-|I] & P); [congruence|]. assert (X : Ret bs = Panic) by (apply IH; eauto). discriminate.
      + split; auto. intros _. destruct (proj1 IH eq_refl) as (a' & I & P). eauto.
    - split; auto. intros _. eauto.
  Qed.

  Lemma obind_ret_panics {A B} (x : outcome A) (g : A -> B) : obind x (fun a => Ret (g a)) = Panic <-> x = Panic.
  Proof. destruct x; simpl; split; auto; discriminate. Qed.

  Lemma inplace_zeroed phi (op : Features F -> outcome (Features F)) :
    (inplace_u phi op = (Zeroed, false) <-> op phi = Panic) /\
    (forall phi', inplace_u phi op = (Valid phi', true) <-> op phi = Ret phi').
  Proof.
    unfold inplace_u. destruct (op phi) as [r|]; split; try (split; congruence); intros; split; congruence.
  Qed.

  Lemma write_panics (f : F -> outcome F) : forall (m : hmap F) p,
    ofold (fun p kv => let* v := f (snd kv) in vset p (fst kv) v) m p = Panic <->
    (exists kv, In kv m /\ (f (snd kv) = Panic \/ length p <= fst kv)).
  Proof.
    induction m as [|[k v] m IH]; intros p; cbn [ofold fst snd]; [split; [discriminate|intros (? & [] & _)]|].
    destruct (f v) as [u|] eqn:E; cbn [obind].
    - destruct (Nat.lt_ge_cases k (length p)) as [L|L].
      + destruct (vset_lt u p k L) as (p' & Ep & Lp & _). rewrite Ep. cbn [obind]. rewrite IH, Lp. split.
        * intros (kv & I & Q). exists kv. split; [right; auto|auto].
        * intros (kv & [<-|I] & Q); [simpl in Q; destruct Q; [congruence|lia]|eauto].
      + rewrite vset_ge by exact L. cbn [obind]. split; auto. intros _. exists (k, v). simpl. auto.
    - split; auto. intros _. exists (k, v). simpl. auto.
  Qed.

  Theorem map_inplace_zeroed phi (f : F -> outcome F) : map_inplace_u phi f = (Zeroed, false) <->
    match phi with
    | Dense da => exists a, In a da /\ f a = Panic
    | Sparse sa => f fzero = Panic \/ (exists i v, stores phi i v /\ f v = Panic) \/
        (exists z i, f fzero = Ret z /\ fltb (fabs z) sparsity_tol = false /\ stored phi i /\ sa_dim sa <= i)
    end.
  Proof.
    unfold map_inplace_u. rewrite (proj1 (inplace_zeroed phi _)). destruct phi as [da|[d m]]; cbn [fmap_into_p sa_acts sa_dim].
    - rewrite obind_ret_panics. apply omapM_panics.
    - destruct (f fzero) as [z|] eqn:Ez; cbn [obind]; [|split; auto].
      destruct (fltb (fabs z) sparsity_tol) eqn:Et.
      + rewrite obind_ret_panics, omapM_panics. split.
        * intros ([k v] & I & Q). cbn [fst snd] in Q. rewrite obind_ret_panics in Q. right. left. exists k, v. auto.
        * intros [Q|[(i & v & I & Q)|(z' & i & Q & Q' & _)]]; [discriminate| |congruence].
          exists (i, v). split; [exact I|]. cbn [fst snd]. rewrite Q. reflexivity.
      + rewrite obind_ret_panics, write_panics, repeat_length. split.
        * intros ([k v] & I & [Q|Q]); cbn [fst snd] in Q.
          -- right. left. exists k, v. auto.
          -- right. right. exists z, k. splits; auto. exists v. exact I.
        * intros [Q|[(i & v & I & Q)|(z' & i & Q & Q' & [v I] & L)]]; [discriminate| |].
          -- exists (i, v). auto.
          -- exists (i, v). auto.
  Qed.

  Lemma combine_nth_In {A B} (a : list A) (b : list B) x y : In (x, y) (combine a b) <->
    exists i, nth_error a i = Some x /\ nth_error b i = Some y.
  Proof.
    revert b. induction a as [|u a IH]; intros [|v b]; simpl.
    - split; [tauto|intros ([|?] & ? & ?); discriminate].
    - split; [tauto|intros ([|?] & ? & ?); discriminate].
    - split; [tauto|intros ([|?] & ? & ?); discriminate].
    - rewrite IH. split.
      + intros [[= -> ->]|(i & E & E')]; [exists 0; auto|exists (S i); auto].
      + intros ([|i] & E & E'); simpl in *; [left; congruence|right; eauto].
  Qed.

  Lemma update_panics (f : F -> F -> outcome F) : forall (m : hmap F) p, NoDup (hm_keys m) ->
    (ofold (fun p kv => let* x := vget p (fst kv) in let* v := f x (snd kv) in vset p (fst kv) v) m p = Panic <->
     exists k y, In (k, y) m /\ (length p <= k \/ exists x, nth_error p k = Some x /\ f x y = Panic)).
  Proof.
    induction m as [|[k y] m IH]; intros p N; cbn [ofold fst snd]; [split; [discriminate|intros (? & ? & [] & _)]|].
    inversion N as [|? ? Nk N']; subst. unfold vget. destruct (nth_error p k) as [x|] eqn:E; cbn [obind].
    - assert (L : k < length p) by (apply nth_error_Some; congruence).
      destruct (f x y) as [u|] eqn:Ef; cbn [obind].
      + destruct (vset_lt u p k L) as (p' & Ep & Lp & Np). rewrite Ep. cbn [obind]. rewrite IH by auto. rewrite Lp.
        assert (Q : forall k' y', In (k', y') m -> nth_error p' k' = nth_error p k').
        { intros k' y' I. rewrite Np. destruct (Nat.eqb_spec k' k) as [->|]; auto. exfalso. apply Nk.
          change k with (fst (k, y')). apply in_map. exact I. }
        split.
        * intros (k' & y' & I & [Lk|(x' & Nx & P)]); exists k', y'; (split; [right; auto|auto]).
          right. exists x'. rewrite <- (Q k' y' I). auto.
        * intros (k' & y' & [[= <- <-]|I] & [Lk|(x' & Nx & P)]); try lia; try congruence.
          -- exists k', y'. auto.
          -- exists k', y'. split; auto. right. exists x'. rewrite (Q k' y' I). auto.
      + split; auto. intros _. exists k, y. split; [left; auto|]. right. eauto.
    - split; auto. intros _. exists k, y. split; [left; auto|]. left. apply nth_error_None. exact E.
  Qed.

  Lemma insert_panics (f : F -> outcome F) : forall (l m : hmap F), NoDup (hm_keys l) ->
    (ofold (fun m kv => if hm_mem m (fst kv) then Ret m else let* v := f (snd kv) in Ret (hm_insert m (fst kv) v)) l m = Panic <->
     exists k y, In (k, y) l /\ ~ In k (hm_keys m) /\ f y = Panic).
  Proof.
    induction l as [|[k y] l IH]; intros m N; cbn [ofold fst snd]; [split; [discriminate|intros (? & ? & [] & _)]|].
    inversion N as [|? ? Nk N']; subst. destruct (hm_mem m k) eqn:Em; cbn [obind].
    - apply hm_mem_In in Em. rewrite IH by auto. split.
      + intros (k' & y' & I & Q). exists k', y'. split; [right; auto|auto].
      + intros (k' & y' & [[= <- <-]|I] & Q); [tauto|eauto].
    - apply hm_mem_false in Em. destruct (f y) as [u|] eqn:Ef; cbn [obind].
      + rewrite IH by auto.
        assert (Q : forall k', k' <> k -> (In k' (hm_keys (hm_insert m k u)) <-> In k' (hm_keys m))).
        { intros k' Nk'. rewrite <- !hm_mem_In. unfold hm_mem. rewrite hm_get_insert.
          destruct (Nat.eqb_spec k k'); [congruence|]. tauto. }
        assert (K : forall k' y', In (k', y') l -> k' <> k).
        { intros k' y' I ->. apply Nk. change k with (fst (k, y')). apply in_map. exact I. }
        split.
        * intros (k' & y' & I & A & P). exists k', y'. split; [right; exact I|]. split; auto. rewrite <- Q by (eapply K; eauto). exact A.
        * intros (k' & y' & [[= <- <-]|I] & A & P); [congruence|]. exists k', y'. split; [exact I|]. split; auto. rewrite Q by (eapply K; eauto). exact A.
      + split; auto. intros _. exists k, y. splits; auto. left. auto.
  Qed.

  Theorem merge_inplace_zeroed phi other (f : F -> F -> outcome F) : keyed other ->
    (merge_inplace_u phi other f = (Zeroed, false) <->
     match phi, other with
     | Dense da1, Dense da2 =>
         (length da2 <> length da1 /\ length da2 <> 1) \/
         (exists i x y, nth_error da1 i = Some x /\ f x y = Panic /\
            (nth_error da2 i = Some y /\ length da2 = length da1 \/ da2 = [y]))
     | Dense da1, Sparse _ =>
         exists i y, stores other i y /\ (length da1 <= i \/ exists x, nth_error da1 i = Some x /\ f x y = Panic)
     | Sparse sa1, Dense da2 =>
         exists i, i < Nat.max (sa_dim sa1) (length da2) /\ f (get_or_zero (sa_acts sa1) i) (nth i da2 fzero) = Panic
     | Sparse sa1, Sparse sa2 =>
         (exists i x, stores phi i x /\ f x (get_or_zero (sa_acts sa2) i) = Panic) \/
         (exists i y, stores other i y /\ ~ stored phi i /\ f fzero y = Panic)
     end).
  Proof.
    intros K. unfold merge_inplace_u. rewrite (proj1 (inplace_zeroed phi _)).
    destruct phi as [da1|[d1 m1]], other as [da2|[d2 m2]]; cbn [merge_into_p sa_acts sa_dim].
    - unfold broadcast. destruct (Nat.eqb_spec (length da2) (length da1)) as [E|E]; cbn [obind].
      + rewrite obind_ret_panics, omapM_panics. split.
        * intros ([x y] & I & P). apply combine_nth_In in I. destruct I as (i & E1 & E2). right. exists i, x, y. auto.
        * intros [[N _]|(i & x & y & E1 & P & [[E2 _]|E2])]; [tauto| |].
          -- exists (x, y). split; auto. apply combine_nth_In. eauto.
          -- exists (x, y). split; auto. apply combine_nth_In. subst da2. destruct da1 as [|z [|]]; try discriminate.
             destruct i as [|[|i]]; try discriminate. exists 0. auto.
      + destruct da2 as [|y [|y' da2]]; cbn [obind].
        * split; auto.
        * rewrite obind_ret_panics, omapM_panics. split.
          -- intros ([x z] & I & P). apply combine_nth_In in I. destruct I as (i & E1 & E2). right. exists i, x, z. splits; auto.
             right. rewrite nth_error_repeat' in E2. destruct (i <? length da1); [congruence|discriminate].
          -- intros [[_ N]|(i & x & z & E1 & P & [[_ E2]|[= ->]])]; [simpl in N; tauto|tauto|].
             exists (x, z). split; auto. apply combine_nth_In. exists i. split; auto. rewrite nth_error_repeat'.
             assert (L : i < length da1) by (apply nth_error_Some; congruence). apply Nat.ltb_lt in L. rewrite L. reflexivity.
        * split; auto. intros _. left. split; auto. simpl. lia.
    - rewrite obind_ret_panics, update_panics by exact K. split; intros (k & y & I & Q); exists k, y; auto.
    - rewrite obind_ret_panics, omapM_panics. split.
      + intros (i & I & P). apply in_seq in I. exists i. split; auto. lia.
      + intros (i & L & P). exists i. split; auto. apply in_seq. lia.
    - destruct (omapM _ m1) as [m1'|] eqn:E; cbn [obind].
      + rewrite obind_ret_panics, (insert_panics (f fzero)) by exact K.
        assert (Ks : hm_keys m1' = hm_keys m1).
        { clear - E. revert m1' E. induction m1 as [|[k v] m1 IH]; intros m1' E; cbn [omapM fst snd] in E; [injection E as <-; reflexivity|].
          destruct (f v (get_or_zero m2 k)); cbn [obind] in E; [|discriminate]. destruct (omapM _ m1) as [r|]; [|discriminate].
          injection E as <-. unfold hm_keys. cbn [map fst]. f_equal. apply IH. reflexivity. }
        assert (St : forall i, stored (Sparse (MkSparse d1 m1)) i <-> In i (hm_keys m1)).
        { intros i. unfold stored, hm_keys. rewrite in_map_iff. split.
          - intros [v I]. exists (i, v). auto.
          - intros ([k v] & <- & I). exists v. exact I. }
        rewrite Ks. split.
        * intros (k & y & I & N & P). right. exists k, y. splits; auto. rewrite St. exact N.
        * intros [(i & x & I & P)|(k & y & I & N & P)].
          -- exfalso. assert (X : omapM (fun kv => let* v := f (snd kv) (get_or_zero m2 (fst kv)) in Ret (fst kv, v)) m1 = Panic).
             { apply omapM_panics. exists (i, x). split; [exact I|]. cbn [fst snd]. rewrite P. reflexivity. } congruence.
          -- exists k, y. rewrite St in N. splits; auto.
      + split; auto. intros _. apply omapM_panics in E. destruct E as ([k v] & I & P). cbn [fst snd] in P. rewrite obind_ret_panics in P.
        left. exists k, v. auto.
  Qed.

  (** ** Uninitialised arrays *)

  Lemma assume_init_some (l : list F) : assume_init (map Some l) = Some l.
  Proof. induction l as [|x l IH]; simpl; auto. rewrite IH. reflexivity. Qed.

  Lemma vset_app_end {A} (l1 l2 : list A) x v : vset (l1 ++ x :: l2) (length l1) v = Ret (l1 ++ v :: l2).
  Proof. unfold vset. induction l1 as [|y l1 IH]; simpl; auto. rewrite IH. reflexivity. Qed.

  Theorem uninit_filled (entry : nat -> outcome F) n :
    fill_uninit n entry = omap (map Some) (omapM entry (seq 0 n)).
  Proof.
    unfold fill_uninit.
    assert (G : forall k done, ofold (fun arr i => let* v := entry i in vset arr i (Some v)) (seq (length done) k)
        (map Some done ++ repeat None k) = omap (fun l => map Some (done ++ l)) (omapM entry (seq (length done) k))).
    { induction k as [|k IH]; intros done; cbn [seq ofold omapM repeat]; [simpl; rewrite !app_nil_r; reflexivity|].
      destruct (entry (length done)) as [v|]; cbn [obind]; [|reflexivity].
      assert (X := vset_app_end (map Some done) (repeat None k) None (Some v)). rewrite map_length in X. rewrite X. cbn [obind].
      specialize (IH (done ++ [v])). rewrite app_length in IH. simpl in IH. rewrite Nat.add_1_r in IH.
      rewrite map_app, <- app_assoc in IH. simpl in IH. rewrite IH.
      destruct (omapM entry (seq (S (length done)) k)); simpl; auto. rewrite <- app_assoc. reflexivity. }
    exact (G n []).
  Qed.

  (** [assume_init] is only reached with every entry written. *)
  Corollary uninit_sound (entry : nat -> outcome F) n arr : fill_uninit n entry = Ret arr ->
    exists l, assume_init arr = Some l /\ omapM entry (seq 0 n) = Ret l.
  Proof.
    rewrite uninit_filled. destruct (omapM entry (seq 0 n)) as [l|]; simpl; intros [= <-]. exists l. split; auto. apply assume_init_some.
  Qed.

  (** The sparse/dense cases of [merge] and [merge_into] go through it. *)
  Theorem merge_uninit sa da (f : F -> F -> F) :
    let n := Nat.max (sa_dim sa) (length da) in
    merge (Sparse sa) (Dense da) f =
      (let* arr := fill_uninit n (fun i => let* y := vget da i in Ret (f (get_or_zero (sa_acts sa) i) y)) in
       match assume_init arr with Some l => Ret (Dense l) | None => Panic end) /\
    merge_into (Sparse sa) (Dense da) f =
      (let* arr := fill_uninit n (fun i => Ret (f (get_or_zero (sa_acts sa) i) (nth i da fzero))) in
       match assume_init arr with Some l => Ret (Dense l) | None => Panic end).
  Proof.
    intros n. cbn [merge merge_into]. fold n. split; rewrite uninit_filled.
    - destruct (omapM _ (seq 0 n)) as [l|]; cbn [omap obind]; auto. rewrite assume_init_some. reflexivity.
    - rewrite omapM_Ret. cbn [omap obind]. rewrite assume_init_some. reflexivity.
  Qed.

  (** ** Unchecked reads *)

  Theorem uget_reads (b : basis F) x f idx : sound b -> project b x = Ret (Ok f) -> idx < dim b -> uget_in_bounds f idx = true.
  Proof.
    intros S E L. destruct (project_dim b x f S E) as [W D]. destruct f as [da|]; simpl in *; auto. apply Nat.ltb_lt. lia.
  Qed.
End UnwindMore.
