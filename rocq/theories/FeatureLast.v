(** Remaining lemmas behind PropFeatures.v. *)
From Coq Require Import List Arith ZArith Lia Permutation Bool Reals Lra.
From Flocq Require Import IEEE754.BinarySingleNaN.
From Verif Require Import Base Scalar ScalarR ScalarF64 HMap HMapFacts NdArray VecFacts
  Features Spec FeatureFacts FeatureMore F64Facts.
Import ListNotations.

Section Generic.
  Context {F : Type} `{Scalar F}.

  Lemma same_variant (phi psi : Features F) : same phi psi -> is_sparse phi = is_sparse psi.
  Proof. destruct phi, psi; simpl; tauto. Qed.

  Lemma same_observations (phi psi : Features F) : keyed phi -> same phi psi ->
    is_sparse phi = is_sparse psi /\ n_features phi = n_features psi /\
    n_active phi = n_active psi /\
    (forall i, get phi i = get psi i) /\ (forall i, index phi i = index psi i) /\
    into_dense phi = into_dense psi /\
    (forall a w, scaled_addto phi a w = scaled_addto psi a w) /\
    (forall w, addto phi w = addto psi w).
  Proof.
    intros K E. splits.
    - apply same_variant, E.
    - apply (same_size _ _ E).
    - destruct phi as [|[d m]], psi as [|[d' m']]; simpl in E; try tauto; subst; auto.
      simpl. apply Permutation_length, E.
    - intros i. apply same_get; auto.
    - intros i. pose proof (same_get phi psi i K E) as G.
      destruct phi as [|[d m]], psi as [|[d' m']]; simpl in E; try tauto; subst; auto.
      simpl in *. unfold hm_mem. rewrite G. reflexivity.
    - apply same_into_dense; auto.
    - intros a w. destruct phi as [|[d m]], psi as [|[d' m']]; simpl in E; try tauto; subst; auto.
      simpl. apply (upd_loop_perm (fun v x => fadd x (fmul a v))); auto. apply E.
    - intros w. destruct phi as [|[d m]], psi as [|[d' m']]; simpl in E; try tauto; subst; auto.
      simpl. apply (upd_loop_perm (fun v x => fadd x v)); auto. apply E.
  Qed.

  Lemma fmap_pointwise (phi : Features F) f : wf phi ->
    exists psi, fmap phi f = Ret psi /\ wf psi /\ size psi = size phi /\
      forall l l', expands phi l -> expands psi l' ->
        (f fzero = fzero \/ fltb (fabs (f fzero)) sparsity_tol = false -> l' = map f l) /\
        (l' = map f l <->
           is_sparse psi = false \/ f fzero = fzero \/ forall i, i < size phi -> stored phi i) /\
        (forall i x x', nth_error l i = Some x -> nth_error l' i = Some x' ->
           x' = f x \/ (~ stored phi i /\ x = fzero /\ x' = fzero /\
                        fltb (fabs (f x)) sparsity_tol = true)).
  Proof.
    intros W. destruct (fmap_spec phi f W) as (psi & E & Wp & Sz & V & St & X).
    exists psi. splits; auto. intros l l' L L'.
    assert (Iff : l' = map f l <-> is_sparse psi = false \/ f fzero = fzero \/
                  forall i, i < size phi -> stored phi i).
    { rewrite <- (X l L). split.
      - intros ->. exact L'.
      - intros M. eapply expands_unique; [apply Wp|exact L'|exact M]. }
    splits; auto.
    - intros [C|C]; apply Iff; auto. left. rewrite V. unfold keeps_sparse. rewrite C.
      apply andb_false_r.
    - intros i x x' Hx Hx'. destruct (is_sparse psi) eqn:Sp.
      + rewrite (expands_nth_all phi l i (proj1 W) L) in Hx.
        rewrite (expands_nth_all psi l' i (proj1 Wp) L') in Hx'.
        destruct (i <? size phi); [|discriminate]. destruct (i <? size psi); [|discriminate].
        inversion Hx; inversion Hx'; subst x x'. unfold entry.
        destruct (get phi i) as [u|] eqn:G.
        * left. apply get_stores in G; [|apply W].
          assert (G' : stores psi i (f u)) by (apply St; eauto).
          apply get_stores in G'; [|apply Wp]. rewrite G'. reflexivity.
        * right. apply get_not_stored in G; [|apply W].
          assert (G' : ~ stored psi i).
          { intros [v S]. apply St in S; auto. destruct S as (u & S & _). apply G. exists u. exact S. }
          apply get_not_stored in G'; [|apply Wp]. rewrite G'. splits; auto.
          symmetry in V. apply andb_true_iff in V. apply V.
      + left. assert (Q : l' = map f l) by (apply Iff; auto). subst l'.
        rewrite nth_error_map', Hx in Hx'. simpl in Hx'. congruence.
  Qed.

  Lemma fmap_sparsity (phi psi : Features F) f : wf phi -> fmap phi f = Ret psi ->
    is_sparse psi = is_sparse phi && fltb (fabs (f fzero)) sparsity_tol /\
    (is_sparse psi = true -> forall i v, stores psi i v <-> exists u, stores phi i u /\ v = f u).
  Proof.
    intros W E. destruct (fmap_spec phi f W) as (psi' & E' & _ & _ & V & St & _).
    rewrite E in E'. inversion E'; subst psi'. split; auto.
  Qed.

  Lemma merge_into_dd (la lb : list F) f :
    (length lb = length la -> merge_into (Dense la) (Dense lb) f = Ret (Dense (map2 f la lb))) /\
    (length lb <> length la ->
       (exists y, lb = [y] /\ merge_into (Dense la) (Dense lb) f = Ret (Dense (map (fun x => f x y) la))) \/
       (length lb <> 1 /\ merge_into (Dense la) (Dense lb) f = Panic)).
  Proof.
    split; [apply merge_into_dense_dense|]. intros N.
    destruct (Nat.eq_dec (length lb) 1) as [E|E].
    - left. destruct lb as [|y [|]]; try discriminate. exists y. split; auto.
      simpl. rewrite zip_mut_with_one. reflexivity.
    - right. split; auto. simpl. rewrite zip_mut_with_bad; auto.
  Qed.

  Lemma merge_into_ds_entries (la : list F) d m f : hm_ok m ->
    (merge_into (Dense la) (Sparse (MkSparse d m)) f = Panic <->
     exists i, stored (Sparse (MkSparse d m)) i /\ length la <= i) /\
    forall c, merge_into (Dense la) (Sparse (MkSparse d m)) f = Ret c ->
      exists l, c = Dense l /\ length l = length la /\
      forall i x, nth_error la i = Some x ->
        (forall v, stores (Sparse (MkSparse d m)) i v -> nth_error l i = Some (f x v)) /\
        (~ stored (Sparse (MkSparse d m)) i -> nth_error l i = Some x).
  Proof.
    intros K. split; [apply merge_into_dense_sparse_panic, K|].
    intros c E. simpl in E. rewrite merge_ds_loop in E.
    destruct (upd_loop (fun v x => f x v) m la) as [l|] eqn:U; inversion E; subst.
    exists l. split; auto.
    assert (B : forall k, In k (hm_keys m) -> k < length la).
    { apply (upd_loop_Ret_iff (fun v x => f x v) m la K). eauto. }
    destruct (sparse_bump f d m la K B) as (w & U' & Bu). rewrite U in U'. inversion U'; subst.
    exact Bu.
  Qed.

  Lemma remove_stores (phi : Features F) i k v : keyed phi -> is_sparse phi = true ->
    (stores (remove phi i) k v <-> k <> i /\ stores phi k v).
  Proof.
    intros K S. destruct phi as [|[d m]]; [discriminate|].
    rewrite <- !get_stores by auto using remove_keyed. rewrite remove_get_sparse.
    destruct (Nat.eqb_spec i k); split; try tauto; try congruence.
    - intros [N _]. congruence.
    - intros E. split; auto.
  Qed.

  Lemma index_panic (phi : Features F) i :
    index phi i = Panic <-> is_sparse phi = false /\ size phi <= i.
  Proof.
    destruct phi as [da|[d m]]; simpl.
    - split.
      + intros E. split; auto. destruct (Nat.lt_ge_cases i (length da)) as [L|]; auto.
        destruct (vget_lt da i L) as (x & E' & _). congruence.
      + intros [_ L]. apply vget_ge, L.
    - split; [discriminate|]. intros [E _]. discriminate.
  Qed.

  Lemma n_active_dense (da : list F) :
    exists l, NoDup l /\
      (forall i, In i l <-> exists v, nth_error da i = Some v /\ fltb (flit 1 10000000) (fabs v) = true) /\
      n_active (Dense da) = length l.
  Proof.
    set (p := fun i => match nth_error da i with
                       | Some v => fltb (flit 1 10000000) (fabs v) | None => false end).
    exists (filter p (seq 0 (length da))). splits.
    - apply NoDup_filter, seq_NoDup.
    - intros i. rewrite filter_In, in_seq. unfold p. split.
      + intros [_ E]. destruct (nth_error da i); [eauto|discriminate].
      + intros (v & V & E). rewrite V. split; auto.
        assert (i < length da) by (apply nth_error_Some; congruence). lia.
    - simpl. unfold active_tol, p. clear p.
      induction da as [|x da IH]; auto.
      cbn [length seq filter nth_error]. rewrite <- seq_shift.
      assert (Q : forall (g : nat -> bool) l, length (filter g (map S l)) = length (filter (fun i => g (S i)) l)).
      { intros g l. apply filter_map_length. }
      destruct (fltb (flit 1 10000000) (fabs x)); cbn [length]; rewrite IH, Q; reflexivity.
  Qed.

  Lemma addto_misfits (phi : Features F) a w : keyed phi -> ~ fits phi w ->
    (exists x, phi = Dense [x] /\
       scaled_addto phi a w = Ret (map (fun y => fadd y (fmul a x)) w) /\
       addto phi w = Ret (map (fun y => fadd y x) w)) \/
    ((forall x, phi <> Dense [x]) /\ scaled_addto phi a w = Panic /\ addto phi w = Panic).
  Proof.
    intros K N.
    destruct (scaled_addto_misfit phi a w K N) as [(x & E & A)|(E & A)],
      (addto_misfit phi w K N) as [(x' & E' & A')|(E' & A')].
    - left. exists x. subst phi. inversion E'; subst. auto.
    - exfalso. eapply E'; eauto.
    - exfalso. eapply E; eauto.
    - right. auto.
  Qed.

  Lemma addto_scaled (a : F) : (forall x, fmul a x = x) ->
    forall (phi : Features F) w, addto phi w = scaled_addto phi a w.
  Proof.
    intros L phi w. destruct phi as [da|[d m]]; simpl.
    - unfold add_assign, scaled_add, zip_mut_with. destruct (broadcast da (length w)) as [l|]; simpl; auto.
      assert (Q : map2 fadd w l = map2 (fun y x => fadd y (fmul a x)) w l).
      { revert l. induction w as [|y w IH]; intros [|x l]; simpl; auto.
        rewrite L, IH. reflexivity. }
      rewrite Q. reflexivity.
    - revert w. induction m as [|[k v] m IH]; intros w; simpl; auto.
      rewrite L. destruct (vupd w k (fun x => fadd x v)); simpl; auto.
  Qed.
End Generic.

Lemma reductions_expand (phi : Features R) l : wf phi -> expands phi l ->
  fsum phi = fsum (Dense l) /\
  forall w, length w = size phi -> dot phi w = dot (Dense l) w /\ dot phi w = Ret (rdot l w).
Proof.
  intros W X. split; [apply fsum_expands; auto|]. intros w L.
  rewrite (dot_expands phi l w W X L). split; auto. simpl. unfold dot1.
  destruct X as [Len _]. rewrite Len, L, Nat.eqb_refl. reflexivity.
Qed.

Lemma reductions_same (phi psi : Features R) : keyed phi -> same phi psi ->
  fsum phi = fsum psi /\ forall w, dot phi w = dot psi w.
Proof. intros K E. split; [apply fsum_same, E|]. intros w. apply dot_same; auto. Qed.

Lemma fsum_f64_bound P d m d' m' :
  same (Sparse (MkSparse d m)) (Sparse (MkSparse d' m')) ->
  let s := @fsum f64 (ScalarF64 P) (Sparse (MkSparse d m)) in
  let s' := @fsum f64 (ScalarF64 P) (Sparse (MkSparse d' m')) in
  is_finite s = true -> is_finite s' = true ->
  (Rabs (B2R s - B2R s') <=
   2 * ((1 + uro) ^ length m - 1) * rsum (map (fun kv => Rabs (B2R (snd kv))) m))%R.
Proof.
  intros [_ Pm] s s' Fs Fs'. simpl in Pm.
  pose proof (fold_add_perm (hm_values m) (hm_values m') (Permutation_map snd Pm) Fs Fs') as B.
  unfold abs_sum, hm_values in B. rewrite !map_map, map_length in B. exact B.
Qed.

Definition dot_terms (m : hmap f64) (w : list f64) : list f64 :=
  map (fun kv => b_mul (nth (fst kv) w b_zero) (snd kv)) m.

Lemma dot_f64_fold P d m w s : @dot f64 (ScalarF64 P) (Sparse (MkSparse d m)) w = Ret s ->
  s = fold_left b_add (dot_terms m w) b_zero.
Proof.
  simpl. unfold dot_sparse. simpl. rewrite fzero_f64. generalize b_zero at 1 2.
  induction m as [|[k v] m IH]; simpl; intros acc E; [congruence|].
  destruct (vget w k) as [x|] eqn:G; simpl in E; [|discriminate].
  apply IH in E. rewrite E. f_equal. f_equal.
  unfold vget in G. destruct (nth_error w k) eqn:N; inversion G; subst.
  rewrite (nth_error_nth w k b_zero N). reflexivity.
Qed.

Lemma dot_f64_bound P d m d' m' w s s' :
  same (Sparse (MkSparse d m)) (Sparse (MkSparse d' m')) ->
  @dot f64 (ScalarF64 P) (Sparse (MkSparse d m)) w = Ret s ->
  @dot f64 (ScalarF64 P) (Sparse (MkSparse d' m')) w = Ret s' ->
  is_finite s = true -> is_finite s' = true ->
  (Rabs (B2R s - B2R s') <=
   2 * ((1 + uro) ^ length m - 1) *
   rsum (map (fun kv => Rabs (B2R (b_mul (nth (fst kv) w b_zero) (snd kv)))) m))%R.
Proof.
  intros [_ Pm] E E' Fs Fs'. simpl in Pm. apply dot_f64_fold in E, E'. subst s s'.
  pose proof (fold_add_perm (dot_terms m w) (dot_terms m' w) (Permutation_map _ Pm) Fs Fs') as B.
  unfold abs_sum in B. unfold dot_terms at 3 4 in B. rewrite !map_map, map_length in B. exact B.
Qed.

Lemma sparsity_tol_R : (sparsity_tol : R) = (1 / 100000)%R.
Proof. reflexivity. Qed.

Lemma fmap_error (phi psi : Features R) f l l' : wf phi -> fmap phi f = Ret psi ->
  expands phi l -> expands psi l' ->
  forall i x x', nth_error l i = Some x -> nth_error l' i = Some x' ->
    (Rabs (x' - f x) < 1 / 100000)%R.
Proof.
  intros W E X X' i x x' Hx Hx'.
  destruct (fmap_pointwise phi f W) as (q & E' & _ & _ & Q). rewrite E in E'. inversion E'; subst q.
  destruct (Q l l' X X') as (_ & _ & N).
  destruct (N i x x' Hx Hx') as [->|(_ & _ & -> & T)].
  - unfold Rminus. rewrite Rplus_opp_r, Rabs_R0. lra.
  - apply Rltb_true in T. rewrite sparsity_tol_R in T. rewrite fzero_R.
    replace (0 - f x)%R with (- f x)%R by ring. rewrite Rabs_Ropp. exact T.
Qed.

Lemma fmap_drops : exists (phi psi : Features R) f l,
  wf phi /\ fmap phi f = Ret psi /\ expands phi l /\ ~ expands psi (map f l).
Proof.
  set (phi := Sparse (MkSparse 2 [(1, 3%R)])). set (f := fun x : R => (x + 1 / 1000000)%R).
  assert (W : wf phi).
  { split.
    - simpl. repeat constructor; simpl; tauto.
    - intros i [v [V|[]]]. inversion V; subst. simpl. lia. }
  destruct (fmap_pointwise phi f W) as (psi & E & Wp & Sz & Q).
  destruct (expands_exists phi (proj1 W)) as [l L].
  exists phi, psi, f, l. splits; auto. intros X.
  destruct (Q l (map f l) L X) as (_ & I & _). destruct I as [I _]. specialize (I eq_refl).
  destruct (fmap_sparsity phi psi f W E) as [V _].
  destruct I as [I|[I|I]].
  - rewrite V in I. simpl in I. apply Rltb_false in I. rewrite sparsity_tol_R, fzero_R in I.
    unfold f in I. rewrite Rabs_pos_eq in I; lra.
  - unfold f in I. rewrite fzero_R in I. lra.
  - assert (0 < size phi) as S0 by (simpl; lia). apply I in S0.
    destruct S0 as [v [S0|[]]]. inversion S0.
Qed.

Lemma dot_features_iff d1 m1 d2 m2 la lb :
  wf (Sparse (MkSparse d1 m1)) -> wf (Sparse (MkSparse d2 m2)) -> d1 = d2 ->
  expands (Sparse (MkSparse d1 m1)) la -> expands (Sparse (MkSparse d2 m2)) lb ->
  (dot_features (Sparse (MkSparse d1 m1)) (Sparse (MkSparse d2 m2)) = Ret (rdot la lb) <->
   forall l, NoDup l ->
     (forall i, In i l <-> stored (Sparse (MkSparse d1 m1)) i /\ stored (Sparse (MkSparse d2 m2)) i) ->
     rsum (map (fun i => nth i la 0 * nth i lb 0)%R l) = INR (length l)).
Proof.
  intros W1 W2 <- X1 X2.
  destruct (dot_features_sparse d1 m1 d1 m2 (proj1 W1) (proj1 W2)) as (q & Nq & Iq & Eq).
  rewrite Eq. simpl fofnat.
  assert (Key : forall l, NoDup l ->
    (forall i, In i l <-> stored (Sparse (MkSparse d1 m1)) i /\ stored (Sparse (MkSparse d1 m2)) i) ->
    rsum (map (fun i => nth i la 0 * nth i lb 0)%R l) = rdot la lb /\ length l = length q).
  { intros l Nl Il.
    assert (Pq : Permutation l q).
    { apply NoDup_Permutation; auto. intros i. rewrite Il, Iq. tauto. }
    split; [|apply Permutation_length, Pq].
    assert (La : length la = d1) by (destruct X1; auto).
    assert (Lb : length lb = d1) by (destruct X2; auto).
    rewrite rdot_seq by congruence. rewrite La.
    set (p := fun i => hm_mem m1 i && hm_mem m2 i).
    rewrite (rsum_filter p _ (seq 0 d1)).
    - apply rsum_perm, Permutation_map, NoDup_Permutation; auto using NoDup_filter, seq_NoDup.
      intros i. rewrite filter_In, in_seq, Il, !stored_key. unfold p.
      rewrite andb_true_iff, !hm_mem_In. split; [|tauto]. intros I. split; auto.
      assert (i < d1); [|lia]. apply (proj2 W1). rewrite stored_key. tauto.
    - intros i I. apply in_seq in I. unfold p. intros Z. apply andb_false_iff in Z.
      assert (Na : nth i la 0%R = entry (Sparse (MkSparse d1 m1)) i).
      { apply nth_error_nth. apply expands_nth; auto; [apply W1|simpl; lia]. }
      assert (Nb : nth i lb 0%R = entry (Sparse (MkSparse d1 m2)) i).
      { apply nth_error_nth. apply expands_nth; auto; [apply W2|simpl; lia]. }
      rewrite Na, Nb. unfold entry. simpl. unfold hm_mem in Z.
      destruct Z as [Z|Z].
      + destruct (hm_get m1 i); [discriminate|]. rewrite fzero_R. lra.
      + destruct (hm_get m2 i); [discriminate|]. rewrite fzero_R. lra. }
  split.
  - intros E l Nl Il. destruct (Key l Nl Il) as [-> ->]. congruence.
  - intros C. destruct (Key q Nq Iq) as [Q _]. specialize (C q Nq Iq). rewrite Q in C.
    rewrite C. reflexivity.
Qed.

Lemma equality_f64 P (a b c : Features f64) : keyed a -> keyed b -> keyed c ->
  let eqb := @features_eqb f64 (ScalarF64 P) in
  eqb a b = eqb b a /\
  (eqb a b = Ret true -> eqb b c = Ret true -> eqb a c = Ret true) /\
  (eqb a a = Ret true <-> forall i v, stores a i v -> is_nan v = false) /\
  (eqb a b = Ret true -> forall la lb,
     @expands f64 (ScalarF64 P) a la -> @expands f64 (ScalarF64 P) b lb ->
     Forall2 (fun x y => Beqb x y = true) la lb).
Proof.
  intros Ka Kb Kc eqb. splits.
  - apply (@features_eqb_sym f64 (ScalarF64 P)); auto. intros x y. apply b_eqb_sym.
  - apply (@features_eqb_trans f64 (ScalarF64 P)); auto. intros x y z. apply b_eqb_trans.
  - unfold eqb. rewrite (@features_eqb_refl f64 (ScalarF64 P)) by assumption.
    change (@feqb f64 (ScalarF64 P)) with (@Beqb 53 1024).
    split; intros E i v V; specialize (E i v V).
    + rewrite b_eqb_refl in E. apply negb_true_iff in E. exact E.
    + rewrite b_eqb_refl, E. reflexivity.
  - intros E la lb Xa Xb.
    assert (Q := @features_eqb_expands f64 (ScalarF64 P) a b la lb eq_refl Ka Kb E Xa Xb).
    clear -Q. revert lb Q. induction la as [|x la IH]; intros [|y lb]; simpl; try discriminate.
    + constructor.
    + intros Q. apply andb_true_iff in Q. constructor; [apply Q|apply IH, Q].
Qed.

Lemma active_tol_R : (active_tol : R) = (1 / 10000000)%R.
Proof. reflexivity. Qed.

Lemma n_active_expand_R (phi : Features R) l : wf phi -> expands phi l ->
  n_active (Dense l) <= n_active phi /\
  (is_sparse phi = true ->
   (n_active (Dense l) = n_active phi <->
    forall i v, stores phi i v -> (1 / 10000000 < Rabs v)%R)).
Proof.
  intros W X. destruct (n_active_expand phi l) as (A & B & _); auto.
  - simpl. apply Rltb_false. rewrite active_tol_R, fzero_R, Rabs_R0. lra.
  - split; auto. intros S. rewrite (B S).
    split; intros E i v V; apply (E i) in V.
    + apply Rltb_true in V. exact V.
    + apply Rltb_true. exact V.
Qed.

Lemma n_active_expand_f64 P (phi : Features f64) l :
  wf phi -> @expands f64 (ScalarF64 P) phi l ->
  @n_active f64 (ScalarF64 P) (Dense l) <= @n_active f64 (ScalarF64 P) phi /\
  (is_sparse phi = true ->
   (@n_active f64 (ScalarF64 P) (Dense l) = @n_active f64 (ScalarF64 P) phi <->
    forall i v, stores phi i v -> Bltb (b_div (b_dyadic 1 0) (b_dyadic 10000000 0)) (Babs v) = true)).
Proof.
  intros W X. destruct (@n_active_expand f64 (ScalarF64 P) phi l) as (A & B & _); auto.
Qed.

Lemma addto_one_R (phi : Features R) w : addto phi w = scaled_addto phi 1%R w.
Proof. apply addto_scaled. intros x. simpl. lra. Qed.

Lemma addto_one_f64 P (phi : Features f64) w :
  @addto f64 (ScalarF64 P) phi w = @scaled_addto f64 (ScalarF64 P) phi (b_dyadic 1 0) w.
Proof. apply (@addto_scaled f64 (ScalarF64 P)). intros x. apply b_mul_one. Qed.
