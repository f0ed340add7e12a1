(** Tile coding and the uniform grid. *)
From Coq Require Import List Arith ZArith Lia Bool Permutation.
From Verif Require Import Base Scalar HMap HMapFacts NdArray VecFacts Features Spec FeatureFacts
  FeatureMore TileCoding Basis BasisFacts.
Import ListNotations.

(** ** Uniform grid (C25) *)

Section Grid.
  Context {F : Type} `{Scalar F}.
  Implicit Types (space : list (equipartition F)) (x : list F).

  Definition into_range space : Prop := forall e v, In e space -> ep_map_onto e v < ep_n e.

  (** Positional value of the digits [ps] in the radices [ns]. *)
  Fixpoint value (ns ps : list nat) : nat :=
    match ns, ps with
    | n :: ns', p :: ps' => p * fold_right Nat.mul 1 ns' + value ns' ps'
    | _, _ => 0
    end.

  Lemma grid_fold_value : forall space x acc, length x = length space ->
    fold_left (fun acc dv => ep_map_onto (fst dv) (snd dv) + ep_n (fst dv) * acc) (combine space x) acc
    = acc * fold_right Nat.mul 1 (map ep_n space) + value (map ep_n space) (map2 ep_map_onto space x).
  Proof.
    induction space as [|e space IH]; intros [|v x] acc L; simpl in L; try discriminate.
    - simpl. lia.
    - cbn [combine fold_left map fold_right map2 value fst snd].
      rewrite IH by lia. lia.
  Qed.

  Lemma grid_hash_value space x : space <> [] -> length x = length space ->
    grid_hash space x = Ret (value (map ep_n space) (map2 ep_map_onto space x)).
  Proof.
    intros N L. destruct space as [|e space]; [tauto|]. destruct x as [|v x]; [discriminate|].
    simpl. rewrite grid_fold_value by (simpl in L; lia). reflexivity.
  Qed.

  Lemma value_bound : forall ns ps, Forall2 lt ps ns -> value ns ps < fold_right Nat.mul 1 ns.
  Proof.
    induction ns as [|n ns IH]; intros ps E; inversion E; subst; simpl; [lia|].
    apply IH in H4. nia.
  Qed.

  Lemma value_inj : forall ns ps qs, Forall2 lt ps ns -> Forall2 lt qs ns ->
    value ns ps = value ns qs -> ps = qs.
  Proof.
    induction ns as [|n ns IH]; intros ps qs Ep Eq V.
    - inversion Ep; inversion Eq; reflexivity.
    - inversion Ep as [|p ? ps' ? Lp Ep']; subst. inversion Eq as [|q ? qs' ? Lq Eq']; subst.
      simpl in V. assert (Bp := value_bound ns ps' Ep'). assert (Bq := value_bound ns qs' Eq').
      assert (p = q) by nia. subst q. f_equal. apply IH; auto. lia.
  Qed.

  Lemma value_surj : forall ns i, i < fold_right Nat.mul 1 ns ->
    exists ps, Forall2 lt ps ns /\ value ns ps = i.
  Proof.
    induction ns as [|n ns IH]; simpl; intros i L.
    - exists []. split; [constructor|]. simpl. lia.
    - set (P := fold_right Nat.mul 1 ns) in *. assert (NZ : P <> 0) by nia.
      destruct (IH (i mod P)) as (ps & Fp & V). { apply Nat.mod_upper_bound, NZ. }
      exists (i / P :: ps). split.
      + constructor; auto. apply Nat.div_lt_upper_bound; auto. lia.
      + simpl. fold P. rewrite V. rewrite (Nat.div_mod i P NZ) at 3. lia.
  Qed.

  Lemma digits_lt space x : into_range space -> length x = length space ->
    Forall2 lt (map2 ep_map_onto space x) (map ep_n space).
  Proof.
    revert x. induction space as [|e space IH]; intros [|v x] C L; simpl in L; try discriminate; simpl; constructor.
    - apply C. simpl. auto.
    - apply IH; [|lia]. intros e' v' I. apply C. simpl. auto.
  Qed.

  Theorem grid_project space x phi : into_range space ->
    project (grid_new space) x = Ret (Ok phi) ->
    exists i, i < fold_right Nat.mul 1 (map ep_n space) /\
      phi = Sparse (MkSparse (fold_right Nat.mul 1 (map ep_n space)) [(i, fone)]) /\
      (forall j v, stores phi j v <-> j = i /\ v = fone).
  Proof.
    intros C E. simpl in E. destruct (grid_hash space x) as [i|] eqn:G; simpl in E; inversion E; subst.
    exists i. splits; auto; [eapply grid_hash_bound; eauto|].
    intros j v. simpl. split; [intros [Q|[]]; inversion Q; auto|]. intros [-> ->]. auto.
  Qed.

  Theorem grid_total space x : space <> [] -> x <> [] ->
    exists phi, project (grid_new space) x = Ret (Ok phi).
  Proof.
    intros Ns Nx. destruct space as [|e space]; [tauto|]. destruct x as [|v x]; [tauto|].
    eexists. reflexivity.
  Qed.

  Theorem grid_panic space x :
    project (grid_new space) x = Panic <-> space = [] \/ x = [].
  Proof.
    destruct space as [|e space], x as [|v x]; simpl; split; auto; try discriminate.
    intros [C|C]; discriminate.
  Qed.

  Theorem grid_cells space x y : into_range space -> space <> [] ->
    length x = length space -> length y = length space ->
    (project (grid_new space) x = project (grid_new space) y <->
     map2 ep_map_onto space x = map2 ep_map_onto space y).
  Proof.
    intros C N Lx Ly. simpl. rewrite !grid_hash_value by assumption. simpl. split.
    - intros E. inversion E as [Q]. eapply value_inj; [apply digits_lt, Lx|apply digits_lt, Ly|exact Q]; exact C.
    - intros ->. reflexivity.
  Qed.

  (** Every index belongs to some combination of partitions. *)
  Theorem grid_onto space i : i < fold_right Nat.mul 1 (map ep_n space) ->
    exists ps, Forall2 (fun p e => p < ep_n e) ps space /\
      forall x, length x = length space -> space <> [] -> map2 ep_map_onto space x = ps ->
        grid_hash space x = Ret i.
  Proof.
    intros L. destruct (value_surj _ _ L) as (ps & Fp & V). exists ps. split.
    - clear -Fp. revert ps Fp. induction space as [|e space IH]; intros ps Fp; inversion Fp; subst; constructor; auto.
    - intros x Lx N E. rewrite grid_hash_value by assumption. rewrite E, V. reflexivity.
  Qed.

  Theorem grid_surplus space x extra : length x = length space -> space <> [] ->
    project (grid_new space) (x ++ extra) = project (grid_new space) x.
  Proof.
    intros L N. destruct space as [|e space]; [tauto|]. destruct x as [|v x]; [discriminate|].
    simpl. do 3 f_equal.
    assert (Q : forall (a : list (equipartition F)) (b c : list F), length b = length a -> combine a (b ++ c) = combine a b).
    { induction a as [|a0 a IH]; intros [|b0 b] c E; simpl in *; try discriminate; auto. rewrite IH by lia. reflexivity. }
    rewrite Q by (simpl in L; lia). reflexivity.
  Qed.
End Grid.

(** ** Tile coding (C24, C54) *)

Section Tiles.
  Context {F : Type} `{Scalar F}.
  Local Open Scope Z_scope.

  Lemma hm_collect_length (l : list (nat * F)) : (length (hm_collect l) <= length l)%nat.
  Proof.
    assert (G : forall (l' : list (nat * F)) (m : list (nat * F)), (length (fold_left (fun m kv => hm_insert m (fst kv) (snd kv)) l' m)
                              <= length m + length l')%nat).
    { induction l' as [|kv l' IH]; intros m; simpl; [lia|]. specialize (IH (hm_insert m (fst kv) (snd kv))).
      assert (length (hm_insert m (fst kv) (snd kv)) <= S (length m))%nat; [|lia].
      clear IH. induction m as [|[k w] m IHm]; simpl; [lia|]. destruct (k =? fst kv)%nat; simpl; lia. }
    specialize (G l []). simpl in G. exact G.
  Qed.

  Theorem tile_features bld h nt ms (x : list F) phi : tile_project bld h nt ms x = Ret (Ok phi) ->
    is_sparse phi = true /\ wf phi /\ size phi = ms /\
    (forall i v, stores phi i v -> v = fone) /\
    (n_active phi <= nt)%nat /\ ((1 <= nt)%nat -> (1 <= n_active phi)%nat).
  Proof.
    intros E. destruct (project_dim (BTile bld h nt ms) x phi I E) as [W D].
    unfold tile_project in E.
    destruct (hash_state bld h (bin_state x nt) nt ms (h_init h) (seq 0 nt)) as [is|] eqn:Hs;
      simpl in E; [|discriminate]. inversion E; subst phi.
    destruct (hash_state_facts _ _ _ _ _ _ _ _ Hs) as (L & _ & _). rewrite seq_length in L.
    splits; auto.
    - intros i v V. apply (unitary_spec ms is) in V. apply V.
    - simpl. rewrite <- L. etransitivity; [apply hm_collect_length|]. rewrite map_length. lia.
    - intros N. simpl. destruct is as [|i is]; [simpl in L; lia|].
      assert (K : In i (hm_keys (hm_collect (map (fun i => (i, fone)) (i :: is))))).
      { apply hm_collect_keys. simpl. auto. }
      destruct (hm_collect (map (fun i => (i, fone)) (i :: is))); simpl in *; [tauto|lia].
  Qed.

  Theorem tile_no_memory bld h nt (x : list F) : (1 <= nt)%nat -> tile_project bld h nt 0 x = Panic.
  Proof.
    intros N. destruct nt as [|nt]; [lia|]. unfold tile_project. simpl.
    unfold hash_tiling. destruct (isize_arith _ _); simpl; auto.
    match goal with |- context [hash_coords ?a ?b ?c ?d ?e ?f ?g ?k] =>
      destruct (hash_coords a b c d e f g k); simpl; auto end.
  Qed.

  (** No overflow: every bin, shifted by the largest offset, is an isize. *)
  Definition tame (nt : nat) (state : list Z) : Prop :=
    (1 <= nt)%nat /\ 2 * Z.of_nat nt * (1 + Z.of_nat (length state)) <= isize_max /\
    forall s, In s state -> isize_min <= s /\ s + 2 * Z.of_nat nt * (1 + Z.of_nat (length state)) <= isize_max.

  (** The cell of bin [s] of coordinate [i] in tiling [t]: offset, then divide. *)
  Definition cell (nt t i : nat) (s : Z) : Z :=
    Z.quot (s + Z.of_nat t + 2 * Z.of_nat i * Z.of_nat t) (Z.of_nat nt).

  Fixpoint cells (nt t i : nat) (state : list Z) : list Z :=
    match state with
    | [] => []
    | s :: state' => cell nt t i s :: cells nt t (S i) state'
    end.

  Lemma in_isize_iff z : in_isize z = true <-> isize_min <= z <= isize_max.
  Proof. unfold in_isize. rewrite andb_true_iff, !Z.leb_le. tauto. Qed.

  Lemma isize_arith_ok b z : isize_min <= z <= isize_max -> isize_arith b z = Ret z.
  Proof. intros B. unfold isize_arith. apply in_isize_iff in B. rewrite B. reflexivity. Qed.

  Lemma wrap_isize_id z : isize_min <= z <= isize_max -> wrap_isize z = z.
  Proof.
    unfold isize_min, isize_max, wrap_isize. intros B.
    rewrite Z.mod_small; lia.
  Qed.

  Lemma quot_nonpos a n : a <= 0 -> 1 <= n -> Z.quot a n <= 0.
  Proof.
    intros A N. rewrite <- (Z.opp_involutive a), Z.quot_opp_l by lia.
    assert (0 <= Z.quot (- a) n) by (apply Z.quot_pos; lia). lia.
  Qed.

  Lemma quot_in_isize a n : isize_min <= a <= isize_max -> 1 <= n -> isize_min <= Z.quot a n <= isize_max.
  Proof.
    intros B N. assert (Q := Z.quot_rem' a n). assert (M : isize_min <= 0 <= isize_max) by (unfold isize_min, isize_max; lia).
    destruct (Z_le_gt_dec 0 a) as [P|P].
    - assert (R := Z.rem_bound_pos a n P ltac:(lia)).
      assert (P' : 0 <= Z.quot a n) by (apply Z.quot_pos; lia).
      assert (Z.quot a n <= n * Z.quot a n) by (clear - P' N; nia). lia.
    - assert (R := Z.rem_bound_pos_neg a n ltac:(lia) ltac:(lia)).
      assert (P' := quot_nonpos a n ltac:(lia) N).
      assert (n * Z.quot a n <= Z.quot a n) by (clear - P' N; nia). lia.
  Qed.

  Lemma hash_coords_cells bld h nt t : forall state i st total,
    (1 <= nt)%nat -> (t < nt)%nat -> (i + length state <= total)%nat ->
    2 * Z.of_nat nt * (1 + Z.of_nat total) <= isize_max ->
    (forall s, In s state -> isize_min <= s /\ s + 2 * Z.of_nat nt * (1 + Z.of_nat total) <= isize_max) ->
    hash_coords bld h nt (Z.of_nat t) (Z.of_nat t * 2) i state st =
    Ret (fold_left (h_write h) (cells nt t i state) st).
  Proof.
    induction state as [|s state IH]; intros i st total N T L M B; simpl; auto.
    simpl in L. destruct (B s) as [Bl Bu]; [simpl; auto|].
    assert (Z.of_nat i * Z.of_nat t <= Z.of_nat total * Z.of_nat nt) by nia.
    assert (0 <= Z.of_nat i * Z.of_nat t) by lia.
    assert (Mn : isize_min <= 0) by (unfold isize_min; lia).
    rewrite isize_arith_ok by lia. simpl. rewrite isize_arith_ok by lia. simpl.
    rewrite isize_arith_ok by lia. simpl.
    assert (W : wrap_isize (Z.of_nat nt) = Z.of_nat nt) by (apply wrap_isize_id; lia).
    rewrite W. unfold isize_div. destruct (Z.eqb_spec (Z.of_nat nt) 0); [lia|].
    assert (In1 := quot_in_isize (s + (Z.of_nat t + Z.of_nat i * (Z.of_nat t * 2))) (Z.of_nat nt) ltac:(lia) ltac:(lia)).
    apply in_isize_iff in In1. rewrite In1. simpl. rewrite (IH (S i) _ total); auto; [|lia|intros; apply B; simpl; auto].
    do 3 f_equal. unfold cell. f_equal. lia.
  Qed.

  Lemma hash_tiling_cells bld h nt ms state st t : tame nt state -> (t < nt)%nat -> (1 <= ms)%nat ->
    hash_tiling bld h state nt ms st t =
    let st' := fold_left (h_write h) (cells nt t 0 state) (h_write h st (Z.of_nat t)) in
    Ret (st', N.to_nat (N.modulo (h_finish h st') (N.of_nat ms))).
  Proof.
    intros (N & M & B) T Ms. unfold hash_tiling.
    assert (Mn : isize_min <= 0) by (unfold isize_min; lia).
    rewrite wrap_isize_id by lia. rewrite isize_arith_ok by lia. cbn [obind].
    rewrite (hash_coords_cells bld h nt t state 0 _ (length state)) by (auto; lia). cbn [obind].
    destruct ms; [lia|]. reflexivity.
  Qed.

  Lemma hash_state_cells bld bld' h nt ms state state' : tame nt state -> tame nt state' -> (1 <= ms)%nat ->
    (forall t, (t < nt)%nat -> cells nt t 0 state = cells nt t 0 state') ->
    forall ts st, (forall t, In t ts -> (t < nt)%nat) ->
    exists is, hash_state bld h state nt ms st ts = Ret is /\ hash_state bld' h state' nt ms st ts = Ret is.
  Proof.
    intros Ta Ta' Ms E. induction ts as [|t ts IH]; intros st B; simpl; [eauto|].
    rewrite !hash_tiling_cells by (auto; apply B; simpl; auto). cbn [obind].
    rewrite (E t) by (apply B; simpl; auto).
    match goal with |- context [hash_state bld h state nt ms ?s ts] =>
      destruct (IH s) as (is & -> & ->) end.
    { intros; apply B; simpl; auto. }
    simpl. eauto.
  Qed.

  (** Same cells, same features: and the call returns. *)
  Theorem tile_same_cells bld bld' h nt ms (x y : list F) :
    tame nt (bin_state x nt) -> tame nt (bin_state y nt) -> (1 <= ms)%nat ->
    (forall t, (t < nt)%nat -> cells nt t 0 (bin_state x nt) = cells nt t 0 (bin_state y nt)) ->
    exists phi, tile_project bld h nt ms x = Ret (Ok phi) /\ tile_project bld' h nt ms y = Ret (Ok phi).
  Proof.
    intros Tx Ty Ms E. unfold tile_project.
    destruct (hash_state_cells bld bld' h nt ms _ _ Tx Ty Ms E (seq 0 nt) (h_init h)) as (is & -> & ->).
    { intros t I. apply in_seq in I. lia. }
    simpl. eauto.
  Qed.

  (** Truncated division: the cells of one coordinate in one tiling. *)
  Lemma quot_zero_iff s n : 1 <= n -> (Z.quot s n = 0 <-> - n < s < n).
  Proof.
    intros N. rewrite Z.quot_small_iff by lia. rewrite (Z.abs_eq n) by lia. lia.
  Qed.

  Lemma quot_pos_iff s n q : 1 <= n -> 0 < q -> (Z.quot s n = q <-> n * q <= s < n * q + n).
  Proof.
    intros N Q. assert (E := Z.quot_rem' s n). split.
    - intros <-. assert (0 <= s). { destruct (Z_le_gt_dec 0 s); auto. exfalso.
        assert (P' := quot_nonpos s n ltac:(lia) N). lia. }
      assert (R := Z.rem_bound_pos s n ltac:(lia) ltac:(lia)). lia.
    - intros B. assert (R := Z.rem_bound_pos s n ltac:(nia) ltac:(lia)). nia.
  Qed.

  Lemma quot_neg_iff s n q : 1 <= n -> q < 0 -> (Z.quot s n = q <-> n * q - n < s <= n * q).
  Proof.
    intros N Q. assert (P := quot_pos_iff (- s) n (- q) N ltac:(lia)).
    rewrite Z.quot_opp_l in P by lia. lia.
  Qed.

  Lemma interval_list a k : 0 <= k -> exists l, NoDup l /\ length l = Z.to_nat k /\
    forall s, In s l <-> a <= s < a + k.
  Proof.
    intros K. exists (map (fun i => a + Z.of_nat i) (seq 0 (Z.to_nat k))). splits.
    - apply FinFun.Injective_map_NoDup; [|apply seq_NoDup]. intros i j E. lia.
    - rewrite map_length, seq_length. reflexivity.
    - intros s. rewrite in_map_iff. split.
      + intros (i & <- & I). apply in_seq in I. lia.
      + intros B. exists (Z.to_nat (s - a)). split; [lia|]. apply in_seq. lia.
  Qed.

  (** The bins of one cell: 2n-1 of them in the cell of index 0, n in any other. *)
  Theorem cell_width nt t i q : (1 <= nt)%nat ->
    exists l, NoDup l /\ (forall s, In s l <-> cell nt t i s = q) /\
      length l = if q =? 0 then (2 * nt - 1)%nat else nt.
  Proof.
    intros N. set (n := Z.of_nat nt). set (off := Z.of_nat t + 2 * Z.of_nat i * Z.of_nat t).
    assert (C : forall s, cell nt t i s = Z.quot (s + off) n) by (intros s; unfold cell, off, n; f_equal; lia).
    assert (Pn : 1 <= n) by lia.
    destruct (Z.eqb_spec q 0) as [->|Nq].
    - destruct (interval_list (- n + 1 - off) (2 * n - 1)) as (l & D & L & M); [lia|].
      exists l. splits; auto; [|lia]. intros s. rewrite M, C, quot_zero_iff by lia. lia.
    - destruct (Z_lt_le_dec 0 q) as [P|P].
      + destruct (interval_list (n * q - off) n) as (l & D & L & M); [lia|].
        exists l. splits; auto; [|lia]. intros s. rewrite M, C, quot_pos_iff by lia. lia.
      + destruct (interval_list (n * q - n + 1 - off) n) as (l & D & L & M); [lia|].
        exists l. splits; auto; [|lia]. intros s. rewrite M, C, quot_neg_iff by lia. lia.
  Qed.

  (** A first coordinate saturated at isize::MAX overflows in the second tiling. *)
  Theorem tile_overflow_checked h nt ms (x : list F) state' : (2 <= nt)%nat ->
    bin_state x nt = isize_max :: state' -> tile_project Checked h nt ms x = Panic.
  Proof.
    intros N E. destruct nt as [|[|nt]]; try lia. unfold tile_project. rewrite E.
    cbn [seq hash_state].
    destruct (hash_tiling Checked h (isize_max :: state') (S (S nt)) ms (h_init h) 0) as [[st i]|];
      simpl obind; auto.
  Qed.

  (** In a release build it wraps: the second tiling sees the bin at the other
      end of the axis. *)
  Theorem tile_overflow_wrapping h nt (state' : list Z) st : (2 <= nt)%nat -> Z.of_nat nt <= isize_max ->
    hash_coords Wrapping h nt 1 2 0 (isize_max :: state') st =
    hash_coords Wrapping h nt 1 2 1 state' (h_write h st (Z.quot isize_min (Z.of_nat nt))).
  Proof.
    intros N L. cbn [hash_coords].
    change (isize_arith Wrapping (Z.of_nat 0 * 2)) with (Ret 0). cbn [obind].
    change (isize_arith Wrapping (1 + 0)) with (Ret 1). cbn [obind].
    change (isize_arith Wrapping (isize_max + 1)) with (Ret isize_min). cbn [obind].
    rewrite wrap_isize_id by (unfold isize_min in *; lia).
    unfold isize_div. destruct (Z.eqb_spec (Z.of_nat nt) 0); [lia|].
    assert (B := quot_in_isize isize_min (Z.of_nat nt) ltac:(unfold isize_min, isize_max; lia) ltac:(lia)).
    apply in_isize_iff in B. rewrite B. reflexivity.
  Qed.
End Tiles.
