(** Which features tile coding activates, and which ones neighbouring inputs
    share. Facts for C58. *)
From Coq Require Import List Arith ZArith Lia Bool.
From Verif Require Import Base Scalar HMap NdArray Features Spec FeatureFacts TileCoding Basis BasisFacts TileFacts.
Import ListNotations.
Local Open Scope Z_scope.

Section Gen.
  Context {F : Type} `{Scalar F}.
  Implicit Types (state : list Z) (x y : list F).

  (** Everything written to the hasher by the time tiling [t] is read off: the
      number and the cells of every tiling up to [t]. *)
  Definition written (nt t : nat) state : list Z :=
    flat_map (fun t' => Z.of_nat t' :: cells nt t' 0 state) (seq 0 (S t)).

  (** The feature that a sequence of written values selects. *)
  Definition slot (h : hasher) (ms : nat) (ws : list Z) : nat :=
    N.to_nat (N.modulo (h_finish h (fold_left (h_write h) ws (h_init h))) (N.of_nat ms)).

  Lemma hash_state_slots bld h nt ms state : tame nt state -> (1 <= ms)%nat ->
    forall k t, (t + k <= nt)%nat -> forall pre,
    pre = flat_map (fun t' => Z.of_nat t' :: cells nt t' 0 state) (seq 0 t) ->
    hash_state bld h state nt ms (fold_left (h_write h) pre (h_init h)) (seq t k) =
    Ret (map (fun t' => slot h ms (written nt t' state)) (seq t k)).
  Proof.
    intros Ta Ms. induction k as [|k IH]; intros t L pre Ep; simpl; auto.
    rewrite hash_tiling_cells by (auto; lia). cbn [obind].
    set (pre' := pre ++ Z.of_nat t :: cells nt t 0 state).
    assert (Ef : fold_left (h_write h) (cells nt t 0 state) (h_write h (fold_left (h_write h) pre (h_init h)) (Z.of_nat t))
                 = fold_left (h_write h) pre' (h_init h)).
    { unfold pre'. rewrite fold_left_app. reflexivity. }
    assert (E' : pre' = written nt t state).
    { unfold pre', written. rewrite seq_S, flat_map_app, <- Ep. simpl. rewrite app_nil_r. reflexivity. }
    rewrite Ef, (IH (S t) ltac:(lia) pre'); [|rewrite E'; reflexivity].
    cbn [obind]. unfold slot. rewrite <- E'. reflexivity.
  Qed.

  (** The active features are the slots of the tilings. *)
  Theorem tile_slots bld h nt ms x : tame nt (bin_state x nt) -> (1 <= ms)%nat ->
    exists phi, tile_project bld h nt ms x = Ret (Ok phi) /\
      forall i, stored phi i <-> exists t, (t < nt)%nat /\ i = slot h ms (written nt t (bin_state x nt)).
  Proof.
    intros Ta Ms. unfold tile_project.
    pose proof (hash_state_slots bld h nt ms (bin_state x nt) Ta Ms nt 0 (le_n _) [] eq_refl) as E.
    cbn [fold_left] in E. rewrite E. clear E.
    cbn [obind]. eexists. split; [reflexivity|]. intros i.
    set (is := map (fun t' => slot h ms (written nt t' (bin_state x nt))) (seq 0 nt)).
    change (Sparse (MkSparse ms (hm_collect (map (fun i => (i, fone)) is)))) with (unitary (F := F) ms is).
    destruct (unitary_spec (F := F) ms is) as (K & Sz & _ & St). unfold stored. split.
    - intros (v & S). apply St in S. destruct S as [I _]. unfold is in I. apply in_map_iff in I.
      destruct I as (t & E & I). apply in_seq in I. exists t. split; [lia|auto].
    - intros (t & L & ->). exists fone. apply St. split; auto. unfold is. apply in_map_iff.
      exists t. split; auto. apply in_seq. lia.
  Qed.

  Lemma written_ext nt t state state' :
    (forall t', (t' <= t)%nat -> cells nt t' 0 state = cells nt t' 0 state') ->
    written nt t state = written nt t state'.
  Proof.
    intros E. unfold written. assert (B : forall t', In t' (seq 0 (S t)) -> (t' <= t)%nat).
    { intros t' I. apply in_seq in I. lia. }
    revert B. generalize (seq 0 (S t)) as l. induction l as [|a l IH]; intros B; cbn [flat_map]; auto.
    rewrite E by (apply B; simpl; auto). rewrite IH; auto. intros t' I. apply B. simpl. auto.
  Qed.

  Lemma cells_length nt t : forall state i, length (cells nt t i state) = length state.
  Proof. induction state; intros i; simpl; auto. Qed.

  Lemma written_inj nt state state' : length state = length state' -> forall t,
    written nt t state = written nt t state' ->
    forall t', (t' <= t)%nat -> cells nt t' 0 state = cells nt t' 0 state'.
  Proof.
    intros L. assert (S1 : forall t s, written nt t s = flat_map (fun t' => Z.of_nat t' :: cells nt t' 0 s) (seq 0 t) ++
        Z.of_nat t :: cells nt t 0 s).
    { intros t s. unfold written. rewrite seq_S, flat_map_app. simpl. rewrite app_nil_r. reflexivity. }
    assert (Le : forall l, length (flat_map (fun t' => Z.of_nat t' :: cells nt t' 0 state) l) =
                           length (flat_map (fun t' => Z.of_nat t' :: cells nt t' 0 state') l)).
    { induction l as [|a l IH]; simpl; auto. rewrite !app_length, !cells_length, IH, L. reflexivity. }
    assert (Sp : forall (a b c d : list Z), length a = length c -> a ++ b = c ++ d -> a = c /\ b = d).
    { induction a as [|u a IH]; intros b [|v c] d La E; simpl in *; try discriminate; auto.
      injection E as -> E. apply IH in E; [|lia]. destruct E as [-> ->]. auto. }
    induction t as [|t IH]; intros E t' Lt'.
    - rewrite !S1 in E. simpl in E. injection E as E. replace t' with 0%nat by lia. exact E.
    - rewrite !S1 in E. apply Sp in E; auto. destruct E as [E1 E2]. injection E2 as E2.
      destruct (Nat.eq_dec t' (S t)) as [->|N]; auto. apply IH; [|lia]. exact E1.
  Qed.

  (** No collisions among the tilings of two inputs: what a good hash and a
      large memory aim for. *)
  Definition collision_free (h : hasher) (ms nt : nat) state state' : Prop :=
    forall t t' s s', (t < nt)%nat -> (t' < nt)%nat -> (s = state \/ s = state') -> (s' = state \/ s' = state') ->
      slot h ms (written nt t s) = slot h ms (written nt t' s') -> written nt t s = written nt t' s'.

  Lemma written_same_tiling nt : forall t t' state state', length state = length state' ->
    written nt t state = written nt t' state' -> t = t'.
  Proof.
    intros t t' state state' L E.
    assert (G : forall s k, length s = length state -> length (written nt k s) = ((S k) * S (length state))%nat).
    { intros s k Ls. unfold written.
      assert (Q : forall n o, length (flat_map (fun t' => Z.of_nat t' :: cells nt t' 0 s) (seq o n)) = (n * S (length state))%nat).
      { induction n as [|n IH]; intros o; simpl; auto. rewrite app_length, cells_length, IH. lia. }
      apply Q. }
    apply (f_equal (@length Z)) in E. rewrite !G in E by auto. nia.
  Qed.

  (** Without collisions a feature is shared exactly while every tiling so far
      has the same cell. *)
  Theorem tile_shared bld h nt ms x y phi psi : length x = length y ->
    tame nt (bin_state x nt) -> tame nt (bin_state y nt) -> (1 <= ms)%nat ->
    collision_free h ms nt (bin_state x nt) (bin_state y nt) ->
    tile_project bld h nt ms x = Ret (Ok phi) -> tile_project bld h nt ms y = Ret (Ok psi) ->
    forall i, stored phi i /\ stored psi i <->
      exists t, (t < nt)%nat /\ i = slot h ms (written nt t (bin_state x nt)) /\
        forall t', (t' <= t)%nat -> cells nt t' 0 (bin_state x nt) = cells nt t' 0 (bin_state y nt).
  Proof.
    intros Lxy Tx Ty Ms CF Ex Ey i.
    assert (L : length (bin_state x nt) = length (bin_state y nt)) by (unfold bin_state; rewrite !map_length; auto).
    destruct (tile_slots bld h nt ms x Tx Ms) as (phi' & E1 & S1).
    destruct (tile_slots bld h nt ms y Ty Ms) as (psi' & E2 & S2).
    assert (phi' = phi) by congruence. assert (psi' = psi) by congruence. subst phi' psi'.
    rewrite S1, S2. split.
    - intros ((t & Lt & Et) & (u & Lu & Eu)). assert (W : written nt t (bin_state x nt) = written nt u (bin_state y nt)).
      { apply CF; auto. congruence. }
      assert (t = u) by (eapply written_same_tiling; eauto). subst u.
      exists t. repeat split; auto. eapply written_inj; eauto.
    - intros (t & Lt & Et & C). split; [eauto|]. exists t. split; auto. rewrite Et. f_equal. apply written_ext; auto.
  Qed.

  (** Whatever the hash, a common run of cells from tiling 0 on is shared. *)
  Theorem tile_shared_run bld h nt ms x y phi psi t : tame nt (bin_state x nt) -> tame nt (bin_state y nt) -> (1 <= ms)%nat ->
    tile_project bld h nt ms x = Ret (Ok phi) -> tile_project bld h nt ms y = Ret (Ok psi) -> (t < nt)%nat ->
    (forall t', (t' <= t)%nat -> cells nt t' 0 (bin_state x nt) = cells nt t' 0 (bin_state y nt)) ->
    exists i, stored phi i /\ stored psi i /\ i = slot h ms (written nt t (bin_state x nt)).
  Proof.
    intros Tx Ty Ms Ex Ey Lt C.
    destruct (tile_slots bld h nt ms x Tx Ms) as (phi' & E1 & S1).
    destruct (tile_slots bld h nt ms y Ty Ms) as (psi' & E2 & S2).
    assert (phi' = phi) by congruence. assert (psi' = psi) by congruence. subst phi' psi'.
    eexists. split; [apply S1; eauto|]. split; [|reflexivity]. apply S2. exists t. split; auto.
    f_equal. apply written_ext. auto.
  Qed.

  (** One coordinate, next bin up: one tiling in [nt] has a new cell. *)
  Lemma next_bin nt t s : (1 <= nt)%nat -> 0 <= s ->
    (cell nt t 0 s = cell nt t 0 (s + 1) <-> Z.modulo (s + 1 + Z.of_nat t) (Z.of_nat nt) <> 0).
  Proof.
    intros N S. unfold cell. simpl (2 * Z.of_nat 0 * Z.of_nat t). rewrite !Z.add_0_r.
    rewrite !Z.quot_div_nonneg by lia.
    set (n := Z.of_nat nt). set (a := s + Z.of_nat t). replace (s + 1 + Z.of_nat t) with (a + 1) by lia.
    assert (P : 0 < n) by lia. assert (D := Z.div_mod a n ltac:(lia)). assert (D' := Z.div_mod (a + 1) n ltac:(lia)).
    assert (B := Z.mod_pos_bound a n P). assert (B' := Z.mod_pos_bound (a + 1) n P).
    split.
    - intros E. rewrite <- E in D'. lia.
    - intros Nz. apply (Z.div_unique_pos (a + 1) n (a / n) (a mod n + 1)); [|lia].
      assert (a mod n + 1 <> n).
      { intros E. apply Nz. replace (a + 1) with ((a / n + 1) * n) by lia. apply Z.mod_mul. lia. }
      lia.
  Qed.

  Theorem next_bin_run nt s : (1 <= nt)%nat -> 0 <= s -> forall t, (t < nt)%nat ->
    ((forall t', (t' <= t)%nat -> cell nt t' 0 s = cell nt t' 0 (s + 1)) <->
     Z.of_nat t < Z.of_nat nt - 1 - Z.modulo s (Z.of_nat nt)) /\
    (cell nt t 0 s = cell nt t 0 (s + 1) <-> Z.of_nat t <> Z.of_nat nt - 1 - Z.modulo s (Z.of_nat nt)).
  Proof.
    intros N S. set (n := Z.of_nat nt). assert (P : 0 < n) by lia.
    assert (D := Z.div_mod s n ltac:(lia)). assert (B := Z.mod_pos_bound s n P).
    assert (One : forall t, (t < nt)%nat ->
      (cell nt t 0 s = cell nt t 0 (s + 1) <-> Z.of_nat t <> n - 1 - s mod n)).
    { intros t Lt. rewrite next_bin by auto. fold n.
      replace (s + 1 + Z.of_nat t) with ((s mod n + 1 + Z.of_nat t) + (s / n) * n) by lia.
      rewrite Z.mod_add by lia. split.
      - intros Nz E. apply Nz. replace (s mod n + 1 + Z.of_nat t) with (1 * n) by lia. apply Z.mod_mul. lia.
      - intros Ne E. apply Z.mod_divide in E; [|lia]. destruct E as [k E].
        assert (k = 1) by nia. nia. }
    intros t Lt. split; [|apply One; auto]. split.
    - intros A. destruct (Z_lt_le_dec (Z.of_nat t) (n - 1 - s mod n)) as [|G]; auto. exfalso.
      set (t' := Z.to_nat (n - 1 - s mod n)).
      assert (Et : Z.of_nat t' = n - 1 - s mod n) by (unfold t'; rewrite Z2Nat.id; lia).
      apply (proj1 (One t' ltac:(lia)) (A t' ltac:(lia))). exact Et.
    - intros G t' Lt'. apply One; [lia|]. lia.
  Qed.
End Gen.
