(** Optimiser steps, weight by weight, for every scalar type (C31, C39, C41). *)
From Coq Require Import List Arith Lia.
From Verif Require Import Base Scalar HMap HMapFacts NdArray VecFacts Features Spec FeatureFacts
  Optim OptimSpec.
Import ListNotations.

Section OptimFacts.
  Context {F : Type} `{Scalar F}.
  Implicit Types (phi : Features F) (w v : list F) (i : nat).

  Local Notation "x +. y" := (fadd x y) (at level 50, left associativity).
  Local Notation "x -. y" := (fsub x y) (at level 50, left associativity).
  Local Notation "x *. y" := (fmul x y) (at level 40, left associativity).
  Local Notation "x /. y" := (fdiv x y) (at level 40, left associativity).

  Lemma sized_fits n phi w : sized n phi -> length w = n -> keyed phi /\ fits phi w.
  Proof. intros [W E] L. split; [apply W|]. apply wf_fits; congruence. Qed.

  Lemma sized_keys n d (m : hmap F) : sized n (Sparse (MkSparse d m)) ->
    hm_ok m /\ forall k, In k (hm_keys m) -> k < n.
  Proof.
    intros [[K B] E]. simpl in E. subst. split; auto. apply bounded_sparse, B.
  Qed.

  Lemma sized_dense n (da : list F) : sized n (Dense da) -> length da = n.
  Proof. intros [_ E]. exact E. Qed.

  (** ** Momentum *)

  Definition new_velocity (m sf : F) phi i (x : F) : F :=
    match phi with
    | Dense da => m *. x +. nth i da fzero *. sf
    | Sparse sa =>
        match hm_get (sa_acts sa) i with
        | Some a => x *. m +. a *. sf
        | None => x *. m
        end
    end.

  Lemma velocity_update_spec m v phi sf : sized (length v) phi ->
    exists v', velocity_update m v phi sf = Ret v' /\ length v' = length v /\
      forall i x, nth_error v i = Some x -> nth_error v' i = Some (new_velocity m sf phi i x).
  Proof.
    intros Z. destruct phi as [da|[d mm]]; simpl.
    - apply sized_dense in Z. rewrite zip_mut_with_eq by assumption. eexists. splits; auto.
      + apply map2_length_eq. auto.
      + intros i x X. rewrite nth_error_map2, X.
        destruct (nth_error_lt da i) as [y Y].
        { rewrite Z. apply nth_error_Some. congruence. }
        rewrite Y. rewrite (nth_error_nth da i fzero Y). reflexivity.
    - apply sized_keys in Z. destruct Z as [K B].
      destruct (upd_loop_Ret (fun a x => x +. a *. sf) mm (mul_assign v m) K) as (v' & E & L & N).
      { unfold mul_assign. rewrite map_length. exact B. }
      exists v'. unfold mul_assign in L. rewrite map_length in L. splits; auto.
      intros i x X. rewrite N. unfold mul_assign. rewrite nth_error_map', X. simpl.
      destruct (hm_get mm i); reflexivity.
  Qed.

  Lemma scaled_add_spec a w v : length v = length w ->
    exists w', scaled_add a w v = Ret w' /\ length w' = length w /\
      forall i x y, nth_error w i = Some x -> nth_error v i = Some y ->
        nth_error w' i = Some (x +. a *. y).
  Proof.
    intros L. unfold scaled_add. rewrite zip_mut_with_eq by assumption.
    eexists. splits; auto.
    - apply map2_length_eq. auto.
    - intros i x y X Y. rewrite nth_error_map2, X, Y. reflexivity.
  Qed.

  Lemma momentum_step_spec s w phi sf : sized (length w) phi ->
    length (mo_velocity s) = length w ->
    exists v' w', momentum_step_scaled s w phi sf =
        Ret (MkMomentum (mo_momentum s) (mo_lr s) v', w', Ok tt) /\
      length v' = length w /\ length w' = length w /\
      forall i x y, nth_error w i = Some x -> nth_error (mo_velocity s) i = Some y ->
        let y' := new_velocity (mo_momentum s) sf phi i y in
        nth_error v' i = Some y' /\ nth_error w' i = Some (x +. mo_lr s *. y').
  Proof.
    intros Z L. unfold momentum_step_scaled.
    destruct (velocity_update_spec (mo_momentum s) (mo_velocity s) phi sf) as (v' & E & L' & N).
    { congruence. }
    rewrite E. simpl.
    destruct (scaled_add_spec (mo_lr s) w v') as (w' & E' & Lw & N'); [congruence|].
    rewrite E'. simpl. exists v', w'. splits; try congruence.
    intros i x y X Y. simpl. split; auto.
  Qed.

  Lemma nag_step_spec s w phi sf : sized (length w) phi ->
    length (mo_velocity s) = length w ->
    exists v' w', nag_step_scaled s w phi sf =
        Ret (MkMomentum (mo_momentum s) (mo_lr s) v', w', Ok tt) /\
      length v' = length w /\ length w' = length w /\
      forall i x y, nth_error w i = Some x -> nth_error (mo_velocity s) i = Some y ->
        let y' := new_velocity (mo_momentum s) sf phi i y in
        nth_error v' i = Some y' /\
        (forall a, stores phi i a ->
           nth_error w' i = Some (x +. mo_lr s *. y' +. mo_momentum s *. a)) /\
        (~ stored phi i -> nth_error w' i = Some (x +. mo_lr s *. y')).
  Proof.
    intros Z L. unfold nag_step_scaled.
    destruct (velocity_update_spec (mo_momentum s) (mo_velocity s) phi sf) as (v' & E & L' & N).
    { congruence. }
    rewrite E. simpl.
    destruct (scaled_add_spec (mo_lr s) w v') as (w' & E' & Lw & N'); [congruence|].
    rewrite E'. simpl.
    destruct (sized_fits _ phi w' Z Lw) as [K Fi].
    destruct (scaled_addto_spec phi (mo_momentum s) w' K Fi) as (w2 & E2 & L2 & N2).
    rewrite E2. simpl. exists v', w2. splits; try congruence.
    intros i x y X Y. simpl. specialize (N' i x _ X (N i y Y)).
    destruct (N2 i _ N') as [A B]. splits; auto.
  Qed.

  (** ** Adagrad *)

  Definition adagrad_acc (sf a s : F) : F := s +. fpowi (a *. sf) 2.
  Definition adagrad_move (lr sf a s : F) : F :=
    lr *. (a *. sf) /. (fsqrt (adagrad_acc sf a s) +. EPS).

  Lemma adagrad_dense_spec lr sf : forall da w ss, length da = length w -> length ss = length w ->
    let '(w', ss') := adagrad_dense lr sf da w ss in
    length w' = length w /\ length ss' = length ss /\
    forall i a x s, nth_error da i = Some a -> nth_error w i = Some x -> nth_error ss i = Some s ->
      nth_error w' i = Some (x +. adagrad_move lr sf a s) /\
      nth_error ss' i = Some (adagrad_acc sf a s).
  Proof.
    induction da as [|a da IH]; intros [|x w] [|s ss] L1 L2; try discriminate; simpl.
    - splits; auto. intros [|i]; discriminate.
    - specialize (IH w ss ltac:(simpl in * ; lia) ltac:(simpl in *; lia)).
      destruct (adagrad_dense lr sf da w ss) as [w2 ss2]. destruct IH as (A & B & C).
      simpl. splits; auto. intros [|i] a' x' s' Ha Hx Hs; simpl in * ; [|eauto].
      inversion Ha; inversion Hx; inversion Hs; subst. auto.
  Qed.

  (** The accumulator loop with [k] entries behind it. *)
  Lemma adagrad_sparse_spec lr sf (m : hmap F) : forall ss k w, k + length ss = length w ->
    exists w' ss', adagrad_sparse lr sf m k ss w = Ret (w', ss') /\
      length w' = length w /\ length ss' = length ss /\
      (forall i, i < k -> nth_error w' i = nth_error w i) /\
      forall j x s, nth_error w (k + j) = Some x -> nth_error ss j = Some s ->
        nth_error w' (k + j) = Some (x +. adagrad_move lr sf (get_or_zero m (k + j)) s) /\
        nth_error ss' j = Some (adagrad_acc sf (get_or_zero m (k + j)) s).
  Proof.
    induction ss as [|s ss IH]; intros k w L; simpl in * .
    - exists w, []. splits; auto. intros [|j]; discriminate.
    - destruct (vupd_lt (fun x => x +. adagrad_move lr sf (get_or_zero m k) s) w k)
        as (w1 & E & L1 & N); [lia|].
      unfold adagrad_move, adagrad_acc in E. rewrite E. simpl.
      destruct (IH (S k) w1) as (w' & ss' & E' & Lw & Ls & Nlt & Nge); [lia|].
      rewrite E'. simpl. exists w', (adagrad_acc sf (get_or_zero m k) s :: ss').
      splits; auto; try congruence.
      + simpl. congruence.
      + intros i Li. rewrite Nlt by lia. rewrite N.
        destruct (Nat.eqb_spec i k); auto. lia.
      + intros [|j] x s' X S'; cbn [nth_error] in * .
        * rewrite Nat.add_0_r in * . inversion S'; subst s'.
          split; auto. rewrite Nlt by lia. rewrite N, Nat.eqb_refl, X. reflexivity.
        * replace (k + S j) with (S k + j) in * by lia.
          apply Nge; [|exact S']. rewrite N. destruct (Nat.eqb_spec (S k + j) k); [lia|exact X].
  Qed.

  Lemma adagrad_step_spec s w phi l sf : sized (length w) phi -> expands phi l ->
    length (ag_acc s) = length w ->
    exists acc' w', adagrad_step_scaled s w phi sf = Ret (MkAdagrad (ag_lr s) acc', w', Ok tt) /\
      length acc' = length w /\ length w' = length w /\
      forall i a x q, nth_error l i = Some a -> nth_error w i = Some x ->
        nth_error (ag_acc s) i = Some q ->
        nth_error acc' i = Some (adagrad_acc sf a q) /\
        nth_error w' i = Some (x +. adagrad_move (ag_lr s) sf a q).
  Proof.
    intros Z X L. unfold adagrad_step_scaled. destruct phi as [da|[d m]]; simpl.
    - apply sized_dense in Z. apply expands_dense in X. subst l.
      pose proof (adagrad_dense_spec (ag_lr s) sf da w (ag_acc s) Z L) as P.
      destruct (adagrad_dense (ag_lr s) sf da w (ag_acc s)) as [w' acc'].
      destruct P as (A & B & C). exists acc', w'. splits; auto; try congruence.
      intros i a x q Ha Hx Hq. destruct (C i a x q Ha Hx Hq). auto.
    - destruct (adagrad_sparse_spec (ag_lr s) sf m (ag_acc s) 0 w) as (w' & acc' & E & A & B & _ & C).
      { simpl. auto. }
      rewrite E. simpl. exists acc', w'. splits; auto; try congruence.
      intros i a x q Ha Hx Hq. simpl in C.
      assert (Ea : a = get_or_zero m i).
      { destruct Z as [[K Bd] Zs]. rewrite (expands_nth_all _ _ i K X) in Ha. simpl in Ha.
        destruct (i <? d); [|discriminate]. inversion Ha. symmetry. apply get_or_zero_entry. }
      subst a. destruct (C i x q Hx Hq). auto.
  Qed.

  (** ** Adam and AdaMax: loops over coordinates of three vectors *)

  Section Tri.
    Context (g1 g2 : F -> F -> F -> F) (g3 : F -> F -> F -> F -> F).

    Definition tri (st : list F * list F * list F) (ia : nat * F) :
        outcome (list F * list F * list F) :=
      let '(m1, m2, w) := st in
      let '(i, a) := ia in
      let* x1 := vget m1 i in
      let* x2 := vget m2 i in
      let* m1' := vset m1 i (g1 a x1 x2) in
      let* m2' := vset m2 i (g2 a x1 x2) in
      let* w' := vupd w i (g3 a x1 x2) in
      Ret (m1', m2', w').

    Lemma tri_loop n : forall (m : hmap F) m1 m2 w, hm_ok m ->
      (forall k, In k (hm_keys m) -> k < n) ->
      length m1 = n -> length m2 = n -> length w = n ->
      exists m1' m2' w', ofold tri m (m1, m2, w) = Ret (m1', m2', w') /\
        length m1' = n /\ length m2' = n /\ length w' = n /\
        forall i x1 x2 x, nth_error m1 i = Some x1 -> nth_error m2 i = Some x2 ->
          nth_error w i = Some x ->
          match hm_get m i with
          | Some a => nth_error m1' i = Some (g1 a x1 x2) /\ nth_error m2' i = Some (g2 a x1 x2) /\
                      nth_error w' i = Some (g3 a x1 x2 x)
          | None => nth_error m1' i = Some x1 /\ nth_error m2' i = Some x2 /\
                    nth_error w' i = Some x
          end.
    Proof.
      induction m as [|[k a] m IH]; intros m1 m2 w ND B L1 L2 L3.
      - exists m1, m2, w. simpl. splits; auto.
      - inversion ND; subst. simpl in B.
        assert (Bk := B k (or_introl eq_refl)).
        destruct (vget_lt m1 k ltac:(lia)) as (x1 & E1 & N1).
        destruct (vget_lt m2 k ltac:(lia)) as (x2 & E2 & N2).
        destruct (vset_lt (g1 a x1 x2) m1 k ltac:(lia)) as (m1a & E1a & L1a & N1a).
        destruct (vset_lt (g2 a x1 x2) m2 k ltac:(lia)) as (m2a & E2a & L2a & N2a).
        destruct (vupd_lt (g3 a x1 x2) w k ltac:(lia)) as (wa & Ewa & Lwa & Nwa).
        simpl. rewrite E1, E2. simpl. rewrite E1a. simpl. rewrite E2a. simpl. rewrite Ewa. simpl.
        destruct (IH m1a m2a wa) as (m1' & m2' & w' & E & A1 & A2 & A3 & P); auto; try lia.
        exists m1', m2', w'. rewrite E. splits; auto.
        intros i y1 y2 y Y1 Y2 Y. simpl in * .
        destruct (Nat.eqb_spec k i) as [->|D].
        + assert (G : hm_get m i = None) by (apply hm_get_None; assumption).
          specialize (P i (g1 a x1 x2) (g2 a x1 x2) (g3 a x1 x2 y)).
          rewrite G in P. rewrite N1a, N2a, Nwa, Nat.eqb_refl, Y in P.
          rewrite N1 in Y1. rewrite N2 in Y2. inversion Y1; inversion Y2; subst.
          apply P; auto.
        + apply P; [rewrite N1a|rewrite N2a|rewrite Nwa];
            destruct (Nat.eqb_spec i k); auto; congruence.
    Qed.
  End Tri.

  Lemma ofold_ext {A B} (f g : B -> A -> outcome B) l : (forall b a, f b a = g b a) ->
    forall b, ofold f l b = ofold g l b.
  Proof.
    intros E. induction l as [|a l IH]; intros b; simpl; auto. rewrite E.
    destruct (g b a); simpl; auto.
  Qed.

  (** [indexed da] is a map with one entry per index. *)
  Lemma indexed_map (da : list F) : indexed da = combine (seq 0 (length da)) da.
  Proof. reflexivity. Qed.

  Lemma indexed_from_keys (da : list F) k : hm_keys (combine (seq k (length da)) da) = seq k (length da).
  Proof.
    unfold hm_keys. revert k. induction da as [|a da IH]; intros k; simpl; auto. rewrite IH. reflexivity.
  Qed.

  Lemma indexed_ok (da : list F) : hm_ok (indexed da).
  Proof. unfold hm_ok. change (NoDup (hm_keys (indexed da))). rewrite indexed_map, indexed_from_keys. apply seq_NoDup. Qed.

  Lemma indexed_get (da : list F) i : hm_get (indexed da) i = nth_error da i.
  Proof.
    assert (G : forall k, hm_get (combine (seq k (length da)) da) (k + i) = nth_error da i).
    { revert i. induction da as [|a da IH]; intros i k; simpl; [destruct i; auto|].
      destruct i as [|i]; simpl.
      - rewrite Nat.add_0_r, Nat.eqb_refl. reflexivity.
      - destruct (Nat.eqb_spec k (k + S i)); [lia|].
        replace (k + S i) with (S k + i) by lia. apply IH. }
    apply (G 0).
  Qed.

  (** New moments and weight for a stored activation [a]; [decay] is [true] on
      the dense path (beta * x) and [false] on the sparse one (x * beta). *)
  Definition decayed (dense : bool) (b x : F) : F := if dense then b *. x else x *. b.

  Definition adam_m1 (dense : bool) (b1 sf a x1 : F) : F :=
    decayed dense b1 x1 +. (fone -. b1) *. (a *. sf).
  Definition adam_m2 (dense : bool) (b2 sf a x2 : F) : F :=
    decayed dense b2 x2 +. (fone -. b2) *. (a *. sf) *. (a *. sf).
  Definition adam_move (lr p1 p2 m1 m2 : F) : F :=
    lr *. (m1 /. (fone -. p1)) /. (fsqrt (m2 /. (fone -. p2)) +. EPS).

  Lemma adam_step_spec s w phi sf : sized (length w) phi ->
    length (ad_exp_avg s) = length w -> length (ad_exp_avg_sq s) = length w ->
    let p1 := ad_beta1_prod s *. ad_beta1 s in
    let p2 := ad_beta2_prod s *. ad_beta2 s in
    let dense := negb (is_sparse phi) in
    exists m1' m2' w', adam_step_scaled s w phi sf =
        Ret (MkAdam (ad_beta1 s) p1 (ad_beta2 s) p2 (ad_lr s) m1' m2', w', Ok tt) /\
      length m1' = length w /\ length m2' = length w /\ length w' = length w /\
      forall i x1 x2 x, nth_error (ad_exp_avg s) i = Some x1 ->
        nth_error (ad_exp_avg_sq s) i = Some x2 -> nth_error w i = Some x ->
        match get phi i with
        | Some a =>
            let y1 := adam_m1 dense (ad_beta1 s) sf a x1 in
            let y2 := adam_m2 dense (ad_beta2 s) sf a x2 in
            nth_error m1' i = Some y1 /\ nth_error m2' i = Some y2 /\
            nth_error w' i = Some (x +. adam_move (ad_lr s) p1 p2 y1 y2)
        | None =>
            nth_error m1' i = Some (x1 *. ad_beta1 s) /\ nth_error m2' i = Some (x2 *. ad_beta2 s) /\
            nth_error w' i = Some x
        end.
  Proof.
    intros Z L1 L2 p1 p2 dense. unfold adam_step_scaled. fold p1 p2.
    destruct phi as [da|[d m]]; simpl in * .
    - apply sized_dense in Z.
      destruct (tri_loop
        (fun a x1 x2 => adam_m1 true (ad_beta1 s) sf a x1)
        (fun a x1 x2 => adam_m2 true (ad_beta2 s) sf a x2)
        (fun a x1 x2 x => x +. adam_move (ad_lr s) p1 p2 (adam_m1 true (ad_beta1 s) sf a x1)
                                  (adam_m2 true (ad_beta2 s) sf a x2))
        (length w) (indexed da) (ad_exp_avg s) (ad_exp_avg_sq s) w)
        as (m1' & m2' & w' & E & A1 & A2 & A3 & P); auto.
      + apply indexed_ok.
      + rewrite indexed_map, indexed_from_keys. intros k I. apply in_seq in I. lia.
      + rewrite (ofold_ext _ (adam_coord true (ad_lr s) (ad_beta1 s) (ad_beta2 s) p1 p2 sf)) in E
          by (intros [[b1 b2] b3] [i a]; reflexivity).
        rewrite E. simpl. exists m1', m2', w'. splits; auto.
        intros i x1 x2 x X1 X2 X. specialize (P i x1 x2 x X1 X2 X). rewrite indexed_get in P.
        destruct (nth_error da i) eqn:Ea; auto.
        apply nth_error_None in Ea. assert (i < length w) by (apply nth_error_Some; congruence). lia.
    - apply sized_keys in Z. destruct Z as [K B].
      destruct (tri_loop
        (fun a x1 x2 => x1 +. (fone -. ad_beta1 s) *. (a *. sf))
        (fun a x1 x2 => x2 +. (fone -. ad_beta2 s) *. (a *. sf) *. (a *. sf))
        (fun a x1 x2 x => x +. adam_move (ad_lr s) p1 p2
                                  (x1 +. (fone -. ad_beta1 s) *. (a *. sf))
                                  (x2 +. (fone -. ad_beta2 s) *. (a *. sf) *. (a *. sf)))
        (length w) m (mul_assign (ad_exp_avg s) (ad_beta1 s))
        (mul_assign (ad_exp_avg_sq s) (ad_beta2 s)) w)
        as (m1' & m2' & w' & E & A1 & A2 & A3 & P); auto;
        try (unfold mul_assign; rewrite map_length; assumption).
      rewrite (ofold_ext _ (adam_coord false (ad_lr s) (ad_beta1 s) (ad_beta2 s) p1 p2 sf)) in E
        by (intros [[b1 b2] b3] [i a]; reflexivity).
      rewrite E. simpl. exists m1', m2', w'. splits; auto.
      intros i x1 x2 x X1 X2 X.
      specialize (P i (x1 *. ad_beta1 s) (x2 *. ad_beta2 s) x).
      unfold mul_assign in P. rewrite !nth_error_map', X1, X2 in P. simpl in P.
      specialize (P eq_refl eq_refl X). unfold adam_m1, adam_m2. simpl.
      destruct (hm_get m i); auto.
  Qed.

  Definition adamax_u (dense : bool) (b2 sf a x2 : F) : F :=
    fmax (decayed dense b2 x2) (fabs (a *. sf)).
  Definition adamax_move (lr p1 m u : F) : F := lr *. (m /. (fone -. p1)) /. (u +. EPS).

  Lemma adamax_step_spec s w phi sf : sized (length w) phi ->
    length (am_exp_avg s) = length w -> length (am_exp_inf s) = length w ->
    let p1 := am_beta1_prod s *. am_beta1 s in
    let dense := negb (is_sparse phi) in
    exists m1' m2' w', adamax_step_scaled s w phi sf =
        Ret (MkAdaMax (am_beta1 s) p1 (am_beta2 s) (am_lr s) m1' m2', w', Ok tt) /\
      length m1' = length w /\ length m2' = length w /\ length w' = length w /\
      forall i x1 x2 x, nth_error (am_exp_avg s) i = Some x1 ->
        nth_error (am_exp_inf s) i = Some x2 -> nth_error w i = Some x ->
        match get phi i with
        | Some a =>
            let y1 := adam_m1 dense (am_beta1 s) sf a x1 in
            let y2 := adamax_u dense (am_beta2 s) sf a x2 in
            nth_error m1' i = Some y1 /\ nth_error m2' i = Some y2 /\
            nth_error w' i = Some (x +. adamax_move (am_lr s) p1 y1 y2)
        | None =>
            nth_error m1' i = Some (x1 *. am_beta1 s) /\ nth_error m2' i = Some (x2 *. am_beta2 s) /\
            nth_error w' i = Some x
        end.
  Proof.
    intros Z L1 L2 p1 dense. unfold adamax_step_scaled. fold p1.
    destruct phi as [da|[d m]]; simpl in * .
    - apply sized_dense in Z.
      destruct (tri_loop
        (fun a x1 x2 => adam_m1 true (am_beta1 s) sf a x1)
        (fun a x1 x2 => adamax_u true (am_beta2 s) sf a x2)
        (fun a x1 x2 x => x +. adamax_move (am_lr s) p1 (adam_m1 true (am_beta1 s) sf a x1)
                                  (adamax_u true (am_beta2 s) sf a x2))
        (length w) (indexed da) (am_exp_avg s) (am_exp_inf s) w)
        as (m1' & m2' & w' & E & A1 & A2 & A3 & P); auto.
      + apply indexed_ok.
      + rewrite indexed_map, indexed_from_keys. intros k I. apply in_seq in I. lia.
      + rewrite (ofold_ext _ (adamax_coord true (am_lr s) (am_beta1 s) (am_beta2 s) p1 sf)) in E
          by (intros [[b1 b2] b3] [i a]; reflexivity).
        rewrite E. simpl. exists m1', m2', w'. splits; auto.
        intros i x1 x2 x X1 X2 X. specialize (P i x1 x2 x X1 X2 X). rewrite indexed_get in P.
        destruct (nth_error da i) eqn:Ea; auto.
        apply nth_error_None in Ea. assert (i < length w) by (apply nth_error_Some; congruence). lia.
    - apply sized_keys in Z. destruct Z as [K B].
      destruct (tri_loop
        (fun a x1 x2 => x1 +. (fone -. am_beta1 s) *. (a *. sf))
        (fun a x1 x2 => fmax x2 (fabs (a *. sf)))
        (fun a x1 x2 x => x +. adamax_move (am_lr s) p1
                                  (x1 +. (fone -. am_beta1 s) *. (a *. sf))
                                  (fmax x2 (fabs (a *. sf))))
        (length w) m (mul_assign (am_exp_avg s) (am_beta1 s))
        (mul_assign (am_exp_inf s) (am_beta2 s)) w)
        as (m1' & m2' & w' & E & A1 & A2 & A3 & P); auto;
        try (unfold mul_assign; rewrite map_length; assumption).
      rewrite (ofold_ext _ (adamax_coord false (am_lr s) (am_beta1 s) (am_beta2 s) p1 sf)) in E
        by (intros [[b1 b2] b3] [i a]; reflexivity).
      rewrite E. simpl. exists m1', m2', w'. splits; auto.
      intros i x1 x2 x X1 X2 X.
      specialize (P i (x1 *. am_beta1 s) (x2 *. am_beta2 s) x).
      unfold mul_assign in P. rewrite !nth_error_map', X1, X2 in P. simpl in P.
      specialize (P eq_refl eq_refl X). unfold adam_m1, adamax_u. simpl.
      destruct (hm_get m i); auto.
  Qed.

  (** ** C41: no failure, shapes preserved *)

  (** The internal buffers match [n] weights. *)
  Definition opt_sized (n : nat) (o : lib_opt F) : Prop :=
    match o with
    | LSGD _ | LISGD _ => True
    | LMomentum s | LNAG s => length (mo_velocity s) = n
    | LAdagrad s => length (ag_acc s) = n
    | LAdam s => length (ad_exp_avg s) = n /\ length (ad_exp_avg_sq s) = n
    | LAdaMax s => length (am_exp_avg s) = n /\ length (am_exp_inf s) = n
    end.

  Lemma lib_step_scaled_ok n o w phi sf : sized n phi -> length w = n -> opt_sized n o ->
    exists o' w', lib_step_scaled o w phi sf = Ret (o', w', Ok tt) /\
      length w' = n /\ opt_sized n o'.
  Proof.
    intros Z L OS. subst n. destruct o as [lr|lr|s|s|s|s|s]; simpl in * .
    - destruct (sized_fits _ phi w Z eq_refl) as [K Fi]. unfold sgd_step_scaled.
      destruct (scaled_addto_spec phi (lr *. sf) w K Fi) as (w' & E & [Lw _]). rewrite E. simpl.
      exists (LSGD lr), w'. simpl. splits; auto.
    - destruct (sized_fits _ phi w Z eq_refl) as [K Fi]. unfold isgd_step_scaled.
      destruct (scaled_addto_spec phi (isgd_compute_lr lr phi *. sf) w K Fi) as (w' & E & [Lw _]). rewrite E. simpl.
      exists (LISGD lr), w'. simpl. splits; auto.
    - destruct (momentum_step_spec s w phi sf Z OS) as (v' & w' & E & A & B & _). rewrite E. simpl.
      eexists _, _. splits; [reflexivity|auto|exact A].
    - destruct (nag_step_spec s w phi sf Z OS) as (v' & w' & E & A & B & _). rewrite E. simpl.
      eexists _, _. splits; [reflexivity|auto|exact A].
    - destruct (expands_exists phi (proj1 (proj1 Z))) as [l X].
      destruct (adagrad_step_spec s w phi l sf Z X OS) as (v' & w' & E & A & B & _). rewrite E. simpl.
      eexists _, _. splits; [reflexivity|auto|exact A].
    - destruct OS as [O1 O2].
      destruct (adam_step_spec s w phi sf Z O1 O2) as (m1 & m2 & w' & E & A & B & C & _). rewrite E. simpl.
      eexists _, _. splits; [reflexivity|auto|]. simpl. auto.
    - destruct OS as [O1 O2].
      destruct (adamax_step_spec s w phi sf Z O1 O2) as (m1 & m2 & w' & E & A & B & C & _). rewrite E. simpl.
      eexists _, _. splits; [reflexivity|auto|]. simpl. auto.
  Qed.

  Lemma lib_step_ok n o w phi : sized n phi -> length w = n -> opt_sized n o ->
    exists o' w', lib_step o w phi = Ret (o', w', Ok tt) /\
      length w' = n /\ opt_sized n o'.
  Proof.
    intros Z L OS.
    destruct o as [lr|lr|s|s|s|s|s];
      try exact (lib_step_scaled_ok n _ w phi fone Z L OS).
    - destruct (sized_fits _ phi w Z L) as [K Fi]. simpl. unfold sgd_step.
      destruct (scaled_addto_spec phi lr w K Fi) as (w' & E & [Lw _]). rewrite E. simpl.
      exists (LSGD lr), w'. simpl. splits; auto. congruence.
    - destruct (sized_fits _ phi w Z L) as [K Fi]. simpl. unfold isgd_step.
      destruct (scaled_addto_spec phi (isgd_compute_lr lr phi) w K Fi) as (w' & E & [Lw _]). rewrite E. simpl.
      exists (LISGD lr), w'. simpl. splits; auto. congruence.
  Qed.

  Lemma lib_train_ok n h : forall o w, well_sized n h -> length w = n -> opt_sized n o ->
    exists o' w', train LibOptimiser h o w = Ret (o', w') /\ length w' = n /\ opt_sized n o'.
  Proof.
    induction h as [|[phi e] h IH]; intros o w Wh L OS; simpl.
    - eauto.
    - inversion Wh; subst. destruct (lib_step_scaled_ok _ o w phi e H2 eq_refl OS) as (o' & w' & E & L' & OS').
      simpl in E. rewrite E. apply IH; auto.
  Qed.

  (** ** C31 *)

  Lemma step_one o w phi : (forall x : F, x *. fone = x) ->
    lib_step o w phi = lib_step_scaled o w phi fone.
  Proof.
    intros One. destruct o; simpl; auto.
    - unfold sgd_step, sgd_step_scaled. rewrite One. reflexivity.
    - unfold isgd_step, isgd_step_scaled. rewrite One. reflexivity.
  Qed.

  (** ** C39 *)

  Lemma fill_zero_zeros (l : list F) : fill_zero l = zeros (length l).
  Proof. unfold fill_zero, zeros. induction l; simpl; congruence. Qed.

  (** Hyper-parameters of an optimiser, and the optimiser its constructor builds
      from them for [n] weights. *)
  Inductive hyper :=
  | HSGD (lr : F) | HISGD (lr : F)
  | HMomentum (momentum lr : F) | HNAG (momentum lr : F)
  | HAdagrad (lr : F)
  | HAdam (lr beta1 beta2 : F) | HAdaMax (lr beta1 beta2 : F).

  Definition construct (n : nat) (p : hyper) : lib_opt F :=
    match p with
    | HSGD lr => LSGD lr
    | HISGD lr => LISGD lr
    | HMomentum m lr => LMomentum (momentum_new n m lr)
    | HNAG m lr => LNAG (momentum_new n m lr)
    | HAdagrad lr => LAdagrad (adagrad_new n lr)
    | HAdam lr b1 b2 => LAdam (adam_new n lr b1 b2)
    | HAdaMax lr b1 b2 => LAdaMax (adamax_new n lr b1 b2)
    end.

  Lemma construct_sized n p : opt_sized n (construct n p).
  Proof. destruct p; simpl; unfold zeros; rewrite ?repeat_length; auto. Qed.

  (** [x], multiplied by [b] [t] times. *)
  Fixpoint times (t : nat) (b x : F) : F :=
    match t with O => x | S t' => times t' b x *. b end.

  (** The state of an optimiser that has made [t] steps, as far as hyper-parameters
      and beta products go. *)
  Definition aged (n : nat) (p : hyper) (t : nat) (o : lib_opt F) : Prop :=
    opt_sized n o /\
    match p, o with
    | HSGD lr, LSGD lr' => lr' = lr
    | HISGD lr, LISGD lr' => lr' = lr
    | HMomentum m lr, LMomentum s | HNAG m lr, LNAG s => mo_momentum s = m /\ mo_lr s = lr
    | HAdagrad lr, LAdagrad s => ag_lr s = lr
    | HAdam lr b1 b2, LAdam s =>
        ad_lr s = lr /\ ad_beta1 s = b1 /\ ad_beta2 s = b2 /\
        ad_beta1_prod s = times t b1 b1 /\ ad_beta2_prod s = times t b2 b2
    | HAdaMax lr b1 b2, LAdaMax s =>
        am_lr s = lr /\ am_beta1 s = b1 /\ am_beta2 s = b2 /\ am_beta1_prod s = times t b1 b1
    | _, _ => False
    end.

  Lemma aged_step n p t o w phi sf o' w' r : sized n phi -> length w = n -> aged n p t o ->
    lib_step_scaled o w phi sf = Ret (o', w', r) -> aged n p (S t) o'.
  Proof.
    intros Z L [OS A] E. destruct (lib_step_scaled_ok n o w phi sf Z L OS) as (o2 & w2 & E2 & _ & OS').
    rewrite E2 in E. inversion E; subst o2 w2 r. split; auto. clear E OS'. subst n.
    destruct p, o; simpl in * ; try tauto.
    - unfold sgd_step_scaled in E2. destruct (scaled_addto _ _ _); inversion E2; subst. reflexivity.
    - unfold isgd_step_scaled in E2. destruct (scaled_addto _ _ _); inversion E2; subst. reflexivity.
    - destruct (momentum_step_spec s w phi sf Z OS) as (v & x & E & _). rewrite E in E2.
      inversion E2; subst. simpl. exact A.
    - destruct (nag_step_spec s w phi sf Z OS) as (v & x & E & _). rewrite E in E2.
      inversion E2; subst. simpl. exact A.
    - destruct (expands_exists phi (proj1 (proj1 Z))) as [l X].
      destruct (adagrad_step_spec s w phi l sf Z X OS) as (v & x & E & _). rewrite E in E2.
      inversion E2; subst. simpl. reflexivity.
    - destruct OS as [O1 O2].
      destruct (adam_step_spec s w phi sf Z O1 O2) as (m1 & m2 & x & E & _). rewrite E in E2.
      inversion E2; subst. simpl. destruct A as (A1 & A2 & A3 & A4 & A5). splits; auto; congruence.
    - destruct OS as [O1 O2].
      destruct (adamax_step_spec s w phi sf Z O1 O2) as (m1 & m2 & x & E & _). rewrite E in E2.
      inversion E2; subst. simpl. destruct A as (A1 & A2 & A3 & A4). splits; auto; congruence.
  Qed.

  Lemma aged_train n p h : forall t o w o' w', well_sized n h -> length w = n -> aged n p t o ->
    train LibOptimiser h o w = Ret (o', w') -> aged n p (t + length h) o'.
  Proof.
    induction h as [|[phi e] h IH]; intros t o w o' w' Wh L A E; simpl in * .
    - inversion E; subst. rewrite Nat.add_0_r. auto.
    - inversion Wh; subst.
      destruct (lib_step_scaled_ok _ o w phi e H2 eq_refl (proj1 A)) as (o1 & w1 & E1 & L1 & _).
      rewrite E1 in E. rewrite <- Nat.add_succ_comm.
      apply (IH (S t) o1 w1 o' w'); auto. exact (aged_step _ p t o w phi e o1 w1 _ H2 eq_refl A E1).
  Qed.

  Lemma aged_construct n p : aged n p 0 (construct n p).
  Proof. split; [apply construct_sized|]. destruct p; simpl; auto. Qed.

  (** The constructed optimiser with its beta products as after [t] steps. *)
  Definition worn (n : nat) (p : hyper) (t : nat) : lib_opt F :=
    match p with
    | HAdam lr b1 b2 =>
        LAdam (MkAdam b1 (times t b1 b1) b2 (times t b2 b2) lr (zeros n) (zeros n))
    | HAdaMax lr b1 b2 => LAdaMax (MkAdaMax b1 (times t b1 b1) b2 lr (zeros n) (zeros n))
    | _ => construct n p
    end.

  Lemma reset_worn n p t o : aged n p t o -> lib_reset o = worn n p t.
  Proof.
    intros [OS A]. destruct p, o; simpl in * ; try tauto.
    - subst. reflexivity.
    - subst. reflexivity.
    - destruct A as [<- <-]. unfold momentum_reset, momentum_new. rewrite fill_zero_zeros, OS. reflexivity.
    - destruct A as [<- <-]. unfold momentum_reset, momentum_new. rewrite fill_zero_zeros, OS. reflexivity.
    - subst. unfold adagrad_reset, adagrad_new. rewrite fill_zero_zeros. reflexivity.
    - destruct OS as [O1 O2]. destruct A as (<- & <- & <- & A4 & A5). unfold adam_reset.
      rewrite !fill_zero_zeros, O1, O2, A4, A5. reflexivity.
    - destruct OS as [O1 O2]. destruct A as (<- & <- & <- & A4). unfold adamax_reset.
      rewrite !fill_zero_zeros, O1, O2, A4. reflexivity.
  Qed.

  Theorem reset_after_training n p h w o' w' : well_sized n h -> length w = n ->
    train LibOptimiser h (construct n p) w = Ret (o', w') ->
    lib_reset o' = worn n p (length h).
  Proof.
    intros Wh L E. apply reset_worn. apply (aged_train n p h 0 (construct n p) w o' w'); auto.
    apply aged_construct.
  Qed.
End OptimFacts.
Arguments hyper : clear implicits.
