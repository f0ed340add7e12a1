(** Representation of the features (C40) and reset (C39), over the reals. *)
From Coq Require Import List Arith Lia Reals Lra Bool.
From Verif Require Import Base Scalar ScalarR HMap HMapFacts NdArray VecFacts Features Spec
  FeatureFacts FeatureMore Optim OptimSpec OptimFacts OptimReal OptimAdam.
Import ListNotations.
Local Open Scope R_scope.

(** ** training through [lib_opt] *)

Lemma lib_train {F} `{Scalar F} {S} (o : Optimiser F S) (inj : S -> lib_opt F) :
  (forall s w phi sf, lib_step_scaled (inj s) w phi sf = lift_step inj (o_step_scaled o s w phi sf)) ->
  forall h s w, train LibOptimiser h (inj s) w =
    match train o h s w with Ret (s', w') => Ret (inj s', w') | Panic => Panic end.
Proof.
  intros E. induction h as [|[phi e] h IH]; intros s w; simpl; auto.
  rewrite E. destruct (o_step_scaled o s w phi e) as [[[s' w'] r]|]; simpl; auto.
Qed.

Theorem isgd_history n h lr w : well_sized n h -> length w = n ->
  exists w', train ISGD h lr w = Ret (lr, w') /\ length w' = n /\
    forall i, at_ w' i = at_ w i +
      rsum (map (fun p => lr / (1 + lr * norm2 (fst p)) * (coeff (fst p) i * snd p)) h).
Proof.
  intros Wh L. induction h as [|[phi e] h IH] using rev_ind.
  - exists w. simpl. splits; auto. intros i. lra.
  - apply well_sized_snoc in Wh. destruct Wh as [Wh Z]. destruct (IH Wh) as (w1 & E & L1 & N).
    rewrite train_snoc, E. subst n. rewrite <- L1 in Z.
    destruct (isgd_R lr phi e w1 Z) as (w2 & E2 & L2 & N2). simpl. rewrite E2.
    exists w2. splits; auto; try congruence. intros i. rewrite N2, N, map_app, rsum_app. simpl. ring.
Qed.

Lemma same_content_grads h h' : same_content h h' -> forall i, grads i h = grads i h'.
Proof.
  intros C i. induction C as [|p q h h' [E1 E2] C IH]; simpl; auto.
  rewrite IH, E1, E2. reflexivity.
Qed.

Lemma same_content_length h h' : same_content h h' -> length h = length h'.
Proof. intros C. induction C; simpl; congruence. Qed.

(** ** C40 *)

Definition plain (p : hyper R) : Prop :=
  match p with HAdam _ _ _ | HAdaMax _ _ _ => False | _ => True end.

Theorem repr_independent n p h h' w : plain p -> well_sized n h -> well_sized n h' ->
  same_content h h' -> length w = n ->
  exists o w', train LibOptimiser h (construct n p) w = Ret (o, w') /\
    train LibOptimiser h' (construct n p) w = Ret (o, w').
Proof.
  intros Pl Wh Wh' C L. assert (G := same_content_grads h h' C).
  destruct p as [lr|lr|m lr|m lr|lr|lr b1 b2|lr b1 b2]; simpl in Pl; try tauto; cbn [construct].
  - rewrite !(lib_train SGD LSGD) by reflexivity.
    destruct (sgd_history n h lr w Wh L) as (w1 & E1 & L1 & N1).
    destruct (sgd_history n h' lr w Wh' L) as (w2 & E2 & L2 & N2).
    rewrite E1, E2. exists (LSGD lr), w1. split; auto. do 2 f_equal. symmetry. apply at_ext; [congruence|].
    intros i _. rewrite N1, N2, G. reflexivity.
  - rewrite !(lib_train ISGD LISGD) by reflexivity.
    destruct (isgd_history n h lr w Wh L) as (w1 & E1 & L1 & N1).
    destruct (isgd_history n h' lr w Wh' L) as (w2 & E2 & L2 & N2).
    rewrite E1, E2. exists (LISGD lr), w1. split; auto. do 2 f_equal. symmetry. apply at_ext; [congruence|].
    intros i _. rewrite N1, N2. f_equal. clear -C Wh Wh'.
    induction C as [|p q h h' [Es Ec] C IH]; simpl; auto.
    inversion Wh as [|? ? Zp Wh1]; inversion Wh' as [|? ? Zq Wh1']; subst. rewrite IH by assumption.
    f_equal. rewrite Es, Ec. do 4 f_equal. unfold norm2. rewrite (proj2 Zp), (proj2 Zq).
    apply sigma_ext. intros j _. rewrite Ec. reflexivity.
  - rewrite !(lib_train SGDMomentum LMomentum) by reflexivity.
    destruct (momentum_history n h m lr w Wh L) as (s1 & w1 & E1 & M1 & R1 & V1 & L1 & N1).
    destruct (momentum_history n h' m lr w Wh' L) as (s2 & w2 & E2 & M2 & R2 & V2 & L2 & N2).
    rewrite E1, E2. exists (LMomentum s1), w1. split; auto.
    destruct s1 as [a1 c1 v1], s2 as [a2 c2 v2]; simpl in *. subst a1 a2 c1 c2.
    assert (v2 = v1) as ->.
    { apply at_ext; [congruence|]. intros i Li. rewrite (proj1 (N1 i ltac:(lia))), (proj1 (N2 i ltac:(lia))), G. reflexivity. }
    do 2 f_equal. apply at_ext; [congruence|]. intros i Li.
    rewrite (proj2 (N1 i ltac:(lia))), (proj2 (N2 i ltac:(lia))), G. reflexivity.
  - rewrite !(lib_train NAG LNAG) by reflexivity.
    destruct (nag_history n h m lr w Wh L) as (s1 & w1 & E1 & M1 & R1 & V1 & L1 & N1).
    destruct (nag_history n h' m lr w Wh' L) as (s2 & w2 & E2 & M2 & R2 & V2 & L2 & N2).
    rewrite E1, E2. exists (LNAG s1), w1. split; auto.
    destruct s1 as [a1 c1 v1], s2 as [a2 c2 v2]; simpl in *. subst a1 a2 c1 c2.
    assert (v2 = v1) as ->.
    { apply at_ext; [congruence|]. intros i Li. rewrite (proj1 (N1 i ltac:(lia))), (proj1 (N2 i ltac:(lia))), G. reflexivity. }
    do 2 f_equal. apply at_ext; [congruence|]. intros i Li.
    rewrite (proj2 (N1 i ltac:(lia))), (proj2 (N2 i ltac:(lia))), G. do 3 f_equal.
    clear -C. induction C as [|p q h h' [Es Ec] C IH]; simpl; auto. rewrite IH, Ec. reflexivity.
  - rewrite !(lib_train Adagrad LAdagrad) by reflexivity.
    destruct (adagrad_history n h lr w Wh L) as (s1 & w1 & E1 & R1 & V1 & L1 & N1).
    destruct (adagrad_history n h' lr w Wh' L) as (s2 & w2 & E2 & R2 & V2 & L2 & N2).
    rewrite E1, E2. exists (LAdagrad s1), w1. split; auto.
    destruct s1 as [c1 v1], s2 as [c2 v2]; simpl in *. subst c1 c2.
    assert (v2 = v1) as ->.
    { apply at_ext; [congruence|]. intros i Li. rewrite (proj1 (N1 i ltac:(lia))), (proj1 (N2 i ltac:(lia))), G. reflexivity. }
    do 2 f_equal. apply at_ext; [congruence|]. intros i Li.
    rewrite (proj2 (N1 i ltac:(lia))), (proj2 (N2 i ltac:(lia))), G. reflexivity.
Qed.

Theorem adam_moments_independent n h h' lr b1 b2 w : well_sized n h -> well_sized n h' ->
  same_content h h' -> length w = n ->
  exists s w1 w2, train Adam h (adam_new n lr b1 b2) w = Ret (s, w1) /\
    train Adam h' (adam_new n lr b1 b2) w = Ret (s, w2).
Proof.
  intros Wh Wh' C L. assert (G := same_content_grads h h' C).
  assert (Len := same_content_length h h' C).
  destruct (adam_history n h lr b1 b2 w Wh L) as (s1 & w1 & E1 & a1 & c1 & d1 & p1 & q1 & U1 & V1 & L1 & N1).
  destruct (adam_history n h' lr b1 b2 w Wh' L) as (s2 & w2 & E2 & a2 & c2 & d2 & p2 & q2 & U2 & V2 & L2 & N2).
  exists s1, w1, w2. split; auto. rewrite E2. do 2 f_equal.
  rewrite <- Len in p2, q2.
  destruct s1, s2; simpl in *; subst. f_equal; apply at_ext; try congruence; intros i Li.
  - rewrite (proj1 (N1 i ltac:(lia))), (proj1 (N2 i ltac:(lia))), G. reflexivity.
  - rewrite (proj1 (proj2 (N1 i ltac:(lia)))), (proj1 (proj2 (N2 i ltac:(lia)))), G. reflexivity.
Qed.

Theorem adamax_moments_independent n h h' lr b1 b2 w : 0 <= b2 -> well_sized n h -> well_sized n h' ->
  same_content h h' -> length w = n ->
  exists s w1 w2, train AdaMax h (adamax_new n lr b1 b2) w = Ret (s, w1) /\
    train AdaMax h' (adamax_new n lr b1 b2) w = Ret (s, w2).
Proof.
  intros B Wh Wh' C L. assert (G := same_content_grads h h' C).
  assert (Len := same_content_length h h' C).
  destruct (adamax_history n h lr b1 b2 w B Wh L) as (s1 & w1 & E1 & a1 & c1 & d1 & p1 & U1 & V1 & L1 & N1).
  destruct (adamax_history n h' lr b1 b2 w B Wh' L) as (s2 & w2 & E2 & a2 & c2 & d2 & p2 & U2 & V2 & L2 & N2).
  exists s1, w1, w2. split; auto. rewrite E2. do 2 f_equal.
  rewrite <- Len in p2.
  destruct s1, s2; simpl in *; subst. f_equal; apply at_ext; try congruence; intros i Li.
  - rewrite (proj1 (N1 i ltac:(lia))), (proj1 (N2 i ltac:(lia))), G. reflexivity.
  - rewrite (proj1 (proj2 (N1 i ltac:(lia)))), (proj1 (proj2 (N2 i ltac:(lia)))), G. reflexivity.
Qed.

(** A sparse step of Adam or AdaMax leaves every weight it does not store
    alone; for every scalar type. *)
Theorem adam_sparse_frozen {F} `{Scalar F} s w (phi : Features F) sf : sized (length w) phi ->
  length (ad_exp_avg s) = length w -> length (ad_exp_avg_sq s) = length w ->
  exists s' w', o_step_scaled Adam s w phi sf = Ret (s', w', Ok tt) /\
    forall i, ~ stored phi i -> nth_error w' i = nth_error w i.
Proof.
  intros Z L1 L2. destruct (adam_step_spec s w phi sf Z L1 L2) as (m1 & m2 & w' & E & A & B & C & N).
  simpl. rewrite E. eexists _, _. split; [reflexivity|]. intros i S.
  apply get_not_stored in S; [|apply Z].
  destruct (Nat.lt_ge_cases i (length w)) as [Li|Li].
  - destruct (nth_error_lt (ad_exp_avg s) i ltac:(lia)) as [x1 X1].
    destruct (nth_error_lt (ad_exp_avg_sq s) i ltac:(lia)) as [x2 X2].
    destruct (nth_error_lt w i Li) as [x X].
    specialize (N i x1 x2 x X1 X2 X). rewrite S in N. rewrite X. apply N.
  - rewrite !(proj2 (nth_error_None _ i)) by lia. reflexivity.
Qed.

Theorem adamax_sparse_frozen {F} `{Scalar F} s w (phi : Features F) sf : sized (length w) phi ->
  length (am_exp_avg s) = length w -> length (am_exp_inf s) = length w ->
  exists s' w', o_step_scaled AdaMax s w phi sf = Ret (s', w', Ok tt) /\
    forall i, ~ stored phi i -> nth_error w' i = nth_error w i.
Proof.
  intros Z L1 L2. destruct (adamax_step_spec s w phi sf Z L1 L2) as (m1 & m2 & w' & E & A & B & C & N).
  simpl. rewrite E. eexists _, _. split; [reflexivity|]. intros i S.
  apply get_not_stored in S; [|apply Z].
  destruct (Nat.lt_ge_cases i (length w)) as [Li|Li].
  - destruct (nth_error_lt (am_exp_avg s) i ltac:(lia)) as [x1 X1].
    destruct (nth_error_lt (am_exp_inf s) i ltac:(lia)) as [x2 X2].
    destruct (nth_error_lt w i Li) as [x X].
    specialize (N i x1 x2 x X1 X2 X). rewrite S in N. rewrite X. apply N.
  - rewrite !(proj2 (nth_error_None _ i)) by lia. reflexivity.
Qed.

(** Two steps, feature 0 then feature 1. *)
Definition ex_sparse_h : history R :=
  [(Sparse (MkSparse 2 [(0%nat, 1)]), 1); (Sparse (MkSparse 2 [(1%nat, 1)]), 1)].
Definition ex_dense_h : history R := [(Dense [1; 0], 1); (Dense [0; 1], 1)].

Lemma ex_same_content : same_content ex_sparse_h ex_dense_h.
Proof.
  repeat constructor; simpl; intros i; destruct i as [|[|[|i]]]; reflexivity.
Qed.

Lemma sized_single {F} n k (a : F) : (k < n)%nat -> sized n (Sparse (MkSparse n [(k, a)])).
Proof.
  intros L. split; auto. split.
  - simpl. repeat constructor. simpl. tauto.
  - intros i [v [E|[]]]. inversion E; subst. exact L.
Qed.

Lemma ex_sparse_sized : well_sized 2 ex_sparse_h.
Proof. constructor; [|constructor; [|constructor]]; apply sized_single; lia. Qed.

Lemma ex_dense_sized : well_sized 2 ex_dense_h.
Proof.
  assert (D : forall a b : R, sized 2 (Dense [a; b])).
  { intros a b. split; auto. split; [exact I|apply bounded_dense]. }
  constructor; [|constructor; [|constructor]]; apply D.
Qed.

Theorem adam_repr_refuted : exists h h' : history R,
  well_sized 2 h /\ well_sized 2 h' /\ same_content h h' /\
  exists s s' w w', train Adam h (adam_new 2 1 (1/2) (1/2)) [0; 0] = Ret (s, w) /\
    train Adam h' (adam_new 2 1 (1/2) (1/2)) [0; 0] = Ret (s', w') /\ w <> w'.
Proof.
  exists ex_sparse_h, ex_dense_h.
  split; [apply ex_sparse_sized|]. split; [apply ex_dense_sized|]. split; [apply ex_same_content|].
  destruct (adam_history 2 ex_sparse_h 1 (1/2) (1/2) [0; 0] ex_sparse_sized eq_refl)
    as (s1 & w1 & E1 & _ & _ & _ & _ & _ & _ & _ & _ & N1).
  destruct (adam_history 2 ex_dense_h 1 (1/2) (1/2) [0; 0] ex_dense_sized eq_refl)
    as (s2 & w2 & E2 & _ & _ & _ & _ & _ & _ & _ & _ & N2).
  exists s1, s2, w1, w2. splits; auto. intros C. subst w2.
  destruct (N1 0%nat) as (_ & _ & A1); [lia|]. destruct (N2 0%nat) as (_ & _ & A2); [lia|].
  rewrite A1 in A2. apply Rplus_eq_reg_l in A2. revert A2.
  unfold prefix_sum, adam_delta, last_writes, moment1, moment2, grads, sq. simpl.
  match goal with |- context [sqrt ?e + EPS] => set (d1 := sqrt e + EPS) end.
  match goal with |- context [sqrt ?e + EPS] => set (d2 := sqrt e + EPS) end.
  assert (P2 : 0 < d2). { assert (X := EPS_pos). unfold d2.
    match goal with |- _ < sqrt ?e + _ => pose proof (sqrt_pos e) end. lra. }
  assert (I2 : 0 < / d2) by (apply Rinv_0_lt_compat, P2).
  unfold Rdiv. generalize dependent (/ d2). intros r R0. clearbody d1. generalize (/ d1). intros q.
  intros Q. lra.
Qed.

Theorem adamax_repr_refuted : exists h h' : history R,
  well_sized 2 h /\ well_sized 2 h' /\ same_content h h' /\
  exists s s' w w', train AdaMax h (adamax_new 2 1 (1/2) (1/2)) [0; 0] = Ret (s, w) /\
    train AdaMax h' (adamax_new 2 1 (1/2) (1/2)) [0; 0] = Ret (s', w') /\ w <> w'.
Proof.
  exists ex_sparse_h, ex_dense_h.
  split; [apply ex_sparse_sized|]. split; [apply ex_dense_sized|]. split; [apply ex_same_content|].
  destruct (adamax_history 2 ex_sparse_h 1 (1/2) (1/2) [0; 0] ltac:(lra) ex_sparse_sized eq_refl)
    as (s1 & w1 & E1 & _ & _ & _ & _ & _ & _ & _ & N1).
  destruct (adamax_history 2 ex_dense_h 1 (1/2) (1/2) [0; 0] ltac:(lra) ex_dense_sized eq_refl)
    as (s2 & w2 & E2 & _ & _ & _ & _ & _ & _ & _ & N2).
  exists s1, s2, w1, w2. splits; auto. intros C. subst w2.
  destruct (N1 0%nat) as (_ & _ & A1); [lia|]. destruct (N2 0%nat) as (_ & _ & A2); [lia|].
  rewrite A1 in A2. apply Rplus_eq_reg_l in A2. revert A2.
  unfold prefix_sum, adamax_delta, last_writes, moment1.
  rewrite <- !(same_content_grads _ _ ex_same_content) || idtac.
  cbn [map seq length ex_sparse_h ex_dense_h firstn rev app fst snd writes sa_acts existsb Nat.eqb Nat.ltb Nat.leb orb rsum fold_right].
  set (d1 := peak (1/2) (grads 0 [(Dense [1; 0], 1)])).
  set (d2 := peak (1/2) (grads 0 [(Dense [1; 0], 1); (Dense [0; 1], 1)])).
  change (peak (1/2) (grads 0 [(Sparse (MkSparse 2 [(0%nat, 1)]), 1)])) with d1.
  assert (P2 : 0 < d2 + EPS). { assert (X := EPS_pos). assert (Y : 0 <= d2) by apply peak_nonneg. lra. }
  assert (I2 : 0 < / (d2 + EPS)) by (apply Rinv_0_lt_compat, P2).
  unfold Rdiv. generalize dependent (/ (d2 + EPS)). intros r R0. generalize (/ (d1 + EPS)). intros q.
  simpl. intros Q. lra.
Qed.

(** ** C39: what survives a reset *)

Lemma times_pow t (b : R) : times t b b = b ^ S t.
Proof. induction t as [|t IH]; simpl in *; [lra|]. rewrite IH. ring. Qed.

Theorem reset_plain n p h w o' w' : plain p -> well_sized n h -> length w = n ->
  train LibOptimiser h (construct n p) w = Ret (o', w') -> lib_reset o' = construct n p.
Proof.
  intros Pl Wh L E. rewrite (reset_after_training n p h w o' w' Wh L E).
  destruct p; simpl in *; tauto.
Qed.

Theorem reset_adam n lr b1 b2 h w o' w' : well_sized n h -> length w = n ->
  train LibOptimiser h (LAdam (adam_new n lr b1 b2)) w = Ret (o', w') ->
  lib_reset o' = LAdam (MkAdam b1 (b1 ^ S (length h)) b2 (b2 ^ S (length h)) lr (zeros n) (zeros n)).
Proof.
  intros Wh L E. rewrite (reset_after_training n (HAdam lr b1 b2) h w o' w' Wh L E).
  simpl worn. rewrite !times_pow. reflexivity.
Qed.

Theorem reset_adamax n lr b1 b2 h w o' w' : well_sized n h -> length w = n ->
  train LibOptimiser h (LAdaMax (adamax_new n lr b1 b2)) w = Ret (o', w') ->
  lib_reset o' = LAdaMax (MkAdaMax b1 (b1 ^ S (length h)) b2 lr (zeros n) (zeros n)).
Proof.
  intros Wh L E. rewrite (reset_after_training n (HAdaMax lr b1 b2) h w o' w' Wh L E).
  simpl worn. rewrite !times_pow. reflexivity.
Qed.

(** The first step from zero moments with beta products [p1], [p2]. *)
Lemma adam_first_step n lr b1 b2 p1 p2 (phi : Features R) e w : sized n phi -> length w = n ->
  exists s' w', o_step_scaled Adam (MkAdam b1 p1 b2 p2 lr (zeros n) (zeros n)) w phi e =
      Ret (s', w', Ok tt) /\
    forall i, stored phi i -> let g := coeff phi i * e in
      at_ w' i = at_ w i +
        lr * ((1 - b1) * g / (1 - p1 * b1)) / (sqrt ((1 - b2) * g * g / (1 - p2 * b2)) + EPS).
Proof.
  intros Z L. subst n.
  destruct (adam_step_spec (MkAdam b1 p1 b2 p2 lr (zeros (length w)) (zeros (length w))) w phi e Z)
    as (m1 & m2 & w' & E & _ & _ & _ & N); try apply repeat_length.
  simpl o_step_scaled. rewrite E. eexists _, w'. split; [reflexivity|]. intros i S g.
  assert (Li : (i < length w)%nat) by (rewrite <- (proj2 Z); apply (proj2 (proj1 Z)), S).
  assert (Zi : nth_error (@zeros R _ (length w)) i = Some 0).
  { unfold zeros. rewrite nth_error_repeat', fzero_R. destruct (Nat.ltb_spec i (length w)); auto. lia. }
  specialize (N i 0 0 (at_ w i) Zi Zi (at_nth_error w i Li)).
  destruct S as [a S]. assert (Ga := proj2 (get_stores phi i a (proj1 (proj1 Z))) S).
  unfold g. rewrite (coeff_stores phi i a (proj1 (proj1 Z)) S). rewrite Ga in N.
  destruct N as (_ & _ & N). rewrite (nth_error_at _ _ _ N).
  unfold adam_move, adam_m1, adam_m2, decayed. simpl.
  destruct (negb (is_sparse phi)); to_R; rewrite ?Rmult_0_r, ?Rmult_0_l, ?Rplus_0_l; reflexivity.
Qed.

Lemma adamax_first_step n lr b1 b2 p1 (phi : Features R) e w : sized n phi -> length w = n ->
  exists s' w', o_step_scaled AdaMax (MkAdaMax b1 p1 b2 lr (zeros n) (zeros n)) w phi e =
      Ret (s', w', Ok tt) /\
    forall i, stored phi i -> let g := coeff phi i * e in
      at_ w' i = at_ w i + lr * ((1 - b1) * g / (1 - p1 * b1)) / (Rabs g + EPS).
Proof.
  intros Z L. subst n.
  destruct (adamax_step_spec (MkAdaMax b1 p1 b2 lr (zeros (length w)) (zeros (length w))) w phi e Z)
    as (m1 & m2 & w' & E & _ & _ & _ & N); try apply repeat_length.
  simpl o_step_scaled. rewrite E. eexists _, w'. split; [reflexivity|]. intros i S g.
  assert (Li : (i < length w)%nat) by (rewrite <- (proj2 Z); apply (proj2 (proj1 Z)), S).
  assert (Zi : nth_error (@zeros R _ (length w)) i = Some 0).
  { unfold zeros. rewrite nth_error_repeat', fzero_R. destruct (Nat.ltb_spec i (length w)); auto. lia. }
  specialize (N i 0 0 (at_ w i) Zi Zi (at_nth_error w i Li)).
  destruct S as [a S]. assert (Ga := proj2 (get_stores phi i a (proj1 (proj1 Z))) S).
  unfold g. rewrite (coeff_stores phi i a (proj1 (proj1 Z)) S). rewrite Ga in N.
  destruct N as (_ & _ & N). rewrite (nth_error_at _ _ _ N).
  unfold adamax_move, adam_m1, adamax_u, decayed. simpl.
  destruct (negb (is_sparse phi)); to_R; rewrite ?Rmult_0_r, ?Rmult_0_l, ?Rplus_0_l;
    rewrite (Rmax_right 0) by apply Rabs_pos; reflexivity.
Qed.

Lemma pow_SS_lt b t : 0 < b < 1 -> (0 < t)%nat -> b ^ S t < b.
Proof.
  intros B T. destruct t as [|t]; [lia|]. assert (b ^ S t < 1) by (apply pow_lt_1; lra).
  change (b ^ S (S t)) with (b * b ^ S t). assert (0 < b ^ S t) by (apply pow_lt; lra). nra.
Qed.

(** AdaMax: every step after training and a reset differs from the first step
    of a new optimiser, on every weight with a non-zero gradient. *)
Theorem adamax_reset_differs n lr b1 b2 h w0 o1 w1 (phi : Features R) e w i :
  0 < b1 < 1 -> lr <> 0 -> h <> [] -> well_sized n h -> length w0 = n ->
  train LibOptimiser h (LAdaMax (adamax_new n lr b1 b2)) w0 = Ret (o1, w1) ->
  sized n phi -> length w = n -> coeff phi i * e <> 0 ->
  exists oa wa ob wb,
    o_step_scaled LibOptimiser (lib_reset o1) w phi e = Ret (oa, wa, Ok tt) /\
    o_step_scaled LibOptimiser (LAdaMax (adamax_new n lr b1 b2)) w phi e = Ret (ob, wb, Ok tt) /\
    at_ wa i <> at_ wb i.
Proof.
  intros B LR NE Wh L0 E Z L G. rewrite (reset_adamax n lr b1 b2 h w0 o1 w1 Wh L0 E).
  destruct (adamax_first_step n lr b1 b2 (b1 ^ S (length h)) phi e w Z L) as (sa & wa & Ea & Na).
  destruct (adamax_first_step n lr b1 b2 b1 phi e w Z L) as (sb & wb & Eb & Nb).
  simpl o_step_scaled in *. exists (LAdaMax sa), wa, (LAdaMax sb), wb.
  unfold adamax_new. simpl lib_step_scaled. rewrite Ea, Eb. splits; auto.
  assert (S : stored phi i).
  { destruct (stored_dec phi i (proj1 (proj1 Z))) as [S|S]; auto. exfalso. apply G.
    rewrite (coeff_unstored phi i (proj1 (proj1 Z)) S). ring. }
  rewrite (Na i S), (Nb i S). simpl. set (g := coeff phi i * e) in *. intros C.
  apply Rplus_eq_reg_l in C.
  assert (PE : 0 < Rabs g + EPS) by (pose proof (Rabs_pos g); pose proof EPS_pos; lra).
  set (d := Rabs g + EPS) in *.
  assert (T : (0 < length h)%nat) by (destruct h; [congruence|simpl; lia]).
  assert (P1 := pow_SS_lt b1 (length h) B T). simpl in P1. set (p := b1 * b1 ^ length h) in *.
  assert (P0 : 0 < p) by (unfold p; apply Rmult_lt_0_compat; [lra|apply pow_lt; lra]).
  assert (Q1 : 0 < 1 - p * b1) by nra. assert (Q2 : 0 < 1 - b1 * b1) by nra.
  assert (C2 : 1 - p * b1 = 1 - b1 * b1).
  { apply (f_equal (fun x => x * d)) in C. unfold Rdiv in C. rewrite !Rmult_assoc, !Rinv_l in C by lra.
    rewrite !Rmult_1_r in C. apply Rmult_eq_reg_l in C; auto.
    rewrite <- !Rmult_assoc in C. apply Rmult_eq_reg_l in C.
    - rewrite <- (Rinv_inv (1 - p * b1)), C, Rinv_inv. reflexivity.
    - apply Rmult_integral_contrapositive. split; auto. lra. }
  nra.
Qed.

Lemma ratio_mono x y : 0 < y < x -> y / (sqrt y + EPS) < x / (sqrt x + EPS).
Proof.
  intros [Y X]. assert (E := EPS_pos).
  assert (SY : 0 < sqrt y) by (apply sqrt_lt_R0; lra).
  assert (SX : sqrt y < sqrt x) by (apply sqrt_lt_1; lra).
  assert (QY : sqrt y * sqrt y = y) by (apply sqrt_sqrt; lra).
  assert (QX : sqrt x * sqrt x = x) by (apply sqrt_sqrt; lra).
  apply (Rmult_lt_reg_r ((sqrt y + EPS) * (sqrt x + EPS))); [nra|].
  replace (y / (sqrt y + EPS) * ((sqrt y + EPS) * (sqrt x + EPS))) with (y * (sqrt x + EPS))
    by (field; lra).
  replace (x / (sqrt x + EPS) * ((sqrt y + EPS) * (sqrt x + EPS))) with (x * (sqrt y + EPS))
    by (field; lra).
  assert (T1 : 0 < sqrt y * sqrt x * (sqrt x - sqrt y)).
  { apply Rmult_lt_0_compat; [apply Rmult_lt_0_compat|]; lra. }
  assert (T2 : 0 < (x - y) * EPS) by (apply Rmult_lt_0_compat; lra).
  assert (T3 : x * sqrt y - y * sqrt x = sqrt y * sqrt x * (sqrt x - sqrt y)).
  { rewrite <- QY at 2. rewrite <- QX at 1. ring. }
  lra.
Qed.

(** Adam with equal betas, on a unit gradient. *)
Theorem adam_reset_differs n lr b h w0 o1 w1 (phi : Features R) e w i :
  0 < b < 1 -> lr <> 0 -> h <> [] -> well_sized n h -> length w0 = n ->
  train LibOptimiser h (LAdam (adam_new n lr b b)) w0 = Ret (o1, w1) ->
  sized n phi -> length w = n -> coeff phi i * e = 1 ->
  exists oa wa ob wb,
    o_step_scaled LibOptimiser (lib_reset o1) w phi e = Ret (oa, wa, Ok tt) /\
    o_step_scaled LibOptimiser (LAdam (adam_new n lr b b)) w phi e = Ret (ob, wb, Ok tt) /\
    at_ wa i <> at_ wb i.
Proof.
  intros B LR NE Wh L0 E Z L G. rewrite (reset_adam n lr b b h w0 o1 w1 Wh L0 E).
  destruct (adam_first_step n lr b b (b ^ S (length h)) (b ^ S (length h)) phi e w Z L) as (sa & wa & Ea & Na).
  destruct (adam_first_step n lr b b b b phi e w Z L) as (sb & wb & Eb & Nb).
  simpl o_step_scaled in *. exists (LAdam sa), wa, (LAdam sb), wb.
  unfold adam_new. simpl lib_step_scaled. rewrite Ea, Eb. splits; auto.
  assert (S : stored phi i).
  { destruct (stored_dec phi i (proj1 (proj1 Z))) as [S|S]; auto. exfalso.
    rewrite (coeff_unstored phi i (proj1 (proj1 Z)) S) in G. lra. }
  rewrite (Na i S), (Nb i S). cbv zeta. rewrite G. rewrite !Rmult_1_r. intros C.
  apply Rplus_eq_reg_l in C. unfold Rdiv in C. rewrite !Rmult_assoc in C.
  apply Rmult_eq_reg_l in C; auto. revert C.
  clear Na Nb Ea Eb.
  assert (T : (0 < length h)%nat) by (destruct h; [congruence|simpl; lia]).
  assert (P1 := pow_SS_lt b (length h) B T). set (p := b ^ Datatypes.S (length h)) in *.
  assert (P0 : 0 < p) by (unfold p; apply pow_lt; lra).
  assert (Q1 : 0 < 1 - p * b) by nra. assert (Q2 : 0 < 1 - b * b) by nra.
  rewrite <- !Rmult_assoc. fold ((1 - b) / (1 - p * b)) ((1 - b) / (1 - b * b)).
  assert (I : / (1 - p * b) < / (1 - b * b)) by (apply Rinv_lt_contravar; nra).
  assert (I0 : 0 < / (1 - p * b)) by (apply Rinv_0_lt_compat, Q1).
  pose proof (ratio_mono ((1 - b) / (1 - b * b)) ((1 - b) / (1 - p * b))) as M.
  unfold Rdiv in *. intros C. rewrite C in M. apply (Rlt_irrefl _ (M ltac:(split; nra))).
Qed.
