(** C90: Momentum and Nesterov steps in binary64. Statements only; proofs are in
    Momentum64.v. *)
From Coq Require Import List Arith ZArith Lia Reals Lra Bool.
From Flocq Require Import Core.Core IEEE754.BinarySingleNaN.
From Verif Require Import Base Scalar ScalarR ScalarF64 F64Facts HMap HMapFacts NdArray VecFacts Features Spec
  FeatureFacts FeatureMore Basis BasisFacts NormF64 NonnegF64 BoundF64 Optim OptimSpec OptimFacts OptimReal OptimF64
  Near64 Momentum64.
Import ListNotations.
Local Open Scope R_scope.

(** With a momentum at most 1 - 2^-q in magnitude (or at most 1, for q = 53) and
    gradients at most 2^k, no history takes a velocity beyond 2^(k+q). *)
Theorem C90_velocity : forall P o k q, heavy P o -> (-1074 <= k)%Z -> (0 <= q <= 53)%Z -> (k + q <= 1023)%Z ->
  forall h (s : momentum_state f64) w,
    length (mo_velocity s) = length w ->
    (within (1 - bpow radix2 (- q)) (mo_momentum s) \/ q = 53%Z /\ within 1 (mo_momentum s)) ->
    Forall (within (bpow radix2 (k + q))) (mo_velocity s) -> Forall (bounded_step (length w) k) h ->
    exists s' w', train o h s w = Ret (s', w') /\ length w' = length w /\
      Forall (within (bpow radix2 (k + q))) (mo_velocity s').
Proof.
  intros P o k q Ho Lk Lq L h s w Lv D V Fh.
  destruct (velocity_history P o k q Ho Lk Lq L h s w) as (s' & w' & E & I & L'); auto.
  - unfold velocity_inv. auto.
  - exists s', w'. repeat split; auto. apply I.
Qed.
Print Assumptions C90_velocity.

(** Every binary64 momentum strictly inside (-1, 1) is covered by q = 53. *)
Theorem C90_below_one : forall m : f64, b_finite m = true -> Rabs (b_real m) < 1 -> within (1 - bpow radix2 (-53)) m.
Proof. exact below_one. Qed.
Print Assumptions C90_below_one.

Theorem C90_momentum_history : forall P j k q, (-1074 <= k)%Z -> (0 <= q <= 53)%Z -> (k + q <= 1023)%Z ->
  (-1074 <= j + (k + q) <= 1023)%Z ->
  forall h s w, momentum_inv j k q (length w) s -> Forall (bounded_step (length w) k) h ->
    exists s' w', train (@SGDMomentum f64 (ScalarF64 P)) h s w = Ret (s', w') /\
      momentum_inv j k q (length w) s' /\ length w' = length w /\
      Forall2 (drifts (bpow radix2 (j + (k + q))) (length h)) w w'.
Proof. exact momentum_history_f64. Qed.
Print Assumptions C90_momentum_history.

(** A Nesterov step adds two increments: the rate times the velocity, and the
    momentum times the activations. *)
Theorem C90_nag_history : forall P j k q l, (-1074 <= k)%Z -> (0 <= q <= 53)%Z -> (k + q <= 1023)%Z ->
  (-1074 <= j + (k + q) <= 1023)%Z -> (l <= 1023)%Z ->
  forall h s w, momentum_inv j k q (length w) s ->
    Forall (fun p => bounded_step (length w) k p /\ bounded_acts l p) h ->
    exists s' w', train (@NAG f64 (ScalarF64 P)) h s w = Ret (s', w') /\
      momentum_inv j k q (length w) s' /\ length w' = length w /\
      Forall2 (drifts (bpow radix2 (Z.max (j + (k + q)) l)) (length h * 2)) w w'.
Proof. exact nag_history_f64. Qed.
Print Assumptions C90_nag_history.

Theorem C90_invariants : forall P j k q n,
  (forall m lr, damped q m -> within (bpow radix2 j) lr ->
     momentum_inv j k q n (@momentum_new f64 (ScalarF64 P) n m lr)) /\
  (forall s, momentum_inv j k q n s -> momentum_inv j k q n (@momentum_reset f64 (ScalarF64 P) s)).
Proof. intros P j k q n. split; [intros m lr; apply momentum_inv_new|apply momentum_inv_reset]. Qed.
Print Assumptions C90_invariants.

(** Once gradients are zero, velocities never grow; with a momentum above 1/2 in
    magnitude no non-zero velocity ever becomes zero (over the reals it never
    does for any non-zero momentum, but it converges to zero). *)
Theorem C90_quiet : forall P o, heavy P o -> forall h (s : momentum_state f64) (w : list f64),
  length (mo_velocity s) = length w -> within 1 (mo_momentum s) -> Forall (quiet_step (length w)) h ->
  exists s' w', train o h s w = Ret (s', w') /\ mo_momentum s' = mo_momentum s /\ mo_lr s' = mo_lr s /\
    length w' = length w /\
    Forall2 (fun v v' : f64 => b_finite v = true ->
      b_finite v' = true /\ Rabs (b_real v') <= Rabs (b_real v) /\
      (/ 2 < Rabs (b_real (mo_momentum s)) -> b_real v <> 0 -> b_real v' <> 0))
      (mo_velocity s) (mo_velocity s').
Proof. exact quiet_history. Qed.
Print Assumptions C90_quiet.

(** With a momentum at most 1/2, velocities inside 2^e are zero after e + 1075
    such steps. *)
Theorem C90_vanish : forall P o, heavy P o -> forall h e (s : momentum_state f64) (w : list f64),
  length (mo_velocity s) = length w -> b_finite (mo_momentum s) = true ->
  Rabs (b_real (mo_momentum s)) <= / 2 -> (-1074 <= e <= 1024)%Z ->
  Forall (within (bpow radix2 e)) (mo_velocity s) -> Forall (quiet_step (length w)) h ->
  (e + 1075 <= Z.of_nat (length h))%Z ->
  exists s' w', train o h s w = Ret (s', w') /\ length w' = length w /\ Forall (within 0) (mo_velocity s').
Proof. exact quiet_vanish. Qed.
Print Assumptions C90_vanish.

(** An infinite or NaN velocity is never finite again, whatever the later steps. *)
Theorem C90_lost : forall P o, heavy P o -> forall h (s : momentum_state f64) (w : list f64),
  length (mo_velocity s) = length w -> Forall (fun p => sized (length w) (fst p)) h ->
  exists s' w', train o h s w = Ret (s', w') /\ length w' = length w /\
    Forall2 (fun v v' : f64 => b_finite v = false -> b_finite v' = false) (mo_velocity s) (mo_velocity s').
Proof. exact lost_history. Qed.
Print Assumptions C90_lost.

(** Resetting is the only way out: it makes every velocity zero. *)
Theorem C90_reset : forall P (s : momentum_state f64), Forall (within 0) (mo_velocity (@momentum_reset f64 (ScalarF64 P) s)).
Proof.
  intros P s. unfold momentum_reset, fill_zero. cbn [mo_velocity]. apply Forall_forall. intros x I.
  apply in_map_iff in I. destruct I as (z & <- & _). split; [reflexivity|]. simpl. rewrite Rabs_R0. lra.
Qed.
Print Assumptions C90_reset.

(** Momentum 1 and constant gradient 1: the velocity counts the steps up to 2^53
    and stays there. The bound 2^(k+53) is attained, and no history passes it. *)
Theorem C90_counts : forall P o, heavy P o -> forall n (lr w : f64),
  exists v w', train o (repeat (Dense [b_one], b_one) n) (@momentum_new f64 (ScalarF64 P) 1 b_one lr) [w] =
      Ret (MkMomentum b_one lr [v], [w']) /\
    b_finite v = true /\ b_real v = IZR (Z.min (Z.of_nat n) (2 ^ 53)).
Proof. exact count_history. Qed.
Print Assumptions C90_counts.

(** A momentum beyond 1 has no such bound: one gradient of 1 followed by zero
    gradients makes the velocity infinite and the weight NaN. *)
Definition runaway : list (Features f64 * f64) :=
  (Dense [b_one], b_one) :: repeat (Dense [b_one], b_zero) 1100.

Lemma runaway_bounded : Forall (bounded_step 1 0) runaway.
Proof.
  unfold runaway. constructor.
  - split; [split; [split; [exact I|apply bounded_dense]|reflexivity]|]. split; [vm_compute; reflexivity|].
    intros [|[|i]] a E; cbn in E; try discriminate; injection E as <-; apply within_check; [lia|vm_compute; reflexivity].
  - apply Forall_forall. intros p Ip. apply repeat_spec in Ip. subst p.
    split; [split; [split; [exact I|apply bounded_dense]|reflexivity]|]. split; [vm_compute; reflexivity|].
    intros [|[|i]] a E; cbn in E; try discriminate; injection E as <-; apply within_check; [lia|vm_compute; reflexivity].
Qed.

Theorem C90_beyond_one_refuted : exists P (m lr : f64) h s' w', Forall (bounded_step 1 0) h /\
  b_finite m = true /\ Rabs (b_real m) = 2 /\ lr = b_one /\
  train (@SGDMomentum f64 (ScalarF64 P)) h (@momentum_new f64 (ScalarF64 P) 1 m lr) [b_zero] = Ret (s', [w']) /\
  b_is_nan w' = true /\ Forall (fun v => b_finite v = false) (mo_velocity s').
Proof.
  exists SimplePlatform, (b_dyadic (-2) 0), b_one, runaway.
  assert (Q : match train (@SGDMomentum f64 (ScalarF64 SimplePlatform)) runaway
      (@momentum_new f64 (ScalarF64 SimplePlatform) 1 (b_dyadic (-2) 0) b_one) [b_zero] with
    | Ret (s', [w']) => b_is_nan w' && forallb (fun v => negb (b_finite v)) (mo_velocity s')
    | _ => false end = true) by (vm_compute; reflexivity).
  destruct (train _ _ _ _) as [[s' [|w' [|]]]|]; try discriminate Q. exists s', w'.
  apply andb_prop in Q. destruct Q as [Q1 Q2]. split; [exact runaway_bounded|]. split; [reflexivity|].
  split. { rewrite (proj2 (b_Z (-2) ltac:(lia))). unfold Rabs. destruct (Rcase_abs (-2)); lra. }
  split; [reflexivity|]. split; [reflexivity|]. split; [exact Q1|].
  apply Forall_forall. intros v Iv. rewrite forallb_forall in Q2. apply Q2 in Iv. destruct (b_finite v); [discriminate|reflexivity].
Qed.
Print Assumptions C90_beyond_one_refuted.

(** Nesterov needs the activations bounded as well: with zero gradients and zero
    velocity, a Momentum step leaves the weight and a Nesterov step overflows it. *)
Theorem C90_activations_refuted : exists P (m lr w : f64) h, Forall (bounded_step 1 0) h /\ within 1 m /\
  b_finite w = true /\
  (exists s', train (@SGDMomentum f64 (ScalarF64 P)) h (@momentum_new f64 (ScalarF64 P) 1 m lr) [w] = Ret (s', [w])) /\
  (exists s', train (@NAG f64 (ScalarF64 P)) h (@momentum_new f64 (ScalarF64 P) 1 m lr) [w] = Ret (s', [b_inf])).
Proof.
  exists SimplePlatform, b_one, b_one, (b_dyadic 1 1023), [(Dense [b_dyadic 1 1023], b_zero)].
  split; [|split; [apply (within_check 0); [lia|vm_compute; reflexivity]|split; [reflexivity|]]].
  - constructor; [|constructor]. split; [split; [split; [exact I|apply bounded_dense]|reflexivity]|]. split; [vm_compute; reflexivity|].
    intros [|[|i]] a E; cbn in E; try discriminate; injection E as <-; apply within_check; [lia|vm_compute; reflexivity].
  - split.
    + assert (Q : match train (@SGDMomentum f64 (ScalarF64 SimplePlatform)) [(Dense [b_dyadic 1 1023], b_zero)]
          (@momentum_new f64 (ScalarF64 SimplePlatform) 1 b_one b_one) [b_dyadic 1 1023] with
        | Ret (_, [x]) => B2SF x = B2SF (b_dyadic 1 1023) | _ => False end) by (vm_compute; reflexivity).
      destruct (train _ _ _ _) as [[s' [|x [|]]]|]; try contradiction Q.
      exists s'. apply B2SF_inj in Q. rewrite Q. reflexivity.
    + assert (Q : match train (@NAG f64 (ScalarF64 SimplePlatform)) [(Dense [b_dyadic 1 1023], b_zero)]
          (@momentum_new f64 (ScalarF64 SimplePlatform) 1 b_one b_one) [b_dyadic 1 1023] with
        | Ret (_, [x]) => B2SF x = B2SF b_inf | _ => False end) by (vm_compute; reflexivity).
      destruct (train _ _ _ _) as [[s' [|x [|]]]|]; try contradiction Q.
      exists s'. apply B2SF_inj in Q. rewrite Q. reflexivity.
Qed.
Print Assumptions C90_activations_refuted.

(** *** Examples *)

(** A dense and a sparse step on two weights, gradients at most 2^4. *)
Example history90 : list (Features f64 * f64) :=
  [(Dense [b_dyadic 3 0; b_dyadic (-5) (-3)], b_dyadic 1 0);
   (Sparse (MkSparse 2 [(1%nat, b_dyadic 7 1)]), b_dyadic (-1) (-2))].

Example history90_bounded : Forall (fun p => bounded_step 2 4 p /\ bounded_acts 4 p) history90.
Proof.
  constructor; [|constructor; [|constructor]]; split.
  - split; [split; [split; [exact I|apply bounded_dense]|reflexivity]|]. split; [vm_compute; reflexivity|].
    intros [|[|[|i]]] a E; simpl in E; try discriminate; injection E as <-;
      (apply within_check; [lia|vm_compute; reflexivity]).
  - intros [|[|[|i]]] a E; simpl in E; try discriminate; injection E as <-;
      (apply within_check; [lia|vm_compute; reflexivity]).
  - split; [split; [split; [repeat constructor; simpl; tauto|intros k [v [E|[]]]; injection E as <- <-; simpl; lia]|reflexivity]|].
    split; [vm_compute; reflexivity|].
    intros i a [E|[]]. injection E as <- <-. apply within_check; [lia|vm_compute; reflexivity].
  - intros i a [E|[]]. injection E as <- <-. apply within_check; [lia|vm_compute; reflexivity].
Qed.

(** Momentum 7/8 is 1 - 2^-3; rate 1/8: velocities stay within 2^7. *)
Example momentum90 : damped 3 (b_dyadic 7 (-3)).
Proof.
  left. split; [vm_compute; reflexivity|].
  assert (E : b_real (b_dyadic 7 (-3)) = 7 / 8).
  { replace (b_dyadic 7 (-3)) with (b_sub b_one (b_dyadic 1 (-3))) by (apply B2SF_inj; vm_compute; reflexivity).
    pose proof (Bminus_correct 53 1024 f64_prec f64_emax mode_NE b_one (b_dyadic 1 (-3)) eq_refl (proj1 (b_pow2 (-3) ltac:(lia)))) as C.
    fold (b_sub b_one (b_dyadic 1 (-3))) (b_real b_one) (b_real (b_dyadic 1 (-3))) in C.
    rewrite b_one_real, (proj2 (b_pow2 (-3) ltac:(lia))) in C.
    assert (Q : round radix2 (SpecFloat.fexp 53 1024) (round_mode mode_NE) (1 - bpow radix2 (-3)) = 1 - bpow radix2 (-3)).
    { apply round_generic; [apply valid_rnd_N|]. exact (fmt_gap (-3) 3 ltac:(lia) ltac:(lia) ltac:(lia)). }
    rewrite Q in C. assert (B3 : bpow radix2 (-3) = / 8) by reflexivity. rewrite B3 in C.
    rewrite Rlt_bool_true in C. { destruct C as (C1 & _). etransitivity; [exact C1|lra]. }
    rewrite Rabs_pos_eq by lra. apply Rlt_le_trans with (bpow radix2 0); [change (bpow radix2 0) with 1; lra|apply bpow_le; lia]. }
  rewrite E. assert (B3 : bpow radix2 (- (3)) = / 8) by reflexivity. rewrite Rabs_pos_eq by lra. rewrite B3. lra.
Qed.

Example C90_case : forall w, length w = 2%nat ->
  exists s' w', train (@NAG f64 (ScalarF64 SimplePlatform)) history90
      (@momentum_new f64 (ScalarF64 SimplePlatform) 2 (b_dyadic 7 (-3)) (b_dyadic 1 (-3))) w = Ret (s', w') /\
    Forall (within (bpow radix2 7)) (mo_velocity s') /\ Forall2 (drifts (bpow radix2 4) 4) w w'.
Proof.
  intros w L.
  destruct (C90_nag_history SimplePlatform (-3) 4 3 4 ltac:(lia) ltac:(lia) ltac:(lia) ltac:(lia) ltac:(lia) history90
    (@momentum_new f64 (ScalarF64 SimplePlatform) 2 (b_dyadic 7 (-3)) (b_dyadic 1 (-3))) w) as (s' & w' & E & I & _ & D).
  - rewrite L. apply C90_invariants; [exact momentum90|apply within_check; [lia|vm_compute; reflexivity]].
  - rewrite L. exact history90_bounded.
  - exists s', w'. split; [exact E|]. split; [apply I|exact D].
Qed.

(** A zero temporal-difference error is a step without gradients. *)
Example quiet90 : Forall (quiet_step 2) (repeat (Dense [b_dyadic 3 0; b_dyadic (-5) (-3)], b_zero) 2000).
Proof.
  apply Forall_forall. intros p Ip. apply repeat_spec in Ip. subst p.
  split; [split; [split; [exact I|apply bounded_dense]|reflexivity]|]. split; [vm_compute; reflexivity|].
  intros [|[|[|i]]] a E; cbn in E; try discriminate; injection E as <-; (split; [reflexivity|]);
    match goal with |- Rabs (b_real ?x) <= 0 => replace (b_real x) with 0 by (vm_compute; reflexivity) end; rewrite Rabs_R0; lra.
Qed.

Example C90_vanish_case : exists s' w', train (@SGDMomentum f64 (ScalarF64 SimplePlatform))
    (repeat (Dense [b_dyadic 3 0; b_dyadic (-5) (-3)], b_zero) 2000)
    (MkMomentum (b_dyadic 1 (-1)) (b_dyadic 1 (-3)) [b_dyadic 5 0; b_dyadic 77 (-3)]) [b_one; b_one] = Ret (s', w') /\
  length w' = 2%nat /\ Forall (within 0) (mo_velocity s').
Proof.
  destruct (b_pow2 (-1) ltac:(lia)) as [F1 R1].
  apply (C90_vanish SimplePlatform (@SGDMomentum f64 (ScalarF64 SimplePlatform)) (or_introl eq_refl)) with (e := 10%Z); auto.
  - cbn [mo_momentum]. rewrite R1. change (bpow radix2 (-1)) with (/ 2). rewrite Rabs_pos_eq by lra. lra.
  - lia.
  - repeat (apply Forall_cons || apply Forall_nil); (apply within_check; [lia|vm_compute; reflexivity]).
  - exact quiet90.
  - rewrite repeat_length. lia.
Qed.
