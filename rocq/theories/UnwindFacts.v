(** Facts for C63: the state a panicking call leaves. *)
From Coq Require Import List Arith ZArith Lia Bool.
From Verif Require Import Base Scalar HMap HMapFacts NdArray VecFacts Features Spec FeatureFacts
  Optim OptimSpec OptimFacts OptimOrder OptimMisfit Lfa LfaSpec LfaFacts Unwind.
Import ListNotations.

(** ** Loops *)

Section Loop.
  Context {A S : Type} (f : S -> A -> S * bool) (g : S -> A -> outcome S).
  Context (agree : forall s a, match g s a with Ret s' => f s a = (s', true) | Panic => snd (f s a) = false end).

  Lemma uloop_agrees : forall l s, match uloop f l s with
    | (s', true) => ofold g l s = Ret s'
    | (_, false) => ofold g l s = Panic end.
  Proof.
    induction l as [|a l IH]; intros s; simpl; auto. specialize (agree s a).
    destruct (g s a) as [s'|]; simpl.
    - rewrite agree. apply IH.
    - destruct (f s a) as [s' ok]. simpl in agree. subst ok. reflexivity.
  Qed.

  (** Where the loop stopped. *)
  Lemma uloop_stops : forall l s s', uloop f l s = (s', false) ->
    exists l1 a l2 s1, l = l1 ++ a :: l2 /\ ofold g l1 s = Ret s1 /\ g s1 a = Panic /\ f s1 a = (s', false).
  Proof.
    induction l as [|a l IH]; intros s s' E; simpl in E; [discriminate|]. pose proof (agree s a) as Ag.
    destruct (g s a) as [t|] eqn:G.
    - rewrite Ag in E. apply IH in E. destruct E as (l1 & b & l2 & s1 & -> & O & P & Q).
      exists (a :: l1), b, l2, s1. simpl. rewrite G. simpl. auto.
    - destruct (f s a) as [t ok] eqn:Ef. simpl in Ag. subst ok. injection E as ->.
      exists [], a, l, s. auto.
  Qed.
End Loop.

Section UnwindFacts.
  Context {F : Type} `{Scalar F}.
  Implicit Types (phi : Features F) (w da : list F) (o : lib_opt F).

  Lemma upd_agree {B} (l : list F) (k : B -> nat) (h : B -> F -> F) b :
    match vupd l (k b) (h b) with Ret l' => upd_u l (k b) (h b) = (l', true) | Panic => snd (upd_u l (k b) (h b)) = false end.
  Proof. unfold upd_u. destruct (vupd l (k b) (h b)); reflexivity. Qed.

  Lemma upd_u_length {A} (l : list A) i h : length (fst (upd_u l i h)) = length l.
  Proof.
    unfold upd_u. destruct (vupd l i h) eqn:E; auto. simpl. apply vupd_Ret in E. tauto.
  Qed.

  Lemma zip_u_length {A} (h : A -> A -> A) l r : length (fst (zip_u h l r)) = length l.
  Proof. unfold zip_u. destruct (zip_mut_with h l r) eqn:E; auto. simpl. eapply zip_mut_with_length; eauto. Qed.

  Lemma uloop_length {A B} (f : list B -> A -> list B * bool) : (forall s a, length (fst (f s a)) = length s) ->
    forall l s, length (fst (uloop f l s)) = length s.
  Proof.
    intros E. induction l as [|a l IH]; intros s; simpl; auto. specialize (E s a). destruct (f s a) as [s' [|]]; simpl in *; auto.
    rewrite IH. exact E.
  Qed.

  Lemma scaled_addto_u_length phi alpha w : length (fst (scaled_addto_u phi alpha w)) = length w.
  Proof.
    destruct phi; simpl; [apply zip_u_length|]. apply uloop_length. intros s a. apply upd_u_length.
  Qed.

  Lemma scaled_addto_u_agrees phi alpha w : match scaled_addto_u phi alpha w with
    | (w', true) => scaled_addto phi alpha w = Ret w' | (_, false) => scaled_addto phi alpha w = Panic end.
  Proof.
    destruct phi as [da|sa]; simpl.
    - unfold zip_u, scaled_add. destruct (zip_mut_with _ w da); reflexivity.
    - apply uloop_agrees. intros s a. exact (upd_agree s fst (fun kv x => fadd x (fmul alpha (snd kv))) a).
  Qed.

  Lemma addto_u_agrees phi w : match addto_u phi w with
    | (w', true) => addto phi w = Ret w' | (_, false) => addto phi w = Panic end.
  Proof.
    destruct phi as [da|sa]; simpl.
    - unfold zip_u, add_assign. destruct (zip_mut_with _ w da); reflexivity.
    - apply uloop_agrees. intros s a. exact (upd_agree s fst (fun kv x => fadd x (snd kv)) a).
  Qed.

  Lemma velocity_u_length m v phi sf : length (fst (velocity_u m v phi sf)) = length v.
  Proof.
    destruct phi; simpl; [apply zip_u_length|]. rewrite uloop_length; [apply map_length|]. intros s a. apply upd_u_length.
  Qed.

  Lemma velocity_u_agrees m v phi sf : match velocity_u m v phi sf with
    | (v', true) => velocity_update m v phi sf = Ret v' | (_, false) => velocity_update m v phi sf = Panic end.
  Proof.
    destruct phi as [da|sa]; simpl.
    - unfold zip_u. destruct (zip_mut_with _ v da); reflexivity.
    - apply uloop_agrees. intros s a. exact (upd_agree s fst (fun kv x => fadd x (fmul (snd kv) sf)) a).
  Qed.

  Lemma adam_coord_agree d lr b1 b2 p1 p2 sf st ia :
    match adam_coord d lr b1 b2 p1 p2 sf st ia with
    | Ret st' => adam_coord_u d lr b1 b2 p1 p2 sf st ia = (st', true)
    | Panic => snd (adam_coord_u d lr b1 b2 p1 p2 sf st ia) = false end.
  Proof.
    destruct st as [[m1 m2] w], ia as [i a]. cbn [adam_coord adam_coord_u]. unfold vget, vset, upd_u.
    destruct (nth_error m1 i) as [x1|] eqn:E1; cbn [obind]; auto.
    destruct (nth_error m2 i) as [x2|] eqn:E2; cbn [obind]; auto.
    rewrite !vupd_put, E1, E2. cbn [obind]. destruct (nth_error w i); reflexivity.
  Qed.

  Lemma adamax_coord_agree d lr b1 b2 p1 sf st ia :
    match adamax_coord d lr b1 b2 p1 sf st ia with
    | Ret st' => adamax_coord_u d lr b1 b2 p1 sf st ia = (st', true)
    | Panic => snd (adamax_coord_u d lr b1 b2 p1 sf st ia) = false end.
  Proof.
    destruct st as [[m1 m2] w], ia as [i a]. cbn [adamax_coord adamax_coord_u]. unfold vget, vset, upd_u.
    destruct (nth_error m1 i) as [x1|] eqn:E1; cbn [obind]; auto.
    destruct (nth_error m2 i) as [x2|] eqn:E2; cbn [obind]; auto.
    rewrite !vupd_put, E1, E2. cbn [obind]. destruct (nth_error w i); reflexivity.
  Qed.

  Lemma adagrad_sparse_u_agrees lr sf m : forall ss i w, match adagrad_sparse_u lr sf m i ss w with
    | (w', ss', true) => adagrad_sparse lr sf m i ss w = Ret (w', ss')
    | (_, _, false) => adagrad_sparse lr sf m i ss w = Panic end.
  Proof.
    induction ss as [|s ss IH]; intros i w; cbn [adagrad_sparse_u adagrad_sparse]; auto.
    unfold upd_u. destruct (vupd w i _) as [w1|] eqn:E; cbn [obind]; auto.
    specialize (IH (S i) w1). destruct (adagrad_sparse_u lr sf m (S i) ss w1) as [[w2 ss2] [|]]; rewrite IH; reflexivity.
  Qed.

  (** The state kept here and the outcome of the main model are the same call. *)
  Theorem left_agrees o w phi sf : match lib_u o w phi sf with
    | (o', w', true) => step o w phi sf = Ret (o', w', Ok tt)
    | (_, _, false) => step o w phi sf = Panic end.
  Proof.
    unfold step. destruct o as [lr|lr|s|s|s|s|s]; simpl.
    - unfold sgd_u, sgd_step_scaled. pose proof (scaled_addto_u_agrees phi (fmul lr sf) w) as E.
      destruct (scaled_addto_u phi (fmul lr sf) w) as [w' [|]]; simpl; rewrite E; reflexivity.
    - unfold isgd_u, isgd_step_scaled. pose proof (scaled_addto_u_agrees phi (fmul (isgd_compute_lr lr phi) sf) w) as E.
      destruct (scaled_addto_u phi (fmul (isgd_compute_lr lr phi) sf) w) as [w' [|]]; simpl; rewrite E; reflexivity.
    - unfold momentum_u, momentum_step_scaled. pose proof (velocity_u_agrees (mo_momentum s) (mo_velocity s) phi sf) as E.
      destruct (velocity_u (mo_momentum s) (mo_velocity s) phi sf) as [v [|]]; simpl; rewrite E; auto.
      unfold zip_u, scaled_add. cbn [obind]. destruct (zip_mut_with _ w v); reflexivity.
    - unfold nag_u, nag_step_scaled. pose proof (velocity_u_agrees (mo_momentum s) (mo_velocity s) phi sf) as E.
      destruct (velocity_u (mo_momentum s) (mo_velocity s) phi sf) as [v [|]]; simpl; rewrite E; auto.
      unfold zip_u, scaled_add. cbn [obind]. destruct (zip_mut_with _ w v) as [w'|]; [|reflexivity]. cbn [obind].
      pose proof (scaled_addto_u_agrees phi (mo_momentum s) w') as E'.
      destruct (scaled_addto_u phi (mo_momentum s) w') as [w'' [|]]; simpl; rewrite E'; reflexivity.
    - unfold adagrad_u, adagrad_step_scaled. destruct phi as [da|sa].
      + destruct (adagrad_dense _ _ _ _ _); reflexivity.
      + pose proof (adagrad_sparse_u_agrees (ag_lr s) sf (sa_acts sa) (ag_acc s) 0 w) as E.
        destruct (adagrad_sparse_u (ag_lr s) sf (sa_acts sa) 0 (ag_acc s) w) as [[w' a] [|]]; simpl; rewrite E; reflexivity.
    - unfold adam_u, adam_step_scaled. set (p1 := fmul _ _). set (p2 := fmul _ _). destruct phi as [da|sa].
      + pose proof (uloop_agrees _ _ (adam_coord_agree true (ad_lr s) (ad_beta1 s) (ad_beta2 s) p1 p2 sf)
          (indexed da) (ad_exp_avg s, ad_exp_avg_sq s, w)) as E.
        destruct (uloop _ _ _) as [[[a b] c] [|]]; simpl; rewrite E; reflexivity.
      + pose proof (uloop_agrees _ _ (adam_coord_agree false (ad_lr s) (ad_beta1 s) (ad_beta2 s) p1 p2 sf)
          (sa_acts sa) (mul_assign (ad_exp_avg s) (ad_beta1 s), mul_assign (ad_exp_avg_sq s) (ad_beta2 s), w)) as E.
        destruct (uloop _ _ _) as [[[a b] c] [|]]; simpl; rewrite E; reflexivity.
    - unfold adamax_u, adamax_step_scaled. set (p1 := fmul _ _). destruct phi as [da|sa].
      + pose proof (uloop_agrees _ _ (adamax_coord_agree true (am_lr s) (am_beta1 s) (am_beta2 s) p1 sf)
          (indexed da) (am_exp_avg s, am_exp_inf s, w)) as E.
        destruct (uloop _ _ _) as [[[a b] c] [|]]; simpl; rewrite E; reflexivity.
      + pose proof (uloop_agrees _ _ (adamax_coord_agree false (am_lr s) (am_beta1 s) (am_beta2 s) p1 sf)
          (sa_acts sa) (mul_assign (am_exp_avg s) (am_beta1 s), mul_assign (am_exp_inf s) (am_beta2 s), w)) as E.
        destruct (uloop _ _ _) as [[[a b] c] [|]]; simpl; rewrite E; reflexivity.
  Qed.

  (** ** Shapes survive *)

  Definition same_len3 (a b : list F * list F * list F) : Prop :=
    length (fst (fst b)) = length (fst (fst a)) /\ length (snd (fst b)) = length (snd (fst a)) /\ length (snd b) = length (snd a).

  Lemma adam_coord_len d lr b1 b2 p1 p2 sf st ia : same_len3 st (fst (adam_coord_u d lr b1 b2 p1 p2 sf st ia)).
  Proof.
    destruct st as [[m1 m2] w], ia as [i a]. cbn [adam_coord_u].
    destruct (nth_error m1 i) as [x1|], (nth_error m2 i) as [x2|]; try (unfold same_len3; auto; fail).
    set (n1 := fadd (if d then _ else _) _). set (n2 := fadd (if d then _ else _) _).
    pose proof (upd_u_length m1 i (fun _ => n1)) as L1. pose proof (upd_u_length m2 i (fun _ => n2)) as L2.
    destruct (upd_u m1 i (fun _ => n1)) as [? ?], (upd_u m2 i (fun _ => n2)) as [? ?].
    match goal with |- context [upd_u w i ?h] => pose proof (upd_u_length w i h) as L3; destruct (upd_u w i h) as [? ?] end.
    unfold same_len3. auto.
  Qed.

  Lemma adamax_coord_len d lr b1 b2 p1 sf st ia : same_len3 st (fst (adamax_coord_u d lr b1 b2 p1 sf st ia)).
  Proof.
    destruct st as [[m1 m2] w], ia as [i a]. cbn [adamax_coord_u].
    destruct (nth_error m1 i) as [x1|], (nth_error m2 i) as [x2|]; try (unfold same_len3; auto; fail).
    set (n1 := fadd (if d then _ else _) _). set (n2 := fmax (if d then _ else _) _).
    pose proof (upd_u_length m1 i (fun _ => n1)) as L1. pose proof (upd_u_length m2 i (fun _ => n2)) as L2.
    destruct (upd_u m1 i (fun _ => n1)) as [? ?], (upd_u m2 i (fun _ => n2)) as [? ?].
    match goal with |- context [upd_u w i ?h] => pose proof (upd_u_length w i h) as L3; destruct (upd_u w i h) as [? ?] end.
    unfold same_len3. auto.
  Qed.

  Lemma uloop_len3 {A} (f : list F * list F * list F -> A -> list F * list F * list F * bool) :
    (forall s a, same_len3 s (fst (f s a))) -> forall l s, same_len3 s (fst (uloop f l s)).
  Proof.
    intros E. induction l as [|a l IH]; intros s; simpl; [unfold same_len3; auto|].
    specialize (E s a). destruct (f s a) as [s' [|]]; simpl in *; auto. specialize (IH s'). unfold same_len3 in *. intuition congruence.
  Qed.

  Lemma adagrad_sparse_u_length lr sf m : forall ss i w w' ss' ok, adagrad_sparse_u lr sf m i ss w = (w', ss', ok) ->
    length w' = length w /\ length ss' = length ss.
  Proof.
    induction ss as [|s ss IH]; intros i w w' ss' ok; cbn [adagrad_sparse_u].
    - intros [= <- <- <-]. auto.
    - match goal with |- context [upd_u w i ?h] => pose proof (upd_u_length w i h) as L; destruct (upd_u w i h) as [w1 [|]] end.
      + destruct (adagrad_sparse_u lr sf m (S i) ss w1) as [[w2 ss2] ok2] eqn:E. intros [= <- <- <-].
        apply IH in E. simpl in *. intuition congruence.
      + intros [= <- <- <-]. auto.
  Qed.

  Lemma adagrad_dense_length lr sf : forall da w ss w' ss', adagrad_dense lr sf da w ss = (w', ss') ->
    length w' = length w /\ length ss' = length ss.
  Proof.
    induction da as [|a da IH]; intros [|x w] [|s ss] w' ss'; cbn [adagrad_dense]; try (intros [= <- <-]; auto; fail).
    destruct (adagrad_dense lr sf da w ss) as [w2 ss2] eqn:E. intros [= <- <-]. apply IH in E. simpl. intuition congruence.
  Qed.

  Theorem left_sized o w phi sf o' w' ok : lib_u o w phi sf = (o', w', ok) ->
    length w' = length w /\ forall n, opt_sized n o -> opt_sized n o'.
  Proof.
    destruct o as [lr|lr|s|s|s|s|s]; simpl.
    - unfold sgd_u. pose proof (scaled_addto_u_length phi (fmul lr sf) w) as L.
      destruct (scaled_addto_u phi (fmul lr sf) w) as [w1 ok1]. intros [= <- <- <-]. auto.
    - unfold isgd_u. pose proof (scaled_addto_u_length phi (fmul (isgd_compute_lr lr phi) sf) w) as L.
      destruct (scaled_addto_u _ _ w) as [w1 ok1]. intros [= <- <- <-]. auto.
    - unfold momentum_u. pose proof (velocity_u_length (mo_momentum s) (mo_velocity s) phi sf) as L.
      destruct (velocity_u _ _ _ _) as [v [|]]; simpl in L.
      + pose proof (zip_u_length (fun y x => fadd y (fmul (mo_lr s) x)) w v) as L'.
        destruct (zip_u _ w v) as [w1 ok1]. intros [= <- <- <-]. simpl in *. split; auto. intros n <-. exact L.
      + intros [= <- <- <-]. simpl in *. split; auto. intros n <-. exact L.
    - unfold nag_u. pose proof (velocity_u_length (mo_momentum s) (mo_velocity s) phi sf) as L.
      destruct (velocity_u _ _ _ _) as [v [|]]; simpl in L.
      + pose proof (zip_u_length (fun y x => fadd y (fmul (mo_lr s) x)) w v) as L'.
        destruct (zip_u _ w v) as [w1 [|]]; simpl in L'.
        * pose proof (scaled_addto_u_length phi (mo_momentum s) w1) as L''.
          destruct (scaled_addto_u phi (mo_momentum s) w1) as [w2 ok2]. intros [= <- <- <-]. simpl in *.
          split; [congruence|]. intros n <-. exact L.
        * intros [= <- <- <-]. simpl in *. split; auto. intros n <-. exact L.
      + intros [= <- <- <-]. simpl in *. split; auto. intros n <-. exact L.
    - unfold adagrad_u. destruct phi as [da|sa].
      + destruct (adagrad_dense _ _ _ _ _) as [w1 a1] eqn:E. intros [= <- <- <-]. apply adagrad_dense_length in E.
        destruct E as [E1 E2]. split; auto. simpl. intros n <-. exact E2.
      + destruct (adagrad_sparse_u _ _ _ _ _ _) as [[w1 a1] ok1] eqn:E. intros [= <- <- <-]. apply adagrad_sparse_u_length in E.
        destruct E as [E1 E2]. split; auto. simpl. intros n <-. exact E2.
    - unfold adam_u. set (p1 := fmul _ _). set (p2 := fmul _ _). destruct phi as [da|sa].
      + match goal with |- context [uloop ?f ?l ?s0] =>
          pose proof (uloop_len3 f (fun st ia => adam_coord_len _ _ _ _ _ _ _ st ia) l s0) as L; destruct (uloop f l s0) as [[[a b] c] ok1] end.
        intros [= <- <- <-]. unfold same_len3 in L. simpl in *. intuition congruence.
      + match goal with |- context [uloop ?f ?l ?s0] =>
          pose proof (uloop_len3 f (fun st ia => adam_coord_len _ _ _ _ _ _ _ st ia) l s0) as L; destruct (uloop f l s0) as [[[a b] c] ok1] end.
        intros [= <- <- <-]. unfold same_len3, mul_assign in L. simpl in *. rewrite !map_length in L. intuition congruence.
    - unfold adamax_u. set (p1 := fmul _ _). destruct phi as [da|sa].
      + match goal with |- context [uloop ?f ?l ?s0] =>
          pose proof (uloop_len3 f (fun st ia => adamax_coord_len _ _ _ _ _ _ st ia) l s0) as L; destruct (uloop f l s0) as [[[a b] c] ok1] end.
        intros [= <- <- <-]. unfold same_len3 in L. simpl in *. intuition congruence.
      + match goal with |- context [uloop ?f ?l ?s0] =>
          pose proof (uloop_len3 f (fun st ia => adamax_coord_len _ _ _ _ _ _ st ia) l s0) as L; destruct (uloop f l s0) as [[[a b] c] ok1] end.
        intros [= <- <- <-]. unfold same_len3, mul_assign in L. simpl in *. rewrite !map_length in L. intuition congruence.
  Qed.

  (** A caught panic does not stop later training. *)
  Theorem left_usable o w phi sf o' w' ok h : lib_u o w phi sf = (o', w', ok) ->
    opt_sized (length w) o -> well_sized (length w) h ->
    exists o'' w'', train LibOptimiser h o' w' = Ret (o'', w'') /\ length w'' = length w /\ opt_sized (length w) o''.
  Proof.
    intros E Z Wh. destruct (left_sized _ _ _ _ _ _ _ E) as [L K]. apply lib_train_ok; auto.
  Qed.

  (** ** What was done before the panic *)

  Lemma zip_u_fails {A} (h : A -> A -> A) l r x : zip_u h l r = (x, false) -> x = l /\ length r <> length l /\ length r <> 1.
  Proof.
    unfold zip_u. destruct (zip_mut_with h l r) eqn:E; intros [= <-]. split; auto. apply (zip_panics h). exact E.
  Qed.

  Lemma zip_u_works {A} (h : A -> A -> A) l r x : zip_u h l r = (x, true) -> length r = length l \/ length r = 1.
  Proof.
    unfold zip_u. destruct (zip_mut_with h l r) eqn:E; intros [= _].
    destruct (Nat.eq_dec (length r) (length l)); auto. destruct (Nat.eq_dec (length r) 1); auto.
    assert (zip_mut_with h l r = Panic) by (apply zip_panics; auto). congruence.
  Qed.

  Lemma adam_coord_stuck d lr b1 b2 p1 p2 sf m1 m2 w ia : length m1 <= fst ia ->
    adam_coord_u d lr b1 b2 p1 p2 sf (m1, m2, w) ia = (m1, m2, w, false).
  Proof.
    intros L. destruct ia as [i a]. cbn [adam_coord_u fst] in *. apply nth_error_None in L. rewrite L. reflexivity.
  Qed.
  Lemma adamax_coord_stuck d lr b1 b2 p1 sf m1 m2 w ia : length m1 <= fst ia ->
    adamax_coord_u d lr b1 b2 p1 sf (m1, m2, w) ia = (m1, m2, w, false).
  Proof.
    intros L. destruct ia as [i a]. cbn [adamax_coord_u fst] in *. apply nth_error_None in L. rewrite L. reflexivity.
  Qed.

  (** A loop over three vectors of one length stops at the first index out of
      range, leaving what the iterations before it made. *)
  Lemma coord_loop_stops (fu : list F * list F * list F -> nat * F -> list F * list F * list F * bool) g :
    (forall st ia, match coordwise g st ia with Ret st' => fu st ia = (st', true) | Panic => snd (fu st ia) = false end) ->
    (forall m1 m2 w ia, length m1 <= fst ia -> fu (m1, m2, w) ia = (m1, m2, w, false)) ->
    forall l m1 m2 w st', length m2 = length m1 -> length w = length m1 -> uloop fu l (m1, m2, w) = (st', false) ->
    exists l1 k v l2, l = l1 ++ (k, v) :: l2 /\ length m1 <= k /\ (forall kv, In kv l1 -> fst kv < length m1) /\
      ofold (coordwise g) l1 (m1, m2, w) = Ret st'.
  Proof.
    intros Ag St l m1 m2 w st' L2 Lw U. destruct (uloop_stops fu (coordwise g) Ag l _ _ U) as (l1 & [k v] & l2 & s1 & -> & O & P & Q).
    destruct s1 as [[a b] c]. destruct (loop_len g l1 m1 m2 w a b c L2 Lw O) as (La & Lb & Lc).
    pose proof (coordwise_lt g a b c (k, v) ltac:(congruence) ltac:(congruence)) as Lk. rewrite P in Lk. simpl in Lk.
    rewrite St in Q by exact Lk. injection Q as <-.
    exists l1, k, v, l2. splits; auto; [lia|]. intros kv I.
    destruct (Nat.lt_ge_cases (fst kv) (length m1)) as [|G]; auto. exfalso.
    assert (X : ofold (coordwise g) l1 (m1, m2, w) = Panic) by (apply loop_panics; auto; exists kv; auto). congruence.
  Qed.

  Definition adam_g d lr b1 b2 p1 p2 sf := fun (a x1 x2 x : F) =>
      let g := fmul a sf in
      let y1 := fadd (if d : bool then fmul b1 x1 else x1) (fmul (fsub fone b1) g) in
      let y2 := fadd (if d then fmul b2 x2 else x2) (fmul (fmul (fsub fone b2) g) g) in
      (y1, y2, fadd x (fdiv (fmul lr (fdiv y1 (fsub fone p1))) (fadd (fsqrt (fdiv y2 (fsub fone p2))) EPS))).
  Definition adamax_g d lr b1 b2 p1 sf := fun (a x1 x2 x : F) =>
      let g := fmul a sf in
      let y1 := fadd (if d : bool then fmul b1 x1 else x1) (fmul (fsub fone b1) g) in
      let y2 := fmax (if d then fmul b2 x2 else x2) (fabs g) in
      (y1, y2, fadd x (fdiv (fmul lr (fdiv y1 (fsub fone p1))) (fadd y2 EPS))).

  Lemma adam_loop_stops d lr b1 b2 p1 p2 sf l m1 m2 w st' : length m2 = length m1 -> length w = length m1 ->
    uloop (adam_coord_u d lr b1 b2 p1 p2 sf) l (m1, m2, w) = (st', false) ->
    exists l1 k v l2, l = l1 ++ (k, v) :: l2 /\ length m1 <= k /\ (forall kv, In kv l1 -> fst kv < length m1) /\
      ofold (adam_coord d lr b1 b2 p1 p2 sf) l1 (m1, m2, w) = Ret st'.
  Proof.
    intros L2 Lw U.
    destruct (coord_loop_stops (adam_coord_u d lr b1 b2 p1 p2 sf) (adam_g d lr b1 b2 p1 p2 sf)) with (l := l) (m1 := m1) (m2 := m2) (w := w) (st' := st')
      as (l1 & k & v & l2 & E & Lk & A & O); auto.
    - intros st ia. pose proof (adam_coord_agree d lr b1 b2 p1 p2 sf st ia) as Ag. rewrite adam_coordwise in Ag. exact Ag.
    - intros. apply adam_coord_stuck. auto.
    - exists l1, k, v, l2. splits; auto. rewrite (ofold_ext _ _ (adam_coordwise _ _ _ _ _ _ _)). exact O.
  Qed.
  Lemma adamax_loop_stops d lr b1 b2 p1 sf l m1 m2 w st' : length m2 = length m1 -> length w = length m1 ->
    uloop (adamax_coord_u d lr b1 b2 p1 sf) l (m1, m2, w) = (st', false) ->
    exists l1 k v l2, l = l1 ++ (k, v) :: l2 /\ length m1 <= k /\ (forall kv, In kv l1 -> fst kv < length m1) /\
      ofold (adamax_coord d lr b1 b2 p1 sf) l1 (m1, m2, w) = Ret st'.
  Proof.
    intros L2 Lw U.
    destruct (coord_loop_stops (adamax_coord_u d lr b1 b2 p1 sf) (adamax_g d lr b1 b2 p1 sf)) with (l := l) (m1 := m1) (m2 := m2) (w := w) (st' := st')
      as (l1 & k & v & l2 & E & Lk & A & O); auto.
    - intros st ia. pose proof (adamax_coord_agree d lr b1 b2 p1 sf st ia) as Ag. rewrite adamax_coordwise in Ag. exact Ag.
    - intros. apply adamax_coord_stuck. auto.
    - exists l1, k, v, l2. splits; auto. rewrite (ofold_ext _ _ (adamax_coordwise _ _ _ _ _ _)). exact O.
  Qed.

  Lemma indexed_nth da i kv : nth_error (indexed da) i = Some kv -> fst kv = i.
  Proof.
    unfold indexed. assert (G : forall s, nth_error (combine (seq s (length da)) da) i = Some kv -> fst kv = s + i).
    { revert i. induction da as [|a da IH]; intros [|i] s E; simpl in E; try discriminate.
      - injection E as <-. simpl. lia.
      - apply IH in E. lia. }
    intros E. apply G in E. lia.
  Qed.

  Lemma firstn_combine' {A B} n : forall (a : list A) (b : list B), firstn n (combine a b) = combine (firstn n a) (firstn n b).
  Proof. induction n as [|n IH]; intros [|x a] [|y b]; simpl; auto. f_equal. apply IH. Qed.
  Lemma firstn_seq' n : forall s m, n <= m -> firstn n (seq s m) = seq s n.
  Proof. induction n as [|n IH]; intros s [|m] L; simpl; auto; try lia. f_equal. apply IH. lia. Qed.

  Lemma indexed_stops da l1 k v l2 n : indexed da = l1 ++ (k, v) :: l2 -> n <= k -> (forall kv, In kv l1 -> fst kv < n) ->
    l1 = indexed (firstn n da).
  Proof.
    intros E L A.
    assert (K : k = length l1).
    { apply (indexed_nth da (length l1) (k, v)). rewrite E, nth_error_app2, Nat.sub_diag by lia. reflexivity. }
    assert (Ln : length l1 = n).
    { destruct (Nat.eq_dec (length l1) n) as [|N]; auto. exfalso.
      destruct (nth_error_lt l1 n) as [kv I]; [lia|].
      assert (X : nth_error (indexed da) n = Some kv) by (rewrite E, nth_error_app1 by lia; exact I).
      apply indexed_nth in X. apply nth_error_In in I. apply A in I. lia. }
    assert (Ld : n <= length da).
    { assert (X : length (indexed da) = length da) by (unfold indexed; rewrite combine_length, seq_length; lia).
      rewrite E, app_length in X. simpl in X. lia. }
    replace l1 with (firstn n (indexed da)) by (rewrite E, firstn_app, Ln, Nat.sub_diag, firstn_all2 by lia; simpl; apply app_nil_r).
    unfold indexed. rewrite firstn_combine', firstn_seq', firstn_length_le by lia. reflexivity.
  Qed.

  Theorem left_dense o w da sf o' w' : opt_sized (length w) o -> lib_u o w (Dense da) sf = (o', w', false) ->
    (strict o /\ o' = o /\ w' = w) \/ (adamlike o /\ step o w (Dense (firstn (length w) da)) sf = Ret (o', w', Ok tt)).
  Proof.
    intros Z. destruct o as [lr|lr|s|s|s|s|s]; simpl in Z; simpl.
    - unfold sgd_u. simpl. destruct (zip_u _ w da) as [w1 [|]] eqn:E; intros [= <- <-]. apply zip_u_fails in E. left. tauto.
    - unfold isgd_u. simpl. destruct (zip_u _ w da) as [w1 [|]] eqn:E; intros [= <- <-]. apply zip_u_fails in E. left. tauto.
    - unfold momentum_u. simpl. destruct (zip_u _ (mo_velocity s) da) as [v [|]] eqn:E; simpl.
      + match goal with |- context [zip_u ?h (mo_velocity s) da] => pose proof (zip_u_length h (mo_velocity s) da) as L end || idtac.
        destruct (zip_u _ w v) as [w1 [|]] eqn:E'; intros [= <- <-]. apply zip_u_fails in E'.
        exfalso. destruct E' as (_ & N & _). apply N.
        pose proof (f_equal (fun p => length (fst p)) E) as L. simpl in L. rewrite zip_u_length in L. congruence.
      + intros [= <- <-]. apply zip_u_fails in E. destruct E as [-> _]. left. destruct s. auto.
    - unfold nag_u. simpl. destruct (zip_u _ (mo_velocity s) da) as [v [|]] eqn:E; simpl.
      + pose proof (f_equal (fun p => length (fst p)) E) as L. simpl in L. rewrite zip_u_length in L.
        destruct (zip_u _ w v) as [w1 [|]] eqn:E'; simpl.
        * pose proof (f_equal (fun p => length (fst p)) E') as L'. simpl in L'. rewrite zip_u_length in L'.
          destruct (zip_u _ w1 da) as [w2 [|]] eqn:E''; intros [= <- <-]. exfalso.
          apply zip_u_fails in E''. apply zip_u_works in E. intuition congruence.
        * intros [= <- <-]. exfalso. apply zip_u_fails in E'. destruct E' as (_ & N & _). apply N. congruence.
      + intros [= <- <-]. apply zip_u_fails in E. destruct E as [-> _]. left. destruct s. auto.
    - unfold adagrad_u. destruct (adagrad_dense _ _ _ _ _) as [w1 acc]. intros [=].
    - destruct Z as [Z1 Z2]. unfold adam_u, step. simpl. unfold adam_step_scaled. set (p1 := fmul _ _). set (p2 := fmul _ _).
      destruct (uloop _ _ _) as [[[a b] c] [|]] eqn:U; intros [= <- <-].
      apply adam_loop_stops in U; try congruence. destruct U as (l1 & k & v & l2 & E & Lk & A & O). right. split; auto.
      rewrite Z1 in *. rewrite (indexed_stops da l1 k v l2 (length w) E Lk A) in O. rewrite O. reflexivity.
    - destruct Z as [Z1 Z2]. unfold adamax_u, step. simpl. unfold adamax_step_scaled. set (p1 := fmul _ _).
      destruct (uloop _ _ _) as [[[a b] c] [|]] eqn:U; intros [= <- <-].
      apply adamax_loop_stops in U; try congruence. destruct U as (l1 & k & v & l2 & E & Lk & A & O). right. split; auto.
      rewrite Z1 in *. rewrite (indexed_stops da l1 k v l2 (length w) E Lk A) in O. rewrite O. reflexivity.
  Qed.

  Lemma upd_loop_stops (h : nat * F -> F -> F) : forall (m : hmap F) w w',
    uloop (fun w kv => upd_u w (fst kv) (h kv)) m w = (w', false) ->
    exists l1 k v l2, m = l1 ++ (k, v) :: l2 /\ length w <= k /\ (forall kv, In kv l1 -> fst kv < length w) /\
      ofold (fun w kv => vupd w (fst kv) (h kv)) l1 w = Ret w'.
  Proof.
    induction m as [|[k v] m IH]; intros w w' U; simpl in U; [discriminate|]. unfold upd_u in U at 1.
    destruct (vupd w k (h (k, v))) as [w1|] eqn:E.
    - assert (Lw : length w1 = length w /\ k < length w).
      { destruct (Nat.lt_ge_cases k (length w)) as [Lk|G].
        - apply vupd_Ret in E. tauto.
        - rewrite vupd_ge in E by exact G. discriminate. }
      destruct Lw as [Lw Lk]. apply IH in U. destruct U as (l1 & k' & v' & l2 & -> & L & A & O).
      exists ((k, v) :: l1), k', v', l2. rewrite Lw in *. splits; auto.
      + intros kv [<-|I]; auto.
      + simpl. rewrite E. exact O.
    - injection U as <-. exists [], k, v, m. splits; auto; [|intros ? []].
      destruct (Nat.lt_ge_cases k (length w)) as [Lk|G]; auto. apply (vupd_lt (h (k, v))) in Lk. destruct Lk as (l' & E' & _). congruence.
  Qed.

  Lemma upd_loop_works (h : nat * F -> F -> F) : forall (m : hmap F) w w',
    uloop (fun w kv => upd_u w (fst kv) (h kv)) m w = (w', true) ->
    forall kv, In kv m -> fst kv < length w.
  Proof.
    induction m as [|[k v] m IH]; intros w w' U kv I; simpl in *; [tauto|]. unfold upd_u in U at 1.
    destruct (vupd w k (h (k, v))) as [w1|] eqn:E; [|discriminate].
    assert (Lw : length w1 = length w /\ k < length w).
    { destruct (Nat.lt_ge_cases k (length w)) as [Lk|G].
      - apply vupd_Ret in E. tauto.
      - rewrite vupd_ge in E by exact G. discriminate. }
    destruct I as [<-|I]; [simpl; tauto|]. rewrite <- (proj1 Lw). eapply IH; eauto.
  Qed.

  Theorem addto_left phi w :
    match addto_u phi w with
    | (w', true) => addto phi w = Ret w'
    | (w', false) => addto phi w = Panic /\ length w' = length w /\
        match phi with
        | Dense _ => w' = w
        | Sparse sa => exists l1 k v l2, sa_acts sa = l1 ++ (k, v) :: l2 /\ length w <= k /\
            (forall kv, In kv l1 -> fst kv < length w) /\ addto (Sparse (MkSparse (sa_dim sa) l1)) w = Ret w'
        end
    end.
  Proof.
    pose proof (addto_u_agrees phi w) as A. destruct (addto_u phi w) as [w' [|]] eqn:E; auto.
    assert (L : length w' = length w).
    { pose proof (f_equal (fun p => length (fst p)) E) as X. simpl in X. rewrite <- X.
      destruct phi; simpl; [apply zip_u_length|]. apply uloop_length. intros. apply upd_u_length. }
    splits; auto. destruct phi as [da|sa]; simpl in E.
    - apply zip_u_fails in E. tauto.
    - apply (upd_loop_stops (fun kv x => fadd x (snd kv))) in E. exact E.
  Qed.

  Theorem scaled_addto_left phi alpha w :
    match scaled_addto_u phi alpha w with
    | (w', true) => scaled_addto phi alpha w = Ret w'
    | (w', false) => scaled_addto phi alpha w = Panic /\ length w' = length w /\
        match phi with
        | Dense _ => w' = w
        | Sparse sa => exists l1 k v l2, sa_acts sa = l1 ++ (k, v) :: l2 /\ length w <= k /\
            (forall kv, In kv l1 -> fst kv < length w) /\ scaled_addto (Sparse (MkSparse (sa_dim sa) l1)) alpha w = Ret w'
        end
    end.
  Proof.
    pose proof (scaled_addto_u_agrees phi alpha w) as A. pose proof (scaled_addto_u_length phi alpha w) as L.
    destruct (scaled_addto_u phi alpha w) as [w' [|]] eqn:E; auto.
    splits; auto. destruct phi as [da|sa]; simpl in E.
    - apply zip_u_fails in E. tauto.
    - apply (upd_loop_stops (fun kv x => fadd x (fmul alpha (snd kv)))) in E. exact E.
  Qed.

  Theorem left_sparse o w d (m : hmap F) sf o' w' : opt_sized (length w) o ->
    lib_u o w (Sparse (MkSparse d m)) sf = (o', w', false) ->
    exists l1 k v l2, m = l1 ++ (k, v) :: l2 /\ length w <= k /\ (forall kv, In kv l1 -> fst kv < length w) /\
      match o with
      | LSGD lr => o' = o /\ scaled_addto (Sparse (MkSparse d l1)) (fmul lr sf) w = Ret w'
      | LISGD lr => o' = o /\
          scaled_addto (Sparse (MkSparse d l1)) (fmul (isgd_compute_lr lr (Sparse (MkSparse d m))) sf) w = Ret w'
      | LMomentum _ | LNAG _ => w' = w /\ exists w1, step o w (Sparse (MkSparse d l1)) sf = Ret (o', w1, Ok tt)
      | LAdagrad _ => False
      | LAdam _ | LAdaMax _ => step o w (Sparse (MkSparse d l1)) sf = Ret (o', w', Ok tt)
      end.
  Proof.
    intros Z. destruct o as [lr|lr|s|s|s|s|s]; simpl in Z; simpl.
    - unfold sgd_u. simpl. destruct (uloop _ m w) as [w1 [|]] eqn:E; intros [= <- <-].
      apply (upd_loop_stops (fun kv x => fadd x (fmul (fmul lr sf) (snd kv)))) in E.
      destruct E as (l1 & k & v & l2 & -> & L & A & O). exists l1, k, v, l2. splits; auto.
    - unfold isgd_u. cbn [scaled_addto_u sa_acts]. destruct (uloop _ m w) as [w1 [|]] eqn:E; intros [= <- <-].
      apply (upd_loop_stops (fun kv x => fadd x (fmul (fmul (isgd_compute_lr lr (Sparse (MkSparse d m))) sf) (snd kv)))) in E.
      destruct E as (l1 & k & v & l2 & Em & L & A & O). exists l1, k, v, l2. splits; auto.
    - unfold momentum_u. cbn [velocity_u sa_acts]. destruct (uloop _ m _) as [v1 [|]] eqn:E; simpl.
      + pose proof (f_equal (fun p => length (fst p)) E) as L. simpl in L.
        rewrite uloop_length in L by (intros; apply upd_u_length). unfold mul_assign in L. rewrite map_length in L.
        destruct (zip_u _ w v1) as [w1 [|]] eqn:E'; intros [= <- <-]. apply zip_u_fails in E'. exfalso. intuition congruence.
      + intros [= <- <-]. apply (upd_loop_stops (fun kv x => fadd x (fmul (snd kv) sf))) in E.
        unfold mul_assign in E at 1 2 3. rewrite map_length, Z in E.
        destruct E as (l1 & k & v & l2 & -> & L & A & O). exists l1, k, v, l2. splits; auto.
        unfold step. simpl. unfold momentum_step_scaled. simpl. unfold mul_assign. rewrite O. simpl.
        assert (Lv : length v1 = length w).
        { pose proof (velocity_u_length (mo_momentum s) (mo_velocity s) (Sparse (MkSparse d l1)) sf) as X.
          pose proof (velocity_u_agrees (mo_momentum s) (mo_velocity s) (Sparse (MkSparse d l1)) sf) as Y.
          destruct (velocity_u _ _ _ _) as [v2 [|]]; simpl in Y; unfold mul_assign in Y; rewrite O in Y; [|discriminate].
          injection Y as <-. simpl in X. congruence. }
        unfold scaled_add. rewrite zip_mut_with_eq by exact Lv. simpl. eauto.
    - unfold nag_u. cbn [velocity_u sa_acts]. destruct (uloop _ m _) as [v1 [|]] eqn:E; simpl.
      + pose proof (f_equal (fun p => length (fst p)) E) as L. simpl in L.
        rewrite uloop_length in L by (intros; apply upd_u_length). unfold mul_assign in L. rewrite map_length in L.
        destruct (zip_u _ w v1) as [w1 [|]] eqn:E'; simpl.
        * pose proof (f_equal (fun p => length (fst p)) E') as L'. simpl in L'. rewrite zip_u_length in L'.
          destruct (uloop _ m w1) as [w2 [|]] eqn:E''; intros [= <- <-]. exfalso.
          apply (upd_loop_stops (fun kv x => fadd x (fmul (mo_momentum s) (snd kv)))) in E''.
          destruct E'' as (l1 & k & v & l2 & Em & Lk & _).
          pose proof (upd_loop_works (fun kv x => fadd x (fmul (snd kv) sf)) _ _ _ E (k, v)) as B.
          unfold mul_assign in B. rewrite map_length in B. rewrite Em in B. simpl in B. specialize (B ltac:(apply in_or_app; simpl; auto)). lia.
        * intros [= <- <-]. apply zip_u_fails in E'. exfalso. intuition congruence.
      + intros [= <- <-]. apply (upd_loop_stops (fun kv x => fadd x (fmul (snd kv) sf))) in E.
        unfold mul_assign in E at 1 2 3. rewrite map_length, Z in E.
        destruct E as (l1 & k & v & l2 & -> & L & A & O). exists l1, k, v, l2. splits; auto.
        unfold step. simpl. unfold nag_step_scaled. simpl. unfold mul_assign. rewrite O. simpl.
        assert (Lv : length v1 = length w).
        { pose proof (velocity_u_length (mo_momentum s) (mo_velocity s) (Sparse (MkSparse d l1)) sf) as X.
          pose proof (velocity_u_agrees (mo_momentum s) (mo_velocity s) (Sparse (MkSparse d l1)) sf) as Y.
          destruct (velocity_u _ _ _ _) as [v2 [|]]; simpl in Y; unfold mul_assign in Y; rewrite O in Y; [|discriminate].
          injection Y as <-. simpl in X. congruence. }
        unfold scaled_add. rewrite zip_mut_with_eq by exact Lv. simpl.
        match goal with |- context [ofold ?f l1 ?w1] =>
          pose proof (scaled_addto_u_agrees (Sparse (MkSparse d l1)) (mo_momentum s) w1) as Y;
          cbn [scaled_addto_u sa_acts] in Y;
          destruct (uloop (fun w kv => upd_u w (fst kv) (fun x => fadd x (fmul (mo_momentum s) (snd kv)))) l1 w1) as [w2 [|]] eqn:Eu end.
        * cbn [scaled_addto sa_acts] in Y. rewrite Y. simpl. eauto.
        * exfalso. apply (upd_loop_stops (fun kv x => fadd x (fmul (mo_momentum s) (snd kv)))) in Eu.
          destruct Eu as (l1' & k' & v' & l2' & -> & Lk & _). rewrite map2_length_eq in Lk by auto.
          specialize (A (k', v') ltac:(apply in_or_app; simpl; auto)). simpl in A. lia.
    - unfold adagrad_u. cbn [sa_acts]. destruct (adagrad_sparse_u _ _ _ _ _ _) as [[w1 acc] ok] eqn:E. intros [= <- <- ->].
      exfalso. pose proof (adagrad_sparse_u_agrees (ag_lr s) sf m (ag_acc s) 0 w) as X. rewrite E in X.
      destruct (adagrad_never_panics s w (Sparse (MkSparse d m)) sf ltac:(lia)) as (s' & w2 & Y).
      simpl in Y. unfold adagrad_step_scaled in Y. cbn [sa_acts] in Y. rewrite X in Y. discriminate.
    - destruct Z as [Z1 Z2]. unfold adam_u, step. simpl. unfold adam_step_scaled. set (p1 := fmul _ _). set (p2 := fmul _ _). cbn [sa_acts].
      destruct (uloop _ _ _) as [[[a b] c] [|]] eqn:U; intros [= <- <-].
      apply adam_loop_stops in U; unfold mul_assign; rewrite ?map_length; try congruence.
      destruct U as (l1 & k & v & l2 & E & Lk & A & O). unfold mul_assign in Lk, A. rewrite map_length, Z1 in *.
      exists l1, k, v, l2. splits; auto. unfold mul_assign in O. rewrite O. reflexivity.
    - destruct Z as [Z1 Z2]. unfold adamax_u, step. simpl. unfold adamax_step_scaled. set (p1 := fmul _ _). cbn [sa_acts].
      destruct (uloop _ _ _) as [[[a b] c] [|]] eqn:U; intros [= <- <-].
      apply adamax_loop_stops in U; unfold mul_assign; rewrite ?map_length; try congruence.
      destruct U as (l1 & k & v & l2 & E & Lk & A & O). unfold mul_assign in Lk, A. rewrite map_length, Z1 in *.
      exists l1, k, v, l2. splits; auto. unfold mul_assign in O. rewrite O. reflexivity.
  Qed.
End UnwindFacts.
