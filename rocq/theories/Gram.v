(** Training with SGD, ISGD, momentum and Nesterov sees features only through
    their inner products. *)
From Coq Require Import List Arith Lia Reals Lra.
From Verif Require Import Base Scalar ScalarR HMap NdArray VecFacts Features Spec FeatureFacts
  Optim OptimSpec OptimFacts OptimReal Lfa LfaSpec LfaFacts LfaReal Passes HeavyBall KernelFit.
Import ListNotations.
Local Open Scope R_scope.

(** The optimisers whose step is linear in the features. *)
Definition linear_kind (p : hyper R) : Prop :=
  match p with HSGD _ | HISGD _ | HMomentum _ _ | HNAG _ _ => True | _ => False end.

Definition rate_of (p : hyper R) : R :=
  match p with
  | HSGD lr | HISGD lr | HMomentum _ lr | HNAG _ lr | HAdagrad lr | HAdam lr _ _ | HAdaMax lr _ _ => lr
  end.

(** Every feature vector [b] gives on the inputs of [X]. *)
Definition gives_on {I} (b : Basis R I) (n : nat) (X : I -> Prop) (phi : I -> Features R) : Prop :=
  forall x, X x -> b_project b x = Ret (Ok (phi x)) /\ sized n (phi x).

(** Calls on inputs of [X], whose error functions do not tell [phi] from [phi']. *)
Definition call_on {I} (X : I -> Prop) (phi phi' : I -> Features R) (c : s_call R I) : Prop :=
  match c with
  | SEvaluate x => X x
  | SUpdate x _ => X x
  | SUpdateWith x f => X x /\ forall v, f (phi x) v = f (phi' x) v
  end.

(** Velocity, and the four coefficients of a step. *)
Definition vel (o : lib_opt R) : list R := match o with LMomentum s | LNAG s => mo_velocity s | _ => [] end.

Definition same_rule (p : hyper R) (o : lib_opt R) : Prop :=
  match p, o with
  | HSGD lr, LSGD lr' => lr' = lr
  | HISGD lr, LISGD lr' => lr' = lr
  | HMomentum m lr, LMomentum s => mo_momentum s = m /\ mo_lr s = lr
  | HNAG m lr, LNAG s => mo_momentum s = m /\ mo_lr s = lr
  | _, _ => False
  end.

Definition keeps (p : hyper R) : R := match p with HMomentum m _ | HNAG m _ => m | _ => 0 end.
Definition pushes (p : hyper R) (e : R) : R := match p with HMomentum _ _ | HNAG _ _ => e | _ => 0 end.
Definition follows (p : hyper R) : R := match p with HMomentum _ lr | HNAG _ lr => lr | _ => 0 end.
Definition moves (p : hyper R) (q e : R) : R :=
  match p with HSGD lr => lr * e | HISGD lr => lr / (1 + lr * q) * e | HNAG m _ => m | _ => 0 end.

Lemma linear_step p o w phi e : same_rule p o -> opt_sized (length w) o -> sized (length w) phi ->
  exists o' w', lib_step_scaled o w phi e = Ret (o', w', Ok tt) /\ same_rule p o' /\
    opt_sized (length w) o' /\ length w' = length w /\
    (forall i, at_ (vel o') i = keeps p * at_ (vel o) i + pushes p e * coeff phi i) /\
    (forall i, at_ w' i = at_ w i + follows p * at_ (vel o') i + moves p (norm2 phi) e * coeff phi i).
Proof.
  intros Sr So Z. destruct p as [lr|lr|m lr|m lr| | |]; destruct o as [l1|l1|s|s| | |]; try contradiction; cbn [same_rule opt_sized vel keeps pushes follows moves] in *.
  - subst. destruct (sgd_R lr phi e w Z) as (w' & E & L & N). exists (LSGD lr), w'. cbn [lib_step_scaled o_step_scaled SGD]. rewrite E.
    splits; auto; intros i; [unfold at_; destruct i; cbn; ring|rewrite N; ring].
  - subst. destruct (isgd_R lr phi e w Z) as (w' & E & L & N). exists (LISGD lr), w'. cbn [lib_step_scaled o_step_scaled ISGD]. rewrite E.
    splits; auto; intros i; [unfold at_; destruct i; cbn; ring|rewrite N; ring].
  - destruct s as [m0 lr0 v]. cbn [mo_momentum mo_lr mo_velocity] in *. destruct Sr as [-> ->].
    destruct (momentum_heavy m lr v w phi e Z So) as (v' & w' & E & L1 & L2 & N1 & N2).
    exists (LMomentum (MkMomentum m lr v')), w'. cbn [lib_step_scaled]. rewrite E. cbn [lift_step obind vel mo_velocity mo_momentum mo_lr same_rule opt_sized].
    splits; auto; intros i; rewrite ?N1, ?N2, ?N1; ring.
  - destruct s as [m0 lr0 v]. cbn [mo_momentum mo_lr mo_velocity] in *. destruct Sr as [-> ->].
    destruct (nag_heavy m lr v w phi e Z So) as (v' & w' & E & L1 & L2 & N1 & N2).
    exists (LNAG (MkMomentum m lr v')), w'. cbn [lib_step_scaled]. rewrite E. cbn [lift_step obind vel mo_velocity mo_momentum mo_lr same_rule opt_sized].
    splits; auto; intros i; rewrite ?N1, ?N2, ?N1; ring.
Qed.

Lemma predict_lin3 psi phi (w u v : list R) a b c :
  (forall i, at_ w i = a * at_ u i + b * at_ v i + c * coeff phi i) ->
  predict psi w = a * predict psi u + b * predict psi v + c * inner psi phi.
Proof.
  intros E. unfold predict, inner. rewrite <- !sigma_scal, <- !sigma_plus. apply sigma_ext. intros i _. rewrite E. ring.
Qed.

(** The effect of a step on predictions. *)
Lemma linear_effect p o w phi e : same_rule p o -> opt_sized (length w) o -> sized (length w) phi ->
  exists o' w', lib_step_scaled o w phi e = Ret (o', w', Ok tt) /\ same_rule p o' /\
    opt_sized (length w) o' /\ length w' = length w /\
    (forall psi, predict psi (vel o') = keeps p * predict psi (vel o) + pushes p e * inner psi phi) /\
    (forall psi, predict psi w' = predict psi w + follows p * predict psi (vel o') + moves p (norm2 phi) e * inner psi phi).
Proof.
  intros Sr So Z. destruct (linear_step p o w phi e Sr So Z) as (o' & w' & E & S' & O' & L & N1 & N2).
  exists o', w'. splits; auto; intros psi.
  - rewrite (predict_lin3 psi phi (vel o') (vel o) [] (keeps p) 0 (pushes p e)); [ring|]. intros i. rewrite N1. ring.
  - rewrite (predict_lin3 psi phi w' w (vel o') 1 (follows p) (moves p (norm2 phi) e)); [ring|]. intros i. rewrite N2. ring.
Qed.

Lemma construct_rule n p : linear_kind p -> same_rule p (construct n p) /\ forall phi, predict phi (vel (construct n p)) = 0.
Proof.
  destruct p; try contradiction; intros _; (split; [cbn; auto|]); intros phi; cbn [construct vel momentum_new mo_velocity];
    try apply predict_zeros; unfold predict; rewrite (sigma_ext _ _ (fun _ => 0 * 0));
    try (rewrite sigma_const; ring); intros [|i] _; unfold at_; cbn; ring.
Qed.

Section Gram.
  Context {I : Type} (p : hyper R) (b b' : Basis R I) (X : I -> Prop) (phi phi' : I -> Features R).

  Lemma evaluate_predict (bb : Basis R I) n psi (w : list R) (o : lib_opt R) x : gives_on bb n X psi -> length w = n -> X x ->
    s_evaluate (MkLFA bb w o) x = Ret (Ok (predict (psi x) w)).
  Proof.
    intros G L Xx. destruct (G x Xx) as [E Z]. unfold s_evaluate. cbn [lfa_basis lfa_weights]. rewrite E. cbn [obind rmap].
    rewrite dot_predict by (rewrite L; exact Z). reflexivity.
  Qed.

  (** What the two runs share. *)
  Definition in_step (n n' : nat) (a a' : ScalarLFA R I (lib_opt R)) : Prop :=
    lfa_basis a = b /\ lfa_basis a' = b' /\ length (lfa_weights a) = n /\ length (lfa_weights a') = n' /\
    same_rule p (lfa_optimiser a) /\ same_rule p (lfa_optimiser a') /\
    opt_sized n (lfa_optimiser a) /\ opt_sized n' (lfa_optimiser a') /\
    (forall x, X x -> predict (phi x) (lfa_weights a) = predict (phi' x) (lfa_weights a')) /\
    (forall x, X x -> predict (phi x) (vel (lfa_optimiser a)) = predict (phi' x) (vel (lfa_optimiser a'))).

  Context (n n' : nat) (G : gives_on b n X phi) (G' : gives_on b' n' X phi').
  Context (Gram : forall x y, X x -> X y -> inner (phi x) (phi y) = inner (phi' x) (phi' y)).

  Lemma in_step_update a a' x e : X x -> in_step n n' a a' ->
    exists a1 a1', s_update LibOptimiser a x e = Ret (a1, Ok tt) /\ s_update LibOptimiser a' x e = Ret (a1', Ok tt) /\ in_step n n' a1 a1'.
  Proof.
    intros Xx (B & B' & L & L' & R & R' & O & O' & Pw & Pv). destruct a as [ba w o], a' as [ba' w' o'].
    cbn [lfa_basis lfa_weights lfa_optimiser] in *. subst ba ba'. destruct (G x Xx) as [E Z], (G' x Xx) as [E' Z'].
    rewrite <- L in Z, O. rewrite <- L' in Z', O'.
    destruct (linear_effect p o w (phi x) e R O Z) as (o1 & w1 & S1 & R1 & O1 & L1 & V1 & W1).
    destruct (linear_effect p o' w' (phi' x) e R' O' Z') as (o1' & w1' & S1' & R1' & O1' & L1' & V1' & W1').
    exists (MkLFA b w1 o1), (MkLFA b' w1' o1'). unfold s_update. cbn [lfa_basis lfa_weights lfa_optimiser o_step_scaled LibOptimiser].
    rewrite E, E'. cbn [obind]. rewrite S1, S1'. cbn [obind with_state lfa_basis].
    splits; auto. unfold in_step. cbn [lfa_basis lfa_weights lfa_optimiser].
    assert (Vv : forall y, X y -> predict (phi y) (vel o1) = predict (phi' y) (vel o1')).
    { intros y Xy. rewrite V1, V1', (Pv y Xy), (Gram y x Xy Xx). reflexivity. }
    splits; auto; try congruence.
    intros y Xy. rewrite W1, W1', (Pw y Xy), (Vv y Xy), (Gram y x Xy Xx), <- !inner_self, (Gram x x Xx Xx). reflexivity.
  Qed.

  Lemma in_step_eval a a' x : X x -> in_step n n' a a' -> s_evaluate a x = s_evaluate a' x /\
    s_evaluate a x = Ret (Ok (predict (phi x) (lfa_weights a))).
  Proof.
    intros Xx (B & B' & L & L' & _ & _ & _ & _ & Pw & _). destruct a as [ba w o], a' as [ba' w' o'].
    cbn [lfa_basis lfa_weights lfa_optimiser] in *. subst ba ba'.
    rewrite (evaluate_predict b n phi w o x G L Xx), (evaluate_predict b' n' phi' w' o' x G' L' Xx), (Pw x Xx). auto.
  Qed.

  Lemma update_with_update (a : ScalarLFA R I (lib_opt R)) x f v psi : b_project (lfa_basis a) x = Ret (Ok psi) ->
    dot psi (lfa_weights a) = Ret v -> s_update_with LibOptimiser a x f = s_update LibOptimiser a x (f psi v).
  Proof. intros E D. unfold s_update_with, s_update. rewrite E. cbn [obind]. rewrite D. reflexivity. Qed.

  Lemma in_step_do a a' c : call_on X phi phi' c -> in_step n n' a a' ->
    exists a1 a1', s_do LibOptimiser a c = Ret a1 /\ s_do LibOptimiser a' c = Ret a1' /\ in_step n n' a1 a1'.
  Proof.
    intros Cx K. destruct c as [x|x e|x f]; cbn [call_on s_do] in *.
    - destruct (in_step_eval a a' x Cx K) as [E1 E2]. exists a, a'. rewrite <- E1, E2. auto.
    - destruct (in_step_update a a' x e Cx K) as (a1 & a1' & E & E' & K1). exists a1, a1'. unfold omap. rewrite E, E'. auto.
    - destruct Cx as [Xx Bl]. pose proof K as (B & B' & L & L' & _ & _ & _ & _ & Pw & _).
      destruct (G x Xx) as [E Z], (G' x Xx) as [E' Z'].
      rewrite (update_with_update a x f (predict (phi x) (lfa_weights a)) (phi x)); [|rewrite B; exact E|apply dot_predict; rewrite L; exact Z].
      rewrite (update_with_update a' x f (predict (phi' x) (lfa_weights a')) (phi' x)); [|rewrite B'; exact E'|apply dot_predict; rewrite L'; exact Z'].
      rewrite <- Bl, <- (Pw x Xx).
      destruct (in_step_update a a' x (f (phi x) (predict (phi x) (lfa_weights a))) Xx K) as (a1 & a1' & U & U' & K1).
      exists a1, a1'. unfold omap. rewrite U, U'. auto.
  Qed.

  Lemma in_step_run cs : Forall (call_on X phi phi') cs -> forall a a', in_step n n' a a' ->
    exists a1 a1', s_run LibOptimiser cs a = Ret a1 /\ s_run LibOptimiser cs a' = Ret a1' /\ in_step n n' a1 a1'.
  Proof.
    unfold s_run. induction 1 as [|c cs C _ IH]; intros a a' K.
    - exists a, a'. auto.
    - destruct (in_step_do a a' c C K) as (a1 & a1' & E & E' & K1). cbn [ofold]. rewrite E, E'. cbn [obind]. apply IH, K1.
  Qed.
End Gram.

(** The same inner products and initial predictions: the same evaluations for
    ever. *)
Theorem gram_same {I} p (b b' : Basis R I) X phi phi' w w' cs : linear_kind p ->
  gives_on b (length w) X phi -> gives_on b' (length w') X phi' ->
  (forall x y, X x -> X y -> inner (phi x) (phi y) = inner (phi' x) (phi' y)) ->
  (forall x, X x -> predict (phi x) w = predict (phi' x) w') ->
  Forall (call_on X phi phi') cs ->
  exists a a', s_run LibOptimiser cs (MkLFA b w (construct (length w) p)) = Ret a /\
    s_run LibOptimiser cs (MkLFA b' w' (construct (length w') p)) = Ret a' /\
    forall x, X x -> exists v, s_evaluate a x = Ret (Ok v) /\ s_evaluate a' x = Ret (Ok v).
Proof.
  intros Lk G G' Gr Pw Cs. destruct (construct_rule (length w) p Lk) as [R Z], (construct_rule (length w') p Lk) as [R' Z'].
  assert (K : in_step p b b' X phi phi' (length w) (length w') (MkLFA b w (construct (length w) p)) (MkLFA b' w' (construct (length w') p))).
  { unfold in_step. cbn [lfa_basis lfa_weights lfa_optimiser]. splits; auto using construct_sized. intros x _. rewrite Z, Z'. reflexivity. }
  destruct (in_step_run p b b' X phi phi' _ _ G G' Gr cs Cs _ _ K) as (a & a' & E & E' & K1).
  exists a, a'. splits; auto. intros x Xx. destruct (in_step_eval p b b' X phi phi' _ _ G G' a a' x Xx K1) as [Q1 Q2].
  exists (predict (phi x) (lfa_weights a)). rewrite <- Q1. auto.
Qed.

(** Two runs of at most one update tell inner products apart. *)
Lemma one_update {I} p (b : Basis R I) X phi w x y e : linear_kind p -> gives_on b (length w) X phi -> X x -> X y ->
  exists a, s_run LibOptimiser [SUpdate y e] (MkLFA b w (construct (length w) p)) = Ret a /\
    s_evaluate a x = Ret (Ok (predict (phi x) w +
      (follows p * pushes p e + moves p (norm2 (phi y)) e) * inner (phi x) (phi y))).
Proof.
  intros Lk G Xx Xy. destruct (construct_rule (length w) p Lk) as [R Z]. destruct (G y Xy) as [E Zy].
  destruct (linear_effect p _ w (phi y) e R (construct_sized _ p) Zy) as (o1 & w1 & S1 & R1 & O1 & L1 & V1 & W1).
  exists (MkLFA b w1 o1). unfold s_run. cbn [ofold s_do]. unfold omap, s_update. cbn [lfa_basis lfa_weights lfa_optimiser o_step_scaled LibOptimiser].
  rewrite E. cbn [obind]. rewrite S1. cbn [obind with_state lfa_basis fst]. split; [reflexivity|].
  rewrite (evaluate_predict X b (length w) phi w1 o1 x G L1 Xx), W1, V1, Z. do 2 f_equal. ring.
Qed.

Theorem gram_needed {I} p (b b' : Basis R I) X phi phi' w w' : linear_kind p -> 0 < rate_of p ->
  gives_on b (length w) X phi -> gives_on b' (length w') X phi' ->
  (forall cs a a' x, Forall (call_on X phi phi') cs ->
    s_run LibOptimiser cs (MkLFA b w (construct (length w) p)) = Ret a ->
    s_run LibOptimiser cs (MkLFA b' w' (construct (length w') p)) = Ret a' -> X x -> s_evaluate a x = s_evaluate a' x) ->
  (forall x, X x -> predict (phi x) w = predict (phi' x) w') /\
  (forall x y, X x -> X y -> inner (phi x) (phi y) = inner (phi' x) (phi' y)).
Proof.
  intros Lk Lr G G' H.
  assert (P0 : forall x, X x -> predict (phi x) w = predict (phi' x) w').
  { intros x Xx. pose proof (H [] _ _ x (Forall_nil _) eq_refl eq_refl Xx) as Q.
    rewrite (evaluate_predict X b (length w) phi w _ x G eq_refl Xx), (evaluate_predict X b' (length w') phi' w' _ x G' eq_refl Xx) in Q.
    injection Q as Q. exact Q. }
  split; [exact P0|].
  assert (Q : forall x y e, X x -> X y ->
    (follows p * pushes p e + moves p (norm2 (phi y)) e) * inner (phi x) (phi y) =
    (follows p * pushes p e + moves p (norm2 (phi' y)) e) * inner (phi' x) (phi' y)).
  { intros x y e Xx Xy. destruct (one_update p b X phi w x y e Lk G Xx Xy) as (a & E & V).
    destruct (one_update p b' X phi' w' x y e Lk G' Xx Xy) as (a' & E' & V').
    pose proof (H [SUpdate y e] a a' x ltac:(repeat constructor; exact Xy) E E' Xx) as Q. rewrite V, V' in Q. injection Q as Q.
    rewrite (P0 x Xx) in Q. lra. }
  assert (Nn : forall psi, 0 <= norm2 psi) by (intros psi; apply sigma_nonneg; intros i; apply Rle_0_sqr).
  destruct p as [lr|lr|m lr|m lr| | |]; try contradiction; cbn [rate_of follows pushes moves] in *; intros x y Xx Xy.
  - pose proof (Q x y 1 Xx Xy) as Q1. apply (Rmult_eq_reg_l lr); lra.
  - assert (Nq : norm2 (phi y) = norm2 (phi' y)).
    { pose proof (Q y y 1 Xy Xy) as Q1. rewrite !inner_self in Q1. pose proof (Nn (phi y)) as N1. pose proof (Nn (phi' y)) as N2.
      set (q := norm2 (phi y)) in *. set (q' := norm2 (phi' y)) in *.
      pose proof (Rmult_le_pos lr q ltac:(lra) N1). pose proof (Rmult_le_pos lr q' ltac:(lra) N2).
      assert (A : lr * q * (1 + lr * q') = lr * q' * (1 + lr * q)).
      { replace (lr * q * (1 + lr * q')) with ((0 * 0 + lr / (1 + lr * q) * 1) * q * ((1 + lr * q) * (1 + lr * q'))) by (field; lra).
        rewrite Q1. field. lra. }
      apply (Rmult_eq_reg_l lr); lra. }
    pose proof (Q x y 1 Xx Xy) as Q1. rewrite Nq in Q1. pose proof (Nn (phi' y)) as N2.
    pose proof (Rmult_le_pos lr _ ltac:(lra) N2). apply (Rmult_eq_reg_l (0 * 0 + lr / (1 + lr * norm2 (phi' y)) * 1)); [exact Q1|].
    assert (0 < lr / (1 + lr * norm2 (phi' y))) by (apply Rdiv_lt_0_compat; lra). lra.
  - pose proof (Q x y 1 Xx Xy) as Q1. apply (Rmult_eq_reg_l lr); lra.
  - pose proof (Q x y 1 Xx Xy) as Q1. pose proof (Q x y 0 Xx Xy) as Q0. apply (Rmult_eq_reg_l lr); lra.
Qed.

(** ** Combinations of what has been seen *)

(** [c1 * phi1 + c2 * phi2 + ...] at coordinate [i]. *)
Definition combined (cs : list (R * Features R)) (i : nat) : R :=
  rsum (map (fun cp => fst cp * coeff (snd cp) i) cs).

Lemma sum_cons x l : rsum (x :: l) = x + rsum l.
Proof. reflexivity. Qed.

Lemma combined_scal k cs i : combined (map (fun cp => (k * fst cp, snd cp)) cs) i = k * combined cs i.
Proof. unfold combined. induction cs as [|[c q] cs IH]; cbn [map fst snd]; [cbn; ring|]. rewrite !sum_cons, IH. ring. Qed.

Lemma combined_app cs ds i : combined (cs ++ ds) i = combined cs i + combined ds i.
Proof. unfold combined. rewrite map_app. induction (map _ cs) as [|x l IH]; cbn [app]; [cbn; ring|]. rewrite !sum_cons, IH. ring. Qed.

Lemma combined_one k q i : combined [(k, q)] i = k * coeff q i.
Proof. unfold combined. cbn. ring. Qed.

Lemma predict_combined psi w : forall cs u, (forall i, at_ u i = at_ w i + combined cs i) ->
  predict psi u = predict psi w + rsum (map (fun cp => fst cp * inner psi (snd cp)) cs).
Proof.
  intros cs u E. transitivity (sigma (size psi) (fun i => coeff psi i * (at_ w i + combined cs i))).
  { unfold predict. apply sigma_ext. intros i _. rewrite E. reflexivity. }
  clear E. induction cs as [|[c q] cs IH].
  - cbn. rewrite Rplus_0_r. unfold predict. apply sigma_ext. intros i _. unfold combined. cbn. ring.
  - cbn [map fst snd]. rewrite sum_cons. replace (predict psi w + (c * inner psi q + rsum (map (fun cp => fst cp * inner psi (snd cp)) cs)))
      with (predict psi w + rsum (map (fun cp => fst cp * inner psi (snd cp)) cs) + c * inner psi q) by ring.
    rewrite <- IH. unfold inner. rewrite <- sigma_scal, <- sigma_plus. apply sigma_ext. intros i _.
    unfold combined. cbn [map fst snd]. rewrite sum_cons. ring.
Qed.

Definition seen_in {I} (phi : I -> Features R) (xs : list I) (cs : list (R * Features R)) : Prop :=
  Forall (fun cp => exists x, In x xs /\ snd cp = phi x) cs.

Definition updated {I} (c : s_call R I) : list I :=
  match c with SEvaluate _ => [] | SUpdate x _ => [x] | SUpdateWith x _ => [x] end.

Theorem combinations {I} p (b : Basis R I) X phi w cs : linear_kind p -> gives_on b (length w) X phi ->
  Forall (call_on X phi phi) cs ->
  exists a ks, s_run LibOptimiser cs (MkLFA b w (construct (length w) p)) = Ret a /\ length (lfa_weights a) = length w /\
    seen_in phi (concat (map updated cs)) ks /\
    (forall i, at_ (lfa_weights a) i = at_ w i + combined ks i) /\
    forall x, X x -> s_evaluate a x =
      Ret (Ok (predict (phi x) w + rsum (map (fun cp => fst cp * inner (phi x) (snd cp)) ks))).
Proof.
  intros Lk G Cs.
  assert (Gen : forall cs o u, Forall (call_on X phi phi) cs -> same_rule p o -> opt_sized (length w) o -> length u = length w ->
    forall pre kw kv, seen_in phi pre kw -> seen_in phi pre kv -> (forall i, at_ u i = at_ w i + combined kw i) ->
    (forall i, at_ (vel o) i = combined kv i) ->
    exists a ks, s_run LibOptimiser cs (MkLFA b u o) = Ret a /\ lfa_basis a = b /\ length (lfa_weights a) = length w /\
      seen_in phi (pre ++ concat (map updated cs)) ks /\ forall i, at_ (lfa_weights a) i = at_ w i + combined ks i).
  { clear Cs cs. unfold s_run. induction cs as [|c cs IH]; intros o u Cs R O L pre kw kv Sw Sv Ew Ev.
    - exists (MkLFA b u o), kw. cbn [map concat]. rewrite app_nil_r. splits; auto.
    - inversion Cs as [|? ? C Cs']; subst.
      assert (Up : forall x e, X x -> exists a' ks, (let* a1 := omap fst (s_update LibOptimiser (MkLFA b u o) x e) in ofold (s_do LibOptimiser) cs a1) = Ret a' /\
        lfa_basis a' = b /\ length (lfa_weights a') = length w /\
        seen_in phi (pre ++ [x] ++ concat (map updated cs)) ks /\ forall i, at_ (lfa_weights a') i = at_ w i + combined ks i).
      { intros x e Xx. destruct (G x Xx) as [E Z]. rewrite <- L in Z, O.
        destruct (linear_step p o u (phi x) e R O Z) as (o1 & w1 & S1 & R1 & O1 & L1 & V1 & W1).
        unfold omap, s_update. cbn [lfa_basis lfa_weights lfa_optimiser o_step_scaled LibOptimiser]. rewrite E. cbn [obind]. rewrite S1.
        cbn [obind with_state lfa_basis fst].
        set (kv1 := map (fun cp => (keeps p * fst cp, snd cp)) kv ++ [(pushes p e, phi x)]).
        set (kw1 := kw ++ map (fun cp => (follows p * fst cp, snd cp)) kv1 ++ [(moves p (norm2 (phi x)) e, phi x)]).
        assert (Sx : forall k, seen_in phi (pre ++ [x]) [(k, phi x)]).
        { intros k. constructor; [|constructor]. exists x. split; [apply in_or_app; right; left; reflexivity|reflexivity]. }
        assert (Mo : forall l, seen_in phi pre l -> seen_in phi (pre ++ [x]) l).
        { intros l. apply Forall_impl. intros cp (z & Iz & Ez). exists z. split; auto. apply in_or_app; auto. }
        assert (Sc : forall pr k l, seen_in phi pr l -> seen_in phi pr (map (fun cp => (k * fst cp, snd cp)) l)).
        { intros pr k l Hl. apply Forall_map. exact Hl. }
        assert (Sv1 : seen_in phi (pre ++ [x]) kv1) by (apply Forall_app; split; [apply Mo, Sc, Sv|apply Sx]).
        assert (Ev1 : forall i, at_ (vel o1) i = combined kv1 i).
        { intros i. unfold kv1. rewrite V1, combined_app, combined_scal, Ev, combined_one. ring. }
        destruct (IH o1 w1 Cs' R1 ltac:(rewrite <- L; exact O1) ltac:(congruence) (pre ++ [x]) kw1 kv1) as (a' & ks & Run & Bb & La & Sk & Ek); auto.
        - apply Forall_app. split; [apply Mo, Sw|]. apply Forall_app. split; [apply Sc, Sv1|apply Sx].
        - intros i. unfold kw1. rewrite W1, Ew, !combined_app, combined_scal, Ev1, combined_one. ring.
        - exists a', ks. rewrite <- app_assoc in Sk. auto. }
      cbn [ofold map concat]. destruct c as [x|x e|x f]; cbn [call_on s_do updated] in *.
      + rewrite (evaluate_predict X b (length w) phi u o x G L C). cbn [omap obind app]. apply IH with kw kv; auto.
      + apply Up. exact C.
      + destruct C as [Xx _]. destruct (G x Xx) as [E Z].
        rewrite (update_with_update (MkLFA b u o) x f (predict (phi x) u) (phi x)); [|exact E|apply dot_predict; cbn [lfa_weights]; rewrite L; exact Z].
        apply Up. exact Xx. }
  destruct (construct_rule (length w) p Lk) as [R Z].
  destruct (Gen cs (construct (length w) p) w Cs R (construct_sized _ p) eq_refl [] [] []) as (a & ks & E & Bb & L & Sk & Ek);
    try (constructor); [intros i; unfold combined; cbn; ring| |].
  { intros i. destruct p; try contradiction; cbn [construct vel momentum_new mo_velocity]; unfold combined; cbn [map rsum];
      try (unfold at_; destruct i; reflexivity); unfold zeros, at_; rewrite fzero_R, nth_repeat; reflexivity. }
  exists a, ks. splits; auto. intros x Xx. destruct a as [ba wa oa]. cbn [lfa_basis lfa_weights] in *. subst ba.
  rewrite (evaluate_predict X b (length w) phi wa oa x G L Xx). do 2 f_equal. apply predict_combined, Ek.
Qed.

(** ** Rotated features *)

Lemma sigma_swap m n (f : nat -> nat -> R) :
  sigma m (fun k => sigma n (fun i => f k i)) = sigma n (fun i => sigma m (fun k => f k i)).
Proof.
  induction m as [|m IH].
  - unfold sigma at 1. cbn. rewrite (sigma_ext _ _ (fun _ => 0 * 0)); [rewrite sigma_const; ring|]. intros i _. unfold sigma. cbn. ring.
  - rewrite sigma_S, IH, <- sigma_plus. apply sigma_ext. intros i _. rewrite sigma_S. reflexivity.
Qed.

Lemma sigma_pick n i f : (i < n)%nat -> sigma n (fun j => f j * (if (i =? j)%nat then 1 else 0)) = f i.
Proof.
  induction n as [|n IH]; intros L; [lia|]. rewrite sigma_S. destruct (Nat.eq_dec i n) as [->|N].
  - rewrite Nat.eqb_refl, (sigma_ext _ _ (fun _ => 0 * 0)); [rewrite sigma_const; ring|].
    intros j Lj. rewrite (proj2 (Nat.eqb_neq n j)) by lia. ring.
  - rewrite IH by lia. rewrite (proj2 (Nat.eqb_neq i n)) by auto. ring.
Qed.

(** [m] rows of [n] numbers, whose columns are orthonormal. *)
Definition orthonormal (Q : nat -> nat -> R) (m n : nat) : Prop := forall i j, (i < n)%nat -> (j < n)%nat ->
  sigma m (fun k => Q k i * Q k j) = if (i =? j)%nat then 1 else 0.

Definition rotate (Q : nat -> nat -> R) (m n : nat) (f : nat -> R) : list R :=
  map (fun k => sigma n (fun i => Q k i * f i)) (seq 0 m).

Definition rotated {I} (Q : nat -> nat -> R) (m n : nat) (b : Basis R I) : Basis R I :=
  MkBasis m (fun x => let* r := b_project b x in rmap (fun p => Ret (Dense (rotate Q m n (coeff p)))) r).

Lemma rotate_length Q m n f : length (rotate Q m n f) = m.
Proof. unfold rotate. rewrite map_length, seq_length. reflexivity. Qed.

Lemma rotate_nth Q m n f k : (k < m)%nat -> nth k (rotate Q m n f) 0 = sigma n (fun i => Q k i * f i).
Proof.
  intros L. unfold rotate. rewrite (nth_indep _ 0 (sigma n (fun i => Q 0%nat i * f i))) by (rewrite map_length, seq_length; exact L).
  rewrite (map_nth (fun k => sigma n (fun i => Q k i * f i)) (seq 0 m) 0%nat k), seq_nth by exact L. reflexivity.
Qed.

Lemma rotate_inner Q m n f g : orthonormal Q m n ->
  sigma m (fun k => nth k (rotate Q m n f) 0 * nth k (rotate Q m n g) 0) = sigma n (fun i => f i * g i).
Proof.
  intros O. transitivity (sigma m (fun k => sigma n (fun i => sigma n (fun j => f i * g j * (Q k i * Q k j))))).
  { apply sigma_ext. intros k Lk. rewrite !rotate_nth by exact Lk. rewrite (Rmult_comm (sigma n (fun i => Q k i * f i))), <- sigma_scal.
    apply sigma_ext. intros i _. rewrite Rmult_comm, <- sigma_scal. apply sigma_ext. intros j _. ring. }
  rewrite sigma_swap. apply sigma_ext. intros i Li.
  rewrite sigma_swap, (sigma_ext _ _ (fun j => f i * g j * (if (i =? j)%nat then 1 else 0))).
  - apply (sigma_pick n i (fun j => f i * g j)). exact Li.
  - intros j Lj. rewrite sigma_scal, O by auto. reflexivity.
Qed.

Theorem rotation_same {I} p (b : Basis R I) X phi Q m w cs : linear_kind p -> gives_on b (length w) X phi ->
  orthonormal Q m (length w) ->
  Forall (call_on X phi (fun x => Dense (rotate Q m (length w) (coeff (phi x))))) cs ->
  exists a a', s_run LibOptimiser cs (MkLFA b w (construct (length w) p)) = Ret a /\
    s_run LibOptimiser cs (MkLFA (rotated Q m (length w) b) (rotate Q m (length w) (at_ w)) (construct m p)) = Ret a' /\
    forall x, X x -> exists v, s_evaluate a x = Ret (Ok v) /\ s_evaluate a' x = Ret (Ok v).
Proof.
  intros Lk G O Cs. replace (construct m p) with (construct (length (rotate Q m (length w) (at_ w))) p) by (rewrite rotate_length; reflexivity).
  apply (gram_same p b _ X phi (fun x => Dense (rotate Q m (length w) (coeff (phi x))))); auto.
  - intros x Xx. destruct (G x Xx) as [E Z]. rewrite rotate_length. cbn [rotated b_project]. rewrite E. cbn [obind rmap].
    split; [reflexivity|]. apply dense_sized_R, rotate_length.
  - intros x y Xx Xy. unfold inner. destruct (G x Xx) as [_ [_ Zx]]. rewrite Zx. cbn [size coeff]. rewrite rotate_length.
    symmetry. apply rotate_inner, O.
  - intros x Xx. unfold predict. destruct (G x Xx) as [_ [_ Zx]]. rewrite Zx. cbn [size coeff]. rewrite rotate_length.
    symmetry. unfold at_ at 1. apply (rotate_inner Q m (length w) (coeff (phi x)) (at_ w)), O.
Qed.

(** ** The adaptive optimisers *)

Definition betas_ok (p : hyper R) : Prop :=
  match p with HAdam _ b1 b2 => 0 <= b1 < 1 /\ 0 <= b2 < 1 | HAdaMax _ b1 b2 => 0 <= b1 < 1 /\ 0 <= b2 < 1 | _ => True end.

Definition table2 (f : bool -> list R) : Basis R bool := MkBasis 2 (fun x => Ret (Ok (Dense (f x)))).

(** Two orthogonal vectors of length 5, along the axes and turned. *)
Definition straight (x : bool) : list R := if x then [5; 0] else [0; 5].
Definition turned (x : bool) : list R := if x then [3; 4] else [-4; 3].

(** Adam's first move is Adagrad's up to two positive factors. *)
Lemma adaptive_first p : ~ linear_kind p -> 0 < rate_of p -> betas_ok p -> exists c k, 0 < c /\ 0 < k /\
  forall f x y, f true = [x; y] -> 0 <= x -> 0 <= y -> exists a,
    s_run LibOptimiser [SUpdate true 1] (MkLFA (table2 f) (zeros 2) (construct 2 p)) = Ret a /\
    forall i u v, f i = [u; v] ->
      s_evaluate a i = Ret (Ok (u * (c * x / (k * x + EPS)) + v * (c * y / (k * y + EPS)))).
Proof.
  assert (E0 : 0 < (EPS : R)) by (unfold EPS; cbn; lra).
  intros Nk Lr Bt. destruct p as [lr|lr|m lr|m lr|lr|lr b1 b2|lr b1 b2]; try (exfalso; apply Nk; exact I); cbn [rate_of betas_ok] in *.
  - exists lr, 1. splits; try lra. intros f x y Fx Hx Hy. eexists. split.
    + unfold s_run. cbn -[sqrt EPS]. rewrite Fx. cbn -[sqrt EPS]. reflexivity.
    + intros i u v Fi. cbn -[sqrt EPS]. rewrite Fi. cbn -[sqrt EPS]. rewrite fzero_R.
      assert (Sq : forall z, 0 <= z -> sqrt (0 + z * 1 * (z * 1 * 1)) = 1 * z).
      { intros z Hz. replace (0 + z * 1 * (z * 1 * 1)) with (z * z) by ring. rewrite sqrt_square by exact Hz. ring. }
      rewrite (Sq x Hx), (Sq y Hy). do 2 f_equal. field. lra.
  - destruct Bt as [B1 B2]. assert (S2 : 0 < sqrt (/ (1 + b2))) by (apply sqrt_lt_R0, Rinv_0_lt_compat; lra).
    exists (lr / (1 + b1)), (sqrt (/ (1 + b2))). splits; [apply Rdiv_lt_0_compat; lra|exact S2|].
    intros f x y Fx Hx Hy. eexists. split.
    + unfold s_run. cbn -[sqrt EPS]. rewrite Fx. cbn -[sqrt EPS]. reflexivity.
    + intros i u v Fi. cbn -[sqrt EPS]. rewrite Fi. cbn -[sqrt EPS]. rewrite fzero_R, fone_R.
      assert (Sq : forall z, 0 <= z -> sqrt ((b2 * 0 + (1 - b2) * (z * 1) * (z * 1)) / (1 - b2 * b2)) = sqrt (/ (1 + b2)) * z).
      { intros z Hz. replace ((b2 * 0 + (1 - b2) * (z * 1) * (z * 1)) / (1 - b2 * b2)) with (/ (1 + b2) * (z * z)).
        - rewrite sqrt_mult_alt by (apply Rlt_le, Rinv_0_lt_compat; lra). rewrite sqrt_square by exact Hz. reflexivity.
        - field. split; [|lra]. replace (1 - b2 * b2) with ((1 - b2) * (1 + b2)) by ring. apply Rmult_integral_contrapositive. split; lra. }
      assert (Mo : forall z, lr * ((b1 * 0 + (1 - b1) * (z * 1)) / (1 - b1 * b1)) = lr / (1 + b1) * z).
      { intros z. replace (1 - b1 * b1) with ((1 - b1) * (1 + b1)) by ring. field. lra. }
      rewrite (Sq x Hx), (Sq y Hy), (Mo x), (Mo y). do 2 f_equal. ring.
  - destruct Bt as [B1 B2]. exists (lr / (1 + b1)), 1. splits; [apply Rdiv_lt_0_compat; lra|lra|].
    intros f x y Fx Hx Hy. eexists. split.
    + unfold s_run. cbn -[sqrt EPS]. rewrite Fx. cbn -[sqrt EPS]. reflexivity.
    + intros i u v Fi. cbn -[sqrt EPS]. rewrite Fi. cbn -[sqrt EPS]. rewrite fzero_R, fone_R.
      assert (Sq : forall z, 0 <= z -> Rmax (b2 * 0) (Rabs (z * 1)) = 1 * z).
      { intros z Hz. rewrite Rmult_0_r, Rmult_1_r, Rabs_pos_eq, Rmax_right by lra. ring. }
      assert (Mo : forall z, lr * ((b1 * 0 + (1 - b1) * (z * 1)) / (1 - b1 * b1)) = lr / (1 + b1) * z).
      { intros z. replace (1 - b1 * b1) with ((1 - b1) * (1 + b1)) by ring. field. lra. }
      rewrite (Sq x Hx), (Sq y Hy), (Mo x), (Mo y). do 2 f_equal. ring.
Qed.

Lemma turned_gram x y : inner (Dense (straight x)) (Dense (straight y)) = inner (Dense (turned x)) (Dense (turned y)).
Proof. destruct x, y; unfold inner, sigma; cbn; ring. Qed.

Lemma turned_gives f : (forall x, length (f x) = 2%nat) -> gives_on (table2 f) 2 (fun _ => True) (fun x => Dense (f x)).
Proof. intros L x _. split; [reflexivity|]. apply dense_sized_R, L. Qed.

Theorem adaptive_turned p : ~ linear_kind p -> 0 < rate_of p -> betas_ok p ->
  exists a a' v v' u', s_run LibOptimiser [SUpdate true 1] (MkLFA (table2 straight) (zeros 2) (construct 2 p)) = Ret a /\
    s_run LibOptimiser [SUpdate true 1] (MkLFA (table2 turned) (zeros 2) (construct 2 p)) = Ret a' /\
    s_evaluate a true = Ret (Ok v) /\ s_evaluate a' true = Ret (Ok v') /\ v < v' /\
    s_evaluate a false = Ret (Ok 0) /\ s_evaluate a' false = Ret (Ok u') /\ u' < 0.
Proof.
  intros Nk Lr Bt. destruct (adaptive_first p Nk Lr Bt) as (c & k & Hc & Hk & First).
  assert (E0 : 0 < (EPS : R)) by (unfold EPS; cbn; lra). set (E := (EPS : R)) in *.
  destruct (First straight 5 0 eq_refl ltac:(lra) ltac:(lra)) as (a & Ra & Va).
  destruct (First turned 3 4 eq_refl ltac:(lra) ltac:(lra)) as (a' & Ra' & Va').
  exists a, a'. do 3 eexists. splits; [exact Ra|exact Ra'|exact (Va true 5 0 eq_refl)|exact (Va' true 3 4 eq_refl)| | |exact (Va' false (-4) 3 eq_refl)|].
  - assert (I3 : / (k * 5 + E) < / (k * 3 + E)) by (apply Rinv_lt_contravar; [apply Rmult_lt_0_compat|]; lra).
    assert (I4 : / (k * 5 + E) < / (k * 4 + E)) by (apply Rinv_lt_contravar; [apply Rmult_lt_0_compat|]; lra).
    pose proof (Rmult_lt_compat_l (9 * c) _ _ ltac:(lra) I3). pose proof (Rmult_lt_compat_l (16 * c) _ _ ltac:(lra) I4).
    unfold Rdiv. lra.
  - rewrite (Va false 0 5 eq_refl). do 2 f_equal. unfold Rdiv. ring.
  - assert (I4 : / (k * 4 + E) < / (k * 3 + E)) by (apply Rinv_lt_contravar; [apply Rmult_lt_0_compat|]; lra).
    pose proof (Rmult_lt_compat_l (12 * c) _ _ ltac:(lra) I4). unfold Rdiv. lra.
Qed.
