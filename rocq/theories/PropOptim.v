(** C31-C41: optimisers. Statements only; proofs are in OptimFacts.v,
    OptimReal.v, OptimAdam.v and OptimRepr.v. The vocabulary is in Spec.v and
    OptimSpec.v. *)
From Coq Require Import List Arith ZArith Lia Reals Lra.
From Verif Require Import Base Scalar ScalarR ScalarF64 HMap NdArray Features Spec FeatureFacts
  F64Facts Optim OptimSpec OptimFacts OptimReal OptimAdam OptimRepr.
Import ListNotations.
Local Open Scope R_scope.

(** Running example: three weights, a sparse and a dense gradient. *)
Definition ex_phi : Features R := Sparse (MkSparse 3 [(2%nat, 2); (0%nat, -1)]).
Definition ex_psi : Features R := Dense [1; 4; 1/2].
Definition ex_history : history R := [(ex_phi, 3); (ex_psi, -1)].

Example ex_phi_sized : sized 3 ex_phi.
Proof.
  split; auto. split.
  - simpl. repeat constructor; simpl; intuition discriminate.
  - intros i [v [E|[E|[]]]]; inversion E; subst; simpl; lia.
Qed.

Example ex_psi_sized : sized 3 ex_psi.
Proof. split; auto. split; [exact I|apply bounded_dense]. Qed.

Example ex_history_sized : well_sized 3 ex_history.
Proof. constructor; [apply ex_phi_sized|constructor; [apply ex_psi_sized|constructor]]. Qed.

(** ** C31 *)

Theorem C31_step_one_exact : forall (o : lib_opt R) w phi,
  lib_step o w phi = lib_step_scaled o w phi 1.
Proof.
  intros o w phi. rewrite <- fone_R. apply step_one. intros x. rewrite fone_R. apply Rmult_1_r.
Qed.
Print Assumptions C31_step_one_exact.

(** Bit for bit. *)
Theorem C31_step_one_f64 : forall P (o : lib_opt f64) w phi,
  @lib_step f64 (ScalarF64 P) o w phi = @lib_step_scaled f64 (ScalarF64 P) o w phi b_one.
Proof.
  intros P o w phi. rewrite <- (fone_f64 P). apply (@step_one f64 (ScalarF64 P)).
  intros x. rewrite fone_f64. apply b_mul_one_r.
Qed.
Print Assumptions C31_step_one_f64.

Example C31_case : exists w', lib_step (LSGD (1/2)) [1; 1; 1] ex_phi = Ret (LSGD (1/2), w', Ok tt) /\
  at_ w' 2 = 2.
Proof. eexists. split; [reflexivity|]. unfold at_. simpl. lra. Qed.

(** ** C32 *)

(** In every scalar type: exactly one addition per stored feature. *)
Theorem C32_sgd_touches : forall F `{Scalar F} lr w (phi : Features F) e, sized (length w) phi ->
  exists w', o_step_scaled SGD lr w phi e = Ret (lr, w', Ok tt) /\ length w' = length w /\
    forall i x, nth_error w i = Some x ->
      (forall v, stores phi i v -> nth_error w' i = Some (fadd x (fmul (fmul lr e) v))) /\
      (~ stored phi i -> nth_error w' i = Some x).
Proof.
  intros F S lr w phi e Z. destruct (sized_fits _ phi w Z eq_refl) as [K Fi].
  destruct (scaled_addto_spec phi (fmul lr e) w K Fi) as (w' & E & B).
  exists w'. simpl. unfold sgd_step_scaled. rewrite E. split; [reflexivity|exact B].
Qed.
Print Assumptions C32_sgd_touches.

Theorem C32_sgd_effect : forall lr (phi : Features R) e w, sized (length w) phi ->
  exists w', o_step_scaled SGD lr w phi e = Ret (lr, w', Ok tt) /\ length w' = length w /\
    (forall i, at_ w' i = at_ w i + lr * e * coeff phi i) /\
    dot phi w = Ret (predict phi w) /\
    dot phi w' = Ret (predict phi w + lr * e * norm2 phi) /\
    forall psi, sized (length w) psi -> inner psi phi = 0 -> dot psi w' = dot psi w.
Proof. exact sgd_step_effect. Qed.
Print Assumptions C32_sgd_effect.

(** [ex_phi] and [ex_psi] are orthogonal. *)
Example C32_case : inner ex_psi ex_phi = 0 /\ norm2 ex_phi = 5 /\ sized (length [1; 1; 1]) ex_phi.
Proof.
  split; [|split; [|apply ex_phi_sized]]; unfold inner, norm2, sigma; simpl; lra.
Qed.

(** ** C33 *)

Theorem C33_isgd_implicit : forall lr (phi : Features R) y w, sized (length w) phi ->
  1 + lr * norm2 phi <> 0 ->
  exists w', o_step_scaled ISGD lr w phi (y - predict phi w) = Ret (lr, w', Ok tt) /\
    length w' = length w /\ dot phi w = Ret (predict phi w) /\ dot phi w' = Ret (predict phi w') /\
    (forall i, at_ w' i = at_ w i + lr * (y - predict phi w') * coeff phi i) /\
    y - predict phi w' = (y - predict phi w) / (1 + lr * norm2 phi).
Proof. exact isgd_step_effect. Qed.
Print Assumptions C33_isgd_implicit.

Theorem C33_isgd_no_overshoot : forall lr (phi : Features R) y w, sized (length w) phi -> 0 <= lr ->
  exists w', o_step_scaled ISGD lr w phi (y - predict phi w) = Ret (lr, w', Ok tt) /\
    let before := y - predict phi w in
    let after := y - predict phi w' in
    Rabs after <= Rabs before /\ 0 <= after * before /\ (before <> 0 -> after <> 0).
Proof. exact isgd_no_overshoot. Qed.
Print Assumptions C33_isgd_no_overshoot.

(** SGD with the same step does overshoot: lr * ||phi||^2 = 5 here. *)
Example C33_case : 1 + 1 * norm2 ex_phi <> 0 /\
  exists w', o_step_scaled SGD 1 [0; 0; 0] ex_phi (1 - predict ex_phi [0; 0; 0]) = Ret (1, w', Ok tt) /\
    1 - predict ex_phi w' = -4.
Proof.
  split; [unfold norm2, sigma; simpl; lra|].
  eexists. split; [reflexivity|]. unfold predict, sigma. unfold at_. simpl. lra.
Qed.

(** ** C34 *)

Theorem C34_momentum_history : forall n h m lr w, well_sized n h -> length w = n ->
  exists s' w', train SGDMomentum h (momentum_new n m lr) w = Ret (s', w') /\
    mo_momentum s' = m /\ mo_lr s' = lr /\ length (mo_velocity s') = n /\ length w' = n /\
    forall i, (i < n)%nat ->
      at_ (mo_velocity s') i = discounted m (grads i h) /\
      at_ w' i = at_ w i + lr * prefix_sum (discounted m) (grads i h).
Proof. exact momentum_history. Qed.
Print Assumptions C34_momentum_history.

Theorem C34_momentum_zero : forall n h lr w, well_sized n h -> length w = n ->
  exists s' w', train SGDMomentum h (momentum_new n 0 lr) w = Ret (s', w') /\
    train SGD h lr w = Ret (lr, w').
Proof. exact momentum_zero. Qed.
Print Assumptions C34_momentum_zero.

(** Weight 0 sees gradients -3 and -1. *)
Example C34_case : grads 0 ex_history = [-1 * 3; 1 * -1] /\
  discounted (1/2) (grads 0 ex_history) = -5/2 /\
  prefix_sum (discounted (1/2)) (grads 0 ex_history) = -11/2.
Proof. unfold prefix_sum. simpl. split; [reflexivity|]. split; lra. Qed.

(** ** C35 *)

Theorem C35_nag_history : forall n h m lr w, well_sized n h -> length w = n ->
  exists s' w', train NAG h (momentum_new n m lr) w = Ret (s', w') /\
    mo_momentum s' = m /\ mo_lr s' = lr /\ length (mo_velocity s') = n /\ length w' = n /\
    forall i, (i < n)%nat ->
      at_ (mo_velocity s') i = discounted m (grads i h) /\
      at_ w' i = at_ w i + lr * prefix_sum (discounted m) (grads i h)
                 + m * rsum (map (fun p => coeff (fst p) i) h).
Proof. exact nag_history. Qed.
Print Assumptions C35_nag_history.

Theorem C35_nag_zero_is_sgd : forall n h lr w, well_sized n h -> length w = n ->
  exists s' w', train NAG h (momentum_new n 0 lr) w = Ret (s', w') /\
    train SGD h lr w = Ret (lr, w').
Proof. exact nag_zero. Qed.
Print Assumptions C35_nag_zero_is_sgd.

Theorem C35_nag_drift : forall n m lr (phi : Features R) w, sized n phi -> length w = n ->
  exists s' w', o_step_scaled NAG (momentum_new n m lr) w phi 0 = Ret (s', w', Ok tt) /\
    length w' = n /\ forall i, (i < n)%nat -> at_ w' i = at_ w i + m * coeff phi i.
Proof. exact nag_drift. Qed.
Print Assumptions C35_nag_drift.

(** "A step with zero error changes nothing" is false. *)
Theorem C35_zero_error_refuted : exists s w (phi : Features R) s' w',
  sized (length w) phi /\ s = momentum_new (length w) (9/10) (1/10) /\
  o_step_scaled NAG s w phi 0 = Ret (s', w', Ok tt) /\ w' <> w.
Proof.
  destruct (nag_drift 3 (9/10) (1/10) ex_phi [1; 1; 1] ex_phi_sized eq_refl) as (s' & w' & E & _ & N).
  exists (momentum_new 3 (9/10) (1/10)), [1; 1; 1], ex_phi, s', w'.
  split; [apply ex_phi_sized|]. split; [reflexivity|]. split; [exact E|].
  intros ->. specialize (N 2%nat ltac:(lia)). unfold at_ in N. simpl in N. lra.
Qed.
Print Assumptions C35_zero_error_refuted.

Example C35_case : well_sized 3 ex_history /\ rsum (map (fun p => coeff (fst p) 2) ex_history) = 5/2.
Proof. split; [apply ex_history_sized|]. simpl. lra. Qed.

(** ** C36 *)

Theorem C36_adagrad_history : forall n h lr w, well_sized n h -> length w = n ->
  exists s' w', train Adagrad h (adagrad_new n lr) w = Ret (s', w') /\
    ag_lr s' = lr /\ length (ag_acc s') = n /\ length w' = n /\
    forall i, (i < n)%nat ->
      at_ (ag_acc s') i = rsum (map (fun g => g * g) (grads i h)) /\
      at_ w' i = at_ w i +
        prefix_sum (fun gs => lr * last gs 0 /
          (sqrt (rsum (map (fun g => g * g) gs)) + 1 / 10000000)) (grads i h).
Proof. exact adagrad_history. Qed.
Print Assumptions C36_adagrad_history.

Theorem C36_adagrad_step_bound : forall s w (phi : Features R) e, sized (length w) phi ->
  length (ag_acc s) = length w -> 0 <= ag_lr s -> (forall i, 0 <= at_ (ag_acc s) i) ->
  exists s' w', o_step_scaled Adagrad s w phi e = Ret (s', w', Ok tt) /\
    forall i, (i < length w)%nat ->
      at_ (ag_acc s) i <= at_ (ag_acc s') i /\
      Rabs (at_ w' i - at_ w i) <= ag_lr s /\
      0 <= (at_ w' i - at_ w i) * (coeff phi i * e).
Proof. exact adagrad_step_bound. Qed.
Print Assumptions C36_adagrad_step_bound.

Example C36_case : rsum (map (fun g => g * g) (grads 2 ex_history)) = 145/4 /\
  sized (length [1; 1; 1]) ex_phi /\ forall i, 0 <= at_ [1; 0; 4] i.
Proof.
  split; [simpl; lra|]. split; [apply ex_phi_sized|].
  intros [|[|[|[|i]]]]; unfold at_; simpl; lra.
Qed.

(** ** C37 *)

(** Step [t = length h] divides by 1 - beta^(t+1). *)
Theorem C37_adam_history : forall n h lr b1 b2 w, well_sized n h -> length w = n ->
  exists s' w', train Adam h (adam_new n lr b1 b2) w = Ret (s', w') /\
    ad_lr s' = lr /\ ad_beta1 s' = b1 /\ ad_beta2 s' = b2 /\
    ad_beta1_prod s' = b1 ^ S (length h) /\ ad_beta2_prod s' = b2 ^ S (length h) /\
    length (ad_exp_avg s') = n /\ length (ad_exp_avg_sq s') = n /\ length w' = n /\
    forall i, (i < n)%nat ->
      at_ (ad_exp_avg s') i = (1 - b1) * discounted b1 (grads i h) /\
      at_ (ad_exp_avg_sq s') i = (1 - b2) * discounted b2 (map (fun g => g * g) (grads i h)) /\
      at_ w' i = at_ w i + prefix_sum (fun hk =>
        if last_writes i hk then
          lr * ((1 - b1) * discounted b1 (grads i hk) / (1 - b1 ^ S (length hk))) /
          (sqrt ((1 - b2) * discounted b2 (map (fun g => g * g) (grads i hk)) /
                 (1 - b2 ^ S (length hk))) + 1 / 10000000)
        else 0) h.
Proof. exact adam_history. Qed.
Print Assumptions C37_adam_history.

Theorem C37_second_moment_nonneg : forall n h lr b1 b2 w s' w', 0 <= b2 <= 1 ->
  well_sized n h -> length w = n -> train Adam h (adam_new n lr b1 b2) w = Ret (s', w') ->
  forall i, (i < n)%nat -> 0 <= at_ (ad_exp_avg_sq s') i.
Proof.
  intros n h lr b1 b2 w s' w' B Wh L E i Li.
  destruct (adam_history n h lr b1 b2 w Wh L) as (s2 & w2 & E2 & _ & _ & _ & _ & _ & _ & _ & _ & N).
  rewrite E2 in E. inversion E; subst. destruct (N i Li) as (_ & Q & _). rewrite Q.
  apply moment2_nonneg, B.
Qed.
Print Assumptions C37_second_moment_nonneg.

(** Under a constant gradient the corrected first moment falls short of [g];
    the textbook correction by 1 - beta^t would give [g]. *)
Theorem C37_constant_gradient : forall n h lr b1 b2 w s' w' i g, 0 < b1 < 1 -> g <> 0 -> h <> [] ->
  well_sized n h -> length w = n -> (i < n)%nat -> (forall x, In x (grads i h) -> x = g) ->
  train Adam h (adam_new n lr b1 b2) w = Ret (s', w') ->
  let t := length h in
  at_ (ad_exp_avg s') i / (1 - ad_beta1_prod s') = g * ((1 - b1 ^ t) / (1 - b1 ^ S t)) /\
  at_ (ad_exp_avg s') i / (1 - ad_beta1_prod s') <> g /\
  at_ (ad_exp_avg s') i / (1 - b1 ^ t) = g.
Proof.
  intros n h lr b1 b2 w s' w' i g B G NE Wh L Li C E t.
  destruct (adam_history n h lr b1 b2 w Wh L) as (s2 & w2 & E2 & _ & _ & _ & P1 & _ & _ & _ & _ & N).
  rewrite E2 in E. inversion E; subst. destruct (N i Li) as (Q & _). rewrite Q, P1.
  unfold t. rewrite <- (grads_length i h).
  assert (NE' : grads i h <> []) by (destruct h; simpl; congruence).
  rewrite (corrected_constant b1 g _ C). repeat split.
  - intros X. assert (S := correction_short b1 (length (grads i h)) B).
    rewrite <- (Rmult_1_r g) in X at 2. apply Rmult_eq_reg_l in X; auto. lra.
  - apply textbook_correction; auto. lra.
Qed.
Print Assumptions C37_constant_gradient.

Example C37_case : let h := [(Dense [2; 1], 1); (Dense [2; 5], 1)] in
  (forall x, In x (grads 0 h) -> x = 2) /\ last_writes 0 h = true /\
  moment1 (9/10) (grads 0 h) = 38/100.
Proof.
  simpl. split; [intros x [E|[E|[]]]; lra|]. split; auto. unfold moment1. simpl. lra.
Qed.

(** ** C38 *)

Theorem C38_adamax_history : forall n h lr b1 b2 w, 0 <= b2 -> well_sized n h -> length w = n ->
  exists s' w', train AdaMax h (adamax_new n lr b1 b2) w = Ret (s', w') /\
    am_lr s' = lr /\ am_beta1 s' = b1 /\ am_beta2 s' = b2 /\
    am_beta1_prod s' = b1 ^ S (length h) /\
    length (am_exp_avg s') = n /\ length (am_exp_inf s') = n /\ length w' = n /\
    forall i, (i < n)%nat ->
      at_ (am_exp_avg s') i = (1 - b1) * discounted b1 (grads i h) /\
      at_ (am_exp_inf s') i = peak b2 (grads i h) /\
      at_ w' i = at_ w i + prefix_sum (fun hk =>
        if last_writes i hk then
          lr * ((1 - b1) * discounted b1 (grads i hk) / (1 - b1 ^ S (length hk))) /
          (peak b2 (grads i hk) + 1 / 10000000)
        else 0) h.
Proof. exact adamax_history. Qed.
Print Assumptions C38_adamax_history.

Theorem C38_infinity_norm : forall n h lr b1 b2 w s' w' i, 0 <= b2 -> h <> [] ->
  well_sized n h -> length w = n -> (i < n)%nat ->
  train AdaMax h (adamax_new n lr b1 b2) w = Ret (s', w') ->
  let u := at_ (am_exp_inf s') i in
  (forall k g, nth_error (grads i h) k = Some g -> b2 ^ (length h - 1 - k) * Rabs g <= u) /\
  (exists k g, nth_error (grads i h) k = Some g /\ u = b2 ^ (length h - 1 - k) * Rabs g).
Proof.
  intros n h lr b1 b2 w s' w' i B NE Wh L Li E u.
  destruct (adamax_history n h lr b1 b2 w B Wh L) as (s2 & w2 & E2 & _ & _ & _ & _ & _ & _ & _ & N).
  rewrite E2 in E. inversion E; subst s2 w2. destruct (N i Li) as (_ & Q & _).
  unfold u. rewrite Q, <- (grads_length i h). split.
  - apply peak_dominates.
  - apply peak_attained; auto. destruct h; simpl; congruence.
Qed.
Print Assumptions C38_infinity_norm.

Example C38_case : peak (1/2) (grads 2 ex_history) = 3.
Proof.
  simpl. unfold Rmax, Rabs.
  repeat match goal with |- context [Rle_dec ?a ?b] => destruct (Rle_dec a b) end;
  repeat match goal with |- context [Rcase_abs ?a] => destruct (Rcase_abs a) end;
  repeat match goal with H : context [Rcase_abs ?a] |- _ => destruct (Rcase_abs a) end; lra.
Qed.

(** ** C39 *)

Theorem C39_reset_is_fresh : forall n p h w o' w', plain p -> well_sized n h -> length w = n ->
  train LibOptimiser h (construct n p) w = Ret (o', w') -> o_reset LibOptimiser o' = construct n p.
Proof. exact reset_plain. Qed.
Print Assumptions C39_reset_is_fresh.

(** For every scalar type, in particular f64. *)
Theorem C39_reset_any_scalar : forall F `{Scalar F} n p h w o' w', well_sized n h -> length w = n ->
  train LibOptimiser h (construct n p) w = Ret (o', w') ->
  match p with
  | HAdam lr b1 b2 => exists p1 p2,
      o_reset LibOptimiser o' = LAdam (MkAdam b1 p1 b2 p2 lr (zeros n) (zeros n))
  | HAdaMax lr b1 b2 => exists p1,
      o_reset LibOptimiser o' = LAdaMax (MkAdaMax b1 p1 b2 lr (zeros n) (zeros n))
  | _ => o_reset LibOptimiser o' = construct n p
  end.
Proof.
  intros F S n p h w o' w' Wh L E. pose proof (reset_after_training n p h w o' w' Wh L E) as R.
  destruct p; simpl in *; eauto.
Qed.
Print Assumptions C39_reset_any_scalar.

(** Adam and AdaMax keep their beta products, beta^(t+1) after t steps. *)
Theorem C39_reset_adam : forall n lr b1 b2 h w o' w', well_sized n h -> length w = n ->
  train LibOptimiser h (LAdam (adam_new n lr b1 b2)) w = Ret (o', w') ->
  o_reset LibOptimiser o' =
    LAdam (MkAdam b1 (b1 ^ S (length h)) b2 (b2 ^ S (length h)) lr (zeros n) (zeros n)).
Proof. exact reset_adam. Qed.
Print Assumptions C39_reset_adam.

Theorem C39_reset_adamax : forall n lr b1 b2 h w o' w', well_sized n h -> length w = n ->
  train LibOptimiser h (LAdaMax (adamax_new n lr b1 b2)) w = Ret (o', w') ->
  o_reset LibOptimiser o' = LAdaMax (MkAdaMax b1 (b1 ^ S (length h)) b2 lr (zeros n) (zeros n)).
Proof. exact reset_adamax. Qed.
Print Assumptions C39_reset_adamax.

Theorem C39_adamax_reset_differs : forall n lr b1 b2 h w0 o1 w1 (phi : Features R) e w i,
  0 < b1 < 1 -> lr <> 0 -> h <> [] -> well_sized n h -> length w0 = n ->
  train LibOptimiser h (LAdaMax (adamax_new n lr b1 b2)) w0 = Ret (o1, w1) ->
  sized n phi -> length w = n -> coeff phi i * e <> 0 ->
  exists oa wa ob wb,
    o_step_scaled LibOptimiser (o_reset LibOptimiser o1) w phi e = Ret (oa, wa, Ok tt) /\
    o_step_scaled LibOptimiser (LAdaMax (adamax_new n lr b1 b2)) w phi e = Ret (ob, wb, Ok tt) /\
    at_ wa i <> at_ wb i.
Proof. exact adamax_reset_differs. Qed.
Print Assumptions C39_adamax_reset_differs.

Theorem C39_adam_reset_differs : forall n lr b h w0 o1 w1 (phi : Features R) e w i,
  0 < b < 1 -> lr <> 0 -> h <> [] -> well_sized n h -> length w0 = n ->
  train LibOptimiser h (LAdam (adam_new n lr b b)) w0 = Ret (o1, w1) ->
  sized n phi -> length w = n -> coeff phi i * e = 1 ->
  exists oa wa ob wb,
    o_step_scaled LibOptimiser (o_reset LibOptimiser o1) w phi e = Ret (oa, wa, Ok tt) /\
    o_step_scaled LibOptimiser (LAdam (adam_new n lr b b)) w phi e = Ret (ob, wb, Ok tt) /\
    at_ wa i <> at_ wb i.
Proof. exact adam_reset_differs. Qed.
Print Assumptions C39_adam_reset_differs.

Example C39_case : exists o1 w1,
  train LibOptimiser ex_history (LAdaMax (adamax_new 3 (1/10) (9/10) (99/100))) [0; 0; 0] = Ret (o1, w1) /\
  ex_history <> [] /\ coeff ex_psi 1 * 1 <> 0 /\ coeff ex_psi 0 * 1 = 1.
Proof.
  destruct (lib_train_ok 3 ex_history (LAdaMax (adamax_new 3 (1/10) (9/10) (99/100))) [0; 0; 0])
    as (o1 & w1 & E & _); auto using ex_history_sized.
  { apply (construct_sized 3 (HAdaMax (1/10) (9/10) (99/100))). }
  exists o1, w1. simpl coeff. repeat split; auto; try discriminate; lra.
Qed.

(** ** C40 *)

Theorem C40_same_weights : forall n p h h' w, plain p -> well_sized n h -> well_sized n h' ->
  same_content h h' -> length w = n ->
  exists o w', train LibOptimiser h (construct n p) w = Ret (o, w') /\
    train LibOptimiser h' (construct n p) w = Ret (o, w').
Proof. exact repr_independent. Qed.
Print Assumptions C40_same_weights.

(** The expansion of a feature vector has the same content. *)
Theorem C40_expansion_content : forall (phi : Features R) l, wf phi -> expands phi l ->
  forall i, coeff phi i = coeff (Dense l) i.
Proof. intros phi l W X i. symmetry. exact (coeff_expands phi l i W X). Qed.
Print Assumptions C40_expansion_content.

Theorem C40_adam_moments : forall n h h' lr b1 b2 w, well_sized n h -> well_sized n h' ->
  same_content h h' -> length w = n ->
  exists s w1 w2, train Adam h (adam_new n lr b1 b2) w = Ret (s, w1) /\
    train Adam h' (adam_new n lr b1 b2) w = Ret (s, w2).
Proof. exact adam_moments_independent. Qed.
Print Assumptions C40_adam_moments.

Theorem C40_adamax_moments : forall n h h' lr b1 b2 w, 0 <= b2 -> well_sized n h -> well_sized n h' ->
  same_content h h' -> length w = n ->
  exists s w1 w2, train AdaMax h (adamax_new n lr b1 b2) w = Ret (s, w1) /\
    train AdaMax h' (adamax_new n lr b1 b2) w = Ret (s, w2).
Proof. exact adamax_moments_independent. Qed.
Print Assumptions C40_adamax_moments.

Theorem C40_adam_frozen : forall F `{Scalar F} s w (phi : Features F) sf, sized (length w) phi ->
  length (ad_exp_avg s) = length w -> length (ad_exp_avg_sq s) = length w ->
  exists s' w', o_step_scaled Adam s w phi sf = Ret (s', w', Ok tt) /\
    forall i, ~ stored phi i -> nth_error w' i = nth_error w i.
Proof. exact @adam_sparse_frozen. Qed.
Print Assumptions C40_adam_frozen.

Theorem C40_adamax_frozen : forall F `{Scalar F} s w (phi : Features F) sf, sized (length w) phi ->
  length (am_exp_avg s) = length w -> length (am_exp_inf s) = length w ->
  exists s' w', o_step_scaled AdaMax s w phi sf = Ret (s', w', Ok tt) /\
    forall i, ~ stored phi i -> nth_error w' i = nth_error w i.
Proof. exact @adamax_sparse_frozen. Qed.
Print Assumptions C40_adamax_frozen.

Theorem C40_adam_weights_refuted : exists h h' : history R,
  well_sized 2 h /\ well_sized 2 h' /\ same_content h h' /\
  exists s s' w w', train Adam h (adam_new 2 1 (1/2) (1/2)) [0; 0] = Ret (s, w) /\
    train Adam h' (adam_new 2 1 (1/2) (1/2)) [0; 0] = Ret (s', w') /\ w <> w'.
Proof. exact adam_repr_refuted. Qed.
Print Assumptions C40_adam_weights_refuted.

Theorem C40_adamax_weights_refuted : exists h h' : history R,
  well_sized 2 h /\ well_sized 2 h' /\ same_content h h' /\
  exists s s' w w', train AdaMax h (adamax_new 2 1 (1/2) (1/2)) [0; 0] = Ret (s, w) /\
    train AdaMax h' (adamax_new 2 1 (1/2) (1/2)) [0; 0] = Ret (s', w') /\ w <> w'.
Proof. exact adamax_repr_refuted. Qed.
Print Assumptions C40_adamax_weights_refuted.

Example C40_case : well_sized 2 ex_sparse_h /\ well_sized 2 ex_dense_h /\
  same_content ex_sparse_h ex_dense_h /\ plain (HNAG (1/2) (1/10)).
Proof. auto using ex_sparse_sized, ex_dense_sized, ex_same_content. split; [|split; [|split]]; auto using ex_sparse_sized, ex_dense_sized, ex_same_content. exact I. Qed.

(** ** C41 *)

Theorem C41_step_scaled_ok : forall F `{Scalar F} n o w (phi : Features F) sf,
  sized n phi -> length w = n -> opt_sized n o ->
  exists o' w', o_step_scaled LibOptimiser o w phi sf = Ret (o', w', Ok tt) /\
    length w' = n /\ opt_sized n o'.
Proof. exact @lib_step_scaled_ok. Qed.
Print Assumptions C41_step_scaled_ok.

Theorem C41_step_ok : forall F `{Scalar F} n o w (phi : Features F),
  sized n phi -> length w = n -> opt_sized n o ->
  exists o' w', o_step LibOptimiser o w phi = Ret (o', w', Ok tt) /\
    length w' = n /\ opt_sized n o'.
Proof. exact @lib_step_ok. Qed.
Print Assumptions C41_step_ok.

Theorem C41_training_ok : forall F `{Scalar F} n (p : hyper F) h w, well_sized n h -> length w = n ->
  exists o' w', train LibOptimiser h (construct n p) w = Ret (o', w') /\
    length w' = n /\ opt_sized n o'.
Proof. intros F S n p h w Wh L. apply lib_train_ok; auto. apply construct_sized. Qed.
Print Assumptions C41_training_ok.

Example C41_case : sized 3 ex_phi /\ opt_sized 3 (LAdam (adam_new 3 1 (1/2) (1/2))) /\
  o_step_scaled LibOptimiser (LSGD 1) [0; 0] ex_phi 1 = Panic.
Proof. split; [apply ex_phi_sized|]. split; [split; reflexivity|]. reflexivity. Qed.
