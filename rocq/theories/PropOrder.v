(** C98: when the order of the samples matters. Proofs are in SampleOrder.v.

    [fit_call (x, y)] is [update_with] by the residual, target minus prediction;
    [give_call (x, e)] is [update] by the error [e]; [accepted b n (x, _)]: the
    basis takes [x] to [n] features; [apart_calls b c c']: the inputs of both
    calls have sparse features and no index is stored by both. *)
From Coq Require Import List Arith ZArith Lia Permutation Reals Lra.
From Flocq Require Import IEEE754.BinarySingleNaN.
From Verif Require Import Base Scalar ScalarR ScalarF64 HMap NdArray VecFacts Features Spec FeatureFacts
  Optim OptimSpec OptimFacts OptimReal Lfa LfaSpec LfaFacts LfaReal AdagradFit SampleOrder.
Import ListNotations.

(** ** C98 *)

(** Updates on features that share no index may be made in any order: the
    approximators are equal bit for bit, whatever the scalar type, the error
    functions and the weights, and one order panics exactly if the other does. *)
Theorem C98_disjoint : forall F `{Scalar F} I (b : Basis F I) lr cs cs' w,
  Permutation cs cs' -> Forall updates cs -> ForallOrdPairs (apart_calls b) cs ->
  s_run SGD cs (MkLFA b w lr) = s_run SGD cs' (MkLFA b w lr) /\
  s_run ISGD cs (MkLFA b w lr) = s_run ISGD cs' (MkLFA b w lr).
Proof.
  intros F S I b lr cs cs' w Pm U A. split; [eapply apart_permuted; eauto; apply sgd_adds|eapply apart_permuted; eauto; apply isgd_adds].
Qed.
Print Assumptions C98_disjoint.

Local Open Scope R_scope.

(** Over the reals, when the errors are given, every order leads to the same
    weights. *)
Theorem C98_given : forall I (b : Basis R I) lr h h' w, Permutation h h' -> Forall (accepted b (length w)) h ->
  s_run SGD (map give_call h) (MkLFA b w lr) = s_run SGD (map give_call h') (MkLFA b w lr) /\
  s_run ISGD (map give_call h) (MkLFA b w lr) = s_run ISGD (map give_call h') (MkLFA b w lr).
Proof.
  intros I b lr h h' w Pm A. split; [eapply given_permuted; eauto; apply sgd_rule|eapply given_permuted; eauto; apply isgd_rule].
Qed.
Print Assumptions C98_given.

(** When the errors are the residuals, the order of pairwise orthogonal samples
    does not matter. *)
Theorem C98_orthogonal : forall I (b : Basis R I) lr h h' w, Permutation h h' -> Forall (accepted b (length w)) h ->
  ForallOrdPairs (orthogonal b) h ->
  s_run SGD (map fit_call h) (MkLFA b w lr) = s_run SGD (map fit_call h') (MkLFA b w lr) /\
  s_run ISGD (map fit_call h) (MkLFA b w lr) = s_run ISGD (map fit_call h') (MkLFA b w lr).
Proof.
  intros I b lr h h' w Pm A O. split; [eapply orthogonal_permuted; eauto; apply sgd_rule|eapply orthogonal_permuted; eauto; apply isgd_rule].
Qed.
Print Assumptions C98_orthogonal.

(** Of two samples the order matters exactly if the rate is not 0, their features
    are not orthogonal, and these are not in the proportion of the residuals. *)
Theorem C98_pair : forall I (b : Basis R I) lr w x y x' y' phi psi,
  b_project b x = Ret (Ok phi) -> b_project b x' = Ret (Ok psi) -> sized (length w) phi -> sized (length w) psi ->
  (s_run SGD [fit_call (x, y); fit_call (x', y')] (MkLFA b w lr) =
     s_run SGD [fit_call (x', y'); fit_call (x, y)] (MkLFA b w lr) <->
   lr = 0 \/ inner phi psi = 0 \/
   forall i, (y' - predict psi w) * coeff phi i = (y - predict phi w) * coeff psi i).
Proof.
  intros I b lr w x y x' y' phi psi P P' Z Z'.
  pose proof (pair_iff SGD lr _ (sgd_rule lr) b w x y x' y' phi psi P P' Z Z') as E. cbv beta in E. rewrite E. tauto.
Qed.
Print Assumptions C98_pair.

Theorem C98_pair_isgd : forall I (b : Basis R I) lr w x y x' y' phi psi, 0 <= lr ->
  b_project b x = Ret (Ok phi) -> b_project b x' = Ret (Ok psi) -> sized (length w) phi -> sized (length w) psi ->
  (s_run ISGD [fit_call (x, y); fit_call (x', y')] (MkLFA b w lr) =
     s_run ISGD [fit_call (x', y'); fit_call (x, y)] (MkLFA b w lr) <->
   lr = 0 \/ inner phi psi = 0 \/
   forall i, (y' - predict psi w) * coeff phi i = (y - predict phi w) * coeff psi i).
Proof.
  intros I b lr w x y x' y' phi psi P0 P P' Z Z'.
  pose proof (pair_iff ISGD lr _ (isgd_rule lr) b w x y x' y' phi psi P P' Z Z') as E. cbv beta in E. rewrite E.
  assert (C : forall f, lr / (1 + lr * norm2 f) = 0 <-> lr = 0).
  { intros f. assert (0 <= lr * norm2 f) by (apply Rmult_le_pos; [exact P0|apply norm2_nonneg]). unfold Rdiv. split; intros X.
    - apply Rmult_integral in X. destruct X as [|X]; auto. assert (/ (1 + lr * norm2 f) <> 0) by (apply Rinv_neq_0_compat; lra). contradiction.
    - rewrite X. ring. }
  rewrite !C. tauto.
Qed.
Print Assumptions C98_pair_isgd.

(** Momentum minds the order even when the errors are given, unless the two
    gradients are the same. *)
Theorem C98_momentum : forall m lr v w phi psi e e',
  sized (length w) phi -> sized (length w) psi -> length v = length w ->
  exists v1 w1 v2 w2,
    train SGDMomentum [(phi, e); (psi, e')] (MkMomentum m lr v) w = Ret (MkMomentum m lr v1, w1) /\
    train SGDMomentum [(psi, e'); (phi, e)] (MkMomentum m lr v) w = Ret (MkMomentum m lr v2, w2) /\
    (w1 = w2 <-> lr * m = 0 \/ forall i, e * coeff phi i = e' * coeff psi i).
Proof. exact momentum_orders. Qed.
Print Assumptions C98_momentum.

(** Adagrad's accumulator does not depend on the order of given errors; its
    weights do. *)
Theorem C98_adagrad : forall lr h h' acc w, Permutation h h' -> well_sized (length w) h -> length acc = length w ->
  exists acc' w1 w2, train Adagrad h (MkAdagrad lr acc) w = Ret (MkAdagrad lr acc', w1) /\
    train Adagrad h' (MkAdagrad lr acc) w = Ret (MkAdagrad lr acc', w2).
Proof. exact adagrad_acc_permuted. Qed.
Print Assumptions C98_adagrad.

Theorem C98_adagrad_refuted : exists (h h' : history R) s s' w w', Permutation h h' /\ well_sized 1 h /\
  train Adagrad h (adagrad_new 1 1) [0] = Ret (s, w) /\ train Adagrad h' (adagrad_new 1 1) [0] = Ret (s', w') /\ w <> w'.
Proof.
  assert (Z : sized 1 (Dense [1])) by (split; [apply wf_dense|reflexivity]).
  assert (T : forall e e' s, 0 < e -> s * s = e * e + e' * e' -> 0 < s -> exists a w,
    train Adagrad [(Dense [1], e); (Dense [1], e')] (adagrad_new 1 1) [0] = Ret (a, w) /\
    at_ w 0 = e / (e + 1 / 10000000) + e' / (s + 1 / 10000000)).
  { intros e e' s P0 Q Ps.
    destruct (adagrad_R 1 [0] [0] (Dense [1]) e Z eq_refl) as (a1 & w1 & E1 & L1 & L2 & N1 & M1).
    destruct (adagrad_R 1 a1 w1 (Dense [1]) e') as (a2 & w2 & E2 & L3 & L4 & N2 & M2); [rewrite L2; exact Z|congruence|].
    exists (MkAdagrad 1 a2), w2. split.
    - unfold adagrad_new. unfold zeros; cbn [repeat]. rewrite fzero_R. cbn [train]. rewrite E1, E2. reflexivity.
    - assert (A1 : at_ a1 0 = e * e) by (rewrite N1; unfold at_, coeff; cbn; ring).
      assert (A2 : at_ a2 0 = s * s) by (rewrite N2, A1, Q; unfold coeff; cbn; ring).
      rewrite M2, M1, A1, A2, !sqrt_square by lra. unfold at_, coeff. cbn [nth]. unfold Rdiv. ring. }
  destruct (T 3 4 5) as (a & w & E & V); [lra|lra|lra|]. destruct (T 4 3 5) as (a' & w' & E' & V'); [lra|lra|lra|].
  exists [(Dense [1], 3); (Dense [1], 4)], [(Dense [1], 4); (Dense [1], 3)], a, a', w, w'. splits; auto.
  - apply perm_swap.
  - unfold well_sized. apply Forall_cons; [exact Z|]. apply Forall_cons; [exact Z|]. apply Forall_nil.
  - intros ->. rewrite V in V'. field_simplify in V'. lra.
Qed.
Print Assumptions C98_adagrad_refuted.

(** In binary64 the order of given errors shows in the last bit, with SGD. *)
Theorem C98_given_refuted : let S := ScalarF64 SimplePlatform in
  let one := b_dyadic 1 0 in
  exists (h h' : history f64) x x', Permutation h h' /\ well_sized 1 h /\
  train SGD h one (zeros 1) = Ret (one, [x]) /\ train SGD h' one (zeros 1) = Ret (one, [x']) /\
  x = one /\ x' = b_dyadic 4503599627370497 (-52) /\ x <> x'.
Proof.
  intros S one. set (half := b_dyadic 1 (-53)). set (up := fun (x e : f64) => fadd x (fmul (fmul one e) one)).
  exists [(Dense [one], one); (Dense [one], half); (Dense [one], half)],
    [(Dense [one], half); (Dense [one], half); (Dense [one], one)],
    (up (up (up fzero one) half) half), (up (up (up fzero half) half) one). splits.
  - apply Permutation_sym. apply (Permutation_app_comm [(Dense [one], half); (Dense [one], half)] [(Dense [one], one)]).
  - unfold well_sized. repeat apply Forall_cons; try apply Forall_nil; (split; [apply wf_dense|reflexivity]).
  - reflexivity.
  - reflexivity.
  - apply B2SF_inj. vm_compute. reflexivity.
  - apply B2SF_inj. vm_compute. reflexivity.
  - intros E. apply (f_equal B2SF) in E. vm_compute in E. discriminate.
Qed.
Print Assumptions C98_given_refuted.

(** Two orthogonal samples and a third that is not; two samples that share no
    index. *)
Definition order_basis : Basis R nat :=
  MkBasis 2 (fun x => Ret (Ok (Dense (match x with O => [1; 0] | 1%nat => [0; 1] | _ => [1; 1] end)))).
Definition spot_basis : Basis R nat := MkBasis 3 (fun x => Ret (Ok (Sparse (MkSparse 3 [(x, 1)])))).

Example C98_case : Forall (accepted order_basis 2) [(0%nat, 1); (1%nat, 2); (2%nat, 4)] /\
  ForallOrdPairs (orthogonal order_basis) [(0%nat, 1); (1%nat, 2)] /\
  s_run SGD (map fit_call [(0%nat, 1); (1%nat, 2)]) (MkLFA order_basis [0; 0] (1 / 2)) = Ret (MkLFA order_basis [1 / 2; 1] (1 / 2)) /\
  s_run SGD (map fit_call [(0%nat, 1); (2%nat, 4)]) (MkLFA order_basis [0; 0] (1 / 2)) = Ret (MkLFA order_basis [9 / 4; 7 / 4] (1 / 2)) /\
  s_run SGD (map fit_call [(2%nat, 4); (0%nat, 1)]) (MkLFA order_basis [0; 0] (1 / 2)) = Ret (MkLFA order_basis [3 / 2; 2] (1 / 2)) /\
  ForallOrdPairs (apart_calls spot_basis) [SUpdate 2%nat 1; fit_call (0%nat, 4)] /\
  s_run SGD [fit_call (0%nat, 4); SUpdate 2%nat 1] (MkLFA spot_basis [0; 0; 0] (1 / 2)) = Ret (MkLFA spot_basis [2; 0; 1 / 2] (1 / 2)).
Proof.
  assert (Z : forall x, sized 2 (Dense (match x with O => [1; 0] | 1%nat => [0; 1] | _ => [1; 1] end))).
  { intros x. split; [apply wf_dense|destruct x as [|[|x]]; reflexivity]. }
  splits.
  - repeat constructor; eexists; (split; [reflexivity|apply Z]).
  - apply FOP_cons; [apply Forall_cons; [|apply Forall_nil]|apply FOP_cons; [apply Forall_nil|apply FOP_nil]]. intros phi psi P Q. injection P as <-. injection Q as <-. unfold inner, sigma, coeff, rsum. cbn. lra.
  - cbn. unfold with_state. cbn. match goal with |- Ret (MkLFA _ [?a; ?c] _) = _ => replace a with (1 / 2) by lra; replace c with 1 by lra end. reflexivity.
  - cbn. unfold with_state. cbn. match goal with |- Ret (MkLFA _ [?a; ?c] _) = _ => replace a with (9 / 4) by lra; replace c with (7 / 4) by lra end. reflexivity.
  - cbn. unfold with_state. cbn. match goal with |- Ret (MkLFA _ [?a; ?c] _) = _ => replace a with (3 / 2) by lra; replace c with 2 by lra end. reflexivity.
  - apply FOP_cons; [apply Forall_cons; [|apply Forall_nil]|apply FOP_cons; [apply Forall_nil|apply FOP_nil]]. eexists _, _. split; [reflexivity|]. split; [reflexivity|]. intros i [[X|[]] [Y|[]]]. cbn in X, Y. lia.
  - cbn. unfold with_state. cbn. rewrite ?fzero_R. match goal with |- Ret (MkLFA _ [?a; ?c; ?d] _) = _ => replace a with 2 by lra; replace d with (1 / 2) by lra end. reflexivity.
Qed.
