(** C66: the repository's own tests and documentation examples. Statements only;
    the tests are modelled in Replay.v, the proofs are in ReplayFacts.v and
    ReplayLibm.v. *)
From Coq Require Import List Arith ZArith Lia Bool Reals Lra Permutation.
From Flocq Require Import Core.Core IEEE754.BinarySingleNaN.
From Verif Require Import Base Scalar ScalarF64 F64Facts HMap NdArray Features Coeffs Kernels TileCoding Basis NormF64
  SumOrder Replay ReplayFacts ReplayLibm.
Import ListNotations.
Local Open Scope R_scope.

(** features.rs, with ndarray's order of summation. *)
Theorem C66_features : forall P, unrolled_order P ->
  test_sparse P = Ret true /\ test_dense P = Ret true /\ test_map_inplace P = Ret true /\ test_merge_inplace P = Ret true /\
  doc_remove P = Ret true /\ doc_into_dense P = Ret true /\ doc_stack P = Ret true /\ doc_dot P = Ret true /\ doc_matmul P = Ret true.
Proof. exact features_tests_pass. Qed.
Print Assumptions C66_features.

(** The exact equality in [test_dense] is an accident of that order. *)
Definition RightPlatform : Platform := {|
  p_cos := p_cos SimplePlatform; p_exp := p_exp SimplePlatform; p_ln1p := p_ln1p SimplePlatform; p_powi := p_powi SimplePlatform;
  p_sum := fold_right b_add b_zero;
  p_dot a b := fold_right b_add b_zero (map2 b_mul a b)
|}.
Lemma right_adds l : adds l (fold_right b_add b_zero l).
Proof.
  induction l as [|x l IH]; [constructor|]. cbn [fold_right]. apply adds_add with (l1 := [x]) (l2 := l); [constructor|exact IH|].
  apply Permutation_refl.
Qed.

Theorem C66_dense_order_refuted : exists P, any_order P /\ test_dense P = Ret false.
Proof. exists RightPlatform. split; [split; intros; [|apply adds_dots]; apply right_adds|]. vm_compute. reflexivity. Qed.
Print Assumptions C66_dense_order_refuted.

(** The tests of the bases that call neither libm nor ndarray's reductions. *)
Theorem C66_bases : forall P, doc_bias P = Ret true /\ test_kernel_n_features P = Ret true /\ test_bin_state_2d P = Ret true /\
  test_stack_constant P = Ret true /\ test_stack_indices P = Ret true /\ test_stack_mixed P = Ret true /\
  test_fourier_n_features P = Ret true.
Proof. exact bases_tests_pass. Qed.
Print Assumptions C66_bases.

Theorem C66_polynomial : forall P, p_powi P = b_powi -> doc_polynomial P = Ret true.
Proof. exact polynomial_doc_passes. Qed.
Print Assumptions C66_polynomial.

(** The loops of the uniform grid's tests, on a grid of any number of axes. *)
Theorem C66_grid : forall P (ep : equipartition f64) bins, bins <> [] ->
  ep_n ep = 10%nat -> (forall b, (b < 10)%nat -> ep_map_onto ep (@fofnat f64 (ScalarF64 P) b) = b) ->
  (forall b, In b bins -> (b < 10)%nat) -> grid_case P ep bins = Ret true.
Proof. exact grid_case_passes. Qed.
Print Assumptions C66_grid.

Example C66_grid_case : let ep := MkEqui 10 (fun x : f64 => Z.to_nat (b_floor_isize x)) b_one [] in
  grid_case SimplePlatform ep [9; 0; 3]%nat = Ret true.
Proof.
  apply C66_grid; [discriminate|reflexivity| |].
  - intros b L. do 10 (destruct b as [|b]; [vm_compute; reflexivity|]). lia.
  - intros b [<-|[<-|[<-|[]]]]; lia.
Qed.

(** The tests with a tolerance leave room for a libm accurate to 2^-30. *)
Theorem C66_fourier : forall P, cos_accurate P ->
  test_bounds P = Ret true /\ test_order1_1d P = Ret true /\ test_order2_1d P = Ret true /\
  test_order1_2d P = Ret true /\ test_order2_2d P = Ret true.
Proof. exact fourier_tests_pass. Qed.
Print Assumptions C66_fourier.

Theorem C66_kernels : forall P, exp_accurate P -> test_projection_1d P = Ret true /\ test_projection_2d P = Ret true.
Proof. exact kernel_tests_pass. Qed.
Print Assumptions C66_kernels.

(** All of these hypotheses together have a model. *)
Example C66_platform : cos_accurate AccuratePlatform /\ exp_accurate AccuratePlatform /\
  unrolled_order AccuratePlatform /\ p_powi AccuratePlatform = b_powi.
Proof. exact accurate_platform. Qed.

(** The randomised tests: exactly the inputs on which each passes. *)
Theorem C66_constant : forall P constants input, test_project_general P constants input = Ret true <->
  forall x, In x constants -> is_nan x = false.
Proof. exact project_general_passes. Qed.
Print Assumptions C66_constant.

Theorem C66_bin_state : forall P state n, test_bin_state_1d P state n = Ret true.
Proof. exact bin_state_1d_passes. Qed.
Print Assumptions C66_bin_state.

Theorem C66_l1 : forall P constants, test_l1 P constants = Ret true <->
  constants = [] \/ (all_finite constants /\ exists x, In x constants /\ Beqb x b_zero = false).
Proof. exact l1_passes. Qed.
Print Assumptions C66_l1.

Theorem C66_l2 : forall P constants, test_l2 P constants = Ret true <->
  constants = [] \/ (all_finite constants /\ Beqb (fold_left b_add (map (fun v => b_mul v v) constants) b_zero) b_zero = false).
Proof. exact l2_passes. Qed.
Print Assumptions C66_l2.

Theorem C66_norms_return : forall P constants, (exists b, test_l1 P constants = Ret b) /\ (exists b, test_l2 P constants = Ret b).
Proof. exact norm_tests_return. Qed.
Print Assumptions C66_norms_return.

(** So a generator of arbitrary f64 vectors can make each of them fail: on NaN;
    on zeros, infinities; on finite nonzero values whose squares vanish. *)
Theorem C66_randomised_refuted : forall P, exists nan zero tiny : list f64,
  all_finite zero /\ all_finite tiny /\ (forall x, In x tiny -> Beqb x b_zero = false) /\
  (forall input, test_project_general P nan input = Ret false) /\
  test_l1 P zero = Ret false /\ test_l2 P zero = Ret false /\ test_l1 P tiny = Ret true /\ test_l2 P tiny = Ret false.
Proof.
  intros P. exists [B754_nan], [b_zero], [b_dyadic 1 (-600)].
  split. { intros x [<-|[]]; reflexivity. } split. { intros x [<-|[]]; vm_compute; reflexivity. }
  split. { intros x [<-|[]]; vm_compute; reflexivity. } split. { intros input. vm_compute. reflexivity. }
  refine (conj _ (conj _ (conj _ _))); vm_compute; reflexivity.
Qed.
Print Assumptions C66_randomised_refuted.

(** The helper of the tests compares the common prefix only. *)
Theorem C66_compare_floats : forall P a b tol, @compare_floats f64 (ScalarF64 P) a b tol = true <->
  forall i x y, nth_error a i = Some x -> nth_error b i = Some y -> Bltb (Babs (b_sub x y)) tol = true.
Proof. exact compare_floats_true. Qed.
Print Assumptions C66_compare_floats.

Theorem C66_compare_floats_refuted : forall P tol, exists a b, length a <> length b /\
  @compare_floats f64 (ScalarF64 P) a b tol = true.
Proof. intros P tol. exists [], [b_one]. split; [discriminate|reflexivity]. Qed.
Print Assumptions C66_compare_floats_refuted.

(** The other helper: NaN equals NaN and nothing else; two numbers that pass
    differ by less than the tolerance; an infinity does not equal itself. *)
Theorem C66_eq_with_nan : forall P (a b tol : f64),
  let eq := @eq_with_nan_eq f64 (ScalarF64 P) in
  (b_is_nan a = true -> eq a b tol = b_is_nan b) /\
  (b_is_nan b = true -> eq a b tol = b_is_nan a) /\
  (b_finite a = true -> b_finite b = true -> b_finite tol = true -> eq a b tol = true ->
     Rabs (b_real a - b_real b) < b_real tol) /\
  (b_finite a = true -> b_finite tol = true -> 0 < b_real tol -> eq a a tol = true) /\
  (forall s, eq (B754_infinity s) (B754_infinity s) tol = false).
Proof. exact eq_with_nan_meaning. Qed.
Print Assumptions C66_eq_with_nan.

Example C66_eq_with_nan_case : @eq_with_nan_eq f64 (ScalarF64 SimplePlatform) b_one (b_dyadic 5 (-2)) (b_dyadic 1 (-1)) = true.
Proof. vm_compute. reflexivity. Qed.

(** The checks the tests are made of: a list of them holds when each does, and
    the comparisons hold of equal values only. *)
Theorem C66_checks :
  (forall l, checks l = Ret true <-> Forall (fun c => c = Ret true) l) /\
  (forall x y, eqn x y = Ret true <-> x = y) /\
  (forall P state z, bin_eqb P state z = Ret true <-> @bin_state f64 (ScalarF64 P) state 16 = z).
Proof.
  split; [|split].
  - induction l as [|c l IH]; cbn [checks fold_right]; [split; auto|]. fold (checks l). unfold check.
    rewrite Forall_cons_iff, <- IH. destruct c as [[|]|]; cbn; intuition congruence.
  - intros x y. unfold eqn. rewrite <- Nat.eqb_eq. split; congruence.
  - intros P state z. unfold bin_eqb, on_platform. cbv zeta. generalize (@bin_state f64 (ScalarF64 P) state 16). intros b.
    transitivity ((length b =? length z)%nat && forallb (fun p => (fst p =? snd p)%Z) (combine b z) = true).
    { split; intros E; [injection E as E; exact E|f_equal; exact E]. }
    revert z. induction b as [|x b IH]; intros [|y z]; cbn [length combine forallb Nat.eqb andb fst snd];
      try (split; congruence).
    rewrite andb_comm, <- andb_assoc, (andb_comm (forallb _ _)), andb_true_iff, IH, Z.eqb_eq. split.
    + intros [-> ->]. reflexivity.
    + intros [= -> ->]. auto.
Qed.
Print Assumptions C66_checks.
