(** C82: training in binary64 on the same calls over and over ends in a cycle.
    Proofs are in Cycle.v. *)
From Coq Require Import List Arith ZArith Lia Reals Lra Bool.
From Flocq Require Import Core.Core IEEE754.BinarySingleNaN.
From Verif Require Import Base Scalar ScalarR ScalarF64 F64Facts HMap NdArray Features Spec FeatureFacts
  Optim OptimSpec Lfa LfaSpec Cycle.
Import ListNotations.

(** ** C82 *)

(** A binary64 value is one of 2^64 (all NaNs being one here). *)
Theorem C82_values : exists f : f64 -> nat, (forall x, (Z.of_nat (f x) < 2 ^ 64)%Z) /\ forall x y, f x = f y -> x = y.
Proof. exact f64_values. Qed.
Print Assumptions C82_values.

(** Whatever the basis, the optimiser and the calls: from some round on the
    approximator comes back, bit for bit, every [p] rounds, or it has panicked
    for good. [d] counts the numbers it stores. *)
Theorem C82_scalar : forall P I (a : ScalarLFA f64 I (lib_opt f64)) cs, let S := ScalarF64 P in
  let d := length (lfa_weights a) + length (opt_numbers (lfa_optimiser a)) in
  exists m p, 1 <= p /\ (Z.of_nat (m + p) <= 2 ^ (64 * Z.of_nat d) + 1)%Z /\
    forall k, m <= k ->
      s_run LibOptimiser (concat (repeat cs (k + p))) a = s_run LibOptimiser (concat (repeat cs k)) a.
Proof. exact @s_cycle64. Qed.
Print Assumptions C82_scalar.

Theorem C82_vector : forall P I (a : VectorLFA f64 I (lib_opt f64)) cs, let S := ScalarF64 P in
  matrix_ok (lfa_weights a) ->
  let d := nrows (lfa_weights a) * ncols (lfa_weights a) + length (opt_numbers (lfa_optimiser a)) in
  exists m p, 1 <= p /\ (Z.of_nat (m + p) <= 2 ^ (64 * Z.of_nat d) + 1)%Z /\
    forall k, m <= k ->
      v_run LibOptimiser (concat (repeat cs (k + p))) a = v_run LibOptimiser (concat (repeat cs k)) a.
Proof. exact @v_cycle64. Qed.
Print Assumptions C82_vector.

(** So if the weights converge, they stop changing. *)
Theorem C82_limit : forall P I (a : ScalarLFA f64 I (lib_opt f64)) cs (l : list f64), let S := ScalarF64 P in
  (forall k, exists b, s_run LibOptimiser (concat (repeat cs k)) a = Ret b) ->
  (forall eps, (0 < eps)%R -> exists k0, forall k b, k0 <= k -> s_run LibOptimiser (concat (repeat cs k)) a = Ret b ->
    Forall2 (fun x y => b_finite x = true /\ b_finite y = true /\ (Rabs (b_real x - b_real y) < eps)%R) (lfa_weights b) l) ->
  exists k0, forall k b, k0 <= k -> s_run LibOptimiser (concat (repeat cs k)) a = Ret b ->
    map b_real (lfa_weights b) = map b_real l.
Proof. exact @s_limit64. Qed.
Print Assumptions C82_limit.

(** The cycle can be longer than one round: rate 2 on a cell that holds 1,
    target 0. *)
Definition swing : ScalarLFA f64 unit (lib_opt f64) :=
  MkLFA (MkBasis 1 (fun _ => Ret (Ok (Sparse (MkSparse 1 [(0, b_one)]))))) [b_one] (LSGD (b_dyadic 1 1)).
Definition to_zero : s_call f64 unit := SUpdateWith tt (fun _ v => b_sub b_zero v).

Lemma swing_twice P : let S := ScalarF64 P in
  s_run LibOptimiser [to_zero] swing = Ret (with_state swing [Bopp b_one] (LSGD (b_dyadic 1 1))) /\
  s_run LibOptimiser [to_zero; to_zero] swing = Ret swing.
Proof.
  intros S. split.
  - transitivity (Ret (with_state swing [b_add b_one (b_mul (b_mul (b_dyadic 1 1) (b_sub b_zero (b_add (@fzero f64 S) (b_mul b_one b_one)))) b_one)] (LSGD (b_dyadic 1 1)))); [reflexivity|].
    unfold S. rewrite fzero_f64. do 2 f_equal. f_equal. apply B2SF_inj. vm_compute. reflexivity.
  - set (w1 := b_add b_one (b_mul (b_mul (b_dyadic 1 1) (b_sub b_zero (b_add (@fzero f64 S) (b_mul b_one b_one)))) b_one)).
    transitivity (Ret (with_state swing [b_add w1 (b_mul (b_mul (b_dyadic 1 1) (b_sub b_zero (b_add (@fzero f64 S) (b_mul w1 b_one)))) b_one)] (LSGD (b_dyadic 1 1)))); [reflexivity|].
    unfold w1, S. rewrite fzero_f64. unfold swing at 2, with_state. do 2 f_equal. f_equal. apply B2SF_inj. vm_compute. reflexivity.
Qed.

Theorem C82_fixed_refuted : forall P, let S := ScalarF64 P in
  exists (a : ScalarLFA f64 unit (lib_opt f64)) cs,
    (forall k, s_run LibOptimiser (concat (repeat cs (k + 2))) a = s_run LibOptimiser (concat (repeat cs k)) a) /\
    forall k, s_run LibOptimiser (concat (repeat cs (k + 1))) a <> s_run LibOptimiser (concat (repeat cs k)) a.
Proof.
  intros P S. exists swing, [to_zero].
  destruct (swing_twice P) as [E1 E2]. fold S in E1, E2.
  assert (E : forall k, s_run LibOptimiser (concat (repeat [to_zero] (Datatypes.S (Datatypes.S k)))) swing = s_run LibOptimiser (concat (repeat [to_zero] k)) swing).
  { intros k. change (concat (repeat [to_zero] (Datatypes.S (Datatypes.S k)))) with ([to_zero; to_zero] ++ concat (repeat [to_zero] k)).
    unfold s_run in *. rewrite ofold_app, E2. reflexivity. }
  assert (N : Ret swing <> Ret (with_state swing [Bopp b_one] (LSGD (b_dyadic 1 1)))).
  { intros X. apply (f_equal (fun o => match o with Ret a => map B2SF (lfa_weights a) | Panic => [] end)) in X. vm_compute in X. discriminate. }
  split.
  - intros k. replace (k + 2) with (Datatypes.S (Datatypes.S k)) by lia. apply E.
  - assert (Q : forall k, s_run LibOptimiser (concat (repeat [to_zero] (Datatypes.S k))) swing <> s_run LibOptimiser (concat (repeat [to_zero] k)) swing /\
                          s_run LibOptimiser (concat (repeat [to_zero] (Datatypes.S (Datatypes.S k)))) swing <> s_run LibOptimiser (concat (repeat [to_zero] (Datatypes.S k))) swing).
    { induction k as [|k [I1 I2]].
      - split; [change (s_run LibOptimiser [to_zero] swing <> Ret swing); rewrite E1; intros X; apply N; now symmetry|].
        change (s_run LibOptimiser [to_zero; to_zero] swing <> s_run LibOptimiser [to_zero] swing). rewrite E1, E2. exact N.
      - split; [exact I2|]. rewrite (E (Datatypes.S k)), (E k). intros X. apply I1. exact X. }
    intros k. replace (k + 1) with (Datatypes.S k) by lia. apply Q.
Qed.
Print Assumptions C82_fixed_refuted.

(** In exact arithmetic nothing need come back: rate 1/2 halves the weight. *)
Definition halving : ScalarLFA R unit (lib_opt R) :=
  MkLFA (MkBasis 1 (fun _ => Ret (Ok (Sparse (MkSparse 1 [(0, 1%R)]))))) [1%R] (LSGD (/ 2)%R).
Theorem C82_exact_refuted : exists (a : ScalarLFA R unit (lib_opt R)) cs,
  forall k p, 1 <= p -> s_run LibOptimiser (concat (repeat cs (k + p))) a <> s_run LibOptimiser (concat (repeat cs k)) a.
Proof.
  exists halving, [SUpdateWith tt (fun _ v => (0 - v)%R)].
  assert (E : forall k, s_run LibOptimiser (concat (repeat [SUpdateWith tt (fun _ v => (0 - v)%R)] k)) halving =
    Ret (with_state halving [((/ 2) ^ k)%R] (LSGD (/ 2)%R))).
  { assert (G : forall k w, s_run LibOptimiser (concat (repeat [SUpdateWith tt (fun _ v => (0 - v)%R)] k)) (with_state halving [w] (LSGD (/ 2)%R)) =
      Ret (with_state halving [(w * (/ 2) ^ k)%R] (LSGD (/ 2)%R))).
    { induction k as [|k IH]; intros w; [cbn; do 3 f_equal; lra|].
      change (concat (repeat [SUpdateWith tt (fun _ v => (0 - v)%R)] (S k))) with
        ([SUpdateWith tt (fun _ v => (0 - v)%R)] ++ concat (repeat [@SUpdateWith R unit tt (fun _ v => (0 - v)%R)] k)).
      unfold s_run in *. rewrite ofold_app.
      assert (X : ofold (s_do LibOptimiser) [SUpdateWith tt (fun _ v => (0 - v)%R)] (with_state halving [w] (LSGD (/ 2)%R)) =
                  Ret (with_state halving [(w * / 2)%R] (LSGD (/ 2)%R))).
      { transitivity (Ret (with_state halving [(w + / 2 * (0 - (fzero + w * 1)) * 1)%R] (LSGD (/ 2)%R))); [reflexivity|].
        do 3 f_equal. rewrite fzero_R. lra. }
      rewrite X. cbn [obind]. rewrite IH. do 3 f_equal. simpl. lra. }
    intros k. change halving with (with_state halving [1%R] (LSGD (/ 2)%R)) at 1. rewrite G. do 3 f_equal. lra. }
  intros k p L X. rewrite !E in X. injection X as X.
  assert (0 < (/ 2) ^ k)%R by (apply pow_lt; lra).
  rewrite pow_add in X. assert (Q : ((/ 2) ^ p = 1)%R) by (apply (Rmult_eq_reg_l ((/ 2) ^ k)); lra).
  destruct p as [|p]; [lia|]. simpl in Q. assert (((/ 2) ^ p <= 1)%R) by (rewrite <- (pow1 p); apply pow_incr; lra). lra.
Qed.
Print Assumptions C82_exact_refuted.

(** Adagrad with two weights: the bound on where the cycle starts is [2^320 + 1] rounds. *)
Example C82_case : let S := ScalarF64 SimplePlatform in
  let a := MkLFA (MkBasis 2 (fun x : f64 => Ret (Ok (Dense [b_one; x])))) [b_zero; b_one] (LAdagrad (MkAdagrad b_one [b_zero; b_zero])) in
  length (lfa_weights a) + length (opt_numbers (lfa_optimiser a)) = 5 /\
  exists b, s_run LibOptimiser (concat (repeat [SUpdateWith b_one (fun _ v => b_sub b_zero v)] 3)) a = Ret b /\
    map B2SF (lfa_weights b) <> map B2SF (lfa_weights a).
Proof. intros S a. split; [reflexivity|]. eexists. split; [reflexivity|]. vm_compute. discriminate. Qed.
