(** C93: the accuracy of the normalisers in binary64. Statements; proofs are in
    NormAcc64.v. (C26 to C29 are about the same functions over the reals, and
    about magnitudes in binary64.) *)
From Coq Require Import List Arith ZArith Lia Bool Reals Lra.
From Flocq Require Import Core.Core IEEE754.BinarySingleNaN.
From Verif Require Import Base Scalar ScalarR ScalarF64 F64Facts HMap NdArray VecFacts Features Spec FeatureFacts
  Coeffs Kernels TileCoding Basis BasisFacts NormReal NormF64 NormL2F64 BoundF64 Near64 NormAcc64.
Import ListNotations.
Local Open Scope R_scope.

Lemma total_rsum g l : total g l = rsum (map g l).
Proof. induction l as [|v l IH]; [reflexivity|]. cbn [total fold_right map rsum]. unfold total in IH. rewrite IH. reflexivity. Qed.

Lemma rsum_mag l : rsum (map (fun v => Rabs (b_real v)) l) = total mag l.
Proof. rewrite total_rsum. reflexivity. Qed.

Lemma rsum_sq l : rsum (map (fun v => b_real v * b_real v) l) = total sq l.
Proof. rewrite total_rsum. reflexivity. Qed.

(** [n] stored activations, [u] = 2^-53, [eta64] = 2^-1075. L1: the normalised
    activations are the exact ones up to a relative [6 n u] and an underflow, and
    their magnitudes sum to 1 up to [6 n u + n eta64], in every hash order. *)
Theorem C93_l1 : forall P (phi : Features f64), keyed phi -> finite_features phi -> nonzero_features phi ->
  let S := ScalarF64 P in
  b_finite (l1_norm (values phi)) = true -> INR (length (values phi)) * bpow radix2 (-53) <= 1 / 8 ->
  let n := INR (length (values phi)) in
  let N := rsum (map (fun v => Rabs (b_real v)) (values phi)) in
  let psi := normalise_by l1_norm phi in
  (forall i v y, stores phi i v -> stores psi i y -> b_finite y = true /\
    Rabs (b_real y - b_real v / N) <= 6 * (n * bpow radix2 (-53)) * Rabs (b_real v / N) + bpow radix2 (-1075)) /\
  Rabs (rsum (map (fun y => Rabs (b_real y)) (values psi)) - 1) <= 6 * (n * bpow radix2 (-53)) + n * bpow radix2 (-1075).
Proof.
  intros P phi K Fp Nz S Fz Ln n N psi. unfold N. rewrite !rsum_mag. exact (l1_accuracy P phi K Fp Nz Fz Ln).
Qed.
Print Assumptions C93_l1.

(** L2, when some activation is at least 2^-511: up to a relative [12 n u], and the
    squares sum to 1 up to [27 n u + 4 n eta64]. *)
Theorem C93_l2 : forall P (phi : Features f64), keyed phi -> finite_features phi ->
  (exists i v, stores phi i v /\ bpow radix2 (-511) <= Rabs (b_real v)) ->
  let S := ScalarF64 P in
  b_finite (l2_norm (values phi)) = true -> INR (length (values phi)) * bpow radix2 (-53) <= 1 / 64 ->
  let n := INR (length (values phi)) in
  let N := sqrt (rsum (map (fun v => b_real v * b_real v) (values phi))) in
  let psi := normalise_by l2_norm phi in
  (forall i v y, stores phi i v -> stores psi i y -> b_finite y = true /\
    Rabs (b_real y - b_real v / N) <= 12 * (n * bpow radix2 (-53)) * Rabs (b_real v / N) + bpow radix2 (-1075)) /\
  Rabs (rsum (map (fun y => b_real y * b_real y) (values psi)) - 1) <= 27 * (n * bpow radix2 (-53)) + n * (4 * bpow radix2 (-1075)).
Proof.
  intros P phi K Fp Nt S Fz Ln n N psi. unfold N. rewrite !rsum_sq. exact (l2_accuracy P phi K Fp Nt Fz Ln).
Qed.
Print Assumptions C93_l2.

(** So SGD with a rate up to 3/2 meets the step-size condition of C51 and C77 on
    every L2-normalised feature vector of up to 2^40 stored activations. *)
Theorem C93_sgd_rate : forall P (phi : Features f64) lr, keyed phi -> finite_features phi ->
  (exists i v, stores phi i v /\ bpow radix2 (-511) <= Rabs (b_real v)) ->
  let S := ScalarF64 P in
  b_finite (l2_norm (values phi)) = true -> INR (length (values phi)) <= bpow radix2 40 -> 0 <= lr <= 3 / 2 ->
  lr * rsum (map (fun y => b_real y * b_real y) (values (normalise_by l2_norm phi))) <= 2.
Proof.
  intros P phi lr K Fp Nt S Fz Ln Lr.
  assert (Lu : INR (length (values phi)) * bpow radix2 (-53) <= bpow radix2 (-13)).
  { replace (bpow radix2 (-13)) with (bpow radix2 40 * bpow radix2 (-53)) by (rewrite <- bpow_plus; reflexivity).
    apply Rmult_le_compat_r; [apply bpow_ge_0|exact Ln]. }
  assert (B13 : bpow radix2 (-13) = / 8192) by (simpl; lra).
  destruct (C93_l2 P phi K Fp Nt Fz ltac:(lra)) as [_ T]. fold S in T.
  assert (Le : INR (length (values phi)) * (4 * bpow radix2 (-1075)) <= / 8192).
  { assert (bpow radix2 (-1075) <= bpow radix2 (-55)) by (apply bpow_le; lia).
    assert (4 * bpow radix2 (-1075) <= bpow radix2 (-53)).
    { replace (bpow radix2 (-53)) with (4 * bpow radix2 (-55)) by (change 4 with (bpow radix2 2); rewrite <- bpow_plus; reflexivity). lra. }
    assert (INR (length (values phi)) * (4 * bpow radix2 (-1075)) <= INR (length (values phi)) * bpow radix2 (-53)) by (apply Rmult_le_compat_l; [apply pos_INR|auto]).
    lra. }
  apply Rabs_le_inv in T. set (q := rsum (map (fun y => b_real y * b_real y) (values (normalise_by l2_norm phi)))) in *.
  apply Rle_trans with (lr * (4 / 3)); [apply Rmult_le_compat_l; lra|lra].
Qed.
Print Assumptions C93_sgd_rate.

(** Linf: one rounding, of the quotient. Normalising again changes no bit. *)
Theorem C93_linf : forall P (phi : Features f64), keyed phi -> finite_features phi -> nonzero_features phi ->
  let S := ScalarF64 P in
  exists N, 0 < N /\ (exists i v, stores phi i v /\ Rabs (b_real v) = N) /\
  (forall i v, stores phi i v -> Rabs (b_real v) <= N) /\
  (forall i v y, stores phi i v -> stores (normalise_by linf_norm phi) i y ->
    Rabs (b_real y - b_real v / N) <= bpow radix2 (-53) * Rabs (b_real v / N) + bpow radix2 (-1075)) /\
  normalise_by linf_norm (normalise_by linf_norm phi) = normalise_by linf_norm phi.
Proof.
  intros P phi K Fp Nz S. destruct (linf_accuracy P phi K Fp Nz) as (Pz & (v & Iv & Ev) & A).
  exists (b_real (linf_norm (values phi))). split; [exact Pz|]. split; [apply values_in in Iv; destruct Iv as [i Iv]; eauto|].
  split; [|split; [exact A|exact (linf_twice P phi K Fp Nz)]].
  intros i w W. destruct (b_linf_norm P (values phi)) as (_ & B & _); [apply values_finite, Fp| |apply B, values_in; eauto].
  intros E. rewrite E in Iv. destruct Iv.
Qed.
Print Assumptions C93_linf.

(** The same fails for L1 and L2: six ones, and two. *)
Theorem C93_twice_refuted : forall P, let S := ScalarF64 P in
  (exists phi : Features f64, keyed phi /\ finite_features phi /\ nonzero_features phi /\
    normalise_by l1_norm (normalise_by l1_norm phi) <> normalise_by l1_norm phi) /\
  (exists phi : Features f64, keyed phi /\ finite_features phi /\ nonzero_features phi /\
    normalise_by l2_norm (normalise_by l2_norm phi) <> normalise_by l2_norm phi).
Proof.
  intros P S.
  assert (Fr : forall n, finite_features (Dense (repeat b_one n))).
  { intros n i v V. cbn [stores] in V. apply nth_error_In, repeat_spec in V. subst v. reflexivity. }
  assert (Nr : forall n, nonzero_features (Dense (repeat b_one (Datatypes.S n)))).
  { intros n. exists 0%nat, b_one. split; [reflexivity|]. rewrite b_one_real. lra. }
  split; [exists (Dense (repeat b_one 6))|exists (Dense (repeat b_one 2))]; (split; [exact I|]); (split; [apply Fr|]); (split; [apply Nr|]);
    intros E; apply (f_equal (fun f => match f with Dense (x :: _) => B2SF x | _ => SpecFloat.S754_nan end)) in E; revert E; vm_compute; discriminate.
Qed.
Print Assumptions C93_twice_refuted.

(** Nor is the sum 1 exactly: the magnitudes of nine normalised ones sum to more
    than 1, those of six to less. *)
Theorem C93_sum_refuted : forall P, let S := ScalarF64 P in
  fltb b_one (l1_norm (values (normalise_by l1_norm (Dense (repeat b_one 9))))) = true /\
  fltb (l1_norm (values (normalise_by l1_norm (Dense (repeat b_one 6))))) b_one = true.
Proof. intros P S. split; vm_compute; reflexivity. Qed.
Print Assumptions C93_sum_refuted.

(** L0 on sparse features: the count is exact up to 2^53, so one rounding. *)
Theorem C93_l0 : forall P d (m : hmap f64) i v y, wf (Sparse (MkSparse d m)) -> finite_features (Sparse (MkSparse d m)) ->
  (Z.of_nat (length m) <= 2 ^ 53)%Z -> stores (Sparse (MkSparse d m)) i v ->
  let S := ScalarF64 P in
  forall psi, l0_normalise (Sparse (MkSparse d m)) = Ret psi -> stores psi i y ->
  Rabs (b_real y - b_real v / INR (length m)) <= bpow radix2 (-53) * Rabs (b_real v / INR (length m)) + bpow radix2 (-1075).
Proof.
  intros P d m i v y W Fp L V S psi E Y.
  assert (Nm : m <> []) by (intros ->; destruct V).
  subst S. rewrite (l0_f64_sparse P d m W Nm) in E. injection E as <-. cbn [stores sa_acts] in V, Y.
  apply in_map_iff in Y. destruct Y as ([k v'] & Eq & I'). cbn [fst snd] in Eq. injection Eq as -> <-.
  assert (v' = v).
  { destruct W as [K _]. cbn [keyed sa_acts] in K. clear -K V I'. induction m as [|[k w] m IH]; [destruct V|].
    cbn [map fst] in K. apply NoDup_cons_iff in K. destruct K as [N K].
    destruct V as [V|V], I' as [I'|I'].
    - congruence.
    - injection V as -> ->. exfalso. apply N. apply in_map_iff. exists (i, v'). auto.
    - injection I' as -> ->. exfalso. apply N. apply in_map_iff. exists (i, v). auto.
    - auto. }
  subst v'. destruct (b_Z (Z.of_nat (length m)) ltac:(lia)) as [Fn Rn]. rewrite <- INR_IZR_INZ in Rn.
  assert (N1 : 1 <= INR (length m)). { destruct m; [congruence|]. cbn [length]. rewrite S_INR. pose proof (pos_INR (length m)). lra. }
  assert (Fv : b_finite v = true) by (apply (Fp i v); exact V).
  assert (Fq : b_finite (b_div v (b_dyadic (Z.of_nat (length m)) 0)) = true).
  { apply b_div_within with (B := Rabs (b_real v)); auto.
    - rewrite Rn. lra.
    - rewrite <- b_abs_real. apply b_real_format.
    - apply b_real_small.
    - rewrite Rn. unfold Rdiv. rewrite Rabs_mult, (Rabs_pos_eq (/ INR (length m))) by (apply Rlt_le, Rinv_0_lt_compat; lra).
      rewrite <- (Rmult_1_r (Rabs (b_real v))) at 2. apply Rmult_le_compat_l; [apply Rabs_pos|]. rewrite <- Rinv_1. apply Rinv_le; lra. }
  destruct (b_div_error v _ Fq ltac:(rewrite Rn; lra)) as (dd & e & Dd & De & E). rewrite Rn in E.
  exact (quot_form _ _ _ _ _ _ Dd De E).
Qed.
Print Assumptions C93_l0.

(** Three stored activations, one of them tiny. *)
Example C93_case : let phi := Sparse (MkSparse 9 [(7%nat, b_dyadic 3 0); (2%nat, b_dyadic 1 (-600)); (4%nat, b_dyadic (-5) (-3))]) in
  let S := ScalarF64 SimplePlatform in
  keyed phi /\ finite_features phi /\ nonzero_features phi /\
  (exists i v, stores phi i v /\ bpow radix2 (-511) <= Rabs (b_real v)) /\
  b_finite (l1_norm (values phi)) = true /\ b_finite (l2_norm (values phi)) = true /\
  INR (length (values phi)) * bpow radix2 (-53) <= 1 / 64.
Proof.
  cbv zeta. destruct (b_Z 3 ltac:(lia)) as [F3 R3]. splits.
  - repeat constructor; simpl; intuition lia.
  - intros i v [E|[E|[E|[]]]]; injection E as <- <-; vm_compute; reflexivity.
  - exists 7%nat, (b_dyadic 3 0). split; [left; reflexivity|]. rewrite R3. lra.
  - exists 7%nat, (b_dyadic 3 0). split; [left; reflexivity|]. rewrite R3, Rabs_pos_eq by lra.
    apply Rle_trans with (bpow radix2 0); [apply bpow_le; lia|simpl; lra].
  - vm_compute. reflexivity.
  - vm_compute. reflexivity.
  - cbn [values hm_values map length sa_acts]. simpl INR. simpl bpow. lra.
Qed.
