(** Tracking the absolute error of a short binary64 computation whose values
    are bounded by whole numbers. *)
From Coq Require Import Reals ZArith List Lia Lra Psatz Bool Machin.
From Flocq Require Import Core BinarySingleNaN.
From Verif Require Import Base Scalar ScalarR ScalarF64 F64Facts HMap NdArray Features Spec FeatureFacts BoundF64 TableF64 NormF64.
Import ListNotations.
Open Scope R_scope.

(** [v] is finite, off [r] by at most [E] units of 2^-53, and both are at most
    the whole number [A]. *)
Definition acc (v : f64) (r : R) (E A : Z) : Prop :=
  b_finite v = true /\ Rabs (b_real v - r) <= IZR E * uro /\ Rabs (b_real v) <= IZR A /\ Rabs r <= IZR A /\
  (0 <= A <= 2 ^ 53)%Z.

Lemma fmt_Z A : (Z.abs A <= 2 ^ 53)%Z -> fmt64 (IZR A).
Proof.
  intros B. unfold fmt64. rewrite fexp64. destruct (Z.eq_dec (Z.abs A) (2 ^ 53)) as [E|N].
  - assert (C : A = (2 ^ 53)%Z \/ A = (- 2 ^ 53)%Z) by lia.
    assert (G : generic_format radix2 (FLT_exp (-1074) 53) (bpow radix2 53)).
    { apply generic_format_bpow. unfold FLT_exp. lia. }
    destruct C as [-> | ->].
    + exact G.
    + change (- 2 ^ 53)%Z with (- (2 ^ 53))%Z. rewrite opp_IZR. apply generic_format_opp. exact G.
  - apply generic_format_FLT. apply (FLT_spec _ _ _ _ (Float radix2 A 0)); simpl; try lia.
    unfold F2R. simpl. lra.
Qed.

Lemma IZR_small A : (A <= 2 ^ 53)%Z -> IZR A < bpow radix2 1024.
Proof.
  intros B. apply IZR_le in B. eapply Rle_lt_trans; [exact B|]. change (IZR (2 ^ 53)) with (bpow radix2 53).
  apply bpow_lt. lia.
Qed.

Lemma eta_uro : eta64 <= uro.
Proof. apply bpow_le. lia. Qed.

Lemma rnd64_off x : Rabs (rnd64 x - x) <= uro * Rabs x + eta64.
Proof.
  destruct (rnd64_error x) as (d & e & D & Ee & ->). replace (x * (1 + d) + e - x) with (x * d + e) by ring.
  eapply Rle_trans; [apply Rabs_triang|]. rewrite Rabs_mult. pose proof (Rabs_pos x).
  assert (Rabs x * Rabs d <= Rabs x * uro) by (apply Rmult_le_compat_l; auto). lra.
Qed.

Lemma acc_E v r E E' A : acc v r E A -> (E <= E')%Z -> acc v r E' A.
Proof.
  intros (F & D & B & C & H) L. unfold acc. splits; auto; try lia. apply IZR_le in L.
  assert (IZR E * uro <= IZR E' * uro) by (apply Rmult_le_compat_r; auto; left; apply uro_pos). lra.
Qed.

Lemma acc_A v r E A A' : acc v r E A -> (A <= A' <= 2 ^ 53)%Z -> acc v r E A'.
Proof. intros (F & D & B & C & H) [L M]. unfold acc. splits; auto; try lia; apply IZR_le in L; lra. Qed.

Lemma acc_exact v r A : b_finite v = true -> b_real v = r -> Rabs r <= IZR A -> (0 <= A <= 2 ^ 53)%Z -> acc v r 0 A.
Proof. intros F <- B H. unfold acc. splits; auto; try lia. unfold Rminus. rewrite Rplus_opp_r, Rabs_R0. lra. Qed.

Lemma acc_add v r E A w q D B : acc v r E A -> acc w q D B -> (A + B <= 2 ^ 53)%Z ->
  acc (b_add v w) (r + q) (E + D + (A + B)) (A + B).
Proof.
  intros (Fv & Ev & Bv & Cv & Hv) (Fw & Ew & Bw & Cw & Hw) L.
  assert (T : Rabs (b_real v + b_real w) <= IZR (A + B)).
  { rewrite plus_IZR. eapply Rle_trans; [apply Rabs_triang|]. lra. }
  assert (W : within (IZR (A + B)) (b_add v w)).
  { apply b_add_rnd; auto; [apply rnd64_abs; auto; apply fmt_Z; lia|apply IZR_small; auto]. }
  destruct W as [Fs Bs]. unfold acc. splits; auto; try lia.
  - destruct (b_add_error v w Fs) as (d & Dd & ->).
    replace ((b_real v + b_real w) * (1 + d) - (r + q))
      with ((b_real v - r) + (b_real w - q) + (b_real v + b_real w) * d) by ring.
    eapply Rle_trans; [apply Rabs_triang|].
    assert (Rabs ((b_real v - r) + (b_real w - q)) <= IZR E * uro + IZR D * uro)
      by (eapply Rle_trans; [apply Rabs_triang|]; lra).
    assert (Rabs ((b_real v + b_real w) * d) <= IZR (A + B) * uro).
    { rewrite Rabs_mult. apply Rmult_le_compat; auto using Rabs_pos. }
    rewrite !plus_IZR in *. lra.
  - rewrite plus_IZR. eapply Rle_trans; [apply Rabs_triang|]. lra.
Qed.

Lemma acc_opp v r E A : acc v r E A -> acc (Bopp v) (- r) E A.
Proof.
  intros (F & D & B & C & H). unfold acc.
  assert (V : b_real (Bopp v) = - b_real v) by apply B2R_Bopp.
  assert (W : b_finite (Bopp v) = b_finite v) by apply is_finite_Bopp.
  rewrite V, W. splits; auto; try lia; try (rewrite Rabs_Ropp; auto).
  replace (- b_real v - - r) with (- (b_real v - r)) by ring. rewrite Rabs_Ropp. auto.
Qed.

Lemma acc_sub v r E A w q D B : acc v r E A -> acc w q D B -> (A + B <= 2 ^ 53)%Z ->
  acc (b_sub v w) (r - q) (E + D + (A + B)) (A + B).
Proof.
  intros Hv Hw L. replace (b_sub v w) with (b_add v (Bopp w)) by (destruct v, w; reflexivity).
  apply acc_add; auto. apply acc_opp. auto.
Qed.

Lemma acc_mul v r E A w q D B : acc v r E A -> acc w q D B -> (A * B <= 2 ^ 53)%Z -> (0 <= E)%Z ->
  acc (b_mul v w) (r * q) (A * D + B * E + (A * B + 1)) (A * B).
Proof.
  intros (Fv & Ev & Bv & Cv & Hv) (Fw & Ew & Bw & Cw & Hw) L PE.
  assert (T : Rabs (b_real v * b_real w) <= IZR (A * B)).
  { rewrite Rabs_mult, mult_IZR. apply Rmult_le_compat; auto using Rabs_pos. }
  destruct (b_mul_within v w (IZR (A * B)) Fv Fw) as [Fs Bs]; auto; [apply fmt_Z; nia|apply IZR_small; auto|].
  unfold acc. splits; auto; try nia.
  - destruct (b_mul_error v w Fs) as (d & e & Dd & De & ->).
    replace (b_real v * b_real w * (1 + d) + e - r * q)
      with (b_real v * (b_real w - q) + q * (b_real v - r) + b_real v * b_real w * d + e) by ring.
    assert (X1 : Rabs (b_real v * (b_real w - q)) <= IZR A * (IZR D * uro))
      by (rewrite Rabs_mult; apply Rmult_le_compat; auto using Rabs_pos).
    assert (X2 : Rabs (q * (b_real v - r)) <= IZR B * (IZR E * uro))
      by (rewrite Rabs_mult; apply Rmult_le_compat; auto using Rabs_pos).
    assert (X3 : Rabs (b_real v * b_real w * d) <= IZR (A * B) * uro)
      by (rewrite Rabs_mult; apply Rmult_le_compat; auto using Rabs_pos).
    pose proof eta_uro.
    eapply Rle_trans; [apply Rabs_triang|]. eapply Rle_trans; [apply Rplus_le_compat_r, Rabs_triang|].
    eapply Rle_trans; [apply Rplus_le_compat_r, Rplus_le_compat_r, Rabs_triang|].
    rewrite !plus_IZR, !mult_IZR in *. lra.
  - rewrite Rabs_mult, mult_IZR. apply Rmult_le_compat; auto using Rabs_pos.
Qed.

(** ** Whole numbers *)

Lemma b_Z z : (Z.abs z <= 2 ^ 53)%Z -> b_finite (b_dyadic z 0) = true /\ b_real (b_dyadic z 0) = IZR z.
Proof.
  intros L. unfold b_dyadic.
  pose proof (binary_normalize_correct 53 1024 f64_prec f64_emax mode_NE z 0 false) as C. cbv zeta in C.
  assert (V : F2R (Float radix2 z 0) = IZR z) by (unfold F2R; simpl; lra).
  rewrite V in C. rewrite (round_generic _ _ _ (IZR z)) in C by (apply fmt_Z; auto).
  rewrite Rlt_bool_true in C; [destruct C as (C1 & C2 & _); auto|].
  rewrite <- abs_IZR. apply IZR_small. lia.
Qed.

Lemma lit_Z P z : (Z.abs z <= 2 ^ 53)%Z ->
  b_finite (@flit f64 (ScalarF64 P) z 1) = true /\ b_real (@flit f64 (ScalarF64 P) z 1) = IZR z.
Proof.
  intros L. cbn [flit ScalarF64]. destruct (b_Z z L) as [F V].
  change (b_dyadic 1 0) with b_one.
  assert (Q : b_real (b_dyadic z 0) / b_real b_one = IZR z) by (rewrite V, b_one_real; field).
  assert (W : within (IZR (2 ^ 53)) (b_div (b_dyadic z 0) b_one)).
  { apply b_div_within; auto; [rewrite b_one_real; lra|apply fmt_Z; lia|apply IZR_small; lia|].
    rewrite Q, <- abs_IZR. apply IZR_le, L. }
  split; [apply W|]. destruct W as [W _].
  destruct (b_div_finite_inv _ _ W) as [_ E]; [rewrite b_one_real; lra|]. rewrite E. rewrite Q.
  apply round_generic; [apply valid_rnd_N|]. apply fmt_Z. auto.
Qed.

Lemma acc_lit P z : (0 <= z <= 2 ^ 53)%Z -> acc (@flit f64 (ScalarF64 P) z 1) (IZR z) 0 z.
Proof.
  intros L. destruct (lit_Z P z) as [F V]; [lia|]. apply acc_exact; auto.
  rewrite Rabs_pos_eq; [lra|]. apply (IZR_le 0). lia.
Qed.

(** ** Integer powers: any sequence of multiplications reaching the exponent. *)

Inductive muls (x : f64) : nat -> f64 -> Prop :=
| muls_0 : muls x 0 b_one
| muls_1 : muls x 1 x
| muls_mul a b y z : muls x a y -> muls x b z -> muls x (a + b) (b_mul y z).

Definition powers (P : Platform) : Prop := forall x n, muls x n (p_powi P x n).

Lemma simple_powers : powers SimplePlatform.
Proof.
  intros x n. cbn [p_powi SimplePlatform]. induction n as [|n IH]; cbn [b_powi].
  - apply muls_0.
  - apply (muls_mul x 1 n); auto. apply muls_1.
Qed.

Lemma acc_unit x : b_finite x = true -> Rabs (b_real x) <= 1 -> acc x (b_real x) 0 1.
Proof. intros F B. apply acc_exact; auto. lia. Qed.

Lemma muls_zero x n y : muls x n y -> n = O -> y = b_one.
Proof.
  induction 1 as [| |a b y z Ma IHa Mb IHb]; intros E; auto; [discriminate|].
  rewrite IHa, IHb by lia. apply b_mul_one.
Qed.

Lemma acc_power x n y : b_finite x = true -> Rabs (b_real x) <= 1 -> muls x n y ->
  acc y (b_real x ^ n) (2 * Z.of_nat (n - 1)) 1.
Proof.
  intros F B. induction 1 as [| |a b y z Ma IHa Mb IHb].
  - apply acc_exact; auto; [apply b_one_real|simpl; rewrite Rabs_R1; lra|lia].
  - simpl. rewrite Rmult_1_r. apply acc_unit; auto.
  - destruct (Nat.eq_dec a 0) as [Ea|Na]; [|destruct (Nat.eq_dec b 0) as [Eb|Nb]].
    + rewrite (muls_zero _ _ _ Ma Ea), b_mul_one. subst a. exact IHb.
    + rewrite (muls_zero _ _ _ Mb Eb), b_mul_one_r. subst b. rewrite Nat.add_0_r. exact IHa.
    + rewrite pow_add. eapply acc_E; [apply (acc_mul _ _ _ _ _ _ _ _ IHa IHb); lia|lia].
Qed.

(** ** The constant [PI] *)

Lemma PI_close : 7074237752028440 / 2251799813685248 <= PI <= 7074237752028441 / 2251799813685248.
Proof.
  destruct (PI_2_3_7_ineq 8) as [A B].
  cbv [sum_f_R0 tg_alt PI_2_3_7_tg Ratan_seq Nat.mul Nat.add] in A, B.
  cbn [INR pow Nat.mul Nat.add] in A, B. split; lra.
Qed.

Lemma acc_pi P : acc (@fpi f64 (ScalarF64 P)) PI 4 4.
Proof.
  cbn [fpi ScalarF64].
  assert (V : b_real (b_dyadic 7074237752028440 (-51)) = 7074237752028440 / 2251799813685248).
  { transitivity (b_real (@B754_finite 53 1024 false 7074237752028440 (-51) eq_refl)).
    - f_equal. apply B2SF_eq. vm_compute. reflexivity.
    - unfold b_real, B2R, F2R. cbn [Fnum Fexp cond_Zopp]. change (bpow radix2 (-51)) with (/ 2251799813685248). reflexivity. }
  assert (U : 4 * uro = 1 / 2251799813685248).
  { unfold uro. change (bpow radix2 (-53)) with (/ 9007199254740992). field. }
  pose proof PI_close. unfold acc. rewrite V, U. splits; try lia; try reflexivity; try apply Rabs_le; try split; lra.
Qed.
