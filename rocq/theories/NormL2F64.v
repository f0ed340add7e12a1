(** The L2 normaliser in binary64: as long as one activation is at least 2^-511
    the norm is at least every activation. *)
From Coq Require Import List Arith ZArith Lia Bool Reals Lra.
From Flocq Require Import Core.Core IEEE754.BinarySingleNaN.
From Flocq Require Relative.
From Verif Require Import Base Scalar HMap HMapFacts NdArray VecFacts Features Spec FeatureFacts
  FeatureMore ScalarR ScalarF64 F64Facts Coeffs Kernels TileCoding Basis BasisFacts NormReal NormF64 NonnegF64.
Import ListNotations.
Local Open Scope R_scope.

Local Notation fexp64' := (SpecFloat.fexp 53 1024).

(** ** sqrt(x * x) is at least |x| *)

Lemma rnd64_le_compat x y : x <= y -> rnd64 x <= rnd64 y.
Proof. apply round_le; [apply fexp_correct, f64_prec|apply valid_rnd_N]. Qed.

Lemma rnd64_normal_error x : bpow radix2 (-1022) <= Rabs x ->
  Rabs (rnd64 x - x) <= uro / (1 + uro) * Rabs x.
Proof.
  intros L. unfold rnd64. change (SpecFloat.fexp 53 1024) with (FLT_exp (-1074) 53).
  rewrite (round_FLT_FLX radix2 (-1074) 53); [|exact L].
  rewrite <- u_ro_uro. apply Relative.relative_error_N_FLX'. reflexivity.
Qed.

Lemma sqrt_lower x d : 0 <= x -> 0 <= d <= uro / (1 + uro) -> x * (1 - uro / 2) <= sqrt (x * x * (1 - d)).
Proof.
  intros Px [D0 D]. pose proof uro_pos as U. pose proof uro_lt_1 as U1.
  rewrite sqrt_mult_alt by (apply Rmult_le_pos; lra). rewrite sqrt_square by lra.
  apply Rmult_le_compat_l; [lra|].
  apply Rsqr_incr_0_var; [|apply sqrt_pos]. unfold Rsqr.
  assert (uro / (1 + uro) <= 1). { apply Rle_trans with uro; [apply u_over_le|lra]. }
  rewrite sqrt_sqrt by lra.
  apply Rle_trans with (1 - uro / (1 + uro)); [|lra].
  apply (Rmult_le_reg_r (1 + uro)); [lra|].
  replace ((1 - uro / (1 + uro)) * (1 + uro)) with 1 by (field; lra).
  assert (0 <= uro * uro * (3 - uro)) by (apply Rmult_le_pos; [apply Rle_0_sqr|lra]). lra.
Qed.

Lemma sqrt_of_square x : generic_format radix2 fexp64' x -> bpow radix2 (-511) <= x ->
  x <= rnd64 (sqrt (rnd64 (x * x))).
Proof.
  intros G L. assert (Px : 0 < x). { eapply Rlt_le_trans; [apply bpow_gt_0|exact L]. }
  assert (Lxx : bpow radix2 (-1022) <= Rabs (x * x)).
  { rewrite Rabs_pos_eq by nra. change (-1022)%Z with (-511 + -511)%Z. rewrite bpow_plus.
    apply Rmult_le_compat; auto using bpow_ge_0. }
  destruct (Req_dec x (bpow radix2 (mag radix2 x - 1))) as [E|N].
  - (* a power of two: the square is exact *)
    assert (M : (-511 <= mag radix2 x - 1)%Z).
    { apply (le_bpow radix2). rewrite <- E. exact L. }
    assert (Ex : rnd64 (x * x) = x * x).
    { apply round_generic; [apply valid_rnd_N|]. rewrite E, <- bpow_plus. apply generic_format_bpow.
      change (SpecFloat.fexp 53 1024) with (FLT_exp (-1074) 53). unfold FLT_exp. lia. }
    rewrite Ex, sqrt_square by lra. apply rnd64_ge; [exact G|lra].
  - apply round_N_ge_midp; [apply fexp_correct, f64_prec|exact G|].
    rewrite pred_eq_pos by lra. unfold pred_pos. rewrite Req_bool_false by exact N.
    assert (Ulp : x * uro < ulp radix2 fexp64' x).
    { pose proof (@ulp_FLT_gt radix2 (-1074) 53 f64_prec x) as Q. rewrite Rabs_pos_eq in Q by lra. exact Q. }
    apply Rlt_le_trans with (x * (1 - uro / 2)); [lra|].
    pose proof (rnd64_normal_error (x * x) Lxx) as Er. rewrite (Rabs_pos_eq (x * x)) in Er by nra.
    pose proof uro_pos as U.
    assert (D : 0 <= uro / (1 + uro)) by (apply Rmult_le_pos; [lra|left; apply Rinv_0_lt_compat; lra]).
    eapply Rle_trans; [apply (sqrt_lower x (uro / (1 + uro))); lra|].
    apply sqrt_le_1_alt. apply Rabs_le_inv in Er. lra.
Qed.

(** ** The norm *)

Lemma b_sqrt_above z r : above z r -> 0 <= r -> above (b_sqrt z) (rnd64 (sqrt r)).
Proof.
  intros [->|[Fz Lz]] R; [left; reflexivity|].
  assert (Nz : nonneg z) by (right; split; [auto|lra]).
  destruct (b_sqrt_pos z Nz) as [E|[F _]]; [left; exact E|right]. split; [exact F|].
  destruct (Bsqrt_correct 53 1024 f64_prec f64_emax mode_NE z) as (C1 & _ & _).
  unfold b_sqrt. rewrite C1. apply rnd64_le_compat, sqrt_le_1_alt, Lz.
Qed.

Lemma b_square_above x : b_finite x = true -> above (b_mul x x) (rnd64 (b_real x * b_real x)).
Proof.
  intros Fx. destruct (b_mul_self x Fx) as [E|[F _]]; [left; exact E|right]. split; [exact F|].
  apply b_mul_finite_inv in F. destruct F as (_ & _ & ->). apply Rle_refl.
Qed.

Lemma b_l2_fold : forall l acc r, all_finite l -> nonneg acc -> above acc r ->
  let z := fold_left (fun a x => b_add a (b_mul x x)) l acc in
  nonneg z /\ above z r /\ forall x, In x l -> above z (rnd64 (b_real x * b_real x)).
Proof.
  induction l as [|y l IH]; intros acc r Fl N A z; cbn [fold_left] in z.
  - splits; auto. intros x [].
  - assert (Fy : b_finite y = true) by (apply Fl; simpl; auto).
    assert (Fl' : all_finite l) by (intros x I; apply Fl; simpl; auto).
    assert (Ny := b_mul_self y Fy). assert (N' := b_add_pos acc (b_mul y y) N Ny).
    destruct (IH (b_add acc (b_mul y y)) r Fl' N') as (Z & Zr & Zx). { apply b_add_either; auto. }
    splits; auto. intros x [<-|I]; [|auto].
    destruct (IH (b_add acc (b_mul y y)) (rnd64 (b_real y * b_real y)) Fl' N') as (_ & Q & _); [|exact Q].
    apply b_add_either; auto. right. apply b_square_above, Fy.
Qed.

Lemma b_l2_norm P l : all_finite l ->
  let z := @l2_norm f64 (ScalarF64 P) l in
  nonneg z /\ forall x, In x l -> above z (rnd64 (sqrt (rnd64 (b_real x * b_real x)))).
Proof.
  intros Fl z. unfold z, l2_norm. cbn [fsqrt fadd fmul ScalarF64]. rewrite fzero_f64.
  destruct (b_l2_fold l b_zero 0 Fl) as (N & _ & A); [right; simpl; split; [reflexivity|lra]..|].
  split; [apply b_sqrt_pos, N|]. intros x I. apply b_sqrt_above; [auto|]. apply rnd64_pos, Rle_0_sqr.
Qed.

(** Some activation is at least 2^-511: the norm is at least every activation. *)
Definition not_tiny (l : list f64) : Prop := exists x, In x l /\ bpow radix2 (-511) <= Rabs (b_real x).

Lemma b_l2_big P l : all_finite l ->
  forall x, In x l -> bpow radix2 (-511) <= Rabs (b_real x) ->
  above (@l2_norm f64 (ScalarF64 P) l) (Rabs (b_real x)).
Proof.
  intros Fl x I L. destruct (b_l2_norm P l Fl) as (_ & A). eapply above_le; [apply A, I|].
  replace (b_real x * b_real x) with (Rabs (b_real x) * Rabs (b_real x)).
  2: { rewrite <- Rabs_mult. apply Rabs_pos_eq, Rle_0_sqr. }
  apply sqrt_of_square; [|exact L]. rewrite <- b_abs_real. apply b_real_format.
Qed.

Theorem b_l2_covers P l : all_finite l -> not_tiny l ->
  let z := @l2_norm f64 (ScalarF64 P) l in
  above z (bpow radix2 (-511)) /\ forall x, In x l -> above z (Rabs (b_real x)).
Proof.
  intros Fl (y & Iy & Ly) z. assert (Ay := b_l2_big P l Fl y Iy Ly). fold z in Ay.
  split; [eapply above_le; eauto|]. intros x I.
  destruct (Rle_lt_dec (bpow radix2 (-511)) (Rabs (b_real x))) as [L|L].
  - apply b_l2_big; auto.
  - eapply above_le; [exact Ay|]. lra.
Qed.

(** ** The normalised features *)

Definition not_tiny_features (phi : Features f64) : Prop :=
  exists i v, stores phi i v /\ bpow radix2 (-511) <= Rabs (b_real v).

Theorem l2_f64 P (phi : Features f64) : keyed phi -> finite_features phi -> not_tiny_features phi ->
  let psi := @normalise_by f64 (ScalarF64 P) (@l2_norm f64 (ScalarF64 P)) phi in
  (forall i, stored psi i <-> stored phi i) /\
  forall i v, stores psi i v -> b_finite v = true /\ Rabs (b_real v) <= 1.
Proof.
  intros K Fp (i0 & v0 & S0 & N0) psi.
  destruct (@normalise_by_spec f64 (ScalarF64 P) (@l2_norm f64 (ScalarF64 P)) phi K) as (K' & _ & _ & G & St).
  fold psi in K', G, St. split; auto.
  destruct (b_l2_covers P (values phi)) as [Z A].
  { apply values_finite, Fp. } { exists v0. split; [apply values_in; eauto|exact N0]. }
  set (z := @l2_norm f64 (ScalarF64 P) (values phi)) in *.
  intros i v V. apply get_stores in V; auto. rewrite G in V.
  destruct (get phi i) as [u|] eqn:U; [|discriminate]. apply get_stores in U; auto.
  simpl in V. inversion V. subst v. clear V. assert (Fu := Fp i u U).
  assert (Au : above z (Rabs (b_real u))) by (apply A, values_in; eauto).
  destruct Au as [E|[Fz L]].
  - change (b_finite (b_div u z) = true /\ Rabs (b_real (b_div u z)) <= 1).
    rewrite E. destruct (b_div_inf u Fu) as [s ->]. split; auto. simpl. rewrite Rabs_R0. lra.
  - destruct (b_div_unit u z) as (D1 & D2 & _); auto.
    destruct Z as [E|[_ L0]]; [rewrite E in Fz; discriminate|].
    assert (D := bpow_gt_0 radix2 (-511)). lra.
Qed.

(** ** When every quotient is finite *)

(** In general: exactly when every activation is finite and the rounded sum of
    squares is not zero. *)
Lemma b_sqrt_nonzero z : b_finite z = true -> 0 < b_real z ->
  b_finite (b_sqrt z) = true /\ bpow radix2 (-537) <= b_real (b_sqrt z).
Proof.
  intros Fz Pz. assert (Nz : nonneg z) by (right; split; [auto|lra]).
  destruct (Bsqrt_correct 53 1024 f64_prec f64_emax mode_NE z) as (C1 & C2 & _). fold (b_sqrt z) in C1, C2.
  assert (Fs : b_finite (b_sqrt z) = true).
  { destruct (b_sqrt_pos z Nz) as [E|[F _]]; auto. exfalso. rewrite E in C2. destruct z as [s|s| |s m e B]; try discriminate.
    destruct s; try discriminate. }
  split; auto. rewrite C1. apply rnd64_ge.
  - apply generic_format_bpow. reflexivity || (unfold SpecFloat.fexp, SpecFloat.emin; simpl; lia).
  - replace (bpow radix2 (-537)) with (sqrt (bpow radix2 (-1074))).
    2: { change (-1074)%Z with (-537 + -537)%Z. rewrite bpow_plus. apply sqrt_square, bpow_ge_0. }
    apply sqrt_le_1_alt. destruct z as [s|s| |s m e B]; try discriminate; [simpl in Pz; lra|].
    pose proof (abs_B2R_ge_emin 53 1024 (B754_finite s m e B) eq_refl) as Q. rewrite Rabs_pos_eq in Q by lra. exact Q.
Qed.

Lemma b_div_bound x z k : b_finite x = true -> b_finite z = true -> 0 < b_real z -> (-1074 <= k <= 1023)%Z ->
  Rabs (b_real x) <= b_real z * bpow radix2 k -> b_finite (b_div x z) = true.
Proof.
  intros Fx Fz Pz K L.
  assert (Q : Rabs (b_real x / b_real z) <= bpow radix2 k).
  { unfold Rdiv. rewrite Rabs_mult, (Rabs_pos_eq (/ b_real z)) by (left; apply Rinv_0_lt_compat, Pz).
    apply (Rmult_le_reg_r (b_real z)); auto. rewrite Rmult_assoc, Rinv_l by lra. lra. }
  assert (R : Rabs (rnd64 (b_real x / b_real z)) <= bpow radix2 k).
  { apply abs_round_le_generic; auto; [apply fexp_correct, f64_prec|apply valid_rnd_N|].
    apply generic_format_bpow. change (SpecFloat.fexp 53 1024) with (FLT_exp (-1074) 53). unfold FLT_exp. lia. }
  pose proof (Bdiv_correct 53 1024 f64_prec f64_emax mode_NE x z ltac:(lra)) as C.
  fold (rnd64 (b_real x / b_real z)) in C. rewrite Rlt_bool_true in C.
  2: { eapply Rle_lt_trans; [exact R|]. apply (bpow_lt radix2 k 1024). lia. }
  destruct C as (_ & C2 & _). fold (b_div x z) in C2. congruence.
Qed.

Lemma b_div_zero_bad x s : b_finite (b_div x (B754_zero s)) = false.
Proof. destruct x as [t|t| |t m e B]; destruct s; reflexivity. Qed.

Lemma b_div_bad_l x z : b_finite x = false -> b_finite z = true -> b_finite (b_div x z) = false.
Proof. destruct x as [t|t| |t m e B], z as [s|s| |s m' e' B']; intros; try discriminate; reflexivity. Qed.

(** A non-finite term makes the sum infinite or NaN; dividing it by that sum
    gives NaN. *)
Lemma b_div_inf_nan x z : b_finite x = false -> b_finite z = false -> b_div x z = b_nan.
Proof. destruct x as [t|t| |t m e B], z as [s|s| |s m' e' B']; intros; try discriminate; reflexivity. Qed.

Lemma b_add_bad a b : b_finite a = false \/ b_finite b = false -> b_finite (b_add a b) = false.
Proof.
  intros O. destruct (b_finite (b_add a b)) eqn:E; auto. apply b_add_finite_inv in E.
  destruct E as (A & B & _). destruct O; congruence.
Qed.

Lemma fold_bad_in (g : f64 -> f64) : forall l acc, b_finite acc = false \/ (exists x, In x l /\ b_finite (g x) = false) ->
  b_finite (fold_left (fun a x => b_add a (g x)) l acc) = false.
Proof.
  induction l as [|y l IH]; intros acc O; cbn [fold_left].
  - destruct O as [O|(x & [] & _)]. exact O.
  - apply IH. destruct O as [O|(x & [<-|I] & B)].
    + left. apply b_add_bad. auto.
    + left. apply b_add_bad. auto.
    + right. eauto.
Qed.

Lemma all_finite_dec l : all_finite l \/ exists x, In x l /\ b_finite x = false.
Proof.
  induction l as [|y l IH]; [left; intros x []|].
  destruct (b_finite y) eqn:E; [|right; exists y; simpl; auto].
  destruct IH as [IH|(x & I & B)]; [|right; exists x; simpl; auto].
  left. intros x [<-|I]; auto.
Qed.

Lemma nonneg_zero z : nonneg z -> b_finite z = true -> ~ 0 < b_real z -> b_real z = 0.
Proof. intros [->|[_ L]] F N; [discriminate|lra]. Qed.

Lemma b_real_zero z : b_finite z = true -> b_real z = 0 -> exists s, z = B754_zero s.
Proof.
  destruct z as [s|s| |s m e B]; intros F E; try discriminate; eauto.
  exfalso. apply Float_prop.eq_0_F2R in E. destruct s; discriminate E.
Qed.

Lemma eqb_zero z : Beqb z b_zero = true -> exists s, z = B754_zero s.
Proof.
  intros E. apply b_eqb_true in E. destruct E as [(F & _ & E)|(s & _ & E)]; [|discriminate].
  apply b_real_zero; auto.
Qed.

(** [z] is the sum of the squares. *)
Theorem l2_quotients P l : let z := fold_left (fun a x => b_add a (b_mul x x)) l b_zero in
  (forall x, In x l -> b_finite (b_div x (@l2_norm f64 (ScalarF64 P) l)) = true) <->
  l = [] \/ (all_finite l /\ Beqb z b_zero = false).
Proof.
  intros z. assert (En : @l2_norm f64 (ScalarF64 P) l = b_sqrt z).
  { unfold l2_norm. cbn [fsqrt fadd fmul ScalarF64]. rewrite fzero_f64. reflexivity. }
  rewrite En. split.
  - intros A. destruct l as [|y l]; [left; reflexivity|]. right.
    destruct (all_finite_dec (y :: l)) as [Fl|(x & I & B)].
    + split; auto. destruct (Beqb z b_zero) eqn:E; auto. exfalso.
      destruct (eqb_zero z E) as [s Ez]. assert (Q := A y (or_introl eq_refl)). rewrite Ez in Q.
      change (b_sqrt (B754_zero s)) with (B754_zero s : f64) in Q. rewrite b_div_zero_bad in Q. discriminate.
    + exfalso. assert (Bz : b_finite z = false).
      { apply fold_bad_in. right. exists x. split; auto. destruct (b_finite (b_mul x x)) eqn:E; auto.
        apply b_mul_finite_inv in E. destruct E as (E & _). congruence. }
      assert (Bs : b_finite (b_sqrt z) = false).
      { destruct z as [s|[]| |s m e Bo]; try discriminate; reflexivity. }
      assert (Q := A x I). rewrite b_div_inf_nan in Q by auto. discriminate.
  - intros [->|(Fl & Nz)] x I; [destruct I|]. assert (Fx := Fl x I).
    destruct (b_l2_fold l b_zero 0 Fl) as (N & _ & _); [right; simpl; split; [reflexivity|lra]..|]. fold z in N.
    destruct N as [E|[Fz Lz]].
    { rewrite E. change (b_sqrt b_inf) with b_inf. destruct (b_div_inf x Fx) as [s ->]. reflexivity. }
    assert (Pz : 0 < b_real z).
    { destruct Lz as [L|L]; auto. exfalso. destruct (b_real_zero z Fz (eq_sym L)) as [s ->]. destruct s; discriminate Nz. }
    destruct (b_sqrt_nonzero z Fz Pz) as [Fs Ls].
    assert (Ps : 0 < b_real (b_sqrt z)). { eapply Rlt_le_trans; [apply bpow_gt_0|exact Ls]. }
    destruct (Rle_lt_dec (bpow radix2 (-511)) (Rabs (b_real x))) as [L|L].
    + assert (A := b_l2_big P l Fl x I L). rewrite En in A. destruct A as [A|[_ A]]; [rewrite A in Fs; discriminate|].
      apply (b_div_bound x (b_sqrt z) 0); auto; [lia|]. simpl. lra.
    + apply (b_div_bound x (b_sqrt z) 26); auto; [lia|].
      apply Rle_trans with (bpow radix2 (-537) * bpow radix2 26).
      * rewrite <- bpow_plus. simpl (-537 + 26)%Z. lra.
      * apply Rmult_le_compat_r; [apply bpow_ge_0|exact Ls].
Qed.

Theorem l1_quotients P l :
  (forall x, In x l -> b_finite (b_div x (@l1_norm f64 (ScalarF64 P) l)) = true) <->
  l = [] \/ (all_finite l /\ exists x, In x l /\ Beqb x b_zero = false).
Proof.
  set (z := @l1_norm f64 (ScalarF64 P) l).
  assert (En : z = fold_left (fun a x => b_add a (Babs x)) l b_zero).
  { unfold z, l1_norm. cbn [fabs fadd ScalarF64]. rewrite fzero_f64. reflexivity. }
  split.
  - intros A. destruct l as [|y l]; [left; reflexivity|]. right.
    destruct (all_finite_dec (y :: l)) as [Fl|(x & I & B)].
    + split; auto. destruct (existsb (fun x => negb (Beqb x b_zero)) (y :: l)) eqn:E.
      * apply existsb_exists in E. destruct E as (x & I & E). exists x. split; auto. destruct (Beqb x b_zero); auto; discriminate.
      * exfalso. assert (Z : forall x, In x (y :: l) -> exists s, x = B754_zero s).
        { intros x I. destruct (Beqb x b_zero) eqn:Ex.
          - apply eqb_zero, Ex.
          - exfalso. assert (T : existsb (fun x => negb (Beqb x b_zero)) (y :: l) = true).
            { apply existsb_exists. exists x. rewrite Ex. auto. } congruence. }
        pose proof (l1_f64_zero P (y :: l) Z) as Q. unfold normalise_by in Q. injection Q as Q _.
        assert (T := A y (or_introl eq_refl)). unfold z in T.
        change (b_div y (@l1_norm f64 (ScalarF64 P) (y :: l)) = b_nan) in Q. rewrite Q in T. discriminate.
    + exfalso. assert (Bz : b_finite z = false).
      { rewrite En. apply fold_bad_in. right. exists x. split; auto. rewrite b_abs_finite. exact B. }
      assert (Q := A x I). rewrite b_div_inf_nan in Q by auto. discriminate.
  - intros [->|(Fl & y & Iy & Ny)] x I; [destruct I|]. assert (Fx := Fl x I).
    destruct (b_l1_fold l b_zero 0 Fl) as [_ A]; [right; simpl; split; [reflexivity|lra]|lra|]. rewrite <- En in A.
    destruct (A x I) as [E|[Fz Lz]].
    { rewrite E. destruct (b_div_inf x Fx) as [s ->]. reflexivity. }
    assert (Pz : 0 < b_real z).
    { destruct (A y Iy) as [E|[_ L]]; [rewrite E in Fz; discriminate|].
      assert (b_real y <> 0).
      { intros Z. destruct (b_real_zero y (Fl y Iy) Z) as [s ->]. destruct s; discriminate Ny. }
      assert (D := Rabs_pos_lt _ H). lra. }
    apply (b_div_unit x z); auto.
Qed.
