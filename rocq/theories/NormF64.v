(** The normalisers and the tile coder's rounding in binary64. *)
From Coq Require Import List Arith ZArith Lia Bool Permutation Reals Lra.
From Flocq Require Import Core.Core IEEE754.BinarySingleNaN.
From Verif Require Import Base Scalar HMap HMapFacts NdArray VecFacts Features Spec FeatureFacts
  FeatureMore ScalarR ScalarF64 F64Facts Coeffs Kernels TileCoding Basis BasisFacts NormReal.
Import ListNotations.
Local Open Scope R_scope.

(** ** Order and absolute value *)

Lemma b_abs_finite (x : f64) : b_finite (Babs x) = b_finite x.
Proof. apply is_finite_Babs. Qed.

Lemma b_abs_real (x : f64) : b_real (Babs x) = Rabs (b_real x).
Proof. apply B2R_Babs. Qed.

Lemma b_ltb_real (x y : f64) : b_finite x = true -> b_finite y = true ->
  Bltb x y = true <-> b_real x < b_real y.
Proof.
  intros A B. rewrite Bltb_correct by assumption.
  destruct (Rlt_bool_spec (b_real x) (b_real y)); split; auto; try discriminate; lra.
Qed.

Lemma b_max_finite (x y : f64) : b_finite x = true -> b_finite y = true ->
  b_finite (b_max x y) = true /\ (b_max x y = x \/ b_max x y = y) /\
  b_real x <= b_real (b_max x y) /\ b_real y <= b_real (b_max x y).
Proof.
  intros A B.
  assert (E : b_max x y = if Bltb x y then y else x) by (destruct x, y; try discriminate; reflexivity).
  rewrite E. pose proof (b_ltb_real x y A B) as C. destruct (Bltb x y).
  - assert (b_real x < b_real y) by (apply C; auto). splits; auto; lra.
  - assert (~ b_real x < b_real y) by (intros D; apply C in D; discriminate). splits; auto; lra.
Qed.

Definition all_finite (l : list f64) : Prop := forall x, In x l -> b_finite x = true.

Lemma b_linf_fold : forall l acc, all_finite l -> b_finite acc = true ->
  let z := fold_left (fun a x => b_max a (Babs x)) l acc in
  b_finite z = true /\ b_real acc <= b_real z /\ (forall x, In x l -> Rabs (b_real x) <= b_real z) /\
  (z = acc \/ exists x, In x l /\ z = Babs x).
Proof.
  induction l as [|y l IH]; intros acc Fl Fa z; simpl in z.
  - splits; auto; [apply Rle_refl|intros x []].
  - assert (Fy : b_finite (Babs y) = true) by (rewrite b_abs_finite; apply Fl; simpl; auto).
    destruct (b_max_finite acc (Babs y) Fa Fy) as (Fm & M & L1 & L2).
    destruct (IH (b_max acc (Babs y))) as (Fz & A & B & C); auto. { intros x I. apply Fl. simpl. auto. }
    fold z in Fz, A, B, C. splits; auto.
    + lra.
    + intros x [<-|I]; auto. rewrite <- b_abs_real. lra.
    + destruct C as [C|(x & I & C)]; [|right; exists x; simpl; auto].
      destruct M as [M|M]; rewrite M in C; auto. right. exists y. simpl. auto.
Qed.

Lemma b_max_neginf (y : f64) : b_finite y = true -> b_max b_neginf y = y.
Proof. destruct y as [s|s| |s m e B]; intros E; try discriminate; reflexivity. Qed.

Lemma b_linf_norm P l : all_finite l -> l <> [] ->
  let z := @linf_norm f64 (ScalarF64 P) l in
  b_finite z = true /\ (forall x, In x l -> Rabs (b_real x) <= b_real z) /\
  exists x, In x l /\ z = Babs x.
Proof.
  intros Fl Ne z. destruct l as [|y l]; [tauto|].
  assert (Fy : b_finite (Babs y) = true) by (rewrite b_abs_finite; apply Fl; simpl; auto).
  assert (E : z = fold_left (fun a x => b_max a (Babs x)) l (Babs y)).
  { unfold z, linf_norm. cbn [fold_left].
    change (@fmax f64 (ScalarF64 P) (@fneginf f64 (ScalarF64 P)) (@fabs f64 (ScalarF64 P) y))
      with (b_max b_neginf (Babs y)).
    rewrite b_max_neginf by assumption. reflexivity. }
  destruct (b_linf_fold l (Babs y)) as (Fz & A & B & C); auto. { intros x I. apply Fl. simpl. auto. }
  rewrite <- E in *. splits; auto.
  - intros x [<-|I]; auto. rewrite <- b_abs_real. exact A.
  - destruct C as [C|(x & I & C)]; [exists y|exists x]; simpl; auto.
Qed.

(** ** Division by something at least as large *)

Lemma round_1 : generic_format radix2 (SpecFloat.fexp 53 1024) 1.
Proof. rewrite <- b_one_real. apply b_real_format. Qed.

Lemma b_div_unit (x z : f64) : b_finite x = true -> b_finite z = true -> 0 < b_real z ->
  Rabs (b_real x) <= b_real z ->
  b_finite (b_div x z) = true /\ Rabs (b_real (b_div x z)) <= 1 /\
  b_real (b_div x z) = rnd64 (b_real x / b_real z) /\
  Bsign (b_div x z) = Bsign x /\
  (Rabs (b_real x) = b_real z -> Rabs (b_real (b_div x z)) = 1).
Proof.
  intros Fx Fz Pz L.
  assert (Q : Rabs (b_real x / b_real z) <= 1).
  { unfold Rdiv. rewrite Rabs_mult, (Rabs_pos_eq (/ b_real z)) by (left; apply Rinv_0_lt_compat, Pz).
    apply (Rmult_le_reg_r (b_real z)); auto. rewrite Rmult_assoc, Rinv_l by lra. lra. }
  assert (R : Rabs (rnd64 (b_real x / b_real z)) <= 1).
  { apply abs_round_le_generic; auto; [apply fexp_correct, f64_prec|apply valid_rnd_N|apply round_1]. }
  pose proof (Bdiv_correct 53 1024 f64_prec f64_emax mode_NE x z ltac:(lra)) as C.
  fold (rnd64 (b_real x / b_real z)) in C. rewrite Rlt_bool_true in C.
  2: { eapply Rle_lt_trans; [exact R|]. apply (bpow_lt radix2 0 1024). reflexivity. }
  destruct C as (C1 & C2 & C3). fold (b_div x z) in C1, C2, C3. rewrite Fx in C2.
  assert (Nn : b_is_nan (b_div x z) = false) by (destruct (b_div x z); auto; discriminate).
  splits; auto.
  - rewrite C1. exact R.
  - rewrite C3 by exact Nn.
    assert (Sz : Bsign z = false).
    { destruct z as [s|s| |s m e B]; try discriminate; [simpl in Pz; lra|]. destruct s; auto.
      exfalso. assert (b_real (B754_finite true m e B) < 0); [|lra].
      apply F2R_lt_0. reflexivity. }
    rewrite Sz. apply xorb_false_r.
  - intros E. rewrite C1. destruct (Rcase_abs (b_real x)) as [Neg|Pos].
    + rewrite Rabs_left in E by assumption.
      replace (b_real x / b_real z) with (- (1)) by (rewrite <- E; field; lra).
      unfold rnd64. rewrite round_NE_opp, round_generic; [rewrite Rabs_Ropp; apply Rabs_R1|apply valid_rnd_N|apply round_1].
    + rewrite Rabs_pos_eq in E by lra.
      replace (b_real x / b_real z) with 1 by (rewrite <- E; field; lra).
      unfold rnd64. rewrite round_generic; [apply Rabs_R1|apply valid_rnd_N|apply round_1].
Qed.

Lemma b_div_inf (x : f64) : b_finite x = true -> exists s, b_div x b_inf = B754_zero s.
Proof. destruct x as [s|s| |s m e B]; intros E; try discriminate; eexists; reflexivity. Qed.

(** ** Linf *)

Definition finite_features (phi : Features f64) : Prop := forall i v, stores phi i v -> b_finite v = true.
Definition nonzero_features (phi : Features f64) : Prop := exists i v, stores phi i v /\ b_real v <> 0.

Lemma values_finite (phi : Features f64) : finite_features phi -> all_finite (values phi).
Proof. intros Fp x I. apply values_in in I. destruct I as [i I]. eapply Fp, I. Qed.

Theorem linf_f64 P (phi : Features f64) : keyed phi -> finite_features phi -> nonzero_features phi ->
  let psi := @normalise_by f64 (ScalarF64 P) (@linf_norm f64 (ScalarF64 P)) phi in
  (forall i, stored psi i <-> stored phi i) /\
  (forall i u v, stores phi i u -> stores psi i v ->
     b_finite v = true /\ Rabs (b_real v) <= 1 /\ Bsign v = Bsign u) /\
  exists i v, stores psi i v /\ Rabs (b_real v) = 1.
Proof.
  intros K Fp (i0 & v0 & S0 & N0) psi.
  destruct (@normalise_by_spec f64 (ScalarF64 P) (@linf_norm f64 (ScalarF64 P)) phi K) as (K' & _ & _ & G & St).
  fold psi in K', G, St.
  assert (I0 : In v0 (values phi)) by (apply values_in; eauto).
  destruct (b_linf_norm P (values phi)) as (Fz & B & x & Ix & Ez).
  { apply values_finite, Fp. } { intros E. rewrite E in I0. destruct I0. }
  set (z := @linf_norm f64 (ScalarF64 P) (values phi)) in *.
  assert (Pz : 0 < b_real z). { assert (C := B v0 I0). assert (D := Rabs_pos_lt _ N0). lra. }
  assert (Dv : forall i u v, stores phi i u -> stores psi i v -> v = b_div u z).
  { intros i u v U V. apply get_stores in U; auto. apply get_stores in V; auto. rewrite G, U in V.
    simpl in V. inversion V. reflexivity. }
  splits; auto.
  - intros i u v U V. rewrite (Dv i u v U V).
    destruct (b_div_unit u z) as (D1 & D2 & D3 & D4 & D5); auto.
    + eapply Fp, U.
    + apply B, values_in. eauto.
  - apply values_in in Ix. destruct Ix as [i Ui]. exists i, (b_div x z). split.
    + apply get_stores; auto. rewrite G. apply get_stores in Ui; auto. rewrite Ui. reflexivity.
    + apply (b_div_unit x z); auto.
      * eapply Fp, Ui.
      * apply B, values_in. eauto.
      * rewrite Ez, b_abs_real. reflexivity.
Qed.

(** ** L1 *)

(** [z] is at least [r], possibly infinite. *)
Definition above (z : f64) (r : R) : Prop := z = b_inf \/ b_finite z = true /\ r <= b_real z.

Lemma above_le z r r' : above z r -> r' <= r -> above z r'.
Proof. intros [A|[A B]] L; [left; auto|right]. split; auto. lra. Qed.

Lemma b_abs_sign (x : f64) : b_is_nan x = false -> Bsign (Babs x) = false.
Proof. destruct x; auto; discriminate. Qed.

Lemma b_add_above a y r : above a r -> 0 <= r -> b_finite y = true ->
  above (b_add a (Babs y)) r /\ above (b_add a (Babs y)) (Rabs (b_real y)).
Proof.
  intros A R Fy. assert (Fy' : b_finite (Babs y) = true) by (rewrite b_abs_finite; auto).
  assert (Py := Rabs_pos (b_real y)).
  destruct A as [->|[Fa La]].
  - assert (E : b_add b_inf (Babs y) = b_inf) by (destruct y; try discriminate; reflexivity).
    rewrite E. split; left; reflexivity.
  - pose proof (Bplus_correct 53 1024 f64_prec f64_emax mode_NE a (Babs y) Fa Fy') as C.
    fold (b_add a (Babs y)) in C. destruct (Rlt_bool _ _).
    + destruct C as (C1 & C2 & _). rewrite b_abs_real in C1.
      assert (G : b_real a <= b_real (b_add a (Babs y)) /\ Rabs (b_real y) <= b_real (b_add a (Babs y))).
      { rewrite C1. split; (apply round_ge_generic; [apply fexp_correct, f64_prec|apply valid_rnd_N| |]).
        - apply b_real_format.
        - lra.
        - rewrite <- b_abs_real. apply b_real_format.
        - lra. }
      split; right; split; auto; lra.
    + destruct C as (C1 & C2). rewrite b_abs_sign in C2 by (destruct y; auto; discriminate).
      rewrite C2 in C1.
      assert (E : b_add a (Babs y) = b_inf) by (apply B2SF_eq; rewrite C1; reflexivity).
      rewrite E. split; left; reflexivity.
Qed.

Lemma b_l1_fold : forall l acc r, all_finite l -> above acc r -> 0 <= r ->
  let z := fold_left (fun a x => b_add a (Babs x)) l acc in
  above z r /\ forall x, In x l -> above z (Rabs (b_real x)).
Proof.
  induction l as [|y l IH]; intros acc r Fl A R z; simpl in z.
  - split; auto. intros x [].
  - destruct (b_add_above acc y r A R) as [A1 A2]. { apply Fl. simpl. auto. }
    assert (Fl' : all_finite l) by (intros x I; apply Fl; simpl; auto). split.
    + apply (IH (b_add acc (Babs y)) r); auto.
    + intros x [<-|I].
      * exact (proj1 (IH (b_add acc (Babs y)) (Rabs (b_real y)) Fl' A2 (Rabs_pos _))).
      * apply (IH (b_add acc (Babs y)) r); auto.
Qed.

Theorem l1_f64 P (phi : Features f64) : keyed phi -> finite_features phi -> nonzero_features phi ->
  let psi := @normalise_by f64 (ScalarF64 P) (@l1_norm f64 (ScalarF64 P)) phi in
  (forall i, stored psi i <-> stored phi i) /\
  forall i v, stores psi i v -> b_finite v = true /\ Rabs (b_real v) <= 1.
Proof.
  intros K Fp (i0 & v0 & S0 & N0) psi.
  destruct (@normalise_by_spec f64 (ScalarF64 P) (@l1_norm f64 (ScalarF64 P)) phi K) as (K' & _ & _ & G & St).
  fold psi in K', G, St. split; auto.
  assert (I0 : In v0 (values phi)) by (apply values_in; eauto).
  destruct (b_l1_fold (values phi) b_zero 0) as [_ A].
  { apply values_finite, Fp. } { right. split; [reflexivity|]. simpl. lra. } { lra. }
  change (fold_left (fun a x => b_add a (Babs x)) (values phi) b_zero)
    with (@l1_norm f64 (ScalarF64 P) (values phi)) in A.
  set (z := @l1_norm f64 (ScalarF64 P) (values phi)) in *.
  intros i v V. apply get_stores in V; auto. rewrite G in V.
  destruct (get phi i) as [u|] eqn:U; [|discriminate]. apply get_stores in U; auto.
  simpl in V. inversion V. subst v. clear V. assert (Fu := Fp i u U).
  assert (Au : above z (Rabs (b_real u))) by (apply A, values_in; eauto).
  destruct Au as [E|[Fz L]].
  - change (b_finite (b_div u z) = true /\ Rabs (b_real (b_div u z)) <= 1).
    rewrite E. destruct (b_div_inf u Fu) as [s ->]. split; auto. simpl. rewrite Rabs_R0. lra.
  - destruct (b_div_unit u z) as (D1 & D2 & _); auto.
    destruct (A v0 I0) as [E|[_ L0]]; [rewrite E in Fz; discriminate|].
    assert (D := Rabs_pos_lt _ N0). lra.
Qed.

(** All zeros: 0/0. *)
Theorem l1_f64_zero P (da : list f64) : (forall x, In x da -> exists s, x = B754_zero s) ->
  @normalise_by f64 (ScalarF64 P) (@l1_norm f64 (ScalarF64 P)) (Dense da) =
  Dense (repeat b_nan (length da)).
Proof.
  intros Z.
  assert (E : @l1_norm f64 (ScalarF64 P) da = b_zero).
  { unfold l1_norm. change (@fzero f64 (ScalarF64 P)) with b_zero. induction da as [|x da IH]; simpl; auto.
    destruct (Z x) as [s ->]; [simpl; auto|]. change (b_add b_zero (Babs (B754_zero s))) with b_zero.
    apply IH. intros y I. apply Z. simpl. auto. }
  simpl. rewrite E. f_equal. clear E. induction da as [|x da IH]; simpl; auto.
  destruct (Z x) as [s ->]; [simpl; auto|]. f_equal; auto. apply IH. intros y I. apply Z. simpl. auto.
Qed.

(** ** L0 *)

Lemma b_ofnat_pos n : (1 <= n)%nat ->
  b_dyadic (Z.of_nat n) 0 = b_inf \/
  b_finite (b_dyadic (Z.of_nat n) 0) = true /\ 0 < b_real (b_dyadic (Z.of_nat n) 0).
Proof.
  intros L. unfold b_dyadic.
  pose proof (binary_normalize_correct 53 1024 f64_prec f64_emax mode_NE (Z.of_nat n) 0 false) as C.
  assert (V : 1 <= F2R (Float radix2 (Z.of_nat n) 0)).
  { unfold F2R. simpl. rewrite Rmult_1_r. apply (IZR_le 1). lia. }
  cbv zeta in C. destruct (Rlt_bool _ (bpow radix2 1024)).
  - right. destruct C as (C1 & C2 & _). split; auto. rewrite C1.
    apply Rlt_le_trans with 1; [lra|].
    apply round_ge_generic; auto; [apply fexp_correct, f64_prec|apply valid_rnd_N|apply round_1].
  - left. apply B2SF_eq. rewrite C. rewrite Rlt_bool_false by lra. reflexivity.
Qed.

Lemma b_zero_div_pos z : z = b_inf \/ b_finite z = true /\ 0 < b_real z -> b_div b_zero z = b_zero.
Proof.
  intros [->|[F P]]; [reflexivity|]. destruct z as [s|s| |s m e B]; try discriminate.
  - simpl in P. lra.
  - destruct s; [|reflexivity]. exfalso.
    assert (b_real (B754_finite true m e B) < 0); [|lra]. apply F2R_lt_0. reflexivity.
Qed.

Theorem l0_f64_sparse P d (m : hmap f64) : wf (Sparse (MkSparse d m)) -> m <> [] ->
  @l0_normalise f64 (ScalarF64 P) (Sparse (MkSparse d m)) =
  Ret (Sparse (MkSparse d (map (fun kv => (fst kv, b_div (snd kv) (b_dyadic (Z.of_nat (length m)) 0))) m))).
Proof.
  intros W Ne. unfold l0_normalise, n_active, fmap_into. cbn [sa_acts sa_dim].
  assert (Z : b_div b_zero (b_dyadic (Z.of_nat (length m)) 0) = b_zero).
  { apply b_zero_div_pos, b_ofnat_pos. destruct m; [tauto|simpl; lia]. }
  change (@fofnat f64 (ScalarF64 P) (length m)) with (b_dyadic (Z.of_nat (length m)) 0).
  change (@fdiv f64 (ScalarF64 P)) with b_div.
  change (@fzero f64 (ScalarF64 P)) with b_zero. rewrite Z.
  assert (T : @fltb f64 (ScalarF64 P) (@fabs f64 (ScalarF64 P) b_zero) (@sparsity_tol f64 (ScalarF64 P)) = true)
    by (vm_compute; reflexivity).
  rewrite T. rewrite (map_collect_id (fun x => b_div x (b_dyadic (Z.of_nat (length m)) 0))) by apply W.
  reflexivity.
Qed.

Theorem l0_f64_empty P d :
  @l0_normalise f64 (ScalarF64 P) (Sparse (MkSparse d [])) = Ret (Dense (repeat b_nan d)).
Proof.
  unfold l0_normalise, n_active, fmap_into. cbn [sa_acts sa_dim length].
  assert (Z : @fdiv f64 (ScalarF64 P) (@fzero f64 (ScalarF64 P)) (@fofnat f64 (ScalarF64 P) 0) = b_nan) by reflexivity.
  rewrite Z. reflexivity.
Qed.

(** ** Floor and saturating cast (C54) *)

Theorem b_floor_isize_finite (x : f64) : b_finite x = true ->
  b_floor_isize x = clamp_isize (Zfloor (b_real x)).
Proof.
  destruct x as [s|s| |s m e B]; intros F; try discriminate.
  - simpl. rewrite Zfloor_IZR. reflexivity.
  - unfold b_floor_isize. f_equal. cbn [B2R].
    assert (Cm : cond_Zopp s (Zpos m) = if s then Zneg m else Zpos m) by (destruct s; reflexivity).
    rewrite Cm. set (n := if s then Zneg m else Zpos m). unfold F2R. cbn [Fnum Fexp].
    destruct (Z.leb_spec 0 e) as [L|L].
    + rewrite <- IZR_Zpower by assumption. rewrite <- mult_IZR, Zfloor_IZR. reflexivity.
    + replace (bpow radix2 e) with (/ IZR (2 ^ (- e))).
      * rewrite <- Zfloor_div. { reflexivity. } apply Z.pow_nonzero; lia.
      * rewrite (IZR_Zpower radix2) by lia. rewrite <- bpow_opp. f_equal. lia.
Qed.

Theorem b_floor_isize_range (x : f64) : (isize_min <= b_floor_isize x <= isize_max)%Z.
Proof.
  assert (C : forall z, (isize_min <= clamp_isize z <= isize_max)%Z).
  { intros z. unfold clamp_isize, isize_min, isize_max. lia. }
  destruct x as [s|s| |s m e B]; simpl; auto; unfold isize_min, isize_max; try (destruct s); lia.
Qed.
