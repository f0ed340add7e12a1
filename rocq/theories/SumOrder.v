(** f64 sums in an unspecified order: what ndarray's [sum] and [dot] may return. *)
From Coq Require Import List Arith ZArith Lia Reals Lra Permutation Bool.
From Flocq Require Import Core.Core IEEE754.BinarySingleNaN.
From Verif Require Import Base Scalar ScalarR ScalarF64 HMap HMapFacts NdArray VecFacts Features Spec
  FeatureFacts F64Facts NormF64.
Import ListNotations.
Local Open Scope R_scope.

(** [x] is a floating-point sum of [l], taken in some order and grouping, with
    any number of accumulators starting at 0.0. *)
Inductive adds : list f64 -> f64 -> Prop :=
| adds_zero : adds [] b_zero
| adds_one x : adds [x] x
| adds_add l1 l2 l x y : adds l1 x -> adds l2 y -> Permutation (l1 ++ l2) l -> adds l (b_add x y).

(** The fused multiply-add x * y + z, rounded once. Rust code never contracts to
    it; BLAS libraries do. *)
Definition b_fma : f64 -> f64 -> f64 -> f64 := @Bfma 53 1024 f64_prec f64_emax mode_NE.

(** [x] is a floating-point sum of the products of the pairs, in some order and
    grouping, with any number of accumulators starting at 0.0. A product is
    rounded before it is added, or added to an accumulator in one fused
    operation. *)
Inductive dots : list (f64 * f64) -> f64 -> Prop :=
| dots_zero : dots [] b_zero
| dots_mul a b : dots [(a, b)] (b_mul a b)
| dots_fma l1 l a b x : dots l1 x -> Permutation ((a, b) :: l1) l -> dots l (b_fma a b x)
| dots_add l1 l2 l x y : dots l1 x -> dots l2 y -> Permutation (l1 ++ l2) l -> dots l (b_add x y).

(** ndarray adds the elements, or the products of the elements, in some order:
    unrolled over eight accumulators for contiguous data, left to right for
    strided views. With the [blas] feature (Cargo.toml) [dot] on 32 elements or
    more is [cblas_ddot], which may fuse. *)
Definition any_order (P : Platform) : Prop :=
  (forall l, adds l (p_sum P l)) /\
  (forall a b, length a = length b -> dots (combine a b) (p_dot P a b)).

(** Rounding every product is one of the ways. *)
Lemma adds_dots_map : forall l x, adds l x -> forall L, l = map (fun p => b_mul (fst p) (snd p)) L -> dots L x.
Proof.
  intros l x A. induction A as [|x|l1 l2 l x y A1 IH1 A2 IH2 P]; intros L E.
  - destruct L; [constructor|discriminate].
  - destruct L as [|[a b] [|]]; try discriminate. injection E as ->. constructor.
  - subst l. apply Permutation_map_inv in P. destruct P as (L' & Q & P).
    symmetry in Q. apply map_eq_app in Q. destruct Q as (L1 & L2 & -> & Q1 & Q2).
    eapply dots_add; [apply IH1; symmetry; exact Q1|apply IH2; symmetry; exact Q2|apply Permutation_sym, P].
Qed.

Lemma map2_combine (a b : list f64) : map2 b_mul a b = map (fun p => b_mul (fst p) (snd p)) (combine a b).
Proof. revert b. induction a as [|x a IH]; intros [|y b]; cbn; auto. f_equal. apply IH. Qed.

Lemma adds_dots a b x : adds (map2 b_mul a b) x -> dots (combine a b) x.
Proof. intros A. eapply adds_dots_map; [exact A|apply map2_combine]. Qed.

Lemma adds_perm l l' x : adds l x -> Permutation l l' -> adds l' x.
Proof.
  intros A P. destruct A as [|x|l1 l2 l x y A1 A2 P0].
  - apply Permutation_nil in P. subst. constructor.
  - apply Permutation_length_1_inv in P. subst. constructor.
  - eapply adds_add; eauto using Permutation_trans.
Qed.

Lemma adds_fold : forall l l0 acc, adds l0 acc -> adds (l0 ++ l) (fold_left b_add l acc).
Proof.
  induction l as [|x l IH]; intros l0 acc A; simpl.
  - rewrite app_nil_r. auto.
  - replace (l0 ++ x :: l) with ((l0 ++ [x]) ++ l) by (rewrite <- app_assoc; reflexivity).
    apply IH. eapply adds_add; [exact A|constructor|apply Permutation_refl].
Qed.

Lemma adds_fold0 l : adds l (fold_left b_add l b_zero).
Proof. apply (adds_fold l [] b_zero). constructor. Qed.

Lemma simple_any_order : any_order SimplePlatform.
Proof. split; intros; [|apply adds_dots]; apply adds_fold0. Qed.

(** ** ndarray's unrolled loop, as an instance *)

Definition lanes8 : list f64 := repeat b_zero 8.

Definition join8 (p : list f64) : f64 :=
  let q := fun i => nth i p b_zero in
  b_add (b_add (b_add (b_add b_zero (b_add (q 0%nat) (q 4%nat)))
    (b_add (q 1%nat) (q 5%nat))) (b_add (q 2%nat) (q 6%nat))) (b_add (q 3%nat) (q 7%nat)).

Fixpoint unrolled (fuel : nat) (l p : list f64) : f64 :=
  match fuel with
  | O => fold_left b_add l (join8 p)
  | S fuel' =>
      if (8 <=? length l)%nat then unrolled fuel' (skipn 8 l) (map2 b_add p (firstn 8 l))
      else fold_left b_add l (join8 p)
  end.

Definition unrolled_sum (l : list f64) : f64 := unrolled (length l) l lanes8.

Lemma map2_adds : forall ls (ps xs : list f64), Forall2 adds ls ps -> length xs = length ps ->
  exists ls', Forall2 adds ls' (map2 b_add ps xs) /\ Permutation (concat ls') (concat ls ++ xs).
Proof.
  induction ls as [|l ls IH]; intros ps xs A L; inversion A; subst; destruct xs as [|x xs]; try discriminate.
  - exists []. split; auto.
  - destruct (IH l' xs) as (ls' & A' & P'); auto.
    exists ((l ++ [x]) :: ls'). split.
    + simpl. constructor; auto. eapply adds_add; [eassumption|constructor|apply Permutation_refl].
    + simpl. rewrite P'. rewrite <- !app_assoc. apply Permutation_app_head. simpl.
      apply Permutation_middle.
Qed.

Lemma perm8 {A} (a b c d e f g h : list A) :
  Permutation (a ++ e ++ b ++ f ++ c ++ g ++ d ++ h) (a ++ b ++ c ++ d ++ e ++ f ++ g ++ h).
Proof.
  apply Permutation_app_head.
  rewrite (Permutation_app_swap_app e b). apply Permutation_app_head.
  rewrite (Permutation_app_swap_app f c), (Permutation_app_swap_app e c). apply Permutation_app_head.
  rewrite (Permutation_app_swap_app g d), (Permutation_app_swap_app f d), (Permutation_app_swap_app e d).
  reflexivity.
Qed.

Lemma join8_adds ls (ps : list f64) : Forall2 adds ls ps -> length ps = 8%nat ->
  adds (concat ls) (join8 ps).
Proof.
  intros A L.
  destruct ps as [|p0 [|p1 [|p2 [|p3 [|p4 [|p5 [|p6 [|p7 [|]]]]]]]]]; try discriminate.
  do 8 (destruct ls as [|? ls]; [inversion A|]; inversion A; clear A; subst;
        match goal with B : Forall2 adds ls _ |- _ => rename B into A end).
  inversion A; subst. unfold join8. cbn [nth concat]. rewrite app_nil_r.
  eapply adds_perm; [|apply perm8].
  replace (l ++ l3 ++ l0 ++ l4 ++ l1 ++ l5 ++ l2 ++ l6)
    with (((([] ++ (l ++ l3)) ++ (l0 ++ l4)) ++ (l1 ++ l5)) ++ (l2 ++ l6))
    by (simpl; rewrite <- !app_assoc; reflexivity).
  repeat (eapply adds_add; [| |apply Permutation_refl]); auto. constructor.
Qed.

Lemma unrolled_adds : forall fuel l ls ps, Forall2 adds ls ps -> length ps = 8%nat ->
  adds (concat ls ++ l) (unrolled fuel l ps).
Proof.
  induction fuel as [|fuel IH]; intros l ls ps A L; cbn [unrolled].
  - apply adds_fold, join8_adds; auto.
  - destruct (Nat.leb_spec 8 (length l)) as [G|G].
    + destruct (map2_adds ls ps (firstn 8 l)) as (ls' & A' & P'); auto.
      { rewrite firstn_length, L. lia. }
      assert (L' : length (map2 b_add ps (firstn 8 l)) = 8%nat).
      { rewrite map2_length, firstn_length, L. lia. }
      eapply adds_perm; [apply (IH (skipn 8 l) ls' _ A' L')|].
      rewrite P', <- app_assoc, firstn_skipn. reflexivity.
    + apply adds_fold, join8_adds; auto.
Qed.

Lemma unrolled_sum_adds l : adds l (unrolled_sum l).
Proof.
  apply (unrolled_adds (length l) l (repeat [] 8) lanes8); [|reflexivity].
  unfold lanes8. simpl. repeat constructor.
Qed.

(** SimplePlatform with ndarray's order. *)
Definition UnrolledPlatform : Platform := {|
  p_cos := p_cos SimplePlatform; p_exp := p_exp SimplePlatform; p_ln1p := p_ln1p SimplePlatform;
  p_powi := p_powi SimplePlatform;
  p_sum := unrolled_sum;
  p_dot a b := unrolled_sum (map2 b_mul a b)
|}.

Lemma unrolled_any_order : any_order UnrolledPlatform.
Proof. split; intros; [|apply adds_dots]; apply unrolled_sum_adds. Qed.

(** ** A fused loop, as another *)

Definition fused_dot (a b : list f64) : f64 := fold_left (fun x p => b_fma (fst p) (snd p) x) (combine a b) b_zero.

Definition FusedPlatform : Platform := {|
  p_cos := fun _ => b_zero; p_exp := fun _ => b_zero; p_ln1p := fun _ => b_zero;
  p_powi := b_powi; p_sum := unrolled_sum; p_dot := fused_dot
|}.

Lemma dots_fold : forall L L0 x, dots L0 x -> dots (L0 ++ L) (fold_left (fun x p => b_fma (fst p) (snd p) x) L x).
Proof.
  induction L as [|[a b] L IH]; intros L0 x D; cbn [fold_left].
  - rewrite app_nil_r. exact D.
  - replace (L0 ++ (a, b) :: L) with ((L0 ++ [(a, b)]) ++ L) by (rewrite <- app_assoc; reflexivity).
    apply IH. eapply dots_fma; [exact D|]. apply Permutation_cons_append.
Qed.

Lemma fused_any_order : any_order FusedPlatform.
Proof.
  split; intros; [apply unrolled_sum_adds|]. exact (dots_fold (combine a b) [] b_zero dots_zero).
Qed.

(** ** Zeros *)

Definition is_zero (x : f64) : Prop := exists s, x = B754_zero s.

Lemma is_zero_real x : is_zero x -> b_real x = 0 /\ b_finite x = true /\ Beqb x b_zero = true.
Proof. intros [s ->]. destruct s; repeat split. Qed.

Lemma b_add_is_zero x y : is_zero x -> is_zero y -> is_zero (b_add x y).
Proof. intros [s ->] [t ->]. destruct s, t; eexists; reflexivity. Qed.

Lemma b_mul_is_zero_r x y : b_finite x = true -> is_zero y -> is_zero (b_mul x y).
Proof. intros Fx [t ->]. destruct x; try discriminate; eexists; reflexivity. Qed.

Lemma b_mul_is_zero_l x y : b_finite y = true -> is_zero x -> is_zero (b_mul x y).
Proof. intros Fx [t ->]. destruct y; try discriminate; eexists; reflexivity. Qed.

Lemma adds_zeros l x : adds l x -> (forall y, In y l -> is_zero y) -> is_zero x.
Proof.
  intros A. induction A as [|x|l1 l2 l x y A1 IH1 A2 IH2 P]; intros Z.
  - eexists; reflexivity.
  - apply Z. left. reflexivity.
  - apply b_add_is_zero; [apply IH1|apply IH2]; intros z I; apply Z; apply (Permutation_in _ P);
      apply in_or_app; auto.
Qed.

Lemma b_fma_is_zero x y z : b_finite x = true -> is_zero y -> is_zero z -> is_zero (b_fma x y z).
Proof. intros Fx [s ->] [t ->]. destruct x; try discriminate; eexists; reflexivity. Qed.

Lemma dots_zeros L x : dots L x -> (forall a b, In (a, b) L -> b_finite a = true /\ is_zero b) -> is_zero x.
Proof.
  intros D. induction D as [|a b|l1 l a b x D IH P|l1 l2 l x y D1 IH1 D2 IH2 P]; intros Z.
  - eexists; reflexivity.
  - destruct (Z a b (or_introl eq_refl)). apply b_mul_is_zero_r; auto.
  - assert (Z' : forall a' b', In (a', b') ((a, b) :: l1) -> b_finite a' = true /\ is_zero b')
      by (intros a' b' I; apply Z, (Permutation_in _ P I)).
    destruct (Z' a b (or_introl eq_refl)). apply b_fma_is_zero; auto. apply IH. intros a' b' I. apply Z'. right. exact I.
  - apply b_add_is_zero; [apply IH1|apply IH2]; intros a b I; apply Z, (Permutation_in _ P), in_or_app; auto.
Qed.

(** ** Errors *)

Lemma adds_nil x : adds [] x -> x = b_zero.
Proof.
  intros A. remember [] as l eqn:E. induction A as [|x|l1 l2 l x y A1 IH1 A2 IH2 P]; auto; try discriminate.
  subst l. apply Permutation_sym, Permutation_nil in P. apply app_eq_nil in P. destruct P as [-> ->].
  rewrite IH1, IH2 by reflexivity. reflexivity.
Qed.

Lemma adds_finite l x : adds l x -> b_finite x = true -> forall y, In y l -> b_finite y = true.
Proof.
  intros A. induction A as [|x|l1 l2 l x y A1 IH1 A2 IH2 P]; intros Fx z I.
  - destruct I.
  - destruct I as [<-|[]]. auto.
  - apply b_add_finite_inv in Fx. destruct Fx as (Fx & Fy & _).
    apply (Permutation_in _ (Permutation_sym P)) in I. apply in_app_or in I. destruct I; auto.
Qed.

Lemma b_add_real_zero_r x : b_finite (b_add x b_zero) = true -> b_real (b_add x b_zero) = b_real x.
Proof.
  intros E. destruct (b_add_finite_inv _ _ E) as (_ & _ & ->).
  change (b_real b_zero) with 0. rewrite Rplus_0_r. apply rnd64_b_real.
Qed.

Lemma b_add_real_zero_l x : b_finite (b_add b_zero x) = true -> b_real (b_add b_zero x) = b_real x.
Proof.
  intros E. destruct (b_add_finite_inv _ _ E) as (_ & _ & ->).
  change (b_real b_zero) with 0. rewrite Rplus_0_l. apply rnd64_b_real.
Qed.

Lemma abs_sum_app l l' : abs_sum (l ++ l') = abs_sum l + abs_sum l'.
Proof. unfold abs_sum. rewrite map_app. induction l; simpl; lra. Qed.

Lemma rsum_app' l l' : rsum (l ++ l') = rsum l + rsum l'.
Proof. induction l; simpl; lra. Qed.

Lemma rsum_abs_sum l : Rabs (rsum l) <= abs_sum l.
Proof.
  unfold abs_sum. induction l as [|x l IH]; simpl; [rewrite Rabs_R0; lra|].
  eapply Rle_trans; [apply Rabs_triang|]. lra.
Qed.

(** Whatever the order: n terms, n factors (1 + 2^-53). *)
Theorem adds_error l x : adds l x -> b_finite x = true ->
  Rabs (b_real x - rsum (map b_real l)) <= ((1 + uro) ^ length l - 1) * abs_sum (map b_real l).
Proof.
  intros A. induction A as [|x|l1 l2 l x y A1 IH1 A2 IH2 P]; intros Fx.
  - simpl. unfold abs_sum. simpl. change (b_real b_zero) with 0. rewrite Rminus_0_r, Rabs_R0. lra.
  - simpl. unfold abs_sum. simpl. rewrite Rplus_0_r, Rminus_diag_eq by reflexivity. rewrite Rabs_R0.
    pose proof uro_pos. pose proof (Rabs_pos (b_real x)). nra.
  - assert (E1 : rsum (map b_real l) = rsum (map b_real l1) + rsum (map b_real l2)).
    { rewrite <- rsum_app', <- map_app. symmetry. apply rsum_perm', Permutation_map, P. }
    assert (E2 : abs_sum (map b_real l) = abs_sum (map b_real l1) + abs_sum (map b_real l2)).
    { rewrite <- abs_sum_app, <- map_app. symmetry. unfold abs_sum.
      apply rsum_perm', Permutation_map, Permutation_map, P. }
    assert (E3 : length l = (length l1 + length l2)%nat).
    { rewrite <- app_length. symmetry. apply Permutation_length, P. }
    rewrite E1, E2, E3. clear E1 E2 E3 P l.
    destruct (b_add_finite_inv _ _ Fx) as (F1 & F2 & _). specialize (IH1 F1). specialize (IH2 F2).
    destruct l1 as [|a1 l1].
    { apply adds_nil in A1. subst x. rewrite b_add_real_zero_l by auto.
      cbn [length Nat.add map]. unfold abs_sum at 1. simpl (rsum (map Rabs [])). simpl (rsum []).
      rewrite !Rplus_0_l. exact IH2. }
    destruct l2 as [|a2 l2].
    { apply adds_nil in A2. subst y. rewrite b_add_real_zero_r by auto.
      rewrite Nat.add_0_r. cbn [map]. unfold abs_sum at 2. simpl (rsum (map Rabs [])). simpl (rsum []).
      rewrite !Rplus_0_r. exact IH1. }
    set (n1 := length (a1 :: l1)) in *. set (n2 := length (a2 :: l2)) in *.
    assert (N1 : (1 <= n1)%nat) by (unfold n1; simpl; lia).
    assert (N2 : (1 <= n2)%nat) by (unfold n2; simpl; lia).
    set (s1 := rsum (map b_real (a1 :: l1))) in *. set (s2 := rsum (map b_real (a2 :: l2))) in *.
    assert (B1 := rsum_abs_sum (map b_real (a1 :: l1))). assert (B2 := rsum_abs_sum (map b_real (a2 :: l2))).
    fold s1 in B1. fold s2 in B2.
    set (t1 := abs_sum (map b_real (a1 :: l1))) in *. set (t2 := abs_sum (map b_real (a2 :: l2))) in *.
    destruct (b_add_error x y Fx) as (d & D & Q). rewrite Q.
    set (u := b_real x) in *. set (v := b_real y) in *.
    rewrite pow_add. set (p := (1 + uro) ^ n1) in *. set (q := (1 + uro) ^ n2) in *.
    assert (U := uro_pos).
    assert (P1 : 1 + uro <= p).
    { unfold p. rewrite <- (pow_1 (1 + uro)) at 1. apply Rle_pow; [lra|auto]. }
    assert (P2 : 1 + uro <= q).
    { unfold q. rewrite <- (pow_1 (1 + uro)) at 1. apply Rle_pow; [lra|auto]. }
    assert (T1 : 0 <= t1) by apply abs_sum_pos. assert (T2 : 0 <= t2) by apply abs_sum_pos.
    replace ((u + v) * (1 + d) - (s1 + s2)) with ((u - s1) * (1 + d) + (v - s2) * (1 + d) + (s1 + s2) * d) by ring.
    assert (D1 : Rabs (1 + d) <= 1 + uro).
    { eapply Rle_trans; [apply Rabs_triang|]. rewrite Rabs_R1. lra. }
    eapply Rle_trans; [apply Rabs_triang|].
    eapply Rle_trans; [apply Rplus_le_compat_r, Rabs_triang|]. rewrite !Rabs_mult.
    assert (X1 : Rabs (u - s1) * Rabs (1 + d) <= (p - 1) * t1 * (1 + uro))
      by (apply Rmult_le_compat; auto using Rabs_pos).
    assert (X2 : Rabs (v - s2) * Rabs (1 + d) <= (q - 1) * t2 * (1 + uro))
      by (apply Rmult_le_compat; auto using Rabs_pos).
    assert (X3 : Rabs (s1 + s2) * Rabs d <= (t1 + t2) * uro).
    { apply Rmult_le_compat; auto using Rabs_pos. eapply Rle_trans; [apply Rabs_triang|]. lra. }
    assert (Y1 : (p - 1) * t1 * (1 + uro) + t1 * uro <= (p * q - 1) * t1).
    { replace ((p - 1) * t1 * (1 + uro) + t1 * uro) with ((p * (1 + uro) - 1) * t1) by ring.
      apply Rmult_le_compat_r; auto. assert (p * (1 + uro) <= p * q) by (apply Rmult_le_compat_l; lra). lra. }
    assert (Y2 : (q - 1) * t2 * (1 + uro) + t2 * uro <= (p * q - 1) * t2).
    { replace ((q - 1) * t2 * (1 + uro) + t2 * uro) with (((1 + uro) * q - 1) * t2) by ring.
      apply Rmult_le_compat_r; auto. assert ((1 + uro) * q <= p * q) by (apply Rmult_le_compat_r; lra). lra. }
    lra.
Qed.

(** ** Errors of products *)

Lemma b_fma_finite_inv x y z : b_finite (b_fma x y z) = true ->
  b_finite x = true /\ b_finite y = true /\ b_finite z = true /\
  b_real (b_fma x y z) = rnd64 (b_real x * b_real y + b_real z).
Proof.
  intros E.
  assert (Q : b_finite x = true /\ b_finite y = true /\ b_finite z = true).
  { destruct x as [|[|]| |[|] ? ? ?], y as [|[|]| |[|] ? ? ?], z as [|[|]| |]; try discriminate E; auto. }
  destruct Q as (Fx & Fy & Fz). splits; auto.
  pose proof (Bfma_correct 53 1024 f64_prec f64_emax mode_NE x y z Fx Fy Fz) as C. cbv zeta in C.
  destruct (Rlt_bool _ _); [apply C|]. apply overflow_not_finite in C. unfold b_fma in E. congruence.
Qed.

Lemma b_fma_error x y z : b_finite (b_fma x y z) = true ->
  exists d e, Rabs d <= uro /\ Rabs e <= eta64 /\ b_real (b_fma x y z) = (b_real x * b_real y + b_real z) * (1 + d) + e.
Proof. intros E. destruct (b_fma_finite_inv x y z E) as (_ & _ & _ & ->). apply rnd64_error. Qed.

Definition prod_of (p : f64 * f64) : R := b_real (fst p) * b_real (snd p).

Lemma dots_nil x : dots [] x -> x = b_zero.
Proof.
  intros A. remember [] as l eqn:E. induction A as [|a b|l1 l a b x A IH P|l1 l2 l x y A1 IH1 A2 IH2 P]; auto; try discriminate.
  - subst l. apply Permutation_sym, Permutation_nil in P. discriminate.
  - subst l. apply Permutation_sym, Permutation_nil in P. apply app_eq_nil in P. destruct P as [-> ->].
    rewrite IH1, IH2 by reflexivity. reflexivity.
Qed.

(** Whatever the order and the fusing: n products, n + 1 factors (1 + 2^-53), and
    an underflow for each product. *)
Theorem dots_error L x : dots L x -> b_finite x = true ->
  Rabs (b_real x - rsum (map prod_of L)) <=
  ((1 + uro) ^ S (length L) - 1) * abs_sum (map prod_of L) + (1 + uro) ^ length L * (INR (length L) * eta64).
Proof.
  pose proof uro_pos as U. pose proof eta64_pos as H.
  intros D. induction D as [|a b|l1 l a b x D IH P|l1 l2 l x y D1 IH1 D2 IH2 P]; intros Fx.
  - cbn [map length INR]. unfold abs_sum. simpl. change (b_real b_zero) with 0. rewrite Rminus_0_r, Rabs_R0. lra.
  - destruct (b_mul_error a b Fx) as (d & e & Dd & De & ->). cbn [map length INR rsum fold_right]. unfold abs_sum, prod_of.
    cbn [map rsum fold_right fst snd]. set (p := b_real a * b_real b) in *.
    replace (p * (1 + d) + e - (p + 0)) with (p * d + e) by ring. eapply Rle_trans; [apply Rabs_triang|]. rewrite Rabs_mult.
    assert (Rabs p * Rabs d <= Rabs p * uro) by (apply Rmult_le_compat_l; auto using Rabs_pos). pose proof (Rabs_pos p).
    assert (0 <= uro * uro * Rabs p) by (apply Rmult_le_pos; auto; apply Rmult_le_pos; lra).
    assert (0 <= uro * Rabs p) by (apply Rmult_le_pos; lra). assert (0 <= uro * eta64) by (apply Rmult_le_pos; lra). simpl. lra.
  - assert (E1 : rsum (map prod_of l) = prod_of (a, b) + rsum (map prod_of l1)).
    { rewrite <- (rsum_perm' _ _ (Permutation_map prod_of P)). reflexivity. }
    assert (E2 : abs_sum (map prod_of l) = Rabs (prod_of (a, b)) + abs_sum (map prod_of l1)).
    { unfold abs_sum. rewrite <- (rsum_perm' _ _ (Permutation_map Rabs (Permutation_map prod_of P))). reflexivity. }
    assert (E3 : length l = S (length l1)) by (rewrite <- (Permutation_length P); reflexivity).
    rewrite E1, E2, E3. clear E1 E2 E3 P l.
    destruct (b_fma_finite_inv _ _ _ Fx) as (_ & _ & Fz & _). specialize (IH Fz).
    destruct (b_fma_error _ _ _ Fx) as (d & e & Dd & De & ->). unfold prod_of at 1 3. cbn [fst snd].
    set (p := b_real a * b_real b) in *. set (u := b_real x) in *. set (n := length l1) in *.
    assert (B := rsum_abs_sum (map prod_of l1)). assert (T0 := abs_sum_pos (map prod_of l1)).
    set (s := rsum (map prod_of l1)) in *. set (t := abs_sum (map prod_of l1)) in *.
    rewrite S_INR. change ((1 + uro) ^ S (S n)) with ((1 + uro) * (1 + uro) ^ S n).
    change ((1 + uro) ^ S n) with ((1 + uro) * (1 + uro) ^ n) in *. set (q := (1 + uro) ^ n) in *.
    assert (Q1 : 1 <= q) by apply pow_1_uro. assert (N0 := pos_INR n).
    replace ((p + u) * (1 + d) + e - (p + s)) with ((u - s) * (1 + d) + (p + s) * d + e) by ring.
    assert (D1 : Rabs (1 + d) <= 1 + uro). { eapply Rle_trans; [apply Rabs_triang|]. rewrite Rabs_R1. lra. }
    eapply Rle_trans; [apply Rabs_triang|]. eapply Rle_trans; [apply Rplus_le_compat_r, Rabs_triang|]. rewrite !Rabs_mult.
    assert (X1 : Rabs (u - s) * Rabs (1 + d) <= (((1 + uro) * q - 1) * t + q * (INR n * eta64)) * (1 + uro))
      by (apply Rmult_le_compat; auto using Rabs_pos).
    assert (X2 : Rabs (p + s) * Rabs d <= (Rabs p + t) * uro).
    { apply Rmult_le_compat; auto using Rabs_pos. eapply Rle_trans; [apply Rabs_triang|]. lra. }
    pose proof (Rabs_pos p) as Pp.
    assert (Y1 : Rabs p * uro <= ((1 + uro) * ((1 + uro) * q) - 1) * Rabs p).
    { rewrite Rmult_comm. apply Rmult_le_compat_r; auto.
      assert ((1 + uro) * 1 <= (1 + uro) * ((1 + uro) * q)); [|lra]. apply Rmult_le_compat_l; [lra|].
      assert (1 * 1 <= (1 + uro) * q) by (apply Rmult_le_compat; lra). lra. }
    assert (Y2 : eta64 <= (1 + uro) * q * eta64).
    { rewrite <- (Rmult_1_l eta64) at 1. apply Rmult_le_compat_r; [lra|].
      assert (1 * 1 <= (1 + uro) * q) by (apply Rmult_le_compat; lra). lra. }
    lra.
  - assert (E1 : rsum (map prod_of l) = rsum (map prod_of l1) + rsum (map prod_of l2)).
    { rewrite <- rsum_app', <- map_app. symmetry. apply rsum_perm', Permutation_map, P. }
    assert (E2 : abs_sum (map prod_of l) = abs_sum (map prod_of l1) + abs_sum (map prod_of l2)).
    { rewrite <- abs_sum_app, <- map_app. symmetry. unfold abs_sum. apply rsum_perm', Permutation_map, Permutation_map, P. }
    assert (E3 : length l = (length l1 + length l2)%nat).
    { rewrite <- app_length. symmetry. apply Permutation_length, P. }
    rewrite E1, E2, E3. clear E1 E2 E3 P l.
    destruct (b_add_finite_inv _ _ Fx) as (F1 & F2 & _). specialize (IH1 F1). specialize (IH2 F2).
    destruct l1 as [|a1 l1].
    { apply dots_nil in D1. subst x. rewrite b_add_real_zero_l by auto.
      cbn [length Nat.add map]. unfold abs_sum at 1. simpl (rsum (map Rabs [])). simpl (rsum []). rewrite !Rplus_0_l. exact IH2. }
    destruct l2 as [|a2 l2].
    { apply dots_nil in D2. subst y. rewrite b_add_real_zero_r by auto.
      rewrite Nat.add_0_r. cbn [map]. unfold abs_sum at 2. simpl (rsum (map Rabs [])). simpl (rsum []). rewrite !Rplus_0_r. exact IH1. }
    set (n1 := length (a1 :: l1)) in *. set (n2 := length (a2 :: l2)) in *.
    assert (N1 : (1 <= n1)%nat) by (unfold n1; simpl; lia). assert (N2 : (1 <= n2)%nat) by (unfold n2; simpl; lia).
    assert (B1 := rsum_abs_sum (map prod_of (a1 :: l1))). assert (B2 := rsum_abs_sum (map prod_of (a2 :: l2))).
    assert (T1 := abs_sum_pos (map prod_of (a1 :: l1))). assert (T2 := abs_sum_pos (map prod_of (a2 :: l2))).
    set (s1 := rsum (map prod_of (a1 :: l1))) in *. set (s2 := rsum (map prod_of (a2 :: l2))) in *.
    set (t1 := abs_sum (map prod_of (a1 :: l1))) in *. set (t2 := abs_sum (map prod_of (a2 :: l2))) in *.
    destruct (b_add_error x y Fx) as (d & D & ->). set (u := b_real x) in *. set (v := b_real y) in *.
    rewrite plus_INR. assert (I1 := pos_INR n1). assert (I2 := pos_INR n2).
    change ((1 + uro) ^ S n1) with ((1 + uro) * (1 + uro) ^ n1) in *.
    change ((1 + uro) ^ S n2) with ((1 + uro) * (1 + uro) ^ n2) in *.
    change ((1 + uro) ^ S (n1 + n2)) with ((1 + uro) * (1 + uro) ^ (n1 + n2)). rewrite pow_add.
    set (p := (1 + uro) ^ n1) in *. set (q := (1 + uro) ^ n2) in *.
    assert (P1 : 1 + uro <= p). { unfold p. rewrite <- (pow_1 (1 + uro)) at 1. apply Rle_pow; [lra|auto]. }
    assert (P2 : 1 + uro <= q). { unfold q. rewrite <- (pow_1 (1 + uro)) at 1. apply Rle_pow; [lra|auto]. }
    replace ((u + v) * (1 + d) - (s1 + s2)) with ((u - s1) * (1 + d) + (v - s2) * (1 + d) + (s1 + s2) * d) by ring.
    assert (Dd : Rabs (1 + d) <= 1 + uro). { eapply Rle_trans; [apply Rabs_triang|]. rewrite Rabs_R1. lra. }
    eapply Rle_trans; [apply Rabs_triang|]. eapply Rle_trans; [apply Rplus_le_compat_r, Rabs_triang|]. rewrite !Rabs_mult.
    assert (X1 : Rabs (u - s1) * Rabs (1 + d) <= (((1 + uro) * p - 1) * t1 + p * (INR n1 * eta64)) * (1 + uro))
      by (apply Rmult_le_compat; auto using Rabs_pos).
    assert (X2 : Rabs (v - s2) * Rabs (1 + d) <= (((1 + uro) * q - 1) * t2 + q * (INR n2 * eta64)) * (1 + uro))
      by (apply Rmult_le_compat; auto using Rabs_pos).
    assert (X3 : Rabs (s1 + s2) * Rabs d <= (t1 + t2) * uro).
    { apply Rmult_le_compat; auto using Rabs_pos. eapply Rle_trans; [apply Rabs_triang|]. lra. }
    assert (M1 : p * (1 + uro) <= p * q) by (apply Rmult_le_compat_l; lra).
    assert (M2 : q * (1 + uro) <= p * q) by (rewrite (Rmult_comm p q); apply Rmult_le_compat_l; lra).
    assert (Y1 : ((1 + uro) * p - 1) * t1 * (1 + uro) + t1 * uro <= ((1 + uro) * (p * q) - 1) * t1).
    { replace (((1 + uro) * p - 1) * t1 * (1 + uro) + t1 * uro) with (((1 + uro) * (p * (1 + uro)) - 1) * t1) by ring.
      apply Rmult_le_compat_r; auto. apply Rplus_le_compat_r, Rmult_le_compat_l; lra. }
    assert (Y2 : ((1 + uro) * q - 1) * t2 * (1 + uro) + t2 * uro <= ((1 + uro) * (p * q) - 1) * t2).
    { replace (((1 + uro) * q - 1) * t2 * (1 + uro) + t2 * uro) with (((1 + uro) * (q * (1 + uro)) - 1) * t2) by ring.
      apply Rmult_le_compat_r; auto. apply Rplus_le_compat_r, Rmult_le_compat_l; lra. }
    assert (Z1 : p * (INR n1 * eta64) * (1 + uro) <= p * q * (INR n1 * eta64)).
    { replace (p * (INR n1 * eta64) * (1 + uro)) with (p * (1 + uro) * (INR n1 * eta64)) by ring.
      apply Rmult_le_compat_r; auto. apply Rmult_le_pos; lra. }
    assert (Z2 : q * (INR n2 * eta64) * (1 + uro) <= p * q * (INR n2 * eta64)).
    { replace (q * (INR n2 * eta64) * (1 + uro)) with (q * (1 + uro) * (INR n2 * eta64)) by ring.
      apply Rmult_le_compat_r; auto. apply Rmult_le_pos; lra. }
    lra.
Qed.
