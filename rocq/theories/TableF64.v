(** Tables of cells in binary64: SGD with rate 1 on one-hot features (C70). *)
From Coq Require Import List Arith ZArith Lia Reals Lra Bool.
From Flocq Require Import Core.Core IEEE754.BinarySingleNaN.
From Flocq Require Plus_error Mult_error Sterbenz.
From Verif Require Import Base Scalar ScalarR ScalarF64 F64Facts HMap NdArray Features Spec FeatureFacts
  NonnegF64 BoundF64 Optim OptimSpec Lfa LfaSpec Coeffs Kernels TileCoding Basis TileFacts EndToEnd.
Import ListNotations.
Local Open Scope R_scope.

(** ** Rounding *)

Lemma fmt_sterbenz x y : fmt64 x -> fmt64 y -> y / 2 <= x <= 2 * y -> fmt64 (x - y).
Proof.
  intros Fx Fy L. rewrite fexp64 in *. apply Sterbenz.sterbenz; auto.
  - apply FLT_exp_valid. exact f64_prec.
  - apply FLT_exp_monotone.
Qed.

Lemma fmt_opp x : fmt64 x -> fmt64 (- x).
Proof. apply generic_format_opp. Qed.

Lemma rnd64_fmt x : fmt64 (rnd64 x).
Proof. apply generic_format_round; [apply fexp_correct, f64_prec|apply valid_rnd_N]. Qed.

Lemma rnd64_id x : fmt64 x -> rnd64 x = x.
Proof. intros G. apply round_generic; auto. apply valid_rnd_N. Qed.

Lemma rnd64_opp x : rnd64 (- x) = - rnd64 x.
Proof. unfold rnd64. simpl. apply round_NE_opp. Qed.

Lemma rnd64_mono x y : x <= y -> rnd64 x <= rnd64 y.
Proof. apply round_le; [apply fexp_correct, f64_prec|apply valid_rnd_N]. Qed.

Lemma sub_small x y : fmt64 x -> fmt64 y -> Rabs (x - y) <= bpow radix2 (-1021) -> fmt64 (x - y).
Proof.
  intros Fx Fy L. rewrite fexp64 in *. apply Plus_error.FLT_format_plus_small; auto.
  - exact f64_prec.
  - apply generic_format_opp. auto.
Qed.

Lemma sub_error_fmt x y : fmt64 x -> fmt64 y -> fmt64 (rnd64 (x - y) - (x - y)).
Proof.
  intros Fx Fy. apply Plus_error.plus_error; auto.
  - apply fexp_correct, f64_prec.
  - apply FLT_exp_monotone.
  - apply fmt_opp. auto.
Qed.

Lemma sub_relative x y : fmt64 x -> fmt64 y -> exists d, Rabs d <= uro /\ rnd64 (x + y) = (x + y) * (1 + d).
Proof.
  intros Fx Fy.
  destruct (@Plus_error.FLT_plus_error_N_ex radix2 (-1074) 53 f64_prec (fun z => negb (Z.even z)) x y Fx Fy) as (d & D & Q).
  exists d. split; [rewrite u_ro_uro in D; eapply Rle_trans; [exact D|apply u_over_le]|exact Q].
Qed.

Lemma fmt_half x : fmt64 x -> bpow radix2 (-1021) <= Rabs x -> fmt64 (x / 2).
Proof.
  intros Fx L. rewrite fexp64 in *. unfold Rdiv. change (/ 2) with (bpow radix2 (-1)).
  apply Mult_error.mult_bpow_exact_FLT; auto. assert (M : (-1020 <= mag radix2 x)%Z).
  { apply mag_ge_bpow. exact L. }
  lia.
Qed.

(** The weight after one update towards [y]. *)
Definition toward (y w : R) : R := rnd64 (w + rnd64 (y - w)).

Lemma toward_opp y w : toward (- y) (- w) = - toward y w.
Proof.
  unfold toward. replace (- y - - w) with (- (y - w)) by ring. rewrite rnd64_opp, <- (rnd64_opp (w + _)).
  f_equal. ring.
Qed.

(** Towards a smaller magnitude the second rounding is exact. *)
Lemma toward_down_pos y w : fmt64 y -> fmt64 w -> 0 <= w -> Rabs y <= w ->
  fmt64 (w + rnd64 (y - w)) /\ - w <= w + rnd64 (y - w) <= w.
Proof.
  intros Fy Fw Pw L. apply Rabs_le_inv in L. destruct L as [L1 L2].
  destruct (Rle_lt_dec (w / 2) y) as [H|H].
  - assert (E : rnd64 (y - w) = y - w) by (apply rnd64_id, fmt_sterbenz; auto; lra).
    rewrite E. replace (w + (y - w)) with y by ring. split; auto.
  - assert (C : Rabs (y - w) <= bpow radix2 (-1021) \/ rnd64 (y - w) <= - (w / 2)).
    { destruct (Rle_lt_dec (bpow radix2 (-1021)) w) as [B|B].
      - right. rewrite <- (rnd64_id (- (w / 2))).
        + apply rnd64_mono. lra.
        + apply fmt_opp, fmt_half; auto. rewrite Rabs_right; lra.
      - destruct (Rle_lt_dec (Rabs (y - w)) (bpow radix2 (-1021))) as [S|S]; [left; auto|right].
        rewrite Rabs_left in S by lra. apply Rle_trans with (- bpow radix2 (-1021)); [|lra].
        rewrite <- (rnd64_id (- bpow radix2 (-1021))) by (apply fmt_opp, fmt_bpow; lia). apply rnd64_mono. lra. }
    destruct C as [C|T2].
    + rewrite (rnd64_id (y - w)) by (apply sub_small; auto). replace (w + (y - w)) with y by ring. split; auto.
    + set (t := rnd64 (y - w)) in *.
      assert (T1 : - (2 * w) <= t).
      { unfold t. rewrite <- (rnd64_id (- (2 * w))).
        - apply rnd64_mono. lra.
        - apply fmt_opp. rewrite Rmult_comm. change 2 with (bpow radix2 1). apply fmt_scale; auto. lia. }
      split; [|lra]. replace (w + t) with (w - - t) by ring. apply fmt_sterbenz; auto; [apply fmt_opp, rnd64_fmt|lra].
Qed.

Lemma toward_down y w : fmt64 y -> fmt64 w -> Rabs y <= Rabs w ->
  fmt64 (w + rnd64 (y - w)) /\ Rabs (w + rnd64 (y - w)) <= Rabs w.
Proof.
  intros Fy Fw L. destruct (Rle_lt_dec 0 w) as [P|P].
  - rewrite (Rabs_right w) in * by lra. destruct (toward_down_pos y w Fy Fw P L) as [A B]. split; auto. apply Rabs_le. lra.
  - rewrite (Rabs_left w) in * by lra.
    destruct (toward_down_pos (- y) (- w)) as [A B]; try apply fmt_opp; auto; [lra|rewrite Rabs_Ropp; auto|].
    replace (- y - - w) with (- (y - w)) in * by ring. rewrite rnd64_opp in A, B.
    split; [|apply Rabs_le; lra]. replace (w + rnd64 (y - w)) with (- (- w + - rnd64 (y - w))) by ring. apply fmt_opp, A.
Qed.

(** Towards a larger one it lands close. *)
Lemma toward_up y w : fmt64 y -> fmt64 w -> Rabs w <= Rabs y -> Rabs (toward y w - y) <= 4 * uro * Rabs y.
Proof.
  intros Fy Fw L. unfold toward, Rminus at 2.
  destruct (sub_relative y (- w)) as (d & D & E); auto using fmt_opp.
  rewrite E. assert (G : fmt64 ((y + - w) * (1 + d))) by (rewrite <- E; apply rnd64_fmt).
  destruct (sub_relative w ((y + - w) * (1 + d))) as (d' & D' & ->); auto.
  replace ((w + (y + - w) * (1 + d)) * (1 + d') - y) with (y * d' + (y - w) * d * (1 + d')) by ring.
  assert (U := uro_pos). assert (U1 : uro <= / 4).
  { unfold uro. change (/ 4) with (bpow radix2 (-2)). apply bpow_le. lia. }
  assert (Ad := Rabs_pos d). assert (Ad' := Rabs_pos d'). assert (Ay := Rabs_pos y).
  assert (M : Rabs (y - w) <= 2 * Rabs y).
  { eapply Rle_trans; [apply Rabs_triang|]. rewrite Rabs_Ropp. lra. }
  assert (A1 : Rabs (1 + d') <= 5 / 4).
  { eapply Rle_trans; [apply Rabs_triang|]. rewrite (Rabs_right 1) by lra. lra. }
  eapply Rle_trans; [apply Rabs_triang|]. rewrite !Rabs_mult.
  assert (B1 : Rabs y * Rabs d' <= Rabs y * uro) by (apply Rmult_le_compat_l; auto).
  assert (B2 : Rabs (y - w) * Rabs d <= 2 * Rabs y * uro) by (apply Rmult_le_compat; auto; apply Rabs_pos).
  assert (B3 : Rabs (y - w) * Rabs d * Rabs (1 + d') <= 2 * Rabs y * uro * (5 / 4)).
  { apply Rmult_le_compat; auto; [|apply Rabs_pos]. apply Rmult_le_pos; apply Rabs_pos. }
  assert (B4 : 0 <= Rabs y * uro) by (apply Rmult_le_pos; lra). lra.
Qed.

Lemma toward_gap y w : fmt64 y -> fmt64 w -> fmt64 (y - toward y w).
Proof.
  intros Fy Fw. destruct (Rle_lt_dec (Rabs y) (Rabs w)) as [L|L].
  - destruct (toward_down y w Fy Fw L) as [G _]. unfold toward. rewrite (rnd64_id _ G).
    replace (y - (w + rnd64 (y - w))) with (- (rnd64 (y - w) - (y - w))) by ring. apply fmt_opp, sub_error_fmt; auto.
  - pose proof (toward_up y w Fy Fw (Rlt_le _ _ L)) as C.
    assert (U1 : 4 * uro <= / 4).
    { unfold uro. change 4 with (bpow radix2 2) at 1. rewrite <- bpow_plus. change (/ 4) with (bpow radix2 (-2)). apply bpow_le. lia. }
    assert (D : Rabs (toward y w - y) <= / 4 * Rabs y).
    { eapply Rle_trans; [exact C|]. apply Rmult_le_compat_r; auto. apply Rabs_pos. }
    apply Rabs_le_inv in D. assert (G : fmt64 (toward y w)) by apply rnd64_fmt.
    destruct (Rle_lt_dec 0 y) as [P|P].
    + rewrite (Rabs_right y) in D by lra. apply fmt_sterbenz; auto. lra.
    + rewrite (Rabs_left y) in D by lra. replace (y - toward y w) with (- toward y w - - y) by ring.
      apply fmt_sterbenz; try apply fmt_opp; auto. lra.
Qed.

(** Two updates towards one target reach it. *)
Theorem toward_twice y w : fmt64 y -> fmt64 w -> toward y (toward y w) = y.
Proof.
  intros Fy Fw. unfold toward at 1. rewrite (rnd64_id (y - toward y w)) by (apply toward_gap; auto).
  replace (toward y w + (y - toward y w)) with y by ring. apply rnd64_id; auto.
Qed.

Lemma toward_stays y : fmt64 y -> toward y y = y.
Proof.
  intros Fy. unfold toward. replace (y - y) with 0 by ring. unfold rnd64 at 2. rewrite round_0 by apply valid_rnd_N.
  rewrite Rplus_0_r. apply rnd64_id; auto.
Qed.

Lemma toward_bound B y w : fmt64 y -> fmt64 w -> Rabs y <= B -> Rabs w <= B * (1 + 4 * uro) ->
  Rabs (toward y w) <= B * (1 + 4 * uro).
Proof.
  intros Fy Fw Ly Lw. destruct (Rle_lt_dec (Rabs y) (Rabs w)) as [L|L].
  - destruct (toward_down y w Fy Fw L) as [G A]. unfold toward. rewrite (rnd64_id _ G). lra.
  - pose proof (toward_up y w Fy Fw (Rlt_le _ _ L)) as C.
    replace (toward y w) with (y + (toward y w - y)) by ring. eapply Rle_trans; [apply Rabs_triang|].
    assert (Uy : 4 * uro * Rabs y <= 4 * uro * B) by (apply Rmult_le_compat_l; [assert (U := uro_pos); lra|auto]). lra.
Qed.

Lemma toward_near B y w : fmt64 y -> fmt64 w -> Rabs y <= B -> Rabs w <= B * (1 + 4 * uro) ->
  Rabs (toward y w - y) <= bpow radix2 (-50) * B.
Proof.
  intros Fy Fw Ly Lw. assert (U := uro_pos). assert (PB := Rle_trans _ _ _ (Rabs_pos y) Ly).
  assert (E50 : bpow radix2 (-50) = 8 * uro).
  { unfold uro. change 8 with (bpow radix2 3). rewrite <- bpow_plus. reflexivity. }
  rewrite E50. assert (PU : 0 <= uro * B) by (apply Rmult_le_pos; lra).
  destruct (Rle_lt_dec (Rabs y) (Rabs w)) as [L|L].
  - destruct (toward_down y w Fy Fw L) as [G _]. unfold toward. rewrite (rnd64_id _ G).
    destruct (sub_relative y (- w)) as (d & D & E); auto using fmt_opp. fold (y - w) in E. rewrite E.
    replace (w + (y - w) * (1 + d) - y) with ((y - w) * d) by ring. rewrite Rabs_mult.
    assert (M : Rabs (y - w) <= 4 * B).
    { eapply Rle_trans; [apply Rabs_triang|]. rewrite Rabs_Ropp.
      assert (U1 : 4 * uro <= 1).
      { unfold uro. change 4 with (bpow radix2 2). rewrite <- bpow_plus. apply (bpow_le radix2 _ 0). lia. }
      assert (B * (4 * uro) <= B * 1) by (apply Rmult_le_compat_l; auto). lra. }
    apply Rle_trans with (4 * B * uro); [apply Rmult_le_compat; auto; apply Rabs_pos|lra].
  - eapply Rle_trans; [apply (toward_up y w Fy Fw (Rlt_le _ _ L))|].
    assert (4 * uro * Rabs y <= 4 * uro * B) by (apply Rmult_le_compat_l; auto; lra). lra.
Qed.

(** ** The weights *)

Lemma b_sub_within x y B : b_finite x = true -> b_finite y = true -> Rabs (rnd64 (b_real x - b_real y)) <= B ->
  B < bpow radix2 1024 -> within B (b_sub x y) /\ b_real (b_sub x y) = rnd64 (b_real x - b_real y).
Proof.
  intros Fx Fy L S. pose proof (Bminus_correct 53 1024 f64_prec f64_emax mode_NE x y Fx Fy) as C.
  fold (b_sub x y) in C. fold (rnd64 (b_real x - b_real y)) in C. rewrite Rlt_bool_true in C by lra.
  destruct C as (C1 & C2 & _). unfold within. rewrite C1. auto.
Qed.

(** Targets of at most 2^1022, and the weights they leave. *)
Definition cap : R := bpow radix2 1022.
Definition capped (w : f64) : Prop := within (cap * (1 + 4 * uro)) w.

Lemma uro_small : 4 * uro <= / 4.
Proof. unfold uro. change 4 with (bpow radix2 2) at 1. rewrite <- bpow_plus. change (/ 4) with (bpow radix2 (-2)). apply bpow_le. lia. Qed.

Lemma cap_pos : 0 < cap.
Proof. apply bpow_gt_0. Qed.

Lemma cap_1024 : bpow radix2 1024 = 4 * cap.
Proof. unfold cap. change 4 with (bpow radix2 2). rewrite <- bpow_plus. reflexivity. Qed.

Lemma fmt_3cap : fmt64 (3 * cap).
Proof.
  unfold cap. apply fmt_scale; [|lia]. rewrite fexp64. apply generic_format_FLT.
  exists (Float radix2 3 0); unfold F2R; simpl; lia || lra.
Qed.

Lemma toward_f64 y w : within cap y -> capped w ->
  capped (b_add w (b_sub y w)) /\ b_real (b_add w (b_sub y w)) = toward (b_real y) (b_real w).
Proof.
  intros [Fy Ly] [Fw Lw]. assert (U := uro_small). assert (Pc := cap_pos). assert (E4 := cap_1024).
  assert (M : cap * (4 * uro) <= cap * / 4) by (apply Rmult_le_compat_l; lra).
  assert (L : Rabs (rnd64 (b_real y - b_real w)) <= 3 * cap).
  { apply rnd64_abs; [apply fmt_3cap|]. eapply Rle_trans; [apply Rabs_triang|]. rewrite Rabs_Ropp. lra. }
  destruct (b_sub_within y w (3 * cap) Fy Fw L) as [[Fd Ld] Ed]; [lra|].
  assert (T : Rabs (rnd64 (b_real w + b_real (b_sub y w))) <= cap * (1 + 4 * uro)).
  { rewrite Ed. apply toward_bound; auto using b_real_format. }
  assert (S : cap * (1 + 4 * uro) < bpow radix2 1024) by lra.
  assert (W := b_add_rnd w (b_sub y w) _ Fw Fd T S). split; auto.
  destruct (b_add_finite_inv _ _ (proj1 W)) as (_ & _ & ->). rewrite Ed. reflexivity.
Qed.

Lemma zero_add w : b_finite w = true -> b_finite (b_add b_zero w) = true /\ b_real (b_add b_zero w) = b_real w.
Proof.
  intros Fw. assert (E : rnd64 (b_real b_zero + b_real w) = b_real w).
  { change (b_real b_zero) with 0. rewrite Rplus_0_l. apply rnd64_b_real. }
  assert (W : within (Rabs (b_real w)) (b_add b_zero w)).
  { apply b_add_rnd; auto; [rewrite E; lra|apply b_real_small]. }
  destruct (b_add_finite_inv _ _ (proj1 W)) as (Q & _ & R'). rewrite R', E. split; [apply W|auto].
Qed.

Lemma b_sub_real_eq y v w : b_finite y = true -> b_finite v = true -> b_finite w = true -> b_real v = b_real w ->
  Rabs (rnd64 (b_real y - b_real w)) < bpow radix2 1024 ->
  b_finite (b_sub y v) = true /\ b_real (b_sub y v) = b_real (b_sub y w).
Proof.
  intros Fy Fv Fw E L.
  destruct (b_sub_within y v _ Fy Fv (Rle_refl _)) as [A B]; [rewrite E; auto|].
  destruct (b_sub_within y w _ Fy Fw (Rle_refl _)) as [A' B']; auto.
  split; [apply A|]. rewrite B, B', E. reflexivity.
Qed.

Section Table.
  Context (P : Platform) {I : Type} (b : Basis f64 I) (n : nat) (ok : I -> Prop) (cell : I -> nat).
  #[local] Instance SP : Scalar f64 := ScalarF64 P.

  (** Every input of a kind activates one feature, with value 1. *)
  Definition tabular : Prop := forall x, ok x -> (cell x < n)%nat /\
    b_project b x = Ret (Ok (Sparse (MkSparse n [(cell x, fone)]))).

  (** Fitting the sample: an update by the residual. *)
  Definition fit64 (p : I * f64) : s_call f64 I := SUpdateWith (fst p) (fun _ v => fsub (snd p) v).

  Definition targets (i : nat) (h : list (I * f64)) : list f64 :=
    map snd (filter (fun p => Nat.eqb (cell (fst p)) i) h).

  Definition holds (w : list f64) (f : nat -> R) : Prop :=
    length w = n /\ forall i, (i < n)%nat -> exists c, nth_error w i = Some c /\ capped c /\ b_real c = f i.

  Definition put (f : nat -> R) (p : I * f64) (i : nat) : R :=
    if Nat.eqb (cell (fst p)) i then toward (b_real (snd p)) (f i) else f i.

  Context (T : tabular).

  Lemma table_read w f x : ok x -> holds w f -> exists v, dot (Sparse (MkSparse n [(cell x, fone)])) w = Ret v /\
    b_finite v = true /\ b_real v = f (cell x).
  Proof.
    intros Ox [L H]. destruct (T x Ox) as [Lx _]. destruct (H (cell x) Lx) as (c & N & [Fc _] & E).
    exists (b_add b_zero c). cbn [dot]. unfold dot_sparse. cbn [sa_acts ofold fst snd].
    unfold vget. rewrite N. cbn [obind].
    change (fadd fzero (fmul c fone)) with (b_add (@fzero f64 (ScalarF64 P)) (b_mul c (@fone f64 (ScalarF64 P)))).
    rewrite fzero_f64, fone_f64, b_mul_one_r. destruct (zero_add c Fc) as [A B]. rewrite B. auto.
  Qed.

  Lemma table_step w f x y : ok x -> holds w f -> within cap y -> exists w',
    s_do SGD (MkLFA b w b_one) (fit64 (x, y)) = Ret (MkLFA b w' b_one) /\ holds w' (put f (x, y)).
  Proof.
    intros Ox Hw Wy. destruct (table_read w f x Ox Hw) as (v & D & Fv & Ev). destruct Hw as [L H]. destruct (T x Ox) as [Lx Px].
    destruct (H (cell x) Lx) as (c & N & Cc & E). destruct (toward_f64 y c Wy Cc) as [C1 E1].
    assert (B : b_finite (b_sub y v) = true /\ b_real (b_sub y v) = b_real (b_sub y c)).
    { apply b_sub_real_eq; auto; try apply Wy; try apply Cc; [congruence|].
      destruct (b_add_finite_inv _ _ (proj1 C1)) as (_ & Q & _).
      pose proof (Bminus_correct 53 1024 f64_prec f64_emax mode_NE y c (proj1 Wy) (proj1 Cc)) as C.
      fold (b_sub y c) in C. fold (rnd64 (b_real y - b_real c)) in C.
      destruct (Rlt_bool_spec (Rabs (rnd64 (b_real y - b_real c))) (bpow radix2 1024)) as [S|S]; auto.
      destruct C as [C _]. apply overflow_not_finite in C. congruence. }
    destruct B as [Fe Ee].
    assert (C2 : capped (b_add c (b_sub y v)) /\ b_real (b_add c (b_sub y v)) = toward (b_real y) (b_real c)).
    { destruct (b_add_finite_inv _ _ (proj1 C1)) as (Fc & _ & Q).
      assert (W : within (cap * (1 + 4 * uro)) (b_add c (b_sub y v))).
      { apply b_add_rnd; auto; [rewrite Ee, <- Q; apply C1|].
        assert (U := uro_small). assert (Pc := cap_pos). assert (E4 := cap_1024).
        assert (M : cap * (4 * uro) <= cap * / 4) by (apply Rmult_le_compat_l; lra). lra. }
      split; auto. destruct (b_add_finite_inv _ _ (proj1 W)) as (_ & _ & ->). rewrite Ee, <- Q. exact E1. }
    destruct C2 as [C2 E2].
    assert (K : keyed (Sparse (MkSparse n [(cell x, fone)]))) by (repeat constructor; auto).
    assert (Fi : fits (Sparse (MkSparse n [(cell x, fone)])) w).
    { intros k K'. simpl in K'. destruct K' as [v' [K'|[]]]. injection K' as <- _. lia. }
    destruct (scaled_addto_spec (Sparse (MkSparse n [(cell x, fone)])) (fmul b_one (fsub y v)) w K Fi) as (w' & S & L' & Nw).
    exists w'. split.
    - unfold s_do, fit64, omap, s_update_with. cbn [fst snd lfa_basis lfa_weights lfa_optimiser]. rewrite Px. cbn [obind].
      rewrite D. cbn [obind]. cbn [o_step_scaled SGD]. unfold sgd_step_scaled. rewrite S. reflexivity.
    - split; [congruence|]. intros i Li. destruct (H i Li) as (ci & Ni & Ci & Ei). destruct (Nw i ci Ni) as [A B].
      unfold put. cbn [fst snd]. destruct (Nat.eqb_spec (cell x) i) as [<-|Ne].
      + assert (ci = c) by congruence. subst ci. exists (b_add c (b_sub y v)).
        rewrite (A fone) by (left; reflexivity). split; [|split; auto; congruence].
        unfold bump. change (fadd c (fmul (fmul b_one (fsub y v)) fone))
          with (b_add c (b_mul (b_mul b_one (b_sub y v)) (@fone f64 (ScalarF64 P)))).
        rewrite fone_f64, b_mul_one_r, b_mul_one. reflexivity.
      + exists ci. split; auto. apply B. intros [v' [Q|[]]]. injection Q as <- _. auto.
  Qed.

  Lemma table_run h : Forall (fun p => ok (fst p) /\ within cap (snd p)) h -> forall w f, holds w f -> exists w',
    s_run SGD (map fit64 h) (MkLFA b w b_one) = Ret (MkLFA b w' b_one) /\ holds w' (fold_left put h f).
  Proof.
    unfold s_run. induction 1 as [|[x y] h [Ox Wy] Wh IH]; intros w f Hw; cbn [map ofold fold_left].
    - exists w. auto.
    - destruct (table_step w f x y Ox Hw Wy) as (w1 & E & H1). rewrite E. apply IH, H1.
  Qed.

  Lemma put_targets i h : forall f, fold_left put h f i = fold_left (fun c y => toward (b_real y) c) (targets i h) (f i).
  Proof.
    induction h as [|[x y] h IH]; intros f; auto. cbn [fold_left]. rewrite IH. unfold targets, put. cbn [filter fst snd].
    destruct (Nat.eqb (cell x) i); reflexivity.
  Qed.

  Lemma targets_within B i h : Forall (fun p => within B (snd p)) h -> Forall (within B) (targets i h).
  Proof.
    intros W. apply Forall_forall. intros y I0. apply in_map_iff in I0. destruct I0 as (p & <- & I0).
    apply filter_In in I0. rewrite Forall_forall in W. apply W, I0.
  Qed.

  Definition last_write (ys : list f64) (c : R) : R := fold_left (fun c y => toward (b_real y) c) ys c.

  Lemma last_write_fmt B ys : Forall (within B) ys -> forall c, fmt64 c -> Rabs c <= B * (1 + 4 * uro) ->
    fmt64 (last_write ys c) /\ Rabs (last_write ys c) <= B * (1 + 4 * uro).
  Proof.
    induction 1 as [|y ys [Fy Ly] W IH]; intros c Fc Lc; simpl; auto. apply IH.
    - apply rnd64_fmt.
    - apply toward_bound; auto. apply b_real_format.
  Qed.

  Lemma last_write_app ys zs c : last_write (ys ++ zs) c = last_write zs (last_write ys c).
  Proof. apply fold_left_app. Qed.

  Theorem table h B : b_dim b = n -> B <= cap -> Forall (fun p => ok (fst p) /\ within B (snd p)) h ->
    exists a, s_run SGD (map fit64 h) (scalar b b_one) = Ret a /\ forall x, ok x -> exists v, s_evaluate a x = Ret (Ok v) /\
      b_finite v = true /\
      (targets (cell x) h = [] -> b_real v = 0) /\
      (forall y, targets (cell x) h = [y] -> b_real v = b_real y) /\
      (forall ys y, targets (cell x) h = ys ++ [y] -> Rabs (b_real v - b_real y) <= bpow radix2 (-50) * B) /\
      (forall ys y z, targets (cell x) h = ys ++ [y; z] -> b_real y = b_real z -> b_real v = b_real z).
  Proof.
    intros Dn LB OW. assert (W : Forall (fun p => within B (snd p)) h) by (eapply Forall_impl; [|exact OW]; intros p Q; apply Q).
    assert (PB : h = [] \/ 0 <= B).
    { destruct W as [|p h [_ Lp] _]; [left; auto|right]. assert (Q := Rabs_pos (b_real (snd p))). lra. }
    assert (Pc := cap_pos). assert (U := uro_pos).
    assert (H0 : holds (zeros n) (fun _ => 0)).
    { split; [apply repeat_length|]. intros i Li. exists (@fzero f64 (ScalarF64 P)). split; [apply nth_error_repeat; auto|].
      rewrite fzero_f64. split; [split; auto|reflexivity]. change (b_real b_zero) with 0. rewrite Rabs_R0.
      apply Rmult_le_pos; lra. }
    assert (W' : Forall (fun p => ok (fst p) /\ within cap (snd p)) h) by (eapply Forall_impl; [|exact OW]; intros p [Q Q']; exact (conj Q (within_le _ _ _ Q' LB))).
    destruct (table_run h W' _ _ H0) as (w' & E & Hw). exists (MkLFA b w' b_one).
    split; [unfold scalar; rewrite Dn; exact E|]. intros x Ox.
    destruct (table_read w' _ x Ox Hw) as (v & D & Fv & Ev). exists v. split.
    { unfold s_evaluate. cbn [lfa_basis lfa_weights]. rewrite (proj2 (T x Ox)). cbn [obind rmap]. rewrite D. reflexivity. }
    split; auto. rewrite put_targets in Ev. fold (last_write (targets (cell x) h) 0) in Ev.
    pose proof (targets_within B (cell x) h W) as Wt. set (ts := targets (cell x) h) in *.
    assert (F0 : fmt64 0) by apply generic_format_0.
    assert (L0 : ts <> [] -> Rabs 0 <= B * (1 + 4 * uro)).
    { intros Ne. rewrite Rabs_R0. destruct PB as [->|PB]; [exfalso; apply Ne; reflexivity|]. apply Rmult_le_pos; lra. }
    rewrite Ev. splits.
    - intros E0. rewrite E0. reflexivity.
    - intros y Ey. rewrite Ey. cbn [last_write fold_left]. unfold toward. rewrite Rminus_0_r, Rplus_0_l.
      rewrite rnd64_b_real. apply rnd64_b_real.
    - intros ys y Ey. rewrite Ey in *. rewrite last_write_app. simpl. apply Forall_app in Wt. destruct Wt as [W1 W2].
      inversion W2; subst. destruct (last_write_fmt B ys W1 0 F0) as [A1 A2]; [apply L0; destruct ys; discriminate|].
      apply toward_near; auto; [apply b_real_format|apply H2].
    - intros ys y z Ey Eq. rewrite Ey in *. rewrite last_write_app. simpl. apply Forall_app in Wt. destruct Wt as [W1 W2].
      destruct (last_write_fmt B ys W1 0 F0) as [A1 A2]; [apply L0; destruct ys; discriminate|].
      rewrite Eq. apply toward_twice; auto. apply b_real_format.
  Qed.
End Table.

(** ** Uniform grids *)

Definition grid_cell (P : Platform) (space : list (equipartition f64)) (x : list f64) : nat :=
  match @project f64 (ScalarF64 P) (grid_new space) x with
  | Ret (Ok (Sparse (MkSparse _ ((i, _) :: _)))) => i
  | _ => 0
  end.

Definition on_grid (space : list (equipartition f64)) (x : list f64) : Prop := length x = length space.

Definition positions (space : list (equipartition f64)) (x : list f64) : list nat := map2 ep_map_onto space x.

(** The targets of the samples that fall in the cell of [x], oldest first. *)
Definition cell_targets (space : list (equipartition f64)) (x : list f64) (h : list (list f64 * f64)) : list f64 :=
  map snd (filter (fun p => if list_eq_dec Nat.eq_dec (positions space (fst p)) (positions space x) then true else false) h).

Lemma grid_tabular P space : into_range space -> space <> [] ->
  tabular P (@as_basis f64 (ScalarF64 P) (grid_new space)) (fold_right Nat.mul 1%nat (map ep_n space)) (on_grid space) (grid_cell P space).
Proof.
  intros C N x Ox. assert (Nx : x <> []) by (intros ->; destruct space; [auto|discriminate Ox]).
  destruct (@grid_total f64 (ScalarF64 P) space x N Nx) as [phi E].
  destruct (@grid_project f64 (ScalarF64 P) space x phi C E) as (i & L & Q & _). unfold grid_cell. cbn [as_basis b_project].
  rewrite E, Q. auto.
Qed.

Lemma grid_targets P space x h : into_range space -> space <> [] -> on_grid space x ->
  Forall (fun p => on_grid space (fst p)) h -> targets (grid_cell P space) (grid_cell P space x) h = cell_targets space x h.
Proof.
  intros C N Ox O. unfold targets, cell_targets. f_equal. apply filter_ext_in. intros p I.
  rewrite Forall_forall in O. specialize (O p I).
  pose proof (@grid_cells f64 (ScalarF64 P) space (fst p) x C N O Ox) as G.
  destruct (grid_tabular P space C N (fst p) O) as [_ E1]. destruct (grid_tabular P space C N x Ox) as [_ E2].
  cbn [as_basis b_project] in E1, E2.
  destruct (list_eq_dec Nat.eq_dec (positions space (fst p)) (positions space x)) as [Q|Q]; unfold positions in Q.
  - apply Nat.eqb_eq. apply G in Q. rewrite E1, E2 in Q. injection Q as Q. exact Q.
  - apply Nat.eqb_neq. intros K. apply Q, G. rewrite E1, E2, K. reflexivity.
Qed.

Theorem grid_table P space h B : let S := ScalarF64 P in into_range space -> space <> [] -> B <= cap ->
  Forall (fun p => length (fst p) = length space /\ within B (snd p)) h ->
  exists a, s_run SGD (map (fit64 P) h) (scalar (as_basis (grid_new space)) b_one) = Ret a /\
  forall x, length x = length space -> exists v, s_evaluate a x = Ret (Ok v) /\ b_finite v = true /\
    (cell_targets space x h = [] -> b_real v = 0) /\
    (forall y, cell_targets space x h = [y] -> b_real v = b_real y) /\
    (forall ys y, cell_targets space x h = ys ++ [y] -> Rabs (b_real v - b_real y) <= bpow radix2 (-50) * B) /\
    (forall ys y z, cell_targets space x h = ys ++ [y; z] -> b_real y = b_real z -> b_real v = b_real z).
Proof.
  intros S C N LB W. assert (O : Forall (fun p => on_grid space (fst p)) h) by (eapply Forall_impl; [|exact W]; intros p Q; apply Q).
  destruct (table P _ _ _ _ (grid_tabular P space C N) h B (eq_refl) LB W) as (a & E & Q).
  exists a. split; [exact E|]. intros x Ox. destruct (Q x Ox) as (v & V & Fv & A). exists v. split; [exact V|]. split; [exact Fv|].
  rewrite (grid_targets P space x h C N Ox O) in A. exact A.
Qed.
