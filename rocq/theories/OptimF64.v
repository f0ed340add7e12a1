(** Optimiser state in binary64: second moments stay non-negative, denominators
    stay away from zero, steps are never NaN. Facts for C61. *)
From Coq Require Import List Arith ZArith Lia Reals Lra Bool.
From Flocq Require Import Core.Core IEEE754.BinarySingleNaN.
From Verif Require Import Base Scalar ScalarR ScalarF64 F64Facts HMap HMapFacts NdArray VecFacts Features Spec
  FeatureFacts FeatureMore Basis BasisFacts NormF64 NonnegF64 BoundF64 Optim OptimSpec OptimFacts OptimReal.
Import ListNotations.
Local Open Scope R_scope.

Lemma Forall_nth {A} (Q : A -> Prop) l : (forall i x, nth_error l i = Some x -> Q x) -> Forall Q l.
Proof. intros A0. apply Forall_forall. intros x I. apply In_nth_error in I. destruct I as [i E]. eauto. Qed.

Lemma nth_Forall {A} (Q : A -> Prop) l i x : Forall Q l -> nth_error l i = Some x -> Q x.
Proof. intros Fa E. rewrite Forall_forall in Fa. apply Fa. eapply nth_error_In, E. Qed.

Lemma Forall2_nth {A B} (Q : A -> B -> Prop) : forall l l', length l = length l' ->
  (forall i x, nth_error l i = Some x -> exists y, nth_error l' i = Some y /\ Q x y) -> Forall2 Q l l'.
Proof.
  induction l as [|x l IH]; intros [|y l'] L A0; simpl in *; try discriminate; constructor.
  - destruct (A0 0%nat x eq_refl) as (z & E & q). injection E as <-. exact q.
  - apply IH; [lia|]. intros i a E. exact (A0 (S i) a E).
Qed.

Lemma Forall2_len {A B} (Q : A -> B -> Prop) l l' : Forall2 Q l l' -> length l = length l'.
Proof. induction 1; simpl; congruence. Qed.

Section OptimF64.
  Context (P : Platform).
  Local Instance S64 : Scalar f64 := ScalarF64 P.

  (** A step whose features fit [n] weights and whose gradients a * sf are all
      finite. *)
  Definition finite_step (n : nat) (p : Features f64 * f64) : Prop :=
    sized n (fst p) /\ b_finite (snd p) = true /\
    forall i a, stores (fst p) i a -> b_finite (b_mul a (snd p)) = true.

  (** [x'] is [x] plus something that is not NaN and, unless [num] is huge, is
      finite and at most 2^24 times [num]. *)
  Definition tame_move (num x x' : f64) : Prop :=
    exists d, x' = b_add x d /\ b_is_nan d = false /\
      (Rabs (b_real num) <= bpow radix2 999 ->
       b_finite d = true /\ Rabs (b_real d) <= bpow radix2 24 * Rabs (b_real num)).

  Lemma tame_move_finite num x x' : tame_move num x x' -> b_finite x = true -> b_is_nan x' = false.
  Proof. intros (d & -> & N & _) Fx. apply b_add_not_nan; auto. Qed.

  Lemma div_tame num z x : b_finite num = true -> nonneg z -> tame_move num x (b_add x (b_div num (b_add z b_eps))).
  Proof.
    intros Fn Nz. destruct (b_div_above num (b_add z b_eps) Fn (b_denominator z Nz)) as [A B].
    eexists. split; [reflexivity|]. split; auto.
  Qed.

  (** ** ISGD *)

  Lemma norm_pos l : all_finite l -> forall acc, nonneg acc ->
    nonneg (fold_left (fun acc x => b_add acc (b_mul x x)) l acc).
  Proof.
    induction l as [|x l IH]; intros Fl acc Na; simpl; auto. apply IH.
    - intros y I. apply Fl. simpl. auto.
    - apply b_add_pos; auto. apply b_mul_self, Fl. simpl. auto.
  Qed.

  Theorem isgd_rate_f64 (lr : f64) (phi : Features f64) : b_finite lr = true -> 0 < b_real lr ->
    finite_features phi ->
    b_finite (isgd_compute_lr lr phi) = true /\ 0 <= b_real (isgd_compute_lr lr phi) <= b_real lr.
  Proof.
    intros Fl Pl Fp. unfold isgd_compute_lr. cbv zeta.
    assert (N : nonneg (ffold phi fzero (fun acc x => fadd acc (fmul x x)))).
    { assert (E : ffold phi (@fzero f64 S64) (fun acc x => fadd acc (fmul x x)) =
                  fold_left (fun acc x => b_add acc (b_mul x x)) (values phi) (@fzero f64 S64)) by (destruct phi; reflexivity).
      rewrite E. change (@fzero f64 S64) with b_zero. apply norm_pos; [apply values_finite, Fp|]. right. split; [reflexivity|simpl; lra]. }
    set (q := ffold phi fzero _) in *.
    assert (D : above (b_add b_one (b_mul lr q)) 1).
    { apply b_add_either; [right; split; [reflexivity|rewrite b_one_real; lra]|apply b_mul_pos; auto|].
      left. right. split; [reflexivity|rewrite b_one_real; lra]. }
    change (fdiv lr (fadd fone (fmul lr q))) with (b_div lr (b_add (@fone f64 S64) (b_mul lr q))).
    rewrite (fone_f64 P : @fone f64 S64 = b_one). destruct D as [->|[Fd Ld]].
    - destruct (b_div_inf lr Fl) as [s ->]. split; [reflexivity|]. simpl. lra.
    - set (d := b_add b_one (b_mul lr q)) in *.
      assert (Q : 0 <= b_real lr / b_real d <= b_real lr).
      { split; [apply Rmult_le_pos; [lra|left; apply Rinv_0_lt_compat; lra]|].
        apply (Rmult_le_reg_r (b_real d)); [lra|]. unfold Rdiv. rewrite Rmult_assoc, Rinv_l by lra. nra. }
      pose proof (Bdiv_correct 53 1024 f64_prec f64_emax mode_NE lr d ltac:(lra)) as C.
      fold (b_div lr d) in C. fold (rnd64 (b_real lr / b_real d)) in C.
      assert (U : rnd64 (b_real lr / b_real d) <= b_real lr) by (apply rnd64_le; [apply b_real_format|lra]).
      assert (L : 0 <= rnd64 (b_real lr / b_real d)) by (apply rnd64_pos; lra).
      rewrite Rlt_bool_true in C.
      2: { rewrite Rabs_pos_eq by exact L. apply Rle_lt_trans with (1 := U).
           apply Rle_lt_trans with (1 := Rle_abs _). apply b_real_small. }
      destruct C as (C1 & C2 & _). rewrite C1, C2. auto.
  Qed.

  (** ** Adagrad *)

  (** [powi(x, 2)] is [x * x]. *)
  Definition squares : Prop := forall g, p_powi P g 2 = b_mul g g.

  (** [z] is at least [y], which may be infinite. *)
  Definition grows (y z : f64) : Prop :=
    nonneg z /\ (y = b_inf -> z = b_inf) /\ (b_finite y = true -> above z (b_real y)).

  Lemma grows_refl y : nonneg y -> grows y y.
  Proof. intros N. split; [exact N|]. split; auto. intros E. right. split; auto. lra. Qed.

  Lemma grows_trans x y z : nonneg x -> grows x y -> grows y z -> grows x z.
  Proof.
    intros Nx (A1 & A2 & A3) (B1 & B2 & B3). split; [exact B1|]. split; [auto|]. intros Fx.
    destruct (A3 Fx) as [->|[Fy Ly]]; [left; auto|]. apply above_le with (b_real y); auto.
  Qed.

  Lemma grows_add s q : nonneg s -> nonneg q -> grows s (b_add s q).
  Proof.
    intros Ns Nq. split; [apply b_add_pos; auto|]. split.
    - intros ->. destruct Nq as [->|[Fq _]]; [reflexivity|]. destruct q as [[]|[]| |[]]; try discriminate; reflexivity.
    - intros Fs. apply b_add_either; auto. left. right. split; auto. lra.
  Qed.

  Lemma zero_times sf : b_finite sf = true -> b_finite (b_mul b_zero sf) = true.
  Proof. destruct sf; intros E; try discriminate; reflexivity. Qed.

  Theorem adagrad_step_f64 (s : adagrad_state f64) w phi sf l : squares ->
    finite_step (length w) (phi, sf) -> expands phi l -> length (ag_acc s) = length w -> Forall nonneg (ag_acc s) ->
    exists acc' w', adagrad_step_scaled s w phi sf = Ret (MkAdagrad (ag_lr s) acc', w', Ok tt) /\
      length w' = length w /\ Forall2 grows (ag_acc s) acc' /\
      forall i a x x', nth_error l i = Some a -> nth_error w i = Some x -> nth_error w' i = Some x' ->
        let num := b_mul (ag_lr s) (b_mul a sf) in b_finite num = true -> tame_move num x x'.
  Proof.
    intros Sq (Z & Fs & Fg) Ex La Na. simpl in Z, Fs, Fg.
    destruct (adagrad_step_spec s w phi l sf Z Ex La) as (acc' & w' & E & La' & Lw' & Sp).
    assert (Ll : length l = length w) by (destruct Ex as [L _]; rewrite L; apply Z).
    assert (G : forall i a, nth_error l i = Some a -> b_finite (b_mul a sf) = true).
    { intros i a El. destruct Ex as [_ Ex]. destruct (Ex i a El) as [St|[_ ->]]; [eapply Fg, St|apply zero_times, Fs]. }
    exists acc', w'. split; [exact E|]. split; [exact Lw'|]. split.
    - apply Forall2_nth; [congruence|]. intros i q Eq.
      assert (Li : (i < length w)%nat) by (rewrite <- La; apply nth_error_Some; congruence).
      destruct (nth_error_lt w i Li) as [x Ew]. destruct (nth_error_lt l i) as [a El]; [lia|].
      destruct (Sp i a x q El Ew Eq) as [A _]. eexists. split; [exact A|].
      unfold adagrad_acc. cbn [fadd fpowi fmul S64 ScalarF64]. rewrite Sq. apply grows_add.
      + eapply nth_Forall, Eq. exact Na.
      + apply b_mul_self. eapply G, El.
    - intros i a x x' El Ew Ew' num Fn.
      assert (Li : (i < length (ag_acc s))%nat) by (rewrite La; apply nth_error_Some; congruence).
      destruct (nth_error_lt _ i Li) as [q Eq]. destruct (Sp i a x q El Ew Eq) as [_ B].
      rewrite Ew' in B. injection B as ->. unfold adagrad_move, adagrad_acc.
      cbn [fadd fpowi fmul fdiv fsqrt S64 ScalarF64]. rewrite Sq. rewrite (EPS_f64 P : @EPS f64 S64 = b_eps).
      apply div_tame; auto. apply b_sqrt_pos, b_add_pos; [eapply nth_Forall, Eq; exact Na|].
      apply b_mul_self. eapply G, El.
  Qed.

  Theorem adagrad_train_f64 : squares -> forall h (s : adagrad_state f64) w,
    Forall (finite_step (length w)) h -> length (ag_acc s) = length w -> Forall nonneg (ag_acc s) ->
    exists s' w', train Adagrad h s w = Ret (s', w') /\ length w' = length w /\ ag_lr s' = ag_lr s /\
      Forall2 grows (ag_acc s) (ag_acc s').
  Proof.
    intros Sq. induction h as [|[phi sf] h IH]; intros s w Fh La Na; cbn [train].
    - exists s, w. splits; auto. clear -Na. induction Na; constructor; auto using grows_refl.
    - inversion Fh as [|? ? F1 Fh']; subst.
      destruct (expands_exists phi) as [l Ex]; [apply F1|].
      destruct (adagrad_step_f64 s w phi sf l Sq F1 Ex La Na) as (acc' & w' & E & Lw & Gr & _).
      cbn [o_step_scaled Adagrad]. rewrite E. rewrite <- Lw in Fh'.
      assert (La' : length acc' = length w') by (apply Forall2_len in Gr; lia).
      destruct (IH (MkAdagrad (ag_lr s) acc') w' Fh') as (s2 & w2 & E2 & L2 & Lr & G2); [exact La'| |].
      { simpl. clear -Gr. induction Gr as [|? ? ? ? G _ IH]; constructor; auto. apply G. }
      exists s2, w2. splits; auto; [lia|]. simpl in G2.
      clear -Na Gr G2. revert G2. generalize (ag_acc s2). revert Na.
      induction Gr as [|x y xs ys G Gs IH]; intros Na zs G2; inversion G2; subst; constructor.
      + inversion Na; subst. eapply grows_trans; eauto.
      + inversion Na; subst. auto.
  Qed.

  (** ** Bounded gradients *)

  (** A step whose features fit [n] weights and whose gradients a * sf are at
      most 2^k in magnitude. *)
  Definition bounded_step (n : nat) (k : Z) (p : Features f64 * f64) : Prop :=
    sized n (fst p) /\ b_finite (snd p) = true /\
    forall i a, stores (fst p) i a -> within (bpow radix2 k) (b_mul a (snd p)).

  Lemma bounded_finite n k p : bounded_step n k p -> finite_step n p.
  Proof. intros (Z & Fs & G). split; [exact Z|]. split; [exact Fs|]. intros i a S. apply (G i a S). Qed.

  (** [x'] is [x], or [x] plus something at most [D]. *)
  Definition shifted (D : R) (x x' : f64) : Prop := x' = x \/ exists d, within D d /\ x' = b_add x d.

  (** Everything [n] such increments can do to a weight. *)
  Definition drifts (D : R) (n : nat) (x x' : f64) : Prop :=
    (b_is_nan x = false -> b_is_nan x' = false) /\
    forall W, within W x -> (W + INR n * D) * (1 + uro) ^ n < bpow radix2 1024 ->
      within ((W + INR n * D) * (1 + uro) ^ n) x'.

  Lemma drifts_0 D x : drifts D 0 x x.
  Proof. split; auto. intros W A _. simpl. apply within_le with (1 := A). lra. Qed.

  Lemma within_pos B x : within B x -> 0 <= B.
  Proof. intros [_ L]. apply Rle_trans with (2 := L), Rabs_pos. Qed.

  Lemma drifts_S D n x y z : 0 <= D -> shifted D x y -> drifts D n y z -> drifts D (S n) x z.
  Proof.
    intros PD Sh [N Dr]. assert (Pu := uro_pos). split.
    - intros Nx. apply N. destruct Sh as [->|(d & [Fd _] & ->)]; auto. apply b_add_nan_free; auto.
    - intros W Wx L. assert (PW := within_pos _ _ Wx). rewrite S_INR in *.
      assert (P1 : 1 <= (1 + uro) ^ n) by apply pow_1_uro.
      assert (Pn := pos_INR n). assert (PnD : 0 <= INR n * D) by (apply Rmult_le_pos; auto).
      assert (Q : ((W + D) * (1 + uro) + INR n * D) * (1 + uro) ^ n <= (W + (INR n + 1) * D) * (1 + uro) ^ S n).
      { simpl. replace ((W + (INR n + 1) * D) * ((1 + uro) * (1 + uro) ^ n))
          with (((W + D) * (1 + uro) + INR n * D * (1 + uro)) * (1 + uro) ^ n) by ring.
        apply Rmult_le_compat_r; [lra|]. assert (0 <= INR n * D * uro) by (apply Rmult_le_pos; lra). lra. }
      assert (B : (W + D) * (1 + uro) < bpow radix2 1024).
      { apply Rle_lt_trans with (2 := L). apply Rle_trans with (2 := Q).
        assert (0 <= (W + D) * (1 + uro)) by (apply Rmult_le_pos; lra).
        set (t := (W + D) * (1 + uro)) in *.
        apply Rle_trans with ((t + INR n * D) * 1); [lra|]. apply Rmult_le_compat_l; lra. }
      apply within_le with (2 := Q). apply Dr; [|lra].
      destruct Sh as [->|(d & Wd & ->)].
      + apply within_le with (1 := Wx). assert (0 <= (W + D) * uro) by (apply Rmult_le_pos; lra). lra.
      + apply b_add_drift; auto.
  Qed.

  Lemma drifts_list D n : 0 <= D -> forall w w' w'', Forall2 (shifted D) w w' -> Forall2 (drifts D n) w' w'' ->
    Forall2 (drifts D (S n)) w w''.
  Proof.
    intros PD. induction w as [|x w IH]; intros w' w'' A B; inversion A; subst; inversion B; subst; constructor; eauto.
    eapply drifts_S; eauto.
  Qed.

  (** Histories of an optimiser each of whose steps is bounded by [D]. *)
  Lemma train_drifts {St} (o : Optimiser f64 St) (Inv : nat -> St -> Prop) k D : 0 <= D ->
    (forall s w phi sf, Inv (length w) s -> bounded_step (length w) k (phi, sf) ->
       exists s' w', o_step_scaled o s w phi sf = Ret (s', w', Ok tt) /\ Inv (length w) s' /\
         length w' = length w /\ Forall2 (shifted D) w w') ->
    forall h s w, Inv (length w) s -> Forall (bounded_step (length w) k) h ->
      exists s' w', train o h s w = Ret (s', w') /\ Inv (length w) s' /\ length w' = length w /\
        Forall2 (drifts D (length h)) w w'.
  Proof.
    intros PD St1. induction h as [|[phi sf] h IH]; intros s w I Fh; cbn [train].
    - exists s, w. splits; auto. clear. induction w; constructor; auto using drifts_0.
    - inversion Fh as [|? ? F1 Fh']; subst.
      destruct (St1 s w phi sf I F1) as (s' & w' & E & I' & L & Sh). rewrite E.
      rewrite <- L in I', Fh'. destruct (IH s' w' I' Fh') as (s2 & w2 & E2 & I2 & L2 & Dr).
      exists s2, w2. rewrite L in I2, L2. splits; auto. simpl length. eapply drifts_list; eauto.
  Qed.

  (** Dividing a bounded numerator by [z + EPS]. *)
  Lemma div_shifted num z x e : nonneg z -> (0 <= e <= 999)%Z -> within (bpow radix2 e) num ->
    shifted (bpow radix2 (e + 24)) x (b_add x (b_div num (b_add z b_eps))).
  Proof.
    intros Nz Le [Fn Ln]. destruct (b_div_above num (b_add z b_eps) Fn (b_denominator z Nz)) as [_ B].
    destruct B as [B1 B2].
    { apply Rle_trans with (1 := Ln). apply bpow_le. lia. }
    right. eexists. split; [|reflexivity]. split; [exact B1|]. apply Rle_trans with (1 := B2).
    rewrite bpow_plus, Rmult_comm. apply Rmult_le_compat_r; [apply bpow_ge_0|exact Ln].
  Qed.

  Lemma mul_pow x y i j : (0 <= i)%Z -> (0 <= j)%Z -> (i + j <= 1023)%Z ->
    within (bpow radix2 i) x -> within (bpow radix2 j) y -> within (bpow radix2 (i + j)) (b_mul x y).
  Proof.
    intros Pi Pj L [Fx Lx] [Fy Ly]. apply b_mul_within; auto; [apply fmt_bpow; lia|apply bpow_lt; lia|].
    rewrite Rabs_mult, bpow_plus. apply Rmult_le_compat; auto; apply Rabs_pos.
  Qed.

  (** ** Adagrad, any history *)

  Definition adagrad_inv (j : Z) (n : nat) (s : adagrad_state f64) : Prop :=
    length (ag_acc s) = n /\ Forall nonneg (ag_acc s) /\ within (bpow radix2 j) (ag_lr s).

  Theorem adagrad_history_f64 j k : squares -> (0 <= j)%Z -> (0 <= k)%Z -> (j + k <= 999)%Z ->
    forall h s w, adagrad_inv j (length w) s -> Forall (bounded_step (length w) k) h ->
      exists s' w', train Adagrad h s w = Ret (s', w') /\ adagrad_inv j (length w) s' /\ length w' = length w /\
        Forall2 (drifts (bpow radix2 (j + k + 24)) (length h)) w w'.
  Proof.
    intros Sq Pj Pk L. apply train_drifts; [apply bpow_ge_0|].
    intros s w phi sf (La & Na & Lr) B.
    assert (Z : sized (length w) phi) by apply B.
    destruct (expands_exists phi) as [l Ex]; [apply Z|].
    destruct (adagrad_step_f64 s w phi sf l Sq (bounded_finite _ _ _ B) Ex La Na) as (acc' & w' & E & Lw & Gr & _).
    exists (MkAdagrad (ag_lr s) acc'), w'. split; [exact E|]. split.
    { unfold adagrad_inv; simpl; splits; auto; [apply Forall2_len in Gr; lia|]. clear -Gr. induction Gr as [|? ? ? ? G _ IH]; constructor; auto. apply G. }
    split; [exact Lw|]. apply Forall2_nth; [auto|]. intros i x Ew.
    destruct (adagrad_step_spec s w phi l sf Z Ex La) as (acc2 & w2 & E2 & _ & Lw2 & Sp).
    change (adagrad_step_scaled s w phi sf = Ret (MkAdagrad (ag_lr s) acc', w', Ok tt)) in E.
    rewrite E in E2. injection E2 as <- <-.
    assert (Li : (i < length w)%nat) by (apply nth_error_Some; congruence).
    destruct (nth_error_lt l i) as [a El]; [destruct Ex as [X _]; rewrite X, (proj2 Z); exact Li|].
    destruct (nth_error_lt (ag_acc s) i) as [q Eq]; [lia|].
    destruct (Sp i a x q El Ew Eq) as [_ Bw]. eexists. split; [exact Bw|].
    unfold adagrad_move, adagrad_acc. cbn [fadd fpowi fmul fdiv fsqrt S64 ScalarF64]. rewrite Sq.
    rewrite (EPS_f64 P : @EPS f64 S64 = b_eps).
    assert (G : within (bpow radix2 k) (b_mul a sf)).
    { destruct Ex as [_ Ex]. destruct (Ex i a El) as [St|[_ ->]]; [apply B in St; exact St|].
      destruct B as (_ & Fs & _). simpl in Fs. split; [apply zero_times, Fs|].
      change (@fzero f64 S64) with b_zero. destruct sf; try discriminate; cbn [b_mul Bmult b_zero B2R]; rewrite Rabs_R0; apply bpow_ge_0. }
    apply div_shifted; [|lia|apply mul_pow; auto; lia].
    apply b_sqrt_pos, b_add_pos; [eapply nth_Forall, Eq; exact Na|apply b_mul_self, G].
  Qed.

  (** ** Adam, any history *)

  Definition unit_ (b : f64) : Prop := b_finite b = true /\ 0 <= b_real b < 1.

  Lemma blend_m1 k dense b sf a x : (0 <= k <= 1023)%Z -> unit_ b -> within (bpow radix2 k) x ->
    within (bpow radix2 k) (b_mul a sf) -> within (bpow radix2 k) (adam_m1 dense b sf a x).
  Proof.
    intros Lk [Fb Lb] [Fx Lx] [Fg Lg]. unfold adam_m1. cbn [fadd fmul fsub S64 ScalarF64].
    rewrite (fone_f64 P : @fone f64 S64 = b_one). assert (Bk := bpow_gt_0 radix2 k).
    destruct (b_one_minus b Fb Lb) as [Fc Lc].
    assert (Sm : forall c y, 0 <= b_real c <= 1 -> within (bpow radix2 k) y ->
      fmt64 (b_real c * bpow radix2 k) /\ b_real c * bpow radix2 k < bpow radix2 1024 /\
      Rabs (b_real c * b_real y) <= b_real c * bpow radix2 k).
    { intros c y Lc' [_ Ly]. split; [apply fmt_scale; [apply b_real_format|lia]|]. split.
      - apply Rle_lt_trans with (bpow radix2 k); [nra|apply bpow_lt; lia].
      - rewrite Rabs_mult, (Rabs_pos_eq (b_real c)) by lra. apply Rmult_le_compat_l; [lra|exact Ly]. }
    apply b_blend with b; auto.
    - destruct (Sm b x ltac:(lra) (conj Fx Lx)) as (A1 & A2 & A3). unfold decayed.
      destruct dense; apply b_mul_within; auto. rewrite Rmult_comm. exact A3.
    - destruct (Sm (b_sub b_one b) (b_mul a sf) ltac:(lra) (conj Fg Lg)) as (A1 & A2 & A3).
      apply b_mul_within; auto.
  Qed.

  Lemma within_nonneg x B : within B x -> 0 <= b_real x -> nonneg x.
  Proof. intros [Fx _] L. right. split; auto. Qed.

  Lemma nonneg_within_real x B : nonneg x -> within B x -> 0 <= b_real x.
  Proof. intros [->|[_ L]] [Fx _]; [discriminate|exact L]. Qed.

  Lemma blend_m2 k dense b sf a x : (0 <= k <= 511)%Z -> unit_ b ->
    within (bpow radix2 (k + k)) x -> nonneg x ->
    within (bpow radix2 k) (b_mul a sf) ->
    within (bpow radix2 (k + k)) (adam_m2 dense b sf a x) /\ nonneg (adam_m2 dense b sf a x).
  Proof.
    intros Lk [Fb Lb] Wx Nx [Fg Lg]. assert (Px := nonneg_within_real x _ Nx Wx). destruct Wx as [Fx Lx].
    unfold adam_m2. cbn [fadd fmul fsub S64 ScalarF64].
    rewrite (fone_f64 P : @fone f64 S64 = b_one). assert (Bk := bpow_gt_0 radix2 k).
    set (g := b_mul a sf) in *. set (c := b_sub b_one b) in *.
    destruct (b_one_minus b Fb Lb) as [Fc Lc]. fold c in Fc, Lc.
    assert (K2 : bpow radix2 (k + k) < bpow radix2 1024) by (apply bpow_lt; lia).
    assert (B2 := bpow_gt_0 radix2 (k + k)).
    assert (Wd : within (b_real b * bpow radix2 (k + k)) (decayed dense b x)).
    { assert (Q : Rabs (b_real b * b_real x) <= b_real b * bpow radix2 (k + k)).
      { rewrite Rabs_mult, (Rabs_pos_eq (b_real b)) by lra. apply Rmult_le_compat_l; [lra|exact Lx]. }
      assert (Gf : fmt64 (b_real b * bpow radix2 (k + k))) by (apply fmt_scale; [apply b_real_format|lia]).
      unfold decayed. destruct dense; apply b_mul_within; auto; try (apply Rle_lt_trans with (2 := K2); nra).
      rewrite Rmult_comm. exact Q. }
    assert (Nd : nonneg (decayed dense b x)).
    { unfold decayed. destruct dense; apply b_mul_same; auto; apply Rmult_le_pos; lra. }
    destruct (b_mul_shrink c g Fc ltac:(lra) Fg) as (Fcg & _ & Scg).
    assert (Wcg : within (b_real c * bpow radix2 k) (b_mul c g)).
    { apply b_mul_within; auto; [apply fmt_scale; [apply b_real_format|lia]| |].
      - apply Rle_lt_trans with (bpow radix2 k); [nra|apply bpow_lt; lia].
      - rewrite Rabs_mult, (Rabs_pos_eq (b_real c)) by lra. apply Rmult_le_compat_l; [lra|exact Lg]. }
    assert (Wcgg : within (b_real c * bpow radix2 (k + k)) (b_mul (b_mul c g) g)).
    { apply b_mul_within; auto; [apply fmt_scale; [apply b_real_format|lia]|apply Rle_lt_trans with (2 := K2); nra|].
      rewrite Rabs_mult, bpow_plus, <- Rmult_assoc. apply Rmult_le_compat; try apply Rabs_pos; auto. apply Wcg. }
    split; [apply b_blend with b; auto; lia|]. apply b_add_pos; auto. apply b_mul_same; auto.
  Qed.

  Lemma decay_keep B b x : unit_ b -> within B x -> B < bpow radix2 1024 ->
    within B (b_mul x b) /\ (nonneg x -> nonneg (b_mul x b)).
  Proof.
    intros [Fb Lb] [Fx Lx] LB. split.
    - apply within_le with (2 := Lx). apply b_mul_within; auto; [apply generic_format_abs, b_real_format|lra|].
      rewrite Rabs_mult, (Rabs_pos_eq (b_real b)) by lra. assert (A := Rabs_pos (b_real x)). nra.
    - intros Nx. assert (Px := nonneg_within_real x _ Nx (conj Fx Lx)). apply b_mul_same; auto. apply Rmult_le_pos; lra.
  Qed.

  (** The bias-corrected first moment times the rate. *)
  Lemma unbiased j k lr p m : (0 <= j)%Z -> (0 <= k)%Z -> (j + k <= 946)%Z -> unit_ p ->
    within (bpow radix2 j) lr -> within (bpow radix2 k) m ->
    within (bpow radix2 (j + k + 53)) (b_mul lr (b_div m (b_sub b_one p))).
  Proof.
    intros Pj Pk L [Fp Lp] Wl [Fm Lm]. replace (j + k + 53)%Z with (j + (k + 53))%Z by lia.
    apply mul_pow; auto; try lia.
    assert (D := b_one_minus_low p Fp Lp). assert (B53 := bpow_gt_0 radix2 (-53)).
    apply b_div_within; auto; [lra|apply fmt_bpow; lia|apply bpow_lt; lia|].
    unfold Rdiv. rewrite Rabs_mult, (Rabs_pos_eq (/ _)) by (left; apply Rinv_0_lt_compat; lra).
    rewrite bpow_plus. apply Rmult_le_compat; auto; [apply Rabs_pos|left; apply Rinv_0_lt_compat; lra|].
    change 53%Z with (- -53)%Z. rewrite bpow_opp. apply Rinv_le; auto.
  Qed.

  Definition adam_inv (j k : Z) (n : nat) (s : adam_state f64) : Prop :=
    length (ad_exp_avg s) = n /\ length (ad_exp_avg_sq s) = n /\
    unit_ (ad_beta1 s) /\ unit_ (ad_beta1_prod s) /\ unit_ (ad_beta2 s) /\ unit_ (ad_beta2_prod s) /\
    within (bpow radix2 j) (ad_lr s) /\
    Forall (within (bpow radix2 k)) (ad_exp_avg s) /\
    Forall (fun x => within (bpow radix2 (k + k)) x /\ nonneg x) (ad_exp_avg_sq s).

  Lemma unit_mul p b : unit_ p -> unit_ b -> unit_ (b_mul p b).
  Proof. intros [A B] [C D]. apply b_mul_unit; auto. Qed.

  Theorem adam_history_f64 j k : (0 <= j)%Z -> (0 <= k <= 511)%Z -> (j + k <= 946)%Z ->
    forall h s w, adam_inv j k (length w) s -> Forall (bounded_step (length w) k) h ->
      exists s' w', train Adam h s w = Ret (s', w') /\ adam_inv j k (length w) s' /\ length w' = length w /\
        Forall2 (drifts (bpow radix2 (j + k + 77)) (length h)) w w'.
  Proof.
    intros Pj Pk L. apply train_drifts; [apply bpow_ge_0|].
    intros s w phi sf (L1 & L2 & B1 & P1 & B2 & P2 & Lr & M1 & M2) B.
    assert (Z : sized (length w) phi) by apply B.
    destruct (adam_step_spec s w phi sf Z L1 L2) as (m1' & m2' & w' & E & L1' & L2' & Lw' & Sp).
    assert (U1 : unit_ (b_mul (ad_beta1_prod s) (ad_beta1 s))) by (apply unit_mul; auto).
    assert (U2 : unit_ (b_mul (ad_beta2_prod s) (ad_beta2 s))) by (apply unit_mul; auto).
    eexists _, w'. split; [exact E|].
    assert (K : forall i, (i < length w)%nat -> exists x1 x2 x y1 y2 y,
      nth_error m1' i = Some y1 /\ within (bpow radix2 k) y1 /\
      nth_error m2' i = Some y2 /\ (within (bpow radix2 (k + k)) y2 /\ nonneg y2) /\
      nth_error (ad_exp_avg s) i = Some x1 /\ nth_error (ad_exp_avg_sq s) i = Some x2 /\
      nth_error w i = Some x /\ nth_error w' i = Some y /\ shifted (bpow radix2 (j + k + 77)) x y).
    { intros i Li. destruct (nth_error_lt (ad_exp_avg s) i) as [x1 X1]; [lia|].
      destruct (nth_error_lt (ad_exp_avg_sq s) i) as [x2 X2]; [lia|].
      destruct (nth_error_lt w i Li) as [x X]. specialize (Sp i x1 x2 x X1 X2 X).
      assert (W1 := nth_Forall _ _ _ _ M1 X1). destruct (nth_Forall _ _ _ _ M2 X2) as [W2 N2].
      exists x1, x2, x. destruct (get phi i) as [a|] eqn:Ea; cbv zeta in Sp; destruct Sp as (S1 & S2 & S3).
      - apply get_stores in Ea; [|apply Z].
        assert (G : within (bpow radix2 k) (b_mul a sf)) by (apply (proj2 (proj2 B)) in Ea; exact Ea).
        assert (V1 := blend_m1 k (negb (is_sparse phi)) (ad_beta1 s) sf a x1 ltac:(lia) B1 W1 G).
        assert (V2 := blend_m2 k (negb (is_sparse phi)) (ad_beta2 s) sf a x2 Pk B2 W2 N2 G).
        eexists _, _, _. split; [exact S1|]. split; [exact V1|]. split; [exact S2|]. split; [exact V2|].
        splits; eauto. unfold adam_move. cbn [fadd fmul fdiv fsub fsqrt S64 ScalarF64].
        rewrite (EPS_f64 P : @EPS f64 S64 = b_eps), (fone_f64 P : @fone f64 S64 = b_one).
        replace (j + k + 77)%Z with (j + k + 53 + 24)%Z by lia.
        apply div_shifted; [|lia|apply unbiased; auto; lia].
        destruct (b_one_minus _ (proj1 U2) (proj2 U2)) as [A C].
        apply b_sqrt_pos, b_div_pos; [apply V2|exact A|apply C].
      - eexists _, _, _. split; [exact S1|]. split; [apply decay_keep; auto; apply bpow_lt; lia|].
        split; [exact S2|]. split; [|splits; eauto; left; reflexivity].
        destruct (decay_keep (bpow radix2 (k + k)) (ad_beta2 s) x2 B2 W2) as [D1 D2]; [apply bpow_lt; lia|]. auto. }
    split; [|split; [exact Lw'|]].
    - unfold adam_inv. cbn [ad_exp_avg ad_exp_avg_sq ad_beta1 ad_beta1_prod ad_beta2 ad_beta2_prod ad_lr].
      splits; auto; apply Forall_nth; intros i y Y.
      + destruct (K i) as (? & ? & ? & y1 & ? & ? & E1 & V & _); [rewrite <- L1'; apply nth_error_Some; congruence|]. congruence.
      + destruct (K i) as (? & ? & ? & y1 & y2 & ? & _ & _ & E1 & V & _); [rewrite <- L2'; apply nth_error_Some; congruence|]. congruence.
    - apply Forall2_nth; [auto|]. intros i x X.
      destruct (K i) as (? & ? & x0 & ? & ? & y & _ & _ & _ & _ & _ & _ & X0 & Y & Sh); [apply nth_error_Some; congruence|].
      exists y. split; [exact Y|]. congruence.
  Qed.

  (** ** AdaMax, any history *)

  Definition adamax_inv (j k : Z) (n : nat) (s : adamax_state f64) : Prop :=
    length (am_exp_avg s) = n /\ length (am_exp_inf s) = n /\
    unit_ (am_beta1 s) /\ unit_ (am_beta1_prod s) /\ unit_ (am_beta2 s) /\
    within (bpow radix2 j) (am_lr s) /\
    Forall (within (bpow radix2 k)) (am_exp_avg s) /\
    Forall (fun x => within (bpow radix2 k) x /\ nonneg x) (am_exp_inf s).

  Theorem adamax_history_f64 j k : (0 <= j)%Z -> (0 <= k <= 1023)%Z -> (j + k <= 946)%Z ->
    forall h s w, adamax_inv j k (length w) s -> Forall (bounded_step (length w) k) h ->
      exists s' w', train AdaMax h s w = Ret (s', w') /\ adamax_inv j k (length w) s' /\ length w' = length w /\
        Forall2 (drifts (bpow radix2 (j + k + 77)) (length h)) w w'.
  Proof.
    intros Pj Pk L. apply train_drifts; [apply bpow_ge_0|].
    intros s w phi sf (L1 & L2 & B1 & P1 & B2 & Lr & M1 & M2) B.
    assert (Z : sized (length w) phi) by apply B.
    destruct (adamax_step_spec s w phi sf Z L1 L2) as (m1' & m2' & w' & E & L1' & L2' & Lw' & Sp).
    assert (U1 : unit_ (b_mul (am_beta1_prod s) (am_beta1 s))) by (apply unit_mul; auto).
    eexists _, w'. split; [exact E|].
    assert (K : forall i, (i < length w)%nat -> exists x1 x2 x y1 y2 y,
      nth_error m1' i = Some y1 /\ within (bpow radix2 k) y1 /\
      nth_error m2' i = Some y2 /\ (within (bpow radix2 k) y2 /\ nonneg y2) /\
      nth_error (am_exp_avg s) i = Some x1 /\ nth_error (am_exp_inf s) i = Some x2 /\
      nth_error w i = Some x /\ nth_error w' i = Some y /\ shifted (bpow radix2 (j + k + 77)) x y).
    { intros i Li. destruct (nth_error_lt (am_exp_avg s) i) as [x1 X1]; [lia|].
      destruct (nth_error_lt (am_exp_inf s) i) as [x2 X2]; [lia|].
      destruct (nth_error_lt w i Li) as [x X]. specialize (Sp i x1 x2 x X1 X2 X).
      assert (W1 := nth_Forall _ _ _ _ M1 X1). destruct (nth_Forall _ _ _ _ M2 X2) as [W2 N2].
      assert (DK : within (bpow radix2 k) (b_mul x2 (am_beta2 s)) /\ nonneg (b_mul x2 (am_beta2 s))).
      { destruct (decay_keep (bpow radix2 k) (am_beta2 s) x2 B2 W2) as [D1 D2]; [apply bpow_lt; lia|]. auto. }
      exists x1, x2, x. destruct (get phi i) as [a|] eqn:Ea; cbv zeta in Sp; destruct Sp as (S1 & S2 & S3).
      - apply get_stores in Ea; [|apply Z].
        assert (G : within (bpow radix2 k) (b_mul a sf)) by (apply (proj2 (proj2 B)) in Ea; exact Ea).
        assert (V1 := blend_m1 k (negb (is_sparse phi)) (am_beta1 s) sf a x1 ltac:(lia) B1 W1 G).
        assert (DK2 : within (bpow radix2 k) (decayed (negb (is_sparse phi)) (am_beta2 s) x2) /\
                      nonneg (decayed (negb (is_sparse phi)) (am_beta2 s) x2)).
        { unfold decayed. destruct (negb _); auto. cbn [fmul S64 ScalarF64].
          destruct B2 as [Fb Lb]. assert (Px := nonneg_within_real x2 _ N2 W2). destruct W2 as [Fx Lx]. split.
          - apply within_le with (2 := Lx). apply b_mul_within; auto; [apply generic_format_abs, b_real_format|apply b_real_small|].
            rewrite Rabs_mult, (Rabs_pos_eq (b_real (am_beta2 s))) by lra. assert (A := Rabs_pos (b_real x2)). nra.
          - apply b_mul_same; auto. apply Rmult_le_pos; lra. }
        assert (V2 : within (bpow radix2 k) (adamax_u (negb (is_sparse phi)) (am_beta2 s) sf a x2) /\
                     nonneg (adamax_u (negb (is_sparse phi)) (am_beta2 s) sf a x2)).
        { unfold adamax_u. cbn [fmax fabs fmul S64 ScalarF64]. split.
          - apply b_max_within; [apply DK2|apply b_abs_within, G].
          - apply b_max_pos; [apply DK2|apply b_abs_pos]. destruct G as [G _]. destruct (b_mul a sf); auto; discriminate. }
        eexists _, _, _. split; [exact S1|]. split; [exact V1|]. split; [exact S2|]. split; [exact V2|].
        splits; eauto. unfold adamax_move. cbn [fadd fmul fdiv fsub S64 ScalarF64].
        rewrite (EPS_f64 P : @EPS f64 S64 = b_eps), (fone_f64 P : @fone f64 S64 = b_one).
        replace (j + k + 77)%Z with (j + k + 53 + 24)%Z by lia.
        apply div_shifted; [apply V2|lia|apply unbiased; auto; lia].
      - eexists _, _, _. split; [exact S1|]. split; [apply decay_keep; auto; apply bpow_lt; lia|].
        split; [exact S2|]. split; [exact DK|]. splits; eauto. left. reflexivity. }
    split; [|split; [exact Lw'|]].
    - unfold adamax_inv. cbn [am_exp_avg am_exp_inf am_beta1 am_beta1_prod am_beta2 am_lr].
      splits; auto; apply Forall_nth; intros i y Y.
      + destruct (K i) as (? & ? & ? & y1 & ? & ? & E1 & V & _); [rewrite <- L1'; apply nth_error_Some; congruence|]. congruence.
      + destruct (K i) as (? & ? & ? & y1 & y2 & ? & _ & _ & E1 & V & _); [rewrite <- L2'; apply nth_error_Some; congruence|]. congruence.
    - apply Forall2_nth; [auto|]. intros i x X.
      destruct (K i) as (? & ? & x0 & ? & ? & y & _ & _ & _ & _ & _ & _ & X0 & Y & Sh); [apply nth_error_Some; congruence|].
      exists y. split; [exact Y|]. congruence.
  Qed.

  (** ** Constructors, resets *)

  Lemma zeros_all (Q : f64 -> Prop) n : Q b_zero -> Forall Q (@zeros f64 S64 n).
  Proof. intros A. unfold zeros. change (@fzero f64 S64) with b_zero. induction n; simpl; constructor; auto. Qed.
  Lemma fill_all (Q : f64 -> Prop) l : Q b_zero -> Forall Q (@fill_zero f64 S64 l).
  Proof. intros A. unfold fill_zero. change (@fzero f64 S64) with b_zero. induction l; simpl; constructor; auto. Qed.
  Lemma within_zero k : within (bpow radix2 k) b_zero.
  Proof. split; [reflexivity|]. simpl. rewrite Rabs_R0. apply bpow_ge_0. Qed.
  Lemma nonneg_zero : nonneg b_zero.
  Proof. right. split; [reflexivity|simpl; lra]. Qed.
  Lemma zeros_len n : length (@zeros f64 S64 n) = n.
  Proof. apply repeat_length. Qed.
  Lemma fill_len l : length (@fill_zero f64 S64 l) = length l.
  Proof. apply map_length. Qed.

  Lemma adagrad_inv_new j n lr : within (bpow radix2 j) lr -> adagrad_inv j n (@adagrad_new f64 S64 n lr).
  Proof. intros W. unfold adagrad_inv, adagrad_new. cbn. rewrite zeros_len. splits; auto. apply zeros_all, nonneg_zero. Qed.
  Lemma adagrad_inv_reset j n s : adagrad_inv j n s -> adagrad_inv j n (@adagrad_reset f64 S64 s).
  Proof. intros (A & B & C). unfold adagrad_inv, adagrad_reset. cbn. rewrite fill_len. splits; auto. apply fill_all, nonneg_zero. Qed.

  Lemma adam_inv_new j k n lr b1 b2 : unit_ b1 -> unit_ b2 -> within (bpow radix2 j) lr ->
    adam_inv j k n (@adam_new f64 S64 n lr b1 b2).
  Proof.
    intros U1 U2 W. unfold adam_inv, adam_new.
    cbn [ad_exp_avg ad_exp_avg_sq ad_beta1 ad_beta1_prod ad_beta2 ad_beta2_prod ad_lr].
    rewrite zeros_len. splits; auto; apply zeros_all; auto using within_zero, nonneg_zero.
  Qed.
  Lemma adam_inv_reset j k n s : adam_inv j k n s -> adam_inv j k n (@adam_reset f64 S64 s).
  Proof.
    intros (A1 & A2 & A3 & A4 & A5 & A6 & A7 & _ & _). unfold adam_inv, adam_reset.
    cbn [ad_exp_avg ad_exp_avg_sq ad_beta1 ad_beta1_prod ad_beta2 ad_beta2_prod ad_lr].
    rewrite !fill_len. splits; auto; apply fill_all; auto using within_zero, nonneg_zero.
  Qed.

  Lemma adamax_inv_new j k n lr b1 b2 : unit_ b1 -> unit_ b2 -> within (bpow radix2 j) lr ->
    adamax_inv j k n (@adamax_new f64 S64 n lr b1 b2).
  Proof.
    intros U1 U2 W. unfold adamax_inv, adamax_new.
    cbn [am_exp_avg am_exp_inf am_beta1 am_beta1_prod am_beta2 am_lr].
    rewrite zeros_len. splits; auto; apply zeros_all; auto using within_zero, nonneg_zero.
  Qed.
  Lemma adamax_inv_reset j k n s : adamax_inv j k n s -> adamax_inv j k n (@adamax_reset f64 S64 s).
  Proof.
    intros (A1 & A2 & A3 & A4 & A5 & A6 & _ & _). unfold adamax_inv, adamax_reset.
    cbn [am_exp_avg am_exp_inf am_beta1 am_beta1_prod am_beta2 am_lr].
    rewrite !fill_len. splits; auto; apply fill_all; auto using within_zero, nonneg_zero.
  Qed.

  (** ** A saturated accumulator freezes its weight *)

  Theorem adagrad_saturated (s : adagrad_state f64) w phi sf l i a x : squares ->
    finite_step (length w) (phi, sf) -> expands phi l -> length (ag_acc s) = length w ->
    nth_error (ag_acc s) i = Some b_inf -> nth_error l i = Some a -> nth_error w i = Some x ->
    b_finite (b_mul (ag_lr s) (b_mul a sf)) = true -> b_finite x = true ->
    exists s' w' x', adagrad_step_scaled s w phi sf = Ret (s', w', Ok tt) /\
      nth_error (ag_acc s') i = Some b_inf /\ nth_error w' i = Some x' /\
      b_finite x' = true /\ b_real x' = b_real x.
  Proof.
    intros Sq (Z & Fs & Fg) Ex La Eq El Ew Fn Fx. simpl in Z, Fs, Fg.
    destruct (adagrad_step_spec s w phi l sf Z Ex La) as (acc' & w' & E & La' & Lw' & Sp).
    destruct (Sp i a x _ El Ew Eq) as [A B].
    assert (G : b_finite (b_mul a sf) = true).
    { destruct Ex as [_ Ex]. destruct (Ex i a El) as [St|[_ ->]]; [eapply Fg, St|apply zero_times, Fs]. }
    unfold adagrad_move, adagrad_acc in *. cbn [fadd fpowi fmul fdiv fsqrt S64 ScalarF64] in *.
    rewrite Sq in *. rewrite (EPS_f64 P : @EPS f64 S64 = b_eps) in *.
    assert (Ei : b_add b_inf (b_mul (b_mul a sf) (b_mul a sf)) = b_inf).
    { apply grows_add; auto; [left; reflexivity|apply b_mul_self, G]. }
    rewrite Ei in *. change (b_sqrt b_inf) with b_inf in B.
    assert (Ed : b_add b_inf b_eps = b_inf) by (apply grows_add; auto; [left; reflexivity|apply b_eps_pos]).
    rewrite Ed in B. destruct (b_div_inf _ Fn) as [sg Dz]. rewrite Dz in B.
    eexists _, _, _. split; [exact E|]. split; [exact A|]. split; [exact B|].
    destruct x as [sx|sx| |sx m e Bx]; try discriminate; [destruct sx, sg; split; reflexivity|split; reflexivity].
  Qed.
End OptimF64.
