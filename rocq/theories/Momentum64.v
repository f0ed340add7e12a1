(** Momentum and Nesterov steps in binary64: how large velocities can get, what
    that means for weights, and what happens once gradients stop. Facts for C90. *)
From Coq Require Import List Arith ZArith Lia Reals Lra Bool.
From Flocq Require Import Core.Core IEEE754.BinarySingleNaN.
From Verif Require Import Base Scalar ScalarR ScalarF64 F64Facts HMap HMapFacts NdArray VecFacts Features Spec
  FeatureFacts FeatureMore Basis BasisFacts NormF64 NonnegF64 BoundF64 Optim OptimSpec OptimFacts OptimReal OptimF64.
Import ListNotations.
Local Open Scope R_scope.

(** ** Rounding *)

(** Half a unit above a power of two is a tie, and goes to the power of two. *)
Lemma rnd64_tie k : (-1074 <= k <= 970)%Z ->
  rnd64 (bpow radix2 (k + 53) + bpow radix2 k) = bpow radix2 (k + 53).
Proof.
  intros L. set (x := bpow radix2 (k + 53) + bpow radix2 k).
  assert (P0 := bpow_gt_0 radix2 k). assert (P1 := bpow_gt_0 radix2 (k + 53)).
  assert (M : mag radix2 x = (k + 54)%Z :> Z).
  { apply mag_unique_pos. replace (k + 54 - 1)%Z with (k + 53)%Z by lia. split; [unfold x; lra|].
    replace (k + 54)%Z with (1 + (k + 53))%Z by lia. rewrite (bpow_plus radix2 1). change (bpow radix2 1) with 2.
    assert (bpow radix2 k < bpow radix2 (k + 53)) by (apply bpow_lt; lia). unfold x. lra. }
  unfold rnd64, round, F2R, scaled_mantissa, cexp. rewrite M, fexp64. cbn [Fnum Fexp].
  replace (FLT_exp (-1074) 53 (k + 54)) with (k + 1)%Z by (unfold FLT_exp; lia).
  assert (Sx : x * bpow radix2 (- (k + 1)) = IZR (2 ^ 52) + / 2).
  { unfold x. rewrite Rmult_plus_distr_r, <- !bpow_plus.
    replace (k + 53 + - (k + 1))%Z with 52%Z by lia. replace (k + - (k + 1))%Z with (-1)%Z by lia.
    rewrite (IZR_Zpower radix2) by lia. reflexivity. }
  rewrite Sx. assert (Fl : Zfloor (IZR (2 ^ 52) + / 2) = (2 ^ 52)%Z).
  { apply Zfloor_imp. rewrite plus_IZR. lra. }
  assert (Zn : round_mode mode_NE (IZR (2 ^ 52) + / 2) = (2 ^ 52)%Z).
  { cbn [round_mode]. unfold ZnearestE, Znearest. rewrite Fl. rewrite Rcompare_Eq by lra.
    change (Z.even (2 ^ 52)) with true. reflexivity. }
  rewrite Zn. rewrite (IZR_Zpower radix2) by lia. rewrite <- bpow_plus. f_equal. lia.
Qed.

(** Adding at most half a unit to a value inside a power of two stays inside. *)
Lemma b_add_tie k x g : (-1074 <= k <= 970)%Z -> within (bpow radix2 (k + 53)) x -> within (bpow radix2 k) g ->
  within (bpow radix2 (k + 53)) (b_add x g).
Proof.
  intros L [Fx Lx] [Fg Lg]. apply b_add_rnd; auto; [|apply bpow_lt; lia].
  unfold rnd64. rewrite <- round_NE_abs by apply fexp_correct, f64_prec.
  fold (rnd64 (Rabs (b_real x + b_real g))). rewrite <- (rnd64_tie k L).
  apply round_le; [apply fexp_correct, f64_prec|apply valid_rnd_N|].
  apply Rle_trans with (1 := Rabs_triang _ _). lra.
Qed.

(** Below one by 2^-q: room for increments of 2^k under 2^(k+q). *)
Lemma fmt_gap k q : (-1074 <= k)%Z -> (0 <= q <= 53)%Z -> (k + q <= 1023)%Z ->
  fmt64 (bpow radix2 (k + q) - bpow radix2 k).
Proof.
  intros Lk Lq L. rewrite fexp64. apply generic_format_FLT.
  exists (Float radix2 (2 ^ q - 1) k).
  - unfold F2R. cbn [Fnum Fexp]. rewrite minus_IZR, (IZR_Zpower radix2) by lia. rewrite bpow_plus. ring.
  - cbn [Fnum]. assert (0 < 2 ^ q)%Z by (apply Z.pow_pos_nonneg; lia).
    assert (2 ^ q <= 2 ^ 53)%Z by (apply Z.pow_le_mono_r; lia). rewrite Z.abs_eq by lia.
    change (radix2 ^ 53)%Z with (2 ^ 53)%Z. lia.
  - exact Lk.
Qed.

Lemma b_mul_gap k q m x : (-1074 <= k)%Z -> (0 <= q <= 53)%Z -> (k + q <= 1023)%Z ->
  within (1 - bpow radix2 (- q)) m -> within (bpow radix2 (k + q)) x ->
  within (bpow radix2 (k + q) - bpow radix2 k) (b_mul m x).
Proof.
  intros Lk Lq L [Fm Lm] [Fx Lx]. assert (Pk := bpow_gt_0 radix2 k).
  apply b_mul_within; auto; [apply fmt_gap; auto| |].
  - assert (bpow radix2 (k + q) < bpow radix2 1024) by (apply bpow_lt; lia). lra.
  - rewrite Rabs_mult. apply Rle_trans with ((1 - bpow radix2 (- q)) * bpow radix2 (k + q)).
    + apply Rmult_le_compat; auto; apply Rabs_pos.
    + rewrite Rmult_minus_distr_r, Rmult_1_l, <- bpow_plus. replace (- q + (k + q))%Z with k by lia. lra.
Qed.

(** Every binary64 number below one is at most 1 - 2^-53. *)
Lemma below_one m : b_finite m = true -> Rabs (b_real m) < 1 -> within (1 - bpow radix2 (-53)) m.
Proof.
  intros Fm Lm. split; [exact Fm|].
  assert (B : Rabs (b_real m) <= pred radix2 (SpecFloat.fexp 53 1024) 1).
  { apply pred_ge_gt; [apply fexp_correct, f64_prec|apply generic_format_abs, b_real_format|apply round_1|exact Lm]. }
  change 1 with (bpow radix2 0) in B at 1. rewrite pred_bpow in B. exact B.
Qed.

Lemma b_mul_one_within B m x : within 1 m -> within B x -> B < bpow radix2 1024 -> within B (b_mul m x).
Proof.
  intros [Fm Lm] [Fx Lx] LB. apply within_le with (2 := Lx).
  apply b_mul_within; auto; [apply generic_format_abs, b_real_format|lra|].
  rewrite Rabs_mult. assert (A := Rabs_pos (b_real x)). assert (A' := Rabs_pos (b_real m)). nra.
Qed.

Lemma b_mul_comm (x y : f64) : b_mul x y = b_mul y x.
Proof.
  unfold b_mul, Bmult. destruct x as [sx|sx| |sx mx ex Bx], y as [sy|sy| |sy my ey By];
    try (rewrite xorb_comm; reflexivity); try reflexivity.
  apply B2SF_inj. rewrite !B2SF_SF2B. rewrite (xorb_comm sx sy), (Pos.mul_comm mx my), (Z.add_comm ex ey). reflexivity.
Qed.

(** ** Velocities *)

(** What [momentum] has to satisfy for velocities to stay inside 2^(k+q). *)
Definition damped (q : Z) (m : f64) : Prop :=
  within (1 - bpow radix2 (- q)) m \/ q = 53%Z /\ within 1 m.

Lemma damped_below m : b_finite m = true -> Rabs (b_real m) < 1 -> damped 53 m.
Proof. intros. left. apply below_one; auto. Qed.

Lemma damped_add k q m x g : (-1074 <= k)%Z -> (0 <= q <= 53)%Z -> (k + q <= 1023)%Z -> damped q m ->
  within (bpow radix2 (k + q)) x -> within (bpow radix2 k) g ->
  within (bpow radix2 (k + q)) (b_mul m x) /\
  within (bpow radix2 (k + q)) (b_add (b_mul m x) g).
Proof.
  intros Lk Lq L [D|[-> D]] Wx Wg.
  - assert (W := b_mul_gap k q m x Lk Lq L D Wx). assert (Pk := bpow_gt_0 radix2 k). split.
    { apply within_le with (1 := W). lra. }
    destruct W as [Fp Lp]. destruct Wg as [Fg Lg].
    apply b_add_rnd; auto; [|apply bpow_lt; lia]. apply rnd64_abs; [apply fmt_bpow; lia|].
    apply Rle_trans with (1 := Rabs_triang _ _). lra.
  - assert (W : within (bpow radix2 (k + 53)) (b_mul m x)) by (apply b_mul_one_within; auto; apply bpow_lt; lia).
    split; [exact W|]. apply b_add_tie; auto. lia.
Qed.

Section Momentum64.
  Context (P : Platform).
  Local Instance S64m : Scalar f64 := ScalarF64 P.

  Definition velocity_inv (k q : Z) (n : nat) (s : momentum_state f64) : Prop :=
    length (mo_velocity s) = n /\ damped q (mo_momentum s) /\
    Forall (within (bpow radix2 (k + q))) (mo_velocity s).

  Lemma new_velocity_within k q n m phi sf i y : (-1074 <= k)%Z -> (0 <= q <= 53)%Z -> (k + q <= 1023)%Z ->
    damped q m -> bounded_step n k (phi, sf) -> (i < n)%nat -> within (bpow radix2 (k + q)) y ->
    within (bpow radix2 (k + q)) (new_velocity m sf phi i y).
  Proof.
    intros Lk Lq L D (Z & Fs & G) Li Wy. cbn [fst snd] in *. unfold new_velocity.
    destruct phi as [da|sa]; cbn [fadd fmul S64m ScalarF64].
    - apply damped_add; auto. apply (G i). cbn [stores].
      destruct (nth_error_lt da i) as [a E]; [apply sized_dense in Z; lia|].
      rewrite (nth_error_nth da i _ E). exact E.
    - destruct (hm_get (sa_acts sa) i) as [a|] eqn:E.
      + rewrite (b_mul_comm y m). apply damped_add; auto. apply (G i). cbn [stores]. apply hm_get_In. exact E.
      + rewrite (b_mul_comm y m). apply (damped_add k q m y b_zero); auto.
        split; [reflexivity|]. simpl. rewrite Rabs_R0. apply bpow_ge_0.
  Qed.
  (** Histories that keep an invariant, and move every weight by at most [c]
      increments of size [D] per step. *)
  Inductive hops (D : R) : nat -> list f64 -> list f64 -> Prop :=
  | hops_0 w : hops D 0 w w
  | hops_S c w w1 w2 : Forall2 (shifted D) w w1 -> hops D c w1 w2 -> hops D (S c) w w2.

  Lemma hops_drifts D c n w w' : 0 <= D -> hops D c w w' -> forall w'', Forall2 (drifts D n) w' w'' ->
    Forall2 (drifts D (c + n)) w w''.
  Proof. intros PD Hh. induction Hh as [|c w w1 w2 A _ IH]; intros w'' B; auto. eapply drifts_list; eauto. Qed.

  Lemma train_hops {St} (o : Optimiser f64 St) (Inv : nat -> St -> Prop) (Ok1 : nat -> Features f64 * f64 -> Prop) c D :
    0 <= D ->
    (forall s w phi sf, Inv (length w) s -> Ok1 (length w) (phi, sf) ->
       exists s' w', o_step_scaled o s w phi sf = Ret (s', w', Ok tt) /\ Inv (length w) s' /\
         length w' = length w /\ hops D c w w') ->
    forall h s w, Inv (length w) s -> Forall (Ok1 (length w)) h ->
      exists s' w', train o h s w = Ret (s', w') /\ Inv (length w) s' /\ length w' = length w /\
        Forall2 (drifts D (length h * c)) w w'.
  Proof.
    intros PD St1. induction h as [|[phi sf] h IH]; intros s w I Fh; cbn [train].
    - exists s, w. splits; auto. clear. induction w; constructor; auto using drifts_0.
    - inversion Fh as [|? ? F1 Fh']; subst.
      destruct (St1 s w phi sf I F1) as (s' & w' & E & I' & L & Sh). rewrite E.
      rewrite <- L in I', Fh'. destruct (IH s' w' I' Fh') as (s2 & w2 & E2 & I2 & L2 & Dr).
      exists s2, w2. rewrite L in I2, L2. splits; auto. cbn [length Nat.mul]. eapply hops_drifts; eauto.
  Qed.

  (** The same without looking at weights. *)
  Lemma train_keeps {St} (o : Optimiser f64 St) (Inv : nat -> St -> Prop) (Rel : St -> St -> Prop)
      (Ok1 : nat -> Features f64 * f64 -> Prop) :
    (forall s, Rel s s) -> (forall a b c, Rel a b -> Rel b c -> Rel a c) ->
    (forall s w phi sf, Inv (length w) s -> Ok1 (length w) (phi, sf) ->
       exists s' w', o_step_scaled o s w phi sf = Ret (s', w', Ok tt) /\ Inv (length w) s' /\
         length w' = length w /\ Rel s s') ->
    forall h s w, Inv (length w) s -> Forall (Ok1 (length w)) h ->
      exists s' w', train o h s w = Ret (s', w') /\ Inv (length w) s' /\ length w' = length w /\ Rel s s'.
  Proof.
    intros Rr Rt St1. induction h as [|[phi sf] h IH]; intros s w I Fh; cbn [train].
    - exists s, w. splits; auto.
    - inversion Fh as [|? ? F1 Fh']; subst.
      destruct (St1 s w phi sf I F1) as (s' & w' & E & I' & L & Sh). rewrite E.
      rewrite <- L in I', Fh'. destruct (IH s' w' I' Fh') as (s2 & w2 & E2 & I2 & L2 & Dr).
      exists s2, w2. rewrite L in I2, L2. splits; eauto.
  Qed.

  (** Both optimisers change the velocity the same way. *)
  Definition heavy (o : Optimiser f64 (momentum_state f64)) : Prop := o = SGDMomentum \/ o = NAG.

  Lemma heavy_step o s w phi sf : heavy o -> sized (length w) phi -> length (mo_velocity s) = length w ->
    exists v' w', o_step_scaled o s w phi sf = Ret (MkMomentum (mo_momentum s) (mo_lr s) v', w', Ok tt) /\
      length v' = length w /\ length w' = length w /\
      forall i y, nth_error (mo_velocity s) i = Some y ->
        nth_error v' i = Some (new_velocity (mo_momentum s) sf phi i y).
  Proof.
    intros [->| ->] Z L.
    - destruct (momentum_step_spec s w phi sf Z L) as (v' & w' & E & L1 & L2 & N).
      exists v', w'. splits; auto. intros i y Y.
      destruct (nth_error_lt w i) as [x X]; [rewrite <- L; apply nth_error_Some; congruence|]. exact (proj1 (N i x y X Y)).
    - destruct (nag_step_spec s w phi sf Z L) as (v' & w' & E & L1 & L2 & N).
      exists v', w'. splits; auto. intros i y Y.
      destruct (nth_error_lt w i) as [x X]; [rewrite <- L; apply nth_error_Some; congruence|]. exact (proj1 (N i x y X Y)).
  Qed.

  Lemma heavy_inv k q s n (v' : list f64) phi sf : (-1074 <= k)%Z -> (0 <= q <= 53)%Z -> (k + q <= 1023)%Z ->
    velocity_inv k q n s -> bounded_step n k (phi, sf) -> length v' = n ->
    (forall i y, nth_error (mo_velocity s) i = Some y -> nth_error v' i = Some (new_velocity (mo_momentum s) sf phi i y)) ->
    velocity_inv k q n (MkMomentum (mo_momentum s) (mo_lr s) v').
  Proof.
    intros Lk Lq L (Lv & D & V) B Lv' N. split; [exact Lv'|]. split; [exact D|]. cbn [mo_velocity].
    apply Forall_nth. intros i x X. assert (Li : (i < n)%nat) by (rewrite <- Lv'; apply nth_error_Some; congruence).
    destruct (nth_error_lt (mo_velocity s) i) as [y Y]; [lia|]. rewrite (N i y Y) in X. injection X as <-.
    apply new_velocity_within with n; auto. eapply nth_Forall, Y. exact V.
  Qed.

  Theorem velocity_history o k q : heavy o -> (-1074 <= k)%Z -> (0 <= q <= 53)%Z -> (k + q <= 1023)%Z ->
    forall h s w, velocity_inv k q (length w) s -> Forall (bounded_step (length w) k) h ->
      exists s' w', train o h s w = Ret (s', w') /\ velocity_inv k q (length w) s' /\ length w' = length w.
  Proof.
    intros Ho Lk Lq L h s w I Fh.
    destruct (train_keeps o (velocity_inv k q) (fun _ _ => True) (fun n => bounded_step n k)) with (h := h) (s := s) (w := w)
      as (s' & w' & E & I' & L' & _); auto.
    - clear s w I Fh. intros s w phi sf I B. destruct (heavy_step o s w phi sf Ho (proj1 B) (proj1 I)) as (v' & w' & E & L1 & L2 & N).
      eexists _, w'. split; [exact E|]. split; [|auto]. eapply heavy_inv; eauto.
    - exists s', w'. auto.
  Qed.

  (** ** Weights *)

  Definition momentum_inv (j k q : Z) (n : nat) (s : momentum_state f64) : Prop :=
    velocity_inv k q n s /\ within (bpow radix2 j) (mo_lr s).

  Lemma momentum_inv_new j k q n m lr : damped q m -> within (bpow radix2 j) lr ->
    momentum_inv j k q n (momentum_new n m lr).
  Proof.
    intros D W. split; [|exact W]. unfold velocity_inv, momentum_new; cbn [mo_velocity mo_momentum].
    split; [apply repeat_length|]. split; [exact D|]. apply Forall_forall. intros x I. apply repeat_spec in I. subst x.
    split; [reflexivity|]. simpl. rewrite Rabs_R0. apply bpow_ge_0.
  Qed.

  Lemma momentum_inv_reset j k q n s : momentum_inv j k q n s -> momentum_inv j k q n (momentum_reset s).
  Proof.
    intros ((Lv & D & V) & W). split; [|exact W]. unfold velocity_inv, momentum_reset; cbn [mo_velocity mo_momentum].
    split; [unfold fill_zero; rewrite map_length; exact Lv|]. split; [exact D|]. apply Forall_forall. intros x I.
    unfold fill_zero in I. apply in_map_iff in I. destruct I as (z & <- & _).
    split; [reflexivity|]. simpl. rewrite Rabs_R0. apply bpow_ge_0.
  Qed.

  Lemma mul_any x y i j : (-1074 <= i + j)%Z -> (i + j <= 1023)%Z ->
    within (bpow radix2 i) x -> within (bpow radix2 j) y -> within (bpow radix2 (i + j)) (b_mul x y).
  Proof.
    intros Pi L [Fx Lx] [Fy Ly]. apply b_mul_within; auto; [apply fmt_bpow; lia|apply bpow_lt; lia|].
    rewrite Rabs_mult, bpow_plus. apply Rmult_le_compat; auto; apply Rabs_pos.
  Qed.

  Theorem momentum_history_f64 j k q : (-1074 <= k)%Z -> (0 <= q <= 53)%Z -> (k + q <= 1023)%Z ->
    (-1074 <= j + (k + q) <= 1023)%Z ->
    forall h s w, momentum_inv j k q (length w) s -> Forall (bounded_step (length w) k) h ->
      exists s' w', train SGDMomentum h s w = Ret (s', w') /\ momentum_inv j k q (length w) s' /\ length w' = length w /\
        Forall2 (drifts (bpow radix2 (j + (k + q))) (length h)) w w'.
  Proof.
    intros Lk Lq L Lj h s w I Fh. rewrite <- (Nat.mul_1_r (length h)).
    apply (train_hops SGDMomentum (momentum_inv j k q) (fun n => bounded_step n k)); auto; [apply bpow_ge_0|].
    clear s w h I Fh. intros s w phi sf (I & W) B.
    destruct (momentum_step_spec s w phi sf (proj1 B) (proj1 I)) as (v' & w' & E & L1 & L2 & N).
    assert (Nv : forall i y, nth_error (mo_velocity s) i = Some y -> nth_error v' i = Some (new_velocity (mo_momentum s) sf phi i y)).
    { intros i y Y. destruct (nth_error_lt w i) as [x X]; [rewrite <- (proj1 I); apply nth_error_Some; congruence|].
      exact (proj1 (N i x y X Y)). }
    assert (I' := heavy_inv k q s _ v' phi sf Lk Lq L I B L1 Nv).
    eexists _, w'. split; [exact E|]. split; [split; [exact I'|exact W]|]. split; [exact L2|].
    apply hops_S with w'; [|constructor]. apply Forall2_nth; [auto|]. intros i x X.
    destruct (nth_error_lt (mo_velocity s) i) as [y Y]; [rewrite (proj1 I); apply nth_error_Some; congruence|].
    destruct (N i x y X Y) as [Y' X']. eexists. split; [exact X'|]. right. eexists. split; [|reflexivity].
    destruct I' as (_ & _ & V'). cbn [mo_velocity] in V'. assert (V := nth_Forall _ _ _ _ V' Y').
    cbn [fmul S64m ScalarF64]. apply mul_any; auto; lia.
  Qed.

  (** A Nesterov step also adds momentum times the activations themselves. *)
  Definition bounded_acts (l : Z) (p : Features f64 * f64) : Prop :=
    forall i a, stores (fst p) i a -> within (bpow radix2 l) a.

  Lemma damped_one q m : (0 <= q)%Z -> damped q m -> within 1 m.
  Proof.
    intros Lq [W|[_ W]]; auto. apply within_le with (1 := W). assert (A := bpow_gt_0 radix2 (- q)). lra.
  Qed.

  Theorem nag_history_f64 j k q l : (-1074 <= k)%Z -> (0 <= q <= 53)%Z -> (k + q <= 1023)%Z ->
    (-1074 <= j + (k + q) <= 1023)%Z -> (l <= 1023)%Z ->
    forall h s w, momentum_inv j k q (length w) s ->
      Forall (fun p => bounded_step (length w) k p /\ bounded_acts l p) h ->
      exists s' w', train NAG h s w = Ret (s', w') /\ momentum_inv j k q (length w) s' /\ length w' = length w /\
        Forall2 (drifts (bpow radix2 (Z.max (j + (k + q)) l)) (length h * 2)) w w'.
  Proof.
    intros Lk Lq L Lj Ll h s w I Fh.
    apply (train_hops NAG (momentum_inv j k q) (fun n p => bounded_step n k p /\ bounded_acts l p)); auto; [apply bpow_ge_0|].
    clear s w h I Fh. intros s w phi sf (I & W) (B & Ba).
    destruct (nag_step_spec s w phi sf (proj1 B) (proj1 I)) as (v' & w' & E & L1 & L2 & N).
    assert (Nv : forall i y, nth_error (mo_velocity s) i = Some y -> nth_error v' i = Some (new_velocity (mo_momentum s) sf phi i y)).
    { intros i y Y. destruct (nth_error_lt w i) as [x X]; [rewrite <- (proj1 I); apply nth_error_Some; congruence|].
      exact (proj1 (N i x y X Y)). }
    assert (I' := heavy_inv k q s _ v' phi sf Lk Lq L I B L1 Nv).
    eexists _, w'. split; [exact E|]. split; [split; [exact I'|exact W]|]. split; [exact L2|].
    destruct (scaled_add_spec (mo_lr s) w v' L1) as (w1 & _ & Lw1 & N1).
    assert (Dj : bpow radix2 (j + (k + q)) <= bpow radix2 (Z.max (j + (k + q)) l)) by (apply bpow_le; lia).
    assert (Dl : bpow radix2 l <= bpow radix2 (Z.max (j + (k + q)) l)) by (apply bpow_le; lia).
    apply hops_S with w1; [|apply hops_S with w'; [|constructor]].
    - apply Forall2_nth; [auto|]. intros i x X.
      destruct (nth_error_lt v' i) as [y Y]; [rewrite L1; apply nth_error_Some; congruence|].
      eexists. split; [exact (N1 i x y X Y)|]. right. eexists. split; [|reflexivity].
      destruct I' as (_ & _ & V'). cbn [mo_velocity] in V'. assert (V := nth_Forall _ _ _ _ V' Y).
      cbn [fmul S64m ScalarF64]. apply within_le with (2 := Dj). apply mul_any; auto; lia.
    - apply Forall2_nth; [congruence|]. intros i x1 X1.
      assert (Li : (i < length w)%nat) by (rewrite <- Lw1; apply nth_error_Some; congruence).
      destruct (nth_error_lt w i Li) as [x X]. destruct (nth_error_lt (mo_velocity s) i) as [y Y]; [rewrite (proj1 I); exact Li|].
      destruct (N i x y X Y) as (Y' & A1 & A2). rewrite (N1 i x _ X Y') in X1. injection X1 as <-.
      destruct (get phi i) as [a|] eqn:Ea.
      + apply get_stores in Ea; [|apply (proj1 B)]. eexists. split; [exact (A1 a Ea)|]. right. eexists. split; [|reflexivity].
        cbn [fmul S64m ScalarF64]. apply b_mul_one_within; [apply damped_one with q; [lia|apply I]| |apply bpow_lt; lia].
        apply within_le with (2 := Dl). exact (Ba i a Ea).
      + eexists. split; [apply A2|left; reflexivity]. intros (a & Sa). apply get_stores in Sa; [congruence|apply (proj1 B)].
  Qed.

  (** ** Once gradients stop *)

  Definition quiet_step (n : nat) (p : Features f64 * f64) : Prop :=
    sized n (fst p) /\ b_finite (snd p) = true /\ forall i a, stores (fst p) i a -> within 0 (b_mul a (snd p)).

  (** The velocity [y] becomes fl(m * y), up to the sign of zero. *)
  Lemma quiet_velocity n m phi sf i y : quiet_step n (phi, sf) -> (i < n)%nat ->
    b_finite (b_mul m y) = true ->
    b_finite (new_velocity m sf phi i y) = true /\ b_real (new_velocity m sf phi i y) = b_real (b_mul m y).
  Proof.
    intros (Z & Fs & G) Li Fp. cbn [fst snd] in *.
    assert (A : forall g, within 0 g -> b_finite (b_add (b_mul m y) g) = true /\ b_real (b_add (b_mul m y) g) = b_real (b_mul m y)).
    { intros g [Fg Lg]. assert (Zg : b_real g = 0) by (assert (Q := Rle_abs (b_real g)); assert (Q' := Rle_abs (- b_real g)); rewrite Rabs_Ropp in Q'; lra).
      pose proof (Bplus_correct 53 1024 f64_prec f64_emax mode_NE (b_mul m y) g Fp Fg) as C.
      fold (b_add (b_mul m y) g) in C. fold (b_real (b_mul m y)) (b_real g) in C. rewrite Zg, Rplus_0_r in C.
      fold (rnd64 (b_real (b_mul m y))) in C. rewrite rnd64_b_real in C.
      rewrite Rlt_bool_true in C by apply abs_B2R_lt_emax. destruct C as (C1 & C2 & _). auto. }
    unfold new_velocity. destruct phi as [da|sa]; cbn [fadd fmul S64m ScalarF64].
    - apply A, (G i). cbn [stores]. destruct (nth_error_lt da i) as [a E]; [apply sized_dense in Z; lia|].
      rewrite (nth_error_nth da i _ E). exact E.
    - rewrite (b_mul_comm y m). destruct (hm_get (sa_acts sa) i) as [a|] eqn:E; [|auto].
      apply A, (G i). cbn [stores]. apply hm_get_In. exact E.
  Qed.

  Lemma mul_real x y : within 1 x -> b_finite y = true ->
    b_finite (b_mul x y) = true /\ b_real (b_mul x y) = rnd64 (b_real x * b_real y).
  Proof.
    intros Wx Fy. assert (W := b_mul_one_within (Rabs (b_real y)) x y Wx (within_finite y Fy) (abs_B2R_lt_emax 53 1024 y)).
    split; [apply W|]. pose proof (Bmult_correct 53 1024 f64_prec f64_emax mode_NE x y) as C.
    fold (b_mul x y) in C. fold (rnd64 (b_real x * b_real y)) in C. rewrite Rlt_bool_true in C; [apply C|].
    apply Rle_lt_trans with (2 := abs_B2R_lt_emax 53 1024 y). apply rnd64_abs; [apply generic_format_abs, b_real_format|].
    rewrite Rabs_mult. fold (b_real y). destruct Wx as [_ Lx]. assert (A := Rabs_pos (b_real y)). assert (A' := Rabs_pos (b_real x)). nra.
  Qed.

  Lemma tiny_half : rnd64 (bpow radix2 (-1075)) = 0.
  Proof.
    assert (M : mag radix2 (bpow radix2 (-1075)) = (-1074)%Z :> Z) by (rewrite mag_bpow; reflexivity).
    unfold rnd64, round, F2R, scaled_mantissa, cexp. rewrite M, fexp64. cbn [Fnum Fexp].
    change (FLT_exp (-1074) 53 (-1074)) with (-1074)%Z. rewrite <- bpow_plus. change (-1075 + - -1074)%Z with (-1)%Z.
    assert (Zn : round_mode mode_NE (bpow radix2 (-1)) = 0%Z).
    { cbn [round_mode]. unfold ZnearestE, Znearest. change (bpow radix2 (-1)) with (/ 2).
      rewrite (Zfloor_imp 0) by (simpl; lra). rewrite Rcompare_Eq by lra. reflexivity. }
    rewrite Zn. apply Rmult_0_l.
  Qed.

  Lemma tiny_keep m : / 2 < m <= 1 -> rnd64 (m * bpow radix2 (-1074)) = bpow radix2 (-1074).
  Proof.
    intros Lm. assert (Pe := bpow_gt_0 radix2 (-1074)). set (x := m * bpow radix2 (-1074)).
    assert (Px : 0 < x) by (apply Rmult_lt_0_compat; lra).
    assert (C : cexp radix2 (SpecFloat.fexp 53 1024) x = (-1074)%Z).
    { unfold cexp. rewrite fexp64. unfold FLT_exp.
      assert (mag radix2 x <= -1073)%Z; [|lia]. apply mag_le_bpow; [lra|]. rewrite Rabs_pos_eq by lra.
      apply Rle_lt_trans with (bpow radix2 (-1074)); [unfold x; nra|apply bpow_lt; lia]. }
    unfold rnd64, round, F2R, scaled_mantissa. rewrite C. cbn [Fnum Fexp]. unfold x.
    rewrite Rmult_assoc, <- bpow_plus. change (-1074 + - -1074)%Z with 0%Z. change (bpow radix2 0) with 1. rewrite Rmult_1_r.
    assert (Zn : round_mode mode_NE m = 1%Z).
    { cbn [round_mode]. apply Znearest_imp. apply Rabs_def1; lra. }
    rewrite Zn. apply Rmult_1_l.
  Qed.

  Lemma least_positive (x : f64) : b_real x <> 0 -> bpow radix2 (-1074) <= Rabs (b_real x).
  Proof.
    intros N. apply Rle_trans with (ulp radix2 (SpecFloat.fexp 53 1024) (b_real x)).
    - rewrite ulp_neq_0 by exact N. apply bpow_le. unfold cexp. rewrite fexp64. unfold FLT_exp. lia.
    - apply ulp_le_abs; [exact N|apply b_real_format].
  Qed.

  Lemma rnd64_Rabs x : Rabs (rnd64 x) = rnd64 (Rabs x).
  Proof. symmetry. unfold rnd64. apply round_NE_abs, fexp_correct, f64_prec. Qed.

  Lemma rnd64_incr x y : x <= y -> rnd64 x <= rnd64 y.
  Proof. intros. apply round_le; auto; [apply fexp_correct, f64_prec|apply valid_rnd_N]. Qed.

  (** Multiplying by a momentum above 1/2 in magnitude never reaches zero. *)
  Lemma decay_stuck m y : within 1 m -> / 2 < Rabs (b_real m) -> b_finite y = true -> b_real y <> 0 -> b_real (b_mul m y) <> 0.
  Proof.
    intros Wm Lm Fy Ny. destruct (mul_real m y Wm Fy) as [_ ->]. intros E.
    assert (A : bpow radix2 (-1074) <= Rabs (rnd64 (b_real m * b_real y))).
    { rewrite rnd64_Rabs, <- (tiny_keep (Rabs (b_real m))) by (split; [exact Lm|apply Wm]). apply rnd64_incr.
      rewrite Rabs_mult. apply Rmult_le_compat_l; [apply Rabs_pos|]. apply least_positive, Ny. }
    rewrite E, Rabs_R0 in A. assert (B := bpow_gt_0 radix2 (-1074)). lra.
  Qed.

  (** With at most 1/2, one step takes 2^e to 2^(e-1), and 2^-1074 to zero. *)
  Lemma decay_half m y e : b_finite m = true -> Rabs (b_real m) <= / 2 -> (-1074 <= e <= 1024)%Z ->
    within (bpow radix2 e) y ->
    within (if (e =? -1074)%Z then 0 else bpow radix2 (e - 1)) (b_mul m y).
  Proof.
    intros Fm Lm Le [Fy Ly].
    assert (Q : Rabs (b_real m * b_real y) <= bpow radix2 (e - 1)).
    { rewrite Rabs_mult. unfold Z.sub. rewrite bpow_plus, Rmult_comm. change (bpow radix2 (- (1))) with (/ 2).
      apply Rmult_le_compat; auto; apply Rabs_pos. }
    destruct (Z.eqb_spec e (-1074)) as [->|N].
    - assert (W1 : within 1 m) by (split; [exact Fm|lra]). destruct (mul_real m y W1 Fy) as [F1 E1].
      split; [exact F1|]. rewrite E1, rnd64_Rabs. rewrite <- tiny_half. apply rnd64_incr. exact Q.
    - apply b_mul_within; auto; [apply fmt_bpow; lia|apply bpow_lt; lia].
  Qed.

  Definition calms (m : f64) (v v' : f64) : Prop :=
    b_finite v = true -> b_finite v' = true /\ Rabs (b_real v') <= Rabs (b_real v) /\
      (/ 2 < Rabs (b_real m) -> b_real v <> 0 -> b_real v' <> 0).

  Lemma calms_refl m v : calms m v v.
  Proof. intros Fv. splits; auto. lra. Qed.

  Lemma calms_trans m a b c : calms m a b -> calms m b c -> calms m a c.
  Proof. intros A B Fa. destruct (A Fa) as (Fb & L1 & N1). destruct (B Fb) as (Fc & L2 & N2). splits; auto. lra. Qed.

  Lemma calm_one n m phi sf i y : quiet_step n (phi, sf) -> (i < n)%nat -> within 1 m ->
    calms m y (new_velocity m sf phi i y).
  Proof.
    intros Qs Li Wm Fy. destruct (mul_real m y Wm Fy) as [Fp Ep].
    destruct (quiet_velocity n m phi sf i y Qs Li Fp) as [F1 E1]. split; [exact F1|]. rewrite E1. split.
    - apply (b_mul_one_within (Rabs (b_real y)) m y Wm (within_finite y Fy) (abs_B2R_lt_emax 53 1024 y)).
    - intros Lm Ny. apply decay_stuck; auto.
  Qed.

  Lemma Forall2_refl {A} (Q : A -> A -> Prop) : (forall x, Q x x) -> forall l, Forall2 Q l l.
  Proof. intros R0. induction l; constructor; auto. Qed.

  Lemma Forall2_compose {A} (Q : A -> A -> Prop) : (forall x y z, Q x y -> Q y z -> Q x z) ->
    forall a b c, Forall2 Q a b -> Forall2 Q b c -> Forall2 Q a c.
  Proof.
    intros T. induction a as [|x a IH]; intros b c A1 B; inversion A1; subst; inversion B; subst; constructor; eauto.
  Qed.

  Theorem quiet_history o : heavy o -> forall h (s : momentum_state f64) (w : list f64), length (mo_velocity s) = length w -> within 1 (mo_momentum s) ->
    Forall (quiet_step (length w)) h ->
    exists s' w', train o h s w = Ret (s', w') /\ mo_momentum s' = mo_momentum s /\ mo_lr s' = mo_lr s /\
      length w' = length w /\ Forall2 (calms (mo_momentum s)) (mo_velocity s) (mo_velocity s').
  Proof.
    intros Ho h s w Lv Wm Fh.
    destruct (train_keeps o (fun n s => length (mo_velocity s) = n /\ within 1 (mo_momentum s))
      (fun s s' => mo_momentum s' = mo_momentum s /\ mo_lr s' = mo_lr s /\
         Forall2 (calms (mo_momentum s)) (mo_velocity s) (mo_velocity s')) quiet_step)
      with (h := h) (s := s) (w := w) as (s' & w' & E & _ & L' & A & B & C); auto.
    - intros t. splits; auto. apply Forall2_refl, calms_refl.
    - intros a b c (A1 & B1 & C1) (A2 & B2 & C2). splits; try congruence. rewrite A1 in C2.
      eapply Forall2_compose; eauto. apply calms_trans.
    - clear s w Lv Wm Fh. intros s w phi sf (Lv & Wm) Qs.
      destruct (heavy_step o s w phi sf Ho (proj1 Qs) Lv) as (v' & w' & E & L1 & L2 & N).
      eexists _, w'. split; [exact E|]. cbn [mo_velocity mo_momentum mo_lr]. splits; auto.
      apply Forall2_nth; [congruence|]. intros i y Y. eexists. split; [exact (N i y Y)|].
      apply calm_one with (length w); auto. rewrite <- Lv. apply nth_error_Some. congruence.
    - exists s', w'. splits; auto.
  Qed.

  (** With momentum at most 1/2, velocities inside 2^e are gone after e + 1075 steps. *)
  Theorem quiet_vanish o : heavy o -> forall h e (s : momentum_state f64) (w : list f64), length (mo_velocity s) = length w ->
    b_finite (mo_momentum s) = true -> Rabs (b_real (mo_momentum s)) <= / 2 -> (-1074 <= e <= 1024)%Z ->
    Forall (within (bpow radix2 e)) (mo_velocity s) -> Forall (quiet_step (length w)) h ->
    (e + 1075 <= Z.of_nat (length h))%Z ->
    exists s' w', train o h s w = Ret (s', w') /\ length w' = length w /\ Forall (within 0) (mo_velocity s').
  Proof.
    intros Ho. assert (Wm : forall m, b_finite m = true -> Rabs (b_real m) <= / 2 -> within 1 m) by (intros m A B; split; [exact A|lra]).
    induction h as [|[phi sf] h IH]; intros e s w Lv Fm Lm Le V Fh Lh; cbn [length] in Lh; [lia|].
    inversion Fh as [|? ? Qs Fh']; subst.
    destruct (heavy_step o s w phi sf Ho (proj1 Qs) Lv) as (v' & w1 & E & L1 & L2 & N).
    assert (V' : Forall (within (if (e =? -1074)%Z then 0 else bpow radix2 (e - 1))) v').
    { apply Forall_nth. intros i x X. assert (Li : (i < length w)%nat) by (rewrite <- L1; apply nth_error_Some; congruence).
      destruct (nth_error_lt (mo_velocity s) i) as [y Y]; [lia|]. rewrite (N i y Y) in X.
      assert (X0 : x = new_velocity (mo_momentum s) sf phi i y) by congruence. rewrite X0.
      assert (Wy := nth_Forall _ _ _ _ V Y).
      assert (D := decay_half (mo_momentum s) y e Fm Lm Le Wy).
      destruct (quiet_velocity _ (mo_momentum s) phi sf i y Qs Li (proj1 D)) as [F1 E1].
      split; [exact F1|]. rewrite E1. apply D. }
    cbn [train]. rewrite E. destruct (Z.eqb_spec e (-1074)) as [->|Ne].
    - destruct (quiet_history o Ho h (MkMomentum (mo_momentum s) (mo_lr s) v') w1) as (s' & w' & E' & _ & _ & L' & C).
      { cbn [mo_velocity]. congruence. } { cbn [mo_momentum]. auto. } { rewrite L2. exact Fh'. }
      exists s', w'. split; [exact E'|]. split; [congruence|]. cbn [mo_velocity mo_momentum] in C. clear -C V'.
      induction C as [|v v2 l l2 C1 _ IH]; [constructor|]. inversion V' as [|? ? [Fv Lv] V2]; subst.
      constructor; [|auto]. destruct (C1 Fv) as (F2 & L & _). split; [exact F2|]. lra.
    - destruct (IH (e - 1)%Z (MkMomentum (mo_momentum s) (mo_lr s) v') w1) as (s' & w' & E' & L' & C); cbn [mo_velocity mo_momentum]; auto.
      { congruence. } { lia. } { rewrite L2. exact Fh'. } { lia. }
      exists s', w'. splits; auto. congruence.
  Qed.

  (** ** Overflow is permanent *)

  Lemma b_mul_lost (m y : f64) : b_finite y = false -> b_finite (b_mul m y) = false.
  Proof. destruct y as [|[]| |]; intros; try discriminate; destruct m as [[]|[]| |[]]; reflexivity. Qed.

  Lemma b_add_lost (x g : f64) : b_finite x = false -> b_finite (b_add x g) = false.
  Proof. destruct x as [|[]| |]; intros; try discriminate; destruct g as [[]|[]| |[]]; reflexivity. Qed.

  Lemma lost_velocity (m sf : f64) phi i (y : f64) : b_finite y = false -> b_finite (new_velocity m sf phi i y) = false.
  Proof.
    intros Fy. unfold new_velocity. destruct phi as [da|sa]; cbn [fadd fmul S64m ScalarF64].
    - apply b_add_lost, b_mul_lost, Fy.
    - rewrite (b_mul_comm y m). destruct (hm_get _ _); [apply b_add_lost|]; apply b_mul_lost, Fy.
  Qed.

  Theorem lost_history o : heavy o -> forall h (s : momentum_state f64) (w : list f64), length (mo_velocity s) = length w ->
    Forall (fun p => sized (length w) (fst p)) h ->
    exists s' w', train o h s w = Ret (s', w') /\ length w' = length w /\
      Forall2 (fun v v' => b_finite v = false -> b_finite v' = false) (mo_velocity s) (mo_velocity s').
  Proof.
    intros Ho h s w Lv Fh.
    destruct (train_keeps o (fun n (s : momentum_state f64) => length (mo_velocity s) = n)
      (fun s s' => Forall2 (fun v v' => b_finite v = false -> b_finite v' = false) (mo_velocity s) (mo_velocity s'))
      (fun n p => sized n (fst p)))
      with (h := h) (s := s) (w := w) as (s' & w' & E & _ & L' & A); auto.
    - intros t. apply Forall2_refl. auto.
    - intros a b c. apply Forall2_compose. auto.
    - clear s w Lv Fh. intros s w phi sf Lv Z.
      destruct (heavy_step o s w phi sf Ho Z Lv) as (v' & w' & E & L1 & L2 & N).
      eexists _, w'. split; [exact E|]. cbn [mo_velocity]. splits; auto.
      apply Forall2_nth; [exact (eq_trans Lv (eq_sym L1))|]. intros i y Y. eexists. split; [exact (N i y Y)|]. apply lost_velocity.
    - exists s', w'. splits; auto.
  Qed.

  (** ** Momentum one *)

  Lemma count_add (x : f64) c : (0 <= c)%Z -> b_finite x = true -> b_real x = IZR (Z.min c (2 ^ 53)) ->
    b_finite (b_add (b_mul b_one x) (b_mul b_one b_one)) = true /\
    b_real (b_add (b_mul b_one x) (b_mul b_one b_one)) = IZR (Z.min (c + 1) (2 ^ 53)).
  Proof.
    intros Pc Fx Rx. rewrite (b_mul_comm b_one x), !b_mul_one_r.
    pose proof (Bplus_correct 53 1024 f64_prec f64_emax mode_NE x b_one Fx eq_refl) as C.
    fold (b_add x b_one) in C. fold (b_real x) (b_real b_one) in C. rewrite b_one_real, Rx in C.
    fold (rnd64 (IZR (Z.min c (2 ^ 53)) + 1)) in C.
    assert (Q : rnd64 (IZR (Z.min c (2 ^ 53)) + 1) = IZR (Z.min (c + 1) (2 ^ 53))).
    { destruct (Z.lt_ge_cases c (2 ^ 53)) as [L|L].
      - rewrite (Z.min_l c), (Z.min_l (c + 1)) by lia. rewrite <- plus_IZR. apply round_generic; [apply valid_rnd_N|].
        rewrite fexp64. destruct (Z.eq_dec (c + 1) (2 ^ 53)) as [->|N].
        + rewrite (IZR_Zpower radix2) by lia. rewrite <- fexp64. apply fmt_bpow. lia.
        + apply generic_format_FLT. exists (Float radix2 (c + 1) 0).
          * unfold F2R. simpl. ring.
          * cbn [Fnum]. rewrite Z.abs_eq by lia. change (radix2 ^ 53)%Z with (2 ^ 53)%Z. lia.
          * cbn [Fexp]. lia.
      - rewrite (Z.min_r c), (Z.min_r (c + 1)) by lia. rewrite (IZR_Zpower radix2) by lia.
        exact (rnd64_tie 0 ltac:(lia)). }
    rewrite Q in C. rewrite Rlt_bool_true in C; [destruct C as (C1 & C2 & _); auto|].
    rewrite Rabs_pos_eq by (apply IZR_le; lia).
    apply Rle_lt_trans with (IZR (2 ^ 53)); [apply IZR_le; lia|]. rewrite (IZR_Zpower radix2) by lia. apply bpow_lt. lia.
  Qed.

  Theorem count_history o : heavy o -> forall n (lr w : f64),
    exists v w', train o (repeat (Dense [b_one], b_one) n) (momentum_new 1 b_one lr) [w] = Ret (MkMomentum b_one lr [v], [w']) /\
      b_finite v = true /\ b_real v = IZR (Z.min (Z.of_nat n) (2 ^ 53)).
  Proof.
    intros Ho n lr w. change (momentum_new 1 b_one lr) with (MkMomentum b_one lr [b_zero]).
    assert (K : forall n c (x w : f64), (0 <= c)%Z -> b_finite x = true -> b_real x = IZR (Z.min c (2 ^ 53)) ->
      exists v w', train o (repeat (Dense [b_one], b_one) n) (MkMomentum b_one lr [x]) [w] = Ret (MkMomentum b_one lr [v], [w']) /\
        b_finite v = true /\ b_real v = IZR (Z.min (c + Z.of_nat n) (2 ^ 53))).
    { clear n w. induction n as [|n IH]; intros c x w Pc Fx Rx; cbn [repeat train].
      - exists x, w. splits; auto. rewrite Rx. replace (c + Z.of_nat 0)%Z with c by lia. reflexivity.
      - assert (Z : sized (length [w]) (Dense [b_one])) by (split; [split; [exact I|apply bounded_dense]|reflexivity]).
        destruct (heavy_step o (MkMomentum b_one lr [x]) [w] (Dense [b_one]) b_one Ho Z eq_refl) as (v' & w' & E & L1 & L2 & N).
        rewrite E. cbn [mo_momentum mo_lr]. destruct v' as [|v [|]]; try discriminate L1. destruct w' as [|w2 [|]]; try discriminate L2.
        specialize (N 0%nat x eq_refl). cbn [nth_error mo_momentum] in N.
        assert (Ev : v = b_add (b_mul b_one x) (b_mul b_one b_one)) by (injection N as N; exact N).
        destruct (count_add x c Pc Fx Rx) as [Fv Rv]. rewrite <- Ev in Fv, Rv.
        destruct (IH (c + 1)%Z v w2 ltac:(lia) Fv Rv) as (v3 & w3 & E3 & F3 & R3).
        exists v3, w3. splits; auto. rewrite R3. replace (c + 1 + Z.of_nat n)%Z with (c + Z.of_nat (S n))%Z by lia. reflexivity. }
    destruct (K n 0%Z b_zero w ltac:(lia) eq_refl eq_refl) as (v & w' & A & B & C). exists v, w'. splits; auto.
  Qed.
End Momentum64.
