(** Adam and AdaMax without first-moment averaging, fitting one sample again and
    again, over the reals. Facts for C74. *)
From Coq Require Import List Arith ZArith Lia Reals Lra Classical.
From Verif Require Import Base Scalar ScalarR HMap NdArray VecFacts Features Spec FeatureFacts
  Optim OptimSpec OptimFacts OptimReal OptimAdam Lfa LfaSpec LfaFacts LfaReal LfaRegret Passes HeavyBall AdagradFit.
Import ListNotations.
Local Open Scope R_scope.

Definition vanishes (u : nat -> R) : Prop :=
  forall eps, 0 < eps -> exists N, forall k, (N <= k)%nat -> Rabs (u k) < eps.

(** ** Discounted averages of what vanishes vanish *)

Lemma discount_vanishes (u g : nat -> R) b : 0 <= b < 1 -> (forall k, 0 <= u k) -> (forall k, 0 <= g k) ->
  (forall k, u (S k) <= b * u k + g k) -> vanishes g -> vanishes u.
Proof.
  intros Hb U0 G0 St V eps P. destruct (V (eps * (1 - b) / 4)) as [N Near].
  { apply Rdiv_lt_0_compat; [apply Rmult_lt_0_compat; lra|lra]. }
  assert (Go : forall j, u (N + j)%nat <= b ^ j * u N + eps / 4).
  { induction j as [|j IH]; [rewrite Nat.add_0_r; simpl; lra|].
    replace (N + S j)%nat with (S (N + j)) by lia. eapply Rle_trans; [apply St|].
    specialize (Near (N + j)%nat ltac:(lia)). rewrite Rabs_pos_eq in Near by auto. simpl.
    assert (b * u (N + j)%nat <= b * (b ^ j * u N + eps / 4)) by (apply Rmult_le_compat_l; lra). lra. }
  destruct (pow_lt_1_zero b ltac:(rewrite Rabs_pos_eq; lra) (eps / (4 * (1 + u N)))) as [M Pw].
  { apply Rdiv_lt_0_compat; auto. specialize (U0 N). lra. }
  exists (N + M)%nat. intros k Lk. rewrite Rabs_pos_eq by auto. specialize (Go (k - N)%nat).
  replace (N + (k - N))%nat with k in Go by lia. specialize (Pw (k - N)%nat ltac:(lia)).
  rewrite Rabs_pos_eq in Pw by (apply pow_le; lra). specialize (U0 N).
  assert (b ^ (k - N) * u N <= eps / 4); [|lra].
  apply Rle_trans with (eps / (4 * (1 + u N)) * u N); [apply Rmult_le_compat_r; lra|].
  apply Rmult_le_reg_r with (4 * (1 + u N)); [lra|].
  replace (eps / (4 * (1 + u N)) * u N * (4 * (1 + u N))) with (eps * u N) by (field; lra). nra.
Qed.

(** ** Residuals shrinking the step's denominator *)
Section Adaptive.
  Context (phi : Features R) (lr : R) (e s : nat -> R).
  Context (Large : 2 / 10000000 < lr * norm2 phi).

  Definition adaptive_rate (s : R) : R :=
    lr * sigma (size phi) (fun i => coeff phi i * coeff phi i / (Rabs (coeff phi i) * s + 1 / 10000000)).

  Context (Es : forall k, e (S k) = e k * (1 - adaptive_rate (s k))).
  Context (S0 : forall k, 0 <= s k) (Sv : vanishes e -> vanishes s).

  Lemma rate_large : 0 < lr -> exists d, 0 < d /\ forall x, 0 <= x < d -> 2 <= adaptive_rate x.
  Proof.
    intros Pl. set (m := sigma (size phi) (fun i => Rabs (coeff phi i))).
    assert (M0 : 0 <= m) by (apply sigma_nonneg; intros; apply Rabs_pos).
    set (d := (lr * norm2 phi / 2 - 1 / 10000000) / (1 + m)).
    assert (Pd : 0 < d) by (apply Rdiv_lt_0_compat; lra).
    exists d. split; auto. intros x [X0 Xd]. unfold adaptive_rate.
    assert (Dm : m * x + 1 / 10000000 <= lr * norm2 phi / 2).
    { assert (A : (1 + m) * x <= (1 + m) * d) by (apply Rmult_le_compat_l; lra).
      replace ((1 + m) * d) with (lr * norm2 phi / 2 - 1 / 10000000) in A by (unfold d; field; lra). lra. }
    assert (P1 : 0 <= m * x) by (apply Rmult_le_pos; auto).
    assert (Le : / (m * x + 1 / 10000000) * norm2 phi <=
      sigma (size phi) (fun i => coeff phi i * coeff phi i / (Rabs (coeff phi i) * x + 1 / 10000000))).
    { unfold norm2. rewrite <- sigma_scal. apply sigma_le. intros i Li. rewrite Rmult_comm.
      apply Rmult_le_compat_l; [apply Rle_0_sqr|].
      assert (P2 : 0 <= Rabs (coeff phi i) * x) by (apply Rmult_le_pos; [apply Rabs_pos|auto]).
      apply Rinv_le_contravar; [lra|]. apply Rplus_le_compat_r, Rmult_le_compat_r; auto.
      apply (sigma_term (fun i => Rabs (coeff phi i)) (fun j => Rabs_pos _)); auto. }
    apply Rle_trans with (lr * (/ (m * x + 1 / 10000000) * norm2 phi)); [|apply Rmult_le_compat_l; lra].
    apply Rmult_le_reg_r with (m * x + 1 / 10000000); [lra|].
    replace (lr * (/ (m * x + 1 / 10000000) * norm2 phi) * (m * x + 1 / 10000000)) with (lr * norm2 phi) by (field; lra).
    lra.
  Qed.

  Theorem adaptive_hits : 0 < lr -> vanishes e -> exists k, e k = 0.
  Proof.
    intros Pl V. destruct (rate_large Pl) as (d & Pd & Big). destruct (Sv V d Pd) as [N Near].
    apply NNPP. intros C. assert (Ne : Rabs (e N) > 0) by (apply Rabs_pos_lt; intros E; apply C; exists N; auto).
    assert (Up : forall j, Rabs (e N) <= Rabs (e (N + j)%nat)).
    { induction j as [|j IH]; [rewrite Nat.add_0_r; lra|]. replace (N + S j)%nat with (S (N + j)) by lia.
      rewrite Es, Rabs_mult. specialize (Near (N + j)%nat ltac:(lia)). rewrite Rabs_pos_eq in Near by auto.
      assert (B : 2 <= adaptive_rate (s (N + j)%nat)) by (apply Big; auto).
      rewrite (Rabs_left1 (1 - adaptive_rate (s (N + j)%nat))) by lra. pose proof (Rabs_pos (e (N + j)%nat)). nra. }
    destruct (V (Rabs (e N)) Ne) as [M Sm]. specialize (Sm (N + M)%nat ltac:(lia)). specialize (Up M). lra.
  Qed.
End Adaptive.

(** ** The optimisers *)

Section OneSample.
  Context {I : Type} (b : Basis R I) (x : I) (y : R) (phi : Features R) (lr b2 : R) (w : list R).
  Context (P : b_project b x = Ret (Ok phi)) (Z : sized (length w) phi) (Hb : 0 <= b2 < 1).
  Context (Pl : 0 < lr) (Large : 2 / 10000000 < lr * norm2 phi).

  (** Residual and average squared residual. *)
  Fixpoint adam_track (k : nat) : R * R :=
    match k with
    | 0%nat => (y - predict phi w, 0)
    | S k => let '(e, t) := adam_track k in
        let t' := b2 * t + (1 - b2) * (e * e) in
        (e * (1 - adaptive_rate phi lr (sqrt (t' / (1 - b2 ^ S (S k))))), t')
    end.

  Lemma pow_bound k : 0 <= b2 ^ S k <= b2.
  Proof.
    split; [apply pow_le; lra|]. simpl. rewrite <- (Rmult_1_r b2) at 3. apply Rmult_le_compat_l; [lra|].
    rewrite <- (pow1 k). apply pow_incr. lra.
  Qed.

  Lemma evaluates {S} (wk : list R) (s : S) : length wk = length w ->
    s_evaluate (MkLFA b wk s : ScalarLFA R I S) x = Ret (Ok (predict phi wk)).
  Proof. intros L. unfold s_evaluate. simpl. rewrite P. simpl. rewrite dot_predict by (rewrite L; auto). reflexivity. Qed.

  Lemma adam_track_run : forall k, exists m1 m2 wk,
    s_run Adam (repeat (fit_call (x, y)) k) (MkLFA b w (adam_new (length w) lr 0 b2)) =
      Ret (MkLFA b wk (MkAdam 0 0 b2 (b2 ^ S k) lr m1 m2)) /\
    length wk = length w /\ length m1 = length w /\ length m2 = length w /\
    y - predict phi wk = fst (adam_track k) /\ 0 <= snd (adam_track k) /\
    forall i, at_ m2 i = coeff phi i * coeff phi i * snd (adam_track k).
  Proof.
    induction k as [|k (m1 & m2 & wk & E & Lw & L1 & L2 & Te & T0 & Tm)].
    - exists (zeros (length w)), (zeros (length w)), w.
      assert (Lz : length (zeros (length w) : list R) = length w) by apply repeat_length.
      splits; auto.
      + unfold adam_new. simpl. unfold s_run. simpl. rewrite Rmult_1_r. reflexivity.
      + simpl. lra.
      + intros i. rewrite at_zeros. simpl. ring.
    - assert (Rp : repeat (fit_call (x, y)) (S k) = repeat (fit_call (x, y)) k ++ [fit_call (x, y)])
        by (replace (S k) with (k + 1)%nat by lia; rewrite repeat_app; reflexivity).
      rewrite Rp, s_run_app, E.
      destruct (adam_step_spec (MkAdam 0 0 b2 (b2 ^ S k) lr m1 m2) wk phi (y - predict phi wk)) as (m1' & m2' & w' & St & La & Lb & Lw' & N);
        [rewrite Lw; auto|simpl; congruence|simpl; congruence|].
      cbn [ad_beta1 ad_beta1_prod ad_beta2 ad_beta2_prod ad_lr ad_exp_avg ad_exp_avg_sq] in N, St.
      rewrite Te in N.
      assert (En : fst (adam_track (S k)) = fst (adam_track k) * (1 - adaptive_rate phi lr (sqrt (snd (adam_track (S k)) / (1 - b2 ^ S (S k)))))
        /\ snd (adam_track (S k)) = b2 * snd (adam_track k) + (1 - b2) * (fst (adam_track k) * fst (adam_track k))).
      { cbn [adam_track]. destruct (adam_track k) as [e t]. cbn [fst snd]. auto. }
      destruct En as [En1 En2].
      assert (T1 : 0 <= snd (adam_track (S k))).
      { rewrite En2. apply Rplus_le_le_0_compat; apply Rmult_le_pos; try lra. apply Rle_0_sqr. }
      set (e := fst (adam_track k)) in *. set (t' := snd (adam_track (S k))) in *.
      pose proof (pow_bound (S k)) as Pb.
      assert (In : forall i, at_ m2' i = coeff phi i * coeff phi i * t' /\
        at_ w' i = at_ wk i + lr * (coeff phi i * e) / (Rabs (coeff phi i) * sqrt (t' / (1 - b2 ^ S (S k))) + 1 / 10000000)).
      { intros i. destruct (Nat.lt_ge_cases i (length w)) as [Li|Li].
        - specialize (N i (at_ m1 i) (at_ m2 i) (at_ wk i) (at_nth_error m1 i ltac:(lia)) (at_nth_error m2 i ltac:(lia))
            (at_nth_error wk i ltac:(lia))). rewrite get_coeff. specialize (Tm i). rewrite get_coeff in Tm.
          destruct (get phi i) as [a|]; destruct N as (_ & A2 & A3); rewrite (nth_error_at _ _ _ A2), (nth_error_at _ _ _ A3).
          + assert (E2 : adam_m2 (negb (is_sparse phi)) b2 e a (at_ m2 i) = a * a * t').
            { unfold adam_m2, decayed. rewrite Tm, En2. destruct (negb (is_sparse phi)); to_R; ring. }
            split; auto. unfold adam_move. rewrite E2. unfold adam_m1, decayed. to_R.
            replace (sqrt (a * a * t' / (1 - b2 ^ S k * b2))) with (Rabs a * sqrt (t' / (1 - b2 ^ S (S k)))).
            * rewrite EPS_R. destruct (negb (is_sparse phi)); to_R; f_equal; f_equal; field.
            * replace (b2 ^ S k * b2) with (b2 ^ S (S k)) by (simpl; ring). rewrite <- sqrt_Rsqr_abs. unfold Rsqr. rewrite <- sqrt_mult.
              -- f_equal. field. lra.
              -- apply Rle_0_sqr.
              -- apply Rmult_le_pos; [auto|]. left. apply Rinv_0_lt_compat. lra.
          + rewrite Tm. to_R. split; [ring|]. unfold Rdiv. ring.
        - rewrite (coeff_beyond phi _ i Z Li). unfold at_. rewrite !nth_overflow by lia. split; [ring|]. unfold Rdiv. ring. }
      exists m1', m2', w'. splits; try congruence.
      + cbn [obind]. unfold s_run. cbn [ofold]. unfold s_do, fit_call, omap, s_update_with. simpl. rewrite P. simpl.
        rewrite dot_predict by (rewrite Lw; auto). simpl. simpl in St. rewrite St.
        replace (0 * 0) with 0 by ring. replace (b2 * b2 ^ k * b2) with (b2 * (b2 * b2 ^ k)) by ring. reflexivity.
      + rewrite En1. unfold adaptive_rate.
        assert (Pw : predict phi w' = predict phi wk + e * (lr * sigma (size phi) (fun i => coeff phi i * coeff phi i /
           (Rabs (coeff phi i) * sqrt (t' / (1 - b2 ^ S (S k))) + 1 / 10000000)))).
        { unfold predict. rewrite <- !sigma_scal, <- sigma_plus. apply sigma_ext. intros i _. rewrite (proj2 (In i)).
          unfold Rdiv. ring. }
        rewrite Pw. rewrite <- Te. unfold Rdiv. ring.
      + intros i. apply In.
  Qed.

  (** Residual and infinity norm. *)
  Fixpoint adamax_track (k : nat) : R * R :=
    match k with
    | 0%nat => (y - predict phi w, 0)
    | S k => let '(e, u) := adamax_track k in
        let u' := Rmax (b2 * u) (Rabs e) in (e * (1 - adaptive_rate phi lr u'), u')
    end.

  Lemma adamax_track_run : forall k, exists m1 m2 wk,
    s_run AdaMax (repeat (fit_call (x, y)) k) (MkLFA b w (adamax_new (length w) lr 0 b2)) =
      Ret (MkLFA b wk (MkAdaMax 0 0 b2 lr m1 m2)) /\
    length wk = length w /\ length m1 = length w /\ length m2 = length w /\
    y - predict phi wk = fst (adamax_track k) /\ 0 <= snd (adamax_track k) /\
    forall i, at_ m2 i = Rabs (coeff phi i) * snd (adamax_track k).
  Proof.
    induction k as [|k (m1 & m2 & wk & E & Lw & L1 & L2 & Te & T0 & Tm)].
    - exists (zeros (length w)), (zeros (length w)), w.
      assert (Lz : length (zeros (length w) : list R) = length w) by apply repeat_length.
      splits; auto.
      + simpl. lra.
      + intros i. rewrite at_zeros. simpl. ring.
    - assert (Rp : repeat (fit_call (x, y)) (S k) = repeat (fit_call (x, y)) k ++ [fit_call (x, y)])
        by (replace (S k) with (k + 1)%nat by lia; rewrite repeat_app; reflexivity).
      rewrite Rp, s_run_app, E.
      destruct (adamax_step_spec (MkAdaMax 0 0 b2 lr m1 m2) wk phi (y - predict phi wk)) as (m1' & m2' & w' & St & La & Lb & Lw' & N);
        [rewrite Lw; auto|simpl; congruence|simpl; congruence|].
      cbn [am_beta1 am_beta1_prod am_beta2 am_lr am_exp_avg am_exp_inf] in N, St.
      rewrite Te in N.
      assert (En : fst (adamax_track (S k)) = fst (adamax_track k) * (1 - adaptive_rate phi lr (snd (adamax_track (S k))))
        /\ snd (adamax_track (S k)) = Rmax (b2 * snd (adamax_track k)) (Rabs (fst (adamax_track k)))).
      { cbn [adamax_track]. destruct (adamax_track k) as [e t]. cbn [fst snd]. auto. }
      destruct En as [En1 En2].
      assert (T1 : 0 <= snd (adamax_track (S k))).
      { rewrite En2. eapply Rle_trans; [|apply Rmax_r]. apply Rabs_pos. }
      set (e := fst (adamax_track k)) in *. set (t' := snd (adamax_track (S k))) in *.
      assert (In : forall i, at_ m2' i = Rabs (coeff phi i) * t' /\
        at_ w' i = at_ wk i + lr * (coeff phi i * e) / (Rabs (coeff phi i) * t' + 1 / 10000000)).
      { intros i. destruct (Nat.lt_ge_cases i (length w)) as [Li|Li].
        - specialize (N i (at_ m1 i) (at_ m2 i) (at_ wk i) (at_nth_error m1 i ltac:(lia)) (at_nth_error m2 i ltac:(lia))
            (at_nth_error wk i ltac:(lia))). rewrite get_coeff. specialize (Tm i). rewrite get_coeff in Tm.
          destruct (get phi i) as [a|]; destruct N as (_ & A2 & A3); rewrite (nth_error_at _ _ _ A2), (nth_error_at _ _ _ A3).
          + assert (E2 : adamax_u (negb (is_sparse phi)) b2 e a (at_ m2 i) = Rabs a * t').
            { unfold adamax_u, decayed. rewrite Tm, En2. to_R. rewrite <- RmaxRmult by apply Rabs_pos. rewrite <- Rabs_mult.
              destruct (negb (is_sparse phi)); f_equal; ring. }
            split; auto. unfold adamax_move. rewrite E2. unfold adam_m1, decayed. to_R.
            rewrite EPS_R. destruct (negb (is_sparse phi)); to_R; f_equal; f_equal; field.
          + rewrite Tm, Rabs_R0. to_R. split; [ring|]. unfold Rdiv. ring.
        - rewrite (coeff_beyond phi _ i Z Li), Rabs_R0. unfold at_. rewrite !nth_overflow by lia. split; [ring|]. unfold Rdiv. ring. }
      exists m1', m2', w'. splits; try congruence.
      + cbn [obind]. unfold s_run. cbn [ofold]. unfold s_do, fit_call, omap, s_update_with. simpl. rewrite P. simpl.
        rewrite dot_predict by (rewrite Lw; auto). simpl. simpl in St. rewrite St.
        replace (0 * 0) with 0 by ring. reflexivity.
      + rewrite En1. unfold adaptive_rate.
        assert (Pw : predict phi w' = predict phi wk + e * (lr * sigma (size phi) (fun i => coeff phi i * coeff phi i /
           (Rabs (coeff phi i) * t' + 1 / 10000000)))).
        { unfold predict. rewrite <- !sigma_scal, <- sigma_plus. apply sigma_ext. intros i _. rewrite (proj2 (In i)).
          unfold Rdiv. ring. }
        rewrite Pw. rewrite <- Te. unfold Rdiv. ring.
      + intros i. apply In.
  Qed.

  (** A run whose residual, tracked by [e], stays 0 once it is 0. *)
  Lemma settles_iff {S} (o : Optimiser R S) (s0 : S) (e : nat -> R) :
    (forall k, exists wk s, s_run o (repeat (fit_call (x, y)) k) (MkLFA b w s0) = Ret (MkLFA b wk s) /\
       length wk = length w /\ y - predict phi wk = e k) ->
    (forall k, e k = 0 -> e (Datatypes.S k) = 0) -> (vanishes e -> exists k, e k = 0) ->
    ((forall eps, 0 < eps -> exists N, forall k, (N <= k)%nat -> exists a r,
        s_run o (repeat (fit_call (x, y)) k) (MkLFA b w s0) = Ret a /\
        s_evaluate a x = Ret (Ok r) /\ Rabs (r - y) < eps) <->
     exists k a, s_run o (repeat (fit_call (x, y)) k) (MkLFA b w s0) = Ret a /\ s_evaluate a x = Ret (Ok y)).
  Proof.
    intros Tr Keep Hit. split.
    - intros Se. destruct Hit as [k E0].
      + intros eps Pe. destruct (Se eps Pe) as [N A]. exists N. intros k Nk.
        destruct (A k Nk) as (a & r & Ra & Ea & Cl). destruct (Tr k) as (wk & s & Rk & Lk & <-).
        rewrite Rk in Ra. injection Ra as <-. rewrite evaluates in Ea by auto. injection Ea as <-.
        rewrite <- Rabs_Ropp. replace (- (y - predict phi wk)) with (predict phi wk - y) by ring. exact Cl.
      + destruct (Tr k) as (wk & s & Rk & Lk & Te). exists k, (MkLFA b wk s). split; auto.
        rewrite evaluates by auto. replace (predict phi wk) with y by lra. reflexivity.
    - intros (N & a & Ra & Ea) eps Pe. exists N. intros k Nk.
      assert (E0 : e N = 0).
      { destruct (Tr N) as (wk & s & Rk & Lk & <-). rewrite Rk in Ra. injection Ra as <-.
        rewrite evaluates in Ea by auto. injection Ea as ->. ring. }
      assert (Ek : e k = 0) by (induction Nk; auto).
      destruct (Tr k) as (wk & s & Rk & Lk & Te). exists (MkLFA b wk s), (predict phi wk). splits; auto.
      + apply evaluates. auto.
      + replace (predict phi wk - y) with 0 by lra. rewrite Rabs_R0. auto.
  Qed.

  Theorem adam_settles : let a0 := MkLFA b w (adam_new (length w) lr 0 b2) in
    (forall eps, 0 < eps -> exists N, forall k, (N <= k)%nat -> exists a r,
        s_run Adam (repeat (fit_call (x, y)) k) a0 = Ret a /\ s_evaluate a x = Ret (Ok r) /\ Rabs (r - y) < eps) <->
    exists k a, s_run Adam (repeat (fit_call (x, y)) k) a0 = Ret a /\ s_evaluate a x = Ret (Ok y).
  Proof.
    intros a0. apply (settles_iff Adam _ (fun k => fst (adam_track k))).
    - intros k. destruct (adam_track_run k) as (m1 & m2 & wk & Rk & Lk & _ & _ & Te & _). eauto.
    - intros k E. cbn [adam_track]. destruct (adam_track k) as [e t]. cbn [fst] in *. rewrite E. ring.
    - apply (adaptive_hits phi lr _ (fun k => sqrt (snd (adam_track (S k)) / (1 - b2 ^ S (S k)))) Large); auto.
      + intros k. cbn [adam_track]. destruct (adam_track k) as [e t]. reflexivity.
      + intros k. apply sqrt_pos.
      + intros V.
        assert (D : vanishes (fun k => snd (adam_track k))).
        { apply (discount_vanishes _ (fun k => fst (adam_track k) * fst (adam_track k)) b2 Hb).
          - intros k. destruct (adam_track_run k) as (m1 & m2 & wk & _ & _ & _ & _ & _ & T0 & _). exact T0.
          - intros k. apply Rle_0_sqr.
          - intros k. cbn [adam_track]. destruct (adam_track k) as [e t]. cbn [fst snd].
            pose proof (Rle_0_sqr e). unfold Rsqr in *. nra.
          - intros eps Pe. destruct (V (Rmin 1 eps)) as [N A]; [apply Rmin_pos; lra|]. exists N. intros k Nk.
            specialize (A k Nk). cbn beta in A. rewrite Rabs_mult. pose proof (Rmin_l 1 eps). pose proof (Rmin_r 1 eps).
            pose proof (Rabs_pos (fst (adam_track k))). nra. }
        intros eps Pe. destruct (D (eps * eps * (1 - b2))) as [N A].
        { apply Rmult_lt_0_compat; [nra|lra]. }
        exists N. intros k Nk. specialize (A (S k) ltac:(lia)). cbn beta in A.
        destruct (adam_track_run (S k)) as (m1 & m2 & wk & _ & _ & _ & _ & _ & T0 & _).
        rewrite Rabs_pos_eq in A by auto. set (t := snd (adam_track (S k))) in *.
        pose proof (pow_bound (S k)) as Pb. set (q := b2 ^ S (S k)) in *.
        rewrite Rabs_pos_eq by apply sqrt_pos. rewrite <- (sqrt_square eps) by lra. apply sqrt_lt_1_alt. split.
        * apply Rmult_le_pos; [auto|]. left. apply Rinv_0_lt_compat. lra.
        * apply Rmult_lt_reg_r with (1 - q); [lra|]. replace (t / (1 - q) * (1 - q)) with t by (field; lra).
          eapply Rlt_le_trans; [exact A|]. apply Rmult_le_compat_l; [nra|lra].
  Qed.

  Theorem adamax_settles : let a0 := MkLFA b w (adamax_new (length w) lr 0 b2) in
    (forall eps, 0 < eps -> exists N, forall k, (N <= k)%nat -> exists a r,
        s_run AdaMax (repeat (fit_call (x, y)) k) a0 = Ret a /\ s_evaluate a x = Ret (Ok r) /\ Rabs (r - y) < eps) <->
    exists k a, s_run AdaMax (repeat (fit_call (x, y)) k) a0 = Ret a /\ s_evaluate a x = Ret (Ok y).
  Proof.
    intros a0. apply (settles_iff AdaMax _ (fun k => fst (adamax_track k))).
    - intros k. destruct (adamax_track_run k) as (m1 & m2 & wk & Rk & Lk & _ & _ & Te & _). eauto.
    - intros k E. cbn [adamax_track]. destruct (adamax_track k) as [e t]. cbn [fst] in *. rewrite E. ring.
    - assert (T0 : forall k, 0 <= snd (adamax_track k)).
      { intros k. destruct (adamax_track_run k) as (m1 & m2 & wk & _ & _ & _ & _ & _ & T0 & _). exact T0. }
      apply (adaptive_hits phi lr _ (fun k => snd (adamax_track (S k))) Large); auto.
      + intros k. cbn [adamax_track]. destruct (adamax_track k) as [e t]. reflexivity.
      + intros V.
        assert (D : vanishes (fun k => snd (adamax_track k))).
        { apply (discount_vanishes _ (fun k => Rabs (fst (adamax_track k))) b2 Hb); auto.
          - intros k. apply Rabs_pos.
          - intros k. specialize (T0 k). cbn [adamax_track]. destruct (adamax_track k) as [e t]. cbn [fst snd] in *.
            apply Rmax_lub; [pose proof (Rabs_pos e); lra|]. assert (0 <= b2 * t) by (apply Rmult_le_pos; lra). lra.
          - intros eps Pe. destruct (V eps Pe) as [N A]. exists N. intros k Nk. rewrite Rabs_Rabsolu. auto. }
        intros eps Pe. destruct (D eps Pe) as [N A]. exists N. intros k Nk. apply A. lia.
  Qed.
End OneSample.
