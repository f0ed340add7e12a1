(** Cumulative error of fitting with Adagrad, over the reals. Facts for C85. *)
From Coq Require Import List Arith Lia Reals Lra.
From Verif Require Import Base Scalar ScalarR HMap NdArray VecFacts Features Spec FeatureFacts NormReal
  Optim OptimSpec OptimFacts OptimReal Lfa LfaSpec LfaFacts LfaReal LfaRegret Passes HeavyBall AdagradFit.
Import ListNotations.
Local Open Scope R_scope.

(** [h] is fitted from [a] to [a'], no call finding weight [i] further than
    [D i] from [ws]. *)
Definition stays {I S} (o : Optimiser R S) (a : ScalarLFA R I S) (h : list (I * R)) (ws : list R) (D : nat -> R) : Prop :=
  forall k a', (k < length h)%nat -> s_run o (map fit_call (firstn k h)) a = Ret a' ->
  forall i, Rabs (at_ (lfa_weights a') i - at_ ws i) <= D i.

Lemma stays_cons {I S} (o : Optimiser R S) (a a1 : ScalarLFA R I S) p h ws D : s_do o a (fit_call p) = Ret a1 ->
  (stays o a (p :: h) ws D <-> (forall i, Rabs (at_ (lfa_weights a) i - at_ ws i) <= D i) /\ stays o a1 h ws D).
Proof.
  intros Do. split.
  - intros B. split.
    + apply (B 0%nat a); [simpl; lia|reflexivity].
    + intros k a' Lk E. apply (B (Datatypes.S k) a'); [simpl; lia|]. unfold s_run. cbn [firstn map ofold]. rewrite Do. exact E.
  - intros [B0 B] [|k] a' Lk E.
    + cbn in E. injection E as <-. exact B0.
    + unfold s_run in E. cbn [firstn map ofold] in E. rewrite Do in E. apply (B k a'); [simpl in Lk; lia|exact E].
Qed.

Lemma adagrad_fit {I} (b : Basis R I) lr acc w x y phi : b_project b x = Ret (Ok phi) -> sized (length w) phi -> length acc = length w ->
  exists acc' w', s_do Adagrad (MkLFA b w (MkAdagrad lr acc)) (fit_call (x, y)) = Ret (MkLFA b w' (MkAdagrad lr acc')) /\
    s_evaluate (MkLFA b w (MkAdagrad lr acc)) x = Ret (Ok (predict phi w)) /\
    length acc' = length w /\ length w' = length w /\
    let e := y - predict phi w in
    (forall i, at_ acc' i = at_ acc i + coeff phi i * coeff phi i * (e * e)) /\
    (forall i, at_ w' i = at_ w i + lr * (coeff phi i * e) / (sqrt (at_ acc' i) + 1 / 10000000)).
Proof.
  intros P Z La. destruct (adagrad_R lr acc w phi (y - predict phi w) Z La) as (a' & w' & St & La' & Lw' & Na & Nw).
  exists a', w'. splits; auto.
  - unfold s_do, fit_call, omap, s_update_with. simpl. rewrite P. simpl.
    rewrite dot_predict by auto. simpl. simpl in St. rewrite St. reflexivity.
  - unfold s_evaluate. simpl. rewrite P. simpl. rewrite dot_predict by auto. reflexivity.
Qed.

Local Notation eps := (1 / 10000000).

(** One weight, one step: [s = sqrt G]. *)
Lemma one_weight lr g G G' w w' v D : 0 < lr -> 0 <= G -> G' = G + g * g -> w' = w + lr * g / (sqrt G' + eps) ->
  Rabs (w - v) <= D ->
  2 * lr * (g * (v - w)) <=
    ((sqrt G + eps) * ((w - v) * (w - v) - D * D) - 2 * (lr * lr) * sqrt G) -
    ((sqrt G' + eps) * ((w' - v) * (w' - v) - D * D) - 2 * (lr * lr) * sqrt G').
Proof.
  intros Pl G0 EG Ew B. assert (Sq : 0 <= g * g) by apply Rle_0_sqr.
  assert (G1 : 0 <= G') by lra. assert (Le : sqrt G <= sqrt G') by (apply sqrt_le_1_alt; lra).
  pose proof (sqrt_pos G) as P0. pose proof (sqrt_sqrt G G0) as Q0. pose proof (sqrt_sqrt G' G1) as Q1.
  set (r := sqrt G) in *. set (r' := sqrt G') in *. set (q := g / (r' + eps)).
  assert (Eq : g = q * (r' + eps)) by (unfold q; field; lra).
  assert (Ew' : w' = w + lr * q) by (rewrite Ew; unfold q, Rdiv; ring).
  assert (Gr : g * g <= (r' - r) * (2 * (r' + eps))).
  { replace (g * g) with ((r' - r) * (r' + r)) by lra. apply Rmult_le_compat_l; lra. }
  assert (Gq : g * q <= 2 * (r' - r)).
  { apply Rmult_le_reg_r with (r' + eps); [lra|]. rewrite Rmult_assoc, <- Eq. lra. }
  assert (Dd : (w - v) * (w - v) <= D * D).
  { rewrite <- (Rabs_right ((w - v) * (w - v))) by (apply Rle_ge, Rle_0_sqr). rewrite Rabs_mult.
    pose proof (Rabs_pos (w - v)). apply Rmult_le_compat; auto. }
  assert (Gw : (r' - r) * ((w - v) * (w - v) - D * D) <= 0).
  { pose proof (Rmult_le_compat_l (r' - r) ((w - v) * (w - v)) (D * D) ltac:(lra) Dd). lra. }
  assert (Gl : lr * lr * (g * q) <= lr * lr * (2 * (r' - r))) by (apply Rmult_le_compat_l; [apply Rle_0_sqr|exact Gq]).
  rewrite Ew'. replace ((w + lr * q - v) * (w + lr * q - v)) with ((w - v) * (w - v) + 2 * lr * (w - v) * q + lr * lr * (q * q)) by ring.
  replace ((r' + eps) * ((w - v) * (w - v) + 2 * lr * (w - v) * q + lr * lr * (q * q) - D * D))
    with ((r' + eps) * ((w - v) * (w - v) - D * D) + 2 * lr * (w - v) * (q * (r' + eps)) + lr * lr * (q * (r' + eps) * q)) by ring.
  rewrite <- Eq. lra.
Qed.

Section Regret.
  Context {I : Type} (b : Basis R I) (lr : R) (ws : list R) (D : nat -> R) (Pl : 0 < lr).

  Definition level (w acc : list R) : R := sigma (length w) (fun i =>
    (sqrt (at_ acc i) + eps) * ((at_ w i - at_ ws i) * (at_ w i - at_ ws i) - D i * D i) - 2 * (lr * lr) * sqrt (at_ acc i)).

  Lemma level_step x y phi w acc w' acc' : b_project b x = Ret (Ok phi) -> size phi = length w ->
    let e := y - predict phi w in
    (forall i, 0 <= at_ acc i) -> length w' = length w ->
    (forall i, at_ acc' i = at_ acc i + coeff phi i * coeff phi i * (e * e)) ->
    (forall i, at_ w' i = at_ w i + lr * (coeff phi i * e) / (sqrt (at_ acc' i) + eps)) ->
    (forall i, Rabs (at_ w i - at_ ws i) <= D i) ->
    2 * lr * (e * (e - unexplained b ws (x, y))) <= level w acc - level w' acc'.
  Proof.
    intros P Z e Pa Lw Na Nw B. unfold level. rewrite Lw.
    assert (Eu : e * (e - unexplained b ws (x, y)) = sigma (length w) (fun i => coeff phi i * e * (at_ ws i - at_ w i))).
    { unfold unexplained. cbn [fst snd]. rewrite P.
      replace (e * (e - (y - predict phi ws))) with (e * predict phi ws + (- e) * predict phi w) by (unfold e; ring).
      unfold predict. rewrite Z, <- !sigma_scal, <- sigma_plus. apply sigma_ext. intros; ring. }
    rewrite Eu, <- sigma_scal.
    assert (Sm : forall n f g, sigma n f - sigma n g = sigma n (fun i => f i - g i)).
    { intros n f g. replace (sigma n f - sigma n g) with (sigma n f + (-1) * sigma n g) by ring.
      rewrite <- sigma_scal, <- sigma_plus. apply sigma_ext. intros; ring. }
    rewrite Sm. apply sigma_le. intros i _. apply (one_weight lr (coeff phi i * e)); auto; rewrite Na; ring.
  Qed.

  Theorem level_run : forall h w acc, Forall (fits b (length w)) h -> length acc = length w -> (forall i, 0 <= at_ acc i) ->
    exists w' acc', s_run Adagrad (map fit_call h) (MkLFA b w (MkAdagrad lr acc)) = Ret (MkLFA b w' (MkAdagrad lr acc')) /\
      length w' = length w /\ length acc' = length w /\ (forall i, at_ acc i <= at_ acc' i) /\
      (exists es, residuals Adagrad (MkLFA b w (MkAdagrad lr acc)) h es) /\
      forall es, residuals Adagrad (MkLFA b w (MkAdagrad lr acc)) h es ->
        (forall A, 0 <= A -> Forall (fun p => forall phi i, b_project b (fst p) = Ret (Ok phi) -> Rabs (coeff phi i) <= A) h ->
           forall i, at_ acc' i <= at_ acc i + A * A * sum_sq es) /\
        (stays Adagrad (MkLFA b w (MkAdagrad lr acc)) h ws D ->
          2 * lr * rsum (map2 (fun e p => e * (e - unexplained b ws p)) es h) <= level w acc - level w' acc').
  Proof.
    induction h as [|[x y] h IH]; intros w acc Fi La Pa.
    - exists w, acc. splits; auto; [intros; lra| |].
      + exists []. split; auto. intros [|k] e E; discriminate.
      + intros es [L _]. destruct es; try discriminate. split.
        * intros A A0 _ i. unfold sum_sq, rsum. simpl. lra.
        * intros _. simpl. unfold rsum. simpl. lra.
    - inversion Fi as [|? ? [phi (P & Z)] Fi']; subst. simpl in P.
      destruct (adagrad_fit b lr acc w x y phi P Z La) as (a1 & w1 & Do & Ev & La1 & Lw1 & Na & Nw).
      set (e0 := y - predict phi w) in *.
      assert (G1 : forall i, at_ acc i <= at_ a1 i).
      { intros i. rewrite Na. replace (coeff phi i * coeff phi i * (e0 * e0)) with ((coeff phi i * e0) * (coeff phi i * e0)) by ring.
        pose proof (Rle_0_sqr (coeff phi i * e0)) as Q. unfold Rsqr in Q. lra. }
      destruct (IH w1 a1) as (w' & acc' & E' & L' & La' & G' & [es Res] & Bd); [rewrite Lw1; auto|congruence| |].
      { intros i. eapply Rle_trans; [apply Pa|apply G1]. }
      exists w', acc'. splits; try congruence.
      + unfold s_run. cbn [map ofold]. rewrite Do. exact E'.
      + intros i. eapply Rle_trans; [apply G1|apply G'].
      + exists (e0 :: es). apply (residuals_cons _ _ _ _ _ _ _ _ Do Ev). auto.
      + intros [|e es'] Hr; [destruct Hr; discriminate|].
        apply (residuals_cons _ _ _ _ _ _ _ _ Do Ev) in Hr. cbn [snd] in Hr. fold e0 in Hr. destruct Hr as [-> Hr].
        destruct (Bd es' Hr) as [BA BD]. split.
        * intros A A0 FA i. inversion FA as [|? ? FA0 FA']; subst. specialize (BA A A0 FA' i). rewrite Na in BA.
          specialize (FA0 phi i P). unfold sum_sq, rsum in *. cbn [map fold_right].
          assert (C : coeff phi i * coeff phi i <= A * A).
          { rewrite <- (Rabs_right (coeff phi i * coeff phi i)) by (apply Rle_ge, Rle_0_sqr). rewrite Rabs_mult.
            pose proof (Rabs_pos (coeff phi i)). apply Rmult_le_compat; auto. }
          pose proof (Rmult_le_compat_r (e0 * e0) _ _ (Rle_0_sqr e0) C). lra.
        * intros St. apply (stays_cons _ _ _ _ _ _ _ Do) in St. cbn [lfa_weights] in St. destruct St as [S0 St].
          specialize (BD St). cbn [map2]. unfold rsum in *. cbn [fold_right].
          pose proof (level_step x y phi w acc w1 a1 P (proj2 Z) Pa Lw1 Na Nw S0) as LS. cbv zeta in LS. fold e0 in LS. lra.
  Qed.

  Lemma level_ends w acc w' acc' : length w' = length w -> (forall i, Rabs (at_ w i - at_ ws i) <= D i) ->
    level w acc - level w' acc' <=
      sigma (length w) (fun i => D i * D i * (sqrt (at_ acc' i) + eps) + 2 * (lr * lr) * (sqrt (at_ acc' i) - sqrt (at_ acc i))).
  Proof.
    intros L B. unfold level. rewrite L.
    assert (Sm : forall n f g, sigma n f - sigma n g = sigma n (fun i => f i - g i)).
    { intros n f g. replace (sigma n f - sigma n g) with (sigma n f + (-1) * sigma n g) by ring.
      rewrite <- sigma_scal, <- sigma_plus. apply sigma_ext. intros; ring. }
    rewrite Sm. apply sigma_le. intros i _.
    pose proof (sqrt_pos (at_ acc i)). pose proof (sqrt_pos (at_ acc' i)). specialize (B i).
    assert (Dd : (at_ w i - at_ ws i) * (at_ w i - at_ ws i) <= D i * D i).
    { rewrite <- (Rabs_right ((at_ w i - at_ ws i) * (at_ w i - at_ ws i))) by (apply Rle_ge, Rle_0_sqr). rewrite Rabs_mult.
      pose proof (Rabs_pos (at_ w i - at_ ws i)). apply Rmult_le_compat; auto. }
    assert (X : (sqrt (at_ acc i) + eps) * ((at_ w i - at_ ws i) * (at_ w i - at_ ws i) - D i * D i) <= 0).
    { pose proof (Rmult_le_compat_l (sqrt (at_ acc i) + eps) _ _ ltac:(lra) Dd). lra. }
    assert (Y : 0 <= (sqrt (at_ acc' i) + eps) * ((at_ w' i - at_ ws i) * (at_ w' i - at_ ws i))).
    { apply Rmult_le_pos; [lra|apply Rle_0_sqr]. }
    lra.
  Qed.
End Regret.

Theorem adagrad_regret {I} (b : Basis R I) lr ws D h w acc : 0 < lr -> Forall (fits b (length w)) h ->
  length acc = length w -> (forall i, 0 <= at_ acc i) ->
  exists w' acc', s_run Adagrad (map fit_call h) (MkLFA b w (MkAdagrad lr acc)) = Ret (MkLFA b w' (MkAdagrad lr acc')) /\
    (exists es, residuals Adagrad (MkLFA b w (MkAdagrad lr acc)) h es) /\
    (stays Adagrad (MkLFA b w (MkAdagrad lr acc)) h ws D -> h <> [] ->
     forall es, residuals Adagrad (MkLFA b w (MkAdagrad lr acc)) h es ->
     rsum (map2 (fun e p => e * (e - unexplained b ws p)) es h) <=
       sigma (length w) (fun i => D i * D i / (2 * lr) * (sqrt (at_ acc' i) + eps) + lr * (sqrt (at_ acc' i) - sqrt (at_ acc i)))).
Proof.
  intros Pl Fi La Pa. destruct (level_run b lr ws D Pl h w acc Fi La Pa) as (w' & acc' & E & Lw & _ & _ & Ex & Bd).
  exists w', acc'. splits; auto. intros St Ne es Re. destruct (Bd es Re) as [_ BD]. specialize (BD St).
  assert (B0 : forall i, Rabs (at_ w i - at_ ws i) <= D i).
  { destruct h as [|p h']; [congruence|]. apply (St 0%nat (MkLFA b w (MkAdagrad lr acc))); [simpl; lia|reflexivity]. }
  pose proof (level_ends lr ws D w acc w' acc' Lw B0) as LE.
  apply Rmult_le_reg_l with (2 * lr); [lra|]. eapply Rle_trans; [exact BD|]. eapply Rle_trans; [exact LE|].
  rewrite <- sigma_scal. right. apply sigma_ext. intros i _. field. lra.
Qed.

(** ** Samples the weights [ws] explain *)

Lemma unexplained_consistent {I} (b : Basis R I) n ws p : consistent b n ws p -> unexplained b ws p = 0.
Proof. intros (phi & P & _ & E). unfold unexplained. rewrite P, E. ring. Qed.

Lemma sqrt_sub x y : 0 <= x -> 0 <= y -> sqrt (x + y * y) <= sqrt x + y.
Proof.
  intros X Y. pose proof (sqrt_pos x) as S. rewrite <- (sqrt_square (sqrt x + y)) by lra. apply sqrt_le_1_alt.
  pose proof (sqrt_sqrt x X) as Q. assert (0 <= sqrt x * y) by (apply Rmult_le_pos; auto). lra.
Qed.

Theorem adagrad_realisable {I} (b : Basis R I) lr ws D A h w acc : 0 < lr -> 0 <= A -> Forall (consistent b (length w) ws) h ->
  Forall (fun p => forall phi i, b_project b (fst p) = Ret (Ok phi) -> Rabs (coeff phi i) <= A) h ->
  length acc = length w -> (forall i, 0 <= at_ acc i) -> stays Adagrad (MkLFA b w (MkAdagrad lr acc)) h ws D ->
  (forall i, Rabs (at_ w i - at_ ws i) <= D i) ->
  let q := A * sigma (length w) (fun i => D i * D i / (2 * lr) + lr) in
  forall es, residuals Adagrad (MkLFA b w (MkAdagrad lr acc)) h es ->
  sum_sq es <= 2 * sigma (length w) (fun i => D i * D i / (2 * lr) * (sqrt (at_ acc i) + 1 / 10000000)) + q * q.
Proof.
  intros Pl A0 Cs FA La Pa St B0 q es Re.
  assert (Fi : Forall (fits b (length w)) h).
  { eapply Forall_impl; [|exact Cs]. intros p (phi & P & Z & _). exists phi. auto. }
  destruct (level_run b lr ws D Pl h w acc Fi La Pa) as (w' & acc' & E & Lw & _ & G & _ & Bd).
  destruct (Bd es Re) as [BA BD]. specialize (BA A A0 FA). specialize (BD St).
  pose proof (level_ends lr ws D w acc w' acc' Lw B0) as LE.
  assert (ES : rsum (map2 (fun e p => e * (e - unexplained b ws p)) es h) = sum_sq es).
  { unfold sum_sq. rewrite <- (rsum_map2_fst (fun e => e * e) es h (proj1 Re)). apply rsum_map2_ext.
    intros e p Ip. rewrite Forall_forall in Cs. rewrite (unexplained_consistent b (length w) ws p (Cs p Ip)). ring. }
  rewrite ES in BD. set (S := sum_sq es) in *.
  assert (S0 : 0 <= S) by (unfold S, sum_sq; apply NormReal.rsum_nonneg; intros v Iv; apply in_map_iff in Iv; destruct Iv as (z & <- & _); apply Rle_0_sqr).
  set (r := sqrt S). pose proof (sqrt_pos S) as R0. fold r in R0. assert (RR : r * r = S) by (apply sqrt_sqrt, S0).
  assert (Sub : forall i, sqrt (at_ acc' i) <= sqrt (at_ acc i) + A * r).
  { intros i. eapply Rle_trans; [|apply sqrt_sub; [apply Pa|apply Rmult_le_pos; auto]]. apply sqrt_le_1_alt.
    replace (A * r * (A * r)) with (A * A * S) by (rewrite <- RR; ring). apply BA. }
  assert (Up : S <= sigma (length w) (fun i => D i * D i / (2 * lr) * (sqrt (at_ acc i) + 1 / 10000000)) + q * r).
  { apply Rmult_le_reg_l with (2 * lr); [lra|]. eapply Rle_trans; [exact BD|]. eapply Rle_trans; [exact LE|].
    unfold q. replace (A * sigma (length w) (fun i => D i * D i / (2 * lr) + lr) * r)
      with ((A * r) * sigma (length w) (fun i => D i * D i / (2 * lr) + lr)) by ring.
    rewrite <- (sigma_scal _ (A * r)), <- sigma_plus, <- sigma_scal. apply sigma_le. intros i _. specialize (Sub i).
    assert (K1 : D i * D i * sqrt (at_ acc' i) <= D i * D i * (sqrt (at_ acc i) + A * r)) by (apply Rmult_le_compat_l; [apply Rle_0_sqr|exact Sub]).
    assert (K2 : lr * lr * sqrt (at_ acc' i) <= lr * lr * (sqrt (at_ acc i) + A * r)) by (apply Rmult_le_compat_l; [apply Rle_0_sqr|exact Sub]).
    replace (2 * lr * (D i * D i / (2 * lr) * (sqrt (at_ acc i) + 1 / 10000000) + A * r * (D i * D i / (2 * lr) + lr)))
      with (D i * D i * (sqrt (at_ acc i) + 1 / 10000000) + A * r * (D i * D i) + 2 * (lr * lr) * (A * r)) by (field; lra).
    lra. }
  assert (Yg : 0 <= (q - r) * (q - r)) by apply Rle_0_sqr.
  replace ((q - r) * (q - r)) with (q * q - 2 * (q * r) + S) in Yg by (rewrite <- RR; ring). lra.
Qed.

(** ** Tables: one active feature *)

Definition lone {I} (b : Basis R I) (p : I * R) : Prop :=
  exists phi j, b_project b (fst p) = Ret (Ok phi) /\ forall i, i <> j -> coeff phi i = 0.

Lemma predict_lone phi j w : (forall i, i <> j -> coeff phi i = 0) -> (j < size phi)%nat -> predict phi w = coeff phi j * at_ w j.
Proof.
  intros N Lj. unfold predict.
  assert (X : forall n, sigma n (fun i => coeff phi i * at_ w i) = if (j <? n)%nat then coeff phi j * at_ w j else 0).
  { induction n as [|n IH]; [reflexivity|]. rewrite sigma_S, IH. destruct (Nat.eq_dec n j) as [->|Ne].
    - rewrite (proj2 (Nat.ltb_ge j j)), (proj2 (Nat.ltb_lt j (S j))) by lia. ring.
    - rewrite (N n Ne). destruct (Nat.ltb_spec j n), (Nat.ltb_spec j (S n)); try lia; ring. }
  rewrite X. now rewrite (proj2 (Nat.ltb_lt _ _) Lj).
Qed.

(** The step is towards [v] and at most [lr] long. *)
Lemma towards lr c v w G D : 0 < lr -> 0 <= G -> Rabs (w - v) <= D -> lr <= D ->
  let e := c * v - c * w in
  Rabs (w + lr * (c * e) / (sqrt (G + c * c * (e * e)) + eps) - v) <= D.
Proof.
  intros Pl G0 B L e. set (r := sqrt (G + c * c * (e * e))).
  assert (R0 : Rabs (c * e) <= r).
  { unfold r. rewrite <- (sqrt_Rsqr_abs (c * e)). apply sqrt_le_1_alt. unfold Rsqr. lra. }
  assert (Ce : c * e = c * c * (v - w)) by (unfold e; ring).
  assert (C0 : 0 <= c * c) by apply Rle_0_sqr. set (k := c * c / (r + eps)).
  assert (Pr : 0 <= r) by apply sqrt_pos.
  assert (K0 : 0 <= k) by (apply Rmult_le_pos; [auto|left; apply Rinv_0_lt_compat; lra]).
  replace (w + lr * (c * e) / (r + eps) - v) with ((w - v) - lr * (k * (w - v))) by (rewrite Ce; unfold k; field; lra).
  assert (M : Rabs (k * (w - v)) <= 1).
  { replace (k * (w - v)) with (- (c * e) * / (r + eps)) by (rewrite Ce; unfold k; field; lra).
    rewrite Rabs_mult, Rabs_Ropp, (Rabs_pos_eq (/ (r + eps))) by (left; apply Rinv_0_lt_compat; lra).
    apply Rmult_le_reg_r with (r + eps); [lra|]. rewrite Rmult_assoc, Rinv_l by lra. lra. }
  destruct (Rle_lt_dec 0 (w - v)) as [P|P].
  - rewrite (Rabs_pos_eq (w - v)) in B by auto. assert (0 <= k * (w - v)) by (apply Rmult_le_pos; auto).
    rewrite (Rabs_pos_eq (k * (w - v))) in M by auto. assert (0 <= lr * (k * (w - v))) by (apply Rmult_le_pos; lra).
    assert (lr * (k * (w - v)) <= lr * 1) by (apply Rmult_le_compat_l; lra). apply Rabs_le. lra.
  - rewrite (Rabs_left (w - v)) in B by auto. assert (0 <= k * (v - w)) by (apply Rmult_le_pos; lra).
    replace (k * (w - v)) with (- (k * (v - w))) in * by ring. rewrite Rabs_Ropp, (Rabs_pos_eq (k * (v - w))) in M by auto.
    assert (0 <= lr * (k * (v - w))) by (apply Rmult_le_pos; lra).
    assert (lr * (k * (v - w)) <= lr * 1) by (apply Rmult_le_compat_l; lra). apply Rabs_le. lra.
Qed.

Theorem table_stays {I} (b : Basis R I) lr ws D : 0 < lr -> forall h w acc, Forall (consistent b (length w) ws) h -> Forall (lone b) h ->
  length acc = length w -> (forall i, 0 <= at_ acc i) ->
  (forall i, Rabs (at_ w i - at_ ws i) <= D i /\ lr <= D i) ->
  stays Adagrad (MkLFA b w (MkAdagrad lr acc)) h ws D.
Proof.
  intros Pl. induction h as [|[x y] h IH]; intros w acc Cs Ls La Pa B; [intros k a' Lk; simpl in Lk; lia|].
  inversion Cs as [|? ? (phi & P & Z & Ey) Cs']; subst. inversion Ls as [|? ? (phi' & j & P' & Nj) Ls']; subst.
  cbn [fst snd] in *. rewrite P in P'. injection P' as <-.
  destruct (adagrad_fit b lr acc w x y phi P Z La) as (a1 & w1 & Do & Ev & La1 & Lw1 & Na & Nw).
  apply (stays_cons _ _ _ _ _ _ _ Do). cbn [lfa_weights]. split; [intros i; apply B|].
  apply IH; auto; [rewrite Lw1; auto|congruence| |].
  - intros i. rewrite Na. pose proof (Pa i). pose proof (Rle_0_sqr (coeff phi i * (y - predict phi w))) as Q. unfold Rsqr in Q. lra.
  - intros i. split; [|apply B]. destruct (B i) as [Bi Bl]. rewrite Nw. destruct (Nat.eq_dec i j) as [->|Ne].
    + destruct (Nat.lt_ge_cases j (size phi)) as [Lj|Lj].
      * rewrite Na. rewrite Ey. rewrite !(predict_lone phi j) by auto. apply (towards lr (coeff phi j) (at_ ws j) (at_ w j) (at_ acc j)); auto.
      * rewrite (coeff_beyond phi _ j Z) by (rewrite <- (proj2 Z); exact Lj).
        replace (at_ w j + lr * (0 * (y - predict phi w)) / (sqrt (at_ a1 j) + eps) - at_ ws j) with (at_ w j - at_ ws j) by (unfold Rdiv; ring). exact Bi.
    + rewrite (Nj i Ne).
        replace (at_ w i + lr * (0 * (y - predict phi w)) / (sqrt (at_ a1 i) + eps) - at_ ws i) with (at_ w i - at_ ws i) by (unfold Rdiv; ring). exact Bi.
Qed.

Theorem adagrad_table {I} (b : Basis R I) lr ws A h w acc : 0 < lr -> 0 <= A -> Forall (consistent b (length w) ws) h -> Forall (lone b) h ->
  Forall (fun p => forall phi i, b_project b (fst p) = Ret (Ok phi) -> Rabs (coeff phi i) <= A) h ->
  length acc = length w -> (forall i, 0 <= at_ acc i) ->
  let D i := Rmax (Rabs (at_ w i - at_ ws i)) lr in
  let q := A * sigma (length w) (fun i => D i * D i / (2 * lr) + lr) in
  forall es, residuals Adagrad (MkLFA b w (MkAdagrad lr acc)) h es ->
  sum_sq es <= 2 * sigma (length w) (fun i => D i * D i / (2 * lr) * (sqrt (at_ acc i) + 1 / 10000000)) + q * q.
Proof.
  intros Pl A0 Cs Ls FA La Pa D q. assert (B : forall i, Rabs (at_ w i - at_ ws i) <= D i /\ lr <= D i) by (intros i; split; [apply Rmax_l|apply Rmax_r]).
  apply (adagrad_realisable b lr ws D A h w acc Pl A0 Cs FA La Pa).
  - apply table_stays; auto.
  - intros i. apply B.
Qed.
