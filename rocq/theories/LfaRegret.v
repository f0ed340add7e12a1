(** Cumulative error of fitting with SGD and ISGD, over the reals. Facts for
    C59. *)
From Coq Require Import List Arith Lia Reals Lra.
From Verif Require Import Base Scalar ScalarR HMap NdArray VecFacts Features Spec FeatureFacts
  Optim OptimSpec OptimFacts OptimReal Lfa LfaSpec LfaFacts LfaReal.
Import ListNotations.
Local Open Scope R_scope.

(** The residual met at call [k] of fitting the samples [h]: target minus what
    the approximator, as left by the calls before, predicts. *)
Definition residual {I S} (o : Optimiser R S) (a : ScalarLFA R I S) (h : list (I * R)) (k : nat) (e : R) : Prop :=
  exists x y a' v, nth_error h k = Some (x, y) /\ s_run o (map fit_call (firstn k h)) a = Ret a' /\
    s_evaluate a' x = Ret (Ok v) /\ e = y - v.

(** [es] lists them all. *)
Definition residuals {I S} (o : Optimiser R S) (a : ScalarLFA R I S) (h : list (I * R)) (es : list R) : Prop :=
  length es = length h /\ forall k e, nth_error es k = Some e -> residual o a h k e.

(** What fixed weights [ws] leave unexplained of a sample. *)
Definition unexplained {I} (b : Basis R I) (ws : list R) (p : I * R) : R :=
  match b_project b (fst p) with
  | Ret (Ok phi) => snd p - predict phi ws
  | _ => 0
  end.

(** Squared length of a sample's features. *)
Definition energy {I} (b : Basis R I) (p : I * R) : R :=
  match b_project b (fst p) with
  | Ret (Ok phi) => norm2 phi
  | _ => 0
  end.

Definition fits {I} (b : Basis R I) (n : nat) (p : I * R) : Prop :=
  exists phi, b_project b (fst p) = Ret (Ok phi) /\ sized n phi.

Lemma energy_nonneg {I} (b : Basis R I) p : 0 <= energy b p.
Proof. unfold energy. destruct (b_project b (fst p)) as [[phi|]|]; try lra. apply norm2_nonneg. Qed.

Lemma residuals_cons {I S} (o : Optimiser R S) (a a1 : ScalarLFA R I S) p h e es v :
  s_do o a (fit_call p) = Ret a1 -> s_evaluate a (fst p) = Ret (Ok v) ->
  (residuals o a (p :: h) (e :: es) <-> e = snd p - v /\ residuals o a1 h es).
Proof.
  intros Do Ev. destruct p as [x y]. cbn [fst snd] in *. unfold residuals. split.
  - intros [L R]. assert (L' : length es = length h) by (simpl in L; lia). split; [|split; auto].
    + destruct (R 0%nat e eq_refl) as (x' & y' & a' & v' & N & Ru & E' & ->). simpl in N. injection N as <- <-.
      simpl in Ru. injection Ru as <-. congruence.
    + intros k e' N. destruct (R (Datatypes.S k) e' N) as (x' & y' & a' & v' & N' & Ru & E' & ->).
      exists x', y', a', v'. splits; auto. simpl in Ru. unfold s_run in Ru. cbn [map ofold] in Ru. rewrite Do in Ru. exact Ru.
  - intros [-> [L R]]. split; [simpl; lia|]. intros [|k] e' N; simpl in N.
    + injection N as <-. exists x, y, a, v. splits; auto.
    + destruct (R k e' N) as (x' & y' & a' & v' & N' & Ru & E' & ->). exists x', y', a', v'. splits; auto.
      unfold s_run. cbn [firstn map ofold]. rewrite Do. exact Ru.
Qed.

Section Regret.
  Context {I : Type} (o : Optimiser R R) (lr : R) (c : R -> R).
  Context (Rule : linear_rule o lr (fun phi => c (norm2 phi))).

  (** What one call gains: the decrease of the squared distance to [ws]. *)
  Definition gain (b : Basis R I) (ws : list R) (e : R) (p : I * R) : R :=
    let r := c (energy b p) in
    r * (2 * e * (e - unexplained b ws p) - r * energy b p * (e * e)).

  Theorem fit_identity (b : Basis R I) ws : forall h w, Forall (fits b (length w)) h ->
    exists w', s_run o (map fit_call h) (MkLFA b w lr) = Ret (MkLFA b w' lr) /\ length w' = length w /\
      (exists es, residuals o (MkLFA b w lr) h es) /\
      forall es, residuals o (MkLFA b w lr) h es ->
        dist2 w ws - dist2 w' ws = rsum (map2 (gain b ws) es h).
  Proof.
    induction h as [|[x y] h IH]; intros w Fi.
    - exists w. splits; auto.
      + exists []. split; auto. intros [|k] e E; discriminate.
      + intros es [L _]. destruct es; try discriminate. simpl. unfold rsum. simpl. lra.
    - inversion Fi as [|? ? [phi (P & Z)] Fi']; subst. simpl in P.
      destruct (fit_step o lr _ Rule b w x y phi P Z) as (w1 & E & L & Ev & N & _).
      destruct (IH w1) as (w' & E' & L' & [es Res] & Id); [rewrite L; auto|].
      exists w'. splits; [|congruence| |].
      + unfold s_run. cbn [map ofold]. rewrite E. exact E'.
      + exists ((y - predict phi w) :: es). apply (residuals_cons _ _ _ _ _ _ _ _ E Ev). auto.
      + intros [|e es'] Hr; [destruct Hr; discriminate|].
        apply (residuals_cons _ _ _ _ _ _ _ _ E Ev) in Hr. destruct Hr as [-> Hr].
        specialize (Id es' Hr). cbn [map2]. unfold rsum in *. cbn [fold_right]. rewrite <- Id.
        pose proof (dist2_step (fun phi => c (norm2 phi)) phi w w1 ws _ L (proj2 Z) N) as D. cbn beta in D.
        unfold gain, energy, unexplained. cbn [fst snd]. rewrite P, D. ring.
  Qed.
End Regret.

Lemma rsum_map2_le {A} (f g : R -> A -> R) : forall es h,
  (forall e p, In p h -> f e p <= g e p) -> rsum (map2 f es h) <= rsum (map2 g es h).
Proof.
  unfold rsum. induction es as [|e es IH]; intros [|p h] E; simpl; try lra.
  apply Rplus_le_compat; [apply E; simpl; auto|]. apply IH. intros. apply E. simpl. auto.
Qed.

Lemma rsum_map2_scal {A} (f : R -> A -> R) k : forall es h,
  rsum (map2 (fun e p => k * f e p) es h) = k * rsum (map2 f es h).
Proof. unfold rsum. induction es as [|e es IH]; intros [|p h]; simpl; try lra. rewrite IH. lra. Qed.

Lemma rsum_map2_minus {A} (f g : R -> A -> R) : forall es h,
  rsum (map2 (fun e p => f e p - g e p) es h) = rsum (map2 f es h) - rsum (map2 g es h).
Proof. unfold rsum. induction es as [|e es IH]; intros [|p h]; simpl; try lra. rewrite IH. lra. Qed.

Lemma rsum_map2_ext {A} (f g : R -> A -> R) : forall es h,
  (forall e p, In p h -> f e p = g e p) -> rsum (map2 f es h) = rsum (map2 g es h).
Proof.
  unfold rsum. induction es as [|e es IH]; intros [|p h] E; simpl; auto.
  rewrite E by (simpl; auto). rewrite IH; auto. intros. apply E. simpl. auto.
Qed.

Lemma rsum_map2_fst {A} (f : R -> R) : forall es (h : list A), length es = length h ->
  rsum (map2 (fun e _ => f e) es h) = rsum (map f es).
Proof. unfold rsum. induction es as [|e es IH]; intros [|p h] L; simpl in *; try discriminate; auto. rewrite IH; auto. Qed.

Lemma rsum_map2_snd {A} (f : A -> R) : forall (es : list R) h, length es = length h ->
  rsum (map2 (fun _ p => f p) es h) = rsum (map f h).
Proof. unfold rsum. induction es as [|e es IH]; intros [|p h] L; simpl in *; try discriminate; auto. rewrite IH; auto. Qed.

Lemma dist2_nonneg w ws : 0 <= dist2 w ws.
Proof. unfold dist2. apply sigma_nonneg. intros i. apply Rle_0_sqr. Qed.

Definition sum_sq (es : list R) : R := rsum (map (fun e => e * e) es).

(** ** SGD *)

Lemma sgd_rule' lr : linear_rule SGD lr (fun phi => (fun _ : R => lr) (norm2 phi)).
Proof. apply sgd_rule. Qed.

Theorem sgd_regret {I} (b : Basis R I) lr ws h w : 0 < lr ->
  Forall (fits b (length w)) h -> Forall (fun p => lr * energy b p <= 1) h ->
  forall es, residuals SGD (MkLFA b w lr) h es ->
  lr * rsum (map2 (fun e p => (e - unexplained b ws p) * (e - unexplained b ws p)) es h)
    <= dist2 w ws + lr * sum_sq (map (unexplained b ws) h).
Proof.
  intros P Fi En es Res. pose proof (proj1 Res) as Le.
  destruct (fit_identity SGD lr (fun _ => lr) (sgd_rule' lr) b ws h w Fi) as (w' & _ & _ & _ & Id).
  specialize (Id es Res). pose proof (dist2_nonneg w' ws) as D'.
  unfold sum_sq. rewrite map_map.
  rewrite <- (rsum_map2_snd (fun p => unexplained b ws p * unexplained b ws p) es h Le).
  rewrite <- !rsum_map2_scal.
  assert (B : rsum (map2 (fun e p => lr * ((e - unexplained b ws p) * (e - unexplained b ws p))
                 - lr * (unexplained b ws p * unexplained b ws p)) es h)
              <= rsum (map2 (gain (fun _ => lr) b ws) es h)).
  { apply rsum_map2_le. intros e p Ip. rewrite Forall_forall in En. specialize (En p Ip).
    unfold gain. set (u := unexplained b ws p). set (q := energy b p) in *.
    assert (0 <= lr * ((1 - lr * q) * (e * e))); [|nra].
    apply Rmult_le_pos; [lra|]. apply Rmult_le_pos; [lra|nra]. }
  rewrite rsum_map2_minus in B. lra.
Qed.

Theorem sgd_realisable {I} (b : Basis R I) lr r ws h w : 0 < lr -> r < 2 ->
  Forall (consistent b (length w) ws) h -> Forall (fun p => lr * energy b p <= r) h ->
  forall es, residuals SGD (MkLFA b w lr) h es -> lr * (2 - r) * sum_sq es <= dist2 w ws.
Proof.
  intros P R2 Cs En es Res. pose proof (proj1 Res) as Le.
  assert (Fi : Forall (fits b (length w)) h).
  { eapply Forall_impl; [|exact Cs]. intros p (phi & E & Z & _). exists phi. auto. }
  destruct (fit_identity SGD lr (fun _ => lr) (sgd_rule' lr) b ws h w Fi) as (w' & _ & _ & _ & Id).
  specialize (Id es Res). pose proof (dist2_nonneg w' ws) as D'.
  unfold sum_sq. rewrite <- (rsum_map2_fst (fun e => e * e) es h Le), <- rsum_map2_scal.
  assert (B : rsum (map2 (fun e (_ : I * R) => lr * (2 - r) * (e * e)) es h)
              <= rsum (map2 (gain (fun _ => lr) b ws) es h)); [|lra].
  apply rsum_map2_le. intros e p Ip. rewrite Forall_forall in En, Cs. specialize (En p Ip).
  destruct (Cs p Ip) as (phi & E & _ & Y).
  assert (U : unexplained b ws p = 0) by (unfold unexplained; rewrite E, Y; lra).
  unfold gain. rewrite U. set (q := energy b p) in *.
  assert (0 <= lr * ((r - lr * q) * (e * e))); [|nra].
  apply Rmult_le_pos; [lra|]. apply Rmult_le_pos; [lra|nra].
Qed.

(** ** ISGD *)

Lemma isgd_rule' lr : linear_rule ISGD lr (fun phi => (fun q => lr / (1 + lr * q)) (norm2 phi)).
Proof. apply isgd_rule. Qed.

Theorem isgd_regret {I} (b : Basis R I) lr ws h w : 0 < lr -> Forall (fits b (length w)) h ->
  forall es, residuals ISGD (MkLFA b w lr) h es ->
  let rate p := lr / (1 + lr * energy b p) in
  rsum (map2 (fun e p => rate p * ((e - unexplained b ws p) * (e - unexplained b ws p))) es h)
    <= dist2 w ws + rsum (map (fun p => rate p * (unexplained b ws p * unexplained b ws p)) h).
Proof.
  intros P Fi es Res rate. pose proof (proj1 Res) as Le.
  destruct (fit_identity ISGD lr _ (isgd_rule' lr) b ws h w Fi) as (w' & _ & _ & _ & Id).
  specialize (Id es Res). pose proof (dist2_nonneg w' ws) as D'.
  rewrite <- (rsum_map2_snd (fun p => rate p * (unexplained b ws p * unexplained b ws p)) es h Le).
  assert (B : rsum (map2 (fun e p => rate p * ((e - unexplained b ws p) * (e - unexplained b ws p))
                 - rate p * (unexplained b ws p * unexplained b ws p)) es h)
              <= rsum (map2 (gain (fun q => lr / (1 + lr * q)) b ws) es h)).
  { apply rsum_map2_le. intros e p Ip. unfold gain. fold (rate p).
    pose proof (energy_nonneg b p) as Q. set (u := unexplained b ws p). set (q := energy b p) in *.
    assert (D : 0 < 1 + lr * q) by nra.
    assert (R0 : 0 < rate p) by (unfold rate; fold q; apply Rdiv_lt_0_compat; lra).
    assert (R1 : rate p * q <= 1).
    { unfold rate. fold q. apply Rmult_le_reg_r with (1 + lr * q); auto. field_simplify; [|lra]. lra. }
    assert (0 <= rate p * ((1 - rate p * q) * (e * e))); [|nra].
    apply Rmult_le_pos; [lra|]. apply Rmult_le_pos; [lra|nra]. }
  rewrite rsum_map2_minus in B. lra.
Qed.

Theorem isgd_realisable {I} (b : Basis R I) lr q ws h w : 0 < lr ->
  Forall (consistent b (length w) ws) h -> Forall (fun p => energy b p <= q) h -> 0 <= q ->
  forall es, residuals ISGD (MkLFA b w lr) h es -> lr / (1 + lr * q) * sum_sq es <= dist2 w ws.
Proof.
  intros P Cs En Q0 es Res. pose proof (proj1 Res) as Le.
  assert (Fi : Forall (fits b (length w)) h).
  { eapply Forall_impl; [|exact Cs]. intros p (phi & E & Z & _). exists phi. auto. }
  destruct (fit_identity ISGD lr _ (isgd_rule' lr) b ws h w Fi) as (w' & _ & _ & _ & Id).
  specialize (Id es Res). pose proof (dist2_nonneg w' ws) as D'.
  unfold sum_sq. rewrite <- (rsum_map2_fst (fun e => e * e) es h Le), <- rsum_map2_scal.
  assert (B : rsum (map2 (fun e (_ : I * R) => lr / (1 + lr * q) * (e * e)) es h)
              <= rsum (map2 (gain (fun q => lr / (1 + lr * q)) b ws) es h)); [|lra].
  apply rsum_map2_le. intros e p Ip. rewrite Forall_forall in En, Cs. specialize (En p Ip).
  destruct (Cs p Ip) as (phi & E & _ & Y).
  assert (U : unexplained b ws p = 0) by (unfold unexplained; rewrite E, Y; lra).
  unfold gain. rewrite U. pose proof (energy_nonneg b p) as N. set (t := energy b p) in *.
  set (rt := lr / (1 + lr * t)). set (rq := lr / (1 + lr * q)).
  assert (Dt : 0 < 1 + lr * t) by nra. assert (Dq : 0 < 1 + lr * q) by nra.
  assert (R0 : 0 < rt) by (apply Rdiv_lt_0_compat; lra).
  assert (R1 : rt * t <= 1).
  { unfold rt. apply Rmult_le_reg_r with (1 + lr * t); auto. field_simplify; [|lra]. lra. }
  assert (Rq : rq <= rt).
  { unfold rq, rt, Rdiv. apply Rmult_le_compat_l; [lra|]. apply Rinv_le_contravar; nra. }
  assert (0 <= e * e) by nra.
  assert (0 <= rt * ((1 - rt * t) * (e * e))) by (apply Rmult_le_pos; [lra|]; apply Rmult_le_pos; lra).
  nra.
Qed.

(** ** Mistakes *)

Lemma count_big eps es : 0 < eps ->
  INR (length (filter (fun e => if Rle_dec eps (Rabs e) then true else false) es)) * (eps * eps) <= sum_sq es.
Proof.
  intros P. unfold sum_sq, rsum. induction es as [|e es IH]; cbn [filter map fold_right]; [simpl; lra|].
  destruct (Rle_dec eps (Rabs e)) as [G|G].
  - cbn [length]. rewrite S_INR. assert (eps * eps <= e * e); [|lra].
    assert (A : Rabs e * Rabs e = e * e) by (rewrite <- Rabs_mult; apply Rabs_right; nra).
    rewrite <- A. apply Rmult_le_compat; lra.
  - assert (0 <= e * e) by nra. lra.
Qed.
