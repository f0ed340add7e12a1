(** Radial kernels: functions of a squared distance whose Gaussians are in the
    class of KernelPsd.v. *)
From Coq Require Import List Arith ZArith Lia Reals Lra.
From Verif Require Import ScalarR KernelPsd.
Import ListNotations.
Local Open Scope R_scope.

(** ** limits *)

Definition step (n : nat) : R := / INR (S n).

Lemma step_pos n : 0 < step n.
Proof. apply Rinv_0_lt_compat, lt_0_INR. lia. Qed.

Lemma cv_of_bound u l c : (forall n, Rabs (u n - l) <= c * step n) -> Un_cv u l.
Proof.
  intros B eps P. unfold R_dist.
  destruct (archimed_cor1 (eps / (1 + Rabs c))) as (N & L & PN).
  { apply Rdiv_lt_0_compat; [exact P|]. pose proof (Rabs_pos c). lra. }
  exists N. intros n G. eapply Rle_lt_trans; [apply B|].
  assert (step n <= / INR N).
  { apply Rinv_le_contravar; [apply lt_0_INR, PN|]. apply le_INR. lia. }
  pose proof (step_pos n). pose proof (Rabs_pos c). pose proof (Rle_abs c).
  assert (step n < eps / (1 + Rabs c)) by lra.
  apply Rmult_lt_compat_l with (r := 1 + Rabs c) in H3; [|lra].
  replace ((1 + Rabs c) * (eps / (1 + Rabs c))) with eps in H3 by (field; lra).
  eapply Rle_lt_trans; [|exact H3]. apply Rmult_le_compat_r; lra.
Qed.

Lemma cv_ext u v l : (forall n, u n = v n) -> Un_cv u l -> Un_cv v l.
Proof. intros E C eps P. destruct (C eps P) as [N H]. exists N. intros n L. rewrite <- E. apply H, L. Qed.

Lemma exp_below y : 1 - y <= exp (- y).
Proof.
  destruct (Req_dec y 0) as [->|N]; [rewrite Ropp_0, exp_0; lra|].
  pose proof (exp_ineq1 (- y)). lra.
Qed.

Lemma exp_above y : 0 <= y -> exp (- y) <= 1 - y + y * y.
Proof.
  intros P. rewrite exp_Ropp. pose proof (exp_below (- y)) as B. rewrite Ropp_involutive in B.
  apply Rle_trans with (/ (1 + y)); [apply Rinv_le_contravar; lra|].
  apply Rmult_le_reg_l with (1 + y); [lra|]. rewrite Rinv_r by lra.
  assert (0 <= y * y * y) by (apply Rmult_le_pos; [apply Rle_0_sqr|exact P]). lra.
Qed.

(** The difference quotient (1 - exp(-h s)) / h tends to s. *)
Definition quot (s : R) (n : nat) : R := (1 - exp (- (step n * s))) / step n.

Lemma quot_nonneg s n : 0 <= s -> 0 <= quot s n.
Proof.
  intros P. unfold quot. apply Rmult_le_pos; [|apply Rlt_le, Rinv_0_lt_compat, step_pos].
  assert (exp (- (step n * s)) <= exp 0); [|rewrite exp_0 in *; lra].
  assert (0 <= step n * s) by (apply Rmult_le_pos; [apply Rlt_le, step_pos|exact P]).
  destruct (Req_dec (step n * s) 0) as [E|N]; [rewrite E, Ropp_0; lra|].
  apply Rlt_le, exp_increasing. lra.
Qed.

Lemma quot_pos s n : 0 < s -> 0 < quot s n.
Proof.
  intros P. unfold quot. apply Rdiv_lt_0_compat; [|apply step_pos].
  assert (exp (- (step n * s)) < exp 0); [|rewrite exp_0 in *; lra].
  apply exp_increasing. assert (0 < step n * s) by (apply Rmult_lt_0_compat; [apply step_pos|exact P]). lra.
Qed.

Lemma quot_cv s : 0 <= s -> Un_cv (quot s) s.
Proof.
  intros P. apply (cv_of_bound _ _ (s * s)). intros n. pose proof (step_pos n) as H.
  set (h := step n) in *. unfold quot. fold h.
  pose proof (exp_below (h * s)) as B. pose proof (exp_above (h * s)) as A.
  assert (0 <= h * s) by (apply Rmult_le_pos; lra). specialize (A H0).
  rewrite Rabs_left1.
  - apply Rmult_le_reg_r with h; [exact H|].
    replace (- ((1 - exp (- (h * s))) / h - s) * h) with (exp (- (h * s)) - 1 + h * s) by (field; lra).
    lra.
  - apply Rmult_le_reg_r with h; [exact H|].
    replace (((1 - exp (- (h * s))) / h - s) * h) with (1 - exp (- (h * s)) - h * s) by (field; lra).
    lra.
Qed.

(** ** 1 - sqrt (1 - z) as a limit of polynomials with non-negative coefficients *)

Fixpoint root_iter (n : nat) (z : R) : R :=
  match n with O => 0 | S m => (z + root_iter m z * root_iter m z) / 2 end.

Lemma root_iter_bound z n : 0 <= z <= 1 ->
  0 <= root_iter n z <= 1 - sqrt (1 - z) /\
  1 - sqrt (1 - z) - root_iter n z <= 2 * / (INR n + 2).
Proof.
  intros [P0 P1].
  assert (S0 : 0 <= sqrt (1 - z)) by apply sqrt_pos.
  assert (SS : sqrt (1 - z) * sqrt (1 - z) = 1 - z) by (apply sqrt_sqrt; lra).
  assert (S1 : sqrt (1 - z) <= 1) by nra.
  induction n as [|n [[L U] D]].
  - simpl. rewrite Rplus_0_l, Rinv_r by lra. lra.
  - set (u := 1 - sqrt (1 - z)) in *. cbn [root_iter]. set (v := root_iter n z) in *.
    assert (Z : z = 2 * u - u * u) by (unfold u; lra).
    assert (0 <= u <= 1) by (unfold u; lra).
    assert (V : (z + v * v) / 2 = u - (u - v) * (u + v) / 2) by (rewrite Z; field).
    rewrite V. set (d := u - v) in *. assert (0 <= d <= 1) by (unfold d; lra).
    replace (u + v) with (2 * u - d) by (unfold d; ring).
    refine (conj (conj _ _) _).
    + assert (d * (2 * u - d) <= 2 * u); [|lra].
      assert (d <= u) by (unfold d; lra). nra.
    + assert (0 <= d * (2 * u - d)); [|lra]. apply Rmult_le_pos; [lra|]. unfold d. lra.
    + replace (u - (u - d * (2 * u - d) / 2)) with (d * (2 * u - d) / 2) by ring.
      apply Rle_trans with (d * (2 - d) / 2); [nra|].
      rewrite S_INR. pose proof (pos_INR n). set (m := INR n) in *.
      set (i := / (m + 2)) in *. assert (I : i * (m + 2) = 1) by (unfold i; field; lra).
      assert (0 < i) by (apply Rinv_0_lt_compat; lra).
      assert (i <= / 2) by (apply Rinv_le_contravar; lra).
      apply Rle_trans with (2 * i * (1 - i)).
      * assert (0 <= (2 * i - d) * (2 - 2 * i - d)); [|lra]. apply Rmult_le_pos; lra.
      * apply Rmult_le_reg_r with (m + 1 + 2); [lra|].
        replace (2 * / (m + 1 + 2) * (m + 1 + 2)) with 2 by (field; lra).
        replace (m + 1 + 2) with (m + 2 + 1) by ring.
        replace (2 * i * (1 - i) * (m + 2 + 1)) with (2 * (i * (m + 2)) * (1 - i) + 2 * i * (1 - i)) by ring.
        rewrite I. assert (0 <= i * i) by apply Rle_0_sqr. lra.
Qed.

Lemma root_iter_cv z : 0 <= z <= 1 -> Un_cv (fun n => root_iter n z) (1 - sqrt (1 - z)).
Proof.
  intros P. apply (cv_of_bound _ _ 2). intros n.
  destruct (root_iter_bound z n P) as [[L U] D].
  rewrite Rabs_left1 by lra.
  apply Rle_trans with (2 * / (INR n + 2)); [lra|].
  apply Rmult_le_compat_l; [lra|]. unfold step. rewrite S_INR. pose proof (pos_INR n).
  apply Rinv_le_contravar; lra.
Qed.

(** ** -ln (1 - z) as a power series *)

Definition log_sum (n : nat) (z : R) : R := sum_f_R0 (fun i => z ^ S i / INR (S i)) n.

Lemma monomial_derivative i t : derivable_pt_lim (fun y => y ^ S i / INR (S i)) t (t ^ i).
Proof.
  pose proof (derivable_pt_lim_pow t (S i)) as D. apply (derivable_pt_lim_scal _ (/ INR (S i))) in D.
  cbn [pred] in D. unfold mult_real_fct in D.
  replace (t ^ i) with (/ INR (S i) * (INR (S i) * t ^ i)) by (field; apply not_0_INR; lia).
  intros eps P. destruct (D eps P) as [d H]. exists d. intros h N L. specialize (H h N L).
  unfold Rdiv at 2 3. rewrite (Rmult_comm ((t + h) ^ S i)), (Rmult_comm (t ^ S i)). exact H.
Qed.

Lemma log_sum_derivative n t : derivable_pt_lim (log_sum n) t (sum_f_R0 (fun i => t ^ i) n).
Proof.
  induction n; [exact (monomial_derivative 0 t)|].
  exact (derivable_pt_lim_plus _ _ _ _ _ IHn (monomial_derivative (S n) t)).
Qed.

Lemma log_derivative t : t < 1 -> derivable_pt_lim (fun y => - ln (1 - y)) t (/ (1 - t)).
Proof.
  intros L. replace (/ (1 - t)) with (- (/ (1 - t) * -1)) by ring.
  apply (derivable_pt_lim_opp (fun y => ln (1 - y)) t (/ (1 - t) * -1)).
  apply (derivable_pt_lim_comp (fun y => 1 - y) ln t (-1) (/ (1 - t))).
  - replace (-1) with (0 - 1) by ring.
    apply (derivable_pt_lim_minus (fct_cte 1) id t 0 1); [apply derivable_pt_lim_const|apply derivable_pt_lim_id].
  - apply derivable_pt_lim_ln. lra.
Qed.

Lemma geometric n t : t <> 1 -> / (1 - t) - sum_f_R0 (fun i => t ^ i) n = t ^ S n / (1 - t).
Proof. intros N. rewrite tech3 by exact N. field. intros E. apply N. lra. Qed.

Lemma log_sum_cv z : 0 < z < 1 -> Un_cv (fun n => log_sum n z) (- ln (1 - z)).
Proof.
  intros [P L].
  assert (B : forall n, Rabs (log_sum n z - - ln (1 - z)) <= z ^ S n / (1 - z)).
  { intros n.
    destruct (MVT_cor2 (fun y => - ln (1 - y) - log_sum n y) (fun t => / (1 - t) - sum_f_R0 (fun i => t ^ i) n) 0 z P) as (c & E & C0 & C1).
    { intros c [C0 C1]. apply (derivable_pt_lim_minus (fun y => - ln (1 - y)) (log_sum n)); [apply log_derivative; lra|apply log_sum_derivative]. }
    rewrite Rminus_0_r, ln_1, Ropp_0, Rminus_0_r in E.
    assert (Z : log_sum n 0 = 0).
    { unfold log_sum. clear. induction n; cbn [sum_f_R0]; [simpl; field|]. rewrite IHn, pow_i by lia. unfold Rdiv. ring. }
    rewrite Z, Rminus_0_r, geometric, Rminus_0_r in E by lra.
    rewrite Rabs_minus_sym, E.
    assert (0 < c ^ S n) by (apply pow_lt, C0).
    assert (c ^ S n <= z ^ S n) by (apply pow_incr; lra).
    assert (0 < / (1 - c)) by (apply Rinv_0_lt_compat; lra).
    assert (/ (1 - c) <= / (1 - z)) by (apply Rinv_le_contravar; lra).
    rewrite Rabs_pos_eq.
    - apply Rle_trans with (z ^ S n * / (1 - z) * 1); [|unfold Rdiv; lra].
      apply Rmult_le_compat; try lra.
      + apply Rlt_le, Rmult_lt_0_compat; lra.
      + apply Rmult_le_compat; lra.
    - apply Rlt_le, Rmult_lt_0_compat; [|exact P]. apply Rmult_lt_0_compat; lra. }
  intros eps Pe.
  destruct (pow_lt_1_zero z) with (y := eps * (1 - z)) as [N H].
  { rewrite Rabs_pos_eq; lra. }
  { apply Rmult_lt_0_compat; lra. }
  exists N. intros n G. unfold R_dist. eapply Rle_lt_trans; [apply B|].
  specialize (H (S n)). rewrite Rabs_pos_eq in H by (apply pow_le; lra).
  apply Rmult_lt_reg_r with (1 - z); [lra|].
  unfold Rdiv. rewrite Rmult_assoc, Rinv_l, Rmult_1_r by lra. apply H. lia.
Qed.

(** ** (1 + x) exp(-x) as the integral of exp(-sqrt t) / 2 from x^2 *)

Definition tail_fun (x : R) : R := (1 + x) * exp (- x).

Lemma exp_opp_derivative t : derivable_pt_lim (fun y => exp (- y)) t (- exp (- t)).
Proof.
  replace (- exp (- t)) with (exp (- t) * -1) by ring.
  apply (derivable_pt_lim_comp Ropp exp t (-1) (exp (- t))).
  - replace (-1) with (- (1)) by ring. apply (derivable_pt_lim_opp id t 1), derivable_pt_lim_id.
  - apply derivable_pt_lim_exp.
Qed.

Lemma tail_derivative t : derivable_pt_lim tail_fun t (- (t * exp (- t))).
Proof.
  replace (- (t * exp (- t))) with ((0 + 1) * exp (- t) + (1 + t) * - exp (- t)) by ring.
  apply (derivable_pt_lim_mult (fun y => 1 + y) (fun y => exp (- y)) t (0 + 1) (- exp (- t))).
  - apply (derivable_pt_lim_plus (fct_cte 1) id t 0 1); [apply derivable_pt_lim_const|apply derivable_pt_lim_id].
  - apply exp_opp_derivative.
Qed.

Lemma square_derivative t x : derivable_pt_lim (fun y => (y * y - x * x) / 2) t t.
Proof.
  assert (D : derivable_pt_lim (fun y => y * y) t (1 * t + t * 1)).
  { apply (derivable_pt_lim_mult id id t 1 1); apply derivable_pt_lim_id. }
  assert (Q := derivable_pt_lim_minus _ _ _ _ _ D (derivable_pt_lim_const (x * x) t)).
  apply (derivable_pt_lim_scal _ (/ 2)) in Q.
  replace t with (/ 2 * (1 * t + t * 1 - 0)) at 2 by field.
  intros eps P. destruct (Q eps P) as [d H]. exists d. intros h N L. specialize (H h N L).
  unfold mult_real_fct, minus_fct, fct_cte in H.
  unfold Rdiv at 2 3. rewrite (Rmult_comm (_ - _) (/ 2)), (Rmult_comm (t * t - _) (/ 2)). exact H.
Qed.

Lemma exp_opp_le a b : a <= b -> exp (- b) <= exp (- a).
Proof. intros [L|<-]; [apply Rlt_le, exp_increasing; lra|lra]. Qed.

(** If F' t = - t g t with g falling and non-negative and F vanishes at infinity,
    then F (sqrt s) is the limit of the Riemann sums of g (sqrt t) / 2 from s on. *)
Section Tail.
Context (F g : R -> R) (C B : R).
Context (F_deriv : forall t, derivable_pt_lim F t (- (t * g t))).
Context (g_falls : forall a b, 0 <= a <= b -> g b <= g a).
Context (g_bound : forall a, 0 <= a -> 0 <= g a <= B).
Context (F_small : forall x, 0 < x -> 0 <= F x <= C / x).

Lemma tail_upper x y : 0 <= x <= y -> F x - F y <= (y * y - x * x) / 2 * g x.
Proof.
  intros [P [L|<-]]; [|replace (x * x - x * x) with 0 by ring; unfold Rdiv; rewrite !Rmult_0_l; lra].
  destruct (MVT_cor2 (fun t => F t + g x * ((t * t - x * x) / 2)) (fun t => - (t * g t) + g x * t) x y L) as (c & E & C0 & C1).
  { intros c _. apply (derivable_pt_lim_plus F (fun t => g x * ((t * t - x * x) / 2))); [apply F_deriv|].
    apply (derivable_pt_lim_scal (fun t => (t * t - x * x) / 2)), square_derivative. }
  pose proof (g_falls x c (conj P (Rlt_le _ _ C0))).
  assert (0 <= (- (c * g c) + g x * c) * (y - x)).
  { apply Rmult_le_pos; [|lra]. replace (- (c * g c) + g x * c) with (c * (g x - g c)) by ring.
    apply Rmult_le_pos; lra. }
  rewrite <- E in H0. replace (x * x - x * x) with 0 in H0 by ring.
  unfold Rdiv in H0 at 2. rewrite Rmult_0_l, Rmult_0_r in H0. lra.
Qed.

Lemma tail_lower x y : 0 <= x <= y -> (y * y - x * x) / 2 * g y <= F x - F y.
Proof.
  intros [P [L|<-]]; [|replace (x * x - x * x) with 0 by ring; unfold Rdiv; rewrite !Rmult_0_l; lra].
  destruct (MVT_cor2 (fun t => F t + g y * ((t * t - x * x) / 2)) (fun t => - (t * g t) + g y * t) x y L) as (c & E & C0 & C1).
  { intros c _. apply (derivable_pt_lim_plus F (fun t => g y * ((t * t - x * x) / 2))); [apply F_deriv|].
    apply (derivable_pt_lim_scal (fun t => (t * t - x * x) / 2)), square_derivative. }
  pose proof (g_falls c y (conj (Rle_trans _ _ _ P (Rlt_le _ _ C0)) (Rlt_le _ _ C1))).
  assert (0 <= - ((- (c * g c) + g y * c) * (y - x))).
  { replace (- ((- (c * g c) + g y * c) * (y - x))) with (c * (g c - g y) * (y - x)) by ring.
    apply Rmult_le_pos; [|lra]. apply Rmult_le_pos; lra. }
  rewrite <- E in H0. replace (x * x - x * x) with 0 in H0 by ring.
  unfold Rdiv in H0 at 2. rewrite Rmult_0_l, Rmult_0_r in H0. lra.
Qed.

Fixpoint riemann (h s : R) (n : nat) : R :=
  match n with O => 0 | S m => riemann h s m + h / 2 * g (sqrt (s + INR m * h)) end.

Lemma riemann_bound h s n : 0 < h -> 0 <= s ->
  F (sqrt s) - F (sqrt (s + INR n * h)) <= riemann h s n <=
  F (sqrt s) - F (sqrt (s + INR n * h)) + h / 2 * (g (sqrt s) - g (sqrt (s + INR n * h))).
Proof.
  intros P Q. induction n as [|n [L U]].
  - simpl. rewrite Rmult_0_l, Rplus_0_r. lra.
  - cbn [riemann]. rewrite S_INR. pose proof (pos_INR n) as N.
    set (a := s + INR n * h) in *. replace (s + (INR n + 1) * h) with (a + h) by (unfold a; ring).
    assert (0 <= INR n * h) by (apply Rmult_le_pos; lra).
    assert (A : 0 <= a) by (unfold a; lra).
    assert (M : 0 <= sqrt a <= sqrt (a + h)) by (split; [apply sqrt_pos|apply sqrt_le_1; lra]).
    pose proof (tail_upper _ _ M) as TU. pose proof (tail_lower _ _ M) as TL.
    rewrite !sqrt_sqrt in TU, TL by lra.
    replace (a + h - a) with h in TU, TL by ring. lra.
Qed.

Lemma riemann_cv s : 0 <= s -> Un_cv (fun n => riemann (step n) s (S n * (S n * S n))) (F (sqrt s)).
Proof.
  intros P. apply (cv_of_bound _ _ (C + B)). intros n. pose proof (step_pos n) as H.
  destruct (riemann_bound (step n) s (S n * (S n * S n)) H P) as [L U].
  assert (E : INR (S n * (S n * S n)) * step n = INR (S n) * INR (S n)).
  { rewrite !mult_INR. unfold step. field. apply not_0_INR. lia. }
  rewrite E in L, U. set (m := INR (S n)) in *. assert (Pm : 0 < m) by (apply lt_0_INR; lia).
  set (h := step n) in *. assert (Hm : h = / m) by reflexivity.
  set (b := sqrt (s + m * m)) in *.
  assert (Lb : m <= b).
  { unfold b. rewrite <- (sqrt_square m) at 1 by lra. apply sqrt_le_1; nra. }
  destruct (F_small b) as [T0 T1]; [lra|].
  assert (PC : 0 <= C).
  { apply Rmult_le_reg_r with (/ b); [apply Rinv_0_lt_compat; lra|]. unfold Rdiv in T1. lra. }
  assert (T2 : F b <= C * h).
  { eapply Rle_trans; [exact T1|]. unfold Rdiv. apply Rmult_le_compat_l; [lra|]. rewrite Hm. apply Rinv_le_contravar; lra. }
  destruct (g_bound (sqrt s) (sqrt_pos s)) as [G0 G1]. destruct (g_bound b) as [G2 G3]; [lra|].
  assert (h / 2 * (g (sqrt s) - g b) <= h / 2 * B) by (apply Rmult_le_compat_l; lra).
  assert (0 <= h * B) by (apply Rmult_le_pos; lra).
  assert (0 <= C * h) by (apply Rmult_le_pos; lra).
  apply Rabs_le. lra.
Qed.
End Tail.

Lemma tail_small x : 0 < x -> 0 <= tail_fun x <= 4 / x.
Proof.
  intros P. unfold tail_fun. pose proof (exp_pos (- x)).
  split; [apply Rmult_le_pos; lra|].
  replace (- x) with (- (x / 2) + - (x / 2)) by field. rewrite exp_plus.
  rewrite exp_Ropp. pose proof (exp_below (- (x / 2))) as B. rewrite Ropp_involutive in B.
  assert (I : / exp (x / 2) <= / (1 + x / 2)) by (apply Rinv_le_contravar; lra).
  assert (0 < / exp (x / 2)) by (apply Rinv_0_lt_compat, exp_pos).
  apply Rle_trans with ((1 + x) * (/ (1 + x / 2) * / (1 + x / 2))).
  - apply Rmult_le_compat_l; [lra|]. apply Rmult_le_compat; lra.
  - apply Rmult_le_reg_r with (x * ((1 + x / 2) * (1 + x / 2))).
    + apply Rmult_lt_0_compat; [lra|]. apply Rmult_lt_0_compat; lra.
    + replace ((1 + x) * (/ (1 + x / 2) * / (1 + x / 2)) * (x * ((1 + x / 2) * (1 + x / 2)))) with ((1 + x) * x) by (field; lra).
      replace (4 / x * (x * ((1 + x / 2) * (1 + x / 2)))) with (4 * ((1 + x / 2) * (1 + x / 2))) by (field; lra).
      nra.
Qed.

Lemma exp_opp_bound a : 0 <= a -> 0 <= exp (- a) <= 1.
Proof.
  intros P. split; [apply Rlt_le, exp_pos|]. rewrite <- exp_0, <- Ropp_0. apply exp_opp_le, P.
Qed.

(** (1 + x + x^2 / 3) exp(-x), the same with (1 + x) exp(-x) / 3 in place of exp(-x) *)
Definition tail2_fun (x : R) : R := (1 + x + x * x / 3) * exp (- x).

Lemma tail2_derivative t : derivable_pt_lim tail2_fun t (- (t * (tail_fun t / 3))).
Proof.
  unfold tail_fun.
  replace (- (t * ((1 + t) * exp (- t) / 3))) with ((0 + 1 + / 3 * (1 * t + t * 1)) * exp (- t) + (1 + t + / 3 * (t * t)) * - exp (- t)) by field.
  assert (D : derivable_pt_lim (fun y => (1 + y + / 3 * (y * y)) * exp (- y)) t
    ((0 + 1 + / 3 * (1 * t + t * 1)) * exp (- t) + (1 + t + / 3 * (t * t)) * - exp (- t))).
  { apply (derivable_pt_lim_mult (fun y => 1 + y + / 3 * (y * y)) (fun y => exp (- y)) t); [|apply exp_opp_derivative].
    apply (derivable_pt_lim_plus (fun y => 1 + y) (fun y => / 3 * (y * y)) t).
    - apply (derivable_pt_lim_plus (fct_cte 1) id t 0 1); [apply derivable_pt_lim_const|apply derivable_pt_lim_id].
    - apply (derivable_pt_lim_scal (fun y => y * y) (/ 3) t). apply (derivable_pt_lim_mult id id t 1 1); apply derivable_pt_lim_id. }
  intros eps P. destruct (D eps P) as [d H]. exists d. intros h N L. specialize (H h N L).
  unfold tail2_fun. replace ((t + h) * (t + h) / 3) with (/ 3 * ((t + h) * (t + h))) by field.
  replace (t * t / 3) with (/ 3 * (t * t)) by field. exact H.
Qed.

Lemma tail_falls a b : 0 <= a <= b -> tail_fun b <= tail_fun a.
Proof.
  intros P. pose proof (tail_lower tail_fun (fun x => exp (- x)) tail_derivative (fun a b Q => exp_opp_le a b (proj2 Q)) a b P) as L.
  assert (0 <= (b * b - a * a) / 2 * exp (- b)); [|lra].
  apply Rmult_le_pos; [|apply Rlt_le, exp_pos]. nra.
Qed.

Lemma tail_bound a : 0 <= a -> 0 <= tail_fun a / 3 <= 1.
Proof.
  intros P. pose proof (tail_falls 0 a (conj (Rle_refl 0) P)) as L. unfold tail_fun in L at 2.
  rewrite Ropp_0, exp_0, Rplus_0_r, Rmult_1_r in L.
  assert (0 <= tail_fun a); [|lra]. unfold tail_fun. apply Rmult_le_pos; [lra|apply Rlt_le, exp_pos].
Qed.

Lemma tail2_small x : 0 < x -> 0 <= tail2_fun x <= 9 / x.
Proof.
  intros P. unfold tail2_fun. pose proof (exp_pos (- x)).
  assert (0 < x * x) by (apply Rmult_lt_0_compat; lra).
  split; [apply Rmult_le_pos; lra|].
  replace (- x) with (- (x / 3) + (- (x / 3) + - (x / 3))) by field. rewrite !exp_plus.
  rewrite exp_Ropp. pose proof (exp_below (- (x / 3))) as B. rewrite Ropp_involutive in B.
  assert (I : / exp (x / 3) <= / (1 + x / 3)) by (apply Rinv_le_contravar; lra).
  assert (0 < / exp (x / 3)) by (apply Rinv_0_lt_compat, exp_pos).
  set (i := / exp (x / 3)) in *. set (j := / (1 + x / 3)) in *.
  assert (J : j * (1 + x / 3) = 1) by (unfold j; field; lra).
  assert (I3 : i * (i * i) <= j * (j * j)).
  { apply Rmult_le_compat; try lra; [apply Rlt_le, Rmult_lt_0_compat; lra|]. apply Rmult_le_compat; lra. }
  apply Rle_trans with ((1 + x + x * x / 3) * (j * (j * j))); [apply Rmult_le_compat_l; lra|].
  apply Rmult_le_reg_r with (x * ((1 + x / 3) * ((1 + x / 3) * (1 + x / 3)))).
  - repeat apply Rmult_lt_0_compat; lra.
  - replace ((1 + x + x * x / 3) * (j * (j * j)) * (x * ((1 + x / 3) * ((1 + x / 3) * (1 + x / 3)))))
      with ((1 + x + x * x / 3) * x * ((j * (1 + x / 3)) * (j * (1 + x / 3)) * (j * (1 + x / 3)))) by ring.
    rewrite J.
    replace (9 / x * (x * ((1 + x / 3) * ((1 + x / 3) * (1 + x / 3))))) with (9 * ((1 + x / 3) * ((1 + x / 3) * (1 + x / 3)))) by (field; lra).
    assert (0 < x * x * x) by (apply Rmult_lt_0_compat; lra). lra.
Qed.

(** ** radial kernels *)

Section Radial.
Context {X : Type} (q : X -> X -> R).
Context (q_nonneg : forall x y, 0 <= q x y).
Context (gauss : forall t, 0 <= t -> gramlike (fun x y => exp (- (t * q x y)))).

Lemma radial_gauss_shift t a c : 0 <= t -> 0 <= a -> gramlike (fun x y => exp (- (t * (a * q x y + c)))).
Proof.
  intros P A. apply (gramlike_ext (fun x y => exp (- (t * c)) * exp (- (t * a * q x y)))).
  { intros x y. rewrite <- exp_plus. f_equal. ring. }
  apply gramlike_scale; [apply Rlt_le, exp_pos|]. apply gauss, Rmult_le_pos; assumption.
Qed.

Lemma gramlike_root_iter n z : @gramlike X z -> gramlike (fun x y => root_iter n (z x y)).
Proof.
  intros G. induction n; cbn [root_iter]; [apply gramlike_const; lra|].
  apply (gramlike_ext (fun x y => / 2 * (z x y + root_iter n (z x y) * root_iter n (z x y)))); [intros; field|].
  apply gramlike_scale; [lra|]. apply gramlike_plus; [exact G|]. now apply gramlike_mult.
Qed.

(** exp (- sqrt (a q + c)) *)
Lemma radial_exp_sqrt a c : 0 <= a -> 0 <= c -> gramlike (fun x y => exp (- sqrt (a * q x y + c))).
Proof.
  intros A C.
  assert (Ps : forall x y, 0 <= a * q x y + c).
  { intros x y. pose proof (Rmult_le_pos _ _ A (q_nonneg x y)). lra. }
  apply (gramlike_seq (fun n x y => exp (- sqrt (quot (a * q x y + c) n)))).
  - intros n. pose proof (step_pos n) as H. set (b := / sqrt (step n)).
    assert (Pb : 0 < b) by (apply Rinv_0_lt_compat, sqrt_lt_R0, H).
    set (z := fun x y => exp (- (step n * (a * q x y + c)))).
    assert (Pz : forall x y, 0 <= z x y <= 1).
    { intros x y. split; [apply Rlt_le, exp_pos|]. unfold z. rewrite <- exp_0, <- Ropp_0. apply exp_opp_le.
      apply Rmult_le_pos; [lra|apply Ps]. }
    apply (gramlike_ext (fun x y => exp (- b) * exp (b * (1 - sqrt (1 - z x y))))).
    { intros x y. rewrite <- exp_plus. f_equal. unfold quot. fold (z x y).
      rewrite sqrt_div_alt by exact H. unfold b. unfold Rdiv. ring. }
    apply gramlike_scale; [apply Rlt_le, exp_pos|]. apply gramlike_exp. apply gramlike_scale; [lra|].
    apply (gramlike_seq (fun m x y => root_iter m (z x y))).
    + intros m. apply gramlike_root_iter, radial_gauss_shift; lra.
    + intros x y. apply root_iter_cv, Pz.
  - intros x y.
    apply (continuity_seq (fun s => exp (- sqrt s)) (quot (a * q x y + c)) (a * q x y + c)); [|apply quot_cv, Ps].
    apply (continuity_pt_comp (fun s => - sqrt s) exp).
    + apply (continuity_pt_opp sqrt). apply continuity_pt_sqrt, Ps.
    + apply derivable_continuous_pt, derivable_pt_exp.
Qed.

Lemma gramlike_riemann (g : R -> R) a c h n : 0 <= a -> 0 <= c -> 0 < h ->
  (forall c, 0 <= c -> gramlike (fun x y => g (sqrt (a * q x y + c)))) ->
  gramlike (fun x y => riemann g h (a * q x y + c) n).
Proof.
  intros A C H G. induction n; cbn [riemann]; [apply gramlike_const; lra|].
  apply gramlike_plus; [exact IHn|]. apply gramlike_scale; [lra|].
  apply (gramlike_ext (fun x y => g (sqrt (a * q x y + (c + INR n * h))))).
  { intros x y. now rewrite Rplus_assoc. }
  apply G. assert (0 <= INR n * h) by (apply Rmult_le_pos; [apply pos_INR|lra]). lra.
Qed.

Lemma affine_nonneg a c x y : 0 <= a -> 0 <= c -> 0 <= a * q x y + c.
Proof. intros A C. pose proof (Rmult_le_pos _ _ A (q_nonneg x y)). lra. Qed.

(** (1 + r) exp (- r) for r = sqrt (a q + c) *)
Lemma radial_tail a c : 0 <= a -> 0 <= c -> gramlike (fun x y => tail_fun (sqrt (a * q x y + c))).
Proof.
  intros A C.
  apply (gramlike_seq (fun n x y => riemann (fun x => exp (- x)) (step n) (a * q x y + c) (S n * (S n * S n)))).
  - intros n. apply (gramlike_riemann (fun x => exp (- x))); [exact A|exact C|apply step_pos|].
    intros c' C'. now apply radial_exp_sqrt.
  - intros x y. apply (riemann_cv tail_fun (fun x => exp (- x)) 4 1).
    + apply tail_derivative.
    + intros u v Q. apply exp_opp_le, Q.
    + apply exp_opp_bound.
    + apply tail_small.
    + now apply affine_nonneg.
Qed.

(** (1 + r + r^2 / 3) exp (- r) for r = sqrt (a q + c) *)
Lemma radial_tail2 a c : 0 <= a -> 0 <= c -> gramlike (fun x y => tail2_fun (sqrt (a * q x y + c))).
Proof.
  intros A C.
  apply (gramlike_seq (fun n x y => riemann (fun x => tail_fun x / 3) (step n) (a * q x y + c) (S n * (S n * S n)))).
  - intros n. apply (gramlike_riemann (fun x => tail_fun x / 3)); [exact A|exact C|apply step_pos|].
    intros c' C'. apply (gramlike_ext (fun x y => / 3 * tail_fun (sqrt (a * q x y + c')))); [intros; field|].
    apply gramlike_scale; [lra|]. now apply radial_tail.
  - intros x y. apply (riemann_cv tail2_fun (fun x => tail_fun x / 3) 9 1).
    + apply tail2_derivative.
    + intros u v Q. pose proof (tail_falls u v Q). lra.
    + apply tail_bound.
    + apply tail2_small.
    + now apply affine_nonneg.
Qed.

(** (a q + c) ^ (- p) *)
Lemma radial_power a c p : 0 <= a -> 0 < c -> 0 <= p -> gramlike (fun x y => Rpower (a * q x y + c) (- p)).
Proof.
  intros A C P.
  assert (Ps : forall x y, 0 < a * q x y + c).
  { intros x y. pose proof (Rmult_le_pos _ _ A (q_nonneg x y)). lra. }
  apply (gramlike_seq (fun n x y => Rpower (quot (a * q x y + c) n) (- p))).
  - intros n. pose proof (step_pos n) as H.
    set (z := fun x y => exp (- (step n * (a * q x y + c)))).
    assert (Pz : forall x y, 0 < z x y < 1).
    { intros x y. split; [apply exp_pos|]. unfold z. rewrite <- exp_0. apply exp_increasing.
      pose proof (Rmult_lt_0_compat _ _ H (Ps x y)). lra. }
    apply (gramlike_ext (fun x y => exp (p * ln (step n)) * exp (p * - ln (1 - z x y)))).
    { intros x y. rewrite <- exp_plus. unfold Rpower. f_equal. unfold quot. fold (z x y).
      specialize (Pz x y).
      unfold Rdiv. rewrite ln_mult, ln_Rinv; [ring|exact H|lra|now apply Rinv_0_lt_compat]. }
    apply gramlike_scale; [apply Rlt_le, exp_pos|]. apply gramlike_exp. apply gramlike_scale; [exact P|].
    apply (gramlike_seq (fun m x y => log_sum m (z x y))).
    + intros m. apply (gramlike_sum (fun i x y => z x y ^ S i / INR (S i))). intros i.
      apply (gramlike_ext (fun x y => / INR (S i) * z x y ^ S i)); [intros; unfold Rdiv; ring|].
      apply gramlike_scale; [apply Rlt_le, Rinv_0_lt_compat, lt_0_INR; lia|].
      apply gramlike_pow, radial_gauss_shift; lra.
    + intros x y. apply log_sum_cv, Pz.
  - intros x y. unfold Rpower.
    apply (continuity_seq (fun s => exp (- p * ln s)) (quot (a * q x y + c)) (a * q x y + c)); [|apply quot_cv, Rlt_le, Ps].
    apply (continuity_pt_comp (fun s => - p * ln s) exp).
    + apply (continuity_pt_scal ln (- p)). apply derivable_continuous_pt.
      exists (/ (a * q x y + c)). apply derivable_pt_lim_ln, Ps.
    + apply derivable_continuous_pt, derivable_pt_exp.
Qed.
End Radial.
