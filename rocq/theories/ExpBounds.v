(** Rational bounds on pi and on exp of a negative number, by partial sums. *)
From Coq Require Import List Arith ZArith Lia Reals Lra QArith Qreals Ratan Factorial.
Import ListNotations.
Local Open Scope R_scope.

(** ** pi, by Machin's formula (Ratan.v) *)

Lemma pi_bounds : 3.14159265 < PI < 3.14159266.
Proof.
  pose proof (PI_2_3_7_ineq 4) as [L _]. pose proof (PI_2_3_7_ineq 5) as [_ U].
  unfold tg_alt, PI_2_3_7_tg, Ratan_seq in L, U. cbn [sum_f_R0 Nat.mul Nat.add pow] in L, U.
  cbn [INR] in L, U. split; lra.
Qed.

(** ** exp(-x) for x >= 0: the partial sums of the alternating series *)

Fixpoint taylor (n : nat) (x : R) : R :=
  match n with
  | O => 1
  | S m => taylor m x + (- x) ^ S m / INR (fact (S m))
  end.

Lemma taylor_0 n : taylor n 0 = 1.
Proof.
  induction n; [reflexivity|]. cbn [taylor]. rewrite IHn, Ropp_0, pow_i by lia. unfold Rdiv. ring.
Qed.

Lemma term_derivative n x :
  derivable_pt_lim (fun y => (- y) ^ S n / INR (fact (S n))) x (- ((- x) ^ n / INR (fact n))).
Proof.
  assert (D : derivable_pt_lim (fun y => (- y) ^ S n) x (INR (S n) * (- x) ^ n * -1)).
  { apply (derivable_pt_lim_comp Ropp (fun z => z ^ S n) x (-1) (INR (S n) * (- x) ^ n)).
    - replace (-1) with (- (1)) by ring. apply (derivable_pt_lim_opp id x 1), derivable_pt_lim_id.
    - apply (derivable_pt_lim_pow (- x) (S n)). }
  apply (derivable_pt_lim_scal _ (/ INR (fact (S n)))) in D.
  unfold mult_real_fct in D.
  replace (- ((- x) ^ n / INR (fact n))) with (/ INR (fact (S n)) * (INR (S n) * (- x) ^ n * -1)).
  - intros eps P. destruct (D eps P) as [d Hd]. exists d. intros h N L. specialize (Hd h N L).
    unfold Rdiv at 2 3. rewrite (Rmult_comm ((- (x + h)) ^ S n)), (Rmult_comm ((- x) ^ S n)). exact Hd.
  - rewrite fact_simpl, mult_INR. field. split; [apply INR_fact_neq_0|apply not_0_INR; lia].
Qed.

Lemma taylor_derivative n x : derivable_pt_lim (taylor (S n)) x (- taylor n x).
Proof.
  induction n.
  - pose proof (term_derivative 0 x) as D. cbn [taylor].
    assert (Q := derivable_pt_lim_plus _ _ _ _ _ (derivable_pt_lim_const 1 x) D).
    unfold plus_fct, fct_cte in Q. replace (- (1)) with (0 + - ((- x) ^ 0 / INR (fact 0))); [exact Q|].
    simpl. field.
  - pose proof (term_derivative (S n) x) as D.
    assert (Q := derivable_pt_lim_plus _ _ _ _ _ IHn D). unfold plus_fct in Q.
    change (derivable_pt_lim (fun y => taylor (S n) y + (- y) ^ S (S n) / INR (fact (S (S n)))) x (- taylor (S n) x)).
    replace (- taylor (S n) x) with (- taylor n x + - ((- x) ^ S n / INR (fact (S n)))); [exact Q|].
    cbn [taylor]. ring.
Qed.

Lemma exp_neg_derivative x : derivable_pt_lim (fun y => exp (- y)) x (- exp (- x)).
Proof.
  replace (- exp (- x)) with (exp (- x) * -1) by ring.
  apply (derivable_pt_lim_comp Ropp exp x (-1) (exp (- x))).
  - replace (-1) with (- (1)) by ring. apply (derivable_pt_lim_opp id x 1), derivable_pt_lim_id.
  - apply derivable_pt_lim_exp.
Qed.

(** [taylor n] is above [exp (- x)] for even [n], below for odd [n]. *)
Lemma taylor_sides : forall n x, 0 <= x ->
  exp (- x) <= taylor (2 * n) x /\ taylor (S (2 * n)) x <= exp (- x).
Proof.
  assert (Step : forall (f f' : R -> R), (forall c, derivable_pt_lim f c (f' c)) -> f 0 = 0 ->
    (forall c, 0 <= c -> 0 <= f' c) -> forall x, 0 <= x -> 0 <= f x).
  { intros f f' D Z N x [P|<-]; [|lra].
    destruct (MVT_cor2 f f' 0 x P (fun c _ => D c)) as (c & E & L). rewrite Z in E.
    assert (0 <= f' c * (x - 0)) by (apply Rmult_le_pos; [apply N|]; lra). lra. }
  assert (Zero : forall n, taylor n 0 - exp (- 0) = 0). { intros n. rewrite taylor_0, Ropp_0, exp_0. ring. }
  assert (Odd : forall n, (forall x, 0 <= x -> exp (- x) <= taylor n x) ->
     forall x, 0 <= x -> taylor (S n) x <= exp (- x)).
  { intros n U x P.
    assert (Q : 0 <= exp (- x) - taylor (S n) x); [|lra].
    apply (Step (fun x => exp (- x) - taylor (S n) x) (fun x => - exp (- x) - - taylor n x)); auto.
    - intros c. apply (derivable_pt_lim_minus (fun y => exp (- y)) (taylor (S n))); [apply exp_neg_derivative|apply taylor_derivative].
    - specialize (Zero (S n)). lra.
    - intros c Pc. specialize (U c Pc). lra. }
  assert (Even : forall n, (forall x, 0 <= x -> taylor n x <= exp (- x)) ->
     forall x, 0 <= x -> exp (- x) <= taylor (S n) x).
  { intros n U x P.
    assert (Q : 0 <= taylor (S n) x - exp (- x)); [|lra].
    apply (Step (fun x => taylor (S n) x - exp (- x)) (fun x => - taylor n x - - exp (- x))); auto.
    - intros c. apply (derivable_pt_lim_minus (taylor (S n)) (fun y => exp (- y))); [apply taylor_derivative|apply exp_neg_derivative].
    - intros c Pc. specialize (U c Pc). lra. }
  assert (Base : forall x, 0 <= x -> exp (- x) <= taylor 0 x).
  { intros x P. cbn [taylor]. rewrite <- exp_0. destruct P as [P|<-]; [left; apply exp_increasing; lra|rewrite Ropp_0; lra]. }
  assert (All : forall n, (forall x, 0 <= x -> exp (- x) <= taylor (2 * n) x)).
  { induction n as [|n IH]; [exact Base|]. intros x P.
    replace (2 * S n)%nat with (S (S (2 * n))) by lia. apply Even; auto. }
  intros n x P. split; [apply All, P|]. apply Odd; auto.
Qed.

(** The partial sums over the rationals, with the running term. *)
Fixpoint qtaylor (fuel : nat) (k : positive) (x term acc : Q) : Q :=
  match fuel with
  | O => acc
  | S f => let term' := Qred (- x * term * (1 # k)) in qtaylor f (Pos.succ k) x term' (Qred (acc + term'))
  end.

Lemma Q2R_red q : Q2R (Qred q) = Q2R q.
Proof. apply Qeq_eqR, Qred_correct. Qed.

Lemma qtaylor_is : forall fuel n x term acc,
  Q2R term = (- Q2R x) ^ n / INR (fact n) -> Q2R acc = taylor n (Q2R x) ->
  Q2R (qtaylor fuel (Pos.of_succ_nat n) x term acc) = taylor (fuel + n) (Q2R x).
Proof.
  induction fuel as [|f IH]; intros n x term acc T A; [exact A|].
  cbn [qtaylor]. replace (S f + n)%nat with (f + S n)%nat by lia.
  assert (T' : Q2R (Qred (- x * term * (1 # Pos.of_succ_nat n))) = (- Q2R x) ^ S n / INR (fact (S n))).
  { rewrite Q2R_red, !Q2R_mult, Q2R_opp, T.
    replace (Q2R (1 # Pos.of_succ_nat n)) with (/ INR (S n)).
    2: { unfold Q2R. cbn [Qnum Qden]. rewrite INR_IZR_INZ, Rmult_1_l. reflexivity. }
    rewrite fact_simpl, mult_INR, <- tech_pow_Rmult.
    field. split; [apply INR_fact_neq_0|apply not_0_INR; lia]. }
  change (Pos.succ (Pos.of_succ_nat n)) with (Pos.of_succ_nat (S n)).
  apply IH; [exact T'|]. rewrite Q2R_red, Q2R_plus, T', A. reflexivity.
Qed.

Definition qexp (n : nat) (x : Q) : Q := qtaylor n 1 x 1 1.

Lemma qexp_is n x : Q2R (qexp n x) = taylor n (Q2R x).
Proof.
  replace n with (n + 0)%nat at 2 by lia. apply (qtaylor_is n 0 x 1 1).
  - simpl. unfold Q2R. simpl. field.
  - unfold Q2R. simpl. field.
Qed.

Theorem qexp_bounds n x : (0 <= x)%Q -> Q2R (qexp (S (2 * n)) x) <= exp (- Q2R x) <= Q2R (qexp (2 * n) x).
Proof.
  intros P. assert (P' : 0 <= Q2R x). {  apply Qle_Rle in P. unfold Q2R at 1 in P. simpl in P. lra. }
  rewrite !qexp_is. destruct (taylor_sides n (Q2R x) P'). auto.
Qed.
