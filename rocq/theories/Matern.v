(** The derivative argument behind the Matern52 overshoot. *)
From Coq Require Import Reals Lra.
From Coquelicot Require Import Coquelicot.
Local Open Scope R_scope.

Lemma matern52_rises y : 0 < y -> y < 1 / 5 -> 1 < (1 + y + 5 / 9 * (y * y)) * exp (- y).
Proof.
  intros P L. set (h := fun u => (1 + u + 5 / 9 * (u * u)) * exp (- u)).
  set (h' := fun u => exp (- u) * u * (1 / 9 - 5 / 9 * u)).
  assert (D : forall c, 0 <= c <= y -> derivable_pt_lim h c (h' c)).
  { intros c _. apply is_derive_Reals. unfold h, h'. auto_derive; auto. field. }
  destruct (MVT_cor2 h h' 0 y P D) as (c & E & B).
  assert (H0 : h 0 = 1) by (unfold h; rewrite Ropp_0, exp_0; ring).
  assert (Hc : 0 < h' c).
  { unfold h'. apply Rmult_lt_0_compat; [apply Rmult_lt_0_compat; [apply exp_pos|lra]|lra]. }
  fold (h y). rewrite H0 in E. nra.
Qed.
