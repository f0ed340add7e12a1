(** Fourier features over an axis of no width, in f64. Facts for C60. *)
From Coq Require Import List Arith ZArith Lia Reals Lra Bool.
From Flocq Require Import Core.Core IEEE754.BinarySingleNaN.
From Verif Require Import Base Scalar ScalarF64 F64Facts HMap NdArray VecFacts Features Spec Coeffs CoeffFacts
  Kernels TileCoding Basis.
Import ListNotations.
Local Open Scope nat_scope.

Lemma b_mul_bad (a b : f64) : b_finite b = false -> b_finite (b_mul a b) = false.
Proof. intros E. destruct (b_finite (b_mul a b)) eqn:Q; auto. apply b_mul_finite_inv in Q. destruct Q as (_ & Q & _). congruence. Qed.
Lemma b_add_bad_l (a b : f64) : b_finite a = false -> b_finite (b_add a b) = false.
Proof. intros E. destruct (b_finite (b_add a b)) eqn:Q; auto. apply b_add_finite_inv in Q. destruct Q as (Q & _). congruence. Qed.
Lemma b_add_bad_r (a b : f64) : b_finite b = false -> b_finite (b_add a b) = false.
Proof. intros E. destruct (b_finite (b_add a b)) eqn:Q; auto. apply b_add_finite_inv in Q. destruct Q as (_ & Q & _). congruence. Qed.

(** [lo - lo] is 0.0, or NaN when [lo] is not finite. *)
Lemma b_sub_self (lo : f64) : (exists s, b_sub lo lo = B754_zero s) \/ b_sub lo lo = b_nan.
Proof.
  destruct (b_finite lo) eqn:Fl.
  - left. assert (Q := Bminus_correct 53 1024 f64_prec f64_emax mode_NE lo lo Fl Fl).
    rewrite Rminus_diag_eq in Q by reflexivity. rewrite round_0 in Q by typeclasses eauto.
    rewrite Rabs_R0 in Q. rewrite Rlt_bool_true in Q by apply bpow_gt_0.
    destruct Q as (V & Fi & _). unfold b_sub. destruct (Bminus mode_NE lo lo) as [s| | |s m e B] eqn:E; try discriminate; eauto.
    exfalso. simpl in V. apply Float_prop.eq_0_F2R in V. destruct s; discriminate V.
  - right. destruct lo as [s|[]| |s m e B]; try discriminate Fl; reflexivity.
Qed.

Lemma b_div_degenerate (v lo : f64) : b_finite (b_div (b_sub v lo) (b_sub lo lo)) = false.
Proof.
  destruct (b_sub_self lo) as [[s ->]| ->].
  - destruct (b_sub v lo) as [|[]| |]; destruct s; reflexivity.
  - destruct (b_sub v lo) as [|[]| |]; reflexivity.
Qed.

Section Degenerate.
  Context (P : Platform).
  Local Notation S := (ScalarF64 P).

  Lemma fold_bad_acc (l : list (f64 * f64)) : forall acc, b_finite acc = false ->
    b_finite (fold_left (fun acc vc => b_add acc (b_mul (snd vc) (fst vc))) l acc) = false.
  Proof. induction l; simpl; auto. intros acc E. apply IHl, b_add_bad_l, E. Qed.

  Lemma fold_bad (l : list (f64 * f64)) : forall acc p, In p l -> b_finite (fst p) = false ->
    b_finite (fold_left (fun acc vc => b_add acc (b_mul (snd vc) (fst vc))) l acc) = false.
  Proof.
    induction l as [|q l IH]; intros acc p []; simpl; intros E.
    - subst q. apply fold_bad_acc, b_add_bad_r, b_mul_bad, E.
    - eapply IH; eauto.
  Qed.

  Lemma combine_In {A B} : forall (xs : list A) (ys : list B) j x, nth_error xs j = Some x -> j < length ys ->
    exists y, In (x, y) (combine xs ys).
  Proof.
    induction xs as [|a xs IH]; intros [|b ys] [|j] x E L; simpl in *; try discriminate; try lia.
    - injection E as ->. eauto.
    - destruct (IH ys j x E) as [y I]; [lia|]. eauto.
  Qed.

  Theorem fourier_degenerate order (limits : list (f64 * f64)) x j lo :
    (forall z, b_finite z = false -> p_cos P z = b_nan) ->
    nth_error limits j = Some (lo, lo) -> j < length x ->
    @project f64 S (@fourier_new f64 S order limits) x =
      Ret (Ok (Dense (repeat b_nan ((order + 1) ^ length limits - 1)))).
  Proof.
    intros Cos Lim Lx. cbn [project fourier_new]. do 3 f_equal.
    destruct (compute_coefficients_spec order (length limits)) as (Mem & _ & _ & Len).
    rewrite <- Len. rewrite map_map.
    assert (Q : forall l, (forall cs, In cs l -> length cs = length limits) ->
      map (fun v => @fourier_feature f64 S (@rescale f64 S x limits) (map (@fofnat f64 S) v)) l = repeat b_nan (length l)).
    { induction l as [|cs l IH]; intros A; cbn [map repeat length]; [reflexivity|]. rewrite IH by (intros; apply A; simpl; auto).
      f_equal. unfold fourier_feature. cbn [fcos fpi fmul fadd ScalarF64]. apply Cos, b_mul_bad.
      assert (R : nth_error (@rescale f64 S x limits) j = match nth_error x j with Some v => Some (b_div (b_sub v lo) (b_sub lo lo)) | None => None end).
      { unfold rescale. rewrite nth_error_map2, Lim. destruct (nth_error x j); reflexivity. }
      destruct (nth_error_lt x j Lx) as [v Ev]. rewrite Ev in R.
      destruct (combine_In _ (map (@fofnat f64 S) cs) j _ R) as [y I].
      { rewrite map_length, A by (simpl; auto). apply nth_error_Some. congruence. }
      eapply fold_bad; [exact I|]. simpl. apply b_div_degenerate. }
    apply Q. intros cs I. apply Mem in I. apply I.
  Qed.
End Degenerate.
