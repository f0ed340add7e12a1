(** Runs of SGD in binary64 against the exact rule (C77). *)
From Coq Require Import List Arith ZArith Lia Reals Lra Bool Psatz.
From Flocq Require Import Core.Core IEEE754.BinarySingleNaN.
From Verif Require Import Base Scalar ScalarR ScalarF64 F64Facts HMap HMapFacts NdArray VecFacts Features Spec FeatureFacts FeatureMore
  SumOrder FeatureF64 Optim OptimSpec OptimReal Lfa LfaSpec Basis Passes EndToEnd TableF64 SgdF64.
Import ListNotations.
Local Open Scope R_scope.

(** The activation of feature [i] as a real number: 0 when it is not stored. *)
Definition coeff64 (phi : Features f64) (i : nat) : R :=
  match phi with
  | Dense da => b_real (nth i da b_zero)
  | Sparse sa =>
      match find (fun kv => Nat.eqb (fst kv) i) (sa_acts sa) with
      | Some kv => b_real (snd kv)
      | None => 0
      end
  end.

Lemma coeff64_expands P (phi : Features f64) l i : let S := ScalarF64 P in wf phi -> expands phi l -> (i < size phi)%nat ->
  val l i = coeff64 phi i.
Proof.
  intros S W X Li. unfold val. assert (Ll : length l = size phi) by apply X.
  destruct (nth_error l i) as [v|] eqn:Ev; [|apply nth_error_None in Ev; lia].
  rewrite (nth_error_nth _ _ _ Ev). destruct (proj2 X i v Ev) as [St|[Ns ->]].
  - destruct phi as [da|[d m]]; cbn [coeff64 stores sa_acts] in *.
    + now rewrite (nth_error_nth _ _ _ St).
    + destruct W as [K _].
      destruct (find (fun kv => Nat.eqb (fst kv) i) m) as [[k v']|] eqn:Ef.
      * apply find_some in Ef. destruct Ef as [I E]. cbn [fst] in E. apply Nat.eqb_eq in E. subst k. cbn [snd].
        assert (A : stores (Sparse (MkSparse d m)) i v') by exact I. assert (B : stores (Sparse (MkSparse d m)) i v) by exact St.
        apply get_stores in A; auto. apply get_stores in B; auto. congruence.
      * exfalso. apply find_none with (x := (i, v)) in Ef; auto. cbn [fst] in Ef. rewrite Nat.eqb_refl in Ef. discriminate.
  - change (@fzero f64 S) with (@fzero f64 (ScalarF64 P)). rewrite fzero_f64. change (b_real b_zero) with 0.
    destruct phi as [da|[d m]]; cbn [coeff64 sa_acts].
    + exfalso. apply Ns. cbn [size] in Li. destruct (nth_error da i) as [v|] eqn:E; [exists v; exact E|].
      apply nth_error_None in E. lia.
    + destruct (find (fun kv => Nat.eqb (fst kv) i) m) as [[k v']|] eqn:Ef; auto.
      exfalso. apply Ns. apply find_some in Ef. destruct Ef as [I E]. cbn [fst] in E. apply Nat.eqb_eq in E. subst k. exists v'. exact I.
Qed.

Definition finite_all (w : list f64) : Prop := Forall (fun x => b_finite x = true) w.

Section Run64.
  Context (P : Platform) (AO : any_order P) {I : Type} (b : Basis f64 I) (n : nat) (lr : f64) (ws : nat -> R) (r tau : R).
  #[local] Instance SP64 : Scalar f64 := ScalarF64 P.

  (** The features of a sample, as real numbers. *)
  Definition acts (p : I * f64) (i : nat) : R :=
    match b_project b (fst p) with
    | Ret (Ok phi) => coeff64 phi i
    | _ => 0
    end.

  (** What the weights [ws] leave of its target. *)
  Definition misfit (p : I * f64) : R := b_real (snd p) - sigma n (fun i => acts p i * ws i).

  (** A sample the basis can represent, whose energy is at most [r / lr] and
      whose rest is at most [tau]. *)
  Definition mild (p : I * f64) : Prop :=
    (exists phi, b_project b (fst p) = Ret (Ok phi) /\ wf phi /\ size phi = n) /\
    b_real lr * (nn n (acts p) * nn n (acts p)) <= r /\ rest n (b_real lr) (nn n (acts p)) (misfit p) <= tau.

  Context (L0 : 0 <= b_real lr) (R2 : r <= 2).

  Lemma fit_defined w p : mild p -> length w = n -> exists w', length w' = n /\
    s_do SGD (MkLFA b w lr) (fit64 P p) = Ret (MkLFA b w' lr) /\
    (finite_all w' -> finite_all w /\
     nn n (fun i => val w' i - (val w i + b_real lr * sigma n (fun i => acts p i * (ws i - val w i)) * acts p i)) <=
     3 * quot n * (nn n (fun i => ws i - val w i) + nn n ws) + tau).
  Proof.
    intros ((phi & Pr & W & Sz) & En & Re) Lw. destruct (expands_exists phi (proj1 W)) as [l X].
    assert (Fi : FeatureFacts.fits phi w) by (apply wf_fits; auto; congruence).
    assert (Dd : exists v, dot phi w = Ret v) by (apply (dot_sized phi w n); [split; auto|exact Lw]). destruct Dd as [v Dv].
    destruct (scaled_addto_spec phi (fmul lr (fsub (snd p) v)) w (proj1 W) Fi) as (w' & Aw & Len & _).
    exists w'. split; [rewrite <- Lw; exact Len|]. split.
    - unfold s_do, fit64, omap, s_update_with. cbn [fst snd lfa_basis lfa_weights lfa_optimiser]. rewrite Pr. cbn [obind].
      rewrite Dv. cbn [obind]. cbn [o_step_scaled SGD]. unfold sgd_step_scaled.
      change (@SP P) with SP64. rewrite Aw. reflexivity.
    - intros Fw. assert (Ac : forall i, (i < n)%nat -> val l i = acts p i).
      { intros i Li. unfold acts. rewrite Pr. apply (coeff64_expands P); auto. now rewrite Sz. }
      assert (Nf : nn n (val l) = nn n (acts p)) by (apply nn_ext; auto).
      assert (En2 : b_real lr * (nn (size phi) (val l) * nn (size phi) (val l)) <= 2) by (rewrite Sz, Nf; lra).
      assert (Lw2 : length w = size phi) by (rewrite Sz; exact Lw).
      destruct (sgd_towards P phi l w lr (snd p) v w' ws AO W X Lw2 L0 Dv Aw Fw En2) as (_ & F & B).
      split; [exact F|]. cbv zeta in B. rewrite Sz, Nf in B.
      assert (Mi : b_real (snd p) - sigma n (fun i => val l i * ws i) = misfit p).
      { unfold misfit. f_equal. apply sigma_ext. intros i Li. now rewrite Ac. }
      rewrite Mi in B.
      assert (Gi : sigma n (fun i => val l i * (ws i - val w i)) = sigma n (fun i => acts p i * (ws i - val w i))).
      { apply sigma_ext. intros i Li. now rewrite Ac. }
      rewrite Gi in B. rewrite (nn_ext n _ (fun i => val w' i - (val w i + b_real lr * sigma n (fun i => acts p i * (ws i - val w i)) * val l i))).
      + eapply Rle_trans; [exact B|]. lra.
      + intros i Li. now rewrite Ac.
  Qed.

  Context (h : list (I * f64)) (w : list f64) (Mild : Forall mild h) (Lw : length w = n).

  Definition run64 (t : nat) : list f64 :=
    match s_run SGD (map (fit64 P) (firstn t h)) (MkLFA b w lr) with
    | Ret a => lfa_weights a
    | Panic => []
    end.

  Definition feats (t i : nat) : R :=
    match nth_error h t with Some p => acts p i | None => 0 end.

  Lemma firstn_next t p : nth_error h t = Some p -> firstn (S t) h = firstn t h ++ [p].
  Proof.
    clear. revert t. induction h as [|x l IH]; intros [|t] E; simpl in *; try discriminate; [now injection E as ->|].
    f_equal. now apply IH.
  Qed.

  Lemma run64_spec t : (t <= length h)%nat ->
    s_run SGD (map (fit64 P) (firstn t h)) (MkLFA b w lr) = Ret (MkLFA b (run64 t) lr) /\ length (run64 t) = n.
  Proof.
    induction t as [|t IH]; intros Lt.
    - unfold run64. cbn [firstn map s_run ofold]. split; [reflexivity|exact Lw].
    - destruct (IH ltac:(lia)) as [E L]. destruct (nth_error h t) as [p|] eqn:Ep; [|apply nth_error_None in Ep; lia].
      assert (Mp : mild p) by (rewrite Forall_forall in Mild; apply Mild; eapply nth_error_In; eauto).
      destruct (fit_defined (run64 t) p Mp L) as (w' & L' & D & _).
      assert (Q : s_run SGD (map (fit64 P) (firstn (S t) h)) (MkLFA b w lr) = Ret (MkLFA b w' lr)).
      { rewrite (firstn_next t p Ep), map_app. unfold s_run in *. rewrite ofold_app, E. cbn [obind map ofold]. rewrite D. reflexivity. }
      unfold run64. rewrite Q. auto.
  Qed.

  Lemma run64_step t : (t < length h)%nat -> finite_all (run64 (S t)) -> finite_all (run64 t) /\
    nn n (fun i => val (run64 (S t)) i - (val (run64 t) i +
      b_real lr * gap n ws (fun t => val (run64 t)) feats t * feats t i)) <=
    noise n (3 * quot n) tau ws (off n ws (fun t => val (run64 t)) t).
  Proof.
    intros Lt F. destruct (nth_error h t) as [p|] eqn:Ep; [|apply nth_error_None in Ep; lia].
    assert (Mp : mild p) by (rewrite Forall_forall in Mild; apply Mild; eapply nth_error_In; eauto).
    destruct (run64_spec t ltac:(lia)) as [E L]. destruct (run64_spec (S t) Lt) as [E' _].
    destruct (fit_defined (run64 t) p Mp L) as (w' & L' & D & B).
    rewrite (firstn_next t p Ep), map_app in E'. unfold s_run in *. rewrite ofold_app, E in E'. cbn [obind map ofold] in E'. rewrite D in E'.
    cbn [obind] in E'. injection E' as E'. rewrite <- E' in F |- *. destruct (B F) as [F' B']. split; [exact F'|].
    unfold gap, off, noise. unfold feats. rewrite Ep. exact B'.
  Qed.

  Lemma run64_finite : finite_all (run64 (length h)) -> forall t, (t <= length h)%nat -> finite_all (run64 t).
  Proof.
    intros F. assert (Q : forall j, (j <= length h)%nat -> finite_all (run64 (length h - j))).
    { induction j as [|j IH]; intros Lj; [now rewrite Nat.sub_0_r|]. specialize (IH ltac:(lia)).
      replace (length h - j)%nat with (S (length h - S j)) in IH by lia. apply run64_step in IH; [|lia]. apply IH. }
    intros t Lt. replace t with (length h - (length h - t))%nat by lia. apply Q. lia.
  Qed.

  Lemma mild_energy t : (t < length h)%nat -> b_real lr * (nn n (feats t) * nn n (feats t)) <= r.
  Proof.
    intros Lt. destruct (nth_error h t) as [p|] eqn:Ep; [|apply nth_error_None in Ep; lia].
    assert (Mp : mild p) by (rewrite Forall_forall in Mild; apply Mild; eapply nth_error_In; eauto).
    unfold feats. rewrite Ep. apply Mp.
  Qed.

  Lemma mild_tau : h <> [] -> 0 <= tau.
  Proof.
    intros Ne. destruct h as [|p l]; [contradiction|]. inversion Mild as [|? ? (_ & _ & T) _]; subst.
    eapply Rle_trans; [|exact T]. apply rest_nonneg; auto using nn_nonneg.
  Qed.
End Run64.

Lemma run64_0 P {I} (b : Basis f64 I) lr h w : run64 P b lr h w 0 = w.
Proof. reflexivity. Qed.

(** The distance to any reference weights. *)
Theorem drift64 P {I} (b : Basis f64 I) n lr ws tau h w : let S := ScalarF64 P in any_order P -> 0 <= b_real lr ->
  0 <= tau -> length w = n -> Forall (mild b n lr ws 2 tau) h ->
  exists w', s_run SGD (map (fit64 P) h) (MkLFA b w lr) = Ret (MkLFA b w' lr) /\ length w' = n /\
    (finite_all w' -> nn n (fun i => ws i - val w' i) <=
      (1 + 3 * quot n) ^ length h * (nn n (fun i => ws i - val w i) + INR (length h) * (3 * quot n * nn n ws + tau))).
Proof.
  intros S AO L0 T0 Lw Mi. pose proof (run64_spec P AO b n lr ws 2 tau L0 (Rle_refl 2) h w Mi Lw) as Sp.
  destruct (Sp (length h) (le_n _)) as [E L]. rewrite firstn_all in E. exists (run64 P b lr h w (length h)). splits; auto.
  intros F. pose proof (run64_finite P AO b n lr ws 2 tau L0 (Rle_refl 2) h w Mi Lw F) as Fa.
  pose proof (quot_nonneg n) as Q0.
  apply (off_bound n (b_real lr) 2 (3 * quot n) tau ws (fun t => val (run64 P b lr h w t)) (feats b h) (length h)); auto; try lra.
  - intros t Lt. eapply mild_energy; eauto.
  - intros t Lt. apply (run64_step P AO b n lr ws 2 tau L0 (Rle_refl 2) h w Mi Lw t Lt). apply Fa. lia.
Qed.

(** The sum of the squared gaps between the run and the reference. *)
Theorem regret64 P {I} (b : Basis f64 I) n lr ws r tau h w : let S := ScalarF64 P in any_order P -> 0 <= b_real lr -> r <= 2 ->
  0 <= tau -> length w = n -> Forall (mild b n lr ws r tau) h ->
  exists W, (forall t, (t <= length h)%nat -> s_run SGD (map (fit64 P) (firstn t h)) (MkLFA b w lr) = Ret (MkLFA b (W t) lr)) /\
    (finite_all (W (length h)) ->
      let k := length h in let d := nn n (fun i => ws i - val w i) in
      let D := (1 + 3 * quot n) ^ k * (d + INR k * (3 * quot n * nn n ws + tau)) in
      let v := 3 * quot n * (D + nn n ws) + tau in
      b_real lr * (2 - r) * sigma k (fun t => let g := sigma n (fun i => feats b h t i * (ws i - val (W t) i)) in g * g) <=
      d * d + INR k * (v * (2 * D + v))).
Proof.
  intros S AO L0 R2 T0 Lw Mi. pose proof (run64_spec P AO b n lr ws r tau L0 R2 h w Mi Lw) as Sp.
  exists (run64 P b lr h w). split; [intros t Lt; apply (Sp t Lt)|].
  intros F k d D v. pose proof (run64_finite P AO b n lr ws r tau L0 R2 h w Mi Lw F) as Fa.
  pose proof (quot_nonneg n) as Q0. pose proof (nn_nonneg n ws) as W0. pose proof (nn_nonneg n (fun i => ws i - val w i)) as D0. fold d in D0.
  assert (Cz : 0 <= 3 * quot n * nn n ws + tau) by (pose proof (Rmult_le_pos (3 * quot n) _ ltac:(lra) W0); lra).
  assert (En : forall t, (t < length h)%nat -> b_real lr * (nn n (feats b h t) * nn n (feats b h t)) <= r) by (intros t Lt; eapply mild_energy; eauto).
  assert (St : forall t, (t < length h)%nat -> nn n (fun i => val (run64 P b lr h w (Datatypes.S t)) i - (val (run64 P b lr h w t) i +
      b_real lr * gap n ws (fun t => val (run64 P b lr h w t)) (feats b h) t * feats b h t i)) <=
      noise n (3 * quot n) tau ws (off n ws (fun t => val (run64 P b lr h w t)) t)).
  { intros t Lt. apply (run64_step P AO b n lr ws r tau L0 R2 h w Mi Lw t Lt). apply Fa. lia. }
  assert (HD : forall t, (t < k)%nat -> off n ws (fun t => val (run64 P b lr h w t)) t <= D).
  { intros t Lt. eapply Rle_trans;
      [apply (off_bound n (b_real lr) r (3 * quot n) tau ws (fun t => val (run64 P b lr h w t)) (feats b h) k); auto; try lra; lia|].
    change (off n ws (fun t => val (run64 P b lr h w t)) 0) with d. unfold D.
    assert (1 <= (1 + 3 * quot n) ^ t) by (apply pow_R1_Rle; lra). pose proof (pos_INR t).
    assert (0 <= INR t * (3 * quot n * nn n ws + tau)) by (apply Rmult_le_pos; auto).
    apply Rmult_le_compat; [lra|lra|apply Rle_pow; [lra|lia]|]. apply Rplus_le_compat_l. apply Rmult_le_compat_r; auto. apply le_INR. lia. }
  pose proof (gaps_bound n (b_real lr) r (3 * quot n) tau ws (fun t => val (run64 P b lr h w t)) (feats b h) k L0 R2 ltac:(lra) T0 En St D HD k (le_n _)) as G.
  change (off n ws (fun t => val (run64 P b lr h w t)) 0) with d in G. cbv zeta.
  pose proof (Rle_0_sqr (off n ws (fun t => val (run64 P b lr h w t)) k)) as O. unfold Rsqr in O.
  unfold noise in G. fold v in G. unfold gap in G. lra.
Qed.

Lemma nth_repeat_lt {A} (x : A) : forall k t, (t < k)%nat -> nth_error (repeat x k) t = Some x.
Proof. induction k as [|k IH]; intros [|t] L; simpl; auto; try lia. apply IH. lia. Qed.

Lemma geometric rho t : 0 <= rho < 1 -> sigma t (fun s => rho ^ s) <= / (1 - rho).
Proof.
  intros [R0 R1]. assert (E : (1 - rho) * sigma t (fun s => rho ^ s) = 1 - rho ^ t).
  { induction t as [|t IH]; [unfold sigma; simpl; ring|]. rewrite sigma_S, Rmult_plus_distr_l, IH. simpl. ring. }
  apply Rmult_le_reg_l with (1 - rho); [lra|]. rewrite E, Rinv_r by lra. pose proof (pow_le rho t R0). lra.
Qed.

(** The same sample over and over. *)
Theorem repeat64 P {I} (b : Basis f64 I) n lr ws tau p k w : let S := ScalarF64 P in any_order P -> 0 <= b_real lr ->
  0 <= tau -> length w = n -> mild b n lr ws 2 tau p ->
  exists w', s_run SGD (map (fit64 P) (repeat p k)) (MkLFA b w lr) = Ret (MkLFA b w' lr) /\
    (finite_all w' ->
      let f := nn n (acts b p) in let d := nn n (fun i => ws i - val w i) in
      let D := (1 + 3 * quot n) ^ k * (d + INR k * (3 * quot n * nn n ws + tau)) in
      let v := 3 * quot n * (D + nn n ws) + tau in let rho := Rabs (1 - b_real lr * (f * f)) in
      rho < 1 ->
      Rabs (sigma n (fun i => acts b p i * (ws i - val w' i))) <=
        rho ^ k * Rabs (sigma n (fun i => acts b p i * (ws i - val w i))) + f * v / (1 - rho)).
Proof.
  intros S AO L0 T0 Lw Mp. set (h := repeat p k). assert (Lh : length h = k) by apply repeat_length.
  assert (Mi : Forall (mild b n lr ws 2 tau) h) by (apply Forall_forall; intros x Ix; apply repeat_spec in Ix; rewrite Ix; exact Mp).
  pose proof (run64_spec P AO b n lr ws 2 tau L0 (Rle_refl 2) h w Mi Lw) as Sp.
  destruct (Sp (length h) (le_n _)) as [E L]. rewrite firstn_all in E. exists (run64 P b lr h w k). rewrite Lh in E, L. split; [exact E|].
  intros F f d D v rho R1. assert (F' : finite_all (run64 P b lr h w (length h))) by (rewrite Lh; exact F).
  pose proof (run64_finite P AO b n lr ws 2 tau L0 (Rle_refl 2) h w Mi Lw F') as Fa. rewrite Lh in Fa.
  pose proof (quot_nonneg n) as Q0. pose proof (nn_nonneg n ws) as W0. pose proof (nn_nonneg n (fun i => ws i - val w i)) as D0. fold d in D0.
  assert (Cz : 0 <= 3 * quot n * nn n ws + tau) by (pose proof (Rmult_le_pos (3 * quot n) _ ltac:(lra) W0); lra).
  assert (Fe : forall t i, (t < k)%nat -> feats b h t i = acts b p i).
  { intros t i Lt. unfold feats, h. rewrite nth_repeat_lt; auto. }
  set (X := fun t => val (run64 P b lr h w t)). set (ph := fun _ : nat => acts b p).
  assert (Gp : forall t, (t < k)%nat -> gap n ws X ph t = gap n ws X (feats b h) t).
  { intros t Lt. apply sigma_ext. intros i _. unfold ph. now rewrite Fe. }
  assert (En : forall t, (t < k)%nat -> b_real lr * (nn n (ph t) * nn n (ph t)) <= 2) by (intros t Lt; apply Mp).
  assert (St : forall t, (t < k)%nat -> nn n (fun i => X (Datatypes.S t) i - (X t i + b_real lr * gap n ws X ph t * ph t i)) <=
      noise n (3 * quot n) tau ws (off n ws X t)).
  { intros t Lt. rewrite Gp by auto. assert (Lt' : (t < length h)%nat) by (rewrite Lh; exact Lt).
    destruct (run64_step P AO b n lr ws 2 tau L0 (Rle_refl 2) h w Mi Lw t Lt' (Fa (Datatypes.S t) ltac:(lia))) as [_ B].
    rewrite (nn_ext n _ (fun i => val (run64 P b lr h w (Datatypes.S t)) i - (val (run64 P b lr h w t) i +
      b_real lr * gap n ws (fun t => val (run64 P b lr h w t)) (feats b h) t * feats b h t i))); [exact B|].
    intros i _. unfold ph. now rewrite Fe. }
  assert (HD : forall t, (t < k)%nat -> off n ws X t <= D).
  { intros t Lt. eapply Rle_trans; [apply (off_bound n (b_real lr) 2 (3 * quot n) tau ws X ph k); auto; try lra; lia|].
    change (off n ws X 0) with d. unfold D.
    assert (1 <= (1 + 3 * quot n) ^ t) by (apply pow_R1_Rle; lra). pose proof (pos_INR t).
    assert (0 <= INR t * (3 * quot n * nn n ws + tau)) by (apply Rmult_le_pos; auto).
    apply Rmult_le_compat; [lra|lra|apply Rle_pow; [lra|lia]|]. apply Rplus_le_compat_l. apply Rmult_le_compat_r; auto. apply le_INR. lia. }
  pose proof (gap_repeated n (b_real lr) (3 * quot n) tau ws X ph k ltac:(lra) St (acts b p) D (fun _ _ => eq_refl) HD k (le_n _)) as G.
  cbv zeta in G. fold f in G. fold rho in G. unfold noise in G. fold v in G.
  eapply Rle_trans; [exact G|]. apply Rplus_le_compat_l. unfold Rdiv. apply Rmult_le_compat_l.
  - apply Rmult_le_pos; [apply nn_nonneg|]. unfold v. assert (0 <= D).
    { unfold D. apply Rmult_le_pos; [apply pow_le; lra|]. pose proof (Rmult_le_pos (INR k) _ (pos_INR k) Cz). lra. }
    pose proof (Rmult_le_pos (3 * quot n) (D + nn n ws) ltac:(lra) ltac:(lra)). lra.
  - apply geometric. split; [apply Rabs_pos|exact R1].
Qed.

(** ** round numbers *)

Lemma pow_small x k : 0 <= x -> (1 + x) ^ k * (1 - INR k * x) <= 1.
Proof.
  intros X. induction k as [|k IH]; [simpl; lra|]. rewrite S_INR. eapply Rle_trans; [|exact IH].
  change ((1 + x) ^ S k) with ((1 + x) * (1 + x) ^ k). rewrite (Rmult_comm (1 + x)), Rmult_assoc.
  apply Rmult_le_compat_l; [apply pow_le; lra|]. pose proof (pos_INR k). assert (0 <= INR k * (x * x)) by (apply Rmult_le_pos; nra). nra.
Qed.

Lemma round_numbers n k : INR k * INR (n + 5) * uro <= / 16 -> let e := 4 * INR k * INR (n + 5) * uro in
  (1 + 3 * quot n) ^ k <= 1 + e /\ (1 + 3 * quot n) ^ k * (INR k * (3 * quot n)) <= e /\ (1 + 3 * quot n) ^ k <= 5 / 4.
Proof.
  intros B e. destruct k as [|k]; [unfold e; simpl; lra|].
  pose proof (quot_nonneg n) as Q0. pose proof uro_pos as Up. set (m := INR (n + 5)) in *. set (K := INR (S k)) in *.
  assert (K1 : 1 <= K) by (unfold K; rewrite S_INR; pose proof (pos_INR k); lra). assert (M0 : 0 <= m) by apply pos_INR.
  assert (Mu : m * uro <= / 16).
  { eapply Rle_trans; [|exact B]. assert (0 <= m * uro) by (apply Rmult_le_pos; lra). nra. }
  assert (Q1 : quot n <= 16 / 15 * (m * uro)).
  { pose proof (pow_small uro (n + 5) ltac:(lra)) as S. fold m in S. unfold quot in *. set (p := (1 + uro) ^ (n + 5)) in *.
    assert (0 <= m * uro) by (apply Rmult_le_pos; lra).
    assert (p <= 16 / 15). { assert (p * (15 / 16) <= p * (1 - m * uro)) by (apply Rmult_le_compat_l; lra). lra. }
    assert (p * (m * uro) <= 16 / 15 * (m * uro)) by (apply Rmult_le_compat_r; lra). lra. }
  assert (KQ : K * (3 * quot n) <= 16 / 5 * (K * m * uro)).
  { assert (K * (3 * quot n) <= K * (3 * (16 / 15 * (m * uro)))) by (apply Rmult_le_compat_l; lra). lra. }
  pose proof (pow_small (3 * quot n) (S k) ltac:(lra)) as Sm. fold K in Sm. set (p := (1 + 3 * quot n) ^ S k) in *.
  assert (P1 : 1 <= p) by (apply pow_R1_Rle; lra).
  assert (P2 : p <= 5 / 4). { assert (p * (4 / 5) <= p * (1 - K * (3 * quot n))) by (apply Rmult_le_compat_l; lra). lra. }
  assert (Z : 0 <= K * (3 * quot n)) by (apply Rmult_le_pos; lra).
  assert (P3 : p * (K * (3 * quot n)) <= e).
  { unfold e. apply Rle_trans with (5 / 4 * (16 / 5 * (K * m * uro))); [|lra]. apply Rmult_le_compat; lra. }
  splits; auto. lra.
Qed.

Theorem drift64_round P {I} (b : Basis f64 I) n lr ws tau h w : let S := ScalarF64 P in any_order P -> 0 <= b_real lr ->
  0 <= tau -> length w = n -> Forall (mild b n lr ws 2 tau) h -> INR (length h) * INR (n + 5) <= bpow radix2 49 ->
  exists w', s_run SGD (map (fit64 P) h) (MkLFA b w lr) = Ret (MkLFA b w' lr) /\ length w' = n /\
    (finite_all w' -> let e := INR (length h) * INR (n + 5) * bpow radix2 (-51) in
      nn n (fun i => ws i - val w' i) <= (1 + e) * nn n (fun i => ws i - val w i) + e * nn n ws + 5 / 4 * (INR (length h) * tau)).
Proof.
  intros S AO L0 T0 Lw Mi B. destruct (drift64 P b n lr ws tau h w AO L0 T0 Lw Mi) as (w' & E & L & D). exists w'. splits; auto.
  intros F e. specialize (D F).
  assert (U : uro = bpow radix2 (-53)) by reflexivity.
  assert (B16 : INR (length h) * INR (n + 5) * uro <= / 16).
  { rewrite U. apply Rle_trans with (bpow radix2 49 * bpow radix2 (-53)); [apply Rmult_le_compat_r; [apply bpow_ge_0|exact B]|].
    rewrite <- bpow_plus. vm_compute. lra. }
  destruct (round_numbers n (length h) B16) as (A1 & A2 & A3).
  assert (Ee : 4 * INR (length h) * INR (n + 5) * uro = e).
  { unfold e. rewrite U. replace (bpow radix2 (-51)) with (4 * bpow radix2 (-53)); [ring|]. change 4 with (bpow radix2 2). rewrite <- bpow_plus. reflexivity. }
  cbv zeta in A1, A2. rewrite Ee in A1, A2. eapply Rle_trans; [exact D|].
  set (p := (1 + 3 * quot n) ^ length h) in *. set (K := INR (length h)) in *.
  pose proof (nn_nonneg n ws) as W0. pose proof (nn_nonneg n (fun i => ws i - val w i)) as D0. assert (K0 : 0 <= K) by apply pos_INR.
  pose proof (Rmult_le_compat_r _ _ _ D0 A1). pose proof (Rmult_le_compat_r _ _ _ W0 A2).
  assert (p * (K * tau) <= 5 / 4 * (K * tau)) by (apply Rmult_le_compat_r; [apply Rmult_le_pos|]; auto). lra.
Qed.
