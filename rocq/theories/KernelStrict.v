(** Strictly positive definite kernels over the reals (C75). *)
From Coq Require Import List Arith ZArith Lia Reals Lra Factorial.
From Verif Require Import ScalarR KernelPsd KernelRadial.
Import ListNotations.
Local Open Scope R_scope.

Section Criterion.
Context {X : Type} (eq_dec : forall x y : X, {x = y} + {x <> y}).

(** Only zero coefficients make the form vanish. *)
Definition definite (k : X -> X -> R) (cs : list (R * X)) : Prop :=
  quad k cs = 0 -> Forall (fun a => fst a = 0) cs.

Lemma quad_linear (k k' : X -> X -> R) c cs : quad (fun x y => k x y + c * k' x y) cs = quad k cs + c * quad k' cs.
Proof.
  unfold quad. rewrite <- rsum_scale, <- rsum_plus. apply rsum_ext. intros a _.
  rewrite <- rsum_scale, <- rsum_plus. apply rsum_ext. intros b _. ring.
Qed.

Lemma quad_same (k k' : X -> X -> R) cs : (forall a b, In a cs -> In b cs -> k (snd a) (snd b) = k' (snd a) (snd b)) ->
  quad k cs = quad k' cs.
Proof. intros E. apply rsum_ext. intros a Ia. apply rsum_ext. intros b Ib. now rewrite E. Qed.

(** A part of a kernel vanishes wherever the whole does. *)
Lemma part_vanishes (k k' : X -> X -> R) c cs : 0 < c -> gramlike k' -> gramlike (fun x y => k x y - c * k' x y) ->
  quad k cs = 0 -> quad k' cs = 0.
Proof.
  intros Pc G G' Z. pose proof (gramlike_psd _ cs G) as A. pose proof (gramlike_psd _ cs G') as B.
  rewrite (quad_same _ (fun x y => k x y + - c * k' x y)) in B by (intros; ring).
  rewrite quad_linear, Z in B. assert (c * quad k' cs <= 0) by lra.
  apply Rle_antisym; [|exact A]. apply Rmult_le_reg_l with c; lra.
Qed.

Lemma definite_part (k k' : X -> X -> R) c cs : 0 < c -> gramlike k' -> gramlike (fun x y => k x y - c * k' x y) ->
  definite k' cs -> definite k cs.
Proof. intros Pc G G' D Z. apply D. exact (part_vanishes k k' c cs Pc G G' Z). Qed.

Lemma sum_without (f : nat -> R) n N :
  sum_f_R0 (fun i => if i =? n then 0 else f i) (n + N) = sum_f_R0 f (n + N) - f n.
Proof.
  assert (Lo : forall m, (m < n)%nat -> sum_f_R0 (fun i => if i =? n then 0 else f i) m = sum_f_R0 f m).
  { induction m; intros L; cbn [sum_f_R0].
    - destruct (Nat.eqb_spec 0 n); [lia|reflexivity].
    - rewrite IHm by lia. destruct (Nat.eqb_spec (S m) n); [lia|reflexivity]. }
  induction N.
  - rewrite Nat.add_0_r. destruct n as [|n]; cbn [sum_f_R0]; rewrite Nat.eqb_refl; [ring|].
    rewrite Lo by lia. ring.
  - replace (n + S N)%nat with (S (n + N)) by lia. cbn [sum_f_R0]. rewrite IHN.
    destruct (Nat.eqb_spec (S (n + N)) n); [lia|]. ring.
Qed.

Lemma cv_shift u l n : Un_cv u l -> Un_cv (fun k => u (n + k)%nat) l.
Proof. intros C eps P. destruct (C eps P) as [N H]. exists N. intros k L. apply H. lia. Qed.

Lemma cv_minus_const u l c : Un_cv u l -> Un_cv (fun k => u k - c) (l - c).
Proof.
  intros C eps P. destruct (C eps P) as [N H]. exists N. intros k L. specialize (H k L).
  unfold R_dist in *. replace (u k - c - (l - c)) with (u k - l) by ring. exact H.
Qed.

(** The exponential exceeds each term of its series. *)
Lemma exp_without g n : @gramlike X g -> gramlike (fun x y => exp (g x y) - / INR (fact n) * g x y ^ n).
Proof.
  intros G. apply (gramlike_seq (fun N x y => sum_f_R0 (fun i => if i =? n then 0 else / INR (fact i) * g x y ^ i) (n + N))).
  - intros N. apply (gramlike_sum (fun i x y => if i =? n then 0 else / INR (fact i) * g x y ^ i)). intros i.
    destruct (i =? n); [apply gramlike_const; lra|].
    apply gramlike_scale; [apply Rlt_le, Rinv_0_lt_compat, INR_fact_lt_0|now apply gramlike_pow].
  - intros x y. eapply cv_ext; [intros N; symmetry; apply (sum_without (fun i => / INR (fact i) * g x y ^ i))|].
    apply (cv_minus_const (fun N => sum_f_R0 (fun i => / INR (fact i) * g x y ^ i) (n + N))).
    apply (cv_shift (fun N => sum_f_R0 (fun i => / INR (fact i) * g x y ^ i) N)). apply (E1_cvg (g x y)).
Qed.

Lemma exp_above_one g : @gramlike X g -> gramlike (fun x y => exp (g x y) - 1).
Proof.
  intros G. apply (gramlike_ext (fun x y => exp (g x y) - / INR (fact 0) * g x y ^ 0)).
  - intros x y. simpl. rewrite Rinv_1. ring.
  - now apply exp_without.
Qed.

Lemma rsum_cv {A} (f : nat -> A -> R) F l : (forall a, In a l -> Un_cv (fun n => f n a) (F a)) ->
  Un_cv (fun n => rsum (map (f n) l)) (rsum (map F l)).
Proof.
  induction l as [|a l IH]; intros C.
  - intros eps P. exists 0%nat. intros n _. unfold R_dist. rewrite Rminus_diag_eq, Rabs_R0 by reflexivity. exact P.
  - cbn [map]. rewrite rsum_cons. apply (CV_plus (fun n => f n a) (fun n => rsum (map (f n) l))).
    + apply C. now left.
    + apply IH. intros b I. apply C. now right.
Qed.

Lemma rsum_term {A} (f : A -> R) l z : (forall a, In a l -> 0 <= f a) -> In z l -> f z <= rsum (map f l).
Proof.
  intros P. induction l as [|a l IH]; intros I; [destruct I|]. cbn [map]. rewrite rsum_cons. destruct I as [->|I].
  - pose proof (rsum_nonneg f l (fun a I => P a (or_intror I))). lra.
  - specialize (IH (fun a I => P a (or_intror I)) I). specialize (P a (or_introl eq_refl)). lra.
Qed.

Lemma rsum_zero {A} (f : A -> R) l : (forall a, In a l -> f a = 0) -> rsum (map f l) = 0.
Proof.
  intros E. induction l; [reflexivity|]. cbn [map]. rewrite rsum_cons, E by (now left).
  rewrite IHl; [ring|]. intros b I. apply E. now right.
Qed.

(** A point with a non-zero coefficient where g is largest. *)
Lemma largest (v : R * X -> R) cs : ~ Forall (fun a => fst a = 0) cs ->
  exists a, In a cs /\ fst a <> 0 /\ forall b, In b cs -> fst b <> 0 -> v b <= v a.
Proof.
  induction cs as [|a cs IH]; intros N; [destruct N; constructor|].
  destruct (Req_dec (fst a) 0) as [E|E].
  - destruct IH as (m & I & Nm & L).
    { intros A. apply N. constructor; auto. }
    exists m. split; [now right|]. split; [exact Nm|]. intros b [<-|Ib] Nb; [now destruct Nb|auto].
  - destruct (Forall_Exists_dec (fun a : R * X => fst a = 0) (fun a => Req_EM_T (fst a) 0) cs) as [A|A].
    + exists a. split; [now left|]. split; [exact E|]. intros b [<-|Ib] Nb; [lra|].
      rewrite Forall_forall in A. now destruct (Nb (A b Ib)).
    + destruct IH as (m & I & Nm & L).
      { intros A'. rewrite Forall_forall in A'. apply Exists_exists in A. destruct A as (z & Iz & Nz). auto. }
      destruct (Rle_lt_dec (v a) (v m)).
      * exists m. split; [now right|]. split; [exact Nm|]. intros b [<-|Ib] Nb; auto.
      * exists a. split; [now left|]. split; [exact E|]. intros b [<-|Ib] Nb; [lra|].
        specialize (L b Ib Nb). lra.
Qed.

Lemma nodup_snd cs (a b : R * X) : NoDup (map snd cs) -> In a cs -> In b cs -> snd a = snd b -> a = b.
Proof.
  induction cs as [|c cs IH]; intros N; [intros []|]. cbn [map] in N. apply NoDup_cons_iff in N. destruct N as [N0 N].
  intros [<-|Ia] [<-|Ib] E; auto.
  - exfalso. apply N0. rewrite E. now apply in_map.
  - exfalso. apply N0. rewrite <- E. now apply in_map.
Qed.

(** A product with an exponential is definite when the exponent tells points apart. *)
Theorem exp_definite A g cs : gramlike A -> gramlike g -> NoDup (map snd cs) ->
  (forall x, In x (map snd cs) -> 0 < A x x /\ 0 < g x x) ->
  (forall x y, In x (map snd cs) -> In y (map snd cs) -> x <> y -> Rabs (g x y) < Rmax (g x x) (g y y)) ->
  definite (fun x y => A x y * exp (g x y)) cs.
Proof.
  intros GA Gg Nd Pd Ap Z.
  assert (Zn : forall n, quad (fun x y => A x y * g x y ^ n) cs = 0).
  { intros n. apply (part_vanishes (fun x y => A x y * exp (g x y)) _ (/ INR (fact n))); auto.
    - apply Rinv_0_lt_compat, INR_fact_lt_0.
    - apply gramlike_mult; [exact GA|now apply gramlike_pow].
    - apply (gramlike_ext (fun x y => A x y * (exp (g x y) - / INR (fact n) * g x y ^ n))); [intros; ring|].
      apply gramlike_mult; [exact GA|now apply exp_without]. }
  destruct (Forall_dec (fun a : R * X => fst a = 0) (fun a => Req_EM_T (fst a) 0) cs) as [F|F]; [exact F|exfalso].
  destruct (largest (fun a => g (snd a) (snd a)) cs F) as (m & Im & Nm & L).
  set (M := g (snd m) (snd m)) in *.
  assert (PM : 0 < M) by (apply Pd; now apply in_map).
  set (lim := fun a b : R * X => if eq_dec (snd a) (snd b) then (if Req_EM_T (g (snd a) (snd b)) M then 1 else 0) else 0).
  assert (Cv : forall a b, In a cs -> In b cs ->
    Un_cv (fun n => fst a * fst b * (A (snd a) (snd b) * (g (snd a) (snd b) / M) ^ n)) (fst a * fst b * (A (snd a) (snd b) * lim a b))).
  { intros a b Ia Ib.
    destruct (Req_dec (fst a) 0) as [E|Na].
    { rewrite E. apply (cv_ext (fun _ => 0 * fst b * (A (snd a) (snd b) * lim a b))); [intros; ring|].
      intros eps P. exists 0%nat. intros n _. unfold R_dist. rewrite Rminus_diag_eq, Rabs_R0 by reflexivity. exact P. }
    destruct (Req_dec (fst b) 0) as [E|Nb].
    { rewrite E. apply (cv_ext (fun _ => fst a * 0 * (A (snd a) (snd b) * lim a b))); [intros; ring|].
      intros eps P. exists 0%nat. intros n _. unfold R_dist. rewrite Rminus_diag_eq, Rabs_R0 by reflexivity. exact P. }
    assert (Sm : Rabs (g (snd a) (snd b) / M) < 1 \/ (snd a = snd b /\ g (snd a) (snd b) = M)).
    { pose proof (L a Ia Na) as La. pose proof (L b Ib Nb) as Lb. cbv beta in La, Lb.
      assert (Q : Rabs (g (snd a) (snd b)) < M \/ (snd a = snd b /\ g (snd a) (snd b) = M)).
      { destruct (eq_dec (snd a) (snd b)) as [E|E].
        - rewrite <- E. destruct (Pd (snd a)) as [_ P]; [now apply in_map|].
          rewrite (Rabs_pos_eq (g (snd a) (snd a))) by lra.
          destruct La as [La|La]; [left; exact La|right; auto].
        - left. eapply Rlt_le_trans; [apply Ap; auto; now apply in_map|]. apply Rmax_lub; assumption. }
      destruct Q as [Q|Q]; [left|right; exact Q]. unfold Rdiv. rewrite Rabs_mult, Rabs_inv.
      rewrite (Rabs_pos_eq M) by lra. apply Rmult_lt_reg_r with M; [exact PM|].
      rewrite Rmult_assoc, Rinv_l by lra. lra. }
    apply (cv_ext (fun n => fst a * fst b * A (snd a) (snd b) * (g (snd a) (snd b) / M) ^ n)); [intros; ring|].
    replace (fst a * fst b * (A (snd a) (snd b) * lim a b)) with (fst a * fst b * A (snd a) (snd b) * lim a b) by ring.
    assert (C0 : forall c u l, Un_cv u l -> Un_cv (fun n => c * u n) (c * l)).
    { intros c u l C. apply (CV_mult (fun _ => c) u); auto. intros eps P. exists 0%nat. intros n _. unfold R_dist.
      rewrite Rminus_diag_eq, Rabs_R0 by reflexivity. exact P. }
    apply C0. destruct Sm as [Sm|[E1 E2]].
    - replace (lim a b) with 0.
      + intros eps P. destruct (pow_lt_1_zero _ Sm eps P) as [N H]. exists N. intros n Ln. unfold R_dist.
        rewrite Rminus_0_r. apply H. lia.
      + unfold lim. destruct (eq_dec (snd a) (snd b)); auto. destruct (Req_EM_T (g (snd a) (snd b)) M) as [E|]; auto.
        exfalso. rewrite E in Sm. unfold Rdiv in Sm. rewrite Rinv_r, Rabs_R1 in Sm by lra. lra.
    - replace (lim a b) with 1.
      + rewrite E2. replace (M / M) with 1 by (field; lra). intros eps P. exists 0%nat. intros n _. unfold R_dist.
        rewrite pow1, Rminus_diag_eq, Rabs_R0 by reflexivity. exact P.
      + unfold lim. destruct (eq_dec (snd a) (snd b)); [|contradiction]. now destruct (Req_EM_T (g (snd a) (snd b)) M). }
  assert (Lim : rsum (map (fun a => rsum (map (fun b => fst a * fst b * (A (snd a) (snd b) * lim a b)) cs)) cs) = 0).
  { apply (UL_sequence (fun n => rsum (map (fun a => rsum (map (fun b => fst a * fst b * (A (snd a) (snd b) * (g (snd a) (snd b) / M) ^ n)) cs)) cs))).
    - apply (rsum_cv (fun n a => rsum (map (fun b => fst a * fst b * (A (snd a) (snd b) * (g (snd a) (snd b) / M) ^ n)) cs))). intros a Ia.
      apply (rsum_cv (fun n b => fst a * fst b * (A (snd a) (snd b) * (g (snd a) (snd b) / M) ^ n))). intros b Ib. now apply Cv.
    - apply (cv_ext (fun _ => 0)).
      + intros n. transitivity ((/ M) ^ n * quad (fun x y => A x y * g x y ^ n) cs); [rewrite Zn; ring|].
        unfold quad. rewrite <- rsum_scale. apply rsum_ext. intros a _. rewrite <- rsum_scale. apply rsum_ext. intros b _.
        unfold Rdiv. rewrite Rpow_mult_distr. ring.
      + intros eps P. exists 0%nat. intros n _. unfold R_dist. rewrite Rminus_diag_eq, Rabs_R0 by reflexivity. exact P. }
  assert (Tn : forall a b, In a cs -> In b cs -> 0 <= fst a * fst b * (A (snd a) (snd b) * lim a b)).
  { intros a b Ia Ib. unfold lim. destruct (eq_dec (snd a) (snd b)) as [E|]; [|right; ring].
    destruct (Req_EM_T _ M); [|right; ring]. rewrite <- (nodup_snd cs a b Nd Ia Ib E), Rmult_1_r.
    apply Rmult_le_pos; [apply Rle_0_sqr|]. apply Rlt_le, Pd. now apply in_map. }
  pose proof (rsum_term (fun a => rsum (map (fun b => fst a * fst b * (A (snd a) (snd b) * lim a b)) cs)) cs m
    (fun a Ia => rsum_nonneg _ cs (fun b Ib => Tn a b Ia Ib)) Im) as T1. cbv beta in T1.
  pose proof (rsum_term (fun b => fst m * fst b * (A (snd m) (snd b) * lim m b)) cs m (fun b Ib => Tn m b Im Ib) Im) as T2. cbv beta in T2.
  assert (0 < fst m * fst m * (A (snd m) (snd m) * lim m m)); [|lra].
  unfold lim. destruct (eq_dec (snd m) (snd m)); [|congruence]. fold M. destruct (Req_EM_T M M); [|congruence].
  rewrite Rmult_1_r. apply Rmult_lt_0_compat; [nra|]. apply Pd. now apply in_map.
Qed.
End Criterion.

(** ** radial kernels *)

Section Radial.
Context {X : Type} (eq_dec : forall x y : X, {x = y} + {x <> y}) (q : X -> X -> R).
Context (q_nonneg : forall x y, 0 <= q x y) (q_self : forall x, q x x = 0).
Context (gauss : forall t, 0 <= t -> gramlike (fun x y => exp (- (t * q x y)))).

Lemma root_iter_diff m z s : 1 <= s -> @gramlike X z ->
  gramlike (fun x y => root_iter m (z x y) - s * root_iter m (z x y * (/ s * / s))).
Proof.
  intros Ps G. assert (G' : gramlike (fun x y => z x y * (/ s * / s))).
  { apply (gramlike_ext (fun x y => (/ s * / s) * z x y)); [intros; ring|]. apply gramlike_scale; [|exact G].
    apply Rmult_le_pos; apply Rlt_le, Rinv_0_lt_compat; lra. }
  induction m as [|m IH]; cbn [root_iter].
  { apply (gramlike_ext (fun _ _ => 0)); [intros; ring|]. apply gramlike_const. lra. }
  pose proof (gramlike_root_iter m _ G') as Gr.
  apply (gramlike_ext (fun x y => let r := root_iter m (z x y * (/ s * / s)) in let d := root_iter m (z x y) - s * r in
    (1 - / s) / 2 * z x y + (/ 2 * (d * d) + (s * (d * r) + (s * s - s) / 2 * (r * r))))).
  { intros x y. cbv zeta. field. lra. }
  cbv zeta.
  assert (/ s <= 1) by (rewrite <- Rinv_1; apply Rinv_le_contravar; lra).
  apply gramlike_plus; [apply gramlike_scale; [lra|exact G]|].
  apply gramlike_plus; [apply gramlike_scale; [lra|now apply gramlike_mult]|].
  apply gramlike_plus; [apply gramlike_scale; [lra|now apply gramlike_mult]|].
  apply gramlike_scale; [nra|now apply gramlike_mult].
Qed.

(** sqrt (a q + c + d) - sqrt (a q + c) *)
Lemma radial_sqrt_diff a c d : 0 <= a -> 0 <= c -> 0 <= d ->
  gramlike (fun x y => sqrt (a * q x y + c + d) - sqrt (a * q x y + c)).
Proof.
  intros A C D.
  assert (Ps : forall x y, 0 <= a * q x y + c) by (intros; now apply affine_nonneg).
  apply (gramlike_seq (fun n x y => sqrt (quot (a * q x y + c) n + d) - sqrt (quot (a * q x y + c) n))).
  - intros n. pose proof (step_pos n) as H. set (b := / sqrt (step n)).
    assert (Pb : 0 < b) by (apply Rinv_0_lt_compat, sqrt_lt_R0, H).
    set (z := fun x y => exp (- (step n * (a * q x y + c)))).
    assert (Pz : forall x y, 0 <= z x y <= 1).
    { intros x y. split; [apply Rlt_le, exp_pos|]. unfold z. rewrite <- exp_0, <- Ropp_0. apply exp_opp_le.
      apply Rmult_le_pos; [lra|apply Ps]. }
    assert (Hd : 0 <= step n * d) by (apply Rmult_le_pos; lra).
    set (s := sqrt (1 + step n * d)).
    assert (Ss : s * s = 1 + step n * d) by (apply sqrt_sqrt; lra).
    assert (S1 : 1 <= s) by (unfold s; rewrite <- sqrt_1 at 1; apply sqrt_le_1; lra).
    assert (I1 : / s <= 1) by (rewrite <- Rinv_1; apply Rinv_le_contravar; lra).
    assert (I0 : 0 < / s) by (apply Rinv_0_lt_compat; lra).
    assert (Iw : 0 <= / s * / s <= 1) by nra.
    assert (Pw : forall x y, 0 <= z x y * (/ s * / s) <= 1) by (intros x y; specialize (Pz x y); nra).
    apply (gramlike_ext (fun x y => b * (s - 1) + b * ((1 - sqrt (1 - z x y)) - s * (1 - sqrt (1 - z x y * (/ s * / s)))))).
    { intros x y. unfold quot. fold (z x y).
      replace ((1 - z x y) / step n + d) with ((s * s) * (1 - z x y * (/ s * / s)) / step n).
      2: { replace (s * s * (1 - z x y * (/ s * / s))) with (s * s - z x y) by (field; lra). rewrite Ss. field. lra. }
      rewrite !sqrt_div_alt by exact H. rewrite (sqrt_mult (s * s)) by (apply Rle_0_sqr || (specialize (Pw x y); lra)). rewrite sqrt_square by lra.
      unfold b. field. apply Rgt_not_eq, sqrt_lt_R0, H. }
    apply gramlike_plus; [apply gramlike_const; apply Rmult_le_pos; lra|]. apply gramlike_scale; [lra|].
    apply (gramlike_seq (fun m x y => root_iter m (z x y) - s * root_iter m (z x y * (/ s * / s)))).
    + intros m. apply root_iter_diff; [exact S1|]. apply (radial_gauss_shift q gauss); lra.
    + intros x y. apply (CV_minus (fun m => root_iter m (z x y))); [apply root_iter_cv, Pz|].
      apply (CV_mult (fun _ => s)); [|apply root_iter_cv, Pw].
      intros eps P. exists 0%nat. intros k _. unfold R_dist. rewrite Rminus_diag_eq, Rabs_R0 by reflexivity. exact P.
  - intros x y.
    apply (continuity_seq (fun s => sqrt (s + d) - sqrt s) (quot (a * q x y + c)) (a * q x y + c)); [|apply quot_cv, Ps].
    apply (continuity_pt_minus (fun s => sqrt (s + d)) sqrt); [|apply continuity_pt_sqrt, Ps].
    apply (continuity_pt_comp (fun s => s + d) sqrt).
    + apply (continuity_pt_plus id (fun _ => d)); [apply derivable_continuous_pt, derivable_pt_id|].
      apply continuity_pt_const. now intros u v.
    + apply continuity_pt_sqrt. specialize (Ps x y). lra.
Qed.

Lemma sqrt_diff_falls s t d : 0 < d -> 0 <= s < t -> sqrt (t + d) - sqrt t < sqrt (s + d) - sqrt s.
Proof.
  intros D [S L].
  assert (E : forall u, 0 <= u -> sqrt (u + d) - sqrt u = d / (sqrt (u + d) + sqrt u)).
  { intros u U. assert (0 < sqrt (u + d)) by (apply sqrt_lt_R0; lra). pose proof (sqrt_pos u).
    apply Rmult_eq_reg_r with (sqrt (u + d) + sqrt u); [|lra].
    replace ((sqrt (u + d) - sqrt u) * (sqrt (u + d) + sqrt u)) with (sqrt (u + d) * sqrt (u + d) - sqrt u * sqrt u) by ring.
    rewrite !sqrt_sqrt by lra. field. lra. }
  rewrite !E by lra. assert (0 < sqrt (s + d)) by (apply sqrt_lt_R0; lra). pose proof (sqrt_pos s).
  assert (sqrt s < sqrt t) by (apply sqrt_lt_1; lra). assert (sqrt (s + d) < sqrt (t + d)) by (apply sqrt_lt_1; lra).
  apply Rmult_lt_compat_l; [exact D|]. apply Rinv_lt_contravar; [apply Rmult_lt_0_compat; lra|lra].
Qed.

Lemma sqrt_diff_pos s d : 0 < d -> 0 <= s -> 0 < sqrt (s + d) - sqrt s.
Proof. intros D S. assert (sqrt s < sqrt (s + d)) by (apply sqrt_lt_1; lra). lra. Qed.

Section Points.
Context (cs : list (R * X)) (Nd : NoDup (map snd cs)).
Context (apart : forall x y, In x (map snd cs) -> In y (map snd cs) -> x <> y -> 0 < q x y).

(** exp (- sqrt (a q + c)) *)
Lemma exp_sqrt_definite a c : 0 < a -> 0 <= c -> definite (fun x y => exp (- sqrt (a * q x y + c))) cs.
Proof.
  intros A C Z.
  apply (exp_definite eq_dec (fun x y => exp (- sqrt (a * q x y + (c + 1))))
           (fun x y => sqrt (a * q x y + c + 1) - sqrt (a * q x y + c)) cs).
  - apply radial_exp_sqrt; auto; lra.
  - apply radial_sqrt_diff; lra.
  - exact Nd.
  - intros x _. split; [apply exp_pos|]. rewrite q_self, Rmult_0_r. apply sqrt_diff_pos; lra.
  - intros x y Ix Iy Ne. rewrite !q_self, Rmult_0_r. pose proof (Rmult_lt_0_compat _ _ A (apart x y Ix Iy Ne)) as P.
    rewrite Rabs_pos_eq by (apply Rlt_le, sqrt_diff_pos; lra).
    eapply Rlt_le_trans; [|apply Rmax_l]. apply sqrt_diff_falls; lra.
  - rewrite <- Z. apply quad_same. intros x y _ _. rewrite <- exp_plus. f_equal. rewrite <- Rplus_assoc. ring.
Qed.

Lemma exp_sqrt_shift a c d : 0 <= a -> 0 <= c -> 0 <= d ->
  gramlike (fun x y => exp (- sqrt (a * q x y + c)) - exp (- sqrt (a * q x y + (c + d)))).
Proof.
  intros A C D.
  apply (gramlike_ext (fun x y => exp (- sqrt (a * q x y + (c + d))) * (exp (sqrt (a * q x y + c + d) - sqrt (a * q x y + c)) - 1))).
  { intros x y. rewrite <- (Rplus_assoc _ c d), Rmult_minus_distr_l, <- exp_plus, Rmult_1_r. do 2 f_equal. ring. }
  apply gramlike_mult; [apply radial_exp_sqrt; auto; lra|]. apply (exp_above_one (fun x y => sqrt (a * q x y + c + d) - sqrt (a * q x y + c))).
  now apply radial_sqrt_diff.
Qed.

(** (1 + r) exp (- r) for r = sqrt (a q + c) *)
Lemma tail_definite a c : 0 < a -> 0 <= c -> definite (fun x y => tail_fun (sqrt (a * q x y + c))) cs.
Proof.
  intros A C. apply (definite_part _ (fun x y => exp (- sqrt (a * q x y + (c + 1)))) (/ 2)); [lra| | |].
  - apply radial_exp_sqrt; auto; lra.
  - apply (gramlike_seq (fun n x y => riemann (fun x => exp (- x)) (step n) (a * q x y + c) (S n * (S n * S n))
             - / 2 * exp (- sqrt (a * q x y + (c + 1))))).
    + intros n. pose proof (step_pos n) as H.
      assert (Hn : INR (S n) * step n = 1) by (unfold step; apply Rinv_r, not_0_INR; lia).
      assert (Low : forall m, (m <= S n)%nat -> gramlike (fun x y => riemann (fun x => exp (- x)) (step n) (a * q x y + c) m
                 - INR m * (step n / 2) * exp (- sqrt (a * q x y + (c + 1))))).
      { induction m as [|m IH]; intros L.
        - cbn [riemann INR]. apply (gramlike_ext (fun _ _ => 0)); [intros; ring|]. apply gramlike_const. lra.
        - assert (0 <= INR m * step n) by (apply Rmult_le_pos; [apply pos_INR|lra]).
          assert (INR m * step n <= 1) by (rewrite <- Hn; apply Rmult_le_compat_r; [lra|apply le_INR; lia]).
          apply (gramlike_ext (fun x y => (riemann (fun x => exp (- x)) (step n) (a * q x y + c) m
                 - INR m * (step n / 2) * exp (- sqrt (a * q x y + (c + 1)))) +
                 step n / 2 * (exp (- sqrt (a * q x y + (c + INR m * step n))) - exp (- sqrt (a * q x y + (c + INR m * step n + (1 - INR m * step n))))))).
          { intros x y. cbn [riemann]. rewrite S_INR, <- !Rplus_assoc.
            replace (a * q x y + c + INR m * step n + 1 + - (INR m * step n)) with (a * q x y + c + 1) by ring.
            replace (a * q x y + c + INR m * step n + (1 - INR m * step n)) with (a * q x y + c + 1) by ring. ring. }
          apply gramlike_plus; [apply IH; lia|]. apply gramlike_scale; [lra|]. apply exp_sqrt_shift; lra. }
      assert (Up : forall k, gramlike (fun x y => riemann (fun x => exp (- x)) (step n) (a * q x y + c) (S n + k)
                 - / 2 * exp (- sqrt (a * q x y + (c + 1))))).
      { induction k as [|k IH].
        - rewrite Nat.add_0_r. eapply gramlike_ext; [|apply (Low (S n)); lia]. intros x y. cbv beta.
          replace (INR (S n) * (step n / 2)) with (INR (S n) * step n / 2) by field. rewrite Hn. field.
        - rewrite Nat.add_succ_r. cbn [riemann]. set (m := (S n + k)%nat) in *.
          assert (0 <= INR m * step n) by (apply Rmult_le_pos; [apply pos_INR|lra]).
          apply (gramlike_ext (fun x y => (riemann (fun x => exp (- x)) (step n) (a * q x y + c) m - / 2 * exp (- sqrt (a * q x y + (c + 1)))) +
                 step n / 2 * exp (- sqrt (a * q x y + (c + INR m * step n))))).
          { intros x y. rewrite <- (Rplus_assoc _ c (INR m * step n)). ring. }
          apply gramlike_plus; [exact IH|]. apply gramlike_scale; [lra|]. apply radial_exp_sqrt; auto; lra. }
      replace (S n * (S n * S n))%nat with (S n + (S n * (S n * S n) - S n))%nat by nia. apply Up.
    + intros x y. apply (cv_minus_const (fun n => riemann (fun x => exp (- x)) (step n) (a * q x y + c) (S n * (S n * S n)))).
      apply (riemann_cv tail_fun (fun x => exp (- x)) 4 1).
      * apply tail_derivative.
      * intros u v Q. apply exp_opp_le, Q.
      * apply exp_opp_bound.
      * apply tail_small.
      * apply affine_nonneg; auto; lra.
  - apply exp_sqrt_definite; lra.
Qed.

(** (a q + c) ^ (- p) *)
Lemma power_definite a c p : 0 < a -> 0 < c -> 0 < p -> definite (fun x y => Rpower (a * q x y + c) (- p)) cs.
Proof.
  intros A C P Z.
  assert (Ps : forall x y, 0 < a * q x y + c) by (intros x y; pose proof (Rmult_le_pos a _ ltac:(lra) (q_nonneg x y)); lra).
  set (z := fun x y => Rpower (a * q x y + (c + 1)) (- (1))).
  assert (Ez : forall x y, z x y = / (a * q x y + c + 1)).
  { intros x y. unfold z. rewrite Rpower_Ropp, Rpower_1, Rplus_assoc; [reflexivity|]. specialize (Ps x y). lra. }
  assert (Pz : forall x y, 0 < z x y < 1).
  { intros x y. rewrite Ez. specialize (Ps x y). split; [apply Rinv_0_lt_compat; lra|].
    rewrite <- Rinv_1 at 2. apply Rinv_lt_contravar; lra. }
  assert (Gz : gramlike z) by (apply radial_power; auto; lra).
  apply (exp_definite eq_dec (fun x y => Rpower (a * q x y + (c + 1)) (- p) * exp (p * (- ln (1 - z x y) - z x y))) (fun x y => p * z x y) cs).
  - apply gramlike_mult; [apply radial_power; auto; lra|]. apply gramlike_exp. apply gramlike_scale; [lra|].
    apply (gramlike_seq (fun m x y => log_sum m (z x y) - z x y)).
    + intros m. apply (gramlike_ext (fun x y => sum_f_R0 (fun i => if (i =? 0)%nat then 0 else z x y ^ S i / INR (S i)) (0 + m))).
      { intros x y. rewrite (sum_without (fun i => z x y ^ S i / INR (S i))). unfold log_sum. simpl. field. }
      apply (gramlike_sum (fun i x y => if (i =? 0)%nat then 0 else z x y ^ S i / INR (S i))). intros i.
      destruct (i =? 0)%nat; [apply gramlike_const; lra|].
      apply (gramlike_ext (fun x y => / INR (S i) * z x y ^ S i)); [intros; unfold Rdiv; ring|].
      apply gramlike_scale; [apply Rlt_le, Rinv_0_lt_compat, lt_0_INR; lia|]. now apply gramlike_pow.
    + intros x y. apply (cv_minus_const (fun m => log_sum m (z x y))). apply log_sum_cv, Pz.
  - now apply gramlike_scale; [lra|].
  - exact Nd.
  - intros x _. split; [apply Rmult_lt_0_compat; apply exp_pos|]. apply Rmult_lt_0_compat; [exact P|apply Pz].
  - intros x y Ix Iy Ne. rewrite Rabs_pos_eq by (apply Rmult_le_pos; [lra|apply Rlt_le, Pz]).
    eapply Rlt_le_trans; [|apply Rmax_l]. apply Rmult_lt_compat_l; [exact P|]. rewrite !Ez, q_self, Rmult_0_r.
    pose proof (Rmult_lt_0_compat _ _ A (apart x y Ix Iy Ne)).
    apply Rinv_lt_contravar; [apply Rmult_lt_0_compat; lra|lra].
  - rewrite <- Z. apply quad_same. intros u v _ _. set (x := snd u). set (y := snd v).
    rewrite Rmult_assoc, <- exp_plus. unfold Rpower at 1 2. rewrite <- exp_plus. f_equal.
    replace (1 - z x y) with ((a * q x y + c) * z x y).
    2: { rewrite Ez. field. specialize (Ps x y). lra. }
    rewrite ln_mult by (apply Ps || apply Pz). rewrite Ez, ln_Rinv by (specialize (Ps x y); lra). rewrite Rplus_assoc. ring.
Qed.
End Points.
End Radial.
