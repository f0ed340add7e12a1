(** Positive semidefinite kernels over the reals.

    A kernel is in the class [gramlike] if on every finite set of points it is,
    to any precision, an inner product of finitely many real features. The class
    is closed under sums, products, non-negative multiples, pointwise limits and
    exp, and each of its members has positive semidefinite Gram matrices. *)
From Coq Require Import List Arith ZArith Lia Reals Lra Factorial.
From Verif Require Import ScalarR.
Import ListNotations.
Local Open Scope R_scope.

Section Class.
Context {X : Type}.

(** sum over i and j of c_i c_j k(x_i, x_j) *)
Definition quad (k : X -> X -> R) (cs : list (R * X)) : R :=
  rsum (map (fun a => rsum (map (fun b => fst a * fst b * k (snd a) (snd b)) cs)) cs).

Definition gram (fs : list (X -> R)) (x y : X) : R := rsum (map (fun f => f x * f y) fs).

Definition gramlike (k : X -> X -> R) : Prop := forall pts eps, 0 < eps ->
  exists fs, forall x y, In x pts -> In y pts -> Rabs (k x y - gram fs x y) < eps.

(** ** sums *)

Lemma rsum_cons a l : rsum (a :: l) = a + rsum l.
Proof. reflexivity. Qed.

Lemma rsum_app l l' : rsum (l ++ l') = rsum l + rsum l'.
Proof. induction l; cbn [app]; rewrite ?rsum_cons; [unfold rsum at 2; simpl; ring|]. rewrite IHl. ring. Qed.

Lemma rsum_scale {A} c (g : A -> R) l : rsum (map (fun a => c * g a) l) = c * rsum (map g l).
Proof. induction l; cbn [map]; rewrite ?rsum_cons; [unfold rsum; simpl; ring|]. rewrite IHl. ring. Qed.

Lemma rsum_plus {A} (f g : A -> R) l : rsum (map (fun a => f a + g a) l) = rsum (map f l) + rsum (map g l).
Proof. induction l; cbn [map]; rewrite ?rsum_cons; [unfold rsum; simpl; ring|]. rewrite IHl. ring. Qed.

Lemma rsum_ext {A} (f g : A -> R) l : (forall a, In a l -> f a = g a) -> rsum (map f l) = rsum (map g l).
Proof. intros E. f_equal. apply map_ext_in, E. Qed.

Lemma rsum_nonneg {A} (f : A -> R) l : (forall a, In a l -> 0 <= f a) -> 0 <= rsum (map f l).
Proof.
  induction l; intros P; cbn [map]; rewrite ?rsum_cons; [unfold rsum; simpl; lra|].
  pose proof (P a (or_introl eq_refl)). specialize (IHl (fun b I => P b (or_intror I))). lra.
Qed.

Lemma rsum_le {A} (f g : A -> R) l : (forall a, In a l -> f a <= g a) -> rsum (map f l) <= rsum (map g l).
Proof.
  induction l; intros P; cbn [map]; rewrite ?rsum_cons; [unfold rsum; simpl; lra|].
  pose proof (P a (or_introl eq_refl)). specialize (IHl (fun b I => P b (or_intror I))). lra.
Qed.

Lemma rsum_swap {A B} (f : A -> B -> R) l l' :
  rsum (map (fun a => rsum (map (fun b => f a b) l')) l) = rsum (map (fun b => rsum (map (fun a => f a b) l)) l').
Proof.
  induction l; cbn [map]; rewrite ?rsum_cons.
  - symmetry. induction l'; [reflexivity|]. cbn [map]. rewrite rsum_cons, IHl'. unfold rsum. simpl. ring.
  - rewrite IHl, <- rsum_plus. reflexivity.
Qed.

(** ** inner products are positive semidefinite *)

Lemma quad_gram fs cs : 0 <= quad (gram fs) cs.
Proof.
  unfold quad, gram.
  replace (rsum _) with (rsum (map (fun f : X -> R => rsum (map (fun a => fst a * f (snd a)) cs) * rsum (map (fun a => fst a * f (snd a)) cs)) fs)).
  { apply rsum_nonneg. intros f _. apply Rle_0_sqr. }
  transitivity (rsum (map (fun a : R * X => rsum (map (fun f : X -> R => rsum (map (fun b => fst a * f (snd a) * (fst b * f (snd b))) cs)) fs)) cs)).
  - rewrite (rsum_swap (fun (a : R * X) (f : X -> R) => rsum (map (fun b => fst a * f (snd a) * (fst b * f (snd b))) cs))).
    apply rsum_ext. intros f _. rewrite <- rsum_scale. apply rsum_ext. intros a _.
    rewrite Rmult_comm, rsum_scale. reflexivity.
  - apply rsum_ext. intros a _.
    rewrite (rsum_swap (fun (f : X -> R) (b : R * X) => fst a * f (snd a) * (fst b * f (snd b)))).
    apply rsum_ext. intros b _. rewrite <- rsum_scale. apply rsum_ext. intros f _. ring.
Qed.

Lemma quad_close k k' cs eps :
  (forall a b, In a cs -> In b cs -> Rabs (k (snd a) (snd b) - k' (snd a) (snd b)) <= eps) ->
  let m := rsum (map (fun a => Rabs (fst a)) cs) in
  quad k' cs - eps * (m * m) <= quad k cs.
Proof.
  intros C m.
  assert (E : quad k' cs + (- eps * m) * m <= quad k cs); [|lra].
  unfold quad. unfold m at 2. rewrite <- rsum_scale, <- rsum_plus.
  apply rsum_le. intros a Ia.
  replace (- eps * m * Rabs (fst a)) with ((- eps * Rabs (fst a)) * m) by ring.
  unfold m. rewrite <- rsum_scale, <- rsum_plus. apply rsum_le. intros b Ib.
  pose proof (C a b Ia Ib) as L.
  assert (Q : Rabs (fst a * fst b * (k (snd a) (snd b) - k' (snd a) (snd b))) <= Rabs (fst a) * Rabs (fst b) * eps).
  { rewrite !Rabs_mult. apply Rmult_le_compat_l; [|exact L].
    apply Rmult_le_pos; apply Rabs_pos. }
  assert (Q' : - (Rabs (fst a) * Rabs (fst b) * eps) <= fst a * fst b * (k (snd a) (snd b) - k' (snd a) (snd b))).
  { eapply Rle_trans; [apply Ropp_le_contravar, Q|].
    rewrite <- (Rabs_Ropp (fst a * fst b * _)).
    pose proof (Rle_abs (- (fst a * fst b * (k (snd a) (snd b) - k' (snd a) (snd b))))). lra. }
  lra.
Qed.

Lemma gramlike_psd k cs : gramlike k -> 0 <= quad k cs.
Proof.
  intros G. destruct (Rle_lt_dec 0 (quad k cs)) as [|N]; [assumption|exfalso].
  set (m := rsum (map (fun a => Rabs (fst a)) cs)).
  set (e := - quad k cs / (2 * (1 + m * m))).
  assert (Pm : 0 <= m * m) by apply Rle_0_sqr.
  assert (Pe : 0 < e) by (apply Rdiv_lt_0_compat; lra).
  destruct (G (map snd cs) e Pe) as [fs A].
  assert (Q := quad_close k (gram fs) cs e). fold m in Q.
  assert (C : forall a b, In a cs -> In b cs -> Rabs (k (snd a) (snd b) - gram fs (snd a) (snd b)) <= e).
  { intros a b Ia Ib. apply Rlt_le, A; now apply in_map. }
  specialize (Q C). cbv zeta in Q. pose proof (quad_gram fs cs) as Z.
  assert (e * (1 + m * m) = - quad k cs / 2) by (unfold e; field; lra).
  assert (e * (m * m) <= - quad k cs / 2) by (rewrite <- H; apply Rmult_le_compat_l; lra).
  lra.
Qed.

(** ** closure *)

Lemma gramlike_ext k k' : (forall x y, k x y = k' x y) -> gramlike k -> gramlike k'.
Proof. intros E G pts eps P. destruct (G pts eps P) as [fs A]. exists fs. intros x y. rewrite <- E. apply A. Qed.

Lemma gramlike_limit k :
  (forall pts eps, 0 < eps -> exists k', gramlike k' /\
     forall x y, In x pts -> In y pts -> Rabs (k x y - k' x y) < eps) -> gramlike k.
Proof.
  intros L pts eps P. destruct (L pts (eps / 2)) as (k' & G & C); [lra|].
  destruct (G pts (eps / 2)) as [fs A]; [lra|]. exists fs. intros x y Ix Iy.
  specialize (C x y Ix Iy). specialize (A x y Ix Iy).
  replace (k x y - gram fs x y) with ((k x y - k' x y) + (k' x y - gram fs x y)) by ring.
  eapply Rle_lt_trans; [apply Rabs_triang|]. lra.
Qed.

Lemma gramlike_gram fs : gramlike (gram fs).
Proof. intros pts eps P. exists fs. intros. rewrite Rminus_diag_eq, Rabs_R0; auto. Qed.

Lemma gramlike_rank1 f : gramlike (fun x y => f x * f y).
Proof. apply (gramlike_ext (gram [f])); [|apply gramlike_gram]. intros. unfold gram, rsum. simpl. ring. Qed.

Lemma gramlike_const c : 0 <= c -> gramlike (fun _ _ => c).
Proof.
  intros P. apply (gramlike_ext (fun _ _ => sqrt c * sqrt c)); [intros; apply sqrt_sqrt, P|].
  apply (gramlike_rank1 (fun _ => sqrt c)).
Qed.

Lemma gram_app fs gs x y : gram (fs ++ gs) x y = gram fs x y + gram gs x y.
Proof. unfold gram. rewrite map_app. apply rsum_app. Qed.

Lemma gramlike_plus k k' : gramlike k -> gramlike k' -> gramlike (fun x y => k x y + k' x y).
Proof.
  intros G G' pts eps P. destruct (G pts (eps / 2)) as [fs A]; [lra|]. destruct (G' pts (eps / 2)) as [gs B]; [lra|].
  exists (fs ++ gs). intros x y Ix Iy. rewrite gram_app. specialize (A x y Ix Iy). specialize (B x y Ix Iy).
  replace (k x y + k' x y - (gram fs x y + gram gs x y)) with ((k x y - gram fs x y) + (k' x y - gram gs x y)) by ring.
  eapply Rle_lt_trans; [apply Rabs_triang|]. lra.
Qed.

Lemma gram_mult fs gs x y :
  gram (flat_map (fun f => map (fun g z => f z * g z) gs) fs) x y = gram fs x y * gram gs x y.
Proof.
  induction fs; cbn [flat_map].
  - unfold gram, rsum. simpl. ring.
  - rewrite gram_app, IHfs. change (gram (a :: fs) x y) with (a x * a y + gram fs x y).
    rewrite Rmult_plus_distr_r. f_equal.
    unfold gram. rewrite map_map, <- rsum_scale. apply rsum_ext. intros. ring.
Qed.

Lemma finite_bound (k : X -> X -> R) pts : exists b, 1 <= b /\ forall x y, In x pts -> In y pts -> Rabs (k x y) <= b.
Proof.
  exists (1 + rsum (map (fun x => rsum (map (fun y => Rabs (k x y)) pts)) pts)).
  assert (N : forall x l, 0 <= rsum (map (fun y => Rabs (k x y)) l)) by (intros; apply rsum_nonneg; intros; apply Rabs_pos).
  assert (In1 : forall (f : X -> R) l z, (forall a, 0 <= f a) -> In z l -> f z <= rsum (map f l)).
  { clear. intros f l z P. induction l; intros I; [destruct I|]. cbn [map]. rewrite rsum_cons.
    destruct I as [->|I].
    - pose proof (rsum_nonneg f l (fun a _ => P a)). lra.
    - specialize (IHl I). specialize (P a). lra. }
  split.
  - assert (0 <= rsum (map (fun x => rsum (map (fun y => Rabs (k x y)) pts)) pts)); [|lra].
    apply rsum_nonneg. intros. apply N.
  - intros x y Ix Iy.
    pose proof (In1 (fun y => Rabs (k x y)) pts y (fun _ => Rabs_pos _) Iy).
    pose proof (In1 (fun x => rsum (map (fun y => Rabs (k x y)) pts)) pts x (fun _ => N _ _) Ix). cbv beta in *. lra.
Qed.

Lemma gramlike_mult k k' : gramlike k -> gramlike k' -> gramlike (fun x y => k x y * k' x y).
Proof.
  intros G G' pts eps P.
  destruct (finite_bound k pts) as (b & B1 & B). destruct (finite_bound k' pts) as (b' & B1' & B').
  set (e := Rmin 1 (eps / (2 * (b + b' + 1)))).
  assert (Pe : 0 < e).
  { apply Rmin_glb_lt; [lra|]. apply Rdiv_lt_0_compat; lra. }
  assert (Le : e <= 1) by apply Rmin_l.
  assert (Es : e * (b + b' + 1) <= eps / 2).
  { assert (e <= eps / (2 * (b + b' + 1))) by apply Rmin_r.
    apply Rmult_le_compat_r with (r := b + b' + 1) in H; [|lra].
    replace (eps / (2 * (b + b' + 1)) * (b + b' + 1)) with (eps / 2) in H by (field; lra). exact H. }
  destruct (G pts e Pe) as [fs A]. destruct (G' pts e Pe) as [gs A'].
  exists (flat_map (fun f => map (fun g z => f z * g z) gs) fs). intros x y Ix Iy.
  rewrite gram_mult. specialize (A x y Ix Iy). specialize (A' x y Ix Iy).
  specialize (B x y Ix Iy). specialize (B' x y Ix Iy).
  set (u := k x y) in *. set (v := k' x y) in *. set (p := gram fs x y) in *. set (q := gram gs x y) in *.
  replace (u * v - p * q) with (u * (v - q) + (u - p) * (v - (v - q))) by ring.
  eapply Rle_lt_trans; [apply Rabs_triang|]. rewrite !Rabs_mult.
  assert (Rabs (v - (v - q)) <= b' + 1).
  { eapply Rle_trans; [apply Rabs_triang|]. rewrite Rabs_Ropp. lra. }
  assert (Rabs u * Rabs (v - q) <= b * e) by (apply Rmult_le_compat; try apply Rabs_pos; lra).
  assert (Rabs (u - p) * Rabs (v - (v - q)) <= e * (b' + 1)) by (apply Rmult_le_compat; try apply Rabs_pos; lra).
  lra.
Qed.

Lemma gramlike_scale c k : 0 <= c -> gramlike k -> gramlike (fun x y => c * k x y).
Proof. intros P G. apply (gramlike_mult (fun _ _ => c)); [apply gramlike_const, P|exact G]. Qed.

Lemma gramlike_pow k n : gramlike k -> gramlike (fun x y => k x y ^ n).
Proof.
  intros G. induction n; cbn [pow]; [apply gramlike_const; lra|]. now apply gramlike_mult.
Qed.

(** A pointwise limit of a sequence of kernels of the class. *)
Lemma eventually_all (S : X -> X -> nat -> R) (k : X -> X -> R) pts eps :
  (forall x y, In x pts -> In y pts -> Un_cv (S x y) (k x y)) -> 0 < eps ->
  exists N, forall n, (N <= n)%nat -> forall x y, In x pts -> In y pts -> Rabs (k x y - S x y n) < eps.
Proof.
  intros C P.
  assert (Row : forall x l, In x pts -> incl l pts -> exists N, forall n, (N <= n)%nat -> forall y, In y l -> Rabs (k x y - S x y n) < eps).
  { intros x l Ix. induction l; intros I.
    - exists O. intros n _ y [].
    - destruct IHl as [N H]; [intros z Iz; apply I; now right|].
      destruct (C x a Ix (I a (or_introl eq_refl)) eps P) as [M H'].
      exists (N + M)%nat. intros n L y [<-|Iy].
      + rewrite Rabs_minus_sym. apply H'. lia.
      + apply H; [lia|exact Iy]. }
  assert (All : forall l, incl l pts -> exists N, forall n, (N <= n)%nat -> forall x y, In x l -> In y pts -> Rabs (k x y - S x y n) < eps).
  { induction l; intros I.
    - exists O. intros n _ x y [].
    - destruct IHl as [N H]; [intros z Iz; apply I; now right|].
      destruct (Row a pts (I a (or_introl eq_refl)) (fun z Iz => Iz)) as [M H'].
      exists (N + M)%nat. intros n L x y [<-|Ix] Iy.
      + apply H'; [lia|exact Iy].
      + apply H; [lia|exact Ix|exact Iy]. }
  exact (All pts (fun z Iz => Iz)).
Qed.

Lemma gramlike_seq (S : nat -> X -> X -> R) k :
  (forall n, gramlike (S n)) -> (forall x y, Un_cv (fun n => S n x y) (k x y)) -> gramlike k.
Proof.
  intros G C. apply gramlike_limit. intros pts eps P.
  destruct (eventually_all (fun x y n => S n x y) k pts eps (fun x y _ _ => C x y) P) as [N H].
  exists (S N). split; [apply G|]. apply H. lia.
Qed.

Lemma gramlike_sum (S : nat -> X -> X -> R) n :
  (forall i, gramlike (S i)) -> gramlike (fun x y => sum_f_R0 (fun i => S i x y) n).
Proof. intros G. induction n; cbn [sum_f_R0]; [apply G|]. now apply gramlike_plus. Qed.

Lemma gramlike_exp k : gramlike k -> gramlike (fun x y => exp (k x y)).
Proof.
  intros G. apply (gramlike_seq (fun n x y => E1 (k x y) n)); [|intros; apply E1_cvg].
  intros n. unfold E1. apply (gramlike_sum (fun i x y => / INR (fact i) * k x y ^ i)).
  intros i. apply gramlike_scale; [|now apply gramlike_pow].
  apply Rlt_le, Rinv_0_lt_compat, INR_fact_lt_0.
Qed.
End Class.
