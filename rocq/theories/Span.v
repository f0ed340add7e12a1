(** Linear combinations of products of one-variable functions: unique
    coefficients, change of family, interpolation on a grid (C89). *)
From Coq Require Import List Arith ZArith Lia Reals Lra Permutation.
From Verif Require Import Base Scalar ScalarR VecFacts Coeffs CoeffFacts KernelPsd KernelStrict.
Import ListNotations.
Local Open Scope R_scope.

(** ** polynomials in one variable *)

Fixpoint peval (l : list R) (x : R) : R :=
  match l with
  | [] => 0
  | c :: l' => c + x * peval l' x
  end.

Fixpoint pdiv (r : R) (l : list R) : list R :=
  match l with
  | [] => []
  | _ :: l' => peval l r :: pdiv r l'
  end.

Lemma pdiv_spec r x : forall l c, peval (c :: l) x = peval (c :: l) r + (x - r) * peval (pdiv r l) x.
Proof.
  induction l as [|c1 l IH]; intros c; cbn [peval pdiv] in *; [ring|].
  rewrite (IH c1) at 1. ring.
Qed.

Lemma pdiv_length r l : length (pdiv r l) = length l.
Proof. induction l; simpl; auto. Qed.

Lemma pdiv_zero r : forall l, Forall (eq 0) (pdiv r l) -> Forall (eq 0) l.
Proof.
  induction l as [|c l IH]; intros Fz; [constructor|]. cbn [pdiv] in Fz. apply Forall_cons_iff in Fz.
  destruct Fz as [E Fz]. specialize (IH Fz). constructor; auto.
  destruct l as [|c1 l]; cbn [peval] in E; [lra|]. cbn [pdiv] in Fz. apply Forall_cons_iff in Fz. destruct Fz as [E1 _].
  cbn [peval] in E1. rewrite <- E1 in E. lra.
Qed.

(** A polynomial with as many roots as coefficients is zero. *)
Lemma peval_zero : forall roots l, NoDup roots -> (length l <= length roots)%nat ->
  (forall r, In r roots -> peval l r = 0) -> Forall (eq 0) l.
Proof.
  induction roots as [|r roots IH]; intros l N Le Z.
  - destruct l; simpl in Le; [constructor|lia].
  - destruct l as [|c l]; [constructor|]. apply NoDup_cons_iff in N. destruct N as [Nr N].
    simpl in Le. assert (Zq : Forall (eq 0) (pdiv r l)).
    { apply IH; auto; [rewrite pdiv_length; lia|]. intros s I.
      pose proof (pdiv_spec r s l c) as E. rewrite (Z s (or_intror I)), (Z r (or_introl eq_refl)) in E.
      assert (s <> r) by (intros ->; auto).
      assert ((s - r) * peval (pdiv r l) s = 0) as M by lra. apply Rmult_integral in M. destruct M; [lra|auto]. }
    apply pdiv_zero in Zq. constructor; auto.
    pose proof (Z r (or_introl eq_refl)) as E. cbn [peval] in E.
    assert (peval l r = 0) as E0; [|rewrite E0 in E; lra].
    { clear - Zq. induction Zq as [|c l <- _ IH]; simpl; [auto|]. rewrite IH. ring. }
Qed.

Lemma peval_app l l' x : peval (l ++ l') x = peval l x + x ^ length l * peval l' x.
Proof. induction l as [|c l IH]; simpl; [ring|]. rewrite IH. ring. Qed.

(** [f] is a polynomial of degree [n] with leading coefficient [m]. *)
Definition pdeg (n : nat) (m : R) (f : R -> R) : Prop :=
  exists l, length l = n /\ forall x, f x = peval (l ++ [m]) x.

Fixpoint padd (l l' : list R) : list R :=
  match l, l' with
  | [], _ => l'
  | _, [] => l
  | a :: l, b :: l' => a + b :: padd l l'
  end.

Lemma padd_spec x : forall l l', peval (padd l l') x = peval l x + peval l' x.
Proof. induction l as [|a l IH]; intros [|b l']; simpl; try ring. rewrite IH. ring. Qed.

Lemma padd_length : forall l l', length (padd l l') = Nat.max (length l) (length l').
Proof. induction l as [|a l IH]; intros [|b l']; simpl; auto. Qed.

Lemma pscale_spec c x l : peval (map (Rmult c) l) x = c * peval l x.
Proof. induction l as [|a l IH]; simpl; [ring|]. rewrite IH. ring. Qed.

Lemma pdeg_const c : pdeg 0 c (fun _ => c).
Proof. exists []. split; auto. intros x. simpl. ring. Qed.

Lemma pdeg_affine a b : pdeg 1 a (fun x => a * x + b).
Proof. exists [b]. split; auto. intros x. simpl. ring. Qed.

Lemma pdeg_mul a b n m f : pdeg n m f -> pdeg (S n) (a * m) (fun x => (a * x + b) * f x).
Proof.
  intros (l & L & E). exists (padd (0 :: map (Rmult a) l) (map (Rmult b) (l ++ [m]))). split.
  - rewrite padd_length. cbn [length]. rewrite !map_length, app_length. cbn [length]. lia.
  - intros x. rewrite E, !peval_app, padd_spec, pscale_spec, !padd_length. cbn [peval]. rewrite pscale_spec, peval_app.
    cbn [length peval]. rewrite !map_length, app_length. cbn [length].
    replace (Nat.max (S (length l)) (length l + 1)) with (S (length l)) by lia. simpl. ring.
Qed.

Lemma pdeg_sub n m f n' m' g c : pdeg n m f -> pdeg n' m' g -> (n' < n)%nat -> pdeg n m (fun x => f x - c * g x).
Proof.
  intros (l & L & E) (l' & L' & E') Lt. exists (padd l (map (Rmult (- c)) (l' ++ [m']))). split.
  - rewrite padd_length, map_length, app_length. simpl. lia.
  - intros x. rewrite E, E', !peval_app, padd_spec, pscale_spec, peval_app, padd_length, map_length, app_length.
    cbn [length]. replace (Nat.max (length l) (length l' + 1)) with (length l) by lia. ring.
Qed.

Lemma pdeg_ext n m f g : (forall x, f x = g x) -> pdeg n m f -> pdeg n m g.
Proof. intros X (l & L & E). exists l. split; auto. intros x. now rewrite <- X. Qed.

Lemma pdeg_scale c n m f : pdeg n m f -> pdeg n (c * m) (fun x => c * f x).
Proof.
  intros (l & L & E). exists (map (Rmult c) l). split; [now rewrite map_length|].
  intros x. rewrite E, !peval_app, pscale_spec, map_length. simpl. ring.
Qed.

(** A family with a polynomial of each degree. *)
Definition graded (q : nat -> R -> R) : Prop := forall n, exists m, m <> 0 /\ pdeg n m (q n).

Lemma graded_pow : graded (fun i x => x ^ i).
Proof.
  intros n. exists 1. split; [lra|]. exists (repeat 0 n). split; [apply repeat_length|].
  intros x. rewrite peval_app, repeat_length.
  assert (Z : forall n, peval (repeat 0 n) x = 0) by (intros j; induction j as [|j IH]; simpl; [auto|rewrite IH; ring]).
  rewrite Z. simpl. ring.
Qed.

(** ** combinations of a family *)

Definition comb (p : nat -> R -> R) (n : nat) (c : nat -> R) (x : R) : R :=
  rsum (map (fun j => c j * p j x) (seq 0 n)).

Lemma comb_S p n c x : comb p (S n) c x = comb p n c x + c n * p n x.
Proof. unfold comb. rewrite seq_S, map_app, rsum_app. simpl. unfold rsum. simpl. ring. Qed.

Lemma comb_ext p n c c' x : (forall j, (j < n)%nat -> c j = c' j) -> comb p n c x = comb p n c' x.
Proof. intros E. apply rsum_ext. intros j I. apply in_seq in I. rewrite E by lia. reflexivity. Qed.

Lemma comb_zero p n c x : (forall j, (j < n)%nat -> c j = 0) -> comb p n c x = 0.
Proof. intros E. apply rsum_zero. intros j I. apply in_seq in I. rewrite E by lia. ring. Qed.

Lemma comb_pdeg q n c : graded q -> (0 < n)%nat -> exists l, length l = n /\ forall x, comb q n c x = peval l x.
Proof.
  intros G P. induction n as [|n IH]; [lia|]. destruct (G n) as (m & Nm & l & L & E).
  destruct n as [|n].
  - exists [c 0%nat * m]. split; auto. intros x. rewrite comb_S. unfold comb. simpl. rewrite E.
    destruct l; [|discriminate]. simpl. unfold rsum. simpl. ring.
  - destruct IH as (l' & L' & E'); [lia|].
    exists (padd l' (map (Rmult (c (S n))) (l ++ [m]))). split.
    + rewrite padd_length, map_length, app_length, L, L'. simpl. lia.
    + intros x. rewrite comb_S, E', E, padd_spec, pscale_spec. reflexivity.
Qed.

(** The coefficients of a graded family are determined by the values at as
    many points. *)
Definition indep (n : nat) (p : nat -> R -> R) (pts : list R) : Prop :=
  forall c, (forall v, In v pts -> comb p n c v = 0) -> forall j, (j < n)%nat -> c j = 0.

Lemma graded_indep q pts : graded q -> NoDup pts -> forall n, (n <= length pts)%nat -> indep n q pts.
Proof.
  intros G N n. induction n as [|n IH]; intros Le c Z j Lj; [lia|].
  assert (Top : c n = 0).
  { destruct (G n) as (m & Nm & l & L & E). destruct n as [|n].
    - destruct pts as [|v pts]; [simpl in Le; lia|]. pose proof (Z v (or_introl eq_refl)) as Z0.
      rewrite comb_S in Z0. unfold comb in Z0. simpl in Z0. rewrite E in Z0. destruct l; [|discriminate]. simpl in Z0.
      unfold rsum in Z0. simpl in Z0. assert (c 0%nat * m = 0) as M by lra. apply Rmult_integral in M. now destruct M.
    - destruct (comb_pdeg q (S n) c G) as (l' & L' & E'); [lia|].
      assert (A : Forall (eq 0) (padd l' (map (Rmult (c (S n))) l) ++ [c (S n) * m])).
      { apply (peval_zero pts); auto.
        - rewrite app_length, padd_length, map_length, L, L'. simpl. lia.
        - intros r I. rewrite <- (Z r I), comb_S, E', E, !peval_app, padd_spec, pscale_spec, padd_length, map_length, L, L', Nat.max_id.
          simpl. ring. }
      apply Forall_app in A. destruct A as [_ A]. apply Forall_inv in A. symmetry in A. apply Rmult_integral in A. now destruct A. }
  destruct (Nat.eq_dec j n) as [->|D]; [exact Top|]. apply IH; [lia| |lia].
  intros v I. rewrite <- (Z v I), comb_S, Top. ring.
Qed.

(** ** changing the family *)

(** Each of the first [n] functions of [p] is a combination of the first [n] of [q]. *)
Definition spans (n : nat) (p q : nat -> R -> R) (M : nat -> nat -> R) : Prop :=
  forall j v, (j < n)%nat -> p j v = comb q n (M j) v.

Lemma choose_nat {A} (P : nat -> A -> Prop) (d : A) n : (forall j, (j < n)%nat -> exists a, P j a) ->
  exists f, forall j, (j < n)%nat -> P j (f j).
Proof.
  induction n as [|n IH]; intros E; [exists (fun _ => d); intros; lia|].
  destruct IH as (f & F); [intros; apply E; lia|]. destruct (E n) as (a & Pa); [lia|].
  exists (fun j => if Nat.eq_dec j n then a else f j). intros j L. destruct (Nat.eq_dec j n) as [->|]; auto. apply F. lia.
Qed.

Lemma comb_lin q n c c' a b x : comb q n (fun i => a * c i + b * c' i) x = a * comb q n c x + b * comb q n c' x.
Proof.
  unfold comb. rewrite <- !rsum_scale, <- rsum_plus. apply rsum_ext. intros. ring.
Qed.

Lemma comb_single q n i v : (i < n)%nat -> comb q n (fun j => if Nat.eq_dec j i then 1 else 0) v = q i v.
Proof.
  induction n as [|n IH]; intros L; [lia|]. rewrite comb_S. destruct (Nat.eq_dec n i) as [->|D].
  - rewrite comb_zero; [ring|]. intros j Lj. destruct (Nat.eq_dec j i); [lia|auto].
  - rewrite IH by lia. ring.
Qed.

Lemma pow_in_graded q : graded q -> forall i n, (i < n)%nat -> exists c, forall v, v ^ i = comb q n c v.
Proof.
  intros G i. induction i as [i IH] using lt_wf_ind. intros n L.
  destruct (G i) as (m & Nm & l & Ll & E).
  (* the lower terms *)
  assert (Low : forall l', (length l' <= i)%nat -> exists c, forall v, peval l' v = comb q n c v).
  { intros l' Le. induction l' as [|a l' IHl] using rev_ind; [exists (fun _ => 0); intros; now rewrite comb_zero|].
    rewrite app_length in Le. simpl in Le. destruct IHl as (c & Ec); [lia|]. destruct (IH (length l') ltac:(lia) n ltac:(lia)) as (c' & Ec').
    exists (fun j => 1 * c j + a * c' j). intros v. rewrite comb_lin, peval_app, Ec, Ec'. simpl. ring. }
  destruct (Low l ltac:(lia)) as (c & Ec).
  exists (fun j => / m * (if Nat.eq_dec j i then 1 else 0) + (- / m) * c j). intros v.
  rewrite comb_lin, comb_single, <- Ec, E, peval_app, Ll by auto. simpl. field. exact Nm.
Qed.

Lemma graded_spans p q n : graded p -> graded q -> exists M, spans n p q M.
Proof.
  intros Gp Gq. destruct (choose_nat (fun j c => forall v, p j v = comb q n c v) (fun _ => 0) n) as (M & E).
  - intros j L. destruct (Gp j) as (m & _ & l & Ll & E).
    assert (Low : forall l', (length l' <= S j)%nat -> exists c, forall v, peval l' v = comb q n c v).
    { intros l' Le. induction l' as [|a l' IHl] using rev_ind; [exists (fun _ => 0); intros; now rewrite comb_zero|].
      rewrite app_length in Le. simpl in Le. destruct IHl as (c & Ec); [lia|]. destruct (pow_in_graded q Gq (length l') n) as (c' & Ec'); [lia|].
      exists (fun j => 1 * c j + a * c' j). intros v. rewrite comb_lin, peval_app, Ec, Ec'. simpl. ring. }
    destruct (Low (l ++ [m])) as (c & Ec); [rewrite app_length; simpl; lia|]. exists c. intros v. now rewrite E.
  - exists M. intros j v L. now apply E.
Qed.

(** ** products of one function per coordinate *)

Fixpoint tprod (ps : list (nat -> R -> R)) (e : list nat) (x : list R) : R :=
  match ps, e, x with
  | p :: ps', i :: e', v :: x' => p i v * tprod ps' e' x'
  | _, _, _ => 1
  end.

(** All index vectors with [d] entries below [n]. *)
Definition box (n d : nat) : list (list nat) := multi_product (repeat (seq 0 n) d).

Definition tsum (n : nat) (ps : list (nat -> R -> R)) (w : list nat -> R) (x : list R) : R :=
  rsum (map (fun e => w e * tprod ps e x) (box n (length ps))).

Lemma rsum_flat_map {A B} (f : B -> R) (g : A -> list B) l :
  rsum (map f (flat_map g l)) = rsum (map (fun a => rsum (map f (g a))) l).
Proof.
  induction l as [|a l IH]; [reflexivity|]. cbn [flat_map map]. rewrite map_app, rsum_app, rsum_cons, IH. reflexivity.
Qed.

Lemma tsum_cons n p ps w v x : tsum n (p :: ps) w (v :: x) = comb p n (fun j => tsum n ps (fun e => w (j :: e)) x) v.
Proof.
  unfold tsum, comb, box. cbn [length repeat multi_product]. rewrite rsum_flat_map.
  apply rsum_ext. intros j _. rewrite map_map. cbn [tprod].
  rewrite Rmult_comm, <- rsum_scale. apply rsum_ext. intros e _. ring.
Qed.

Lemma tsum_nil n w x : tsum n [] w x = w [].
Proof. unfold tsum, box, rsum. simpl. ring. Qed.

Lemma tsum_sum {A} n ps (W : A -> list nat -> R) c l x :
  tsum n ps (fun e => rsum (map (fun a => c a * W a e) l)) x = rsum (map (fun a => c a * tsum n ps (W a) x) l).
Proof.
  unfold tsum. 
  transitivity (rsum (map (fun e => rsum (map (fun a => c a * (W a e * tprod ps e x)) l)) (box n (length ps)))).
  - apply rsum_ext. intros e _. rewrite Rmult_comm, <- rsum_scale. apply rsum_ext. intros. ring.
  - rewrite rsum_swap. apply rsum_ext. intros a _. apply rsum_scale.
Qed.

(** *** coefficients are determined *)

Lemma tsum_indep n : forall ps ptss w, Forall2 (indep n) ps ptss ->
  (forall x, Forall2 (fun v pts => In v pts) x ptss -> tsum n ps w x = 0) ->
  forall e, In e (box n (length ps)) -> w e = 0.
Proof.
  induction ps as [|p ps IH]; intros ptss w F Z e I; inversion F as [|p' pts ps' ptss' Ip F']; subst.
  - simpl in I. destruct I as [<-|[]]. rewrite <- (Z [] (Forall2_nil _)). symmetry. apply tsum_nil.
  - unfold box in I. cbn [length repeat multi_product] in I. apply in_flat_map in I. destruct I as (j & Ij & I).
    apply in_map_iff in I. destruct I as (e' & <- & I). apply in_seq in Ij.
    apply (IH ptss' (fun e => w (j :: e)) F'); [|exact I]. intros x Fx.
    apply (Ip (fun j => tsum n ps (fun e => w (j :: e)) x)); [|lia].
    intros v Iv. rewrite <- tsum_cons. apply Z. constructor; auto.
Qed.

(** *** changing the family *)

Fixpoint change (n : nat) (Ms : list (nat -> nat -> R)) (w : list nat -> R) : list nat -> R :=
  match Ms with
  | [] => w
  | M :: Ms' => fun e => match e with
      | [] => 0
      | i :: e' => rsum (map (fun j => M j i * change n Ms' (fun r => w (j :: r)) e') (seq 0 n))
      end
  end.

Lemma tsum_change n : forall ps qs Ms w x, length x = length ps ->
  Forall2 (fun pq M => spans n (fst pq) (snd pq) M) (combine ps qs) Ms -> length qs = length ps ->
  tsum n ps w x = tsum n qs (change n Ms w) x.
Proof.
  induction ps as [|p ps IH]; intros [|q qs] Ms w [|v x] L F Lq; try discriminate.
  - simpl in F. inversion F; subst. rewrite !tsum_nil. reflexivity.
  - cbn [combine] in F. inversion F as [|pq M pqs Ms' Sp F']; subst. cbn [fst snd] in Sp.
    rewrite !tsum_cons. unfold comb at 1.
    transitivity (rsum (map (fun j => rsum (map (fun i => tsum n qs (change n Ms' (fun e => w (j :: e))) x * (M j i * q i v)) (seq 0 n))) (seq 0 n))).
    { apply rsum_ext. intros j I. apply in_seq in I. rewrite (Sp j v) by lia. unfold comb.
      rewrite <- rsum_scale, (IH qs Ms') by auto. reflexivity. }
    rewrite rsum_swap. unfold comb. apply rsum_ext. intros i I. cbn [change].
    rewrite (tsum_sum n qs (fun j => change n Ms' (fun r => w (j :: r))) (fun j => M j i)).
    rewrite (Rmult_comm _ (q i v)), <- rsum_scale. apply rsum_ext. intros j _. ring.
Qed.

Lemma tsum_graded n : forall ps qs w, Forall graded ps -> Forall graded qs -> length qs = length ps ->
  exists w', forall x, length x = length ps -> tsum n ps w x = tsum n qs w' x.
Proof.
  intros ps qs w Gp Gq L.
  assert (exists Ms, Forall2 (fun pq M => spans n (fst pq) (snd pq) M) (combine ps qs) Ms) as (Ms & F).
  { revert qs Gq L. induction Gp as [|p ps G Gp IH]; intros [|q qs] Gq L; try discriminate; [exists []; constructor|].
    apply Forall_cons_iff in Gq. destruct Gq as [Hq Gq]. destruct (IH qs Gq) as (Ms & F); [simpl in L; lia|].
    destruct (graded_spans p q n G Hq) as (M & Sp). exists (M :: Ms). constructor; auto. }
  exists (change n Ms w). intros x Lx. now apply tsum_change.
Qed.

(** *** interpolation *)

(** The function that is 1 at the [i]-th point and 0 at the others is a
    combination of any graded family. *)
Definition rroots (l : list R) (x : R) : R := fold_right (fun r a => (x - r) * a) 1 l.

Lemma rroots_zero l x : In x l -> rroots l x = 0.
Proof. induction l as [|r l IH]; intros []; simpl; [subst; ring|rewrite IH by auto; ring]. Qed.

Lemma rroots_nonzero l x : ~ In x l -> rroots l x <> 0.
Proof.
  induction l as [|r l IH]; simpl; intros N; [lra|]. apply Rmult_integral_contrapositive_currified; [|apply IH; tauto].
  intros E. apply N. left. lra.
Qed.

Lemma rroots_pdeg l : pdeg (length l) 1 (rroots l).
Proof.
  induction l as [|r l IH]; [exact (pdeg_const 1)|]. pose proof (pdeg_mul 1 (- r) _ _ _ IH) as D.
  rewrite Rmult_1_l in D. eapply pdeg_ext; [|exact D]. intros x. cbn [rroots fold_right]. fold (rroots l x). ring.
Qed.

Lemma lagrange q pts : graded q -> NoDup pts -> forall i a, nth_error pts i = Some a ->
  exists c, forall j b, nth_error pts j = Some b -> comb q (length pts) c b = if Nat.eq_dec j i then 1 else 0.
Proof.
  intros G N i a E. destruct (nth_error_split _ _ E) as (l1 & l2 & Ep & Li).
  pose proof N as N'. rewrite Ep in N'. apply NoDup_remove in N'. destruct N' as [_ Na].
  pose (L := l1 ++ l2). assert (Len : length pts = S (length L)) by (unfold L; rewrite Ep, !app_length; simpl; lia).
  assert (exists c, forall v, rroots L v = comb q (length pts) c v) as (c & Ec).
  { destruct (rroots_pdeg L) as (l & Ll & Er). rewrite Len.
    assert (Low : forall l', (length l' <= S (length L))%nat -> exists c, forall v, peval l' v = comb q (S (length L)) c v).
    { intros l' Le. induction l' as [|b l' IHl] using rev_ind; [exists (fun _ => 0); intros; now rewrite comb_zero|].
      rewrite app_length in Le. simpl in Le. destruct IHl as (c & Ec); [lia|]. destruct (pow_in_graded q G (length l') (S (length L))) as (c' & Ec'); [lia|].
      exists (fun j => 1 * c j + b * c' j). intros v. rewrite comb_lin, peval_app, Ec, Ec'. simpl. ring. }
    destruct (Low (l ++ [1])) as (c & Ec); [rewrite app_length; simpl; lia|]. exists c. intros v. now rewrite Er. }
  exists (fun j => / rroots L a * c j + 0 * c j). intros j b Eb. rewrite comb_lin, <- Ec.
  destruct (Nat.eq_dec j i) as [->|D].
  - rewrite E in Eb. inversion Eb; subst b. field. now apply rroots_nonzero.
  - rewrite (rroots_zero L b); [ring|]. unfold L. apply in_or_app.
    rewrite Ep in Eb. destruct (lt_eq_lt_dec j i) as [[Lt|]|Gt]; [|lia|].
    + left. rewrite nth_error_app1 in Eb by lia. eapply nth_error_In; eauto.
    + right. rewrite nth_error_app2 in Eb by lia. destruct (j - length l1)%nat as [|m] eqn:Em; [lia|]. simpl in Eb.
      eapply nth_error_In; eauto.
Qed.

(** The point of the grid [ptss] at the index vector [e]. *)
Definition at_grid (ptss : list (list R)) (e : list nat) (x : list R) : Prop :=
  Forall2 (fun (pi : list R * nat) v => nth_error (fst pi) (snd pi) = Some v) (combine ptss e) x /\ length e = length ptss.

Definition delta (pts : list R) (i : nat) (v : R) : R :=
  match nth_error pts i with Some a => if Req_EM_T a v then 1 else 0 | None => 0 end.

Lemma delta_at pts i j v : NoDup pts -> (i < length pts)%nat -> nth_error pts j = Some v ->
  delta pts i v = if Nat.eq_dec i j then 1 else 0.
Proof.
  intros N L E. unfold delta. destruct (nth_error pts i) as [a|] eqn:Ei; [|apply nth_error_None in Ei; lia].
  destruct (Req_EM_T a v) as [->|D], (Nat.eq_dec i j) as [->|D']; auto.
  - exfalso. apply D'. apply (proj1 (NoDup_nth_error pts) N); auto. congruence.
  - congruence.
Qed.

(** On a grid with [n] distinct values per axis some combination takes any values. *)
Lemma tsum_interpolate n : forall qs ptss (y : list nat -> R), Forall graded qs ->
  Forall (fun pts => NoDup pts /\ length pts = n) ptss -> length qs = length ptss ->
  exists w, forall e x, at_grid ptss e x -> tsum n qs w x = y e.
Proof.
  induction qs as [|q qs IH]; intros [|pts ptss] y G P L; try discriminate.
  - exists y. intros e x [A Le]. destruct e; [|discriminate]. simpl in A. inversion A; subst. apply tsum_nil.
  - apply Forall_cons_iff in G, P. destruct G as [Gq G], P as [[Nd Lp] P].
    destruct (choose_nat (fun i w => forall e x, at_grid ptss e x -> tsum n qs w x = y (i :: e)) (fun _ => 0) n) as (W & HW).
    { intros i _. apply (IH ptss (fun e => y (i :: e))); auto. }
    destruct (choose_nat (fun i c => forall j b, nth_error pts j = Some b -> comb q n c b = if Nat.eq_dec j i then 1 else 0) (fun _ => 0) n) as (C & HC).
    { intros i Li. destruct (nth_error pts i) as [a|] eqn:E; [|apply nth_error_None in E; lia].
      destruct (lagrange q pts Gq Nd i a E) as (c & Hc). rewrite Lp in Hc. now exists c. }
    exists (fun e => match e with [] => 0 | j :: e' => rsum (map (fun i => C i j * W i e') (seq 0 n)) end).
    intros e x [A Le]. destruct e as [|i e]; [discriminate|]. simpl in Le. cbn [combine] in A.
    inversion A as [|pi v pis x' Ev A']; subst. cbn [fst snd] in Ev. rewrite tsum_cons.
    assert (At : at_grid ptss e x') by (split; auto).
    assert (Li : (i < length pts)%nat) by (apply nth_error_Some; congruence).
    transitivity (rsum (map (fun i0 => tsum (length pts) qs (W i0) x' * comb q (length pts) (C i0) v) (seq 0 (length pts)))).
    { unfold comb at 1.
      transitivity (rsum (map (fun j => rsum (map (fun i0 => tsum (length pts) qs (W i0) x' * (C i0 j * q j v)) (seq 0 (length pts)))) (seq 0 (length pts)))).
      - apply rsum_ext. intros j _. rewrite (tsum_sum (length pts) qs W (fun i0 => C i0 j)).
        rewrite (Rmult_comm _ (q j v)), <- rsum_scale. apply rsum_ext. intros. ring.
      - rewrite rsum_swap. apply rsum_ext. intros i0 _. unfold comb. rewrite <- rsum_scale. reflexivity. }
    transitivity (comb (fun _ _ => 1) (length pts) (fun i0 => if Nat.eq_dec i0 i then y (i :: e) else 0) v).
    + unfold comb at 2. apply rsum_ext. intros i0 I0. apply in_seq in I0. rewrite (HC i0 ltac:(lia) i v Ev).
      destruct (Nat.eq_dec i i0) as [<-|D]; destruct (Nat.eq_dec _ _) as [E'|D']; try congruence; [|ring].
      rewrite (HW i ltac:(lia) e x' At). reflexivity.
    + unfold comb.
      assert (forall m, (i < m)%nat -> rsum (map (fun j => (if Nat.eq_dec j i then y (i :: e) else 0) * 1) (seq 0 m)) = y (i :: e)) as K; [|now apply K].
      intros m. induction m as [|m IHm]; intros Lm; [lia|]. rewrite seq_S, map_app, rsum_app. cbn [map plus].
      rewrite rsum_cons. unfold rsum at 2. cbn [fold_right]. destruct (Nat.eq_dec m i) as [->|D].
      * rewrite rsum_zero; [ring|]. intros j Ij. apply in_seq in Ij. destruct (Nat.eq_dec j i); [lia|ring].
      * rewrite IHm by lia. ring.
Qed.
