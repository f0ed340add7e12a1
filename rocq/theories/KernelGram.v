(** The Gram matrices of the kernels of Kernels.v over the reals (C68). *)
From Coq Require Import List Arith ZArith Lia Reals Lra.
From Verif Require Import Base Scalar NdArray Features FeatureFacts ScalarR Kernels BasisReal KernelPsd KernelRadial.
Import ListNotations.
Local Open Scope R_scope.

(** ** inner products of lists *)

Lemma rdot_nth m : forall a b, length a = m -> length b = m ->
  rdot a b = rsum (map (fun i => nth i a 0 * nth i b 0) (seq 0 m)).
Proof.
  induction m as [|m IH]; intros [|u a] [|v b] La Lb; try discriminate; [reflexivity|].
  cbn [seq map]. rewrite rsum_cons. cbn [nth]. rewrite <- seq_shift, map_map. cbn [nth].
  rewrite <- IH by (simpl in *; lia). reflexivity.
Qed.

Lemma gramlike_rdot {X} (s : X -> list R) m : (forall x, length (s x) = m) -> gramlike (fun x y => rdot (s x) (s y)).
Proof.
  intros L. apply (gramlike_ext (gram (map (fun i x => nth i (s x) 0) (seq 0 m)))); [|apply gramlike_gram].
  intros x y. rewrite (rdot_nth m) by apply L. unfold gram. now rewrite map_map.
Qed.

Definition scaled (ls x : list R) : list R := map2 Rdiv x ls.

Lemma sq_dist_expand ls : forall x y, length x = length y ->
  sq_dist ls x y = rdot (scaled ls x) (scaled ls x) + rdot (scaled ls y) (scaled ls y) - 2 * rdot (scaled ls x) (scaled ls y).
Proof.
  unfold sq_dist, scaled, rdot. induction ls as [|l ls IH]; intros [|a x] [|b y] L; try discriminate; simpl; try ring.
  rewrite IH by (simpl in L; lia). unfold Rdiv. ring.
Qed.

(** Points of n coordinates; longer ones are cut, shorter ones padded. *)
Definition pad (n : nat) (x : list R) : list R := map (fun i => nth i x 0) (seq 0 n).

Lemma pad_length n x : length (pad n x) = n.
Proof. unfold pad. now rewrite map_length, seq_length. Qed.

Lemma pad_id n : forall x, length x = n -> pad n x = x.
Proof.
  unfold pad. induction n as [|n IH]; intros [|a x] L; try discriminate; [reflexivity|].
  cbn [seq map nth]. rewrite <- seq_shift, map_map. cbn [nth]. now rewrite IH by (simpl in L; lia).
Qed.

Definition pdist (n : nat) (ls : list R) (x y : list R) : R := sq_dist ls (pad n x) (pad n y).

Lemma pdist_nonneg n ls x y : 0 <= pdist n ls x y.
Proof. apply sq_dist_nonneg. Qed.

Lemma map2_len {A B C} (f : A -> B -> C) xs : forall ys, length (map2 f xs ys) = Nat.min (length xs) (length ys).
Proof. induction xs as [|x xs IH]; intros [|y ys]; simpl; auto. Qed.

Lemma pdist_gauss n ls t : 0 <= t -> gramlike (fun x y => exp (- (t * pdist n ls x y))).
Proof.
  intros P. set (s := fun x => scaled ls (pad n x)). set (f := fun x => exp (- (t * rdot (s x) (s x)))).
  apply (gramlike_ext (fun x y => f x * f y * exp (2 * t * rdot (s x) (s y)))).
  { intros x y. unfold f. rewrite <- !exp_plus. f_equal. unfold pdist.
    rewrite sq_dist_expand by now rewrite !pad_length. fold (s x) (s y). ring. }
  apply gramlike_mult; [apply gramlike_rank1|]. apply gramlike_exp. apply gramlike_scale; [lra|].
  apply (gramlike_rdot s (Nat.min n (length ls))). intros x. unfold s, scaled.
  now rewrite map2_len, pad_length.
Qed.

(** ** the kernels *)

Definition psd_kind (kind : kernel_kind R) : Prop :=
  match kind with
  | KExponential | KMatern32 | KExpQuad => True
  | KRationalQuadratic power => 0 <= power
  | KMatern52 | KCosine => False
  end.

Lemma shape_gramlike n ls kind : psd_kind kind ->
  gramlike (fun x y => shape kind (sqrt (pdist n ls x y))).
Proof.
  pose proof (pdist_nonneg n ls) as N. pose proof (pdist_gauss n ls) as G. intros K.
  destruct kind; simpl in K; try contradiction; unfold shape.
  - apply (gramlike_ext (fun x y => exp (- sqrt (1 * pdist n ls x y + 0)))).
    { intros x y. now rewrite Rmult_1_l, Rplus_0_r. }
    apply radial_exp_sqrt; auto; lra.
  - apply (gramlike_ext (fun x y => tail_fun (sqrt (3 * pdist n ls x y + 0)))).
    { intros x y. rewrite Rplus_0_r, sqrt_mult by (lra || auto). reflexivity. }
    apply radial_tail; auto; lra.
  - apply (gramlike_ext (fun x y => exp (- (/ 2 * pdist n ls x y)))).
    { intros x y. f_equal. rewrite pow2_sqrt by auto. field. }
    apply G. lra.
  - apply (gramlike_ext (fun x y => Rpower (/ 2 * pdist n ls x y + 1) (- power))).
    { intros x y. f_equal. rewrite pow2_sqrt by auto. field. }
    apply radial_power; auto; lra.
Qed.

Lemma quad_ext {X} (k k' : X -> X -> R) cs :
  (forall a b, In a cs -> In b cs -> k (snd a) (snd b) = k' (snd a) (snd b)) -> quad k cs = quad k' cs.
Proof.
  intros E. unfold quad. apply rsum_ext. intros a Ia. apply rsum_ext. intros b Ib. now rewrite E.
Qed.

Lemma slice_pdist k n x y : length x = n -> length y = n ->
  kernel_slice k x y = k_variance k * shape (k_kind k) (sqrt (pdist n (k_lengthscales k) x y)).
Proof.
  intros Lx Ly. rewrite (proj1 (kernel_formula k)). unfold pdist. now rewrite !pad_id.
Qed.

Theorem slice_psd k n cs : psd_kind (k_kind k) -> 0 <= k_variance k ->
  Forall (fun c => length (snd c) = n) cs -> 0 <= quad (kernel_slice k) cs.
Proof.
  intros K V L. rewrite Forall_forall in L.
  rewrite (quad_ext _ (fun x y => k_variance k * shape (k_kind k) (sqrt (pdist n (k_lengthscales k) x y)))).
  - apply gramlike_psd. apply gramlike_scale; [exact V|]. now apply shape_gramlike.
  - intros a b Ia Ib. apply slice_pdist; auto.
Qed.

(** Matern52 with sqrt 5 where the code has sqrt 3. *)
Definition matern52_intended (k : kernel R) (x y : list R) : R :=
  let r := kernel_distance k x y in
  k_variance k * (1 + sqrt 5 * r + 5 / 3 * r ^ 2) * exp (- (sqrt 5 * r)).

Theorem matern52_intended_psd k n cs : 0 <= k_variance k ->
  Forall (fun c => length (snd c) = n) cs -> 0 <= quad (matern52_intended k) cs.
Proof.
  intros V L. rewrite Forall_forall in L. set (ls := k_lengthscales k).
  rewrite (quad_ext _ (fun x y => k_variance k * tail2_fun (sqrt (5 * pdist n ls x y + 0)))).
  - apply gramlike_psd. apply gramlike_scale; [exact V|].
    apply radial_tail2; try lra; [apply pdist_nonneg|apply pdist_gauss].
  - intros a b Ia Ib. unfold matern52_intended, pdist. rewrite kernel_distance_sqrt, !pad_id by auto.
    fold ls. pose proof (sq_dist_nonneg ls (snd a) (snd b)) as P.
    rewrite Rplus_0_r, sqrt_mult by lra. unfold tail2_fun.
    set (r := sqrt (sq_dist ls (snd a) (snd b))). rewrite Rmult_assoc. do 2 f_equal.
    replace (sqrt 5 * r * (sqrt 5 * r)) with (sqrt 5 * sqrt 5 * (r * r)) by ring.
    rewrite sqrt_sqrt by lra. field.
Qed.

(** ** one dimension *)

(** The Gram matrix of a kernel applied to scalars, with the value 0 for the
    panic of a kernel without lengthscales. *)
Definition scalar_value (k : kernel R) (x y : R) : R :=
  match kernel_scalar k x y with Ret v => v | Panic => 0 end.

Lemma scalar_slice k l ls x y : k_lengthscales k = l :: ls -> 0 < l ->
  kernel_scalar k x y = Ret (kernel_slice k [x] [y]).
Proof.
  intros E P. rewrite (proj1 (kernel_formula k)), (proj2 (kernel_formula k)), E. do 3 f_equal.
  unfold sq_dist, rsum. simpl. rewrite Rplus_0_r.
  replace ((x - y) / l * ((x - y) / l)) with (Rsqr ((x - y) / l)) by reflexivity.
  rewrite sqrt_Rsqr_abs. unfold Rdiv. rewrite Rabs_mult, (Rabs_pos_eq (/ l)); [reflexivity|].
  apply Rlt_le, Rinv_0_lt_compat, P.
Qed.

Theorem cosine_1d_psd k l cs : k_kind k = KCosine -> 0 <= k_variance k -> k_lengthscales k = [l] ->
  Forall (fun c => snd c <> []) cs -> 0 <= quad (kernel_slice k) cs.
Proof.
  intros K V E L. rewrite Forall_forall in L.
  set (u := fun x : list R => hd 0 x / l).
  rewrite (quad_ext _ (fun x y => k_variance k * (cos (u x) * cos (u y) + sin (u x) * sin (u y)))).
  - apply gramlike_psd. apply gramlike_scale; [exact V|].
    apply gramlike_plus; [apply (gramlike_rank1 (fun x => cos (u x)))|apply (gramlike_rank1 (fun x => sin (u x)))].
  - intros a b Ia Ib. specialize (L a Ia) as La. specialize (L b Ib) as Lb.
    rewrite (proj1 (kernel_formula k)), K, E. unfold shape. f_equal.
    rewrite <- cos_minus. unfold u, sq_dist. destruct (snd a) as [|x xs], (snd b) as [|y ys]; try contradiction.
    cbn [hd map2]. destruct (map2 Rminus xs ys); cbn [map2 map]; unfold rsum; simpl; rewrite Rplus_0_r.
    all: replace ((x - y) / l * ((x - y) / l)) with (Rsqr ((x - y) / l)) by reflexivity; rewrite sqrt_Rsqr_abs.
    all: replace (x / l - y / l) with ((x - y) / l) by (unfold Rdiv; ring).
    all: unfold Rabs; destruct Rcase_abs; [apply cos_neg|reflexivity].
Qed.

(** In two dimensions: an equilateral triangle of side pi. *)
Theorem cosine_2d_negative variance l l' : 0 < variance -> 0 < l -> 0 < l' ->
  let k := MkKernel KCosine variance [l; l'] in
  quad (kernel_slice k) [(1, [0; 0]); (1, [PI * l; 0]); (1, [PI / 2 * l; PI * sqrt 3 / 2 * l'])] = - 3 * variance.
Proof.
  intros V P P' k. pose proof PI_RGT_0 as PI0.
  assert (S3 : sqrt 3 * sqrt 3 = 3) by (apply sqrt_sqrt; lra).
  assert (F1 : forall x y, kernel_slice k x y = variance * cos (sqrt (sq_dist [l; l'] x y))).
  { intros. apply (proj1 (kernel_formula k)). }
  assert (S : forall x, sq_dist [l; l'] x x = 0) by (intros; apply sq_dist_self).
  assert (A : sq_dist [l; l'] [0; 0] [PI * l; 0] = PI * PI) by (unfold sq_dist, rsum; simpl; field; lra).
  assert (B : sq_dist [l; l'] [0; 0] [PI / 2 * l; PI * sqrt 3 / 2 * l'] = PI * PI).
  { unfold sq_dist, rsum. simpl.
    replace (_ + _) with (PI * PI * (1 + sqrt 3 * sqrt 3) / 4) by (field; lra). rewrite S3. field. }
  assert (C : sq_dist [l; l'] [PI * l; 0] [PI / 2 * l; PI * sqrt 3 / 2 * l'] = PI * PI).
  { unfold sq_dist, rsum. simpl.
    replace (_ + _) with (PI * PI * (1 + sqrt 3 * sqrt 3) / 4) by (field; lra). rewrite S3. field. }
  unfold quad. cbn [map fst snd]. rewrite !F1, !S, A, B, C.
  rewrite (sq_dist_sym _ [PI * l; 0] [0; 0]), A, (sq_dist_sym _ _ [0; 0]), B.
  rewrite (sq_dist_sym _ _ [PI * l; 0]), C.
  rewrite sqrt_0, cos_0, sqrt_square, cos_PI by lra. unfold rsum. simpl. ring.
Qed.

(** Matern52 as coded: two points suffice. *)
Theorem matern52_negative variance l : 0 < variance -> 0 < l -> exists x y,
  quad (kernel_slice (non_ard KMatern52 variance l)) [(1, [x]); (-1, [y])] < 0.
Proof.
  intros V P. destruct (matern52_overshoots variance l V P) as (x & y & v & _ & O & E).
  exists x, y. unfold quad. cbn [map fst snd].
  rewrite !(proj1 (kernel_self _)), (proj1 (kernel_symmetric _) [y] [x]), E.
  unfold non_ard, rsum. simpl. lra.
Qed.

(** Points of different lengths: the zips drop the coordinates one of them lacks,
    so the empty point is at distance 0 from all others. *)
Theorem mixed_lengths_refuted kind variance l : 0 < variance -> 0 < l ->
  match kind with KMatern52 => False | KRationalQuadratic power => 0 < power | _ => True end ->
  exists cs, quad (kernel_slice (non_ard kind variance l)) cs < 0.
Proof.
  intros V P K. exists [(-2, []); (1, [0]); (1, [l])]. set (k := non_ard kind variance l).
  assert (F1 : forall x y, kernel_slice k x y = variance * shape kind (sqrt (sq_dist [l] x y))).
  { intros. apply (proj1 (kernel_formula k)). }
  assert (A : sq_dist [l] [0] [l] = 1 * 1) by (unfold sq_dist, rsum; simpl; field; lra).
  assert (B : forall x, sq_dist [l] [] x = 0) by reflexivity.
  assert (C : forall x, sq_dist [l] x [] = 0) by (intros; rewrite sq_dist_sym; apply B).
  assert (S0 : shape kind 0 = 1).
  { pose proof (proj1 (kernel_self (non_ard kind 1 l)) []) as Q. rewrite (proj1 (kernel_formula _)) in Q.
    unfold non_ard in Q. cbn [k_kind k_variance k_lengthscales] in Q. rewrite B, sqrt_0 in Q. lra. }
  assert (E : shape kind 1 < 1).
  { unfold shape. destruct kind; try contradiction.
    - apply Rlt_le_trans with (exp 0); [apply exp_increasing; lra|rewrite exp_0; lra].
    - assert (T : tail_fun (sqrt 3) < 1).
      { assert (S3 : 1 < sqrt 3) by (rewrite <- sqrt_1; apply sqrt_lt_1; lra).
        pose proof (tail_falls 1 (sqrt 3)) as Q1. pose proof (tail_lower tail_fun (fun x => exp (- x)) tail_derivative (fun a b Q => exp_opp_le a b (proj2 Q)) 0 1) as Q2.
        assert (tail_fun (sqrt 3) <= tail_fun 1) by (apply Q1; lra).
        assert ((1 * 1 - 0 * 0) / 2 * exp (- (1)) <= tail_fun 0 - tail_fun 1) by (apply Q2; lra).
        assert (tail_fun 0 = 1) by (unfold tail_fun; rewrite Ropp_0, exp_0; ring).
        pose proof (exp_pos (- (1))). lra. }
      unfold tail_fun in T. rewrite Rmult_1_r. exact T.
    - apply Rlt_le_trans with (exp 0); [apply exp_increasing; lra|rewrite exp_0; lra].
    - rewrite <- cos_0 at 2. apply cos_decreasing_1; pose proof PI_RGT_0; pose proof PI2_1; lra.
    - apply Rlt_le_trans with (exp 0); [unfold Rpower; apply exp_increasing|rewrite exp_0; lra].
      replace (1 + 1 ^ 2 / 2) with (3 / 2) by field.
      assert (0 < ln (3 / 2)) by (rewrite <- ln_1; apply ln_increasing; lra).
      pose proof (Rmult_lt_0_compat _ _ K H). lra. }
  unfold quad. cbn [map fst snd]. rewrite !F1, !B, !C, !sq_dist_self, (sq_dist_sym _ [l] [0]), A.
  rewrite sqrt_square, sqrt_0, S0 by lra.
  apply Rmult_lt_compat_l with (r := variance) in E; [|exact V].
  unfold rsum. simpl. lra.
Qed.
