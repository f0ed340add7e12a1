(** C75: what kernel networks can represent. Statements first; proofs are in
    KernelStrict.v and KernelFit.v. *)
From Coq Require Import List Arith ZArith Lia Reals Lra.
From Verif Require Import Base Scalar ScalarR HMap NdArray VecFacts Features Spec FeatureFacts Coeffs CoeffFacts Kernels
  TileCoding Basis BasisReal Optim OptimSpec OptimFacts OptimReal Lfa LfaSpec LfaFacts LfaReal LfaRegret EndToEnd Passes
  KernelPsd KernelRadial KernelStrict KernelGram KernelFit.
Import ListNotations.
Local Open Scope R_scope.

(** ** C75 *)

(** A kernel whose Gram matrices are invertible: Exponential, Matern32 and
    ExpQuad, and RationalQuadratic with a positive power; positive variance; a
    non-zero lengthscale for each of the [n] coordinates. *)
Definition sound_kernel (k : kernel R) (n : nat) : Prop :=
  match k_kind k with
  | KExponential | KMatern32 | KExpQuad => True
  | KRationalQuadratic power => 0 < power
  | KMatern52 | KCosine => False
  end /\ 0 < k_variance k /\ (n <= length (k_lengthscales k))%nat /\ Forall (fun l => l <> 0) (k_lengthscales k).

(** The quadratic form of the Gram matrix is positive at distinct points. *)
Theorem C75_definite : forall k n cs, sound_kernel k n ->
  Forall (fun c => length (snd c) = n) cs -> NoDup (map snd cs) -> Exists (fun c => fst c <> 0) cs ->
  0 < rsum (map (fun a => rsum (map (fun b => fst a * fst b * kernel_slice k (snd a) (snd b)) cs)) cs).
Proof.
  intros k n cs (K & V & Ln & Nz) L N Ex.
  assert (P : 0 <= quad (kernel_slice k) cs).
  { apply (slice_psd k n); [|lra|exact L]. revert K. destruct (k_kind k); simpl; intros K; auto. lra. }
  destruct P as [P|Z]; [exact P|]. exfalso.
  pose proof (slice_definite k n cs K V Ln Nz L N (eq_sym Z)) as A. rewrite Exists_exists in Ex. destruct Ex as (c & I & Nc).
  rewrite Forall_forall in A. exact (Nc (A c I)).
Qed.
Print Assumptions C75_definite.

(** The network over [cents]. *)
Definition net (cents : list (list R)) (k : kernel R) : Basis R (list R) := as_basis (kernel_homogeneous cents k).

(** An approximator on [b] with weights [w] has the value [ys] at the points
    [cents], in order. *)
Definition holds_values (b : Basis R (list R)) (w : list R) (cents : list (list R)) (ys : list R) : Prop :=
  forall S (s : S) i c y, nth_error cents i = Some c -> nth_error ys i = Some y ->
    s_evaluate (MkLFA b w s : ScalarLFA R (list R) S) c = Ret (Ok y).

(** Whatever values are asked for at distinct centroids, exactly one weight
    vector has them. *)
Theorem C75_interpolate : forall k n cents ys, sound_kernel k n ->
  Forall (fun c => length c = n) cents -> NoDup cents -> length ys = length cents ->
  exists w, length w = length cents /\ holds_values (net cents k) w cents ys /\
    forall w', length w' = length cents -> holds_values (net cents k) w' cents ys -> w' = w.
Proof.
  intros k n cents ys (K & V & Ln & Nz) L N Ly.
  destruct (network_fits k n cents K V Ln Nz L N ys Ly) as (w & Lw & Ev & Un & _). exists w. splits; auto.
  intros w' Lw' Ev'. apply (Un w' R 0 Lw'). intros i c y. apply Ev'.
Qed.
Print Assumptions C75_interpolate.

Lemma self_energy k n cents p : sound_kernel k n -> energy (net cents k) p <= INR (length cents) * (k_variance k * k_variance k).
Proof.
  intros (K & V & _). unfold net. change (as_basis (kernel_homogeneous cents k)) with (network k cents). rewrite network_energy. unfold row. rewrite rdot_map.
  assert (B : forall c, Rabs (kernel_slice k (fst p) c) <= k_variance k).
  { intros c. apply (proj1 (kernel_peak k ltac:(destruct (k_kind k); simpl; auto; lra) ltac:(lra))). }
  induction cents as [|c cents IH]; [simpl; unfold rsum; simpl; lra|]. cbn [map length]. rewrite S_INR. unfold rsum in *. cbn [fold_right].
  specialize (B c). pose proof (Rabs_pos (kernel_slice k (fst p) c)).
  assert (kernel_slice k (fst p) c * kernel_slice k (fst p) c <= k_variance k * k_variance k).
  { rewrite <- (Rabs_pos_eq (_ * _)) by apply Rle_0_sqr. rewrite Rabs_mult. apply Rmult_le_compat; auto. }
  lra.
Qed.

(** Distinct centroids are also necessary. *)
Theorem C75_iff : forall k n cents, sound_kernel k n -> Forall (fun c => length c = n) cents ->
  ((forall ys, length ys = length cents -> exists w, length w = length cents /\ holds_values (net cents k) w cents ys) <->
   NoDup cents).
Proof.
  intros k n cents Sk L. split.
  - intros H. apply NoDup_nth_error. intros i j Li E.
    destruct (Nat.eq_dec i j) as [|Ne]; [assumption|exfalso].
    set (ys := map (fun m => if Nat.eq_dec m i then 1 else 0) (seq 0 (length cents))).
    destruct (H ys ltac:(unfold ys; now rewrite map_length, seq_length)) as (w & _ & Ev).
    assert (Lj : (j < length cents)%nat) by (apply nth_error_Some; rewrite <- E; now apply nth_error_Some).
    assert (Ny : forall m, (m < length cents)%nat -> nth_error ys m = Some (if Nat.eq_dec m i then 1 else 0)).
    { intros m Lm. unfold ys. rewrite nth_error_map. rewrite (nth_error_nth' (seq 0 (length cents)) 0%nat) by now rewrite seq_length.
      rewrite seq_nth by auto. reflexivity. }
    destruct (nth_error cents i) as [c|] eqn:Ec; [|apply nth_error_None in Ec; lia].
    pose proof (Ev R 0 i c _ Ec (Ny i Li)) as E1. pose proof (Ev R 0 j c _ (eq_sym E) (Ny j Lj)) as E2.
    rewrite E1 in E2. injection E2 as E2. destruct (Nat.eq_dec i i); [|contradiction].
    destruct (Nat.eq_dec j i); [now apply Ne|lra].
  - intros N ys Ly. destruct (C75_interpolate k n cents ys Sk L N Ly) as (w & A & B & _). now exists w.
Qed.
Print Assumptions C75_iff.

(** Training on the values at the centroids, in any order that keeps coming back
    to each, leads to those weights from wherever it starts: with ISGD at any
    rate, with SGD at any rate below 2 / (n variance^2). *)
Theorem C75_training : forall k n cents ys w0 o lr s w, sound_kernel k n ->
  Forall (fun c => length c = n) cents -> NoDup cents -> length ys = length cents -> length w0 = length cents ->
  0 < lr -> (o = SGD /\ lr * (INR (length cents) * (k_variance k * k_variance k)) < 2 \/ o = ISGD) ->
  visits s (combine cents ys) -> length w = length cents -> holds_values (net cents k) w cents ys ->
  reaches o (net cents k) lr w0 s w.
Proof.
  intros k n cents ys w0 o lr s w Sk L N Ly L0 Pl Ra Vi Lw Ev. destruct Sk as (K & V & Ln & Nz).
  destruct (network_fits k n cents K V Ln Nz L N ys Ly) as (w' & Lw' & _ & Un & Co & Se).
  assert (w = w') as -> by (apply (Un w R 0 Lw); intros i c y; apply Ev).
  assert (St : steady o lr (net cents k) (combine cents ys)).
  { split; auto. destruct Ra as [[-> B]| ->]; [left; split; auto|now right]. intros p _.
    pose proof (self_energy k n cents p (conj K (conj V (conj Ln Nz)))) as E. nra. }
  destruct (passes_settle o lr (net cents k) w0 (combine cents ys) s w' St Vi) as (wl & Re & Sl & _).
  { intros p I. rewrite L0. destruct (Co p I) as (phi & P & Z & E). exists phi. auto. }
  assert (wl = w') as <-; [|exact Re]. apply Se; [|rewrite L0 in Sl; exact Sl].
  destruct Re as [Lr _]. lia.
Qed.
Print Assumptions C75_training.

(** The bases made from a partitioned space hold any table of values at the
    centres of the cells. *)
Theorem C75_partitioned : forall kind (space : list (equipartition R)) ys,
  kind = KExpQuad \/ kind = KMatern32 ->
  Forall (fun e => NoDup (ep_centres e) /\ ep_width e <> 0) space ->
  let cells := cartesian_product (map ep_centres space) in length ys = length cells ->
  exists w, length w = length cells /\ holds_values (as_basis (kernel_partitioned kind space)) w cells ys /\
    forall w', length w' = length cells -> holds_values (as_basis (kernel_partitioned kind space)) w' cells ys -> w' = w.
Proof.
  intros kind space ys K Sp cells Ly.
  destruct (C75_interpolate (MkKernel kind 1 (map ep_width space)) (length space) cells ys) as (w & A & B & C); auto.
  - split; [destruct K as [->| ->]; exact I|]. cbn [k_variance k_lengthscales]. splits; [lra|rewrite map_length; lia|].
    apply Forall_map. revert Sp. apply Forall_impl. now intros e [_ W].
  - unfold cells. destruct space as [|e sp]; [constructor|].
    replace (length (e :: sp)) with (length (map ep_centres (e :: sp))) by apply map_length. apply product_lengths.
  - unfold cells. destruct space as [|e sp]; [constructor|].
    apply product_nodup. apply Forall_map. revert Sp. apply Forall_impl. now intros e' [W _].
  - exists w. unfold kernel_partitioned. rewrite fone_R. splits; [exact A|exact B|exact C].
Qed.
Print Assumptions C75_partitioned.

(** ** kernels with which this fails *)

(** Some two distinct centroids of [k] always have the same value. *)
Definition confuses (k : kernel R) (n : nat) : Prop := exists x y, x <> y /\ length x = n /\ length y = n /\
  forall S w (s : S), length w = 2%nat -> exists v,
    s_evaluate (MkLFA (net [x; y] k) w s : ScalarLFA R (list R) S) x = Ret (Ok v) /\
    s_evaluate (MkLFA (net [x; y] k) w s : ScalarLFA R (list R) S) y = Ret (Ok v).

Lemma confused k n x y : x <> y -> length x = n -> length y = n ->
  (forall a b, In a [x; y] -> In b [x; y] -> kernel_slice k a b = k_variance k) -> confuses k n.
Proof.
  intros N Lx Ly E. exists x, y. splits; auto. intros S w s Lw.
  exists (rdot (row k [x; y] x) w). change (net [x; y] k) with (network k [x; y]).
  rewrite (network_evaluates k 0 [x; y] (Nat.le_0_l _) w s x Lw), (network_evaluates k 0 [x; y] (Nat.le_0_l _) w s y Lw). split; auto.
  do 3 f_equal. unfold row. cbn [map]. rewrite !E; simpl; auto.
Qed.

Lemma self_dist ls x : sq_dist ls x x = 0.
Proof.
  unfold sq_dist, rsum. revert ls. induction x as [|a x IH]; intros [|l ls]; try reflexivity. cbn [map2 map fold_right].
  rewrite IH. unfold Rdiv. ring.
Qed.

(** Matern52 as coded. *)
Theorem C75_matern52_refuted : forall variance l, l <> 0 -> confuses (MkKernel KMatern52 variance [l]) 1.
Proof.
  intros v l Nl. destruct matern52_returns as (r & Pr & E). set (k := MkKernel KMatern52 v [l]).
  assert (D : forall a b, (a - b) / l = r \/ (a - b) / l = - r -> kernel_slice k [a] [b] = v).
  { intros a b H. rewrite (proj1 (kernel_formula _)). cbn [k k_kind k_variance k_lengthscales].
    assert (sq_dist [l] [a] [b] = r * r) as ->.
    { unfold sq_dist, rsum. cbn [map2 map fold_right]. destruct H as [-> | ->]; ring. }
    rewrite sqrt_square by lra. rewrite E. ring. }
  apply (confused k 1 [0] [l * r]); auto.
  - intros Q. injection Q as Q. symmetry in Q. apply Rmult_integral in Q. destruct Q; lra.
  - intros a b [<-|[<-|[]]] [<-|[<-|[]]]; try (exact (proj1 (kernel_self k) _)); apply D.
    + right. field. exact Nl.
    + left. field. exact Nl.
Qed.
Print Assumptions C75_matern52_refuted.

(** Cosine. *)
Theorem C75_cosine_refuted : forall variance l, l <> 0 -> confuses (MkKernel KCosine variance [l]) 1.
Proof.
  intros v l Nl. set (k := MkKernel KCosine v [l]). set (r := 2 * PI). pose proof PI_RGT_0 as Pp.
  assert (D : forall a b, (a - b) / l = r \/ (a - b) / l = - r -> kernel_slice k [a] [b] = v).
  { intros a b H. rewrite (proj1 (kernel_formula _)). cbn [k k_kind k_variance k_lengthscales].
    assert (sq_dist [l] [a] [b] = r * r) as ->.
    { unfold sq_dist, rsum. cbn [map2 map fold_right]. destruct H as [-> | ->]; ring. }
    rewrite sqrt_square by (unfold r; lra). unfold shape, r. rewrite cos_2PI. ring. }
  apply (confused k 1 [0] [l * r]); auto.
  - intros Q. injection Q as Q. symmetry in Q. apply Rmult_integral in Q. destruct Q; unfold r in *; lra.
  - intros a b [<-|[<-|[]]] [<-|[<-|[]]]; try (exact (proj1 (kernel_self k) _)); apply D.
    + right. field. exact Nl.
    + left. field. exact Nl.
Qed.
Print Assumptions C75_cosine_refuted.

(** RationalQuadratic with power 0. *)
Theorem C75_power_refuted : forall variance l, confuses (MkKernel (KRationalQuadratic 0) variance [l]) 1.
Proof.
  intros v l. apply (confused _ 1 [0] [1]); auto; [intros Q; injection Q; lra|].
  intros a b _ _. rewrite (proj1 (kernel_formula _)). cbn [k_kind k_variance k_lengthscales]. unfold shape, Rpower.
  replace (- 0) with 0 by ring. rewrite Rmult_0_l, exp_0. ring.
Qed.
Print Assumptions C75_power_refuted.

(** Fewer lengthscales than coordinates, whichever kernel. *)
Theorem C75_lengthscales_refuted : forall k n, (length (k_lengthscales k) < n)%nat -> confuses k n.
Proof.
  intros k n L. set (m := length (k_lengthscales k)).
  assert (Z : forall u v a c, sq_dist (k_lengthscales k) (repeat 0 m ++ u :: a) (repeat 0 m ++ v :: c) = 0).
  { unfold m. clear L m. intros u v a c. unfold sq_dist, rsum. induction (k_lengthscales k) as [|l ls IH]; [reflexivity|].
    cbn [length repeat app map2 map fold_right]. rewrite IH. unfold Rdiv. ring. }
  apply (confused k n (repeat 0 m ++ 0 :: repeat 0 (n - m - 1)) (repeat 0 m ++ 1 :: repeat 0 (n - m - 1))).
  - intros Q. apply app_inv_head in Q. injection Q; lra.
  - rewrite app_length, repeat_length. simpl. rewrite repeat_length. unfold m in *. lia.
  - rewrite app_length, repeat_length. simpl. rewrite repeat_length. unfold m in *. lia.
  - intros a b Ia Ib. assert (E : sq_dist (k_lengthscales k) a b = 0).
    { destruct Ia as [<-|[<-|[]]], Ib as [<-|[<-|[]]]; apply Z. }
    pose proof (proj1 (kernel_self k) a) as Ks. rewrite (proj1 (kernel_formula _)) in *. rewrite E. rewrite self_dist in Ks. exact Ks.
Qed.
Print Assumptions C75_lengthscales_refuted.

(** ** a case *)

(** Three centroids in the plane with different lengthscales. *)
Definition plane : list (list R) := [[0; 1]; [2; 0]; [0; 0]].
Definition plane_kernel : kernel R := MkKernel KMatern32 2 [1; / 2].

Lemma plane_sound : sound_kernel plane_kernel 2 /\ Forall (fun c => length c = 2%nat) plane /\ NoDup plane.
Proof.
  splits.
  - unfold sound_kernel. simpl. splits; auto; try lra. constructor; [lra|]. constructor; [lra|constructor].
  - repeat (constructor; [reflexivity|]). constructor.
  - unfold plane. repeat constructor; simpl; intros H; repeat (destruct H as [H|H]); auto; injection H; intros; lra.
Qed.

Example C75_case : exists w, holds_values (net plane plane_kernel) w plane [5; -1; 3] /\
  forall w0, length w0 = 3%nat ->
    reaches SGD (net plane plane_kernel) (1/8) w0 (fun i => nth (i mod 3) (combine plane [5; -1; 3]) ([], 0)) w.
Proof.
  destruct plane_sound as (Sk & L & N).
  destruct (C75_interpolate plane_kernel 2 plane [5; -1; 3] Sk L N eq_refl) as (w & Lw & Ev & _). exists w. split; auto.
  intros w0 L0. apply (C75_training plane_kernel 2 plane [5; -1; 3]); auto; try lra.
  - left. split; auto. cbn [plane plane_kernel length k_variance]. simpl. lra.
  - apply (cyclic_visits (combine plane [5; -1; 3]) ([], 0)). discriminate.
Qed.

(** A two-cell axis beside a three-cell one. *)
Example C75_partitioned_case : let space :=
  [MkEqui 2 (fun _ => 0%nat) (1/2) [1/4; 3/4]; MkEqui 3 (fun _ => 0%nat) 1 [-1; 0; 1]] in
  exists w, length w = 6%nat /\
    holds_values (as_basis (kernel_partitioned KExpQuad space)) w
      [[1/4; -1]; [1/4; 0]; [1/4; 1]; [3/4; -1]; [3/4; 0]; [3/4; 1]] [1; 2; 3; 4; 5; 6].
Proof.
  intros space. destruct (C75_partitioned KExpQuad space [1; 2; 3; 4; 5; 6] ltac:(now left)) as (w & A & B & _).
  - repeat constructor; simpl; try lra; intros H; repeat (destruct H as [H|H]); auto; lra.
  - reflexivity.
  - exists w. split; [exact A|exact B].
Qed.

(** The hypotheses of the positive form are met with coefficients of both
    signs. *)
Example C75_definite_case : let k := plane_kernel in
  0 < rsum (map (fun a => rsum (map (fun b => fst a * fst b * kernel_slice k (snd a) (snd b))
        [(1, [0; 1]); (-1, [2; 0])])) [(1, [0; 1]); (-1, [2; 0])]).
Proof.
  intros k. apply (C75_definite k 2); [apply plane_sound| | |].
  - repeat (constructor; [reflexivity|]). constructor.
  - simpl. repeat constructor; simpl; intros H; repeat (destruct H as [H|H]); auto; injection H; intros; lra.
  - left. simpl. lra.
Qed.
