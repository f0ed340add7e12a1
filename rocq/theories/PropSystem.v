(** C55-C59: bases, optimisers and approximators together. Statements only;
    proofs are in EndToEnd.v, OptimOrder.v, OptimMisfit.v, TileGen.v and
    LfaRegret.v. *)
From Coq Require Import String List Arith ZArith Lia Permutation Reals Lra.
From Flocq Require Import IEEE754.BinarySingleNaN.
From Verif Require Import Base Scalar ScalarR ScalarF64 HMap HMapFacts NdArray VecFacts Features Spec FeatureFacts
  Coeffs Kernels TileCoding Basis BasisFacts TileFacts Optim OptimSpec OptimFacts OptimReal
  Lfa LfaSpec LfaFacts LfaReal EndToEnd OptimOrder OptimMisfit TileGen LfaRegret.
Import ListNotations.

(** ** C55 *)

Theorem C55_projects : forall F `{Scalar F} (b : basis F) x, sound b -> accepts b x ->
  exists phi, project b x = Ret (Ok phi) /\ sized (dim b) phi.
Proof.
  intros F S b x Sb A. destruct (accepts_projects b x Sb A) as [phi E]. exists phi. split; [exact E|].
  eapply project_dim; eauto.
Qed.
Print Assumptions C55_projects.

Theorem C55_first_failure : forall F `{Scalar F} (b : basis F) x ls l ls', sound b ->
  leaves b = ls ++ l :: ls' -> (forall l', In l' ls -> exists phi, project l' x = Ret (Ok phi)) ->
  (~ exists phi, project l x = Ret (Ok phi)) -> project b x = project l x.
Proof. intros F S b x ls l ls' Sb E A N. exact (leaves_first b x ls l ls' Sb E A N). Qed.
Print Assumptions C55_first_failure.

Theorem C55_all_leaves : forall F `{Scalar F} (b : basis F) x, sound b ->
  (forall l, In l (leaves b) -> exists phi, project l x = Ret (Ok phi)) ->
  exists phi, project b x = Ret (Ok phi).
Proof. intros F S b x Sb A. exact (leaves_ok b x Sb A). Qed.
Print Assumptions C55_all_leaves.

Theorem C55_scalar : forall F `{Scalar F} (b : basis F) (p : hyper F) cs x e f, sound b ->
  Forall (s_accepted b) cs -> accepts b x ->
  exists a, s_run LibOptimiser cs (scalar (as_basis b) (construct (dim b) p)) = Ret a /\
    length (lfa_weights a) = dim b /\
    (exists v, s_evaluate a x = Ret (Ok v)) /\
    (exists a', s_update LibOptimiser a x e = Ret (a', Ok tt)) /\
    (exists a', s_update_with LibOptimiser a x f = Ret (a', Ok tt)).
Proof.
  intros F S b p cs x e f Sb Ac Ax.
  destruct (s_run_ok b cs Sb Ac _ (scalar_ok b p)) as (a & E & K). exists a. split; [exact E|].
  destruct (s_calls_ok b a x Sb K Ax) as (Ev & Up & Uw). splits; auto.
  - exact (proj1 (proj2 K)).
  - destruct (Up e) as (a' & Q & _). eauto.
  - destruct (Uw f) as (a' & Q & _). eauto.
Qed.
Print Assumptions C55_scalar.

Theorem C55_vector : forall F `{Scalar F} (b : basis F) (p : hyper F) k cs x es j e f, sound b ->
  Forall (v_accepted b k) cs -> accepts b x -> j < k ->
  exists a, v_run LibOptimiser cs (vector (as_basis b) (construct (dim b) p) k) = Ret a /\
    matrix_ok (lfa_weights a) /\ nrows (lfa_weights a) = dim b /\ ncols (lfa_weights a) = k /\
    (exists vs, v_evaluate a x = Ret (Ok vs) /\ length vs = k) /\
    (exists v, v_evaluate_index a x j = Ret (Ok v)) /\
    (exists a', v_update LibOptimiser a x es = Ret (a', Ok tt)) /\
    (exists a', v_update_index LibOptimiser a x j e = Ret (a', Ok tt)) /\
    (exists a', v_update_with LibOptimiser a x f = Ret (a', Ok tt)).
Proof.
  intros F S b p k cs x es j e f Sb Ac Ax Lj.
  destruct (v_run_ok b k cs Sb Ac _ (vector_ok b p k)) as (a & E & K). exists a. split; [exact E|].
  destruct (v_calls_ok b k a x Sb K Ax) as (Ev & Ei & Up & Ui & Uw).
  destruct K as (_ & K1 & K2 & K3 & _). splits; auto.
  - destruct (Up es) as (a' & Q & _). eauto.
  - destruct (Ui j e Lj) as (a' & Q & _). eauto.
  - destruct (Uw f) as (a' & Q & _). eauto.
Qed.
Print Assumptions C55_vector.

(** A polynomial basis normalised, a tile coder and a bias, in f64. *)
Definition sys_hasher : hasher :=
  MkHasher N 7%N (fun s z => (s * 31 + Z.to_N (z + 100)) mod 1009)%N (fun s => s).
Definition sys_basis : basis f64 :=
  @with_bias f64 (ScalarF64 SimplePlatform)
    (BStack (BL2 (polynomial_new 2 1)) (BTile Checked sys_hasher 4 64)).
Example C55_case : let x := [b_dyadic 1 0; b_dyadic 5 (-2)] in
  sound sys_basis /\ @accepts f64 (ScalarF64 SimplePlatform) sys_basis x /\ dim sys_basis = 3 + 64 + 1 /\
  length (leaves sys_basis) = 3.
Proof.
  cbv zeta. unfold sys_basis, with_bias. split; [|split; [|split]].
  - cbn [sound bias_unit polynomial_new]. splits; auto.
  - cbn [accepts]. split; [split; [exact I|]|exact I]. right. split; [lia|].
    replace (@bin_state f64 (ScalarF64 SimplePlatform) [b_dyadic 1 0; b_dyadic 5 (-2)] 4) with [4; 5]%Z
      by (vm_compute; reflexivity).
    split; [lia|]. unfold isize_max, isize_min. split; [simpl; lia|]. intros s [<-|[<-|[]]]; simpl; lia.
  - reflexivity.
  - reflexivity.
Qed.

(** ** C56 *)

Theorem C56_step : forall F `{Scalar F} (o : lib_opt F) w (phi psi : Features F) sf,
  not_isgd o -> keyed phi -> same phi psi ->
  o_step_scaled LibOptimiser o w phi sf = o_step_scaled LibOptimiser o w psi sf /\
  o_step LibOptimiser o w phi = o_step LibOptimiser o w psi.
Proof. exact @step_order. Qed.
Print Assumptions C56_step.

Theorem C56_training : forall F `{Scalar F} (h h' : history F), reordered h h' ->
  forall (o : lib_opt F) w, not_isgd o -> train LibOptimiser h o w = train LibOptimiser h' o w.
Proof. exact @train_order. Qed.
Print Assumptions C56_training.

Theorem C56_approximator : forall F `{Scalar F} I (b b' : Basis F I), same_projection b b' ->
  forall h (o : lib_opt F) w, not_isgd o ->
  match s_train LibOptimiser h (MkLFA b w o), s_train LibOptimiser h (MkLFA b' w o) with
  | Ret a, Ret a' => lfa_weights a = lfa_weights a' /\ lfa_optimiser a = lfa_optimiser a'
  | Panic, Panic => True
  | _, _ => False
  end.
Proof. exact @lfa_order. Qed.
Print Assumptions C56_approximator.

(** Over the reals ISGD is no exception. *)
Theorem C56_reals : forall (h h' : history R), reordered h h' -> forall (o : lib_opt R) w,
  train LibOptimiser h o w = train LibOptimiser h' o w.
Proof. exact train_order_R. Qed.
Print Assumptions C56_reals.

(** ISGD in f64: one step on one vector in two hash orders, different weights. *)
Definition ord_big : f64 := b_dyadic 1 27.
Definition ord_one : f64 := b_dyadic 1 0.
Definition ord_m1 : hmap f64 := [(0, ord_big); (1, ord_one); (2, ord_one); (3, ord_one)].
Definition ord_m2 : hmap f64 := [(1, ord_one); (2, ord_one); (3, ord_one); (0, ord_big)].
Theorem C56_isgd_f64_refuted : let S := ScalarF64 SimplePlatform in
  exists phi psi : Features f64, sized 4 phi /\ same phi psi /\ exists w w',
    @o_step_scaled f64 _ (@LibOptimiser f64 S) (LISGD ord_one) (repeat b_zero 4) phi ord_one = Ret (LISGD ord_one, w, Ok tt) /\
    @o_step_scaled f64 _ (@LibOptimiser f64 S) (LISGD ord_one) (repeat b_zero 4) psi ord_one = Ret (LISGD ord_one, w', Ok tt) /\
    w <> w'.
Proof.
  intros S. exists (Sparse (MkSparse 4 ord_m1)), (Sparse (MkSparse 4 ord_m2)). split; [|split].
  - split; [split|reflexivity].
    + repeat constructor; simpl; intuition lia.
    + apply bounded_sparse. simpl. intros i [<-|[<-|[<-|[<-|[]]]]]; lia.
  - split; [reflexivity|]. apply (Permutation_cons_append [(1, ord_one); (2, ord_one); (3, ord_one)] (0, ord_big)).
  - eexists. eexists. split; [reflexivity|]. split; [reflexivity|]. intros E.
    apply (f_equal (fun l => Beqb (nth 1 l b_zero) (b_dyadic 1 (-54)))) in E. vm_compute in E. discriminate E.
Qed.
Print Assumptions C56_isgd_f64_refuted.

Example C56_case : let S := ScalarF64 SimplePlatform in
  reordered [(Sparse (MkSparse 4 ord_m1), ord_one); (Dense [ord_one; ord_big; ord_one; ord_one], ord_big)]
            [(Sparse (MkSparse 4 ord_m2), ord_one); (Dense [ord_one; ord_big; ord_one; ord_one], ord_big)] /\
  not_isgd (@construct f64 S 4 (HAdam ord_one ord_one ord_one)).
Proof.
  split; [|exact I]. constructor; [|constructor; [|constructor]].
  - split; [|split; [|reflexivity]].
    + repeat constructor; simpl; intuition lia.
    + split; [reflexivity|]. apply (Permutation_cons_append [(1, ord_one); (2, ord_one); (3, ord_one)] (0, ord_big)).
  - split; [exact I|]. split; reflexivity.
Qed.

(** ** C57 *)

Theorem C57_dense_strict : forall F `{Scalar F} (o : lib_opt F) w da sf, strict o -> opt_sized (length w) o ->
  (o_step_scaled LibOptimiser o w (Dense da) sf = Panic <-> length da <> length w /\ length da <> 1).
Proof. exact @dense_strict. Qed.
Print Assumptions C57_dense_strict.

Theorem C57_dense_broadcast : forall F `{Scalar F} (o : lib_opt F) w x sf, opt_sized (length w) o ->
  match o with LSGD _ | LMomentum _ | LNAG _ => True | _ => False end ->
  o_step_scaled LibOptimiser o w (Dense [x]) sf =
  o_step_scaled LibOptimiser o w (Dense (repeat x (length w))) sf.
Proof. exact @dense_broadcast. Qed.
Print Assumptions C57_dense_broadcast.

Theorem C57_dense_adam : forall F `{Scalar F} (o : lib_opt F) w da sf, adamlike o -> opt_sized (length w) o ->
  (o_step_scaled LibOptimiser o w (Dense da) sf = Panic <-> length w < length da).
Proof. exact @dense_adam. Qed.
Print Assumptions C57_dense_adam.

(** A dense vector shorter than the weights: only the first weights and
    moments move, exactly as if the others were not there. *)
Theorem C57_adam_prefix : forall F `{Scalar F} (b1 p1 b2 p2 lr : F) m v w m2 v2 w2 da sf,
  length m = length da -> length v = length da -> length w = length da ->
  exists m' v' w', o_step_scaled Adam (MkAdam b1 p1 b2 p2 lr m v) w (Dense da) sf =
      Ret (MkAdam b1 (fmul p1 b1) b2 (fmul p2 b2) lr m' v', w', Ok tt) /\
    length m' = length da /\ length v' = length da /\ length w' = length da /\
    o_step_scaled Adam (MkAdam b1 p1 b2 p2 lr (m ++ m2) (v ++ v2)) (w ++ w2) (Dense da) sf =
      Ret (MkAdam b1 (fmul p1 b1) b2 (fmul p2 b2) lr (m' ++ m2) (v' ++ v2), w' ++ w2, Ok tt).
Proof. exact @adam_prefix. Qed.
Print Assumptions C57_adam_prefix.

Theorem C57_adamax_prefix : forall F `{Scalar F} (b1 p1 b2 lr : F) m v w m2 v2 w2 da sf,
  length m = length da -> length v = length da -> length w = length da ->
  exists m' v' w', o_step_scaled AdaMax (MkAdaMax b1 p1 b2 lr m v) w (Dense da) sf =
      Ret (MkAdaMax b1 (fmul p1 b1) b2 lr m' v', w', Ok tt) /\
    length m' = length da /\ length v' = length da /\ length w' = length da /\
    o_step_scaled AdaMax (MkAdaMax b1 p1 b2 lr (m ++ m2) (v ++ v2)) (w ++ w2) (Dense da) sf =
      Ret (MkAdaMax b1 (fmul p1 b1) b2 lr (m' ++ m2) (v' ++ v2), w' ++ w2, Ok tt).
Proof. exact @adamax_prefix. Qed.
Print Assumptions C57_adamax_prefix.

Theorem C57_adagrad_never_panics : forall F `{Scalar F} (s : adagrad_state F) w phi sf,
  length (ag_acc s) <= length w -> exists s' w', o_step_scaled Adagrad s w phi sf = Ret (s', w', Ok tt).
Proof. exact @adagrad_never_panics. Qed.
Print Assumptions C57_adagrad_never_panics.

Theorem C57_adagrad_prefix : forall F `{Scalar F} (lr : F) da w1 acc1 w2 acc2 sf,
  length w1 = length da -> length acc1 = length da ->
  exists acc1' w1', o_step_scaled Adagrad (MkAdagrad lr acc1) w1 (Dense da) sf = Ret (MkAdagrad lr acc1', w1', Ok tt) /\
    length w1' = length da /\ length acc1' = length da /\
    o_step_scaled Adagrad (MkAdagrad lr (acc1 ++ acc2)) (w1 ++ w2) (Dense da) sf =
      Ret (MkAdagrad lr (acc1' ++ acc2), w1' ++ w2, Ok tt).
Proof. exact @adagrad_prefix. Qed.
Print Assumptions C57_adagrad_prefix.

Theorem C57_adagrad_truncates : forall F `{Scalar F} (s : adagrad_state F) w da sf, length (ag_acc s) = length w ->
  o_step_scaled Adagrad s w (Dense da) sf = o_step_scaled Adagrad s w (Dense (firstn (length w) da)) sf.
Proof. exact @adagrad_truncates. Qed.
Print Assumptions C57_adagrad_truncates.

Theorem C57_adagrad_ignores : forall F `{Scalar F} (s : adagrad_state F) w d d' m m' sf,
  (forall i v, i < length (ag_acc s) ->
     (stores (Sparse (MkSparse d m)) i v <-> stores (Sparse (MkSparse d' m')) i v)) ->
  keyed (Sparse (MkSparse d m)) -> keyed (Sparse (MkSparse d' m')) ->
  o_step_scaled Adagrad s w (Sparse (MkSparse d m)) sf = o_step_scaled Adagrad s w (Sparse (MkSparse d' m')) sf.
Proof.
  intros F S s w d d' m m' sf A K K'. apply adagrad_ignores. intros i L.
  destruct (hm_get m i) as [v|] eqn:E, (hm_get m' i) as [v'|] eqn:E'; auto.
  - apply hm_get_In in E. assert (Q := proj1 (A i v L) E). apply (hm_In_get m') in Q; auto. congruence.
  - apply hm_get_In in E. assert (Q := proj1 (A i v L) E). apply (hm_In_get m') in Q; auto. congruence.
  - apply hm_get_In in E'. assert (Q := proj2 (A i v' L) E'). apply (hm_In_get m) in Q; auto. congruence.
Qed.
Print Assumptions C57_adagrad_ignores.

Theorem C57_sparse : forall F `{Scalar F} (o : lib_opt F) w sa sf, ~ is_adagrad o -> opt_sized (length w) o ->
  (o_step_scaled LibOptimiser o w (Sparse sa) sf = Panic <-> exists i, stored (Sparse sa) i /\ length w <= i).
Proof.
  intros F S o w sa sf N Z. etransitivity; [exact (sparse_panics o w sa sf N Z)|]. split.
  - intros (i & v & I & L). exists i. split; [|exact L]. exists v. exact I.
  - intros (i & [v I] & L). exists i, v. auto.
Qed.
Print Assumptions C57_sparse.

Theorem C57_sparse_dim_unused : forall F `{Scalar F} (o : lib_opt F) w d d' m sf,
  o_step_scaled LibOptimiser o w (Sparse (MkSparse d m)) sf =
  o_step_scaled LibOptimiser o w (Sparse (MkSparse d' m)) sf.
Proof. exact @sparse_dim_unused. Qed.
Print Assumptions C57_sparse_dim_unused.

Local Open Scope R_scope.

(** One call, three weights, two features: a panic, a silent success on the
    first two weights, and, with one feature, a broadcast. *)
Example C57_case :
  o_step_scaled LibOptimiser (construct 3 (HMomentum 1 1)) [0; 0; 0] (Dense [1; 2]) 1 = Panic /\
  (exists s x y, o_step_scaled LibOptimiser (construct 3 (HAdagrad 1)) [0; 0; 7] (Dense [1; 2]) 1 =
    Ret (s, [x; y; 7], Ok tt)) /\
  (exists x, o_step_scaled LibOptimiser (construct 3 (HSGD 1)) [0; 0; 0] (Dense [2]) 1 =
    Ret (LSGD 1, [x; x; x], Ok tt) /\ x = 2).
Proof.
  splits.
  - reflexivity.
  - do 3 eexists. cbn. reflexivity.
  - eexists. split; [reflexivity|]. cbn. to_R. lra.
Qed.

(** ** C58 *)

Local Open Scope nat_scope.

Theorem C58_slots : forall F `{Scalar F} bld h nt ms (x : list F), tame nt (bin_state x nt) -> 1 <= ms ->
  exists phi, project (BTile bld h nt ms) x = Ret (Ok phi) /\
    forall i, stored phi i <-> exists t, t < nt /\ i = slot h ms (written nt t (bin_state x nt)).
Proof. exact @tile_slots. Qed.
Print Assumptions C58_slots.

Theorem C58_shared : forall F `{Scalar F} bld h nt ms (x y : list F) phi psi, length x = length y ->
  tame nt (bin_state x nt) -> tame nt (bin_state y nt) -> 1 <= ms ->
  collision_free h ms nt (bin_state x nt) (bin_state y nt) ->
  project (BTile bld h nt ms) x = Ret (Ok phi) -> project (BTile bld h nt ms) y = Ret (Ok psi) ->
  forall i, stored phi i /\ stored psi i <->
    exists t, t < nt /\ i = slot h ms (written nt t (bin_state x nt)) /\
      forall t', t' <= t -> cells nt t' 0 (bin_state x nt) = cells nt t' 0 (bin_state y nt).
Proof. exact @tile_shared. Qed.
Print Assumptions C58_shared.

Theorem C58_common_run : forall F `{Scalar F} bld h nt ms (x y : list F) phi psi t,
  tame nt (bin_state x nt) -> tame nt (bin_state y nt) -> 1 <= ms ->
  project (BTile bld h nt ms) x = Ret (Ok phi) -> project (BTile bld h nt ms) y = Ret (Ok psi) -> t < nt ->
  (forall t', t' <= t -> cells nt t' 0 (bin_state x nt) = cells nt t' 0 (bin_state y nt)) ->
  exists i, stored phi i /\ stored psi i /\ i = slot h ms (written nt t (bin_state x nt)).
Proof. exact @tile_shared_run. Qed.
Print Assumptions C58_common_run.

(** One coordinate, the next bin up: one tiling has a new cell, number
    nt - 1 - (s mod nt), and only the tilings before it are still shared. *)
Theorem C58_next_bin : forall nt s, 1 <= nt -> (0 <= s)%Z -> forall t, t < nt ->
  ((forall t', t' <= t -> cell nt t' 0 s = cell nt t' 0 (s + 1)%Z) <->
   (Z.of_nat t < Z.of_nat nt - 1 - Z.modulo s (Z.of_nat nt))%Z) /\
  (cell nt t 0 s = cell nt t 0 (s + 1)%Z <-> (Z.of_nat t <> Z.of_nat nt - 1 - Z.modulo s (Z.of_nat nt))%Z).
Proof. exact next_bin_run. Qed.
Print Assumptions C58_next_bin.

(** Tilings with the same cell need not share a feature: 3/4 and 1 are in the
    same cell of tilings 1, 2 and 3 of 4 and have no feature in common. *)
Theorem C58_same_cell_refuted : let S := ScalarF64 SimplePlatform in
  exists (h : hasher) (ms : nat) (x y : list f64) phi psi,
    @project f64 S (BTile Checked h 4 ms) x = Ret (Ok phi) /\
    @project f64 S (BTile Checked h 4 ms) y = Ret (Ok psi) /\
    (forall t, 1 <= t < 4 -> cells 4 t 0 (@bin_state f64 S x 4) = cells 4 t 0 (@bin_state f64 S y 4)) /\
    forall i, ~ (stored phi i /\ stored psi i).
Proof.
  intros S. set (x := [b_dyadic 3 (-2)]). set (y := [b_dyadic 1 0]).
  assert (Ex : @bin_state f64 S x 4 = [3%Z]) by (vm_compute; reflexivity).
  assert (Ey : @bin_state f64 S y 4 = [4%Z]) by (vm_compute; reflexivity).
  assert (T : forall s, (0 <= s < 100)%Z -> tame 4 [s]).
  { intros s L. split; [lia|]. unfold isize_max, isize_min. split; [simpl; lia|]. intros s' [<-|[]]; simpl; lia. }
  destruct (@tile_slots f64 S Checked sys_hasher 4 1009 x) as (phi & P1 & Q1); [rewrite Ex; apply T; lia|lia|].
  destruct (@tile_slots f64 S Checked sys_hasher 4 1009 y) as (psi & P2 & Q2); [rewrite Ey; apply T; lia|lia|].
  exists sys_hasher, 1009, x, y, phi, psi. split; [exact P1|]. split; [exact P2|]. rewrite Ex, Ey in *. split.
  - intros t L. destruct t as [|[|[|[|t]]]]; try lia; reflexivity.
  - intros i [I J]. apply Q1 in I. apply Q2 in J. destruct I as (t & Lt & ->), J as (u & Lu & E).
    destruct t as [|[|[|[|t]]]]; try lia; destruct u as [|[|[|[|u]]]]; try lia; vm_compute in E; discriminate E.
Qed.
Print Assumptions C58_same_cell_refuted.

Example C58_case : let S := ScalarF64 SimplePlatform in
  @bin_state f64 S [b_dyadic 1 0] 4 = [4%Z] /\ @bin_state f64 S [b_dyadic 5 (-2)] 4 = [5%Z] /\
  tame 4 [4%Z] /\ tame 4 [5%Z] /\ collision_free sys_hasher 1009 4 [4%Z] [5%Z] /\
  map (fun t => cells 4 t 0 [4%Z]) [0; 1; 2; 3] = [[1]; [1]; [1]; [1]]%Z /\
  map (fun t => cells 4 t 0 [5%Z]) [0; 1; 2; 3] = [[1]; [1]; [1]; [2]]%Z.
Proof.
  cbv zeta. splits.
  - vm_compute; reflexivity.
  - vm_compute; reflexivity.
  - split; [lia|]. unfold isize_max, isize_min. split; [simpl; lia|]. intros s [<-|[]]; simpl; lia.
  - split; [lia|]. unfold isize_max, isize_min. split; [simpl; lia|]. intros s [<-|[]]; simpl; lia.
  - intros t t' s s' Lt Lt' [->| ->] [->| ->];
      destruct t as [|[|[|[|t]]]]; try lia; destruct t' as [|[|[|[|t']]]]; try lia;
      vm_compute; intros E; first [reflexivity | discriminate E].
  - reflexivity.
  - reflexivity.
Qed.

(** ** C59 *)

Local Open Scope R_scope.

Theorem C59_sgd_regret : forall I (b : Basis R I) lr ws h w, 0 < lr ->
  Forall (fits b (length w)) h -> Forall (fun p => lr * energy b p <= 1) h ->
  (exists es, residuals SGD (MkLFA b w lr) h es) /\
  forall es, residuals SGD (MkLFA b w lr) h es ->
  lr * rsum (map2 (fun e p => (e - unexplained b ws p) * (e - unexplained b ws p)) es h)
    <= dist2 w ws + lr * sum_sq (map (unexplained b ws) h).
Proof.
  intros I b lr ws h w P Fs En. split.
  - destruct (fit_identity SGD lr _ (sgd_rule' lr) b ws h w Fs) as (w' & _ & _ & E & _). exact E.
  - exact (sgd_regret b lr ws h w P Fs En).
Qed.
Print Assumptions C59_sgd_regret.

Theorem C59_isgd_regret : forall I (b : Basis R I) lr ws h w, 0 < lr -> Forall (fits b (length w)) h ->
  (exists es, residuals ISGD (MkLFA b w lr) h es) /\
  forall es, residuals ISGD (MkLFA b w lr) h es ->
  let rate p := lr / (1 + lr * energy b p) in
  rsum (map2 (fun e p => rate p * ((e - unexplained b ws p) * (e - unexplained b ws p))) es h)
    <= dist2 w ws + rsum (map (fun p => rate p * (unexplained b ws p * unexplained b ws p)) h).
Proof.
  intros I b lr ws h w P Fs. split.
  - destruct (fit_identity ISGD lr _ (isgd_rule' lr) b ws h w Fs) as (w' & _ & _ & E & _). exact E.
  - exact (isgd_regret b lr ws h w P Fs).
Qed.
Print Assumptions C59_isgd_regret.

Theorem C59_sgd_realisable : forall I (b : Basis R I) lr r ws h w, 0 < lr -> r < 2 ->
  Forall (consistent b (length w) ws) h -> Forall (fun p => lr * energy b p <= r) h ->
  forall es, residuals SGD (MkLFA b w lr) h es -> lr * (2 - r) * sum_sq es <= dist2 w ws.
Proof. exact @sgd_realisable. Qed.
Print Assumptions C59_sgd_realisable.

Theorem C59_isgd_realisable : forall I (b : Basis R I) lr q ws h w, 0 < lr ->
  Forall (consistent b (length w) ws) h -> Forall (fun p => energy b p <= q) h -> 0 <= q ->
  forall es, residuals ISGD (MkLFA b w lr) h es -> lr / (1 + lr * q) * sum_sq es <= dist2 w ws.
Proof. exact @isgd_realisable. Qed.
Print Assumptions C59_isgd_realisable.

(** Mistakes of at least eps: finitely many, however long the run. *)
Theorem C59_mistakes : forall I (b : Basis R I) lr r ws h w eps, 0 < lr -> r < 2 -> 0 < eps ->
  Forall (consistent b (length w) ws) h -> Forall (fun p => lr * energy b p <= r) h ->
  forall es, residuals SGD (MkLFA b w lr) h es ->
  INR (length (filter (fun e => if Rle_dec eps (Rabs e) then true else false) es)) * (lr * (2 - r) * (eps * eps))
    <= dist2 w ws.
Proof.
  intros I b lr r ws h w eps P R2 Pe Cs Es es Re.
  assert (A := sgd_realisable b lr r ws h w P R2 Cs Es es Re).
  assert (B := count_big eps es Pe). assert (K : 0 < lr * (2 - r)) by (apply Rmult_lt_0_compat; lra).
  apply Rle_trans with (2 := A).
  apply Rmult_le_compat_l with (1 := Rlt_le _ _ K) in B. lra.
Qed.
Print Assumptions C59_mistakes.

(** Two features: sparse for even inputs, dense for odd ones. *)
Definition reg_basis : Basis R nat := MkBasis 2 (fun x =>
  if Nat.even x then Ret (Ok (Sparse (MkSparse 2 [(1%nat, 1)]))) else Ret (Ok (Dense [1; 1]))).
Example C59_case : Forall (consistent reg_basis 2 [3; 1]) [(4%nat, 1); (1%nat, 4); (4%nat, 1)] /\
  Forall (fits reg_basis 2) [(4%nat, 1); (1%nat, 4); (4%nat, 1)] /\
  Forall (fun p => 1/2 * energy reg_basis p <= 1) [(4%nat, 1); (1%nat, 4); (4%nat, 1)] /\
  dist2 [0; 0] [3; 1] = 10.
Proof.
  assert (Z1 : sized 2 (Sparse (MkSparse 2 [(1%nat, 1)]))).
  { split; [split|]; auto; [repeat constructor; simpl; intuition lia|].
    apply bounded_sparse. simpl. intros i [<-|[]]; lia. }
  assert (Z2 : sized 2 (Dense [1; 1])) by (split; [apply wf_dense|reflexivity]).
  splits.
  - repeat constructor; unfold consistent; simpl; eexists; (split; [reflexivity|]); split; auto;
      unfold predict, sigma; simpl; unfold coeff, at_; simpl; lra.
  - repeat constructor; unfold fits; simpl; eexists; (split; [reflexivity|]); auto.
  - repeat constructor; unfold energy; simpl; unfold norm2, sigma; simpl; unfold coeff, at_; simpl; lra.
  - unfold dist2, sigma; simpl; unfold at_; simpl; lra.
Qed.
