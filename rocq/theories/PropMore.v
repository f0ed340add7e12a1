(** C60, C61: bases built from input spaces, and optimiser state in binary64.
    Statements only; proofs are in SpaceFacts.v, SpaceF64.v and OptimF64.v. *)
From Coq Require Import List Arith ZArith Lia Reals Lra Bool.
From Flocq Require Import Core.Core IEEE754.BinarySingleNaN.
From Verif Require Import Base Scalar ScalarR ScalarF64 F64Facts HMap HMapFacts NdArray VecFacts Features Spec
  FeatureFacts Coeffs Kernels TileCoding Basis BasisFacts BasisReal NormF64 Optim OptimSpec OptimFacts
  SpaceFacts SpaceF64 NonnegF64 BoundF64 OptimF64.
Import ListNotations.

(** ** C60 *)

Theorem C60_fourier_space : forall F `{Scalar F} order (ds : list (@interval F)),
  (fourier_from_space order ds = Panic <-> exists d, In d ds /\ ~ bounded_interval d) /\
  (forall ls, bounds_of ds ls -> fourier_from_space order ds = Ret (fourier_new order ls)).
Proof. intros F S order ds. exact (fourier_space order ds). Qed.
Print Assumptions C60_fourier_space.

Theorem C60_chebyshev_space : forall F `{Scalar F} order (ds : list (@interval F)),
  ((exists d, In d ds /\ ~ bounded_interval d) -> chebyshev_from_space order ds = Panic) /\
  (forall ls, bounds_of ds ls -> chebyshev_from_space order ds = chebyshev_new order ls).
Proof. intros F S order ds. exact (chebyshev_space_both order ds). Qed.
Print Assumptions C60_chebyshev_space.

Theorem C60_kernel_prototypes : forall F `{Scalar F} kind (space : list (equipartition F)) js c,
  space <> [] -> chosen js (map ep_centres space) c ->
  exists ps, kernel_partitioned kind space = BKernel ps /\
    length ps = fold_right Nat.mul 1 (map (fun e => length (ep_centres e)) space) /\
    nth_error ps (rank js (map (fun e => length (ep_centres e)) space)) =
      Some (MkProto c (MkKernel kind fone (map ep_width space))).
Proof. intros F S kind space js c N C. exact (kernel_prototypes kind space js c N C). Qed.
Print Assumptions C60_kernel_prototypes.

(** Over no axes at all there is no prototype, and every input has no features. *)
Theorem C60_kernel_empty : forall F `{Scalar F} kind,
  dim (kernel_partitioned kind ([] : list (equipartition F))) = 0 /\
  forall x, project (kernel_partitioned kind ([] : list (equipartition F))) x = Ret (Ok (Dense [])).
Proof. intros F S kind. split; reflexivity. Qed.
Print Assumptions C60_kernel_empty.

Theorem C60_grid_kernel : forall F `{Scalar F} kind (space : list (equipartition F)) x,
  centred space -> space <> [] -> length x = length space ->
  (forall e v, In e space -> ep_map_onto e v < ep_n e) ->
  dim (kernel_partitioned kind space) = dim (grid_new space) /\
  exists i c ps, project (grid_new space) x = Ret (Ok (Sparse (MkSparse (dim (grid_new space)) [(i, fone)]))) /\
    kernel_partitioned kind space = BKernel ps /\
    nth_error ps i = Some (MkProto c (MkKernel kind fone (map ep_width space))) /\
    Forall2 (fun ev m => nth_error (ep_centres (fst ev)) (ep_map_onto (fst ev) (snd ev)) = Some m) (combine space x) c.
Proof.
  intros F S kind space x C N L B. split; [exact (kernel_dim kind space N C)|exact (grid_kernel kind space x C N L B)].
Qed.
Print Assumptions C60_grid_kernel.

Theorem C60_kernel_centre : forall kind (space : list (equipartition R)) js c, peaked kind -> space <> [] ->
  chosen js (map ep_centres space) c ->
  exists phi, project (kernel_partitioned kind space) c = Ret (Ok (Dense phi)) /\
    nth_error phi (rank js (map (fun e => length (ep_centres e)) space)) = Some 1%R /\
    forall v, In v phi -> (Rabs v <= 1)%R.
Proof. exact kernel_centre. Qed.
Print Assumptions C60_kernel_centre.

Theorem C60_fourier_degenerate : forall P order (limits : list (f64 * f64)) x j lo,
  (forall z, b_finite z = false -> p_cos P z = b_nan) ->
  nth_error limits j = Some (lo, lo) -> j < length x ->
  @project f64 (ScalarF64 P) (@fourier_new f64 (ScalarF64 P) order limits) x =
    Ret (Ok (Dense (repeat b_nan ((order + 1) ^ length limits - 1)))).
Proof. exact fourier_degenerate. Qed.
Print Assumptions C60_fourier_degenerate.

Lemma dense_sized {F} (da : list F) : sized (length da) (Dense da).
Proof. split; [split; [exact I|apply bounded_dense]|reflexivity]. Qed.

(** ** C61 *)

Theorem C61_isgd_rate : forall P (lr : f64) (phi : Features f64),
  b_finite lr = true -> (0 < b_real lr)%R -> finite_features phi ->
  let rate := @isgd_compute_lr f64 (ScalarF64 P) lr phi in
  b_finite rate = true /\ (0 <= b_real rate <= b_real lr)%R.
Proof. intros P lr phi A B C. exact (isgd_rate_f64 P lr phi A B C). Qed.
Print Assumptions C61_isgd_rate.

Theorem C61_adagrad_grows : forall P, squares P -> forall h (s : adagrad_state f64) w,
  Forall (finite_step (length w)) h -> length (ag_acc s) = length w -> Forall nonneg (ag_acc s) ->
  exists s' w', train (@Adagrad f64 (ScalarF64 P)) h s w = Ret (s', w') /\ length w' = length w /\
    ag_lr s' = ag_lr s /\ Forall2 grows (ag_acc s) (ag_acc s').
Proof. exact adagrad_train_f64. Qed.
Print Assumptions C61_adagrad_grows.

Theorem C61_adagrad_saturated : forall P (s : adagrad_state f64) w phi sf l i a x, squares P ->
  finite_step (length w) (phi, sf) -> @expands f64 (ScalarF64 P) phi l -> length (ag_acc s) = length w ->
  nth_error (ag_acc s) i = Some b_inf -> nth_error l i = Some a -> nth_error w i = Some x ->
  b_finite (b_mul (ag_lr s) (b_mul a sf)) = true -> b_finite x = true ->
  exists s' w' x', @adagrad_step_scaled f64 (ScalarF64 P) s w phi sf = Ret (s', w', Ok tt) /\
    nth_error (ag_acc s') i = Some b_inf /\ nth_error w' i = Some x' /\
    b_finite x' = true /\ b_real x' = b_real x.
Proof. exact adagrad_saturated. Qed.
Print Assumptions C61_adagrad_saturated.

Theorem C61_adagrad_history : forall P j k, squares P -> (0 <= j)%Z -> (0 <= k)%Z -> (j + k <= 999)%Z ->
  forall h s w, adagrad_inv j (length w) s -> Forall (bounded_step (length w) k) h ->
    exists s' w', train (@Adagrad f64 (ScalarF64 P)) h s w = Ret (s', w') /\
      adagrad_inv j (length w) s' /\ length w' = length w /\
      Forall2 (drifts (bpow radix2 (j + k + 24)) (length h)) w w'.
Proof. exact adagrad_history_f64. Qed.
Print Assumptions C61_adagrad_history.

Theorem C61_adam_history : forall P j k, (0 <= j)%Z -> (0 <= k <= 511)%Z -> (j + k <= 946)%Z ->
  forall h s w, adam_inv j k (length w) s -> Forall (bounded_step (length w) k) h ->
    exists s' w', train (@Adam f64 (ScalarF64 P)) h s w = Ret (s', w') /\
      adam_inv j k (length w) s' /\ length w' = length w /\
      Forall2 (drifts (bpow radix2 (j + k + 77)) (length h)) w w'.
Proof. exact adam_history_f64. Qed.
Print Assumptions C61_adam_history.

Theorem C61_adamax_history : forall P j k, (0 <= j)%Z -> (0 <= k <= 1023)%Z -> (j + k <= 946)%Z ->
  forall h s w, adamax_inv j k (length w) s -> Forall (bounded_step (length w) k) h ->
    exists s' w', train (@AdaMax f64 (ScalarF64 P)) h s w = Ret (s', w') /\
      adamax_inv j k (length w) s' /\ length w' = length w /\
      Forall2 (drifts (bpow radix2 (j + k + 77)) (length h)) w w'.
Proof. exact adamax_history_f64. Qed.
Print Assumptions C61_adamax_history.

Theorem C61_invariants : forall P j k n lr b1 b2, within (bpow radix2 j) lr -> unit_ b1 -> unit_ b2 ->
  (adagrad_inv j n (@adagrad_new f64 (ScalarF64 P) n lr) /\
   forall s, adagrad_inv j n s -> adagrad_inv j n (@adagrad_reset f64 (ScalarF64 P) s)) /\
  (adam_inv j k n (@adam_new f64 (ScalarF64 P) n lr b1 b2) /\
   forall s, adam_inv j k n s -> adam_inv j k n (@adam_reset f64 (ScalarF64 P) s)) /\
  (adamax_inv j k n (@adamax_new f64 (ScalarF64 P) n lr b1 b2) /\
   forall s, adamax_inv j k n s -> adamax_inv j k n (@adamax_reset f64 (ScalarF64 P) s)).
Proof.
  intros P j k n lr b1 b2 W U1 U2.
  split; [split; [apply adagrad_inv_new, W|apply adagrad_inv_reset]|].
  split; split; [apply adam_inv_new; auto|apply adam_inv_reset|apply adamax_inv_new; auto|apply adamax_inv_reset].
Qed.
Print Assumptions C61_invariants.

(** A zero rate is not covered: the norm overflows and 0 * inf is NaN. *)
Theorem C61_isgd_rate_refuted : exists P (lr : f64) phi, b_finite lr = true /\ (0 <= b_real lr)%R /\
  finite_features phi /\ b_is_nan (@isgd_compute_lr f64 (ScalarF64 P) lr phi) = true.
Proof.
  exists SimplePlatform, b_zero, (Dense [b_dyadic 1 600]). repeat split.
  - simpl. lra.
  - intros [|[|i]] v E; simpl in E; [injection E as <-; vm_compute; reflexivity|discriminate|discriminate].
Qed.
Print Assumptions C61_isgd_rate_refuted.

(** Finite activations, scale, weights and hyper-parameters, but the gradient
    overflows: the weight becomes NaN. *)
Theorem C61_adam_refuted : exists P lr b1 b2 (phi : Features f64) sf w,
  within (bpow radix2 0) lr /\ unit_ b1 /\ unit_ b2 /\ b_finite sf = true /\ finite_features phi /\
  sized 1 phi /\ b_finite w = true /\
  exists s' w', @adam_step_scaled f64 (ScalarF64 P) (@adam_new f64 (ScalarF64 P) 1 lr b1 b2) [w] phi sf =
    Ret (s', [w'], Ok tt) /\ b_is_nan w' = true.
Proof.
  exists SimplePlatform, (b_dyadic 1 (-4)), (b_dyadic 1 (-1)), (b_dyadic 1 (-1)),
    (Dense [b_dyadic 1 600]), (b_dyadic 1 600), b_zero.
  split; [apply within_check; [lia|vm_compute; reflexivity]|].
  assert (U : unit_ (b_dyadic 1 (-1))) by (split; [vm_compute; reflexivity|apply range_check; vm_compute; reflexivity]).
  split; [exact U|]. split; [exact U|]. split; [vm_compute; reflexivity|]. split.
  { intros [|[|i]] v E; simpl in E; [injection E as <-; vm_compute; reflexivity|discriminate|discriminate]. }
  split; [apply dense_sized|].
  split; [reflexivity|].
  destruct (@adam_step_spec f64 (ScalarF64 SimplePlatform)
    (@adam_new f64 (ScalarF64 SimplePlatform) 1 (b_dyadic 1 (-4)) (b_dyadic 1 (-1)) (b_dyadic 1 (-1)))
    [b_zero] (Dense [b_dyadic 1 600]) (b_dyadic 1 600)) as (m1 & m2 & w' & E & _ & _ & Lw & Sp).
  { cbn [length]. exact (dense_sized [b_dyadic 1 600]). }
  { reflexivity. } { reflexivity. }
  destruct w' as [|x [|]]; try discriminate Lw.
  eexists _, x. split; [exact E|].
  destruct (Sp 0 b_zero b_zero b_zero eq_refl eq_refl eq_refl) as (_ & _ & N). cbn [nth_error] in N. injection N as ->.
  vm_compute. reflexivity.
Qed.
Print Assumptions C61_adam_refuted.

(** *** Examples *)

Example C61_squares : squares SimplePlatform.
Proof.
  intros g. change (b_mul g (b_mul g b_one) = b_mul g g). rewrite b_mul_one_r. reflexivity.
Qed.

Example more_history : list (Features f64 * f64) :=
  [(Dense [b_dyadic 3 0; b_dyadic (-5) (-3)], b_dyadic 1 0);
   (Sparse (MkSparse 2 [(1, b_dyadic 7 1)]), b_dyadic (-1) (-2))].

Example more_history_bounded : Forall (bounded_step 2 4) more_history.
Proof.
  constructor; [|constructor; [|constructor]].
  - split; [apply dense_sized|]. split; [vm_compute; reflexivity|].
    intros [|[|[|i]]] a E; simpl in E; try discriminate; injection E as <-;
      (apply within_check; [lia|vm_compute; reflexivity]).
  - split; [split; [split; [repeat constructor; simpl; tauto|intros k [v [E|[]]]; injection E as <- <-; simpl; lia]|reflexivity]|].
    split; [vm_compute; reflexivity|].
    intros i a [E|[]]. injection E as <- <-. apply within_check; [lia|vm_compute; reflexivity].
Qed.

Example more_unit : unit_ (b_dyadic 7 (-3)).
Proof. split; [vm_compute; reflexivity|apply range_check; vm_compute; reflexivity]. Qed.

(** Rate 1/8, decays 7/8. *)
Example C61_adam_case : forall w, length w = 2 ->
  exists s' w', train (@Adam f64 (ScalarF64 SimplePlatform)) more_history
      (@adam_new f64 (ScalarF64 SimplePlatform) 2 (b_dyadic 1 (-3)) (b_dyadic 7 (-3)) (b_dyadic 7 (-3))) w = Ret (s', w') /\ Forall2 (drifts (bpow radix2 81) 2) w w'.
Proof.
  intros w L.
  destruct (C61_adam_history SimplePlatform 0 4 ltac:(lia) ltac:(lia) ltac:(lia) more_history
    (@adam_new f64 (ScalarF64 SimplePlatform) 2 (b_dyadic 1 (-3)) (b_dyadic 7 (-3)) (b_dyadic 7 (-3))) w)
    as (s' & w' & E & _ & _ & D).
  - rewrite L. apply adam_inv_new; try apply more_unit. apply within_check; [lia|vm_compute; reflexivity].
  - rewrite L. apply more_history_bounded.
  - exists s', w'. split; [exact E|exact D].
Qed.

(** One axis, three cells of width 1 centred on 0.5, 1.5 and 2.5. *)
Example more_axis : equipartition R := MkEqui 3 (fun _ => 1) 1%R [(1/2)%R; (3/2)%R; (5/2)%R].

Example C60_grid_case : centred [more_axis; more_axis] /\ forall e v, In e [more_axis; more_axis] -> ep_map_onto e v < ep_n e.
Proof.
  split; [repeat constructor|]. intros e v [<-|[<-|[]]]; simpl; lia.
Qed.

Example C60_centre_case : chosen [2; 0] (map ep_centres [more_axis; more_axis]) [(5/2)%R; (1/2)%R] /\ rank [2; 0] [3; 3] = 6.
Proof. split; [|reflexivity]. split; [repeat constructor|reflexivity]. Qed.

Example C60_unbounded_case : fourier_from_space 2 [(Some 0%R, Some 1%R); (Some 0%R, None)] = Panic.
Proof. reflexivity. Qed.

Example C60_bounds_case : bounds_of [(Some 0%R, Some 1%R); (Some (-1)%R, Some 1%R)] [(0%R, 1%R); ((-1)%R, 1%R)].
Proof. repeat constructor. Qed.
