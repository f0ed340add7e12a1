(** C68: Gram matrices of the kernels. Statements only; proofs are in
    KernelPsd.v, KernelRadial.v and KernelGram.v. *)
From Coq Require Import List Arith ZArith Lia Reals Lra.
From Verif Require Import Base Scalar NdArray Features FeatureFacts ScalarR Kernels BasisReal KernelPsd KernelRadial KernelGram
  TileCoding Basis.
Import ListNotations.
Local Open Scope R_scope.

(** The quadratic form of the Gram matrix of weighted points. *)
Definition form {X} (k : X -> X -> R) (cs : list (R * X)) : R :=
  rsum (map (fun a => rsum (map (fun b => fst a * fst b * k (snd a) (snd b)) cs)) cs).

(** Exponential, Matern32, ExpQuad and RationalQuadratic with a non-negative
    power are positive semidefinite on points of one length, in any number of
    dimensions and with any lengthscales. *)
Theorem C68_psd : forall k n cs,
  match k_kind k with
  | KExponential | KMatern32 | KExpQuad => True
  | KRationalQuadratic power => 0 <= power
  | KMatern52 | KCosine => False
  end ->
  0 <= k_variance k -> Forall (fun l => l <> 0) (k_lengthscales k) ->
  Forall (fun c => length (snd c) = n) cs -> 0 <= form (kernel_slice k) cs.
Proof. intros k n cs K V _ L. exact (slice_psd k n cs K V L). Qed.
Print Assumptions C68_psd.

Example C68_psd_case : let k := MkKernel (KRationalQuadratic 2) 3 [1; / 2] in
  0 <= form (kernel_slice k) [(1, [0; 1]); (-2, [5; 7]); (3, [2; 2])].
Proof.
  intros k. apply (C68_psd k 2); simpl; try lra.
  - constructor; [lra|]. constructor; [lra|constructor].
  - repeat (constructor; [reflexivity|]). constructor.
Qed.

(** The same for the kernels applied to scalars. *)
Theorem C68_scalar : forall k l ls cs,
  match k_kind k with
  | KExponential | KMatern32 | KExpQuad | KCosine => True
  | KRationalQuadratic power => 0 <= power
  | KMatern52 => False
  end ->
  0 <= k_variance k -> k_lengthscales k = l :: ls -> 0 < l ->
  exists v, (forall x y, kernel_scalar k x y = Ret (v x y)) /\ 0 <= form v cs.
Proof.
  intros k l ls cs K V E P.
  set (k' := MkKernel (k_kind k) (k_variance k) [l]).
  exists (fun x y => kernel_slice k' [x] [y]). split.
  - intros x y. rewrite (scalar_slice k l ls x y E P). f_equal.
    rewrite !(proj1 (kernel_formula _)), E. unfold k', sq_dist. simpl. destruct ls; reflexivity.
  - set (cs' := map (fun c : R * R => (fst c, [snd c])) cs).
    assert (Q : form (fun x y => kernel_slice k' [x] [y]) cs = form (kernel_slice k') cs').
    { unfold form, cs'. rewrite map_map. apply rsum_ext. intros a _. rewrite map_map. reflexivity. }
    rewrite Q. destruct (k_kind k) eqn:Ek; try contradiction.
    all: try (apply (slice_psd k' 1); [exact K|exact V|];
              apply Forall_forall; intros c I; apply in_map_iff in I; destruct I as (d & <- & _); reflexivity).
    apply (cosine_1d_psd k' l); [reflexivity|exact V|reflexivity|].
    apply Forall_forall. intros c I. apply in_map_iff in I. destruct I as (d & <- & _). discriminate.
Qed.
Print Assumptions C68_scalar.

Example C68_scalar_case : exists v, (forall x y, kernel_scalar (non_ard KCosine 2 3) x y = Ret (v x y)) /\
  0 <= form v [(1, 0); (1, 3 * PI); (-4, 1)].
Proof. apply (C68_scalar _ 3 []); simpl; auto; lra. Qed.

(** Cosine on slices with one lengthscale, which reads the first coordinate. *)
Theorem C68_cosine_1d : forall variance l cs, 0 <= variance -> l <> 0 ->
  Forall (fun c => snd c <> []) cs -> 0 <= form (kernel_slice (non_ard KCosine variance l)) cs.
Proof. intros variance l cs V _ L. exact (cosine_1d_psd (non_ard KCosine variance l) l cs eq_refl V eq_refl L). Qed.
Print Assumptions C68_cosine_1d.

Example C68_cosine_1d_case : 0 <= form (kernel_slice (non_ard KCosine 1 1)) [(1, [0; 9]); (1, [PI])].
Proof. apply C68_cosine_1d; try lra. repeat (constructor; [discriminate|]). constructor. Qed.

(** With two lengthscales Cosine is not: an equilateral triangle of side pi. *)
Theorem C68_cosine_refuted : forall variance l l', 0 < variance -> 0 < l -> 0 < l' ->
  exists cs, Forall (fun c => length (snd c) = 2%nat) cs /\
    form (kernel_slice (MkKernel KCosine variance [l; l'])) cs < 0.
Proof.
  intros variance l l' V P P'. eexists. split; [|unfold form; fold (quad (kernel_slice (MkKernel KCosine variance [l; l'])))].
  2: { pose proof (cosine_2d_negative variance l l' V P P') as Q. cbv zeta in Q. unfold quad in Q. rewrite Q. lra. }
  repeat (constructor; [reflexivity|]). constructor.
Qed.
Print Assumptions C68_cosine_refuted.

(** Matern52 as coded is not, already for two scalars ... *)
Theorem C68_matern52_refuted : forall variance l, 0 < variance -> 0 < l ->
  exists x y, form (kernel_slice (non_ard KMatern52 variance l)) [(1, [x]); (-1, [y])] < 0.
Proof. exact matern52_negative. Qed.
Print Assumptions C68_matern52_refuted.

(** ... and would be with sqrt 5 in place of sqrt 3. *)
Theorem C68_matern52_sqrt5 : forall k n cs, 0 <= k_variance k -> Forall (fun c => length (snd c) = n) cs ->
  0 <= form (fun x y => let r := kernel_distance k x y in
               k_variance k * (1 + sqrt 5 * r + 5 / 3 * r ^ 2) * exp (- (sqrt 5 * r))) cs.
Proof. exact matern52_intended_psd. Qed.
Print Assumptions C68_matern52_sqrt5.

(** On points of different lengths the others are not either. *)
Theorem C68_lengths_refuted : forall kind variance l, 0 < variance -> 0 < l ->
  match kind with KMatern52 => False | KRationalQuadratic power => 0 < power | _ => True end ->
  exists cs, form (kernel_slice (non_ard kind variance l)) cs < 0.
Proof. exact mixed_lengths_refuted. Qed.
Print Assumptions C68_lengths_refuted.
