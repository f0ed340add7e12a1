(** Bases built from input spaces: Fourier and Chebyshev bounds, kernels over a
    partitioning, and how the prototypes line up with the cells of a uniform
    grid. Facts for C60. *)
From Coq Require Import List Arith ZArith Lia Reals Lra.
From Verif Require Import Base Scalar ScalarR HMap NdArray VecFacts Features Spec FeatureFacts Coeffs CoeffFacts
  Kernels TileCoding Basis BasisFacts BasisReal.
Import ListNotations.
Local Open Scope nat_scope.

Section Space.
  Context {F : Type} `{Scalar F}.
  Implicit Types (space : list (equipartition F)).

  Definition bounded_interval (d : @interval F) : Prop := exists lo hi, d = (Some lo, Some hi).

  (** [limits] are the bounds of [space]. *)
  Definition bounds_of (space : list (@interval F)) (limits : list (F * F)) : Prop :=
    Forall2 (fun d l => d = (Some (fst l), Some (snd l))) space limits.

  Lemma bounds_panic (g : @interval F -> outcome (F * F)) ds :
    (forall lo hi, g (Some lo, Some hi) = Ret (lo, hi)) ->
    (forall d, ~ bounded_interval d -> g d = Panic) ->
    (omapM g ds = Panic <-> exists d, In d ds /\ ~ bounded_interval d) /\
    (forall ls, omapM g ds = Ret ls <-> bounds_of ds ls).
  Proof.
    intros G1 G2. split.
    - rewrite omapM_Panic. split; intros (d & I & N); exists d; (split; [exact I|]).
      + intros (lo & hi & ->). rewrite G1 in N. discriminate.
      + apply G2, N.
    - induction ds as [|d ds IH]; intros ls; simpl.
      + split; [intros [= <-]; constructor|]. intros B. inversion B. reflexivity.
      + split.
        * destruct d as [[lo|] [hi|]];
            try (rewrite G2; [discriminate|intros (? & ? & ?); discriminate]).
          rewrite G1. simpl. destruct (omapM g ds) as [r|] eqn:M; simpl; [|discriminate].
          intros [= <-]. constructor; [reflexivity|]. apply IH. reflexivity.
        * intros B. inversion B as [|? l ? ls' E B']; subst. apply IH in B'. rewrite G1, B'. simpl.
          destruct l; reflexivity.
  Qed.

  Lemma get_bounds_some lo hi : @get_bounds F (Some lo, Some hi) = Ret (lo, hi).
  Proof. reflexivity. Qed.
  Lemma get_bounds_none (d : @interval F) : ~ bounded_interval d -> get_bounds d = Panic.
  Proof. destruct d as [[lo|] [hi|]]; auto. intros N. destruct N. exists lo, hi. reflexivity. Qed.

  Theorem fourier_space order (ds : list (@interval F)) :
    (fourier_from_space order ds = Panic <-> exists d, In d ds /\ ~ bounded_interval d) /\
    (forall ls, bounds_of ds ls -> fourier_from_space order ds = Ret (fourier_new order ls)).
  Proof.
    destruct (bounds_panic get_bounds ds get_bounds_some get_bounds_none) as [P Q].
    unfold fourier_from_space. split.
    - rewrite <- P. destruct (omapM get_bounds ds); simpl; split; congruence.
    - intros ls B. apply Q in B. rewrite B. reflexivity.
  Qed.

  Theorem chebyshev_space order (ds : list (@interval F)) :
    (forall d, In d ds -> bounded_interval d) ->
    exists ls, bounds_of ds ls /\ chebyshev_from_space order ds = chebyshev_new order ls.
  Proof.
    intros A. unfold chebyshev_from_space.
    match goal with |- context [omapM ?g ds] => destruct (bounds_panic g ds) as [P Q] end.
    - reflexivity.
    - intros [[lo|] [hi|]] N; auto. destruct N. exists lo, hi. reflexivity.
    - match goal with |- context [omapM ?g ds] => destruct (omapM g ds) as [ls|] eqn:M end.
      + exists ls. split; [apply Q; exact M|]. reflexivity.
      + exfalso. destruct (proj1 P M) as (d & I & N). apply N, A, I.
  Qed.

  Theorem chebyshev_space_unbounded order (ds : list (@interval F)) d :
    In d ds -> ~ bounded_interval d -> chebyshev_from_space order ds = Panic.
  Proof.
    intros I N. unfold chebyshev_from_space.
    match goal with |- context [omapM ?g ds] => destruct (bounds_panic g ds) as [P Q] end.
    - reflexivity.
    - intros [[lo|] [hi|]] N'; auto. destruct N'. exists lo, hi. reflexivity.
    - match goal with |- context [omapM ?g ds] => destruct (omapM g ds) as [ls|] eqn:M end; [|reflexivity].
      exfalso. assert (X := proj2 P (ex_intro _ d (conj I N))). assert (Y := eq_trans (eq_sym M) X). discriminate Y.
  Qed.

  (** ** Partitionings *)

  (** Position of a choice of indices when the last one varies fastest. *)
  Fixpoint rank (js ns : list nat) : nat :=
    match js, ns with
    | j :: js', n :: ns' => j * fold_right Nat.mul 1 ns' + rank js' ns'
    | _, _ => 0
    end.

  Lemma rank_bound : forall ns js, Forall2 lt js ns -> rank js ns < fold_right Nat.mul 1 ns.
  Proof.
    induction 1 as [|j n js ns L B IH]; simpl; [lia|].
    assert (S j * fold_right Nat.mul 1 ns <= n * fold_right Nat.mul 1 ns) by (apply Nat.mul_le_mono_r; lia).
    simpl in *. lia.
  Qed.

  (** The choice of one element per list. *)
  Definition chosen {A} (js : list nat) (ls : list (list A)) (v : list A) : Prop :=
    Forall2 (fun jl x => nth_error (snd jl) (fst jl) = Some x) (combine js ls) v /\ length js = length ls.

  Lemma nth_flat_map {A B} (f : A -> list B) m : (forall a, length (f a) = m) -> forall l j a i,
    nth_error l j = Some a -> i < m -> nth_error (flat_map f l) (j * m + i) = nth_error (f a) i.
  Proof.
    intros L. induction l as [|x l IH]; intros [|j] a i E Li; simpl in *; try discriminate.
    - injection E as ->. rewrite nth_error_app1; [reflexivity|]. rewrite L. exact Li.
    - rewrite nth_error_app2; rewrite L; [|lia].
      replace (m + j * m + i - m) with (j * m + i) by lia. apply IH; auto.
  Qed.

  Lemma rank_lt {A} (ls : list (list A)) js v : chosen js ls v -> Forall2 lt js (map (@length A) ls).
  Proof.
    revert js v. induction ls as [|l ls IH]; intros [|j js] v [C L]; simpl in *; try discriminate; constructor.
    - inversion C as [|? x ? v' E C']; subst. apply nth_error_Some. simpl in E. congruence.
    - inversion C as [|? x ? v' E C']; subst. apply (IH js v'). split; [exact C'|lia].
  Qed.

  Lemma product_rank {A} (ls : list (list A)) : forall js v, chosen js ls v ->
    nth_error (multi_product ls) (rank js (map (@length A) ls)) = Some v.
  Proof.
    induction ls as [|l ls IH]; intros [|j js] v [C L]; simpl in *; try discriminate.
    - inversion C. reflexivity.
    - inversion C as [|? x ? v' E C']; subst. simpl in E.
      assert (Ch : chosen js ls v') by (split; [exact C'|lia]).
      assert (Lm : forall a : A, length (map (cons a) (multi_product ls)) = fold_right Nat.mul 1 (map (@length A) ls))
        by (intros a; rewrite map_length; apply product_length).
      rewrite (nth_flat_map _ _ Lm l j x _ E); [|apply rank_bound, rank_lt with v', Ch].
      rewrite nth_error_map', (IH js v' Ch). reflexivity.
  Qed.

  Lemma cartesian_nonempty (space : list (equipartition F)) : space <> [] ->
    cartesian_product (map ep_centres space) = multi_product (map ep_centres space).
  Proof. destruct space; [congruence|reflexivity]. Qed.

  Lemma kernel_partitioned_proto kind space js c : space <> [] -> chosen js (map ep_centres space) c ->
    exists ps, kernel_partitioned kind space = BKernel ps /\
      nth_error ps (rank js (map (fun e => length (ep_centres e)) space)) =
        Some (MkProto c (MkKernel kind fone (map ep_width space))).
  Proof.
    intros Ne C. eexists. split; [reflexivity|]. rewrite nth_error_map', cartesian_nonempty by exact Ne.
    replace (map (fun e : equipartition F => length (ep_centres e)) space)
      with (map (@length F) (map ep_centres space)) by (rewrite map_map; reflexivity).
    rewrite (product_rank _ js c C). reflexivity.
  Qed.

  (** Every axis has as many centres as partitions. *)
  Definition centred space : Prop := Forall (fun e => length (ep_centres e) = ep_n e) space.

  Lemma centred_map space : centred space -> map (fun e => length (ep_centres e)) space = map ep_n space.
  Proof. induction 1; simpl; congruence. Qed.

  Theorem kernel_dim kind space : space <> [] -> centred space ->
    dim (kernel_partitioned kind space) = dim (grid_new space).
  Proof.
    intros Ne C. cbn [kernel_partitioned kernel_homogeneous dim grid_new].
    rewrite map_length, cartesian_nonempty by exact Ne. rewrite product_length, map_map, centred_map; auto.
  Qed.

  Lemma grid_fold_rank : forall (ds : list (equipartition F)) vs acc, length vs = length ds ->
    fold_left (fun acc dv => ep_map_onto (fst dv) (snd dv) + ep_n (fst dv) * acc) (combine ds vs) acc =
    acc * fold_right Nat.mul 1 (map ep_n ds) + rank (map2 ep_map_onto ds vs) (map ep_n ds).
  Proof.
    induction ds as [|d ds IH]; intros [|v vs] acc L; simpl in *; try discriminate; [lia|].
    rewrite IH by lia. ring.
  Qed.

  Lemma grid_rank space x : space <> [] -> length x = length space ->
    grid_hash space x = Ret (rank (map2 ep_map_onto space x) (map ep_n space)).
  Proof.
    destruct space as [|d ds], x as [|v vs]; simpl; try discriminate; try congruence.
    intros _ L. rewrite grid_fold_rank by lia. reflexivity.
  Qed.

  (** The prototype in the same position as an input's grid cell is the one
      centred on that cell. *)
  Theorem grid_kernel kind space x : centred space -> space <> [] -> length x = length space ->
    (forall e v, In e space -> ep_map_onto e v < ep_n e) ->
    exists i c ps, project (grid_new space) x = Ret (Ok (Sparse (MkSparse (dim (grid_new space)) [(i, fone)]))) /\
      kernel_partitioned kind space = BKernel ps /\
      nth_error ps i = Some (MkProto c (MkKernel kind fone (map ep_width space))) /\
      Forall2 (fun ev m => nth_error (ep_centres (fst ev)) (ep_map_onto (fst ev) (snd ev)) = Some m) (combine space x) c.
  Proof.
    intros C N L B.
    assert (Ex : exists c, chosen (map2 ep_map_onto space x) (map ep_centres space) c /\
      Forall2 (fun ev m => nth_error (ep_centres (fst ev)) (ep_map_onto (fst ev) (snd ev)) = Some m) (combine space x) c).
    { clear N. revert x L. induction C as [|e space Ce C IH]; intros [|v vs] L; simpl in *; try discriminate.
      - exists []. repeat split; constructor.
      - destruct (IH (fun e' v' I => B e' v' (or_intror I)) vs) as (c & [C1 C2] & C3); [lia|].
        destruct (nth_error_lt (ep_centres e) (ep_map_onto e v)) as [m M]; [rewrite Ce; apply B; auto|].
        exists (m :: c). split; [split|]; simpl; [constructor; auto|lia|constructor; auto]. }
    destruct Ex as (c & Ch & Q).
    destruct (kernel_partitioned_proto kind space _ c N Ch) as (ps & E1 & E2).
    rewrite centred_map in E2 by exact C.
    eexists. exists c, ps. split; [|split; [exact E1|split; [exact E2|exact Q]]].
    cbn [project grid_new]. rewrite (grid_rank space x N L). reflexivity.
  Qed.

  Lemma chebyshev_space_both order (ds : list (@interval F)) :
    ((exists d, In d ds /\ ~ bounded_interval d) -> chebyshev_from_space order ds = Panic) /\
    (forall ls, bounds_of ds ls -> chebyshev_from_space order ds = chebyshev_new order ls).
  Proof.
    split; [intros (d & I & N); eapply chebyshev_space_unbounded; eauto|].
    intros ls B. destruct (chebyshev_space order ds) as (ls' & B' & E).
    - intros d I. clear -B I. induction B as [|d' l ds ls E B IH]; destruct I; subst; [do 2 eexists; reflexivity|auto].
    - rewrite E. f_equal. clear E order. revert ls' B'.
      induction B as [|d l ds ls E B IH]; intros ls' B'; inversion B' as [|d' l' ds' ls2 E' B2]; auto.
      rewrite E in E'. injection E' as E1 E2. f_equal; [destruct l, l'; simpl in *; congruence|auto].
  Qed.

  Lemma kernel_prototypes kind space js c : space <> [] -> chosen js (map ep_centres space) c ->
    exists ps, kernel_partitioned kind space = BKernel ps /\
      length ps = fold_right Nat.mul 1 (map (fun e => length (ep_centres e)) space) /\
      nth_error ps (rank js (map (fun e => length (ep_centres e)) space)) =
        Some (MkProto c (MkKernel kind fone (map ep_width space))).
  Proof.
    intros Ne C. destruct (kernel_partitioned_proto kind space js c Ne C) as (ps & E & N). exists ps. splits; auto.
    unfold kernel_partitioned, kernel_homogeneous in E. injection E as <-.
    rewrite map_length, cartesian_nonempty, product_length, map_map by exact Ne. reflexivity.
  Qed.
End Space.

Lemma kernel_centre kind (space : list (equipartition R)) js c : peaked kind -> space <> [] ->
  chosen js (map ep_centres space) c ->
  exists phi, project (kernel_partitioned kind space) c = Ret (Ok (Dense phi)) /\
    nth_error phi (rank js (map (fun e => length (ep_centres e)) space)) = Some 1%R /\
    forall v, In v phi -> (Rabs v <= 1)%R.
Proof.
  intros Pk Ne C. destruct (kernel_partitioned_proto kind space js c Ne C) as (ps & E & N).
  rewrite E. cbn [project]. eexists. split; [reflexivity|]. split.
  - rewrite nth_error_map', N. cbn [option_map]. unfold distance_from. cbn [p_kernel p_centroid].
    destruct (kernel_self (MkKernel kind fone (map ep_width space))) as [K _]. rewrite K. cbn [k_variance].
    rewrite fone_R. reflexivity.
  - intros v I. apply in_map_iff in I. destruct I as (p & <- & Ip).
    unfold kernel_partitioned, kernel_homogeneous in E. injection E as <-. apply in_map_iff in Ip.
    destruct Ip as (c' & <- & _). unfold distance_from. cbn [p_kernel p_centroid].
    destruct (kernel_peak (MkKernel kind fone (map ep_width space))) as [K _]; [exact Pk|cbn [k_variance]; rewrite fone_R; lra|].
    eapply Rle_trans; [apply K|]. cbn [k_variance]. rewrite fone_R. apply Rle_refl.
Qed.
