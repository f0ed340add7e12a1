(** Bases: model of /repo/src/basis/ (mod, constant, fourier, polynomial,
    kernelised, tile_coding, uniform_grid, normalisation, stack, closure).

    The library's bases and combinators are the constructors of one inductive
    type, so that statements can quantify over every composition. Inputs are
    slices, [list F]. *)
From Coq Require Import List Arith ZArith.
From Verif Require Import Base Scalar HMap NdArray Features Coeffs Kernels TileCoding.
Import ListNotations.

(** [spaces::Equipartition], an external type: the number of partitions,
    [map_onto], [partition_width] and [centres]. *)
Record equipartition (F : Type) := MkEqui {
  ep_n : nat;
  ep_map_onto : F -> nat;
  ep_width : F;
  ep_centres : list F
}.
Arguments MkEqui {F}.
Arguments ep_n {F}.
Arguments ep_map_onto {F}.
Arguments ep_width {F}.
Arguments ep_centres {F}.

(** kernelised.rs:13-16 ([struct Prototype]). *)
Record prototype (F : Type) := MkProto { p_centroid : list F; p_kernel : kernel F }.
Arguments MkProto {F}.
Arguments p_centroid {F}.
Arguments p_kernel {F}.

(** The basis structs:
    - BBias: constant.rs:12; BFixedDense / BFixedSparse: constant.rs:44 (the
      set of active indices is a list without repetition, in iteration order);
    - BFourier: fourier.rs:18-22; BPolynomial: polynomial/mod.rs:44-47;
      BChebyshev: polynomial/mod.rs:123-129;
    - BKernel: kernelised.rs:35-37; BTile: tile_coding.rs:45-50;
      BGrid: uniform_grid.rs:12-15; BClosure: closure.rs:11-14;
    - BStack: stack.rs:12-15; BL0..BLinf: normalisation.rs:13, 66, 135, 204. *)
Inductive basis (F : Type) : Type :=
| BBias (c : F)
| BFixedDense (constants : list F)
| BFixedSparse (n : nat) (active : list nat)
| BFourier (order : nat) (limits : list (F * F)) (coefficients : list (list F))
| BPolynomial (order : nat) (exponents : list (list nat))
| BChebyshev (order : nat) (limits : list (F * F)) (polynomials : list (list (F -> F)))
| BKernel (prototypes : list (prototype F))
| BTile (bld : build) (h : hasher) (n_tilings memory_size : nat)
| BGrid (n : nat) (space : list (equipartition F))
| BClosure (n : nat) (mapping : list F -> outcome (result (Features F)))
| BStack (b1 b2 : basis F)
| BL0 (b : basis F)
| BL1 (b : basis F)
| BL2 (b : basis F)
| BLinf (b : basis F).
Arguments BBias {F}.
Arguments BFixedDense {F}.
Arguments BFixedSparse {F}.
Arguments BFourier {F}.
Arguments BPolynomial {F}.
Arguments BChebyshev {F}.
Arguments BKernel {F}.
Arguments BTile {F}.
Arguments BGrid {F}.
Arguments BClosure {F}.
Arguments BStack {F}.
Arguments BL0 {F}.
Arguments BL1 {F}.
Arguments BL2 {F}.
Arguments BLinf {F}.

Section Basis.
  Context {F : Type} `{Scalar F}.
  Local Notation "x +. y" := (fadd x y) (at level 50, left associativity).
  Local Notation "x -. y" := (fsub x y) (at level 50, left associativity).
  Local Notation "x *. y" := (fmul x y) (at level 40, left associativity).
  Local Notation "x /. y" := (fdiv x y) (at level 40, left associativity).

  (** mod.rs:9-17 ([rescale!]): zip stops at the shorter of input and limits. *)
  Definition rescale (x : list F) (limits : list (F * F)) : list F :=
    map2 (fun v l => (v -. fst l) /. (snd l -. fst l)) x limits.

  (** [iter.product()]: folds from 1.0. *)
  Definition product (l : list F) : F := fold_left fmul l fone.

  (** ** Fourier *)

  (** fourier.rs:42-45. *)
  Definition fourier_feature (ss cfs : list F) : F :=
    fcos (fpi *. fold_left (fun acc vc => acc +. snd vc *. fst vc) (combine ss cfs) fzero).

  (** fourier.rs:25-35. *)
  Definition fourier_new (order : nat) (limits : list (F * F)) : basis F :=
    BFourier order limits
      (map (map fofnat) (compute_coefficients order (length limits))).

  (** ** Polynomial *)

  (** polynomial/mod.rs:50-54. *)
  Definition polynomial_new (dim order : nat) : basis F :=
    BPolynomial order (compute_coefficients order dim).

  (** polynomial/mod.rs:61-69. *)
  Definition polynomial_feature (x : list F) (exps : list nat) : F :=
    product (map2 fpowi x exps).

  (** polynomial/mod.rs:56-59: [self.exponents[0]] panics when empty. *)
  Definition polynomial_with_zeroth (exponents : list (list nat)) : outcome (list (list nat)) :=
    let* e0 := vget exponents 0 in
    Ret (exponents ++ [repeat 0 (length e0)]).

  (** ** Chebyshev *)

  Local Notation lit z := (flit z 1).

  (** polynomial/cpfk.rs:3-39. *)
  Definition t_0 (x : F) : F := lit 1.
  Definition t_1 (x : F) : F := x.
  Definition t_2 (x : F) : F := lit 2 *. x *. x -. lit 1.
  Definition t_3 (x : F) : F := lit 4 *. x *. x *. x -. lit 3 *. x.
  Definition t_4 (x : F) : F := lit 8 *. x *. x *. x *. x -. lit 8 *. x *. x +. lit 1.
  Definition t_5 (x : F) : F := lit 16 *. fpowi x 5 -. lit 20 *. fpowi x 3 +. lit 5 *. x.
  Definition t_6 (x : F) : F :=
    lit 32 *. fpowi x 6 -. lit 48 *. fpowi x 4 +. lit 18 *. fpowi x 2 -. lit 1.
  Definition t_7 (x : F) : F :=
    lit 64 *. fpowi x 7 -. lit 112 *. fpowi x 5 +. lit 56 *. fpowi x 3 -. lit 7 *. x.
  Definition t_8 (x : F) : F :=
    lit 128 *. fpowi x 8 -. lit 256 *. fpowi x 6 +. lit 160 *. fpowi x 4
    -. lit 32 *. fpowi x 2 +. lit 1.
  Definition t_9 (x : F) : F :=
    lit 256 *. fpowi x 9 -. lit 576 *. fpowi x 7 +. lit 432 *. fpowi x 5
    -. lit 120 *. fpowi x 3 +. lit 9 *. x.
  Definition t_10 (x : F) : F :=
    lit 512 *. fpowi x 10 -. lit 1280 *. fpowi x 8 +. lit 1120 *. fpowi x 6
    -. lit 400 *. fpowi x 4 +. lit 50 *. fpowi x 2 -. lit 1.
  Definition t_11 (x : F) : F :=
    lit 1024 *. fpowi x 11 -. lit 2816 *. fpowi x 9 +. lit 2816 *. fpowi x 7
    -. lit 1232 *. fpowi x 5 +. lit 220 *. fpowi x 3 -. lit 11 *. x.

  (** polynomial/mod.rs:167-181. *)
  Definition cheb_fn (i : nat) : outcome (F -> F) :=
    match i with
    | 0 => Ret t_0 | 1 => Ret t_1 | 2 => Ret t_2 | 3 => Ret t_3
    | 4 => Ret t_4 | 5 => Ret t_5 | 6 => Ret t_6 | 7 => Ret t_7
    | 8 => Ret t_8 | 9 => Ret t_9 | 10 => Ret t_10 | 11 => Ret t_11
    | _ => Panic
    end.

  (** polynomial/mod.rs:161-185. *)
  Definition make_polynomials (order dim : nat) : outcome (list (list (F -> F))) :=
    omapM (omapM cheb_fn) (compute_coefficients order dim).

  (** polynomial/mod.rs:132-144. *)
  Definition chebyshev_new (order : nat) (limits : list (F * F)) : outcome (basis F) :=
    if 11 <? order then Panic
    else let* ps := make_polynomials order (length limits) in
         Ret (BChebyshev order limits ps).

  (** polynomial/mod.rs:156-159. *)
  Definition chebyshev_with_zeroth (limits : list (F * F)) (ps : list (list (F -> F)))
      : list (list (F -> F)) :=
    ps ++ [repeat (fun _ => fone) (length limits)].

  (** polynomial/mod.rs:187-192. *)
  Definition chebyshev_feature (ss : list F) (ps : list (F -> F)) : F :=
    product (map2 (fun v f => f v) ss ps).

  (** polynomial/mod.rs:212-214, 232. *)
  Definition chebyshev_scale (x : list F) (limits : list (F * F)) : list F :=
    map (fun v => ftwo *. v -. fone) (rescale x limits).

  (** ** get_bounds / from_space *)

  (** [spaces::real::Interval], external: optional inf and sup. *)
  Definition interval := (option F * option F)%type.

  (** mod.rs:151-158. *)
  Definition get_bounds (d : interval) : outcome (F * F) :=
    match d with
    | (Some lb, Some ub) => Ret (lb, ub)
    | (Some _, None) => Panic
    | (None, Some _) => Panic
    | (None, None) => Panic
    end.

  (** fourier.rs:37-39. *)
  Definition fourier_from_space (order : nat) (space : list interval) : outcome (basis F) :=
    let* limits := omapM get_bounds space in Ret (fourier_new order limits).

  (** polynomial/mod.rs:146-154: [d.inf().unwrap(), d.sup().unwrap()]. *)
  Definition chebyshev_from_space (order : nat) (space : list interval) : outcome (basis F) :=
    let* limits := omapM (fun d => match d with
                                   | (Some lb, Some ub) => Ret (lb, ub)
                                   | _ => Panic
                                   end) space in
    chebyshev_new order limits.

  (** ** Kernel basis *)

  (** kernelised.rs:42-56. *)
  Definition kernel_homogeneous (centroids : list (list F)) (k : kernel F) : basis F :=
    BKernel (map (fun c => MkProto c k) centroids).

  (** kernelised.rs:60-70 ([exp_quad]), 74-84 ([matern_32]), 88-98 ([matern_52]). *)
  Definition kernel_partitioned (kind : kernel_kind F) (space : list (equipartition F)) : basis F :=
    kernel_homogeneous (cartesian_product (map ep_centres space))
      (MkKernel kind fone (map ep_width space)).

  (** kernelised.rs:19-25 ([distance_from]). *)
  Definition distance_from (p : prototype F) (x : list F) : F :=
    kernel_slice (p_kernel p) x (p_centroid p).

  (** ** Uniform grid *)

  (** uniform_grid.rs:18-25: the cardinality of a product space is the product
      of the partition counts (external crate). *)
  Definition grid_new (space : list (equipartition F)) : basis F :=
    BGrid (fold_right Nat.mul 1 (map ep_n space)) space.

  (** uniform_grid.rs:27-36. *)
  Definition grid_hash (space : list (equipartition F)) (input : list F) : outcome nat :=
    match space, input with
    | d :: ds, v :: vs =>
        Ret (fold_left (fun acc dv => ep_map_onto (fst dv) (snd dv) + ep_n (fst dv) * acc)
               (combine ds vs) (ep_map_onto d v))
    | _, _ => Panic
    end.

  (** ** Normalisers *)

  (** normalisation.rs:31-35. *)
  Definition l0_normalise (f : Features F) : outcome (Features F) :=
    let z := fofnat (n_active f) in fmap_into f (fun x => x /. z).

  (** The shape shared by normalisation.rs:84-102, 153-171, 222-242: [norm] is
      folded over the activations, then every activation is divided by it. *)
  Definition normalise_by (norm : list F -> F) (f : Features F) : Features F :=
    match f with
    | Dense da => let z := norm da in Dense (map (fun x => x /. z) da)
    | Sparse sa =>
        let z := norm (hm_values (sa_acts sa)) in
        Sparse (MkSparse (sa_dim sa)
          (hm_collect (map (fun kv => (fst kv, snd kv /. z)) (sa_acts sa))))
    end.

  (** normalisation.rs:86, 91. *)
  Definition l1_norm (l : list F) : F := fold_left (fun acc x => acc +. fabs x) l fzero.
  (** normalisation.rs:155, 160. *)
  Definition l2_norm (l : list F) : F := fsqrt (fold_left (fun acc x => acc +. x *. x) l fzero).
  (** normalisation.rs:224, 229-231. *)
  Definition linf_norm (l : list F) : F := fold_left (fun acc x => fmax acc (fabs x)) l fneginf.

  (** ith of L1/L2/Linf: normalisation.rs:113-121, 182-190, 253-263.
      [sa.activations[&index]] panics when the index is not stored. *)
  Definition normalised_ith (norm : list F -> F) (f : Features F) (index : nat) : outcome F :=
    match f with
    | Dense da => let z := norm da in let* x := vget da index in Ret (x /. z)
    | Sparse sa =>
        match hm_get (sa_acts sa) index with
        | Some x => Ret (x /. norm (hm_values (sa_acts sa)))
        | None => Panic
        end
    end.

  (** ith of L0: normalisation.rs:46-52, [f.uget(index).unwrap() / z]. *)
  Definition l0_ith (f : Features F) (index : nat) : outcome F :=
    let z := fofnat (n_active f) in
    let* o := uget f index in
    match o with
    | Some x => Ret (x /. z)
    | None => Panic
    end.

  (** ** dim, project, ith *)

  (** [Space::dim], all finite: constant.rs:21, 57, 84; fourier.rs:51;
      polynomial/mod.rs:75-77, 198-200; kernelised.rs:104; tile_coding.rs:65;
      uniform_grid.rs:42; closure.rs:28; stack.rs:24; normalisation.rs:22, 75,
      144, 213. *)
  Fixpoint dim (b : basis F) : nat :=
    match b with
    | BBias _ => 1
    | BFixedDense l => length l
    | BFixedSparse n _ => n
    | BFourier _ _ cs => length cs
    | BPolynomial _ es => length es
    | BChebyshev _ _ ps => length ps
    | BKernel ps => length ps
    | BTile _ _ _ m => m
    | BGrid n _ => n
    | BClosure n _ => n
    | BStack b1 b2 => dim b1 + dim b2
    | BL0 b | BL1 b | BL2 b | BLinf b => dim b
    end.

  (** [Basis::project]: constant.rs:27, 63, 90-95; fourier.rs:57-65;
      polynomial/mod.rs:88-96, 211-221; kernelised.rs:114-120;
      tile_coding.rs:75-88; uniform_grid.rs:50-57; closure.rs:36;
      stack.rs:36-40; normalisation.rs:30-36, 83-103, 152-172, 221-243. *)
  Fixpoint project (b : basis F) (input : list F) : outcome (result (Features F)) :=
    match b with
    | BBias c => Ret (Ok (Dense [c]))
    | BFixedDense l => Ret (Ok (Dense l))
    | BFixedSparse n active =>
        Ret (Ok (Sparse (MkSparse n (hm_collect (map (fun i => (i, fone)) active)))))
    | BFourier _ limits cs =>
        let ss := rescale input limits in
        Ret (Ok (Dense (map (fourier_feature ss) cs)))
    | BPolynomial _ es => Ret (Ok (Dense (map (polynomial_feature input) es)))
    | BChebyshev _ limits ps =>
        let ss := chebyshev_scale input limits in
        Ret (Ok (Dense (map (chebyshev_feature ss) ps)))
    | BKernel ps => Ret (Ok (Dense (map (fun p => distance_from p input) ps)))
    | BTile bld h nt ms => tile_project bld h nt ms input
    | BGrid n space =>
        let* bin := grid_hash space input in
        Ret (Ok (Sparse (MkSparse n (hm_collect [(bin, fone)]))))
    | BClosure _ mapping => mapping input
    | BStack b1 b2 =>
        let* r1 := project b1 input in
        match r1 with
        | Err e => Ret (Err e)
        | Ok f1 =>
            let* r2 := project b2 input in
            rmap (fun f2 => stack f1 f2) r2
        end
    | BL0 b => let* r := project b input in rmap l0_normalise r
    | BL1 b => let* r := project b input in rmap (fun f => Ret (normalise_by l1_norm f)) r
    | BL2 b => let* r := project b input in rmap (fun f => Ret (normalise_by l2_norm f)) r
    | BLinf b => let* r := project b input in rmap (fun f => Ret (normalise_by linf_norm f)) r
    end.

  (** mod.rs:52-56: the default [EnumerableBasis::ith], used by user-defined
      bases only; [b[index]] is the [Index] implementation. *)
  Definition default_ith (dim : nat) (prj : outcome (result (Features F))) (idx : nat)
      : outcome (result F) :=
    check_index idx dim (let* r := prj in rmap (fun f => index f idx) r).

  (** [EnumerableBasis::ith]: constant.rs:31-33, 67-71, 99-103;
      fourier.rs:69-78; polynomial/mod.rs:103-115, 228-237;
      kernelised.rs:128-133; tile_coding.rs:96-108; uniform_grid.rs:63-67;
      stack.rs:50-63; normalisation.rs:44-54, 111-123, 180-192, 251-265.
      Closure does not implement the trait: [None]. *)
  Fixpoint ith (b : basis F) (input : list F) (idx : nat) : option (outcome (result F)) :=
    match b with
    | BBias c => Some (check_index idx 1 (Ret (Ok c)))
    | BFixedDense l => Some (check_index idx 1 (let* x := vget l idx in Ret (Ok x)))
    | BFixedSparse n active =>
        Some (check_index idx n
          (Ret (Ok (if existsb (Nat.eqb idx) active then fone else fzero))))
    | BFourier _ limits cs =>
        Some (match nth_error cs idx with
              | Some cfs => Ret (Ok (fourier_feature (rescale input limits) cfs))
              | None => Ret (Err (index_error idx (length cs)))
              end)
    | BPolynomial _ es =>
        Some (match nth_error es idx with
              | Some exps => Ret (Ok (polynomial_feature input exps))
              | None => Ret (Err (index_error idx (length es)))
              end)
    | BChebyshev _ limits ps =>
        Some (match nth_error ps idx with
              | Some fs => Ret (Ok (chebyshev_feature (chebyshev_scale input limits) fs))
              | None => Ret (Err (index_error idx (length ps)))
              end)
    | BKernel ps =>
        Some (match nth_error ps idx with
              | Some p => Ret (Ok (distance_from p input))
              | None => Ret (Err (index_error idx (length ps)))
              end)
    | BTile bld h nt ms => Some (tile_ith bld h nt ms input idx)
    | BGrid n space =>
        Some (check_index idx n
          (let* bin := grid_hash space input in
           Ret (Ok (if bin =? idx then fone else fzero))))
    | BClosure _ _ => None
    | BStack b1 b2 =>
        match ith b1 input idx, ith b2 input (idx - dim b1) with
        | Some r1, Some r2 =>
            Some (if idx <? dim b1 then r1
                  else if idx <? dim b1 + dim b2 then r2
                  else Ret (Err (index_error idx (dim b1 + dim b2))))
        | _, _ => None
        end
    | BL0 b => Some (check_index idx (dim b)
        (let* r := project b input in rmap (fun f => l0_ith f idx) r))
    | BL1 b => Some (check_index idx (dim b)
        (let* r := project b input in rmap (fun f => normalised_ith l1_norm f idx) r))
    | BL2 b => Some (check_index idx (dim b)
        (let* r := project b input in rmap (fun f => normalised_ith l2_norm f idx) r))
    | BLinf b => Some (check_index idx (dim b)
        (let* r := project b input in rmap (fun f => normalised_ith linf_norm f idx) r))
    end.

  (** constant.rs:15 and mod.rs:72-75. *)
  Definition bias_unit : basis F := BBias fone.
  Definition with_bias (b : basis F) : basis F := BStack b bias_unit.
End Basis.
