# Formal model of tspooner/lfa in Rocq (Coq 8.16)

## Approach

The crate is a pure numeric core: feature vectors, bases, optimisers and the
approximator that ties them together. Every public function is modelled as a
total Gallina function; `&mut` becomes a returned value, `Result` stays data
(`Ok`/`Err`), and a Rust panic is the explicit value `Panic` of type `outcome`.

* **Scalars.** All model code is written once against a record `Scalar F` of
  f64 operations (`+ - * / abs sqrt max < == cos exp ln_1p powi`, literals,
  casts, ndarray's `sum` and `dot`). The record carries *no laws*. It is
  instantiated at
  - `R` (Coq reals): "in exact arithmetic" claims;
  - `f64` = Flocq's `binary_float 53 1024` (IEEE-754 binary64, one NaN,
    round-to-nearest-even), for bit-level claims. libm functions and the order
    in which ndarray adds the terms of `sum`/`dot` are a `Platform` record, so
    nothing is assumed about them unless a theorem's hypotheses say so.
  Structural theorems quantify over every scalar type and every record, hence
  cover the real f64 code with any rounding behaviour.
* **HashMap.** `HashMap<usize,f64>` is an association list without repeated
  keys; *the list order is the iteration order*. Rust leaves that order
  unspecified, so theorems quantify over all lists, and C02 proves that
  reshuffling between any two operations is unobservable.
* **ndarray.** `Array1` = `list F`, with indexing, broadcasting
  (`zip_mut_with`: equal lengths, or right side of length 1, else panic) and
  the length assertion of `dot` modelled. `Array2` = list of rows + column count.
* **usize** is `nat` (unbounded) in the main model. Machine.v repeats the
  functions that add or multiply usize values over a word of any size, in
  checked (overflow panics) and release (overflow wraps) builds, and C62 says
  when the two agree. **isize** arithmetic in tile coding is `Z` with explicit
  saturating casts and overflow throughout.
* **External crates.** `spaces::Equipartition` is a record (number of
  partitions, `map_onto`, width, centres); theorems that need it state the
  contract (`map_onto v < n_partitions`) as a hypothesis, and a concrete
  equipartition meeting it is given. A `BuildHasher` is a record (initial
  state, write, finish), unconstrained. itertools' `multi_cartesian_product`
  (0.10: of no factors it yields nothing), `sorted_by`, `dedup` are modelled by
  explicit functions.

## Not modelled

What the compiler may do with undefined behaviour: Unwind.v says where zeroed
bytes take the place of a `Features`, whether every `MaybeUninit` entry has been
written before `assume_init` and whether `uget` reads in bounds, but not what
happens otherwise (Rust already forbids `assume_init` on the zeroed temporary of
`map_inplace`, even when no panic follows). In the main model a panicking call
has no result state; Unwind.v gives it one for the optimisers, the approximators
and the in-place operations. Also not modelled: performance; NaN payloads; the formats
serde writes to (Derive.v starts from what they hand over); `Debug`
formatting. `src/basis/ifdd.rs` is not declared as a module anywhere and does not
compile against the pinned crate; Ifdd.v models it all the same, under the
readings stated there.

## Trusted base

1. The Coq 8.16.1 kernel (`coqc`; `coqchk` re-checks the compiled files), with
   all kernel checks on.
2. The axioms that `Print Assumptions` lists for each theorem. All of them are
   declared by Coq's standard library:
   - `ClassicalDedekindReals.sig_forall_dec`, `ClassicalDedekindReals.sig_not_dec`
     and `FunctionalExtensionality.functional_extensionality_dep` come with the
     standard library's real numbers;
   - `Classical_Prop.classic` (excluded middle) comes with the parts of
     `Coq.Reals` and with Flocq, which is built on them.

   Flocq itself declares no axiom. Nothing here declares one. The list per
   theorem is at the end of this file.
3. That the definitions in the model files say what the Rust does. Each cites
   the file and lines it was written from. The code was read, not run.
4. The behaviour of the code outside the crate, as described under "Approach":
   ndarray, the standard library's `HashMap` and float methods, itertools,
   `spaces`, serde.

What is modelled, by file of /repo/src:

| file | model | not covered |
|------|-------|-------------|
| features.rs | Features.v (all public functions and trait implementations), Machine.v (word arithmetic), Unwind.v (state at a panic, `unsafe` code), Layout.v (memory layouts), Axes.v (`addto` into arrays with any number of axes) | `Debug` |
| error.rs | Base.v (constructors, `Display`, `description`, `source`) | `Debug` |
| lib.rs | Lfa.v, Unwind.v, Derive.v (serde) | `Clone`, `Debug` |
| optim/\*.rs | Optim.v, Unwind.v, DerivedEq.v (`==`), Derive.v (serde) | `Clone`, `Debug` |
| basis/mod.rs, constant.rs, stack.rs, normalisation.rs | Basis.v, Machine.v, DerivedEq.v (`==` of every basis), Axes.v (`card`) | |
| basis/fourier.rs, polynomial/\*.rs | Coeffs.v, Basis.v, Serde.v (`Deserialize for Chebyshev`), Derive.v | |
| basis/kernelised.rs, kernels/\*.rs | Kernels.v, Basis.v, DerivedEq.v, Derive.v | |
| basis/tile_coding.rs | TileCoding.v (checked and wrapping builds) | the hash function itself: any function of its inputs |
| basis/uniform_grid.rs | Basis.v, Machine.v | |
| utils.rs, macros.rs, the `tests` modules, documentation examples | Replay.v, DocExample.v | quickcheck's generators (the randomised tests are functions of their input) |
| basis/ifdd.rs (not compiled) | Ifdd.v | `PartialOrd`, `Hash`, serde derives; the `stack` with sizes it calls no longer exists and is read as today's |

Known simplifications, each also stated where the definition is:

- `sum` and `dot` of ndarray add in an order of their own (unrolled by eight, or
  BLAS). The scalar record supplies them. Exact-arithmetic theorems use the real
  sum; binary64 theorems quantify over every summation order (`any_order`), and
  for `dot` also over every choice of fusing a product with an addition (`dots`),
  which the `blas` feature allows.
- `Iterator::sum` starts from `0.0` here. Recent versions of the standard
  library start from `-0.0`, which differs only in the sign of an empty or
  all-negative-zero sum.
- `f64::max` returns the other argument for a NaN. Rust leaves open which zero
  `max(0.0, -0.0)` returns; the model returns the left one. The crate only takes
  maxima of absolute values, where the case does not arise.
- An owned array returned by a user's closure to `VectorLFA::update_with` has a
  storage and a layout (`owned1`), and Layout.v repeats the operations on dense
  features with one; everywhere else arrays are lists of elements.
- Serialised data is a list of map entries (Serde.v), not a particular format.

## Plan per property

| id | model | proof |
|----|-------|-------|
| C01 | `to_dense`, `into_dense` | induction over the map; iff for panic |
| C02 | all element-wise ops + command language with reshuffles | each op respects permutation; induction over commands |
| C03 | `fsum`, `dot` | R: permutation/induction; f64: witness by computation + Flocq error bound over summation trees |
| C04 | `stack` | case analysis, list lemmas |
| C05, C06 | `map*` | pointwise characterisation |
| C07, C08 | `merge*` | pointwise characterisation, iff conditions |
| C09 | `remove` | lookup algebra, induction over removals |
| C10 | `index`, `get` | case analysis, iff |
| C11 | `dot_features` | induction, R |
| C12 | constructors | fold of inserts, last-wins lemma |
| C13 | `features_eqb` | map extensionality |
| C14 | `n_active` | filter/length lemmas |
| C15 | `addto`, `scaled_addto` | pointwise characterisation |
| C16, C17, C18 | inductive type of basis expressions | induction over expressions |
| C19 | `compute_coefficients` | sorted/NoDup/complete by induction |
| C20 | `Polynomial` | map lemmas + C19 |
| C21 | `cpfk`, `Chebyshev` | ring identities, trigonometric induction |
| C22 | `Fourier` | cos periodicity |
| C23 | kernels | real analysis; witness for Matern52 |
| C24, C54 | tile coding | induction over tilings; Z arithmetic |
| C25 | uniform grid | mixed-radix induction |
| C26-C29 | normalisers | R algebra; f64 with Flocq monotonicity and witnesses |
| C30 | `Stack` | case analysis |
| C31-C41 | optimisers, `run` over histories | induction over histories |
| C42-C51 | `LFA` | case analysis; induction over call sequences; R algebra |
| C52 | `Deserialize` state machine | induction over map entries |
| C53 | error messages | decimal printing is injective |
| C55 | whole approximators over basis expressions | induction over expressions and call sequences |
| C56 | optimiser steps under permuted maps | commuting coordinate updates; induction over histories; f64 witness |
| C57 | optimiser steps with vectors of any size | case analysis, iff for panic |
| C58 | tile coding, pairs of inputs | induction over tilings; Z arithmetic; f64 witness |
| C59 | fitting runs of SGD and ISGD | telescoped squared distance over R |
| C60 | bases built from spaces | lexicographic rank of a choice; grid hash is that rank; NaN propagation for a degenerate axis |
| C61 | ISGD, Adagrad, Adam, AdaMax in binary64 | magnitude invariants; b + fl(1-b) < 1 + 2^-53, so a computed blend of values bounded by 2^k is bounded by 2^k |
| C62 | machine-integer versions of stack, dim, grid, from_indices, dot | no overflow below the word size by induction; pointwise description of wrapped results; witnesses for every word size |
| C63 | optimisers, approximators and in-place operations again, keeping the state at a panic | agreement with the main model by induction over loops; the state left is that of a completed step on a prefix |
| C64 | features with a storage and a view instead of a list | element writes through a view simulate list writes; case analysis for `stack` |
| C65 | the documentation's example program | reduction to a map on pairs of weights; triangle inequality |
| C66 | the repository's tests and documentation examples as programs over the model in f64 | evaluation; cos at multiples of pi/6, alternating bounds on exp; characterisation of the finite quotients |
| C67 | Ifdd.v: states of the discoverer reached by any history; per-pair fold over the errors | invariant over the fold of inspections; per-pair projection of the state; over R, bounds on copies and relevance |
| C68 | the quadratic form written out, over Kernels.v at R | class of kernels that finite inner products approximate on every finite set; closed under +, ×, limits, exp; Gaussian from the expanded square, Exponential from 1−√(1−z) as a limit of polynomials with non-negative coefficients, Matern32 as a limit of Riemann sums of it, RationalQuadratic from the series of −ln(1−z) |
| C69 | indices read through a map of indices, over train and s_run | each optimiser's per-coordinate law, so a step commutes with picking indices; the one-feature history of a coordinate compares two histories; a permuted finite sum for predictions and norms over R |
| C70 | targets of the samples in a cell, f64 on every platform | towards a smaller magnitude w + fl(y − w) is exact (Sterbenz), otherwise it lands within 4u of y; either way y minus the result is representable, so the second update is exact |
| C71 | limits of the weights, infinite sequences that visit a finite set again and again | the distance to every solution never grows and the squared errors are summable; a cluster point of the bounded run must fit (otherwise, from nearby, the first sample it misses gives a large error) and then attracts the run; updates are orthogonal to differences of solutions |
| C72 | convergence of the evaluations after k calls | the error along the features obeys a two-step linear recurrence; an explicit quadratic form contracts inside the stable region and does not outside |
| C73 | convergence of the evaluations after k calls | if the squared errors are summable they vanish; otherwise the accumulators grow until the effective rate is at most one, from when on the error only shrinks, and it cannot stay above a bound because the rates fall no faster than one over the square root of the step |
| C74 | convergence of the evaluations after k calls | both normalise by a discounted size of past errors; if the errors vanished so would that size, and the effective rate would end at lr times the squared feature norm, over 1e-7, > 2, which repels |
| C75 | existence and uniqueness of weights, and the limit of the fitted weights | raising A exp(g) to a high power singles out one point; mixtures of Gaussians carry it to the radial kernels; induction on the centroids solves the equations, C71 gives the limit |
| C76 | the derived == at f64, and pairs of runs over whole approximators | a relation that only ignores the sign of zeros is kept by every operation except division by a zero, which is where the conditions come from; induction over expressions and call sequences |
| C77 | runs of SGD at f64 with real-valued bounds on the weights | per-step rounding bound by the standard error of each operation, then induction on the run in the Euclidean norm; overflow excluded by crude bounds on every intermediate result |
| C78 | derived Serialize and Deserialize over the values of serde's data model | computation per struct, induction on the basis |
| C79 | the generated visitors (map and sequence), ndarray's array visitor | induction on the fields: each slot depends on its own entries only |
| C80 | `nd_addto`, `nd_scaled_addto` over shape and elements | induction on the shape: broadcasting by multi-index |
| C81 | `card`, images of `project` | induction over expressions; injective families of inputs |
| C82 | `s_run`, `v_run` at binary64 with `lib_opt` | injective code of the stored numbers, pigeonhole; steps keep all lengths |
| C83 | `v_run` against `s_run` of each output's share | induction over calls; `step_each` per column; then C70, C71 per output |
| C84 | `isgd_compute_lr`, `s_run ISGD` at `ScalarF64 P` | rounding-error bound of norm, denominator and quotient; each step is an SGD step at its own rate (C77) with features scaled by its root |
| C85 | `adagrad_step_scaled` at R inside `s_run` | potential sum_i s_i (d_i^2 - D_i^2) - 2 lr^2 sqrt G_i; invariant for tables |
| C86 | `v_run SGD`, `v_run ISGD`, `v_evaluate` at `ScalarF64 P` | C83 lifts C77 and C84 to each output |
| C87 | `polynomial_feature`, `cheb_fn`, `chebyshev_new`, `fourier_new`, `project` at `ScalarF64 P` | the real features of C20-C22, with absolute and relative error bounds |
| C88 | `kernel_slice`, `kernel_scalar`, `kernel_distance`, `BKernel` at `ScalarF64 P` | the real formulas of C23 with error bounds; bit equality of `k(x,y)` and `k(y,x)`; NaN of Matern at infinite distance (`C88_matern_refuted`) |
| C89 | `polynomial_new`, `chebyshev_new`, `fourier_new`, `with_zeroth`, `with_bias`, `s_evaluate`, `s_run` over R | existence and uniqueness of weights taking given values on a grid; equality of the functions represented; a grid on which plane Fourier bases fail (`C89_fourier_plane_refuted`) |
| C90 | `momentum_step_scaled`, `nag_step_scaled`, `momentum_new`, `momentum_reset` over binary64 | magnitude of velocities and weights along any history; what remains when gradients stop; permanence of overflow (`C90_beyond_one_refuted`, `C90_activations_refuted` show which hypotheses are needed) |
| C91 | `prog_fa`, `prog_call`, `prog_run`, `prog_rmse` (lib.rs:25-51) over binary64 | no panic and a distance bound for every run; the assertion of the example fails for some admissible noise of every run (`C91_assertion_refuted`, `C91_stuck_refuted`) |
| C92 | `pull_columns`, `v_update_from` (lib.rs:265-281 with an iterator as a state machine), `take_next`, `list_next` | which errors an update uses and what it leaves of the iterator, for every iterator; `C92_list` ties this to `v_update`; `C92_shared_refuted`: a kept iterator loses an error per update |
| C93 | `normalise_by` with `l1_norm`, `l2_norm`, `linf_norm`; `l0_normalise` over binary64 | distance from the exact normalisation and from norm 1; idempotence of Linf bit for bit (`C93_twice_refuted`, `C93_sum_refuted` for L1 and L2) |
| C94 | `adam_step_scaled`, `adamax_step_scaled` over the reals | sharp bound on the move of a weight in the t-th step; bounded over all t iff beta1^2 < beta2 (Adam), beta1 < beta2 (AdaMax); can exceed the learning rate (`C94_rate_refuted`) |
| C95 | `ScalarLFA` with every optimiser, over the reals | same inner products and initial predictions iff same evaluations (SGD, ISGD, momentum, NAG); rotations; weights are combinations of features seen; fails for Adagrad, Adam, AdaMax (`C95_adaptive_refuted`) |
| C96 | `ScalarLFA::update_with` with SGD and ISGD, over the reals | distance to moving target weights and sum of squared residuals bounded by the path travelled; tracking of one moving target; steady targets never caught (`C96_catches_up_refuted`) |
| C97 | `ScalarLFA`, `VectorLFA` with every optimiser, binary64 | non-finite weights stay so; predictions, fits and shared optimiser state spread them; Adagrad spreads an infinite error to unused features (`C97_contained_refuted`) |
| C98 | `ScalarLFA::update`, `update_with` with SGD, ISGD; momentum, Adagrad | which permutations of the samples leave the weights unchanged: disjoint sparse features (any scalar type), given errors, orthogonal samples; exact condition for two samples; refuted for Adagrad's weights and for given errors in binary64 |

## Axioms per theorem

What `Print Assumptions` lists, theorem names without the repeated property id.

<!-- axioms: start -->
**No axioms ("Closed under the global context")** (212 theorems):
C01 dense_expansion, expansion_unique; C02 hash_order, same_observations; C04 stack, stack_assoc,
stack_panic; C05 map_panic, map_pointwise, map_sparsity; C06 map_flavours; C07 merge_dense_dense,
merge_dense_sparse, merge_dense_sparse_entries, merge_sparse_dense, merge_sparse_sparse; C08
merge_flavours, merge_layouts; C09 remove, remove_laws, remove_sparse; C10 get, index, index_panic;
C11 dot_sparse_counts; C12 from_indices, from_sparse_activations, sparse, unitary; C13 equality,
equality_layouts; C14 n_active_dense, n_active_sparse; C15 addto, misfit, scaled_addto; C16
dimension, fixed_sparse_refuted; C17 default, fixed_dense_refuted, ith_normaliser, ith_project; C18
defined, out_of_range; C19 enumeration, sizes, sort, unique; C23 kernel_basis; C24 features,
no_memory, same_cells; C25 cells, one_hot, onto, panics, surplus; C28 is_projection; C30 stack,
with_bias; C32 sgd_touches; C39 reset_any_scalar; C40 adam_frozen, adamax_frozen; C41 step_ok,
step_scaled_ok, training_ok; C43 scalar, vector; C44 scalar, vector, vector_storage; C45 library,
scalar, vector; C46 independent, sgd_isgd; C47 evaluate_index, index_panics, iter_panics, iterator;
C48 surplus_ignored, update_columns, update_index; C49 every_column_stepped, update_with; C52
duplicates, map_accepts, missing, panics, roundtrip, seq_accepts, unknown, zeroth_refuted; C53
display, index_error, kind_refuted; C54 cell_width, overflow_checked, overflow_wrapping; C55
all_leaves, first_failure, projects, scalar, vector; C57 adagrad_ignores, adagrad_never_panics,
adagrad_prefix, adagrad_truncates, adam_prefix, adamax_prefix, dense_adam, dense_broadcast,
dense_strict, sparse, sparse_dim_unused; C58 common_run, next_bin, shared, slots; C60
chebyshev_space, fourier_space, grid_kernel, kernel_empty, kernel_prototypes; C62 bases,
dim_overflow, dot_count, from_indices, from_sparse, grid, grid_refuted, stack, stack_checked,
stack_refuted, stack_wraps; C63 adagrad, addto, assume_init, atomic_refuted, dense, initialised,
inplace_pure, inplace_refuted, map_inplace, merge_initialised, merge_inplace, same_machine,
scalar_update, scaled_addto, sparse, still_usable, unchecked_read, unchecked_read_refuted,
vector_update, velocity_refuted; C64 elementwise, stack, stack_refuted, standard, standard_closed,
to_vec, to_vec_refuted; C67 discover, from_vec, invariant, pair_history; C69 isolated, resumed,
stack, subset; C78 basis, error, features, hasher_refuted, kernel, optimiser, resume, scalar,
vector, zeroth_refuted; C79 array_errors, arrays, basis, errors, features_refuted,
optimiser_refuted, order, short, struct, total, unknown, values, variants; C80 dense, dense_panics,
one_axis, sparse; C81 card, card_refuted, grid, stack; C83 fit, panics, share; C92 endless,
first_none, list, shared, take, update; C98 disjoint.

**`sig_forall_dec`** (2 theorems):
C12 from_sparse_activations_dim_refuted; C21 recurrence.

**`classic`** (3 theorems):
C56 approximator, step, training.

**`sig_forall_dec`, `sig_not_dec`, `functional_extensionality_dep`** (4 theorems):
C22 bounded, corner, even, periodic.

**`sig_forall_dec`, `sig_not_dec`, `classic`, `functional_extensionality_dep`** (326 theorems):
C03 f64_dot_bound, f64_dot_error, f64_layouts, f64_order_refuted, f64_sum_bound, f64_sum_error,
reductions_exact, reductions_order_free; C04 stack_overwrites_refuted; C05 map_drops_small_refuted,
map_error; C07 merge_product_refuted; C10 index_ignores_activation_refuted; C11 dot_features,
dot_sparse_iff, dot_sparse_refuted, dot_symmetric, dot_unitary; C13 equality_f64; C14
n_active_expand, n_active_expand_f64; C15 addto_is_scaled, addto_is_scaled_f64; C20 monomials,
with_zeroth; C21 inside, polynomials, projection, with_zeroth; C22 projection; C23 constructors,
defaults, formula, matern52_refuted, peak, self, short_lengthscales, symmetric; C26 exact, f64,
f64_zero; C27 exact, f64, f64_refuted; C28 exact, f64; C29 exact, f64_empty, f64_sparse; C31
step_one_exact, step_one_f64; C32 sgd_effect; C33 isgd_implicit, isgd_no_overshoot; C34
momentum_history, momentum_zero; C35 nag_drift, nag_history, nag_zero_is_sgd, zero_error_refuted;
C36 adagrad_history, adagrad_step_bound; C37 adam_history, constant_gradient, second_moment_nonneg;
C38 adamax_history, infinity_norm; C39 adam_reset_differs, adamax_reset_differs, reset_adam,
reset_adamax, reset_is_fresh; C40 adam_moments, adam_weights_refuted, adamax_moments,
adamax_weights_refuted, expansion_content, same_weights; C42 f64, f64_infinite_refuted, scalar,
vector; C44 layout_refuted; C46 momentum_leak, stateful_refuted; C47 evaluates; C50 isgd, sgd; C51
bound_tight_refuted, isgd, sgd; C54 binning; C56 isgd_f64_refuted, reals; C58 same_cell_refuted; C59
isgd_realisable, isgd_regret, mistakes, sgd_realisable, sgd_regret; C60 fourier_degenerate,
kernel_centre; C61 adagrad_grows, adagrad_history, adagrad_saturated, adam_history, adam_refuted,
adamax_history, invariants, isgd_rate, isgd_rate_refuted; C62 dot_refuted; C65 assertion,
assertion_refuted, corners, noise_free, noisy, progress, runs, stuck_refuted; C66 bases, bin_state,
checks, compare_floats, compare_floats_refuted, constant, dense_order_refuted, eq_with_nan,
features, fourier, grid, kernels, l1, l2, norms_return, polynomial, randomised_refuted; C67
conjunction_refuted, copies, dense_active_refuted, dense_inactive_refuted, discovered_iff,
duplicates_refuted, nan, project_dense, project_sparse, representation_refuted, stall_refuted, test;
C68 cosine_1d, cosine_refuted, lengths_refuted, matern52_refuted, matern52_sqrt5, psd, scalar; C69
isgd_refuted, relabelled, stack_mixed_refuted; C70 grid, half_refuted, once_refuted,
overflow_refuted, table; C71 iff, limit, passes, rate_refuted, same, targets; C72 momentum_iff,
momentum_rate, nag_limit, nag_refuted; C73 adagrad; C74 adam, adamax, cycle_refuted; C75
cosine_refuted, definite, iff, interpolate, lengthscales_refuted, matern52_refuted, partitioned,
power_refuted, training; C76 basis, chebyshev, kernel, kernel_refuted, kernel_scalar,
limits_refuted, number, optimiser, optimiser_eq, scalar, vector, walk_refuted, zeros; C77 drift,
nearer_refuted, predict, regret, repeat, stable, step; C80 agree_refuted; C81 fourier, polynomial;
C82 exact_refuted, fixed_refuted, limit, scalar, values, vector; C83 grid, mixed_refuted, passes;
C84 drift, energy, rate, regret, repeat, sgd_refuted, stable; C85 away_refuted, realisable, regret,
squares, table, table_stays; C86 isgd, predict, sgd; C87 chebyshev, exact_refuted, fourier,
literals, pi, polynomial_relative, polynomial_unit, powi; C88 distance, far, features,
matern_refuted, range, scalar, self, symmetric, value; C89 chebyshev, extra_refuted, fourier,
fourier_plane_refuted, polynomial, same, training, without_zeroth; C90 activations_refuted,
below_one, beyond_one_refuted, counts, invariants, lost, momentum_history, nag_history, quiet,
reset, vanish, velocity; C91 assertion, assertion_refuted, noise_free, runs, same_program,
stuck_refuted; C92 shared_refuted; C93 l0, l1, l2, linf, sgd_rate, sum_refuted, twice_refuted; C94
adam, adam_sharp, adam_travel, adam_unbounded, adamax, adamax_no_momentum, adamax_sharp,
adamax_travel, adamax_unbounded, first_step, rate_refuted; C95 adaptive_refuted, combination, iff,
inner_products, orthogonal, rotation; C96 catches_up_refuted, follows, isgd, mistakes, ramp,
recurrence, sgd; C97 contained, contained_refuted, error, for_ever, outputs_refuted, predicts,
spreads, stays; C98 adagrad, adagrad_refuted, given, given_refuted, momentum, orthogonal, pair,
pair_isgd.
<!-- axioms: end -->
