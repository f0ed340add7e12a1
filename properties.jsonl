{"id": "C01", "title": "Dense expansion is exact", "statement": "to_dense() and into_dense() return the same vector; its length is n_features(), entry i is the stored activation of feature i, or 0 when feature i is not stored. The call panics exactly when a stored sparse index is >= dim; nothing else can go wrong.", "quantifier": "every Features value (dense of any length; sparse with any dim, any key set, any hash-map layout), every index", "why_tests_cant": "A test fixes a handful of vectors; the claim is over every dimension, every stored index set and every activation value.", "anchors": ["src/features.rs: Features::to_dense, Features::into_dense, From<Features> for Vec/DenseActivations"]}
{"id": "C02", "title": "Hash-map layout is unobservable through element-wise operations", "statement": "Two Features holding the same mapping but laid out in different hash-map orders give, after any sequence of remove/map_into/map_inplace/merge_into/merge_inplace/stack calls (with the layout re-shuffled arbitrarily between calls), the same variant, dim, stored mapping and dense expansion, bit for bit, and panic on the same calls.", "quantifier": "every sequence of operations, every layout of every intermediate map, every scalar arithmetic (no algebraic law assumed, so IEEE f64 included)", "why_tests_cant": "HashMap iteration order is randomised per process and per map, so a test observes only the orders it happens to draw.", "anchors": ["src/features.rs: SparseActivations, Features::remove, map_into, merge_into, stack, to_dense"]}
{"id": "C03", "title": "Reductions over sparse features agree with the dense expansion", "statement": "In exact arithmetic, sum() and dot(w) of a sparse vector equal those of its dense expansion and do not depend on hash order. In f64 the bit-exact claim is false (two layouts of one map can give different sums), but any two layouts, sparse or dense and in whatever order and grouping the additions are done, differ by no more than the standard summation error bound, and each is within that bound of the exact value.", "quantifier": "every well-formed Features, every weight vector, every hash-map layout; for f64, every finite non-overflowing input", "why_tests_cant": "HashMap iteration order is randomised per process and per map, so a test observes only the orders it happens to draw.", "anchors": ["src/features.rs: Features::dot, dot_sparse, sum, fold"]}
{"id": "C04", "title": "Stacking is concatenation", "statement": "stack(a,b) has n_features(a)+n_features(b) features, its dense expansion is the concatenation of the two, it is sparse exactly when both are sparse, and it is associative up to observation. If the first operand stores an index >= its dim the sparse/sparse case silently overwrites entries.", "quantifier": "every pair/triple of Features in every variant combination", "why_tests_cant": "A test fixes a handful of vectors; the claim is over every dimension, every stored index set and every activation value.", "anchors": ["src/features.rs: Features::stack"]}
{"id": "C05", "title": "map applies f to every feature", "statement": "The dense expansion of map(f) is f applied to each entry of the dense expansion whenever f(0)=0 or |f(0)|>=1e-5 (or f(0) is NaN). If 0<|f(0)|<1e-5 and some feature is inactive, sparse map drops f(0) on the inactive features, so the claim fails there, each such entry being off by less than 1e-5.", "quantifier": "every Features, every function f", "why_tests_cant": "A test fixes a handful of vectors; the claim is over every dimension, every stored index set and every activation value.", "anchors": ["src/features.rs: Features::map, map_into"]}
{"id": "C06", "title": "The three map flavours agree", "statement": "map, map_into and map_inplace give the same features (same variant, dim, activations) and panic on the same inputs.", "quantifier": "every Features, every f", "why_tests_cant": "A test fixes a handful of vectors; the claim is over every dimension, every stored index set and every activation value.", "anchors": ["src/features.rs: Features::map, map_into, map_inplace"]}
{"id": "C07", "title": "merge combines features pointwise", "statement": "The dense expansion of merge_into(other,f) is f applied entrywise (missing entries read as 0). True for dense/dense of equal length and for sparse/dense always; for dense/sparse it holds exactly when f(x,0)=x on every entry the right side does not store; for sparse/sparse exactly when f(0,0)=0 or every feature is stored by one side. E.g. merging a dense vector with a sparse one under multiplication leaves unstored entries unmultiplied.", "quantifier": "every pair of Features, every binary f", "why_tests_cant": "A test fixes a handful of vectors; the claim is over every dimension, every stored index set and every activation value.", "anchors": ["src/features.rs: Features::merge, merge_into, merge_inplace"]}
{"id": "C08", "title": "merge, merge_into and merge_inplace agree", "statement": "merge and merge_into return the same features on every input except a sparse left operand whose dim exceeds the length of a dense right operand: there merge panics while merge_into pads with zeros. merge_inplace always agrees with merge_into.", "quantifier": "every pair of Features, every f", "why_tests_cant": "A test fixes a handful of vectors; the claim is over every dimension, every stored index set and every activation value.", "anchors": ["src/features.rs: Features::merge, merge_into, merge_inplace"]}
{"id": "C09", "title": "remove clears exactly one feature", "statement": "After remove(i), feature i expands to 0, every other feature is unchanged, n_features and the variant are unchanged; out-of-range i is a no-op; remove is idempotent and removals commute; it never panics.", "quantifier": "every Features, every index, every sequence of removals", "why_tests_cant": "A test fixes a handful of vectors; the claim is over every dimension, every stored index set and every activation value.", "anchors": ["src/features.rs: Features::remove"]}
{"id": "C10", "title": "Indexing a feature vector returns its activation", "statement": "phi[i] equals the i-th entry of the dense expansion for dense features, and for sparse features exactly when the stored activation of i is 1 (or i is not stored): the Index implementation returns 1.0 for any stored index whatever its activation. get(i) always returns the stored activation and never panics, although its documentation says it does.", "quantifier": "every Features, every index", "why_tests_cant": "A test fixes a handful of vectors; the claim is over every dimension, every stored index set and every activation value.", "anchors": ["src/features.rs: Index<usize> for Features, Features::get, uget"]}
{"id": "C11", "title": "Inner product of two feature vectors", "statement": "dot(phi,psi) between two Features equals the inner product of the dense expansions in the dense/dense, dense/sparse and sparse/dense cases; in the sparse/sparse case it is the number of common stored indices, so it equals the inner product exactly when the products of common activations sum to that count (e.g. unitary features). It is symmetric in all cases.", "quantifier": "every pair of well-formed Features of equal dimension", "why_tests_cant": "A test fixes a handful of vectors; the claim is over every dimension, every stored index set and every activation value.", "anchors": ["src/features.rs: Dot<Features> for Features"]}
{"id": "C12", "title": "Constructors", "statement": "sparse(dim,pairs) stores for each index the last pair given for it; unitary(dim,idx) stores 1.0 exactly on idx; From<Vec<usize>> does the same with dim = max+1 and panics exactly on an empty list; From<SparseActivations> replaces the declared dim by max stored index + 1 (so trailing inactive features are lost) and panics when nothing is stored.", "quantifier": "every dim, every list of indices/pairs, in any order and with repetitions", "why_tests_cant": "A test fixes a handful of vectors; the claim is over every dimension, every stored index set and every activation value.", "anchors": ["src/features.rs: Features::sparse, unitary, dense, From<Vec<IndexT>>, From<SparseActivations>, From<Vec<ActivationT>>"]}
{"id": "C13", "title": "Equality of features", "statement": "== on features of the same variant holds exactly when dims and all activations are IEEE-equal irrespective of hash order; it is symmetric and, without NaN, reflexive and transitive; it implies equal dense expansions. A NaN activation makes a value unequal to itself. Comparing dense with sparse always panics.", "quantifier": "every pair/triple of Features", "why_tests_cant": "A test fixes a handful of vectors; the claim is over every dimension, every stored index set and every activation value. Also HashMap iteration order is randomised per process and per map, so a test observes only the orders it happens to draw.", "anchors": ["src/features.rs: PartialEq for Features"]}
{"id": "C14", "title": "Counting active features", "statement": "n_active of sparse features is the number of stored indices (zeros included), of dense features the number of entries with magnitude above 1e-7; expanding sparse features never increases the count, and it is preserved exactly when every stored activation exceeds 1e-7 in magnitude.", "quantifier": "every Features", "why_tests_cant": "A test fixes a handful of vectors; the claim is over every dimension, every stored index set and every activation value.", "anchors": ["src/features.rs: Features::n_active, n_features, is_dense, is_sparse"]}
{"id": "C15", "title": "Adding features to weights", "statement": "scaled_addto(a,w) adds a times the i-th activation to w[i] for every i and leaves the weights of unstored sparse features untouched bit for bit; addto is the a=1 case; length of w never changes. Dense features of length 1 are broadcast over all weights; any other length mismatch panics, and a stored sparse index >= len(w) panics.", "quantifier": "every Features, every weight vector, every scale", "why_tests_cant": "A test fixes a handful of vectors; the claim is over every dimension, every stored index set and every activation value.", "anchors": ["src/features.rs: Features::addto, scaled_addto"]}
{"id": "C16", "title": "Projection has the advertised dimension", "statement": "For every basis built from the library's bases with stack, with_bias and the L0/L1/L2/Linf normalisers, project(input), when it returns, yields Features whose n_features equals the basis' dim() and whose stored indices are all below it.", "quantifier": "every composition tree, every input slice (any length, any values), any scalar arithmetic", "why_tests_cant": "Bases compose without bound through stack/with_bias/normalise_*; tests exercise only a few compositions and inputs.", "anchors": ["src/basis/mod.rs: Basis::n_features, Basis::project, Combinators", "src/basis/stack.rs", "src/basis/normalisation.rs", "src/basis/constant.rs"]}
{"id": "C17", "title": "ith agrees with project", "statement": "ith(input,i) returns the i-th entry of the dense expansion of project(input) for every i < dim and every composition of Bias, Fixed::sparse, Fourier, Polynomial, Chebyshev, KernelBasis, TileCoding, UniformGrid, and stacks of them. It fails for Fixed::dense at every index >= 1 (an index error is returned although the index is in range) and for the normalisers over sparse features at every inactive index (panic instead of 0). The default ith of the trait, left to user-defined bases, is right for dense features and for sparse ones exactly if every stored activation is 1.", "quantifier": "every composition, every input, every index below dim", "why_tests_cant": "Bases compose without bound through stack/with_bias/normalise_*; tests exercise only a few compositions and inputs.", "anchors": ["src/basis/mod.rs: EnumerableBasis::ith", "src/basis/constant.rs: Fixed::ith", "src/basis/normalisation.rs: *::ith", "src/basis/stack.rs: Stack::ith"]}
{"id": "C18", "title": "Out-of-range ith is an error, never a panic", "statement": "ith(input,i) with i >= dim returns Err for every library basis and composition, whatever the input (no panic, input not even inspected), except Fixed::dense built from an empty list, which panics at index 0.", "quantifier": "every composition, every input, every index >= dim", "why_tests_cant": "Bases compose without bound through stack/with_bias/normalise_*; tests exercise only a few compositions and inputs.", "anchors": ["src/basis/mod.rs: EnumerableBasis::ith", "src/basis/*: ith", "src/error.rs: check_index!, Error::index_error"]}
{"id": "C19", "title": "Coefficient enumeration is complete and duplicate-free", "statement": "compute_coefficients(order,dim) lists every vector in {0..order}^dim except the zero vector, each exactly once, in strictly increasing lexicographic order, (order+1)^dim - 1 of them; the sort and the removal of repetitions do so for vectors of one length in any order; so Fourier, Polynomial and Chebyshev have exactly that many features.", "quantifier": "every order, every dim", "why_tests_cant": "(order+1)^dim grows without bound; tests check a few tiny cases.", "anchors": ["src/basis/mod.rs: compute_coefficients"]}
{"id": "C20", "title": "Polynomial features are the monomials", "statement": "In exact arithmetic Polynomial::new(d,k).project(x) is the list of all monomials x1^e1...xd^ed with 0<=ei<=k, not all zero, in the enumeration order; with_zeroth appends the constant 1. with_zeroth panics exactly when there are no other features (d=0 or k=0).", "quantifier": "every d, k, input", "why_tests_cant": "A test fixes a handful of vectors; the claim is over every dimension, every stored index set and every activation value.", "anchors": ["src/basis/polynomial/mod.rs: Polynomial"]}
{"id": "C21", "title": "Chebyshev features are Chebyshev polynomials", "statement": "For k<=11 the hard-coded polynomials satisfy T_k(cos t)=cos(k t) and the three-term recurrence in exact arithmetic, so each feature is the product of cos(k_j t_j) with t_j = arccos of the rescaled coordinate, is bounded by 1 in magnitude for inputs inside the limits; construction panics exactly for order > 11.", "quantifier": "every order, every limits with distinct endpoints, every input inside the limits", "why_tests_cant": "Agreement of degree-11 polynomials with cos(k arccos x) on finitely many points does not determine every coefficient and bounds must hold on a continuum.", "anchors": ["src/basis/polynomial/mod.rs: Chebyshev", "src/basis/polynomial/cpfk.rs"]}
{"id": "C22", "title": "Fourier features are cosines of the rescaled input", "statement": "In exact arithmetic each feature is cos(pi c.s) with s the input rescaled by the limits; so it lies in [-1,1], equals 1 at the lower corner, is invariant under shifting any coordinate by twice its range and under reflecting the input about the lower corner.", "quantifier": "every order, limits with distinct endpoints, every input", "why_tests_cant": "A test fixes a handful of vectors; the claim is over every dimension, every stored index set and every activation value.", "anchors": ["src/basis/fourier.rs", "src/basis/mod.rs: rescale!"]}
{"id": "C23", "title": "Stationary kernels are symmetric and peak at zero distance", "statement": "In exact arithmetic, k(x,y)=k(y,x) for every kernel; for Exponential, Matern32, ExpQuad, RationalQuadratic (power>=0) and Cosine with non-negative variance, |k(x,y)| <= k(x,x) = variance. This fails for Matern52 (it uses sqrt 3 where sqrt 5 is meant): some pairs have k(x,y) > k(x,x). With fewer lengthscales than coordinates (non_ard on slices) the extra coordinates are ignored, so distinct points get k = variance. The default kernels have unit variance and lengthscale, except the default RationalQuadratic, which is 1/(1 + r^2/8), and on slices they look at the first coordinate only.", "quantifier": "every kernel, variance, lengthscales, pair of points of any dimension", "why_tests_cant": "A test fixes a handful of vectors; the claim is over every dimension, every stored index set and every activation value.", "anchors": ["src/basis/kernels/stationary.rs", "src/basis/kernels/rational_quadratic.rs"]}
{"id": "C24", "title": "Tile coding activates at most one unit feature per tiling", "statement": "project activates between 1 and n_tilings indices (for n_tilings>=1), all below memory_size, each with activation 1; inputs falling into the same cells give identical features; memory_size 0 panics.", "quantifier": "every hasher, n_tilings, memory_size, every input vector", "why_tests_cant": "The hasher is an arbitrary user-supplied BuildHasher and collisions are data dependent.", "anchors": ["src/basis/tile_coding.rs"]}
{"id": "C25", "title": "Uniform grid is a one-hot encoding of the cell", "statement": "project activates exactly one feature, with activation 1 and index below dim; two inputs of full dimension share the index exactly when they fall in the same partition in every coordinate; every index is hit by some combination of partitions; empty input panics; surplus coordinates are ignored.", "quantifier": "every grid (any number of dimensions and partitions), every input", "why_tests_cant": "A test fixes a handful of vectors; the claim is over every dimension, every stored index set and every activation value.", "anchors": ["src/basis/uniform_grid.rs"]}
{"id": "C26", "title": "L1 normalisation", "statement": "In exact arithmetic the absolute activations of a normalised non-zero vector sum to 1, ratios and stored indices are preserved, normalising is scale-invariant and idempotent. In f64, for finite non-zero input every output is in [-1,1] and not NaN; for an all-zero non-empty dense vector every output is NaN.", "quantifier": "every base features", "why_tests_cant": "A test fixes a handful of vectors; the claim is over every dimension, every stored index set and every activation value.", "anchors": ["src/basis/normalisation.rs: L1Normaliser"]}
{"id": "C27", "title": "L2 normalisation", "statement": "In exact arithmetic the squares of a normalised non-zero vector sum to 1, direction and stored indices are preserved, it is scale-invariant for positive scales and idempotent. In f64 this fails for finite non-zero inputs: squares underflow to 0 (outputs become infinite) or overflow (outputs become 0).", "quantifier": "every base features", "why_tests_cant": "A test fixes a handful of vectors; the claim is over every dimension, every stored index set and every activation value.", "anchors": ["src/basis/normalisation.rs: L2Normaliser"]}
{"id": "C28", "title": "Linf normalisation", "statement": "For non-zero input the largest magnitude after normalisation is exactly 1 and no output exceeds 1 in magnitude, in exact arithmetic and bit-exactly in f64 for every finite non-zero input; signs and stored indices are preserved.", "quantifier": "every base features", "why_tests_cant": "A test fixes a handful of vectors; the claim is over every dimension, every stored index set and every activation value.", "anchors": ["src/basis/normalisation.rs: LinfNormaliser"]}
{"id": "C29", "title": "L0 normalisation", "statement": "Activations are divided by the number of active features; a non-empty sparse vector stays sparse with the same indices, and unitary features come out summing to 1. In f64 a sparse vector with no stored index turns into a dense all-NaN vector.", "quantifier": "every base features", "why_tests_cant": "A test fixes a handful of vectors; the claim is over every dimension, every stored index set and every activation value.", "anchors": ["src/basis/normalisation.rs: L0Normaliser"]}
{"id": "C30", "title": "Stacked bases", "statement": "Stack(b1,b2).project(x) is the concatenation of the two projections when both succeed; otherwise it returns b1's error if b1 fails, else b2's, b2 not being consulted when b1 fails; dim is the sum; with_bias appends a single constant 1.", "quantifier": "every pair of bases, every input", "why_tests_cant": "Bases compose without bound through stack/with_bias/normalise_*; tests exercise only a few compositions and inputs.", "anchors": ["src/basis/stack.rs", "src/basis/mod.rs: Combinators"]}
{"id": "C31", "title": "step is step_scaled by one", "statement": "For every optimiser, step(w,phi) leaves the same weights and optimiser state as step_scaled(w,phi,1.0): exactly in real arithmetic and bit for bit in f64 (SGD and ISGD write their step separately).", "quantifier": "every optimiser state, weights, features", "why_tests_cant": "A test fixes a handful of vectors; the claim is over every dimension, every stored index set and every activation value.", "anchors": ["src/optim/mod.rs: Optimiser::step", "src/optim/sgd.rs", "src/optim/isgd.rs"]}
{"id": "C32", "title": "SGD adds learning_rate * error * features", "statement": "step_scaled adds lr*error*activation_i to weight i and touches nothing else; the prediction at the updated input moves by lr*error*||phi||^2; predictions at inputs with orthogonal features do not move.", "quantifier": "every learning rate, error, features, weights", "why_tests_cant": "A test fixes a handful of vectors; the claim is over every dimension, every stored index set and every activation value.", "anchors": ["src/optim/sgd.rs", "src/lib.rs: ScalarLFA::update"]}
{"id": "C33", "title": "ISGD solves the implicit update", "statement": "With error = y - phi.w, the ISGD step yields the w' satisfying w' = w + lr*(y - phi.w')*phi; the residual shrinks by exactly 1/(1+lr*||phi||^2), so for any lr >= 0 it never overshoots or changes sign.", "quantifier": "every non-negative learning rate, features, weights, target", "why_tests_cant": "A test fixes a handful of vectors; the claim is over every dimension, every stored index set and every activation value.", "anchors": ["src/optim/isgd.rs"]}
{"id": "C34", "title": "Momentum SGD", "statement": "After any history of steps the velocity is the momentum-discounted sum of scaled gradients and the weights are the initial weights plus lr times the sum of velocities; with momentum 0 it is SGD.", "quantifier": "every history of features/errors", "why_tests_cant": "A test runs one fixed training history; the claim ranges over histories of any length with any inputs and errors.", "anchors": ["src/optim/momentum.rs"]}
{"id": "C35", "title": "NAG", "statement": "NAG with momentum 0 behaves as SGD on every history. In general the look-ahead term added is momentum*phi, unscaled by error and learning rate: so a step with zero error from zero velocity changes the weights whenever momentum and features are non-zero (an optimiser at a perfect fit drifts). The exact update is characterised over every history.", "quantifier": "every history of features/errors", "why_tests_cant": "A test runs one fixed training history; the claim ranges over histories of any length with any inputs and errors.", "anchors": ["src/optim/nesterov.rs"]}
{"id": "C36", "title": "Adagrad", "statement": "The accumulator of weight i is the sum of squared scaled gradients over the history and never decreases; each weight moves by at most the learning rate per step, in the direction of its gradient.", "quantifier": "every history of features/errors", "why_tests_cant": "A test runs one fixed training history; the claim ranges over histories of any length with any inputs and errors.", "anchors": ["src/optim/adagrad.rs"]}
{"id": "C37", "title": "Adam", "statement": "The moment estimates are the exponentially discounted sums of gradients and squared gradients; the second moment is never negative. The bias correction divides by 1-beta^(t+1) instead of 1-beta^t at step t: under a constant gradient g the corrected first moment is g*(1-beta1^t)/(1-beta1^(t+1)), not g.", "quantifier": "every history of features/errors", "why_tests_cant": "A test runs one fixed training history; the claim ranges over histories of any length with any inputs and errors.", "anchors": ["src/optim/adam.rs"]}
{"id": "C38", "title": "AdaMax", "statement": "The infinity-norm estimate dominates every discounted past gradient magnitude and is attained by one of them; first moment as in Adam with the same off-by-one correction.", "quantifier": "every history of features/errors", "why_tests_cant": "A test runs one fixed training history; the claim ranges over histories of any length with any inputs and errors.", "anchors": ["src/optim/adamax.rs"]}
{"id": "C39", "title": "reset returns the optimiser to its initial state", "statement": "After reset, SGD, ISGD, SGDMomentum, NAG and Adagrad behave exactly as freshly constructed with the same hyper-parameters, whatever happened before. Adam and AdaMax do not: the running beta products are kept, beta^(t+1) after t steps, so after at least one step and a reset the next step moves the weights differently from a fresh optimiser's (AdaMax: on every weight with a non-zero gradient; Adam: for equal betas and a unit gradient).", "quantifier": "every history before reset", "why_tests_cant": "A test runs one fixed training history; the claim ranges over histories of any length with any inputs and errors.", "anchors": ["src/optim/*: reset"]}
{"id": "C40", "title": "Sparse and dense representations learn the same weights", "statement": "Training on sparse features and on their dense expansions gives the same weights after every history with SGD, ISGD, SGDMomentum, NAG and Adagrad in exact arithmetic. With Adam and AdaMax it does not: the sparse path leaves weights of inactive features unchanged while the dense path keeps moving them; the moment estimates still agree.", "quantifier": "every history of well-formed features and errors", "why_tests_cant": "A test runs one fixed training history; the claim ranges over histories of any length with any inputs and errors.", "anchors": ["src/optim/*: step_scaled"]}
{"id": "C41", "title": "Optimiser steps never fail and preserve shapes", "statement": "With matching sizes and in-range sparse indices, step_scaled of every optimiser returns Ok, never panics, and preserves the lengths of weights and internal buffers.", "quantifier": "every optimiser, every history", "why_tests_cant": "A test runs one fixed training history; the claim ranges over histories of any length with any inputs and errors.", "anchors": ["src/optim/*: step_scaled"]}
{"id": "C42", "title": "A new approximator predicts zero", "statement": "LFA::scalar and LFA::vector evaluate to 0 on every input whose projection succeeds (in f64: 0.0 or -0.0 for finite activations in whatever order the terms are added, NaN possible for infinite ones), with dim weights / dim x n_outputs weights.", "quantifier": "every basis, every input", "why_tests_cant": "Bases compose without bound through stack/with_bias/normalise_*; tests exercise only a few compositions and inputs.", "anchors": ["src/lib.rs: LFA::scalar, LFA::vector, evaluate"]}
{"id": "C43", "title": "A failed projection changes nothing", "statement": "If the basis returns an error, evaluate, update, update_with, update_index, evaluate_index, try_iter return that error and leave weights and optimiser untouched.", "quantifier": "every basis, optimiser, state, input", "why_tests_cant": "A test runs one fixed training history; the claim ranges over histories of any length with any inputs and errors.", "anchors": ["src/lib.rs: all evaluate/update methods"]}
{"id": "C44", "title": "update_with is update at the computed error", "statement": "update_with(x,f) leaves the same state and result as update(x, f(phi(x), evaluate(x))), for scalar approximators, and for vector approximators whenever the closure returns an array in standard layout. VectorLFA reads the array with into_raw_vec, i.e. its storage: for a reversed or sliced array the weights move by other errors than the ones returned.", "quantifier": "every basis, optimiser, closure, state, input", "why_tests_cant": "A test runs one fixed training history; the claim ranges over histories of any length with any inputs and errors.", "anchors": ["src/lib.rs: ScalarLFA::update_with, VectorLFA::update_with"]}
{"id": "C45", "title": "Weight shapes are invariant", "statement": "No sequence of evaluate/update/update_with/update_index calls, successful or failed, changes the number of weights (scalar) or the rows, columns and n_outputs (vector).", "quantifier": "every sequence of calls, every basis and every optimiser that preserves the length of the view it is given", "why_tests_cant": "A test runs one fixed training history; the claim ranges over histories of any length with any inputs and errors.", "anchors": ["src/lib.rs: ScalarLFA, VectorLFA"]}
{"id": "C46", "title": "Outputs of a vector approximator learn independently", "statement": "With SGD or ISGD, column j after any history of updates equals the weights of a scalar approximator trained on the j-th errors alone. With the stateful optimisers this is false: one velocity/moment buffer is shared by all columns, so the error of one output moves the weights of another.", "quantifier": "every history, every number of outputs", "why_tests_cant": "A test runs one fixed training history; the claim ranges over histories of any length with any inputs and errors.", "anchors": ["src/lib.rs: VectorLFA::update"]}
{"id": "C47", "title": "Evaluation views agree", "statement": "evaluate(x)[j] = evaluate_index(x,j) = j-th item of iter/try_iter; the iterator yields exactly n_outputs items and len() is the number still to come at every point; evaluate_index panics for j >= n_outputs; iter panics exactly when projection fails.", "quantifier": "every basis, weights, input, index, every prefix of the iteration", "why_tests_cant": "Bases compose without bound through stack/with_bias/normalise_*; tests exercise only a few compositions and inputs.", "anchors": ["src/lib.rs: VectorLFA::evaluate, evaluate_index, iter, try_iter, OutputIter"]}
{"id": "C48", "title": "Updates touch only the addressed outputs", "statement": "update_index(x,j,e) leaves all other columns unchanged and changes column j as the scalar step would; update with m errors updates only the first min(m,n_outputs) columns, ignoring surplus errors.", "quantifier": "every basis, optimiser, state, error list", "why_tests_cant": "A test runs one fixed training history; the claim ranges over histories of any length with any inputs and errors.", "anchors": ["src/lib.rs: VectorLFA::update_index, update"]}
{"id": "C49", "title": "Optimiser errors in a vector update", "statement": "If the optimiser fails on some column, update returns the first such error, yet all later columns are still stepped (the fold does not short-circuit).", "quantifier": "every optimiser (any failure pattern), every error list", "why_tests_cant": "A test runs one fixed training history; the claim ranges over histories of any length with any inputs and errors.", "anchors": ["src/lib.rs: VectorLFA::update, update_with"]}
{"id": "C50", "title": "Repeated SGD on one sample converges geometrically", "statement": "In exact arithmetic, k updates on the same (x,y) with SGD(lr) leave residual (1-lr*||phi||^2)^k times the initial one; with ISGD it is (1+lr*||phi||^2)^-k.", "quantifier": "every k, learning rate, basis, input, target", "why_tests_cant": "A test runs one fixed training history; the claim ranges over histories of any length with any inputs and errors.", "anchors": ["src/lib.rs: ScalarLFA::update_with", "src/optim/sgd.rs", "src/optim/isgd.rs"]}
{"id": "C51", "title": "SGD never moves away from a consistent solution", "statement": "If every target is generated by some weights w* (y = phi.w*) and lr*||phi||^2 <= 2 for each sample, the distance ||w - w*|| is non-increasing along every training history; for ISGD this holds with any lr >= 0.", "quantifier": "every history of samples, every w*, every basis", "why_tests_cant": "A test runs one fixed training history; the claim ranges over histories of any length with any inputs and errors.", "anchors": ["src/lib.rs: ScalarLFA::update_with", "src/optim/sgd.rs", "src/optim/isgd.rs"]}
{"id": "C52", "title": "Chebyshev serde round-trip", "statement": "Deserialising the serialised form of Chebyshev::new(order,limits) gives back the same basis for both the sequence and the map encodings, fields in either order; duplicate or missing fields are rejected. A basis extended by with_zeroth does not survive: the constant feature is lost. Orders above 11 panic during deserialisation instead of returning an error.", "quantifier": "every order, limits, every sequence of map entries", "why_tests_cant": "A test fixes a handful of vectors; the claim is over every dimension, every stored index set and every activation value.", "anchors": ["src/basis/polynomial/mod.rs: Deserialize for Chebyshev, Chebyshev::with_zeroth"]}
{"id": "C53", "title": "Index errors identify the index and the dimension", "statement": "index_error has kind Basis and a message determined by, and determining, the offending index and dimension. An error prints as its message and a newline, so two errors print alike exactly when their messages are equal; the kind is not printed, and there is no source.", "quantifier": "every index and dim", "why_tests_cant": "A test fixes a handful of vectors; the claim is over every dimension, every stored index set and every activation value.", "anchors": ["src/error.rs: Error::index_error"]}
{"id": "C54", "title": "Tile coding arithmetic at the extremes", "statement": "bin_state saturates out-of-range coordinates to the isize limits and NaN to 0. Integer division truncates towards zero, so for n_tilings >= 2 the cell around zero is wider (2n-1 bins) than all others (n bins). A coordinate saturated at isize::MAX overflows in the second tiling: panic in a checked build, wrap-around in a release build.", "quantifier": "every f64 coordinate, n_tilings, both build modes", "why_tests_cant": "A test fixes a handful of vectors; the claim is over every dimension, every stored index set and every activation value.", "anchors": ["src/basis/tile_coding.rs: bin_state, hash_state"]}
{"id": "C55", "title": "Library approximators never fail on inputs their bases accept", "statement": "Take any expression of bases whose parts keep their promises (closures return the declared number of features) and any optimiser of the library, constructed for the basis's dimension. If every tile coder in the expression has memory (or no tilings) and its bins stay clear of the isize limits, every uniform grid has an axis and gets a coordinate, and every closure succeeds, then project succeeds with dim() well-formed features, and after any sequence of evaluate, update, update_with, evaluate_index and update_index calls on such inputs the next call succeeds too: no panic, no Err, and the weights keep their shape. When some part does not accept the input, project fails exactly as the first such part (left to right) fails on its own.", "quantifier": "every basis expression, optimiser, hyper-parameters, call sequence and accepted input; any scalar arithmetic", "why_tests_cant": "A test runs one fixed training history; the claim ranges over histories of any length with any inputs and errors.", "anchors": ["src/lib.rs: LFA::scalar, LFA::vector, ScalarFunction/VectorFunction impls", "src/basis/mod.rs, stack.rs, normalisation.rs: Projector::project", "src/optim/*: Optimiser::step_scaled"]}
{"id": "C56", "title": "Training does not see hash-map layout", "statement": "Every step of SGD, Momentum, NAG, Adagrad, Adam and AdaMax, hence any training history, hence any approximator, leaves bit-for-bit the same weights and optimiser state (and panics on the same calls) when the features come in another hash-map layout. ISGD sums squared activations in iteration order: over the reals it is no exception, in f64 two layouts of one vector can give different weights.", "quantifier": "every history of keyed features, every layout of every vector, every optimiser state and weights, every scalar arithmetic (no law assumed)", "why_tests_cant": "HashMap iteration order is randomised per process and per map, so a test observes only the orders it happens to draw.", "anchors": ["src/optim/*: step, step_scaled", "src/features.rs: Features::scaled_addto, fold", "src/lib.rs: update"]}
{"id": "C57", "title": "Feature vectors of the wrong size", "statement": "With n weights: on a dense vector of length m, SGD, ISGD, Momentum and NAG panic iff m is neither n nor 1, and for m = 1 SGD, Momentum and NAG treat it as n copies of that activation; Adam and AdaMax panic iff m > n, and for m < n update the first m weights and moments only; Adagrad never panics, updates the first min(m,n) weights and ignores the rest. On a sparse vector all but Adagrad panic iff a stored index is >= n, Adagrad ignores such entries, and the advertised dim plays no part.", "quantifier": "every optimiser state sized for the weights, every feature vector of any size", "why_tests_cant": "A test fixes a handful of vectors; the claim is over every dimension, every stored index set and every activation value.", "anchors": ["src/optim/*: step_scaled", "src/features.rs: Features::scaled_addto"]}
{"id": "C58", "title": "Tile coding: which features two inputs share", "statement": "The features active for an input are, for each tiling t, the hash of everything written up to t, because the hasher is not reset between tilings. So, hash collisions apart, two inputs share tiling t's feature iff they are in the same cell of every tiling up to t, not just of t; a common run of cells from tiling 0 on is always shared. In one dimension, moving to the next bin s+1 changes the cell of the single tiling nt-1-(s mod nt) and loses the features of that and all later tilings. Inputs in the same cell of 3 of 4 tilings can share no feature at all.", "quantifier": "every hasher, number of tilings, memory size and pair of inputs whose bins avoid isize overflow", "why_tests_cant": "A test fixes a handful of vectors; the claim is over every dimension, every stored index set and every activation value.", "anchors": ["src/basis/tile_coding.rs: hash_state, bin_state, TileCoding::project"]}
{"id": "C59", "title": "Cumulative error of online fitting", "statement": "Over the reals, fitting any sequence of samples (x, y) with error y - prediction: with SGD and lr*|phi|^2 <= 1 the learner's predictions satisfy lr*sum (e_k - u_k)^2 <= |w0 - w*|^2 + lr*sum u_k^2 against any fixed weights w* whose unexplained residuals are u_k; ISGD satisfies the analogous bound for every lr > 0. If w* explains the samples exactly, the sum of squared errors is bounded by a constant independent of the number of samples, so only finitely many errors exceed any given size.", "quantifier": "every sequence of samples of any length, every comparator, every start, every basis returning well-sized features", "why_tests_cant": "A test runs one fixed training history; the claim ranges over histories of any length with any inputs and errors.", "anchors": ["src/lib.rs: update, evaluate", "src/optim/sgd.rs, isgd.rs: step_scaled"]}
{"id": "C60", "title": "Bases built from an input space", "statement": "A Fourier or Chebyshev basis built from an input space is the one built from the axis bounds; construction panics when an axis is unbounded. A kernel basis over a partitioning has one prototype per combination of cell centres, in lexicographic order, with unit variance and the cell widths as lengthscales; over no axes it has no prototypes and no features. Its dimension is the uniform grid's over the same partitioning and the prototype at the index the grid activates for an input is centred on that input's cell. At a centre the matching feature of a peaked kernel is 1 and no feature exceeds 1. In binary64 an axis whose bounds coincide makes every Fourier feature NaN.", "quantifier": "every space, every order, every kernel, every input, every choice of centres", "why_tests_cant": "A test fixes a handful of vectors; the claim is over every dimension, every stored index set and every activation value.", "anchors": ["src/basis/fourier.rs: from_space", "src/basis/polynomial/mod.rs: Chebyshev::from_space", "src/basis/kernelised.rs: partitioned", "src/basis/uniform_grid.rs: new, hash"]}
{"id": "C61", "title": "Optimiser state in binary64 stays sane", "statement": "In binary64: the ISGD effective rate is finite and between 0 and lr for every finite lr > 0 and finite features, even when the norm overflows, but may be NaN for lr = 0. Adagrad accumulators never decrease, are never NaN, and once infinite leave their weight unchanged. With gradients bounded by 2^k, rates by 2^j and decay factors in [0, 1), over any history: Adam's and AdaMax's first moments stay within 2^k, second moments within [0, 2^2k] (AdaMax: [0, 2^k]), no weight becomes NaN, and n steps move a weight w by no more than (|w| + n*D)(1+u)^n with D = 2^(j+k+77) (Adagrad: 2^(j+k+24)). A gradient that overflows can make an Adam weight NaN.", "quantifier": "every history of any length, every start satisfying the bounds, every platform (powi(x,2) = x*x for Adagrad)", "why_tests_cant": "src/features.rs", "anchors": ["src/optim/isgd.rs: compute_lr", "src/optim/adagrad.rs: step_scaled, reset", "src/optim/adam.rs: step_scaled, reset", "src/optim/adamax.rs: step_scaled, reset"]}
{"id": "C62", "title": "Machine integers", "statement": "For a usize of any size, in checked and in release builds: a sound basis whose dimension is representable projects and reports its dimension as with unbounded integers, and so do stack, the uniform grid's constructor and hash, from_indices and the sparse/sparse dot count (an i32) as long as their results are representable. Otherwise a checked build panics. A release build wraps around: stack returns a vector of the wrapped size in which activations of the second part overwrite those of the first, a grid can have one cell and activate another, from_indices with the largest usize yields a vector of size 0, and a sparse vector with 2^31 entries has a negative product with itself.", "quantifier": "every word size, both builds, every basis expression, feature vectors, grid and input", "why_tests_cant": "A test fixes a handful of vectors; the claim is over every dimension, every stored index set and every activation value.", "anchors": ["src/features.rs: Features::stack, From<I: IntoIterator<usize>>, Dot<Features>", "src/basis/stack.rs: dim", "src/basis/uniform_grid.rs: new, hash"]}
{"id": "C63", "title": "State left by a panic", "statement": "The state an optimiser, an approximator or a feature vector is in after a call that panicked is determined: weights and optimiser state keep their sizes and every later history of well-sized features trains to its end; with dense features of the wrong size SGD, ISGD, Momentum and NAG have changed nothing while Adam and AdaMax have completed the step on the activations that fit; with a sparse index past the weights exactly the activations iterated before it have been applied, so a panicking step is neither atomic nor independent of the hash order; a vector approximator has completed the columns before the one that panicked and not touched those after it. map_inplace and merge_inplace leave zeroed bytes in the caller's vector exactly when the closure panics or the sizes do not fit, which happens for well-formed vectors and total closures. Arrays filled through MaybeUninit are complete before assume_init, and the unchecked read of L0 is in bounds for every sound basis but not for a closure basis that returns fewer features than it claims.", "quantifier": "every optimiser, state, weights, features, approximator, panicking closure and later history", "why_tests_cant": "A test runs one fixed training history; the claim ranges over histories of any length with any inputs and errors.", "anchors": ["src/features.rs: addto, scaled_addto, map_inplace, merge, merge_into, merge_inplace, uget", "src/optim/*.rs: step_scaled", "src/lib.rs: ScalarLFA::update, VectorLFA::update", "src/basis/normalisation.rs: L0::ith"]}
{"id": "C64", "title": "Memory layout of dense features", "statement": "A dense feature vector holds an owned array: a storage and a view into it. For every layout safe code can make, map, map_into and merge_into act on the elements exactly as on a plain list and keep a valid layout. In standard layout stack and the conversion to Vec agree with the list model too, and no operation leaves the standard layout. Otherwise stack panics exactly when its second part has more than one element and a stride other than one, and puts the whole storage of its first part, in storage order, before the second part; its result is right exactly when that storage is the list of elements. So stacking a reversed vector misplaces activations, stacking a sliced one yields more features than its parts have, and Vec::from returns the storage.", "quantifier": "every storage, start, stride and length, every pair of feature vectors and closures", "why_tests_cant": "A test fixes a handful of vectors; the claim is over every dimension, every stored index set and every activation value.", "anchors": ["src/features.rs: Features::stack, map, map_into, merge_into, into_dense, From<DenseActivations>, From<Features> for Vec"]}
{"id": "C65", "title": "The documented example", "statement": "The program in the crate's documentation (a line fitted by SGD(1.0) on Polynomial::new(1, 1).with_zeroth()), for every line, sample sequence and noise, in exact arithmetic: it never panics; each noise-free sample reduces the squared distance of the weights from the line by (1 - x^2) e^2, so inputs in [-1, 1] never increase it, and noise increases the distance by at most sqrt 2 times its sum. The final assertion rmse < 1e-3 is not guaranteed: inputs of 1 and -1 make no progress, and whatever came before, the noises of the last sample for which it holds lie within an interval of length 0.002, so noise within one standard deviation always breaks it.", "quantifier": "every slope and intercept, every sequence of inputs and noises, of any length", "why_tests_cant": "A test runs one fixed training history; the claim ranges over histories of any length with any inputs and errors.", "anchors": ["src/lib.rs: module documentation example (lines 10-51)"]}
{"id": "C66", "title": "The repository's own tests", "statement": "Every unit test and documentation example of the compiled modules, replayed in binary64: the ones in features.rs pass with ndarray's order of summation, though the exact equality in one of them fails for another order; those of the bases pass on every platform, the Fourier and kernel tests on every platform whose cos and exp are accurate to 2^-30, the polynomial examples when powi multiplies, the uniform grid's loops on grids of any number of axes. The randomised tests pass on exactly these inputs: constants without NaN; for L1 an empty vector or finite values not all zero; for L2 an empty vector or finite values whose rounded sum of squares is not zero. So each has inputs it fails on. The helper compare_floats compares a common prefix only.", "quantifier": "every platform within the stated accuracy, every randomised input", "why_tests_cant": "src/features.rs", "anchors": ["src/utils.rs: compare_floats, eq_with_nan_eq", "src/macros.rs: assert_features", "src/features.rs: tests", "src/basis/*.rs: tests"]}
{"id": "C67", "title": "Incremental feature dependency discovery", "statement": "src/basis/ifdd.rs, which no module declares, read as written: after any history of discover calls, base features are untouched, every later feature is numbered by its position and is a pair of distinct base features, and every candidate is such a pair below the threshold. Each pair evolves on its own: every call that looks at it adds |error| to its relevance, and reaching the threshold appends a feature and starts afresh. So in exact arithmetic a pair is discovered iff the |error|s add up to the threshold, and is then discovered again and again. On dense features the activity test is inverted: pairs of inactive features are looked at, active ones never. project turns a derived feature on exactly when none of its parents is active, at an index shifted by the number of base features. In binary64 a NaN error silences a pair for good, and rounding can keep a pair below the threshold whatever the sum.", "quantifier": "every history of calls, base dimension, threshold and feature vectors that fit the base", "why_tests_cant": "A test runs one fixed training history; the claim ranges over histories of any length with any inputs and errors.", "anchors": ["src/basis/ifdd.rs: IFDD::new, inspect_candidate, discover, discover_dense, discover_sparse, add_feature, project, test_discover"]}
{"id": "C68", "title": "Kernels are positive semidefinite", "statement": "The Gram matrix of every finite set of points is positive semidefinite, over the reals: for Exponential, Matern32, ExpQuad and RationalQuadratic with non-negative power on points of one length in any number of dimensions, and for Cosine in one. It fails for Cosine in two dimensions, for Matern52 (whose constant is sqrt 3 instead of sqrt 5), and for any kernel when points differ in length, because the zips drop coordinates.", "quantifier": "every finite list of weighted points, every dimension, variance, lengthscales and power", "why_tests_cant": "A test fixes a handful of vectors; the claim is over every dimension, every stored index set and every activation value.", "anchors": ["src/basis/kernels/stationary.rs: Exponential, Matern32, Matern52, ExpQuad, Cosine", "src/basis/kernels/rational_quadratic.rs: RationalQuadratic"]}
{"id": "C69", "title": "Each weight trains on its own features", "statement": "With every optimiser but ISGD, in any arithmetic and bit for bit: training on a selection of the features (in any order, repeated or not) gives exactly the weights and optimiser state that training on all of them gives those features, from a fresh optimiser or in the middle of a history. So what other features hold, a NaN included, never reaches a weight; duplicated features keep equal weights; and histories of stacked features, both dense or both sparse, train like the two parts apart. Over the reals relabelling the features of a basis relabels the weights and leaves all predictions as they were, ISGD included. In binary64 ISGD carries a NaN from one feature to all weights, and stacking a dense vector on a sparse one changes how unstored features train.", "quantifier": "every selection of indices, every pair of histories that read the same through it, every optimiser state and weights, any scalar arithmetic", "why_tests_cant": "A test runs one fixed training history; the claim ranges over histories of any length with any inputs and errors.", "anchors": ["src/optim/*.rs: step_scaled, new", "src/features.rs: Features::stack, scaled_addto", "src/lib.rs: ScalarLFA::update, update_with, evaluate"]}
{"id": "C70", "title": "Tables in binary64", "statement": "A basis that activates one feature with value 1, such as the uniform grid, trained by SGD(1.0) on any sequence of samples (x, y) with error y - prediction, is a table: in binary64, with targets of magnitude at most B <= 2^1022, every cell is finite, an untouched cell reads 0, a cell reads its first target exactly, its last target up to 2^-50 B, and its last target exactly when the one before was the same. One update to a new target may miss it, targets near the largest f64 can turn a cell into NaN for good, and with rate 1/2 a cell may never reach its target however often it is updated.", "quantifier": "every sequence of samples, every grid and one-hot basis, every platform", "why_tests_cant": "src/features.rs", "anchors": ["src/basis/uniform_grid.rs: project, hash", "src/optim/sgd.rs: step_scaled", "src/lib.rs: ScalarLFA::update_with, evaluate", "src/features.rs: dot, scaled_addto"]}
{"id": "C71", "title": "Passes over a data set", "statement": "Over the reals, let a finite set of samples be fitted with error y - prediction in any order that keeps coming back to each of them, by SGD with lr * |phi|^2 < 2 at every sample or by ISGD with any lr > 0. No call panics, and the weights converge exactly when some weights explain every sample whose features are not all zero. The limit then explains them all and is, among the weights that do, the closest to the initial ones, so that it depends neither on the order, the rate nor the choice of optimiser; evaluations at consistent samples come within any distance of their targets and stay there, also when counted in whole passes over a list. At lr * |phi|^2 = 2 SGD need not converge.", "quantifier": "every finite data set, every infinite order that returns to each sample, all rates in the stated range, all initial weights", "why_tests_cant": "A test runs one fixed training history; the claim ranges over histories of any length with any inputs and errors.", "anchors": ["src/lib.rs: ScalarLFA::update_with, evaluate", "src/optim/sgd.rs: step_scaled", "src/optim/isgd.rs: step_scaled", "src/features.rs: dot, scaled_addto, matmul"]}
{"id": "C72", "title": "Momentum on one sample", "statement": "Over the reals, let one sample be fitted over and over with error y - prediction by SGDMomentum or NAG with lr > 0 and -1 < m < 1. No call panics. With momentum, evaluations at the sample approach its target geometrically from any velocity when 0 < lr * |phi|^2 < 2 (1 + m), and from a new optimiser and a wrong prediction they converge to it exactly when lr * |phi|^2 < 2 (1 + m). In the same range NAG approaches, geometrically, the value m (1 - m) / lr above the target whatever the features, so that for 0 < m < 1 it never fits the sample.", "quantifier": "every basis, input, target, momentum in (-1, 1), positive rate, velocity and weights", "why_tests_cant": "A test runs one fixed training history; the claim ranges over histories of any length with any inputs and errors.", "anchors": ["src/optim/momentum.rs: step_scaled", "src/optim/nesterov.rs: step_scaled", "src/lib.rs: ScalarLFA::update_with, evaluate"]}
{"id": "C73", "title": "Adagrad on one sample", "statement": "Over the reals, let one sample with a non-zero feature be fitted over and over with error y - prediction by Adagrad. For every positive learning rate, every non-negative accumulator and all weights, no call panics and evaluations at the sample converge to its target.", "quantifier": "every basis, input, target, positive rate, non-negative accumulator and weights", "why_tests_cant": "A test runs one fixed training history; the claim ranges over histories of any length with any inputs and errors.", "anchors": ["src/optim/adagrad.rs: step_scaled", "src/lib.rs: ScalarLFA::update_with, evaluate"]}
{"id": "C74", "title": "Adam and AdaMax on one sample", "statement": "Over the reals, let one sample be fitted over and over with error y - prediction by a new Adam or AdaMax with beta1 = 0, 0 <= beta2 < 1 and lr * |phi|^2 > 2e-7. No call panics, and evaluations at the sample converge to its target exactly when one of them equals it. This can fail: with one unit feature, rate 1 and zero weights there is a target that AdaMax misses by the same distance for ever.", "quantifier": "every basis, input, target, beta2 in [0, 1), rate above the stated bound and all weights", "why_tests_cant": "A test runs one fixed training history; the claim ranges over histories of any length with any inputs and errors.", "anchors": ["src/optim/adam.rs: new, step_scaled", "src/optim/adamax.rs: new, step_scaled", "src/lib.rs: ScalarLFA::update_with, evaluate"]}
{"id": "C75", "title": "Kernel networks interpolate", "statement": "Over the reals, take Exponential, Matern32, ExpQuad, or RationalQuadratic with a positive power, with positive variance and a non-zero lengthscale for each coordinate. The Gram matrix of distinct points is positive definite. So a homogeneous network has weights giving any chosen values at its centroids exactly when the centroids are distinct, and then only one weight vector does; training on those values in any order that keeps returning to each centroid converges to it from any start, with ISGD at any positive rate and with SGD below 2 / (n variance^2). Networks made from a partitioned space with ExpQuad or Matern32, distinct centres on each axis and non-zero widths can likewise hold any table of cell values. None of this holds for Matern52, Cosine, RationalQuadratic with power 0, or fewer lengthscales than coordinates: some two distinct centroids then always evaluate alike.", "quantifier": "all such kernels, dimensions, centroids, values, sample orders, rates in range and initial weights", "why_tests_cant": "A test fixes a handful of vectors; the claim is over every dimension, every stored index set and every activation value.", "anchors": ["src/basis/kernelised.rs: KernelBasis::homogeneous, exp_quad, matern_32, project", "src/basis/kernels/stationary.rs: Exponential, Matern32, Matern52, ExpQuad, Cosine", "src/basis/kernels/rational_quadratic.rs: RationalQuadratic", "src/lib.rs: ScalarLFA::update_with, evaluate"]}
{"id": "C76", "title": "Equal values behave alike", "statement": "In binary64, the derived == between optimisers, kernels and bases cannot see the sign of a zero. On every platform whose libm and sums cannot either, two approximators with equal bases, weights and optimisers, given the same calls, both panic or both return, and then agree on every input up to the sign of a zero, for ever; the optimisers stay equal unless a NaN appears. The conditions: no Fourier or Chebyshev interval has equal ends, the user's closures and partitions do not look at the sign of a zero, and the sets of Fixed bases are walked in the same order. Each is needed: equal Chebyshev bases over an empty interval can give opposite infinities, equal sparse Fixed bases can evaluate differently, and equal scalar kernels with a zero lengthscale can give 0 and infinity. == is symmetric and transitive; a value equals its clone exactly when it holds no NaN.", "quantifier": "all bases built from the library, optimisers, weights, call histories and platforms as described", "why_tests_cant": "A test runs one fixed training history; the claim ranges over histories of any length with any inputs and errors.", "anchors": ["src/optim/sgd.rs: derive(PartialEq)", "src/optim/momentum.rs: derive(PartialEq)", "src/optim/nesterov.rs: derive(PartialEq)", "src/optim/adagrad.rs: derive(PartialEq)", "src/optim/adam.rs: derive(PartialEq)", "src/optim/adamax.rs: derive(PartialEq)", "src/basis/fourier.rs: derive(PartialEq)", "src/basis/polynomial/mod.rs: derive(PartialEq)", "src/basis/kernels/stationary.rs: derive(PartialEq), kernel", "src/lib.rs: LFA"]}
{"id": "C77", "title": "Training in binary64 follows the exact rule", "statement": "Take any reference weights ws, a learning rate lr >= 0 with lr |phi|^2 <= 2 on every sample, and let ndarray add in any order, with fused multiply-adds or without. One SGD update towards a target then moves the weights as in exact arithmetic up to a vector of length 3((1+2^-53)^(n+5) - 1)(|ws - w| + |ws|) plus what ws leaves of the target; the only condition is that the new weights are finite. Hence k updates take the weights at most a factor (1+q)^k and k such errors away from ws; the squared gaps to the predictions of ws add up to the squared initial distance plus the errors; one sample over and over closes its gap geometrically, down to the noise. With lengths up to 2^200, targets up to 2^400 and k(n+5) <= 2^49 nothing overflows and the growth is at most k(n+5)2^-51. An evaluation is off by the distance of the weights and one rounded product. A single step can move away from weights that explain its sample exactly.", "quantifier": "all bases, features in either layout, samples, reference weights, learning rates and run lengths as described, on every platform whose sums add in some order", "why_tests_cant": "A test runs one fixed training history; the claim ranges over histories of any length with any inputs and errors.", "anchors": ["src/optim/sgd.rs: step, step_scaled", "src/lib.rs: ScalarLFA::update_with, evaluate", "src/features.rs: dot, scaled_addto"]}
{"id": "C78", "title": "What is saved loads as itself", "statement": "With the serde feature, an optimiser, a kernel, an error, a feature vector, a basis or a whole approximator written through the derived Serialize, with structs as maps or as sequences, is read by the derived Deserialize as the same value; only the order of a hash map or set is not kept. Training, saving, loading and training on is training without a break. Two exceptions: a Chebyshev basis loses a constant feature added by with_zeroth, so that an approximator over it loads without error and then panics on every evaluation; and the hash builder of a tile coder must be present, because the attribute meant to make it optional is conditional on a feature the crate does not declare.", "quantifier": "all values of these types, nested bases of any depth, both ways to write a struct, all training sequences before and after saving", "why_tests_cant": "A test fixes a handful of vectors; the claim is over every dimension, every stored index set and every activation value.", "anchors": ["src/lib.rs: LFA", "src/features.rs: Features, SparseActivations", "src/error.rs: Error", "src/optim/sgd.rs", "src/optim/isgd.rs", "src/optim/momentum.rs", "src/optim/nesterov.rs", "src/optim/adagrad.rs", "src/optim/adam.rs", "src/optim/adamax.rs", "src/basis/tile_coding.rs: TileCoding", "src/basis/polynomial/mod.rs: Chebyshev", "src/basis/kernelised.rs", "Cargo.toml: features"]}
{"id": "C79", "title": "What loading accepts", "statement": "A struct is loaded from a map exactly when each of its fields has one entry, by name or by number, whose value is of the right type; the order of the entries does not matter and entries of no field are skipped. Arrays must have version 1 and a size that fits their data, so a loaded matrix has rows of one length; loaded maps and sets repeat no key. Loading never panics except inside a Chebyshev basis. Nothing relates one field to another: sparse features with an index beyond their dimension load and their product with weights panics, and so does the first update of an Adam loaded with moments of different lengths, which no constructor builds.", "quantifier": "all maps and sequences a format may hand over, all field types", "why_tests_cant": "A test fixes a handful of vectors; the claim is over every dimension, every stored index set and every activation value.", "anchors": ["src/lib.rs: LFA", "src/features.rs: Features, SparseActivations", "src/error.rs: Error", "src/optim/momentum.rs", "src/optim/adagrad.rs", "src/optim/adam.rs", "src/optim/adamax.rs", "src/basis/fourier.rs", "src/basis/stack.rs", "src/basis/uniform_grid.rs", "src/basis/closure.rs"]}
{"id": "C80", "title": "Adding features to weights with any number of axes", "statement": "addto and scaled_addto accept arrays whose number of axes is known at run time only. With one axis they are the functions of C15. Dense features are added along the last axis at every position of the others when their number is the length of that axis, a single number is added everywhere, and anything else panics; the shape stays. Sparse features panic unless there is one axis or nothing is stored, so features and their dense form do not agree here.", "quantifier": "all shapes, weights and features, all scalars", "why_tests_cant": "A test fixes a handful of vectors; the claim is over every dimension, every stored index set and every activation value.", "anchors": ["src/features.rs: Features::addto, Features::scaled_addto"]}
{"id": "C81", "title": "The cardinality of a basis", "statement": "card() is infinite for every basis, however it is composed. Polynomial and Fourier bases do have infinitely many feature vectors. Constants, tile codings, grids and all that is stacked or normalised from them do not: one, memory_size to the power n_tilings, one per cell, products for a stack, no more after normalising; a grid reaches its bound.", "quantifier": "all bases of any depth, all inputs, in exact arithmetic where infinity is claimed", "why_tests_cant": "A test fixes a handful of vectors; the claim is over every dimension, every stored index set and every activation value.", "anchors": ["src/basis/stack.rs: Stack::card", "src/basis/constant.rs", "src/basis/tile_coding.rs", "src/basis/uniform_grid.rs", "src/basis/polynomial/mod.rs", "src/basis/fourier.rs", "src/basis/normalisation.rs"]}
{"id": "C82", "title": "Repeated training in binary64 ends in a cycle", "statement": "Running the same calls over and over on an approximator whose numbers are binary64 values, whatever its basis and whichever of the seven optimisers, leaves it from some round on in a cycle: the whole approximator, weights and optimiser, comes back bit for bit every p rounds, or it has panicked. With d numbers stored the cycle starts and closes within 2^(64 d) + 1 rounds. If the weights converge they stop changing. The period need not be one, and in exact arithmetic there need not be one.", "quantifier": "all bases, optimisers, weights, call lists, scalar and vector approximators, all platforms", "why_tests_cant": "A test runs one fixed training history; the claim ranges over histories of any length with any inputs and errors.", "anchors": ["src/lib.rs: LFA::update, LFA::update_with, LFA::update_index", "src/optim/mod.rs: Optimiser"]}
{"id": "C83", "title": "A vector approximator is its outputs side by side", "statement": "With an optimiser that has no state of its own (SGD, ISGD), after any sequence of evaluate, evaluate_index, update, update_index and update_with calls each output has the weights it would have as a scalar approximator given its share of the calls, provided the closures of update_with do not mix outputs; and the sequence panics only if one of them would. So passes over explained vector samples bring all outputs to their targets, and a grid trained by SGD(1.0) in binary64 stores vectors as it stores numbers. Closures that mix outputs do couple them.", "quantifier": "all call sequences, bases, weights and scalars; exact arithmetic for the limit, binary64 for the table", "why_tests_cant": "A test runs one fixed training history; the claim ranges over histories of any length with any inputs and errors.", "anchors": ["src/lib.rs: VectorLFA (update, update_with, update_index, evaluate, evaluate_index)", "src/optim/sgd.rs", "src/optim/isgd.rs"]}
{"id": "C84", "title": "ISGD in binary64 is stable at any learning rate", "statement": "For any positive finite learning rate and any finite features the rate ISGD computes in binary64, times the squared length of the features, is at most 5/4 (in exact arithmetic 1), whatever overflows or underflows on the way; for moderate numbers it is the implicit value up to (n+5) 2^-52. Hence a run of ISGD on samples that some weights explain ends at most a rounding error further from those weights than it began, its gaps are summable, a repeated sample is learnt at the implicit rate, and moderate runs do not overflow, with no condition on the learning rate. SGD at the same rate does not have this.", "quantifier": "all platforms, bases, learning rates, histories, weights and reference weights; at most 2^49 products", "why_tests_cant": "A test runs one fixed training history; the claim ranges over histories of any length with any inputs and errors.", "anchors": ["src/optim/isgd.rs: compute_lr, step_scaled", "src/lib.rs: ScalarLFA::update_with", "src/features.rs: fold, dot, scaled_addto"]}
{"id": "C85", "title": "Cumulative error of Adagrad", "statement": "Over the reals, fitting any sequence of samples with error y - prediction by Adagrad never panics, and against any fixed weights ws, with weight i never further than D_i from ws_i, sum e_k (e_k - u_k) <= sum_i D_i^2/(2 lr) (sqrt G_i + 1e-7) + lr (sqrt G_i - sqrt A_i), where u_k is what ws leaves unexplained and A_i, G_i are the accumulators at both ends; so half the excess of the squared errors is bounded alike. If ws explains every sample, the squared errors sum to a constant that does not depend on the number of samples. In a table (one active feature per input) the weights stay within max(|w_i - ws_i|, lr) by themselves, so this holds for any learning rate. Unlike SGD, Adagrad can move away from a consistent solution.", "quantifier": "all bases, learning rates, accumulators, sample sequences, weights and reference weights", "why_tests_cant": "A test runs one fixed training history; the claim ranges over histories of any length with any inputs and errors.", "anchors": ["src/optim/adagrad.rs: step_scaled", "src/lib.rs: ScalarLFA::update_with"]}
{"id": "C86", "title": "Vector approximators in binary64", "statement": "Fitting vectors of targets by SGD (with the step-size condition of C77) or by ISGD (at any positive learning rate) in binary64, with moderate numbers and fewer than 2^49 products: no output overflows, no call panics, and the weights of each output end at most a rounding error further from its own reference weights than they began; what the approximator answers differs from the references by the distance of the weights and the rounding of one product, output by output.", "quantifier": "all platforms, bases, numbers of outputs, histories of target vectors, weights and reference weights", "why_tests_cant": "A test runs one fixed training history; the claim ranges over histories of any length with any inputs and errors.", "anchors": ["src/lib.rs: VectorLFA::update_with, evaluate", "src/optim/sgd.rs", "src/optim/isgd.rs"]}
{"id": "C87", "title": "Polynomial, Chebyshev and Fourier features in binary64", "statement": "On a platform whose powi multiplies its way to the exponent in some order: Polynomial features of inputs in [-1,1] stay in [-1,1] and are off by at most 2 roundings per multiplication; other inputs whose products cannot leave the range of f64 have the relative error of one rounding per multiplication; the twelve literal polynomials of cpfk.rs are within 2^-35 of the Chebyshev polynomials on [-1,1]; the features of a Chebyshev basis in d dimensions, for an input inside its limits, are within d*2^-32 of their real values; the literal PI is within 2^-51 of pi and Fourier features are within the accuracy of the platform cosine plus a bound in the order and dimension times 2^-53.", "quantifier": "all platforms, orders, dimensions, limits, finite inputs within the limits, exponents", "why_tests_cant": "A test fixes a handful of vectors; the claim is over every dimension, every stored index set and every activation value.", "anchors": ["src/basis/polynomial/mod.rs", "src/basis/polynomial/cpfk.rs", "src/basis/fourier.rs", "src/basis/mod.rs:9-17 rescale!"]}
{"id": "C88", "title": "Covariance kernels in binary64", "statement": "Every kernel is symmetric bit for bit on all inputs; at its own centre it is its variance exactly; Exponential, ExpQuad and RationalQuadratic of positive power stay finite and in [0, variance] at all finite points; the computed distance, when finite, has relative error (3n+10)*2^-53 over n lengthscales, and below 2^300 every kernel value is within variance*(c1*eps + c2*(3n+10)*2^-53) of its formula, eps being the accuracy of exp, ln_1p and cos (for Cosine the distance error is multiplied by 1 + distance). Points 2^513 lengthscales apart have an infinite distance: the decaying kernels are zero there, and both Matern kernels are NaN.", "quantifier": "all platforms, kernels, dimensions, lengthscales, variances, inputs (finite unless said otherwise)", "why_tests_cant": "A test fixes a handful of vectors; the claim is over every dimension, every stored index set and every activation value.", "anchors": ["src/basis/kernels/stationary.rs", "src/basis/kernels/rational_quadratic.rs", "src/basis/kernelised.rs"]}
{"id": "C89", "title": "What polynomial, Chebyshev and Fourier approximators can represent", "statement": "In exact arithmetic: with its zeroth feature, a Polynomial or Chebyshev basis of order k in d dimensions takes any table of values on any grid of k+1 distinct values per axis, for exactly one weight vector; a Fourier basis with a bias does so in one dimension, at k+1 distinct inputs within its limits. Polynomial and Chebyshev bases of the same order represent the same functions, each by exactly one weight vector. SGD (below 2/energy) and ISGD (any rate) trained on samples on the grid converge to the weights that take the values, from any start and in any order that keeps visiting each sample. Without the zeroth feature no non-zero constant can be represented, not even on a grid. Weights that vanish on a grid vanish everywhere. A two-dimensional Fourier basis does not take every table on a grid within its limits: at order 1 the four values on a square can satisfy one fixed equation.", "quantifier": "every order (Chebyshev: up to 11), dimension, limits, grid, table of values, start, rate and visiting order", "why_tests_cant": "A test fixes a handful of vectors; the claim is over every dimension, every stored index set and every activation value.", "anchors": ["src/basis/polynomial/mod.rs: Polynomial, Chebyshev (new, with_zeroth, project)", "src/basis/polynomial/cpfk.rs", "src/basis/fourier.rs", "src/basis/mod.rs: compute_coefficients", "src/lib.rs: ScalarFunction::evaluate, update"]}
{"id": "C90", "title": "Velocities in binary64", "statement": "SGDMomentum and NAG in binary64. With a momentum at most 1 - 2^-q in magnitude (q up to 53, which covers every binary64 number below 1; for q = 53 momentum 1 itself as well) and gradients at most 2^k, no history takes a velocity beyond 2^(k+q); with momentum 1 and gradients 1 the velocity counts to 2^53 and stays there. Weights then move by at most 2^(j+k+q) per step for a rate within 2^j, so they are never NaN and finite as long as that sum is; a Nesterov step moves them a second time, by the momentum times the activations, so these have to be bounded too. Once gradients are zero velocities never grow; with a momentum at most 1/2 they are exactly zero after a number of steps that depends only on their size, with a momentum above 1/2 a non-zero velocity never becomes zero. A velocity that is infinite or NaN is never finite again until reset, which clears it. Momentum beyond 1 has no bound: bounded gradients make weights NaN.", "quantifier": "every momentum, rate, state, dense or sparse features and history of any length", "why_tests_cant": "A test runs one fixed training history; the claim ranges over histories of any length with any inputs and errors.", "anchors": ["src/optim/momentum.rs", "src/optim/nesterov.rs"]}
{"id": "C91", "title": "The documentation example in binary64", "statement": "The example of lib.rs:10-51 run in binary64, whatever order ndarray adds in, with fused multiply-adds or without, and however powi multiplies: with a slope and an intercept in [-1, 1], inputs in [-1, 1] and noises at most Z it never panics and learns two finite weights whose distance from the true line grows by at most 65/32 Z + 2^-46 per sample. Over the reals it is the program of C65. With everything fixed but the noise of the last sample, the noises for which the final assertion (on the computed rmse) holds lie within an interval of length 0.0021, so every run has a noise within one standard deviation for which the assertion fails. Inputs of 1 without noise bring the weights back to exactly zero every second sample.", "quantifier": "every platform, slope, intercept and sequence of samples (up to 2^40, or 2^20 for the assertion)", "why_tests_cant": "A test runs one fixed training history; the claim ranges over histories of any length with any inputs and errors.", "anchors": ["src/lib.rs"]}
{"id": "C92", "title": "Errors drawn from an iterator", "statement": "VectorLFA::update takes any iterator of errors: endless, one that returns items again after None, one that panics, or one the caller keeps (&mut it). An input that cannot be projected leaves the iterator untouched. Otherwise, for n outputs, next is called until it has given n + 1 errors or ended: the update is the one with the first n, the (n + 1)-th error is used up and lost, nothing after the first None is used, and if next panics the optimiser and the weights are as the update with the errors given so far leaves them. So over a kept iterator the k-th update gets n errors from position k (n + 1) on, and it.by_ref().take(n) loses none.", "quantifier": "every iterator, optimiser (user-supplied ones included), approximator, input and sequence of updates", "why_tests_cant": "A test runs one fixed training history; the claim ranges over histories of any length with any inputs and errors.", "anchors": ["src/lib.rs"]}
{"id": "C93", "title": "Accuracy of normalised features in binary64", "statement": "With n stored finite activations, u = 2^-53 and a norm that does not overflow: every L1-normalised activation is the exact one up to a relative 6nu and one underflow, and the magnitudes sum to 1 up to 6nu; every L2-normalised activation is exact up to 12nu and the squares sum to 1 up to 27nu, provided one activation is at least 2^-511; Linf and (on sparse features) L0 commit one rounding only. So SGD with a rate up to 3/2 meets the step-size condition of C51 and C77 on every L2-normalised vector. Linf-normalising twice is Linf-normalising once, bit for bit; for L1 and L2 that fails, and normalised magnitudes may sum to more or less than 1.", "quantifier": "every platform, feature vector and hash order", "why_tests_cant": "A test fixes a handful of vectors; the claim is over every dimension, every stored index set and every activation value.", "anchors": ["src/basis/normalisation.rs"]}
{"id": "C94", "title": "How far Adam and AdaMax move a weight", "statement": "Over the reals, with G(q,t) = 1 + q + ... + q^(t-1): the t-th step of a new Adam with beta1 in [0,1), beta2 in (0,1) moves no weight by more than lr sqrt(G(beta1^2/beta2, t) G(beta2, t+1)) / G(beta1, t+1), that of AdaMax by no more than lr G(beta1/beta2, t) / G(beta1, t+1), whatever the features and errors; for every t no smaller bound holds. So if beta1^2 < beta2 (AdaMax: beta1 < beta2) there is one bound for all steps, and otherwise steps can be of any size. With 0.9 and 0.999 a step can exceed the learning rate, in both; AdaMax without momentum never does, and the first step of AdaMax with momentum falls short of it by 1/(1+beta1).", "quantifier": "every history, weights, features, error, learning rate, beta1, beta2 and number of steps", "why_tests_cant": "A test runs one fixed training history; the claim ranges over histories of any length with any inputs and errors.", "anchors": ["src/optim/adam.rs", "src/optim/adamax.rs"]}
{"id": "C95", "title": "Training sees features only through their inner products", "statement": "Over the reals, with SGD, ISGD, SGDMomentum or NAG as constructed: two approximators over bases of any dimensions, with the same parameters, answer alike after every sequence of calls if the features of the inputs used have the same inner products and the same initial predictions, and with a positive learning rate only then. So rotating, reflecting or embedding features and weights changes no evaluation; the weights are the initial ones plus a combination of the features trained on; and features orthogonal to all of those keep their evaluation. For Adagrad, Adam and AdaMax all of this fails, at every positive rate.", "quantifier": "every basis, input set, weights, parameters and sequence of evaluate, update and update_with calls", "why_tests_cant": "A test runs one fixed training history; the claim ranges over histories of any length with any inputs and errors.", "anchors": ["src/lib.rs: ScalarLFA", "src/optim/sgd.rs", "src/optim/isgd.rs", "src/optim/momentum.rs", "src/optim/nesterov.rs", "src/optim/adagrad.rs", "src/optim/adam.rs", "src/optim/adamax.rs"]}
{"id": "C96", "title": "Following a target that moves", "statement": "Over the reals, each sample of a run explained by some weights that may change from sample to sample: with SGD at rates up to 2 over the squared feature norms, and ISGD at every positive rate, the final weights are no further from the last target weights than the initial distance plus the distance the target has moved, and the weighted sum of squared residuals is at most the square of that number, whatever the length of the run. On one input, each residual is the remaining share of the one before plus the change of the target; a target moving at most d a call is followed up to a multiple of d, and one moving steadily is missed by d over the share for ever.", "quantifier": "every basis, weights, sequence of samples and sequence of target weights", "why_tests_cant": "A test runs one fixed training history; the claim ranges over histories of any length with any inputs and errors.", "anchors": ["src/lib.rs: ScalarLFA::update_with", "src/optim/sgd.rs", "src/optim/isgd.rs"]}
{"id": "C97", "title": "An infinite or NaN weight is never repaired", "statement": "In binary64, with every optimiser and whatever is called, an infinite weight never becomes finite again and a NaN weight stays NaN. Every prediction that reads it is lost too, even through an activation of 0, in whatever order ndarray adds. One infinite or NaN error, target or weight loses every weight whose feature is stored with it, for ever, so on a dense basis every later prediction. Except with Adagrad, where it loses all weights even of sparse features, other weights do not depend on the error; but momentum, NAG, Adagrad, Adam and AdaMax pass a NaN error of one output of a vector approximator on to the others.", "quantifier": "every optimiser and state, basis, weights, platform and sequence of calls", "why_tests_cant": "A test runs one fixed training history; the claim ranges over histories of any length with any inputs and errors.", "anchors": ["src/lib.rs: ScalarLFA, VectorLFA", "src/features.rs: dot, scaled_addto", "src/optim/*.rs: step_scaled", "src/optim/adagrad.rs: step_scaled"]}
{"id": "C98", "title": "When the order of the samples matters", "statement": "SGD and ISGD updates on sparse features that share no index may be made in any order, bit for bit. Over the reals every order of updates by given errors leads to the same weights, and so does every order of fits to pairwise orthogonal samples; of two samples fitted by their residuals the order matters exactly if the rate is not 0, the features are not orthogonal and not in the proportion of the residuals. Momentum minds the order even of given errors, unless the two gradients agree; the accumulator of Adagrad does not depend on it but the weights do; in binary64 the order of given errors shows with SGD.", "quantifier": "every basis, rate, weights, set of samples and permutation of it", "why_tests_cant": "A test runs one fixed training history; the claim ranges over histories of any length with any inputs and errors.", "anchors": ["src/lib.rs: ScalarLFA::update, update_with", "src/features.rs: dot_sparse, scaled_addto", "src/optim/sgd.rs, isgd.rs, momentum.rs, adagrad.rs: step_scaled"]}
