# Formal model of carnotresearch/cr-sparse in Coq 8.16

## 1. Approach

* `/repo` is read as text; nothing in it is run.  The model is a shallow
  embedding: each Python function becomes a total Gallina function that mirrors
  it branch by branch.  Python `assert`/`raise`, and places where the code would
  put NaN or an infinity into its results, become `None` (or `Fail`).
  `lax.while_loop` becomes `while_ cond body fuel s`, whose result is
  `Done s | Fail | Fuel`; the theorems show how much fuel is enough, or quantify
  over every iterate with the inductive relation `reaches`.
* Arrays are lists (in BSBL: functions of the indices).  Scalars are exact:
  linear operators are modelled over a commutative ring with an involution
  (`star` = complex conjugate), instantiated with the reals and the complex
  numbers; everything that needs order, square roots or limits is modelled over
  the stdlib reals.  Where the value of a division by zero matters, `XReal.v`
  extends the reals with infinities and NaN.
* Layout of `rocq/theories`: for every area there is a `...Model.v` (definitions
  with citations of the modelled lines), a `...Spec.v` (the vocabulary of the
  statements), `...Proofs*.v`/`...Lemmas*.v` (lemmas) and a `...Props.v` (the
  property theorems `Cnn_*`, `Print Assumptions` after each, and `Example`s that
  show that the hypotheses can be met).
* Naming: `Cnn_..._partial` proves part of the claim (the comment says which);
  `Cnn_..._refuted` proves that the faithful model violates the claim, as an
  existential statement with a concrete witness.

## 2. Trusted base

* The Coq 8.16.1 kernel, and that the definitions in the `*Model.v` files match
  the cited Python lines (checked by reading only).
* Axioms: only those of Coq's standard library, listed per theorem in section 6:
  `ClassicalDedekindReals.sig_forall_dec`, `ClassicalDedekindReals.sig_not_dec`,
  `FunctionalExtensionality.functional_extensionality_dep` and
  `Classical_Prop.classic`, all of which come with the Reals.
* No axiom, `Parameter`, `Admitted`, functor, module type or plugin of our own.
* Contracts of external routines appear as premises of the theorems that need
  them, and the examples instantiate them: linear solves and inverses
  (`solver_ok`, `inv_ok`), least squares (`least_squares_solver`, with an
  existence proof), QR, orthogonal one-level wavelet transforms, optimal
  assignments (with an existence proof), line searches, projections.

### Not modelled anywhere
Overflow, infinities and NaN arithmetic (NaN results are modelled as failures), dtypes
(rounding is modelled only in FpModel and FpLinModel, for C81 to C83; everywhere else
arithmetic is exact), JAX tracing, `jit` and `vmap` (`vmap` is
`map`), device placement, the random generators (their draws are universally
quantified arguments), plotting, printing, trackers' side effects, file access.

## 3. Properties, models and proofs

| property | status | where | modelling and proof |
|---|---|---|---|
| C01 Elementary operators satisfy the adjoint identity | proved | LopProps.v | operators over a star ring as (times, trans, m, n, flags) records; adjoint identity by list induction / exchange of sums |
| C02 Operator algebra preserves adjoint pairs | proved | LopProps.v | combinators on operator records; adjoint identity by algebra on inner products, induction on p and on the block list |
| C03 Operator algebra has the documented pointwise meaning and rejects incompatible shapes | proved | LopProps.v | same records; shape checks as option |
| C04 Adjoint is an involution; gram and frame are self-adjoint and positive semidefinite | proved | LopProps.v | same records; PSD for the real and complex instance |
| C05 cumsum and diff operators are mutual inverses | proved | LopProps.v | prefix sums and differences on lists; induction |
| C06 First and second derivative operators are adjoint pairs | partial | LopProps.v, LopProps2.v | shifted-list models; forward/backward/second proved; centered: proved for dx=1, refuted for dx<>1 |
| C07 Total variation operators are adjoint pairs | partial | LopProps.v, LopProps2.v | list models for the three kinds; 2-D on lists of rows, refutation for tv2D as coded if it is not the adjoint |
| C08 Convolution and FIR operators compute the sliced convolution and have exact adjoints | partial | LopProps.v, LopProps2.v | full convolution as a double sum, slices; adjoint by exchanging sums; complex ND adjoint refuted |
| C09 Index selection operators are adjoint pairs | partial | LopProps.v | distinct indices proved, repeated indices refuted |
| C10 Windowed operator covers the signal, has the advertised shape and an exact adjoint | proved | LopProps.v | window sums on lists; cover arithmetic by lia; adjoint by induction on the number of blocks |
| C11 Fourier basis is unitary | proved | BasisProps2.v, FourierProps.v | DFT with explicit cos/sin roots of unity; geometric sums |
| C12 Hadamard matrices are orthogonal | proved | DictProps.v, FourierProps.v, WalshProps.v | Sylvester recursion on lists of lists; induction on log2 n |
| C13 Multi-level wavelet operator reconstructs perfectly | partial | Dwt2Props.v, FourierProps.v | recursion on levels over an abstract orthogonal one-level transform; Haar instance |
| C14 Dense representation of an operator agrees with the operator | proved | LopProps.v | columns T e_i, linear combination; any linear T |
| C15 Operator flags are truthful after composition | partial | LopProps.v, LopProps2.v | flags in the operator record; refuted with witnesses |
| C16 dot_test is a reliable adjoint check | partial | LopProps.v, LopProps2.v | the acceptance test as a function of the two inner products; refuted with a witness, positive part proved |
| C17 Norm estimate is a lower bound on the operator norm | partial | LopProps.v | Cauchy-Schwarz |
| C18 Projectors return the nearest point of their set | proved | OptProps.v | nearest point by variational inequality |
| C19 l1-ball projection returns the nearest point | proved | OptProps.v | sort/cumsum/argmax as list functions; KKT conditions of the threshold |
| C20 l2-ball projection with a centre returns the nearest point | partial | OptProps.v | refuted (factor (q-1e-7)/norm) |
| C21 Soft thresholding is the proximal operator of the scaled l1 norm | proved | DefaultProps.v, OptProps.v | scalar prox inequality lifted to lists |
| C22 Projections and proximal operators are non-expansive | partial | OptProps.v | from the variational inequality |
| C23 prox_l1 is defined everywhere | partial | OptProps.v | division by zero explicit as None; refuted at t q = 0 |
| C24 Sorted-l1 proximal loop terminates with the minimiser | partial | OptProps.v | iteration over Q: divergence witness for all fuel |
| C25 Moreau envelope value and gradient are those of the envelope | partial | OptProps.v | value of envelope refuted for mu<>1, proved for mu=1 |
| C26 Indicators and projectors describe the same set | partial | OptProps.v, OptProps2.v | sets as predicates |
| C27 Smooth functions report the true gradient | partial | LogdetProps.v, OptProps.v, SmoothProps.v | directional derivative with derivable_pt_lim |
| C28 Conjugate gradients reports the true residual and respects its limits | partial | SolverProps.v | loop invariant |
| C29 Conjugate gradients decreases the energy monotonically and produces orthogonal residuals | proved | SolverProps.v | invariant with conjugacy |
| C30 Preconditioned CG keeps the true residual | proved | DefaultProps.v, SolverProps.v | loop invariant |
| C31 Matching pursuit residual bookkeeping | proved | PursuitProps.v | loop invariant; energy identity; geometric decay |
| C32 Matching pursuit stops once the residual tolerance is met and reports the residual energy | partial | PursuitProps.v | refuted with witness |
| C33 OMP residual is orthogonal to the selected atoms and no atom is selected twice | partial | PursuitProps.v | Cholesky rows as list of (w, s); normal equations; loop invariant |
| C34 CoSaMP returns a consistent K-sparse solution | partial | PursuitProps.v | init step misaligned: refuted; body proved |
| C35 IHT, HTP and SP keep residual and support consistent | proved | PursuitProps.v | loop invariants, least squares as oracle |
| C36 largest_indices selects K largest magnitudes | proved | DictProps.v | stable argsort model |
| C37 ISTA reports the true residual and decreases the objective | proved | SlsProps.v | descent lemma and proximal inequality |
| C38 FISTA returns the residual of the returned solution | partial | SlsProps.v | t recurrence, estimate sequence; residual claim refuted |
| C39 LSQR's residual estimate is the true residual norm | proved | LsqrProps.v | Golub-Kahan and QR invariants on every iterate, Krylov optimality by induction |
| C40 Power iteration estimates are Rayleigh quotients | partial | SlsProps.v | Cauchy-Schwarz |
| C41 l1_ls duality gap certifies the solution | partial | L1lsProps.v | weak duality; barrier positivity; Newton system as a premise on the preconditioned CG result |
| C42 SPGL1 iterates stay in the l1 ball with truthful bookkeeping | partial | DefaultProps.v, SpglProps.v, TightProps.v | projection lemma of C19 and loop invariants; counters refuted |
| C43 YALL1 returns the residual of the returned solution and honours max_iters | partial | YallProps.v | loop invariants; Lyapunov function for the alternating directions |
| C44 Spectral projected gradient stays feasible | proved | SpgProps.v | convexity |
| C45 First-order method keeps feasibility and consistent cached products | partial | FomProps.v, OwlProps.v | convexity |
| C46 1-bit recovery bookkeeping | proved | OneBitProps.v, TightProps.v | loop invariants |
| C47 k-means assigns every point to a nearest centroid and reports its distortion | proved | ClusterProps.v | argmin model |
| C48 k-means iterations do not increase the distortion | partial | ClusterProps.v | mean minimises squares; mean-distance monotonicity refuted |
| C49 best_map relabels predictions optimally | partial | ClusterProps2.v | assignment oracle with optimality contract |
| C50 Label/size/index conversions are consistent | proved | ClusterProps2.v | list induction |
| C51 Sparse representation conversions round-trip | partial | ClusterProps2.v | list reshape model |
| C52 Coherence and Babel function have their defining values | proved | DictProps.v | finite max over indices |
| C53 minimum_coherence is a lower bound on coherence (Welch bound) | proved | DictProps.v | trace inequality |
| C54 Synthetic sparse data has the advertised support | proved | SynthProps.v | scatter of values at indices; random draws universally quantified |
| C55 BSBL uses the posterior second moment | partial | BsblProps.v, BsblProps2.v | Gaussian linear model over functional arrays: normal equations of the posterior, psd quadratic forms, AR(1) Toeplitz factorisation, loop invariants |
| C56 Thresholding conversions and functions | proved | OptProps.v | sqrt/power laws |
| C57 Phase transition configurations are admissible and complete | proved | PhaseProps.v | integer arithmetic model |
| C58 Elementary operators compute their documented map | proved | LopProps.v | pointwise equations of the list models |
| C59 Cosine basis is orthonormal | proved | FourierProps.v | finite cosine sums |
| C60 Circulant operator is circular convolution | proved | FourierProps.v | index arithmetic mod n |
| C61 FFT operator is an adjoint pair | partial | FourierProps.v | DFT sums with zero padding and slicing |
| C62 matching_atoms_ratio counts the atoms of A that have a match in B | proved | DictProps.v | counting over columns |
| C63 OMP recovers every sparse signal from an incoherent dictionary | proved | PursuitProps.v | exact recovery condition, induction over the selected support |
| C64 IHT and HTP decrease the residual for small steps and recover sparse signals under restricted isometry | partial | PursuitProps.v | restricted isometry inequality, contraction per iteration |
| C65 SSC-OMP writes every point in terms of the other points | partial | ClusterProps2.v | OMP invariants applied to each column |
| C66 Graph Laplacians have the spectral properties clustering relies on | proved | ClusterProps2.v | quadratic forms over edges |
| C67 The smoothed dual is the dual function with its gradient | partial | FomProps.v, ScdProps.v | conjugate function and strong concavity |
| C68 FOCUSS keeps the measurements and descends its sparsity measure | partial | FocussProps.v | FOCUSS iteration with an exact solver as argument; Lagrange/convexity arguments for the weighted minimum, concavity for the descent; rank argument (LinAlg) for definedness |
| C69 Random subspaces have the promised dimension, angles and points | partial | SubspProps.v | subspace generators with draws and factorisations as arguments; Gram matrices computed exactly; existence of the factorisations by Gram-Schmidt |
| C70 Lanczos bidiagonalisation returns orthonormal vectors and a true bidiagonal form | partial | LanProps.v | Golub-Kahan recurrence with all reorthogonalisation decisions as arguments; invariant by induction over the iterations; Ritz relations and rank bound from it |
| C71 Recovery performance reports what was recovered | partial | AnalyzeProps.v, PerfProps.v | the constructor as a record of index lists and vectors; selection lemmas of C04 for R0 and T1, indicator sums for the energy split, monotonicity of ln for the 30 dB test |
| C72 Recovery trials count every trial once | partial | PerfProps.v | the loops as list functions over arbitrary key splitting and trial functions; induction over the sparsity levels |
| C73 Spectral clustering labels the connected components | partial | BasisProps2.v, DefaultProps.v, SpectralProps.v | SVD factors and initial picks as arguments; the orthogonal projection onto the vectors constant on components computed in two ways (entries and trace), k-means on coinciding points from the existing k-means invariants; refutations by explicit 4-vertex graphs |
| C74 Generated test problems are consistent | partial | ProblemProps.v | generators as functions of their draws over the existing operator models; consistency from the reconstruction and adjoint theorems of the Fourier, cosine, wavelet and Heaviside operators; sparsity by support of scattered vectors; piecewise cubic by induction over the pieces |
| C75 Image kernels and the Ricker wavelet have the promised shape | partial | VisionProps.v | kernels as tables and correlation sums; exp and its derivative; refutation of the width by a 1 x 3 kernel |
| C76 Progress trackers record every call | partial | TrackerProps.v | tracker as a record of lists; induction on the list of calls; logarithms |
| C77 Angles and nearest neighbours of clustered points | partial | NeighbourProps.v | Angles by acos of the cosine (Cauchy-Schwarz gives the range); blocks of the concatenated results by induction over the cluster sizes; argmin and stable argsort specifications. |
| C78 Random sensing matrices have the promised columns, rows and shapes | partial | SensingProps.v | model the matrices as functions of draws and QR factors; orthonormality, uniqueness of QR with positive diagonal (triangular solve for independence), square orthonormal columns give rows |
| C79 Frame bounds and Grassmannian frames | partial | FrameProps.v | energy of the analysis coefficients in the basis of left singular vectors, Bessel and Parseval; Gram matrices: a singular value decomposition of a positive semidefinite matrix is an eigendecomposition, rank by counting orthonormal vectors; refutation by two atoms on a line, for every valid decomposition |
| C80 Operators on arrays with any number of dimensions | partial | NdProps.v | an array is a function of its index list with a shape; sums over index ranges by induction on the shape; adjoint along an axis by moving that sum inside; reshape by the bijection between positions and indices; convolution adjoint by induction on the number of dimensions with one shift of summation per axis; refutations on 2 x 2 arrays |
| C81 Thresholding and projections in floating point | partial | FpProps.v | the rounding function of Flocq; the two terms of the expression are never both nonzero, so one rounding remains; monotonicity of rounding and the absence of underflow in subtraction; square root of a rounded square; refutations by evaluating roundings in float32 |
| C82 Sums, inner products, norms and operators in floating point | partial | FpProps.v | a reduction is a relation: any tree of rounded additions and fused multiply-adds over any permutation; error bounds by induction on the tree; the adjoint identity by composing two levels of bounds and exchanging sums; refutations in float32 |
| C83 The residual kept by the solvers in floating point | proved | FpProps.v | a run is a list of iterations, each related to the previous state by rounded or fused updates; the drift of one iteration is bounded by its rounding errors; induction on the run; a product with a unit vector is exact in every order |
| C84 Recovery by CoSaMP and subspace pursuit | partial | PursuitProps2.v | the atoms with the largest correlations capture the missed part of the signal up to the isometry constant; least squares on the merged support does not increase the error on it by more; pruning at most doubles it; contraction per iteration and induction on the run; for the exact case the support is found once the bound is below the smallest entry; refutations by computing all reachable states of two runs with a minimum norm solver |
| C85 Power iterations and the norm estimate converge | proved | PowerProps.v | split a vector into its component along the eigenvector and the rest; one application shrinks the squared tangent of the angle by (mu/lam)^2; the Rayleigh quotient of a unit vector differs from lam by at most (|lam|+mu) tan^2; induction over the loop; for normest apply this to A^T A |
| C86 The l1 solvers recover sparse vectors from incoherent measurements | proved | L1RecProps.v | bound each entry of the error h by the correlation of its column with A h plus mu times the rest, sum over the support, and use that an l1 norm not larger than that of x puts at least half of h on the support; for penalised problems bound |A h|^2 below by the coherence and above by the optimality gap; combine with the rates and certificates of C37, C38, C41, C42, C43, C45 |
| C87 The iterates of the convex solvers converge to a solution | proved | ConvProps.v | a Bolzano-Weierstrass lemma for vectors built on the standard library reals; existence by a minimising sequence in a ball; the ISTA step and the YALL1 double step do not increase the distance to any minimiser or certificate, successive changes are summable, so a cluster point is a fixed point and the whole sequence converges to it (Fejer monotonicity); accelerated methods by the rates of C38 and C45 and compactness; certificates of YALL1 from penalised problems with growing weight |
| C88 CG, PCG and LSQR converge at the rate given by the condition number | proved | CondProps.v | the spectral theorem by maximising the quadratic form on successive complements (compactness from C87); the iterates are optimal over Krylov spaces (C29, C30, C39); scaled Chebyshev polynomials of the operator give a comparison vector whose coordinates in the eigenbasis shrink by the factor; square roots of operators move between norms |
| C89 Power iterations and the norm estimate converge on every positive semidefinite operator | proved | PowerProps2.v | with the eigenbasis of C88, the projection on the eigenvectors below the value and on one vector of its eigenspace commutes with the operator and fixes the start, so the run on the operator and on the projected operator are the same run, and the latter has a gap (C85) |
| C90 Matching pursuit converges on every dictionary and OMP recovers sparse signals from noisy measurements | proved | PursuitProps3.v | the smallest nonzero eigenvalue of the frame operator (C88) bounds the energy some atom captures of every vector in the span; the residual splits into the component orthogonal to all atoms and one in the span, which decays; the coefficients move by at most the latter, so they form a Cauchy sequence; for OMP the coherence estimate of C63 with the correlation of the noise added |
| C91 The spectral projected gradient method reaches the minimum of a smooth convex function over a convex set | proved | SpgProps2.v | each step undercuts the largest remembered value in proportion to the decrease of the linear model, by the halving line search; a small decrease of the model means a small distance of the value to the minimum, by the variational inequality of the projection; a lemma about memories of M values turns this into convergence of the values |
| C92 k-means never cycles and reaches a locally optimal clustering | proved | KMeansProps2.v | the excess cost of other centroids over the means is the sum of their squared distances, so an equal cost keeps the centroids of nonempty clusters; replacing rows by the origin is a partial order, hence a repeated set of centroids is a fixed point; assignments are finitely many |
| C93 The l1-constrained least squares solver of SPGL1 converges and stops | partial | SpglProps2.v | along the projection arc the step length grows and its ratio to the step size falls, so after at most ten halvings and rescalings the step has at least a fixed power of the full length; the accepted step undercuts the largest remembered misfit by gamma times its square; the length of the full step bounds the duality gap, attained at a vertex of the ball; existence by compactness |
| C94 ISTA and FISTA on complex data | proved | CxProps.v | C^n is viewed as R^2n: each complex run is, state by state, a run of the real model on the real form of the operator, and adjoints, unitary bases, proximal maps, convexity and norms carry over; the real rates and convergence theorems are transported back. The proximal map of the modulus is computed directly |
| C95 Conjugate gradients on complex data | partial | CxCgProps.v | the run on C^n is a run of the real model on R^2n when the initial residual is real; for the bound n instead of 2n the directions p and i p are all conjugate, because <u, A v> is real on the real span of the Krylov vectors. Counterexamples are computed |
| C96 SPGL1 for l1-constrained least squares on complex data | partial | CxRealProps.v, CxSpglProps.v | the real proof of C93 is repeated for any norm with a dual norm and a projection satisfying the variational inequality, on R^2n; the sum of the moduli, the largest modulus and the phase-preserving shrinkage are shown to be such. The complex line search and solver are simulated state by state. |gap|^2 <= 2 tau |g| Re gap, by Hoelder's inequality for the complex product, so the modulus vanishes with the real part. Types of the loop variable are computed |
| C97 Greedy sparse recovery on complex data | partial | CxPursuitProps.v | the loops are modelled over complex vectors with abs as modulus, vdot conjugating and r.T @ r not; consistency is an invariant of init and body that survives the rescaling by the norm of y; best approximation gives orthogonality by a first order argument along a and i a; an exact complex least squares solver is obtained from the real one on R^2n. Counterexamples are computed |
| C98 LSQR, power iterations and the norm estimate on complex data | partial | CxLsProps.v | simulation: a run on C^n is a run of the real model on R^2n for the realified operator, with the invariant that the complex typed D_norm_sqr, A_cond and estimates have imaginary part zero. That transfers C39, C88 and C89. Orthogonality in C^n and the bound min(m, n): all bidiagonalisation vectors are real polynomials in A^H A (A A^H) applied to one vector, whose inner products are real; 2K real orthogonal vectors v_i, i v_i give K <= n. The complex Krylov space splits into real and imaginary combinations with vanishing cross terms |
| C99 The spread operator adds every sample where its table says | partial | SpreadProps.v | the scatter-add is a fold over the table; by induction the entry (r, t) of the result is the sum over all samples and table entries that name column t. NaN entries contribute zero wherever the platform converts them to |
| C100 SPGL1 denoising on complex data reports figures that bound the optimal l1 norm | partial |  | complex vectors are real vectors of twice the length; the solver is the solver with an abstract norm, dual norm, projection and gap on these (GBpProofs.v), whose invariants are proved once. Hoelder and Cauchy-Schwarz give the bound; the modulus of the gap is at least its real part. Agreement with the real solver is a simulation that needs a nonnegative radius |
| C101 The sparsity and overlap printed by analyze_solution are what they claim | partial |  | the count is the first cumulative sum of the sorted squares that reaches the threshold; an exchange argument shows that no set of the same size holds more energy, so it is minimal; the ratio is a count of an intersection of duplicate-free lists |
| C102 YALL1, the interior point solver and FOCUSS accept complex data | partial |  | the types of all fields of the loop states, initially and after the body, as functions of the types of the arguments; a loop is accepted when they agree. The cases are distinguished in the kernel |
| C103 First order solvers on complex data | partial |  | the complex run is the image of a run of the real driver (C45) on vectors of twice the length, with the smooth function and the proximal operator carried over; complex soft thresholding is shown to be the proximal point of the sum of the moduli. Real data: state by state simulation. Types as in C102 |
| C104 Projections, proximal points and thresholding of complex vectors | partial |  | the variational inequality of the projection over C^n, carried over from R^2n (C18) for the balls, entrywise for the box and the upper limit, from the adjoint identity for affine sets; entrywise minimisation for the thresholding functions, using that |w - z| >= | |w| - |z| |. Real data: entrywise equality |
| C105 Greedy pursuits for matrices on complex data | partial |  | matrices as lists of columns, Phi.T @ r and r.T @ r without conjugation, the comparison of complex numbers by real part first. Invariant of the SP loop as in C97; induction over the unrolled OMP loop, with the invariant that the factor times its transpose is the Gram matrix of the selected columns; counterexamples in C^1 and C^2 computed for every limit of iterations and tolerance; types of the loop variables by cases |

## 4. Defects found

Each item is a theorem about the faithful model (`_refuted`, or a positive
theorem describing the actual behaviour), or, where marked (read), an
observation that needs no model.

* Operators: the `linear` flag is not propagated, `compose` drops
  `jit_safe`/`matrix_safe`, `scalar_mult` by a complex number claims to be real
  and so gets a wrong transpose, `block_diag` drops the real flag and `windowed_op` the
  `jit_safe`/`matrix_safe` flags (C15);
  `restriction`/`partial_op` with repeated indices are not adjoint pairs (C09);
  the centred derivative ignores `dx`, `second_derivative` needs n >= 3 (C06);
  `tv2D` is not an adjoint pair (C07); `convolve2D` does not conjugate its
  filter, `fir_filter` fails for filters longer than the signal (C08); the DWT
  with level 0 is inconsistent, `dwt2D` with axes (1, 0) pads and crops the
  wrong axes of images that are not square (C13); `dot_test` accepts wrong adjoints when
  the inner products have opposite signs (C16); `normest` fails for the zero
  operator and for `max_iters = 0` (C17); the real-to-complex FFT is not an
  adjoint pair over C (C61).
  (read) `apply_columns` refers to an undefined name, `random.binary_dict_alg`
  swaps its shape, `spread.py`'s transpose returns nothing, `windowed_op` casts
  complex data to real.
* Projections, proximal operators, smooth functions: the l2 ball with a centre
  shrinks by 1e-7 (C20, C22); `prox_l1` is NaN when t*q = 0 (C23); the sorted-l1
  proximal loop need not terminate in exact arithmetic (C24); the Moreau envelope
  uses 1/2 for 1/(2 mu) (C25); indicator and projector of affine sets disagree by
  a tolerance (C26); `smooth_quad_matrix` reports a wrong gradient for
  non-symmetric P (C27).
  (read) `proximal.prox_l1` has no return statement, `proj_box_affine` is
  incomplete, `proj_l2_ball` with a matrix is not implemented.
* Solvers: CG divides by zero for indefinite systems (C28); MP never updates its
  residual norm, so its tolerance is ignored (C32); OMP has no result for K = 1
  or when the signal needs fewer than K atoms (C33); CoSaMP starts with
  coefficients in the wrong order and may repeat indices (C34); subspace pursuit
  may repeat indices (C35); IHT/HTP's default step uses the norm, not its square
  (C64); FISTA returns the residual of another point (C38); power iteration
  returns 1e20 for `max_iters = 0` and fails for the zero operator (C40); `l1ls`
  accepts a warm start with a negative dual value at once (C41); SPGL1 counts
  transposes wrongly, does not re-project a warm start and keeps stale norms
  (C42); YALL1 exceeds an odd iteration limit by one, keeps a stale residual for
  non-negative problems and rescales a given start (C43); SPG's quadratic
  interpolation is never used, a zero budget still makes one step and a capped
  search may accept an increase (C44); the first-order driver never refreshes the
  objective, and `owl1rls` never returns for an identity operator with weights
  7, 5, 3, 1 and b = (7, 7, 4, 4) because its proximal step loops for ever (C45); the smoothed conic dual is concave but minimised, with 1/mu
  and mu interchanged, so `bp_scd` and `dantzig_scd` run away from the feasible
  set; `scd` is given A where it needs the adjoint, so the documented sizes only
  fit for square A (C67); `rfp` moves against its descent direction and its
  growing lambda has no effect (C46).
* Lanczos: the residual norm of `lansvd_simple` is 1 or NaN after a breakdown,
  `A^T p0 = 0` is not caught, more vectors than the rank give NaN (C70).
  `reorth_p` orthogonalises against `indices`, not the computed `reorth_indices`,
  and its new mu is stored in nu.  (read)
* `RecoveryPerformance`: `T1` may contain support positions when fewer than K
  entries off the support are wrong, so their error is counted twice; the zero
  signal raises ZeroDivisionError (C71).  `'x' in sol` tests the values of a
  named tuple, not its field names.  (read)
* `RecoveryTrialsAtFixed_M_N` splits the signal keys into `num_dict_trials`
  pieces; further signals repeat the last one (indices are clamped), so one
  dictionary gives a success rate of 0 or 1.  A single trial divides by
  `trials - 1 = 0` (C72).
* Spectral clustering: the automatic variants never report one cluster (nor n):
  the last singular value is left out of the search for the gap, so the complete
  graph on four vertices is split into three; two vertices raise.  The fast
  variant takes singular for eigen-vectors: for bipartite components it may
  separate neighbours and join disconnected vertices (C73).
* BSBL: the second moment uses an inner product for the outer product, the high
  SNR rule can give a negative noise variance and NaN after pruning, a zero block
  of the dictionary gives NaN in BSBL-BO, `learn_block_corr` is ignored (C55).
* FOCUSS gives NaN once an iterate has fewer nonzeros than measurements, for
  y = 0 and for the identity with a zero measurement; its parameter p is not the
  type of the norm it decreases (C68).
* Clustering, dictionaries, data: coherence of complex dictionaries drops the
  imaginary parts (C52); the reported k-means distortion can increase (C48);
  `best_map` fails for unequal label counts (C49); repeated indices and the
  sparse statistics of subspace representations are wrong (C51); SSC-OMP may
  select the point itself and the batch variant solves for the normalised point
  (C65); synthetic blocks are not of unit norm by default (C54);
  `two_subspaces_at_angle` drops columns for N < 2D, `three_subspaces_at_angle`
  gives NaN for 0 and above 120 degrees (C69).

* `kernel_gaussian` has standard deviation sigma/2 (C75).  A tracker gives an
  exact recovery a smaller SNR than a recovery with a tiny error, and a state
  without residual raises while printing (C76).

* Nearest neighbours: a point alone in its cluster is its own neighbour at 10000
  degrees, an empty cluster raises, a repeated point appears in its own list of
  sorted neighbours (its earlier copy is dropped), `inn_positions` gives 0 when no
  neighbour shares the label (C77).  The repository's own test passes neighbour
  indices where `inn_positions` expects their labels.
* Random sensing matrices: asked for more rows than columns, random_orthonormal_rows
  silently returns an N x N matrix (C78).  When the drawn Gaussian matrix is singular,
  random_onb returns a matrix with a zero column, because sign(0) is 0 (C78).  The
  algorithmic sparse binary operator advertises the transposed shape (C78).
* `lower_frame_bound` is not a bound when there are fewer atoms than dimensions.
  `build_grassmannian_frame` repairs the unit diagonal of the Gram matrix by scaling
  the columns twice instead of rows and columns; the matrix stops being symmetric and
  the atoms of the result need not have norm one.  A zero atom gives NaN (C79).
* `matrix` and `restriction` treat axis -2 (and any axis but 0) of a 2-D array as axis
  1; for `restriction` times and trans then disagree.  `dot(v, axis=...)` asserts that
  its input has the shape of v before it looks at the axis, so the axis is never used.
  `reshape(order='A')` is accepted and fails when applied.  `convolveND` does not
  conjugate a complex filter in the adjoint, reshapes instead of transposing a filter
  given with axes out of order, and moves only the slices, not the filter, when a
  full-dimensional filter is given with permuted axes.  `fft(..., axis=k).trans` cuts
  axis 0 to m entries whatever the axis (C80).
* In float32 `shrink` can increase the distance of two numbers (threshold 3/8, entries
  2^23 + 1 and 2^23), `project_to_box` with radius 3 maps 21 to a number above 3, and
  `hard_threshold_percentile` keeps entries below the percentile when its square
  underflows (C81).
* In float32 `dot_test_real` rejects correct operators when the inner product is small
  against its terms: its tolerance is relative to the inner product.  The matrix
  [[1, 1]] with u = (1 + 2^-12, -1) and v = 1 + 2^-12 is rejected.  `norm` is zero for
  vectors with entries below 2^-75, and `inv_heaviside` does not undo `cumsum` (C82).
* The residual `mp` and `cg` test against their tolerance is not y - A x: it drifts by
  the accumulated rounding errors, starting with the first iteration (C83).
* `cosamp` and `sp` merge the support with the atoms of largest correlation without
  removing duplicates.  When fewer than 2K (K) other atoms correlate with the residual,
  ties at zero select atoms of the support again, least squares shares a coefficient
  between the copies, and pruning keeps both.  With six orthonormal atoms, K = 2 and
  signal (0,0,0,0,1,2), CoSaMP alternates between two wrong supports for ever; with four
  atoms of isometry constant 0.11 subspace pursuit never finds (0,0,1/20,1) (C84).
* The stopping test of `power_iterations` and `normest` compares successive estimates,
  which hardly change while the start's component along the leading vector is small:
  diag(2, 1) with start (1/10000, 1) reports 1.00000004 with the default tolerance (C85).
* `curvy_line_search` of SPGL1 returns its last candidate after ten halvings even when it
  fails the test, and the solvers do not notice (the original SPGL1 falls back to a line
  search along a feasible direction).  With the default options, the identity, zero data
  and start 10^-6 the first step makes the misfit 9000 times larger (C93).

* `pcg.solve_from` starts `gamma` with `jnp.dot(r0, z0)`, which does not conjugate, while the
  loop uses `vdot`.  For the identity and b = (i) gamma starts at -1, the loop is never
  entered and the start is returned as the result; for b = (2 + i) one unknown takes more
  than one iteration.  `cg.solve_from` uses `.T @` everywhere, with the same effect (C95).

* `spgl1.solve_lasso` starts from `jnp.zeros(n)`, which is real; for a complex operator or
  complex data the body of `lax.while_loop` returns a complex x and the loop is rejected.
  `solve_bp` chooses a complex start when it needs one; `solve_bpic` fails only for a
  complex operator with real data (C96).

* The operator version of OMP computes `r.T @ r` and `w.T @ w` without conjugation. With
  the identity on C^4 and y = (5, 4, 2, 2i) it stops after two of four atoms and reports a
  residual of zero whose energy is 8; with two independent atoms of C^2 the residual after
  choosing both is not zero (C97).
* The operator version of MP stores the solution in a real array, so imaginary parts of
  coefficients are dropped while the residual keeps them; for y = (i) it does not iterate,
  because y.T @ y is negative. IHT and HTP start `x_I_prev` as a real array and are
  rejected by `lax.while_loop` on complex data. CoSaMP and SP are rejected when the
  `real` flag of the operator disagrees with the data, e.g. a real operator with complex y (C97).

* LSQR with a complex operator, real measurements and the default start is rejected: x is
  initialised with the common type of b and x0, and its type changes in the loop body. The
  same holds for power iterations with a real start (C98).

* The spread operator adds each sample to all output rows instead of the row of its table
  entry, because the vector of values is broadcast over the rows; it accepts the entry
  nt_out, whose sample is lost, although the error message excludes it; its trans is empty
  and returns None; and it needs np.int, which numpy 1.24 removed (C99).

* `analyze_solution` credits the zero reconstruction with one dominating
  position, so its overlap ratio can be 1, and it gives every nonzero multiple
  of the original the ratio 1 (C101).
* `RecoveryPerformance(..., sol=sol)` raises for every result with a field `x`
  and no field `I`, because `'x' in sol` compares values (C71_full_result_refuted).
* The loop states of `yall1`, `l1ls` and `focuss` start with real arrays
  (`jnp.zeros`, `jnp.ones`) and become complex on complex data, so
  `lax.while_loop` rejects complex data (C102).
- `opt/projectors/lpballs.py`: `proj_l1_ball` shrinks with
  `jnp.maximum(0, y - kappa) + jnp.minimum(0, y + kappa)`; on complex input
  these compare real parts only (imaginary parts decide ties), so the
  result may lie outside the ball.  `fom.lasso` therefore returns
  infeasible points for complex data (C103).
- `fom/fom.py`: complex data with a real starting point (e.g. zeros) are
  rejected by `lax.while_loop`: y is real after the first step and complex
  after the second (C103).
- `opt/projectors/basic.py`: `proj_affine` factors `A.T` and returns
  `x + A.T @ w`, without conjugation.  For A = (1 i) the point returned
  satisfies A P(x) = A x for every x and b, so it never solves A x = b
  unless x did (C104).
- `opt/projectors/basic.py`: `proj_box` with real bounds keeps the imaginary
  parts of complex points (C104).
- `opt/shrinkage.py`: `shrink` compares complex numbers with 0 by their real
  parts: 5i with kappa 1 becomes 0, 4 + 3i becomes 3 + 3i (C104).
- `pursuit/{sp,omp,mp}.py`: `matrix_solve` correlates with `Phi.T` and measures
  residuals with `r.T @ r`, both without conjugation.  On complex data SP returns
  a column other than the one the signal is equal to and reports residual energy
  -16/25; OMP returns -1 for a coefficient 1 in an orthonormal basis; the residual
  of MP doubles in every iteration (C105).
- `pursuit/{cosamp,iht,htp}.py`: `matrix_solve` starts the loop with a real
  `x_I_prev`, so `lax.while_loop` rejects complex data (C105).
- `dict/simple.py`: `dirac_hadamard_cosine_basis(2)` contains the same atom twice,
  so its coherence is 1 (C12).

## 5. What is modelled and what is not

| source (under src/cr/sparse/_src) | model | not modelled |
|---|---|---|
| lop/{identity,basic,impl,lop,util,props,dot,block_diag,calculus,tv,conv,filters,reshape,onb,fft,dwt,windowed_op,special_matrices,normest,random,spread} | LopModel, LopModel2D, LopModel3, BasisModel, FourierModel, SlsModel, Dwt2Model, SensingModel, NdModel, SpreadModel | curvelets, the external fast transforms (the defining sums are modelled instead), the distributions of random draws |
| opt/{projections,projectors,indicators,proximal,proximal_ops,shrinkage,smooth,prox_to_smooth,cg,pcg,spg} | OptModel, SortedL1Model, CGModel, CxCgModel (complex cg, pcg), CxProjModel (complex data), SpgModel, LogdetModel (cholesky and inv are arguments) | — |
| sls/{power,ista,fista,lsqr,defs,svdpack} | SlsModel, CxModel (complex ista, fista), LsqrModel, CxLsModel (complex lsqr, power), LanModel | the recurrences mu, nu, anorm of lanbpro, the small SVD and error bounds of lansvd |
| pursuit/{mp,omp,cosamp,sp,iht,htp,util,defs,phasetransition} | PursuitModel, SelModel, PhaseModel, CxPursuitModel (complex data, operator versions), CxMatPursuitModel (complex data, matrix versions) | — |
| cvx/{l1ls,spgl1,focuss,adm/yall1} | L1lsModel, SpglModel, CxSpglModel (complex lasso), CxBpModel (complex denoising), FocussModel, YallModel, CxTypesModel (element types) | complex data except SPGL1 (rejected by the loops, C102); the numerical PCG inside l1ls is modelled by CGModel |
| fom/{fom,defs,lasso,l1rls,owl1rls,scd,bp_scd,dantzig_scd} | FomModel, OwlModel, ScdModel, CxFomModel (complex data) | focs_at (broken) |
| cs/cs1bit/{biht,rfp} | OneBitModel | |
| block/bsbl | BsblModel | |
| rounding in opt/{shrinkage,projections,cg}, geo/thresholding, lop/{basic,util}, pursuit/mp | FpModel, FpLinModel | complex entries, overflow, the other functions |
| dict/{props,simple,comparison,grass} | DictModel, BasisModel, SensingModel, FrameModel | the SVD routine (an argument) |
| cluster/{kmeans,util,spectral,ssc} | KMeansModel, ClusterModel, SscModel, SpectralModel, NeighbourModel | the decompositions themselves (arguments) |
| data/synthetic/{random,subspaces} | SynthModel, SubspModel | |
| geo/{thresholding,wavelets} | OptModel, VisionModel, CxProjModel (complex data) | |
| vision/kernels, tracker | VisionModel, TrackerModel | plots, timing |
| tools/{performance,trials_at_fixed_m_n} | PerfModel, AnalyzeModel (solver results) | dynamic ranges, printing, timing, CSV |
| problems/prob001 to prob011, problems.py | ProblemModel, AnalyzeModel (analyze_solution) | prob401 (audio files), plots, signal to noise ratios |
| plots, dictlearn | | all |

## 6. Print Assumptions

Every theorem below is followed by `Print Assumptions` in its file.  The output,
grouped by the axioms it lists:

* closed under the global context (no axiom): C102_focuss, C102_l1ls, C102_l1ls_complex_refuted, C102_l1ls_default, C102_pcg, C102_yall1, C102_yall1_complex_refuted, C102_yall1_default, C103_real_start_refuted, C103_types, C105_accepts, C105_accepts_refuted, C49_best_map_k, C49_best_map_partial, C49_more_true_labels_refuted, C50_block_lens_sum, C50_block_lens_uniform, C50_labels_by_block, C50_sizes_of_labels, C50_sizes_sum, C50_start_end, C50_uniform_blocks, C51_roundtrip, C54_index_sets, C57_admissible, C57_complete, C57_distinct, C57_grid, C57_rejects, C57_sparsities, C71_full_result_refuted, C72_signals_refuted, C72_trials, C77_positions, C77_positions_absent_refuted, C96_bp_start, C96_types, C96_zero_start_refuted, C97_accepts, C97_iht_refuted, C98_lsqr_accepts, C98_lsqr_real_data_refuted, C98_power_accepts.
* `classic`: C49_assignment_exists.
* `sig_forall_dec`: C01_diagonal, C01_flipud, C01_identity, C01_matrix, C01_pad_zeros, C01_real_matrix, C01_scalar_mult, C01_sum, C01_symmetrize, C01_zero, C02_add, C02_adjoint, C02_block_diag, C02_compose, C02_frame, C02_gram, C02_hcat, C02_neg, C02_partial_op, C02_power, C02_scale, C02_sub, C02_transpose, C03_add, C03_block_diag, C03_column, C03_compose, C03_hcat, C03_neg, C03_partial_op, C03_power_succ, C03_power_zero, C03_rejections, C03_scale, C03_sub, C04_adjoint_involution, C04_frame_energy, C04_gram_energy, C06_second, C07_tv, C07_tv_entries, C08_convolve2D_adjoint_partial, C08_convolve2D_entries, C08_convolve_adjoint, C08_convolve_entries, C08_convolve_rejects, C08_fir_filter_adjoint, C08_fir_filter_entries, C08_fir_filter_long, C08_running_average_entries, C09_restriction_entries, C09_restriction_partial, C10_windowed, C10_windowed_rejects, C12_hadamard_accepts, C13_dwt2D_accepts, C13_dwt2D_basis, C13_dwt2D_level_one, C13_dwt2D_levels, C13_wavedec_waverec, C14_rejects_nonlinear, C14_to_adjoint_matrix, C14_to_matrix, C15_adjoint_pair_linear, C15_flags_binary_partial, C15_flags_unary_partial, C15_linear_flag_checked, C15_transpose_partial, C54_normal, C54_too_many, C58_cumsum, C58_diagonal, C58_flipud, C58_identity, C58_matrix, C58_pad_zeros, C58_scalar_mult, C58_sum, C58_symmetrize, C58_zero, C79_bounds_defined, C80_along_axis, C80_along_axis_rejects, C80_arr2vec, C80_convolve_2d, C80_convolve_adjoint_partial, C80_convolve_entries, C80_dot_axis_refuted, C80_matrix_2d_axis, C80_matrix_partial, C80_reshape_A_refuted, C80_reshape_adjoint, C80_reshape_defined, C80_reshape_inverse, C80_reshape_order, C80_restriction_partial, C99_accepts, C99_adjoint_refuted, C99_numpy_refuted, C99_rows_equal.
* `sig_forall_dec`, `functional_extensionality_dep`: C01_dot_complex, C01_dot_real, C04_psd_complex, C04_psd_real, C06_backward, C06_centered_partial, C06_centered_refuted, C06_first_entries, C06_forward, C06_second_entries, C06_second_short_refuted, C07_tv2D_entries, C07_tv2D_refuted, C07_tv2D_trans_entries, C08_convolve2D_complex_refuted, C08_fir_filter_long_refuted, C08_running_average_adjoint, C09_partial_op_repeated_refuted, C09_repeated_refuted, C101_ratio, C101_sparsity, C101_zero_refuted, C104_box_partial, C104_shrink_partial, C12_hadamard, C13_dwt2D, C13_dwt2D_swapped, C13_dwt_adjoint, C13_dwt_basis, C13_dwt_reconstruction, C13_dwt_synthesis, C13_wavelet_basis, C15_block_diag_real_refuted, C15_compose_jit_safe_refuted, C15_compose_matrix_safe_refuted, C15_linear_flag_refuted, C15_real_part_flag, C15_transpose_refuted, C15_windowed_flags_refuted, C16_dot_test_accepts, C16_dot_test_complex_accepts, C16_dot_test_complex_sound_partial, C16_dot_test_refuted, C16_dot_test_sound_partial, C18_box_rejects, C21_default_threshold, C21_prox_l1, C21_prox_l1_pos, C21_shrink, C21_soft_threshold, C23_prox_l1_partial, C23_prox_l1_refuted, C23_proximal_prox_l1_refuted, C24_owl1_convex, C24_prox_owl1_order_partial, C24_prox_owl1_partial, C24_prox_owl1_terminates_refuted, C25_grad_val, C25_gradient_of_value_refuted, C25_value_refuted, C26_affine_l1_ball, C26_box_accepts, C27_constant, C27_grad_val, C27_huber, C27_linear, C27_quad_error, C27_quad_matrix_partial, C27_quad_matrix_refuted, C27_translate, C27_values, C28_ends, C28_every_iterate, C28_exit, C28_indefinite_refuted, C28_solve_exit, C29_energy_decreases, C29_krylov_optimal, C29_orthogonal, C29_solves_in_n_steps, C30_default_start, C30_ends, C30_exit, C30_krylov_optimal, C30_orthogonal, C30_solves_in_n_steps, C31_decay, C31_energy, C31_every_iterate, C31_matrix_dictionary, C31_operator_dictionary, C31_terminates, C32_stops_and_reports_refuted, C32_tolerance_ignored, C34_aligned_refuted, C34_distinct, C34_matrix_partial, C34_matrix_terminates, C34_sorted_refuted, C35_htp, C35_iht, C35_sp_distinct, C35_sp_distinct_refuted, C35_sp_matrix, C36_abs_max_idx, C36_best_k_term, C36_selects_largest, C37_soft_threshold, C41_feasibility_ends, C41_preconditioner, C44_halving, C44_zero_budget_refuted, C46_biht, C46_biht_step, C46_biht_step_size, C46_biht_subgradient, C46_biht_terminates, C46_measure_scale, C49_error_k, C49_error_partial, C49_error_zero, C49_more_predicted_labels_refuted, C51_affinity, C51_dense_agree, C51_duplicate_indices_refuted, C51_mean_error, C51_preservation_error, C51_preservation_flag, C51_sparse_error_zero_refuted, C51_sparse_full, C51_sparse_mean_error, C51_sparse_stats, C52_coherence_attained, C52_coherence_index, C52_coherence_upper, C52_complex_coherence_refuted, C52_frame, C52_frame_trace, C52_mutual_coherence, C54_biuniform, C54_spikes, C55_correlation, C55_high_snr_refuted, C55_high_snr_stops, C55_mean_minimises, C55_posterior_cov, C55_second_moment_partial, C55_second_moment_refuted, C55_sums, C56_soft_percentile, C62_ratio, C62_self, C64_default_step_refuted, C64_htp_monotone, C64_iht_monotone, C64_normalised_start, C64_normalised_step, C66_kernel, C66_quadratic_form, C66_random_walk, C66_symmetric_psd, C67_concave, C67_convexity_refuted, C67_smoothing_term_refuted, C69_bases, C72_one_dictionary_refuted, C72_rows, C72_single_refuted, C73_zero_singular_values, C74_breaks, C74_piecewise, C74_prob002, C74_prob006, C74_prob007, C74_prob008, C74_prob011, C74_round, C74_scaled, C75_box, C75_laplacian, C75_sharpen, C75_sobel, C77_inside, C77_inside_alone_refuted, C77_inside_empty_refuted, C77_outside, C77_outside_single_refuted, C77_sorted, C78_binary_alg, C78_binary_alg_shape_refuted, C78_onb, C78_onb_dict, C78_onb_singular_refuted, C78_rows, C78_rows_dict, C78_rows_shape_refuted, C79_bounds, C79_lower_tall_refuted, C79_upper, C80_convolve_complex_refuted, C80_convolve_permuted_refuted, C80_convolve_scrambled_refuted, C80_matrix_axis_refuted, C80_restriction_axis_refuted, C84_cosamp_recovery_refuted, C84_sp_recovery_refuted, C95_cg_refuted, C95_nonvacuous, C95_pcg_exact, C95_pcg_exit, C95_pcg_residual, C95_pcg_start_refuted, C95_pcg_steps_refuted, C95_pcg_terminates, C99_boundary_refuted, C99_computes, C99_documented_iff, C99_documented_partial, C99_documented_refuted, C99_linear, C99_total.
* `sig_forall_dec`, `sig_not_dec`, `functional_extensionality_dep`: C01_cumsum, C01_diff, C05_cumsum_diff, C05_diff_cumsum, C05_diff_entries, C100_bound, C100_certificate, C100_ends, C100_first_radius, C100_from_zero, C100_real_data, C100_start, C100_state, C100_step, C101_exact, C101_lines, C103_ball_real, C103_ball_refuted, C103_lasso_refuted, C103_real_data, C104_affine_partial, C104_affine_refuted, C104_ball, C104_box, C104_box_bounds_refuted, C104_hard, C104_l2_ball_accepts, C104_l2_ball_at_partial, C104_prox_l2, C104_real_upper_limit, C104_shrink_refuted, C105_mp_refuted, C105_omp_partial, C105_omp_real_partial, C105_omp_refuted, C105_sp_distinct_partial, C105_sp_partial, C105_sp_refuted, C105_sp_selection_partial, C105_sp_terminates, C11_dirac_fourier_adjoint, C11_fourier_basis_adjoint, C11_fourier_basis_entries, C11_fourier_basis_inverse, C11_fourier_basis_isometry, C11_fourier_matrix_entries, C11_fourier_matrix_operator, C11_fourier_matrix_orthonormal, C12_dirac_cosine_coherence, C12_dirac_hadamard_coherence, C12_hadamard_basis, C12_three_bases, C12_three_bases_atoms, C12_three_bases_distinct_refuted, C12_walsh_accepts, C12_walsh_basis, C12_walsh_natural, C13_dwt2D_axes_refuted, C13_haar, C13_level_zero_refuted, C15_linear_flag, C17_normest_complex, C17_normest_real, C17_normest_terminates, C17_normest_zero_iters_refuted, C17_normest_zero_operator_refuted, C18_affine, C18_box, C18_conic, C18_identity, C18_l2_ball, C18_l2_ball_accepts, C18_project_to_ball, C18_project_to_box, C18_real_upper_limit, C18_singleton, C18_zero, C19_l1_ball, C19_l1_ball_at, C19_spgl1, C19_spgl1_at, C19_spgl1_complex, C20_l2_ball_at_outside_refuted, C20_l2_ball_at_partial, C20_l2_ball_at_refuted, C21_prox_l2, C21_soft_threshold_complex, C22_affine, C22_box, C22_conic, C22_identity, C22_l1_ball, C22_l1_ball_at, C22_l2_ball, C22_l2_ball_at_refuted, C22_project_to_ball, C22_project_to_box, C22_prox_l1, C22_prox_l1_pos, C22_prox_l2, C22_real_upper_limit, C22_shrink, C22_singleton, C22_soft_threshold, C22_spgl1, C22_spgl1_at, C22_zero, C25_gradient_partial, C25_value_partial, C26_affine_l2_ball, C26_affine_partial, C26_affine_refuted, C26_box, C26_conic, C26_l1_ball, C26_l1_ball_at, C26_l2_ball, C26_l2_ball_at_partial, C26_l2_balls_accept, C26_singleton, C26_zero, C33_breakdown, C33_energy, C33_every_iterate, C33_exact_signal_refuted, C33_operator, C33_operator_breakdown, C33_operator_ends, C33_operator_energy_refuted, C33_result, C33_single_atom_refuted, C34_operator_partial, C34_operator_terminates, C35_sp_operator, C35_terminates, C37_ends, C37_exit, C37_fixed_point_optimal, C37_objective_decreases, C37_rate, C37_residual, C38_ends, C38_exit, C38_momentum_nondecreasing, C38_rate, C38_residual_of_x_refuted, C38_state, C39_ends, C39_every_iterate, C39_krylov_optimal, C39_minimum_norm, C39_orthonormal, C39_residual_nonincreasing, C39_residual_norm, C39_result, C39_solves, C39_stopping, C39_x_norm_refuted, C40_ends, C40_estimates_nondecreasing, C40_no_iterations_refuted, C40_norms_nondecreasing, C40_rayleigh, C40_returned_vector_refuted, C40_stopping, C40_upper_bound, C40_zero_operator_refuted, C42_bp_fits, C42_bpic_ball_refuted, C42_bpic_bound, C42_bpic_certificate, C42_bpic_counters, C42_bpic_ends, C42_bpic_first_radius, C42_bpic_from_zero, C42_bpic_r_norm_refuted, C42_bpic_state, C42_bpic_step, C42_lasso_certificate, C42_lasso_first_step, C42_lasso_from_zero, C42_lasso_memory, C42_lasso_n_trans_refuted, C42_lasso_next_step, C42_lasso_returns, C42_lasso_state, C42_lasso_step, C43_certificate, C43_distance_decreases, C43_dual_box, C43_fixed_point, C43_fixed_point_general_refuted, C43_iteration_limit_refuted, C43_nonneg_residual_refuted, C43_optimality, C43_rescaling, C43_returned, C43_start_refuted, C43_terminates, C43_zero_solution, C43_zero_solution_both_refuted, C43_zero_solution_weights_refuted, C44_capped_search_refuted, C44_feasible, C44_level_set, C44_optimality, C44_step, C44_terminates, C45_owl1rls_terminates_refuted, C46_rfp, C46_rfp_ascent, C46_rfp_iterates, C46_rfp_lambda, C47_best_restart, C47_kmeans_total, C47_nearest_assignment, C47_returned_state, C47_state_consistent, C47_terminates, C48_assignment_optimal, C48_centroids_optimal, C48_distortion_monotone_refuted, C48_squares_nonincreasing, C52_babel_attained, C52_babel_bound, C52_babel_nondecreasing, C52_babel_starts_at_coherence, C52_babel_upper, C53_welch, C54_blocks, C54_blocks_defined, C54_orthogonal, C54_unit_blocks_refuted, C55_block_corr_ignored, C55_bo_learns, C55_bo_total, C55_bo_zero_block, C55_change, C55_em_total, C55_np_learns, C55_np_run, C55_posterior_mean, C55_pruned, C55_reached_good, C55_residual, C55_square_root, C56_hard_conversions, C56_hard_keeps, C56_hard_minimiser, C56_hard_percentile, C59_cosine_adjoint, C59_cosine_entries, C59_cosine_inverse, C59_cosine_matrix, C60_circulant_adjoint, C60_circulant_convolution, C61_fft_adjoint, C61_fft_real_adjoint, C61_fft_real_refuted, C63_matrix, C63_operator, C64_htp_recovery, C64_iht_recovery, C65_batch_agrees_refuted, C65_batch_complete, C65_batch_partial, C65_energy_nonincreasing, C65_representation, C65_self_expressive_partial, C65_self_expressive_refuted, C66_normalized_bound, C66_normalized_symmetric, C66_sparse_agrees, C67_bp_scd_refuted, C67_dantzig_scd_refuted, C67_lipschitz, C67_smooth_dual, C69_points, C69_three, C69_three_defined, C69_three_zero_refuted, C69_two, C69_two_gram, C69_two_small_refuted, C70_bidiagonal, C70_rank_refuted, C70_residual_refuted, C70_ritz, C70_start_refuted, C71_energy, C71_energy_refuted, C71_residual, C71_result, C71_support, C73_automatic, C73_automatic_range, C73_automatic_refuted, C73_automatic_small, C73_bipartite_refuted, C73_fast_k, C73_random_walk_automatic, C73_random_walk_embedding, C73_random_walk_isolated, C73_random_walk_k, C73_sparse_fast_k, C73_unnormalized_embedding, C73_unnormalized_k, C74_prob001, C74_prob003, C74_prob004, C74_prob005, C74_prob009, C74_prob010, C74_real_sensing, C74_single, C75_gaussian, C75_gaussian_weights, C75_ricker_trough, C76_x_norm, C78_gaussian, C78_gaussian_defined, C78_gaussian_dict, C78_gaussian_raw, C78_rademacher, C78_rademacher_dict, C78_rademacher_raw, C78_sparse_binary, C78_sparse_binary_defined, C78_sparse_binary_dict, C79_grass_gram, C79_grass_rounds, C79_grass_shape, C79_grass_start, C79_grass_unit_refuted, C79_grass_zero_refuted, C80_fft_partial, C84_cosamp_matrix_recovers_partial, C84_cosamp_operator_recovers_partial, C84_sp_matrix_recovers_partial, C84_sp_operator_recovers_partial, C85_normest_converges, C85_normest_defined, C85_orthogonal_start_refuted, C85_power_converges, C85_power_defined, C85_power_iterations_needed, C85_power_tolerance_met, C85_tolerance_accuracy_refuted, C86_basis_pursuit, C86_coherent_refuted, C86_constrained, C86_dictionary, C86_fista, C86_ista, C86_penalised, C86_spgl1_lasso, C86_yall1, C86_yall1_denoising, C86_yall1_rest, C87_ista_stops, C90_best_fit, C90_noise_seen, C90_omp_matrix_noise, C90_omp_operator_noise, C91_converges, C91_solves, C91_stops, C92_local_optimum, C92_progress, C92_solves, C92_stabilises, C93_converges, C93_converges_searches, C93_search_refuted, C94_ends, C94_exit, C94_fista_exit, C94_fista_rate, C94_fourier_basis, C94_ista_rate, C94_ista_stops, C94_objective_decreases, C94_soft_threshold, C96_bounded, C96_converges, C96_iterates, C96_real_data, C96_result, C96_step, C97_cosamp, C97_distinct_partial, C97_mp_refuted, C97_omp_factor_refuted, C97_omp_stop_refuted, C97_selection, C97_sp, C97_terminates, C98_lsqr_condition, C98_lsqr_ends, C98_lsqr_iterates, C98_lsqr_krylov_optimal, C98_lsqr_minimum_norm, C98_lsqr_nonincreasing, C98_lsqr_orthonormal, C98_lsqr_result, C98_lsqr_solves, C98_lsqr_stopping, C98_power_rayleigh.
* `sig_forall_dec`, `sig_not_dec`, `classic`, `functional_extensionality_dep`: C103_certificate, C103_invariants, C103_l1rls, C103_rate, C103_terminates, C104_half, C104_percentile, C104_real_data, C27_entropy, C27_entropy_domain, C27_logdet_convex, C27_logdet_domain, C27_logdet_gradient, C27_logdet_value, C41_certificate, C41_certificate_default, C41_direction, C41_newton_system, C41_returns, C41_state, C41_step, C41_step_ends_partial, C41_warm_start_refuted, C41_zero_solution, C43_rate, C45_certificate, C45_invariants, C45_l1rls, C45_lasso, C45_owl1rls_partial, C45_rate, C45_stale_value, C45_terminates, C55_em_learns, C56_half_conversions, C56_half_minimiser, C56_half_percentile, C67_bp_scd, C67_dantzig_scd, C67_scd, C68_defined, C68_descent, C68_descent_step, C68_feasible, C68_fixed_point, C68_identity_refuted, C68_minimises, C68_norm_type_refuted, C68_product, C68_sparse_refuted, C68_zero_refuted, C71_exact, C71_success, C71_zero_refuted, C75_gaussian_shape, C75_gaussian_sigma_refuted, C75_ricker_mean, C75_ricker_shape, C76_no_residual_refuted, C76_prints, C76_records, C76_snr, C76_snr_exact_refuted, C76_snr_order, C77_angles, C77_angles_extreme, C77_pipeline, C77_sorted_duplicate_refuted, C81_box_exceeded_refuted, C81_box_inside, C81_box_outside_partial, C81_box_power_of_two, C81_percentile_partial, C81_percentile_underflow_refuted, C81_shrink_monotone, C81_shrink_nonexpansive_refuted, C81_shrink_rounded, C81_shrink_shrinks, C81_shrink_zero, C81_soft_threshold_rounded, C81_upper_limit_exact, C82_cumsum_diff, C82_cumsum_inverse_refuted, C82_dot_error, C82_dot_test_refuted, C82_matrix_adjoint_rounded, C82_norm_error_partial, C82_norm_nonneg, C82_norm_zero_refuted, C82_reductions_total, C82_sum_error, C82_sum_exact, C82_sum_order_refuted, C82_sum_orders_close, C83_cg_residual, C83_mp_residual, C83_mp_residual_exact_refuted, C86_fom_lasso, C86_l1_ls, C87_ista, C87_yall1, C87_yall1_stops, C88_factor.
* `sig_forall_dec`, `sig_not_dec`, `ClassicalEpsilon.constructive_indefinite_description`, `classic`, `functional_extensionality_dep`: C87_fista_l1, C87_fom_l1rls, C87_fom_lasso, C87_ista_l1, C87_l1_solution, C87_yall1_basis_pursuit_stops, C87_yall1_certificate, C87_yall1_signed, C88_cg, C88_cg_stops, C88_eigenbasis, C88_lsqr, C88_lsqr_geometric, C88_pcg, C89_norm_attained, C89_normest_converges, C89_normest_is_norm, C89_power_converges, C89_seen_is_largest, C90_mp_converges, C90_mp_limit, C93_exists, C93_solves, C94_fista_converges, C94_ista_converges, C96_exists, C96_solves, C98_lsqr_geometric, C98_lsqr_rate, C98_norm_attained, C98_normest_converges, C98_normest_is_norm, C98_power_converges, C98_seen_is_largest.

The examples C68_solver and C69_factorisations, which only show that the assumed
solvers and factorisations exist, also use the standard library's
ClassicalEpsilon (`constructive_indefinite_description`).

## 7. Seeded faults

`seeded/LOG.jsonl` records edits of the model in a scratch copy, one per line:
the definition, the edit, the claim it breaks, the theorems that no longer
prove (directly or because a lemma they use fails), and the theorems that were
tightened or added because an edit survived.
