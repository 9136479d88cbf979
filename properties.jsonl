{"id": "C01", "title": "Elementary operators satisfy the adjoint identity", "statement": "For every elementary 1-D operator the library constructs (matrix, real_matrix, diagonal, scalar_mult, identity with m<n, m=n or m>n, zero, flipud, sum, pad_zeros, symmetrize, cumulative sum, difference, dot with a fixed vector), `trans` is the adjoint of `times`: <T x, y> = <x, T^H y> for all x of the input size and y of the output size, over real and complex data, and times/trans return vectors of the advertised sizes.", "quantifier": "all sizes, all operator parameters (matrix entries, diagonals, paddings, scalars), all real and complex vectors x and y", "why_tests_cant": "a dot test samples random x,y for a few sizes; the identity must hold for every size, parameter and vector", "anchors": ["src/cr/sparse/_src/lop/basic.py: matrix, real_matrix, diagonal, scalar_mult, zero, flipud, sum, pad_zeros, symmetrize, heaviside, inv_heaviside", "src/cr/sparse/_src/lop/identity.py: identity", "src/cr/sparse/_src/lop/dot.py: dot"]}
{"id": "C02", "title": "Operator algebra preserves adjoint pairs", "statement": "If A and B satisfy the adjoint identity then so do -A, alpha*A, A^H, A^T, A**p, partial_op(A, picks[, perm]) for distinct picks and a permutation perm, A+B, A-B, A@B, hcat(A,B), gram(A), frame(A) and block_diag([A,B,...]).", "quantifier": "all operators A, B with the adjoint property, of all compatible shapes; all scalars alpha; all powers p; all index lists without repetition; all permutations; all lists of blocks", "why_tests_cant": "operators are closures: any composition a user can build has to keep the pair property, and there are infinitely many compositions", "anchors": ["src/cr/sparse/_src/lop/lop.py: neg, scale, hermitian, adjoint, transpose, power, partial_op, add, subtract, compose, hcat, gram, frame", "src/cr/sparse/_src/lop/block_diag.py: block_diag"]}
{"id": "C03", "title": "Operator algebra has the documented pointwise meaning and rejects incompatible shapes", "statement": "(-A)x = -(Ax), (alpha A)x = alpha(Ax), (A+B)x = Ax+Bx, (A-B)x = Ax-Bx, (A@B)x = A(Bx), A**p applies A exactly p times (p=0: identity), [A B](x;z) = Ax+Bz, partial_op gives (A x[perm])[picks]; the shapes of the results are the documented ones; add/subtract/compose/hcat/power raise exactly when the shapes do not match.", "quantifier": "all operators, scalars, exponents, index lists and input vectors", "why_tests_cant": "requires equality for every operator and every vector", "anchors": ["src/cr/sparse/_src/lop/lop.py: neg, scale, add, subtract, compose, power, hcat, partial_op, gram, frame, apply_n"]}
{"id": "C04", "title": "Adjoint is an involution; gram and frame are self-adjoint and positive semidefinite", "statement": "adjoint(adjoint(A)) acts as A; for an adjoint pair A, <gram(A)x, y> = <x, gram(A)y> and <x, gram(A)x> = ||Ax||^2 >= 0, and likewise frame(A) with ||A^H x||^2.", "quantifier": "all operators with the adjoint property, all vectors, real and complex", "why_tests_cant": "positivity for every vector cannot be sampled", "anchors": ["src/cr/sparse/_src/lop/lop.py: adjoint, hermitian, gram, frame"]}
{"id": "C05", "title": "cumsum and diff operators are mutual inverses", "statement": "diff(cumsum(x)) = x and cumsum(diff(x)) = x for every vector x; in particular the first output of diff is x[0].", "quantifier": "all lengths n >= 1 and all vectors", "why_tests_cant": "all sizes and all vectors", "anchors": ["src/cr/sparse/_src/lop/basic.py: heaviside, cumsum, inv_heaviside, diff"]}
{"id": "C06", "title": "First and second derivative operators are adjoint pairs", "statement": "first_derivative(n, dx, kind) for kind forward, backward and centered, and second_derivative(n, dx), satisfy <D x, y> = <x, D^H y> for every sampling step dx != 0.", "quantifier": "all n >= 3, all steps dx, all real/complex vectors", "why_tests_cant": "the identity must hold for every step and every vector; the repository tests use dx=1 only", "anchors": ["src/cr/sparse/_src/lop/calculus.py: first_derivative, second_derivative"]}
{"id": "C07", "title": "Total variation operators are adjoint pairs", "statement": "tv(n, kind) for kind regular, dirichlet and circular, and the 2-D operator tv2D, satisfy <T x, y> = <x, T^H y>; times computes the successive differences with the documented boundary handling.", "quantifier": "all n and all (m,n) grids, all vectors", "why_tests_cant": "all sizes and vectors", "anchors": ["src/cr/sparse/_src/lop/tv.py: tv, tv2D"]}
{"id": "C08", "title": "Convolution and FIR operators compute the sliced convolution and have exact adjoints", "statement": "convolve(n,h,offset) returns entries offset..offset+n-1 of the full convolution h*x and its trans is the adjoint; fir_filter(n,h) and running_average(n,length) compute the 'same' convolution and its adjoint when the filter is not longer than the signal. The same is expected of convolveND/convolve2D for complex filters.", "quantifier": "all signal lengths, all filters (real and complex), all admissible offsets", "why_tests_cant": "every filter length parity, offset and vector; boundary slices are where off-by-one errors live", "anchors": ["src/cr/sparse/_src/lop/conv.py: convolve, convolve2D, convolveND", "src/cr/sparse/_src/lop/filters.py: fir_filter, running_average"]}
{"id": "C09", "title": "Index selection operators are adjoint pairs", "statement": "restriction(n, I) and partial_op(A, picks) are adjoint pairs; times selects the listed entries in order.", "quantifier": "all index lists into range(n), including lists with repeated indices", "why_tests_cant": "quantifies over every index list; the repository only tests lists without repetitions", "anchors": ["src/cr/sparse/_src/lop/basic.py: restriction", "src/cr/sparse/_src/lop/lop.py: partial_op"]}
{"id": "C10", "title": "Windowed operator covers the signal, has the advertised shape and an exact adjoint", "statement": "windowed_op(m, T, overlap) uses enough blocks to cover m samples, times sums the windows T(x_k) at offset k*(w-overlap) truncated to m samples, and trans is its adjoint.", "quantifier": "all signal lengths m, window lengths w, overlaps < w and all window operators T with the adjoint property", "why_tests_cant": "block-count arithmetic must cover every (m,w,overlap)", "anchors": ["src/cr/sparse/_src/lop/windowed_op.py: windowed_op"]}
{"id": "C11", "title": "Fourier basis is unitary", "statement": "fourier_basis(n): trans(times(x)) = x and times(trans(y)) = y and ||times(x)|| = ||x||.", "quantifier": "all n >= 1 and all complex vectors", "why_tests_cant": "all sizes, exact identity", "anchors": ["src/cr/sparse/_src/lop/onb.py: fourier_basis", "src/cr/sparse/_src/dict/simple.py: fourier_basis"]}
{"id": "C12", "title": "Hadamard matrices are orthogonal", "statement": "hadamard(n) for n a power of two is an n-by-n matrix of +1/-1 entries, symmetric, with H H^T = n I, and any other n is rejected; hadamard_basis(n) is orthonormal; the coherence of dirac_hadamard_basis(n) is 1/sqrt(n); walsh_hadamard_basis(n) accepts exactly the powers of two and is self-adjoint, its own inverse and inner product preserving.", "quantifier": "all n", "why_tests_cant": "every power of two, by induction on the Sylvester construction", "anchors": ["src/cr/sparse/_src/dict/simple.py: hadamard, hadamard_basis, dirac_hadamard_basis", "src/cr/sparse/_src/lop/onb.py: walsh_hadamard_basis"]}
{"id": "C13", "title": "Multi-level wavelet operator reconstructs perfectly", "statement": "dwt(n, wavelet, level): trans(times(x)) = x for every n, times(trans(c)) = c when n is a power of two, and trans is the adjoint of times, for every admissible level, given that the one-level transform is orthogonal; wavelet_basis(n, name, level) has orthonormal columns. dwt2D(shape, wavelet, level, axes) does the same for images along both axes, with the coefficients of each level in the corner left by the previous one.", "quantifier": "all n = 2^level*k, all levels, all vectors, all one-level transforms that are orthogonal", "why_tests_cant": "recursion depth is unbounded; the coefficient layout must be consistent at every level", "anchors": ["src/cr/sparse/_src/lop/dwt.py: dwt, dwt2D, wavedec, waverec, wavedec2, waverec2", "src/cr/sparse/_src/dict/simple.py: wavelet_basis"]}
{"id": "C14", "title": "Dense representation of an operator agrees with the operator", "statement": "For a linear operator T of shape (m,n), to_matrix(T) x = T x for all x, the i-th column is T e_i, and to_adjoint_matrix(T) is the conjugate transpose of to_matrix(T) exactly when T is an adjoint pair.", "quantifier": "all linear operators of all shapes, all vectors", "why_tests_cant": "every operator and every vector", "anchors": ["src/cr/sparse/_src/lop/util.py: to_matrix, to_adjoint_matrix", "src/cr/sparse/_src/lop/lop.py: column, columns"]}
{"id": "C15", "title": "Operator flags are truthful after composition", "statement": "An operator that advertises linear=True is linear, and an operator built from a part that is not jit_safe / not matrix_safe does not advertise jit_safe / matrix_safe.", "quantifier": "all operators built with the algebra from all parts", "why_tests_cant": "every combination of combinators and flags", "anchors": ["src/cr/sparse/_src/lop/lop.py: neg, scale, hermitian, adjoint, transpose, power, add, subtract, compose, gram, frame, jit", "src/cr/sparse/_src/lop/basic.py: real"]}
{"id": "C16", "title": "dot_test is a reliable adjoint check", "statement": "lop.dot_test accepts every exact adjoint pair (when the two inner products are not both tiny/negative) and never accepts a pair whose inner products differ by more than the tolerance.", "quantifier": "all operators, all drawn vectors, all tolerances", "why_tests_cant": "a soundness claim about a checker over all operators", "anchors": ["src/cr/sparse/_src/lop/util.py: dot_test_real, dot_test_complex"]}
{"id": "C17", "title": "Norm estimate is a lower bound on the operator norm", "statement": "normest(T) never exceeds the spectral norm of T: at every iteration the estimate e satisfies e <= L for every L with ||T x|| <= L ||x|| for all x.", "quantifier": "all operators with the adjoint property, all starting vectors, all iteration limits", "why_tests_cant": "every operator and every number of iterations", "anchors": ["src/cr/sparse/_src/lop/normest.py: normest"]}
{"id": "C18", "title": "Projectors return the nearest point of their set", "statement": "proj_identity, proj_zero, proj_singleton, proj_box (lower, upper or both), proj_conic, proj_l2_ball(q) without centre, proj_affine and project_to_ball/project_to_box return a point of the set that is at least as close to x as every other point of the set; points of the set are unchanged and the projection is idempotent.", "quantifier": "all dimensions, all bounds/radii/centres accepted by the constructors, all points x and all competitors in the set", "why_tests_cant": "optimality against every competitor point is not testable", "anchors": ["src/cr/sparse/_src/opt/projectors/basic.py: proj_zero, proj_identity, proj_singleton, proj_affine, proj_box, proj_conic", "src/cr/sparse/_src/opt/projectors/lpballs.py: proj_l2_ball", "src/cr/sparse/_src/opt/projections.py: project_to_ball, project_to_box, project_to_real_upper_limit"]}
{"id": "C19", "title": "l1-ball projection returns the nearest point", "statement": "proj_l1_ball(q)(x), and SPGL1's project_to_l1_ball, return a point of l1 norm at most q nearest to x in the Euclidean norm, leave points of the ball unchanged and are idempotent; the version with a centre b projects onto the translated ball.", "quantifier": "all dimensions n >= 1, all radii q >= 0, all points, all competitors; including ties among the entries of x", "why_tests_cant": "sort/cumsum/argmax index logic must be right for every vector including ties and boundary radii", "anchors": ["src/cr/sparse/_src/opt/projectors/lpballs.py: proj_l1_ball", "src/cr/sparse/_src/cvx/spgl1.py: _project_to_l1_ball, project_to_l1_ball, project_to_l1_ball_at"]}
{"id": "C20", "title": "l2-ball projection with a centre returns the nearest point", "statement": "proj_l2_ball(q, b)(x) returns the point of {y: ||y-b|| <= q} nearest to x.", "quantifier": "all q > 0, all centres b, all points x", "why_tests_cant": "nearest-point optimality for all points", "anchors": ["src/cr/sparse/_src/opt/projectors/lpballs.py: proj_l2_ball"]}
{"id": "C21", "title": "Soft thresholding is the proximal operator of the scaled l1 norm", "statement": "prox_l1(q)(x,t) (t q > 0), shrink(a, kappa) (kappa >= 0), geo.soft_threshold and prox_l1_pos return the unique minimiser z of t q||z||_1 + 1/2||z-x||^2 (over z >= 0 for prox_l1_pos), and prox_l2(q) the minimiser of t q||z||_2 + 1/2||z-x||^2; the returned function value is the value of the function at the returned point.", "quantifier": "all vectors x, all q, all step sizes t, all competitors z", "why_tests_cant": "minimisation over a continuum", "anchors": ["src/cr/sparse/_src/opt/proximal_ops/lpnorms.py: prox_l1, prox_l1_pos, prox_l2", "src/cr/sparse/_src/opt/shrinkage.py: shrink", "src/cr/sparse/_src/geo/thresholding.py: soft_threshold"]}
{"id": "C22", "title": "Projections and proximal operators are non-expansive", "statement": "||P(x) - P(y)|| <= ||x - y|| for every projector and proximal operator in the previous properties.", "quantifier": "all pairs of points", "why_tests_cant": "a two-point inequality over all pairs", "anchors": ["src/cr/sparse/_src/opt/projectors/basic.py", "src/cr/sparse/_src/opt/projectors/lpballs.py", "src/cr/sparse/_src/opt/proximal_ops/lpnorms.py", "src/cr/sparse/_src/opt/shrinkage.py: shrink"]}
{"id": "C23", "title": "prox_l1 is defined everywhere", "statement": "prox_l1(q)(x, t) returns a finite vector for every x and every t*q >= 0 (including t*q = 0, where it should return x).", "quantifier": "all vectors, all scales", "why_tests_cant": "edge cases x_i = 0 with t*q = 0", "anchors": ["src/cr/sparse/_src/opt/proximal_ops/lpnorms.py: prox_l1"]}
{"id": "C24", "title": "Sorted-l1 proximal loop terminates with the minimiser", "statement": "prox_owl1 terminates for every input and returns a vector with nonincreasing magnitudes in the order of |x| that minimises 1/2||z-x||^2 + sum lambda_i |z|_(i).", "quantifier": "all vectors x and all nonincreasing weight vectors lambda", "why_tests_cant": "termination for all inputs", "anchors": ["src/cr/sparse/_src/opt/proximal_ops/prox_sorted_l1.py: prox_ordered_l1_a, prox_ordered_l1_b, prox_owl1"]}
{"id": "C25", "title": "Moreau envelope value and gradient are those of the envelope", "statement": "moreau_envelope(f, mu) at x evaluates min_z f(z) + 1/(2 mu)||z-x||^2 and its gradient is (x - prox_{mu f}(x))/mu.", "quantifier": "all prox-capable functions f, all mu > 0, all x", "why_tests_cant": "infimum over all z; agreement of value and gradient for all mu", "anchors": ["src/cr/sparse/_src/opt/prox_to_smooth.py: moreau_envelope"]}
{"id": "C26", "title": "Indicators and projectors describe the same set", "statement": "For each set with both an indicator and a projector (zero, singleton, affine, box, conic, l2 ball, l1 ball) the indicator is 0 at every projected point and the projector leaves x unchanged exactly when the indicator is 0 at x.", "quantifier": "all points x and all set parameters", "why_tests_cant": "equivalence over all points", "anchors": ["src/cr/sparse/_src/opt/indicators/basic.py", "src/cr/sparse/_src/opt/indicators/lpballs.py", "src/cr/sparse/_src/opt/projectors/basic.py", "src/cr/sparse/_src/opt/projectors/lpballs.py"]}
{"id": "C27", "title": "Smooth functions report the true gradient", "statement": "The gradient returned by smooth_constant, smooth_linear, smooth_quad_matrix, smooth_quad_error, smooth_huber, smooth_entropy and by translate is the derivative of the returned value in every direction.", "quantifier": "all parameters, all points of the domain, all directions", "why_tests_cant": "directional derivative in all directions at all points", "anchors": ["src/cr/sparse/_src/opt/smooth/constant.py", "src/cr/sparse/_src/opt/smooth/linear.py", "src/cr/sparse/_src/opt/smooth/quad.py", "src/cr/sparse/_src/opt/smooth/huber.py", "src/cr/sparse/_src/opt/smooth/entropy.py", "src/cr/sparse/_src/opt/smooth/smooth.py"]}
{"id": "C28", "title": "Conjugate gradients reports the true residual and respects its limits", "statement": "cg.solve_from(A,b,x0): at exit r_norm_sqr = ||b - A x||^2, at most max_iters iterations are used, and if it stops before max_iters then ||r||^2 <= tol^2 ||b||^2 (or <= atol).", "quantifier": "all linear operators A, right-hand sides, starting points, tolerances and iteration limits; every iterate of the loop", "why_tests_cant": "an invariant of every iterate of an unbounded loop", "anchors": ["src/cr/sparse/_src/opt/cg.py: solve_from, solve"]}
{"id": "C29", "title": "Conjugate gradients decreases the energy monotonically and produces orthogonal residuals", "statement": "For a symmetric positive definite A every CG iteration does not increase the A-norm of the error (1/2 x^T A x - b^T x), consecutive and indeed all residuals are mutually orthogonal and the search directions are A-conjugate.", "quantifier": "all dimensions, all SPD operators, all right-hand sides and starting points, all iterations", "why_tests_cant": "a global invariant over all iteration histories", "anchors": ["src/cr/sparse/_src/opt/cg.py: solve_from"]}
{"id": "C30", "title": "Preconditioned CG keeps the true residual", "statement": "pcg.solve_from(A,b,x0,max_iters,tol,M): at exit r = b - A x, iterations <= max(1,max_iters).", "quantifier": "all linear A, all maps M, all inputs", "why_tests_cant": "loop invariant", "anchors": ["src/cr/sparse/_src/opt/pcg.py: solve_from"]}
{"id": "C31", "title": "Matching pursuit residual bookkeeping", "statement": "mp.solve / mp.matrix_solve: at every iteration r = y - Phi x, ||r|| does not increase when atoms have unit norm, iterations <= max_iters.", "quantifier": "all dictionaries with unit-norm atoms, all signals, all iteration limits", "why_tests_cant": "an invariant over every history", "anchors": ["src/cr/sparse/_src/pursuit/mp.py: solve, matrix_solve"]}
{"id": "C32", "title": "Matching pursuit stops once the residual tolerance is met and reports the residual energy", "statement": "mp.solve / mp.matrix_solve stop as soon as ||r||^2 <= max(rtol^2 ||y||^2, ...) and the reported r_norm_sqr equals ||r||^2.", "quantifier": "all dictionaries, signals and tolerances", "why_tests_cant": "stopping behaviour for all tolerances", "anchors": ["src/cr/sparse/_src/pursuit/mp.py: solve, matrix_solve"]}
{"id": "C33", "title": "OMP residual is orthogonal to the selected atoms and no atom is selected twice", "statement": "omp.matrix_solve: after each iteration r = y - Phi_I x_I, Phi_I^T r = 0, hence a selected atom has zero correlation with the residual and the residual norm does not increase; the incremental Cholesky factor L satisfies L L^T = Phi_I^T Phi_I.", "quantifier": "all dictionaries with unit-norm columns whose selected columns are independent, all y, all K", "why_tests_cant": "invariant over all histories; exact algebraic identities", "anchors": ["src/cr/sparse/_src/pursuit/omp.py: matrix_solve, operator_solve", "src/cr/sparse/_src/pursuit/util.py: gram_chol_update"]}
{"id": "C34", "title": "CoSaMP returns a consistent K-sparse solution", "statement": "cosamp.matrix_solve: the returned index list I has K entries sorted increasingly, and the returned r equals y - Phi_I x_I with r_norm_sqr = ||r||^2 where x_I[j] is the coefficient of atom I[j].", "quantifier": "all dictionaries, signals, K and iteration limits", "why_tests_cant": "alignment of indices and coefficients at every exit point of the loop", "anchors": ["src/cr/sparse/_src/pursuit/cosamp.py: matrix_solve, operator_solve"]}
{"id": "C35", "title": "IHT, HTP and SP keep residual and support consistent", "statement": "iht/htp/sp solvers: at every iterate r = y - Phi_I x_I and r_norm_sqr = ||r||^2, |I| = K, iterations between 1 and max(1,max_iters).", "quantifier": "all dictionaries, signals, K, step sizes and limits", "why_tests_cant": "invariant of every iterate", "anchors": ["src/cr/sparse/_src/pursuit/iht.py", "src/cr/sparse/_src/pursuit/htp.py", "src/cr/sparse/_src/pursuit/sp.py"]}
{"id": "C36", "title": "largest_indices selects K largest magnitudes", "statement": "largest_indices(h, K) returns K distinct valid positions such that every selected |h_i| is at least every unselected |h_j|; hence keeping those entries is a best K-term approximation of h.", "quantifier": "all vectors including ties, all K <= n", "why_tests_cant": "best approximation against all supports", "anchors": ["src/cr/sparse/_src/pursuit/util.py: largest_indices"]}
{"id": "C37", "title": "ISTA reports the true residual and decreases the objective", "statement": "ista: r = b - A x and r_norm_sqr = ||r||^2 at every iterate, at most max_iters iterations; with threshold soft(step*lambda) and step <= 1/||A||^2 the objective 1/2||b-Ax||^2 + lambda||x||_1 never increases.", "quantifier": "all operators, data, starting points, step sizes within the bound, all iterations", "why_tests_cant": "monotonicity along every trajectory", "anchors": ["src/cr/sparse/_src/sls/ista.py: ista", "src/cr/sparse/_src/sls/defs.py"]}
{"id": "C38", "title": "FISTA returns the residual of the returned solution", "statement": "fista: the returned r equals b - A x for the returned x and r_norm_sqr its squared norm; the momentum parameter t is nondecreasing and grows at least like (k+2)/2.", "quantifier": "all operators, data, thresholds and iterations", "why_tests_cant": "consistency at every exit point", "anchors": ["src/cr/sparse/_src/sls/fista.py: fista"]}
{"id": "C39", "title": "LSQR's residual estimate is the true residual norm", "statement": "lsqr with damp=0 and x0: the bidiagonalisation vectors u_k and v_k are orthonormal and r_norm = ||b - A x|| for the returned x; n_times and n_trans count the operator applications.", "quantifier": "all operators, right-hand sides, starting points, iteration counts", "why_tests_cant": "exact recurrences over every iteration", "anchors": ["src/cr/sparse/_src/sls/lsqr.py: lsqr"]}
{"id": "C40", "title": "Power iteration estimates are Rayleigh quotients", "statement": "power_iterations on a symmetric operator: the estimate is the Rayleigh quotient of a unit vector (hence at most the largest eigenvalue/bound), the returned vector has unit norm, iterations <= max_iters; for a positive semidefinite operator the estimates are nondecreasing.", "quantifier": "all symmetric operators, starting vectors, limits", "why_tests_cant": "monotonicity along every trajectory", "anchors": ["src/cr/sparse/_src/sls/power.py: power_iterations"]}
{"id": "C41", "title": "l1_ls duality gap certifies the solution", "statement": "l1ls: every state has dual_obj <= optimum <= primal_obj, iterates stay strictly inside |x_i| < u_i, and r = y - A x; if it stops on the tolerance test, primal - optimum <= tol * optimum.", "quantifier": "all operators, measurements, lambda > 0, all iterates", "why_tests_cant": "optimality certificate over all x", "anchors": ["src/cr/sparse/_src/cvx/l1ls.py: solve_from"]}
{"id": "C42", "title": "SPGL1 iterates stay in the l1 ball with truthful bookkeeping", "statement": "spgl1.solve_lasso_from: every iterate has ||x||_1 <= tau, r = b - A x, g = -A^H r; the step size stays in [alpha_min, alpha_max]; n_times / n_trans count operator applications; the reported r_norm is ||b - A x||. For solve_bpic_from, ||x||_1 <= max tau and r_norm belongs to the returned x.", "quantifier": "all operators, data, tau, options, all iterates", "why_tests_cant": "invariant of every iterate", "anchors": ["src/cr/sparse/_src/cvx/spgl1.py: curvy_line_search, solve_lasso_from, solve_bpic_from"]}
{"id": "C43", "title": "YALL1 returns the residual of the returned solution and honours max_iters", "statement": "yall1.solve: the returned r equals b - A x for the returned x, at most max_iters iterations are performed, z stays in the weighted box.", "quantifier": "all operators, data, options including nonneg", "why_tests_cant": "consistency at every exit", "anchors": ["src/cr/sparse/_src/cvx/adm/yall1.py: solve, solve_bp, solve_l1_l2, solve_l1_l2con"]}
{"id": "C44", "title": "Spectral projected gradient stays feasible", "statement": "spg.solve_from: every iterate lies in the convex set of the projection; the line search is nonmonotone-Armijo and performs at most 50 evaluations; it always returns, with iterations <= max(1, max_iters); for functions with a moderate Lipschitz constant no iterate is worse than the first.", "quantifier": "all smooth functions, convex sets with a projector, starting points, options", "why_tests_cant": "invariant of every iterate", "anchors": ["src/cr/sparse/_src/opt/spg.py: solve_from"]}
{"id": "C45", "title": "First-order method keeps feasibility and consistent cached products", "statement": "fom.fom: iterates of constrained problems (lasso) stay in the feasible set as convex combinations, the cached products A_x, A_z equal A applied to x, z, the step parameter theta stays in (0,1]; fom, lasso, l1rls and owl1rls reach the accelerated rate 2 L |x0 - u|^2 / (k+1)^2 when the Lipschitz constant is known.", "quantifier": "all smooth functions, affine maps, prox-capable functions, options, all iterations", "why_tests_cant": "invariant of every iterate", "anchors": ["src/cr/sparse/_src/fom/fom.py", "src/cr/sparse/_src/fom/lasso.py", "src/cr/sparse/_src/fom/l1rls.py", "src/cr/sparse/_src/fom/owl1rls.py", "src/cr/sparse/_src/fom/util.py"]}
{"id": "C46", "title": "1-bit recovery bookkeeping", "statement": "biht: the iterate is K-sparse, the mismatch count equals the number of sign disagreements, iterations <= max_iters; measure_1bit is invariant to positive scaling of the signal.", "quantifier": "all sensing matrices, sign vectors, K, step sizes", "why_tests_cant": "invariant and scale invariance for all inputs", "anchors": ["src/cr/sparse/_src/cs/cs1bit/biht.py: biht", "src/cr/sparse/_src/cs/cs1bit/rfp.py"]}
{"id": "C47", "title": "k-means assigns every point to a nearest centroid and reports its distortion", "statement": "find_assignment returns for each point a centroid index whose distance is minimal; the state's assignment and distortion always belong to the state's centroids; kmeans returns the restart with least distortion; iterations <= max_iters.", "quantifier": "all point sets, k, seeds, thresholds and limits", "why_tests_cant": "invariant of every iterate; minimality over all centroids", "anchors": ["src/cr/sparse/_src/cluster/kmeans.py: find_nearest, find_assignment, kmeans_with_seed, kmeans"]}
{"id": "C48", "title": "k-means iterations do not increase the distortion", "statement": "Each k-means iteration does not increase the sum of squared distances; the reported distortion (mean distance) is nonincreasing over iterations.", "quantifier": "all point sets, all assignments, including empty clusters", "why_tests_cant": "monotonicity over all configurations", "anchors": ["src/cr/sparse/_src/cluster/kmeans.py: find_new_centroids, assignment_counts, kmeans_with_seed"]}
{"id": "C49", "title": "best_map relabels predictions optimally", "statement": "best_map/best_map_k return mapped labels obtained by a bijective relabelling maximising agreement with the true labels; clustering_error is 0 when the prediction is a relabelling of the truth and never exceeds the error of any other relabelling.", "quantifier": "all label vectors, any numbers of distinct labels on both sides", "why_tests_cant": "optimality over all bijections", "anchors": ["src/cr/sparse/_src/cluster/util.py: best_map, best_map_k, clustering_error, clustering_error_k"]}
{"id": "C50", "title": "Label/size/index conversions are consistent", "statement": "sizes_from_labels(labels_from_sizes(s), len s) = s; start/end indices partition range(sum s) into consecutive blocks of the given sizes; block start/end locations and lengths tile the signal.", "quantifier": "all size lists", "why_tests_cant": "all lists", "anchors": ["src/cr/sparse/_src/cluster/util.py: sizes_from_labels, labels_from_sizes, start_end_indices", "src/cr/sparse/_src/block/util.py"]}
{"id": "C51", "title": "Sparse representation conversions round-trip", "statement": "bcoo_to_sparse(sparse_to_bcoo(X,I),k) = (X,I); the dense matrix of sparse_to_bcoo and sparse_to_full_rep agree when the indices in a column are distinct; rep_to_affinity is symmetric and nonnegative; subspace preservation errors lie in [0,1] and vanish exactly when all weight is inside the cluster.", "quantifier": "all value/index arrays", "why_tests_cant": "all arrays, including repeated indices", "anchors": ["src/cr/sparse/_src/cluster/ssc/util.py"]}
{"id": "C52", "title": "Coherence and Babel function have their defining values", "statement": "coherence(A) is the largest |<a_i,a_j>|, i != j; babel(A)[p-1] is the largest sum of p absolute inner products of one atom with p other atoms; babel is nondecreasing, starts at the coherence and satisfies babel[p-1] <= p*coherence.", "quantifier": "all dictionaries with unit-norm columns, real or complex, all p", "why_tests_cant": "maximum over all index sets", "anchors": ["src/cr/sparse/_src/dict/props.py: gram, coherence_with_index, coherence, babel, mutual_coherence"]}
{"id": "C53", "title": "minimum_coherence is a lower bound on coherence (Welch bound)", "statement": "For every m-by-n real dictionary with unit-norm columns, coherence(A) >= minimum_coherence(m,n).", "quantifier": "all m, n >= 2 and all dictionaries", "why_tests_cant": "a bound over all dictionaries", "anchors": ["src/cr/sparse/_src/dict/grass.py: minimum_coherence", "src/cr/sparse/_src/dict/props.py: coherence"]}
{"id": "C54", "title": "Synthetic sparse data has the advertised support", "statement": "sparse_normal_representations, sparse_biuniform_representations, sparse_spikes and sparse_normal_blocks return vectors that vanish outside the returned index set, whose index set is sorted, duplicate-free and of size K (K*B); values of spikes are +1/-1, biuniform magnitudes lie in [a,b].", "quantifier": "all sizes and all outputs of the random generator", "why_tests_cant": "all random draws", "anchors": ["src/cr/sparse/_src/data/synthetic/random.py"]}
{"id": "C55", "title": "BSBL uses the posterior second moment", "statement": "compute_cov_x returns Sigma_x + mu_x mu_x^T for each block (the posterior second moment used by the EM updates); r = y - Phi x at every iterate; pruned blocks are exactly zero. Every step computes the posterior mean and covariance of the Gaussian model, then learns the block correlation, the block variances (the minimiser of the EM cost or of the bound) and the noise level by the published rules, and records the largest change of a coefficient.", "quantifier": "all blocks, covariances and means", "why_tests_cant": "matrix identity for all inputs; invariant of every iterate", "anchors": ["src/cr/sparse/_src/block/bsbl.py: compute_cov_x, bsbl_em, bsbl_bo"]}
{"id": "C56", "title": "Thresholding conversions and functions", "statement": "gamma/tau conversions are mutual inverses; hard_threshold keeps exactly the entries with |x| > threshold and is the minimiser of the l0-penalised problem; percentile versions keep magnitudes above the percentile.", "quantifier": "all vectors and all parameters", "why_tests_cant": "all vectors, minimisation over a continuum", "anchors": ["src/cr/sparse/_src/geo/thresholding.py"]}
{"id": "C57", "title": "Phase transition configurations are admissible and complete", "statement": "configuration(N) yields (K,M) pairs without repetition with 1 <= K <= M <= N, every (rho, eta) grid point maps to a listed pair, and inadmissible N are rejected.", "quantifier": "all N that are powers of two, N >= 32", "why_tests_cant": "all N", "anchors": ["src/cr/sparse/_src/pursuit/phasetransition.py: configuration"]}
{"id": "C58", "title": "Elementary operators compute their documented map", "statement": "matrix, diagonal, scalar_mult, zero, flipud, sum, pad_zeros, symmetrize, cumulative sum and identity (any m, n) produce, entry by entry, the documented linear combination of the input: e.g. (matrix(A) x)_i = sum_j A_ij x_j, flipud reverses, pad_zeros shifts by `before` and is zero elsewhere, identity(n,m) truncates or zero-pads.", "quantifier": "every size, every matrix / diagonal / index parameter, every input vector, every output entry, real and complex", "why_tests_cant": "tests fix a few sizes and vectors", "anchors": ["src/cr/sparse/_src/lop/basic.py: matrix, diagonal, scalar_mult, zero, flipud, sum, pad_zeros, symmetrize, heaviside", "src/cr/sparse/_src/lop/identity.py: identity"]}
{"id": "C59", "title": "Cosine basis is orthonormal", "statement": "cosine_basis(n) (operator) satisfies trans(times(x)) = x, times(trans(y)) = y, <times(x),y> = <x,trans(y)> and times(x)_j = x_0/sqrt(n) + sqrt(2/n) sum_{k>=1} x_k cos(pi k (2j+1)/(2n)); the dictionary matrix cosine_basis(n) has orthonormal rows and columns.", "quantifier": "all n >= 1, all real vectors", "why_tests_cant": "all sizes, exact trigonometric identity", "anchors": ["src/cr/sparse/_src/lop/onb.py: cosine_basis", "src/cr/sparse/_src/dict/simple.py: cosine_basis"]}
{"id": "C60", "title": "Circulant operator is circular convolution", "statement": "circulant(n, c): times(x)_i = sum_j c[(i-j) mod n] x_j with c zero-padded to length n, and trans is its adjoint; a filter longer than n is rejected.", "quantifier": "all n, all filters no longer than n, all real vectors, every output entry", "why_tests_cant": "all sizes; the FFT based evaluation must agree with the defining sum", "anchors": ["src/cr/sparse/_src/lop/special_matrices.py: circulant"]}
{"id": "C61", "title": "FFT operator is an adjoint pair", "statement": "fft(m, n, mode): trans is the adjoint of times: <fft(x),w> = <x,trans(w)> for zero-padded transforms of every length n >= m; n < m is rejected.", "quantifier": "all m <= n, all vectors", "why_tests_cant": "all sizes and vectors", "anchors": ["src/cr/sparse/_src/lop/fft.py: fft"]}
{"id": "C62", "title": "matching_atoms_ratio counts the atoms of A that have a match in B", "statement": "matching_atoms_ratio(A, B, t) is the fraction of atoms of A for which some atom of B has 1 - |<a,b>| < t; comparing a unit-norm dictionary with itself gives 1 for every t > 0.", "quantifier": "all real dictionaries, all thresholds", "why_tests_cant": "quantifies over all pairs of dictionaries", "anchors": ["src/cr/sparse/_src/dict/comparison.py: matching_atoms_ratio"]}
{"id": "C63", "title": "OMP recovers every sparse signal from an incoherent dictionary", "statement": "omp.matrix_solve / omp.operator_solve: for a unit-norm dictionary of coherence mu and y = Phi x with x having exactly K nonzeros, (2K-1) mu < 1, K iterations return exactly the support and the coefficients of x and a zero residual.", "quantifier": "all unit-norm dictionaries, all sparsity levels below the coherence bound, all K-sparse x", "why_tests_cant": "quantifies over all dictionaries, supports and real coefficient vectors", "anchors": ["src/cr/sparse/_src/pursuit/omp.py: matrix_solve, operator_solve"]}
{"id": "C64", "title": "IHT and HTP decrease the residual for small steps and recover sparse signals under restricted isometry", "statement": "iht/htp solvers: with a fixed step mu <= 1/||Phi||^2 the residual energy never increases; with unit step and restricted isometry constant delta of order 3K below 1/2, IHT on y = Phi x + e satisfies ||x_t - x|| <= (2 delta)^t ||x|| + 2 sqrt(1+delta)/(1-2 delta) ||e||, and HTP on y = Phi x converges linearly; the default step 0.98/upper_frame_bound is meant to guarantee descent.", "quantifier": "all dictionaries, K-sparse signals, noise vectors and iteration counts", "why_tests_cant": "quantifies over all dictionaries with a spectral property and over every iteration", "anchors": ["src/cr/sparse/_src/pursuit/iht.py: matrix_solve, operator_solve", "src/cr/sparse/_src/pursuit/htp.py: matrix_solve, operator_solve", "src/cr/sparse/_src/dict/props.py: upper_frame_bound"]}
{"id": "C65", "title": "SSC-OMP writes every point in terms of the other points", "statement": "build_representation_omp returns, for every data point, K valid indices, coefficients and a residual: the residual is the point minus the combination of the selected unit-norm points, is orthogonal to them, has the least norm over all coefficients, and does not grow with K; a point is never selected for itself and never twice while its residual correlates with another point; batch_build_representation_omp selects the same indices and covers all points.", "quantifier": "all data sets, all K, all batch sizes", "why_tests_cant": "iterative selection over arbitrary real data", "anchors": ["src/cr/sparse/_src/cluster/ssc/omp.py: build_representation_omp, batch_build_representation_omp"]}
{"id": "C66", "title": "Graph Laplacians have the spectral properties clustering relies on", "statement": "For a symmetric nonnegative affinity the unnormalized Laplacian is symmetric positive semidefinite with quadratic form the sum of weighted squared differences, and its null vectors are exactly those constant along edges; the random-walk Laplacian annihilates constants; the normalised symmetric affinity has the square roots of the degrees as eigenvector for 1 and no Rayleigh quotient above 1; the sparse version denotes the same matrix as the dense one.", "quantifier": "all graphs (all sizes, all weights)", "why_tests_cant": "quantifies over all matrices and all vectors", "anchors": ["src/cr/sparse/_src/cluster/spectral.py: unnormalized_laplacian, normalized_random_walk_laplacian, normalized_symmetric_w, normalized_symmetric_sparse_w"]}
{"id": "C67", "title": "The smoothed dual is the dual function with its gradient", "statement": "smooth_dual(f, mu, x0): func(z) is minus the maximum over x of <z,x> - f(x) - |x-x0|^2/(2 mu), grad(z) is minus its unique maximiser, grad is the gradient of func and is mu-Lipschitz; scd is meant to smooth with mu/2 |x-x0|^2 and hand the first order driver a convex function to minimise, so that bp_scd and dantzig_scd approach the feasible set.", "quantifier": "all prox-capable convex f, all mu > 0, all centres and dual points", "why_tests_cant": "quantifies over all convex functions and points; optimality is over all x", "anchors": ["src/cr/sparse/_src/fom/scd.py: smooth_dual, scd", "src/cr/sparse/_src/fom/bp_scd.py: bp_scd", "src/cr/sparse/_src/fom/dantzig_scd.py: dantzig_scd"]}
{"id": "C68", "title": "FOCUSS keeps the measurements and descends its sparsity measure", "statement": "focuss.matrix_solve_noiseless: after every completed iteration the current x satisfies Phi x = y and minimises the weighted energy of the previous weights over all solutions; the sum of |x_i|^(2-2p) never increases (0 < p < 1; product of entries on a fixed support for p = 1); fixed points are the solutions with independent support columns; the iteration is defined while the weighted Gram matrix is nonsingular. Users expect a sparse result without NaN entries and the parameter p to be the norm being minimised.", "quantifier": "all dictionaries, measurements, parameters and iteration counts", "why_tests_cant": "quantifies over all real dictionaries and all iterations; optimality is over all solutions", "anchors": ["src/cr/sparse/_src/cvx/focuss.py: step_noiseless, matrix_solve_noiseless"]}
{"id": "C69", "title": "Random subspaces have the promised dimension, angles and points", "statement": "random_subspaces returns orthonormal N x D bases; uniform_points_on_subspaces returns unit norm points of the subspaces in the documented order; two_subspaces_at_angle and three_subspaces_at_angle return orthonormal N x D bases whose pairwise smallest principal angle is exactly the requested one.", "quantifier": "all dimensions, all angles, all random draws", "why_tests_cant": "quantifies over all real draws, dimensions and angles", "anchors": ["src/cr/sparse/_src/data/synthetic/subspaces.py: random_subspaces, uniform_points_on_subspaces, two_subspaces_at_angle, three_subspaces_at_angle"]}
{"id": "C70", "title": "Lanczos bidiagonalisation returns orthonormal vectors and a true bidiagonal form", "statement": "lanbpro / lanbpro_init / lanbpro_iteration: for every linear operator and every start, whatever columns are reorthogonalised, the left and right vectors are orthonormal with A v_i = alpha_i u_i + beta_{i+1} u_{i+1} and A^T u_i = alpha_i v_i + beta_i v_{i-1}; singular triplets of the bidiagonal matrix give vectors with A^T y = s x and residual beta_j |q_{j-1}|, the quantity lansvd_simple uses for its error bounds; after a breakdown the iteration continues with a fresh orthogonal vector.", "quantifier": "all operators with a true adjoint, all starts, all reorthogonalisation decisions, all random draws, all numbers of iterations", "why_tests_cant": "quantifies over all operators and all iterations", "anchors": ["src/cr/sparse/_src/sls/svdpack/lanbpro.py: lanbpro_init, lanbpro_iteration, lanbpro, new_p_vec, new_r_vec", "src/cr/sparse/_src/sls/svdpack/lansvd.py: lansvd_simple"]}
{"id": "C71", "title": "Recovery performance reports what was recovered", "statement": "RecoveryPerformance(Phi, y, x, x_hat): T0 is the support of x and K its size, R0 the K positions where x_hat is largest in magnitude, the support recovery ratio is |T0 and R0| / K in [0, 1], perfect_support_recovery holds exactly when R0 is the support, success exactly when more than 75% of the support is found and the recovery SNR exceeds 30 dB; exact recovery is a success; the error energy splits over T0, T1 and the rest; the verdict exists for every signal.", "quantifier": "all signals, reconstructions, dictionaries", "why_tests_cant": "quantifies over all real vectors", "anchors": ["src/cr/sparse/_src/tools/performance.py: RecoveryPerformance"]}
{"id": "C72", "title": "Recovery trials count every trial once", "statement": "RecoveryTrialsAtFixed_M_N: running it writes for each solver one row per sparsity level in order, each over num_dict_trials * num_signal_trials trials with independent signals, successes + failures = trials, success rate their quotient, and the minimum, mean and maximum of the iterations of exactly these trials.", "quantifier": "all solvers, all random generators, all trial counts and sparsity levels", "why_tests_cant": "quantifies over all solvers and random streams", "anchors": ["src/cr/sparse/_src/tools/trials_at_fixed_m_n.py: RecoveryTrialsAtFixed_M_N"]}
{"id": "C73", "title": "Spectral clustering labels the connected components", "statement": "unnormalized_k, normalized_random_walk_k and normalized_symmetric_fast_k: for a symmetric nonnegative affinity whose graph has exactly k connected components, the points given to k-means coincide exactly for connected vertices, and if some restart picks a vertex in every component then two vertices get the same label exactly when they are connected. The number of zero singular values is the number of components and the reported connectivity is zero exactly for disconnected graphs. unnormalized and normalized_random_walk report the number of components.", "quantifier": "all affinity matrices, all numbers of vertices and components, all singular value decompositions, all k-means seeds", "why_tests_cant": "quantifies over all graphs and all valid decompositions (singular vectors are not unique)", "anchors": ["src/cr/sparse/_src/cluster/spectral.py: unnormalized, unnormalized_k, normalized_random_walk, normalized_random_walk_k, normalized_symmetric_fast_k", "src/cr/sparse/_src/cluster/kmeans.py: kmeans"]}
{"id": "C74", "title": "Generated test problems are consistent", "statement": "problems.generate for problems 001 to 011: the returned Phi, Psi, A, b, x, y and reconstruct fit together: shapes agree, A = Phi Psi, the known solution x satisfies A x = b, reconstruct(x) = Psi x equals y where y is given, x is supported on the drawn positions with the documented values, a problem is marked as having a single operator only when Phi or Psi acts as the identity, and scaled sizes are at least 1 and keep their order.", "quantifier": "all sizes, all scales, all random draws, all orthogonal wavelets", "why_tests_cant": "quantifies over all sizes and real draws", "anchors": ["src/cr/sparse/_src/problems/prob001.py: generate", "src/cr/sparse/_src/problems/prob003.py: generate", "src/cr/sparse/_src/problems/prob005.py: generate", "src/cr/sparse/_src/problems/prob006.py: piecewise_polynomial, generate", "src/cr/sparse/_src/problems/prob007.py: generate", "src/cr/sparse/_src/problems/spec.py: Problem"]}
{"id": "C75", "title": "Image kernels and the Ricker wavelet have the promised shape", "statement": "The box kernels average (nonnegative entries summing to 1); the Laplacian and the Sobel kernels annihilate constants and give the derivative of linear images; sharpening keeps constants and is the identity minus the Laplacian; kernel_gaussian(size, sigma) is positive, symmetric, sums to 1, decreases away from its centre and is the sampled Gaussian with standard deviation sigma; ricker(t, f0) is even in t with its maximum 1 at t = 0, two zeros, two troughs of depth 2 exp(-3/2) and no constant component.", "quantifier": "all images, all sizes and widths, all frequencies and times", "why_tests_cant": "quantifies over all images and real parameters", "anchors": ["src/cr/sparse/_src/vision/kernels.py: KERNEL_BOX_3X3, KERNEL_LAPLACIAN_3X3, KERNEL_SHARPEN_3X3, KERNEL_SOBEL_X, KERNEL_SOBEL_Y, kernel_gaussian", "src/cr/sparse/_src/geo/wavelets.py: ricker"]}
{"id": "C76", "title": "Progress trackers record every call", "statement": "After any sequence of calls a ProgressTracker holds one entry per call, in order, of the iteration number, the norm of the solution and the norm of the residual, and of the signal to noise ratio exactly when a reference signal was given; the norm is that of the signal the solver state represents (dense or by its support); the ratio is 10 log10 of the energies, finite for every state and larger for better recoveries; a status line is printed at every multiple of the chosen period and at the end, the closing line exactly at the end.", "quantifier": "all sequences of calls, all solver states, all reference signals, all periods", "why_tests_cant": "quantifies over all call histories and real vectors", "anchors": ["src/cr/sparse/_src/tracker.py: ProgressTracker, get_x_norm, get_r_norm, get_x_like, signal_noise_ratio"]}
{"id": "C77", "title": "Angles and nearest neighbours of clustered points", "statement": "angles_between_points gives a symmetric table of the angles in degrees, in [0, 180], between nonzero points, 0 exactly for positive multiples and 180 for negative ones. For points stored cluster after cluster, min_angles_inside_cluster / nearest_neighbors_inside_cluster give for each point the smallest angle to another point of its cluster and a point that attains it; the outside versions the same over all points of other clusters; sorted_neighbors lists all other points by increasing angle, and inn_positions the place of the first one of the same cluster, which attains the smallest angle inside the cluster.", "quantifier": "all point sets, all cluster sizes, all tables of angles, all points", "why_tests_cant": "quantifies over all real point sets and partitions", "anchors": ["src/cr/sparse/_src/cluster/ssc/util.py: angles_between_points, min_angles_inside_cluster, min_angles_outside_cluster, nearest_neighbors_inside_cluster, nearest_neighbors_outside_cluster, sorted_neighbors, inn_positions"]}
{"id": "C78", "title": "Random sensing matrices have the promised columns, rows and shapes", "statement": "gaussian_mtx and rademacher_mtx have unit columns (or variance 1/N, entries +-1) in the requested shape; sparse_binary_mtx has exactly d equal nonzero entries in every column; random_onb returns an orthonormal basis and random_orthonormal_rows orthonormal rows, independent of the signs chosen by the QR factorisation; the operators wrapping them advertise their shape and multiply with the matrix and its transpose.", "quantifier": "all draws of the random generator, all sizes, all QR factorisations", "why_tests_cant": "must hold for every random draw and every valid factorisation", "anchors": ["src/cr/sparse/_src/dict/simple.py: gaussian_mtx, rademacher_mtx, sparse_binary_mtx, random_onb, random_orthonormal_rows", "src/cr/sparse/_src/lop/random.py"]}
{"id": "C79", "title": "Frame bounds and Grassmannian frames", "statement": "frame_bounds, upper_frame_bound and lower_frame_bound give numbers A and B with B^2 |x|^2 <= sum of squared inner products of x with the atoms <= A^2 |x|^2 for every signal x, and both are attained. build_grassmannian_frame returns a frame of the shape of the initial one with unit-norm atoms, whose Gram matrix is that of the initial frame when no iteration is made; each iteration shrinks the inner products above one threshold, expands those below another, truncates the rank and renormalises the diagonal.", "quantifier": "all dictionaries, all signals, all initial frames, thresholds, shrink factors and iteration counts, all valid singular value decompositions", "why_tests_cant": "quantifies over all signals, all dictionaries and all valid factorisations", "anchors": ["src/cr/sparse/_src/dict/props.py: frame_bounds, upper_frame_bound, lower_frame_bound", "src/cr/sparse/_src/lop/props.py: upper_frame_bound", "src/cr/sparse/_src/dict/grass.py: build_grassmannian_frame"]}
{"id": "C80", "title": "Operators on arrays with any number of dimensions", "statement": "An operator built with an axis argument, applied to an array with any number of dimensions, maps every vector of entries along that axis (counted from the front or from the end) and leaves the other axes alone, and its adjoint is the adjoint for the inner product of arrays. reshape and arr2vec keep the entries in the documented order and are undone by their adjoint. convolve2D and convolveND convolve along the given axes, shifted by the offsets, with the adjoint the correlation.", "quantifier": "all shapes with any number of dimensions, all axes, all arrays, all matrices, index sets, filters and offsets", "why_tests_cant": "quantifies over the number of dimensions, all shapes, all axes and all arrays", "anchors": ["src/cr/sparse/_src/lop/util.py: apply_along_axis", "src/cr/sparse/_src/lop/basic.py: matrix, restriction", "src/cr/sparse/_src/lop/dot.py: dot", "src/cr/sparse/_src/lop/reshape.py: reshape, arr2vec", "src/cr/sparse/_src/lop/conv.py: convolve2D, convolveND", "src/cr/sparse/_src/lop/fft.py: fft"]}
{"id": "C81", "title": "Thresholding and projections in floating point", "statement": "In floating point arithmetic shrink and soft_threshold return the exact soft threshold rounded once, set exactly the entries of magnitude at most the threshold to zero, and never increase or reorder entries; they stay non-expansive. project_to_box keeps the entries inside the box and never leaves the box; project_to_real_upper_limit is exact; hard_threshold_percentile keeps exactly the entries above the percentile.", "quantifier": "all binary floating point formats with gradual underflow, all vectors of numbers of the format, all thresholds, radii and percentiles (no overflow)", "why_tests_cant": "quantifies over all floating point vectors and formats", "anchors": ["src/cr/sparse/_src/opt/shrinkage.py: shrink", "src/cr/sparse/_src/opt/projections.py: project_to_box, project_to_real_upper_limit", "src/cr/sparse/_src/geo/thresholding.py: soft_threshold, hard_threshold, hard_threshold_percentile"]}
{"id": "C82", "title": "Sums, inner products, norms and operators in floating point", "statement": "Whatever order the additions are made in, and whether or not multiplications are fused with additions, a computed sum or inner product is within the usual bound of the exact value, two runs agree up to twice that bound, sums of small integers are exact, a computed norm is not negative, zero only for zero and relatively accurate; a matrix operator and its transpose agree in the inner product up to rounding, and the dot test accepts them; differences undo running sums up to rounding.", "quantifier": "all binary floating point formats with gradual underflow, all sizes, all vectors and matrices, all evaluation orders (no overflow)", "why_tests_cant": "quantifies over all evaluation orders of reductions of every size", "anchors": ["src/cr/sparse/_src/lop/basic.py: sum, real_matrix, cumsum, heaviside, inv_heaviside", "src/cr/sparse/_src/lop/util.py: dot_test_real"]}
{"id": "C83", "title": "The residual kept by the solvers in floating point", "statement": "Matching pursuit and conjugate gradients update their residual instead of recomputing it; in floating point arithmetic, after any number of iterations, the residual they hold (and test against the tolerance) differs from y - A x only by the accumulated rounding errors of the updates, bounded by numbers the solver has computed.", "quantifier": "all binary floating point formats with gradual underflow, all matrices, all right hand sides, all numbers of iterations, all evaluation orders (no overflow)", "why_tests_cant": "quantifies over all runs of any length", "anchors": ["src/cr/sparse/_src/pursuit/mp.py: solve", "src/cr/sparse/_src/opt/cg.py: solve_from"]}
{"id": "C84", "title": "Recovery by CoSaMP and subspace pursuit", "statement": "For noisy measurements of a K-sparse signal through a dictionary with a small restricted isometry constant (of order 4K for CoSaMP, 3K for subspace pursuit), the error of the returned signal is at most a power of a rate below one, with one factor for each iteration, times the initial error, plus a multiple of the noise; without noise the signal is returned exactly after finitely many iterations.", "quantifier": "all dictionaries with such a restricted isometry constant, all K, all K-sparse signals, all noise vectors, all least squares solvers, all tolerances and limits", "why_tests_cant": "quantifies over all signals and all dictionaries satisfying the isometry", "anchors": ["src/cr/sparse/_src/pursuit/cosamp.py: matrix_solve, operator_solve", "src/cr/sparse/_src/pursuit/sp.py: matrix_solve, operator_solve"]}
{"id": "C85", "title": "Power iterations and the norm estimate converge", "statement": "For a symmetric operator with one dominant eigenvalue and a start that is not orthogonal to its eigenvector, power_iterations never divides by zero, its estimate approaches the eigenvalue and its vector the eigenvector at the rate given by the spectral gap, and with a positive tolerance it stops by itself after a number of iterations that does not depend on max_iters; normest approaches the largest singular value in the same way.", "quantifier": "all sizes, all symmetric operators with a dominant eigenvalue (all operators with a simple largest singular value), all starts not orthogonal to it, all limits and tolerances", "why_tests_cant": "quantifies over all operators and starts and over any number of iterations", "anchors": ["src/cr/sparse/_src/sls/power.py: power_iterations", "src/cr/sparse/_src/lop/normest.py: normest"]}
{"id": "C86", "title": "The l1 solvers recover sparse vectors from incoherent measurements", "statement": "When the columns of the measurement operator have equal norm and small mutual coherence, a sparse vector is the only solution of the basis pursuit problem for its measurements, and what the l1 solvers return is close to it (in the l1 norm, with explicit constants): YALL1 for basis pursuit and denoising and SPGL1 for the lasso once stopped by their tests, the first order driver on the l1 ball at rate 1/k, ISTA and FISTA after k iterations in any orthonormal basis, and l1_ls once stopped by its duality gap; also for nearly sparse vectors and noisy measurements.", "quantifier": "all sizes, all operators with such columns, all sparse or nearly sparse vectors, all noise vectors within the stated bound, all starts, limits and tolerances", "why_tests_cant": "quantifies over all operators and vectors and over any number of iterations", "anchors": ["src/cr/sparse/_src/cvx/adm/yall1.py: solve", "src/cr/sparse/_src/cvx/spgl1.py: solve_lasso_from", "src/cr/sparse/_src/fom/lasso.py: lasso", "src/cr/sparse/_src/sls/ista.py: solve_from", "src/cr/sparse/_src/sls/fista.py: solve_from", "src/cr/sparse/_src/cvx/l1ls.py: solve_from"]}
{"id": "C87", "title": "The iterates of the convex solvers converge to a solution", "statement": "The l1 regularised least squares, lasso and YALL1 problems have solutions, and the vectors computed by the solvers converge to them, not only their objective values: ISTA to one minimiser, YALL1 to one solution with its dual variable converging to a certificate, FISTA and the first order driver to the set of minimisers. With a positive tolerance ISTA stops by itself whatever the iteration limit, and so does YALL1 whenever zero is not a solution.", "quantifier": "all sizes, operators, data, starting points, admissible steps, regularisation parameters, tolerances, limits and numbers of iterations, and all minimisers when there are several", "why_tests_cant": "a statement about limits over all iterations for all operators, including those with many solutions", "anchors": ["src/cr/sparse/_src/sls/ista.py: solve_from", "src/cr/sparse/_src/sls/fista.py: solve_from", "src/cr/sparse/_src/cvx/tfocs/lasso.py: lasso, l1rls", "src/cr/sparse/_src/cvx/adm/yall1.py: solve"]}
{"id": "C88", "title": "CG, PCG and LSQR converge at the rate given by the condition number", "statement": "On a symmetric positive definite system CG reduces the error in the energy norm after k iterations by 2 ((sqrt kappa - 1) / (sqrt kappa + 1))^k, where kappa is the condition number, its residual accordingly, and it has stopped by the iteration at which this bound meets the tolerance; PCG does so with the condition number of the preconditioned operator; LSQR does so for the gap of the (damped) least squares objective with the squared ratio of the nonzero singular values, also for rectangular and rank deficient operators, so that its convergence is always geometric.", "quantifier": "all sizes, all symmetric positive definite operators, preconditioners, all linear operators (LSQR), right hand sides, starting points, damping, tolerances and numbers of iterations", "why_tests_cant": "a bound over all iterations and all operators; one operator shows one spectrum", "anchors": ["src/cr/sparse/_src/opt/cg.py: solve_from", "src/cr/sparse/_src/opt/pcg.py: solve_from", "src/cr/sparse/_src/sls/lsqr.py: lsqr"]}
{"id": "C89", "title": "Power iterations and the norm estimate converge on every positive semidefinite operator", "statement": "For every symmetric positive semidefinite operator and every start outside its null space, power iterations are defined, their estimate converges geometrically to the largest eigenvalue with an eigenvector not orthogonal to the start, their vector converges to an eigenvector up to sign, and every positive tolerance is met after a number of iterations independent of the limit; repeated eigenvalues do no harm. normest does so for every operator with an adjoint and its limit is the operator norm, which is attained, when the start is not orthogonal to a vector attaining it.", "quantifier": "all sizes, all symmetric positive semidefinite operators, all operators with an adjoint, starts, limits and tolerances", "why_tests_cant": "convergence over all iterations for all spectra, including those without a gap; a test sees one operator", "anchors": ["src/cr/sparse/_src/sls/power.py: power_iterations", "src/cr/sparse/_src/lop/normest.py: normest"]}
{"id": "C90", "title": "Matching pursuit converges on every dictionary and OMP recovers sparse signals from noisy measurements", "statement": "For every dictionary of unit atoms, spanning or not and dependent or not, there is a rate below one, depending on the dictionary only, at which the approximation of matching pursuit approaches the best approximation of the signal by the atoms, its residual energy the least possible one, and its coefficients those of a best approximation. On Phi x + e, with atoms of coherence at most mu, K nonzero entries in x and all correlations of e with atoms at most eps, K steps of orthogonal matching pursuit find exactly the support of x if (1 - (2K-1) mu) |x_i| > 2 eps for each of them; each coefficient is then within eps / (1 - (K-1) mu) of the truth and the residual is no larger than e. The operator variant does so for every relative tolerance below the level at which it would stop early.", "quantifier": "all sizes, dictionaries of unit atoms, signals, sparsity levels, noise vectors, limits and tolerances", "why_tests_cant": "convergence over all iterations and recovery over all signals and noise vectors; a test sees one draw", "anchors": ["src/cr/sparse/_src/pursuit/mp.py: solve", "src/cr/sparse/_src/pursuit/omp.py: matrix_solve, operator_solve"]}
{"id": "C91", "title": "The spectral projected gradient method reaches the minimum of a smooth convex function over a convex set", "statement": "For a convex function with a Lipschitz gradient (constant up to about 10^5), bounded level sets and a projection onto a convex set, the values of the iterates of the spectral projected gradient solver converge to the minimum over the set: for every accuracy there is a number of iterations after which every iterate is feasible and within that accuracy of the minimum, whatever the tolerances and budgets; with tolerances that are not positive and budgets above it, the solver returns such a point. With a positive progress tolerance every run ends after a number of iterations that does not depend on the budgets.", "quantifier": "all dimensions, convex sets, projections, smooth convex functions, starting points, memory sizes, sufficient decrease parameters, accuracies, tolerances and budgets", "why_tests_cant": "convergence over all iterations of a nonmonotone method; a test sees finitely many steps of one problem", "anchors": ["src/cr/sparse/_src/opt/spg.py: solve_from, line_search"]}
{"id": "C92", "title": "k-means never cycles and reaches a locally optimal clustering", "statement": "Every k-means iteration reduces the sum of squared distances, or changes nothing except that centroids left without points move to the origin. The iteration therefore never cycles: after at most k^n iterations on n points the centroids, the assignment and the distortion stay the same for ever, each centroid is then the mean of its points and each point is assigned to a nearest centroid, so neither moving the centroids nor reassigning the points reduces the sum of squares. With a threshold so negative that no rise of the distortion stops the run, and a limit of at least k^n iterations, the solver returns this clustering.", "quantifier": "all sets of points, numbers of clusters, initial centroids, thresholds, limits and iterations", "why_tests_cant": "absence of cycles concerns all points, ties and empty clusters; a test sees one run", "anchors": ["src/cr/sparse/_src/cluster/kmeans.py: kmeans_with_seed, find_assignment, find_new_centroids"]}
{"id": "C93", "title": "The l1-constrained least squares solver of SPGL1 converges and stops", "statement": "The problem of minimising the residual norm over an l1 ball has a solution, and the misfits of the iterates of the SPGL1 lasso solver converge to its optimal value: for every accuracy there is a number of iterations after which every iterate lies in the ball and is within that accuracy of the optimum, whatever the tolerances and budgets. With a positive tolerance the test on the duality gap ends the run after a number of iterations that does not depend on the budgets, and the returned point meets the tolerance.", "quantifier": "all dimensions, operators with an adjoint, data, radii, starting points, step bounds, memory sizes, sufficient decrease parameters, accuracies, tolerances and budgets; every line search history", "why_tests_cant": "convergence over all iterations of a nonmonotone method; a test sees finitely many steps of one problem", "anchors": ["src/cr/sparse/_src/cvx/spgl1.py: solve_lasso_from, curvy_line_search, lasso_metrics"]}
{"id": "C94", "title": "ISTA and FISTA on complex data", "statement": "ISTA and FISTA run on complex measurements and operators (Fourier sensing): a returned result reports the true residual and meets a tolerance unless the budget is used up; with a step at most the reciprocal of the squared operator norm and a threshold that is the proximal map of a convex regulariser composed with a unitary basis the objective never increases and the excess over every competitor decays like 1/k (ISTA) and 1/k^2 (FISTA). Complex soft thresholding is the proximal map of the sum of the moduli; with it the l1 problem has a solution, the iterates of ISTA converge to one and those of FISTA come arbitrarily close to the set of solutions. A positive tolerance on the change ends ISTA.", "quantifier": "all dimensions, complex operators with an adjoint, unitary bases, complex data, starting points, weights, steps, tolerances, budgets and iterations", "why_tests_cant": "statements about every operator and every iteration, and about limits; a test runs one complex problem for finitely many steps", "anchors": ["src/cr/sparse/_src/sls/ista.py: solve_from, solve", "src/cr/sparse/_src/sls/fista.py: solve_from, solve", "src/cr/sparse/_src/opt/shrinkage.py: soft_threshold"]}
{"id": "C95", "title": "Conjugate gradients on complex data", "statement": "On complex data preconditioned conjugate gradients keeps the true residual and solves every Hermitian positive definite system with a Hermitian positive definite preconditioner in at most as many iterations as unknowns when the initial residual is real; with zero tolerances the solution is exact. In general it does not: the first curvature is formed without a conjugation, so that for some complex right hand sides it returns its starting point unimproved, or needs more iterations than unknowns. The unpreconditioned solver never conjugates and returns its starting point on such data too.", "quantifier": "all dimensions, Hermitian operators and preconditioners, right hand sides, starting points, tolerances and budgets", "why_tests_cant": "finite termination for every Hermitian system needs an argument about all conjugate directions; the defect appears only for residuals with imaginary parts", "anchors": ["src/cr/sparse/_src/opt/pcg.py: solve_from, solve", "src/cr/sparse/_src/opt/cg.py: solve_from"]}
{"id": "C96", "title": "SPGL1 for l1-constrained least squares on complex data", "statement": "With a complex starting vector the SPGL1 lasso solver works for complex operators and measurements: it always returns a vector whose moduli sum to at most tau, with its true residual, gradient, residual norm and a duality gap that bounds the distance to the optimal value; a result returned before the budget is used up meets the residual or the gap tolerance; an iteration that does not move stands on a solution. When the steps are bounded so that ten halvings suffice, or the line searches succeed, the misfits converge to the minimum and every positive tolerance is reached after a bounded number of iterations, although the gap is a complex number of which the modulus is tested. The entry point without a starting vector uses real zeros and raises on complex data; the basis pursuit entry point chooses a start of the right type.", "quantifier": "all dimensions, complex operators with an adjoint, complex data and starting vectors, radii, options, budgets and iterations; all combinations of real and complex operator, data and start", "why_tests_cant": "feasibility, duality and convergence for every complex operator and every history of line searches; tests run a few complex problems to a tolerance", "anchors": ["src/cr/sparse/_src/cvx/spgl1.py: project_to_l1_ball, curvy_line_search, lasso_metrics, solve_lasso_from, solve_lasso, solve_bpic, solve_bp"]}
{"id": "C97", "title": "Greedy sparse recovery on complex data", "statement": "For complex operators and complex signals CoSaMP and subspace pursuit select coefficients by modulus, return K valid atom indices with one coefficient each and the true residual of exactly these with its true energy, never exceed the iteration budget, stop only on a small residual, the budget or a repeated support, and terminate on every signal that is not zero. Subspace pursuit returns the best approximation by the atoms it names, with a residual orthogonal to each. Their loops accept exactly the data whose type agrees with the real flag of the operator. OMP, MP, IHT and HTP do not work on complex data: OMP measures the residual without conjugation and can stop with a large residual reported as zero, and its triangular factor belongs to another matrix; MP loses the imaginary parts of the coefficients and may not iterate at all; IHT and HTP raise.", "quantifier": "all dimensions, complex dictionaries, signals, sparsity levels, budgets, tolerances and iterations; all combinations of real and complex operator and data", "why_tests_cant": "the selected supports depend on every entry of the complex correlations; tests use real Gaussian dictionaries", "anchors": ["src/cr/sparse/_src/pursuit/cosamp.py: operator_solve", "src/cr/sparse/_src/pursuit/sp.py: operator_solve", "src/cr/sparse/_src/pursuit/omp.py: operator_solve", "src/cr/sparse/_src/pursuit/mp.py: operator_solve", "src/cr/sparse/_src/pursuit/iht.py: operator_solve", "src/cr/sparse/_src/pursuit/htp.py: operator_solve", "src/cr/sparse/_src/pursuit/util.py: largest_indices, abs_max_idx, gram_chol_update"]}
{"id": "C98", "title": "LSQR, power iterations and the norm estimate on complex data", "statement": "For a complex operator whose trans is its conjugate transpose, LSQR reports after every iteration the true norms of its residual, of its gradient and of its step and exact operation counts, never divides by zero, ends within min(m, n) iterations, minimises the damped objective over the complex Krylov space with bidiagonalisation vectors that are orthonormal in the complex inner product, decreases the objective, solves the least squares problem with zero tolerances (with least norm from a zero start), and converges at the rate of the condition number. Power iterations on a Hermitian operator return a real estimate that is a Rayleigh quotient and converge from every start outside the null space; the norm estimate converges to the norm. A complex operator with real data and a real start is rejected by LSQR, and a complex operator with a real start by the power iterations.", "quantifier": "all dimensions, complex operators with an adjoint, data, starting points, damping parameters, tolerances, limits and iterations", "why_tests_cant": "orthogonality in C^n and finite termination concern all Krylov spaces; tests use real matrices", "anchors": ["src/cr/sparse/_src/sls/lsqr.py: lsqr", "src/cr/sparse/_src/sls/power.py: power_iterations", "src/cr/sparse/_src/lop/normest.py: normest"]}
{"id": "C99", "title": "The spread operator adds every sample where its table says", "statement": "The forward map of the spread operator adds the sample at (ix, it) to output row k in the column named by the table entry (ix, it, k), and skips the row if the entry is NaN; it is linear and has an adjoint; tables of a wrong shape or with entries that name no column are rejected.", "quantifier": "all input and output dimensions, tables, delta tables and inputs", "why_tests_cant": "the map depends on the whole table; the repository has no test of it", "anchors": ["src/cr/sparse/_src/lop/spread.py: spread_with_table"]}
{"id": "C100", "title": "SPGL1 denoising on complex data reports figures that bound the optimal l1 norm", "statement": "On complex data solve_bpic and solve_bp keep the point, its residual and its gradient together and the point in the l1 ball of the reported radius, change the radius only by Newton steps, count their products, return unless a gradient vanishes, and report figures that bound the l1 norm of every point that fits the data; on real data stored as complex data they do what they do on real data.", "quantifier": "all complex operators with their adjoint, data, noise levels, start vectors and options", "why_tests_cant": "the bound ranges over all points that fit; the duality gap is a complex number whose modulus is reported; the steps depend on the whole history", "anchors": ["src/cr/sparse/_src/cvx/spgl1.py: bpic_metrics", "src/cr/sparse/_src/cvx/spgl1.py: update_xrgf", "src/cr/sparse/_src/cvx/spgl1.py: solve_bpic_from", "src/cr/sparse/_src/cvx/spgl1.py: solve_bpic", "src/cr/sparse/_src/cvx/spgl1.py: solve_bp"]}
{"id": "C101", "title": "The sparsity and overlap printed by analyze_solution are what they claim", "statement": "analyze_solution prints norms for the parts of the problem that are known, the least number of positions holding the requested share of the energy of the original and of the reconstruction, and the share of dominating positions they have in common, between 0 and 1; an exact reconstruction gets 1.", "quantifier": "all problems, reconstructions and percentages", "why_tests_cant": "minimality ranges over all sets of positions; ties, zero vectors and percentages are unbounded", "anchors": ["src/cr/sparse/_src/problems/problems.py: analyze_solution", "src/cr/sparse/_src/problems/spec.py: Problem", "src/cr/sparse/_src/pursuit/util.py: largest_indices"]}
{"id": "C102", "title": "YALL1, the interior point solver and FOCUSS accept complex data", "statement": "The l1 solvers yall1.solve, l1ls.solve and focuss.matrix_solve_noiseless run on complex operators and data, like the other solvers, and on real data.", "quantifier": "all element types of operator, data and starting points, whatever their values and shapes", "why_tests_cant": "the rejection depends on types only and holds for all values; tests with real data pass", "anchors": ["src/cr/sparse/_src/cvx/adm/yall1.py: solve", "src/cr/sparse/_src/cvx/l1ls.py: solve", "src/cr/sparse/_src/cvx/focuss.py: matrix_solve_noiseless", "src/cr/sparse/_src/opt/pcg.py: solve_from"]}
{"id": "C103", "title": "First order solvers on complex data", "statement": "fom, l1rls and lasso solve their problems over complex vectors: every point is in the domain of the prox-capable function, cached products, gradients and values are those of the points, the solver ends within its limit, with the exact Lipschitz constant L the objective of iterate k is within 2 L |x0 - u|^2/(k+1)^2 of the minimum, and real data stored as complex are solved as real ones.", "quantifier": "all sizes, complex operators with their adjoint, data, starting points, options, smooth convex and prox-capable functions", "why_tests_cant": "rates and invariants hold for all operators and iterations; tests use real data", "anchors": ["src/cr/sparse/_src/fom/fom.py: fom", "src/cr/sparse/_src/fom/l1rls.py: l1rls", "src/cr/sparse/_src/fom/lasso.py: lasso", "src/cr/sparse/_src/opt/proximal_ops/lpnorms.py: prox_l1, prox_l1_ball", "src/cr/sparse/_src/opt/projectors/lpballs.py: proj_l1_ball"]}
{"id": "C104", "title": "Projections, proximal points and thresholding of complex vectors", "statement": "On complex vectors project_to_ball, project_to_box, project_to_real_upper_limit, proj_l2_ball and proj_affine return the unique nearest point of their set and do not increase distances; prox_l2 returns the proximal point and the value of its function; hard_threshold and half_threshold minimise their penalised distance and keep the entries whose modulus reaches the threshold, as do the percentile variants; shrink reduces the modulus; real data stored as complex are treated as real ones.", "quantifier": "all complex vectors of every length, radii, centres, limits, thresholds, affine systems, competing points of the sets", "why_tests_cant": "optimality is over all points of the set and all vectors; tests use real data", "anchors": ["src/cr/sparse/_src/opt/projections.py: project_to_ball, project_to_box, project_to_real_upper_limit", "src/cr/sparse/_src/opt/shrinkage.py: shrink", "src/cr/sparse/_src/opt/projectors/lpballs.py: proj_l2_ball", "src/cr/sparse/_src/opt/projectors/basic.py: proj_affine, proj_box", "src/cr/sparse/_src/opt/proximal_ops/lpnorms.py: prox_l2", "src/cr/sparse/_src/geo/thresholding.py: hard_threshold, half_threshold, hard_threshold_percentile, soft_threshold_percentile, half_threshold_percentile"]}
{"id": "C105", "title": "Greedy pursuits for matrices on complex data", "statement": "matrix_solve of SP, OMP, MP, CoSaMP, IHT and HTP accepts complex matrices and signals; what it returns is consistent (valid columns, the residual of the returned coefficients, least squares optimal for SP and OMP), it stops because the residual is small or the limit of iterations is reached, and a signal that is a multiple of one column is recovered with that column.", "quantifier": "all complex matrices, signals, sparsities, limits, tolerances, exact least squares solvers", "why_tests_cant": "holds for every dictionary and every signal; the tests use real data", "anchors": ["src/cr/sparse/_src/pursuit/sp.py: matrix_solve", "src/cr/sparse/_src/pursuit/omp.py: matrix_solve", "src/cr/sparse/_src/pursuit/mp.py: matrix_solve", "src/cr/sparse/_src/pursuit/cosamp.py: matrix_solve", "src/cr/sparse/_src/pursuit/iht.py: matrix_solve", "src/cr/sparse/_src/pursuit/htp.py: matrix_solve"]}
