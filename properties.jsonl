{"id": "C01", "title": "Polynomial arithmetic agrees with pointwise arithmetic", "statement": "For polynomials built from any coefficient tuples (including the empty one), evaluating p+q, p-q, -p, c*p, p*q, p*Monomial(m) and p+Constant(c) at any point gives the sum, difference, negation, multiple, product, x^m-multiple and c-shift of the values of the operands at that point.", "quantifier": "all coefficient tuples of any length, all scalars, all evaluation points, all monomial degrees", "why_tests_cant": "coefficient tuples have unbounded length and operands may differ in degree in both directions; samples only hit some length patterns", "anchors": ["src/linpde_gp/functions/_polynomial.py: Polynomial, RationalPolynomial, Monomial"]}
{"id": "C02", "title": "differentiate and integrate are calculus", "statement": "p.differentiate() evaluates to the derivative of p at every point; p.integrate() is an antiderivative of p that vanishes at 0; differentiating an integral returns the original coefficient tuple; LebesgueIntegral of a polynomial over an interval is its Riemann integral.", "quantifier": "all coefficient tuples, all points, all intervals", "why_tests_cant": "a statement about derivatives and integrals at every real point for every degree", "anchors": ["src/linpde_gp/functions/_polynomial.py: Polynomial.differentiate, Polynomial.integrate", "src/linpde_gp/functions/_linfunctls.py: LebesgueIntegral handler for Polynomial"]}
{"id": "C03", "title": "Exact division with remainder", "statement": "divmod(p, d) of rational polynomials fails with ZeroDivisionError exactly when a division step is needed and the stored leading coefficient of d is zero; otherwise it returns (q, r) with p = q*d + r exactly, where r has no non-zero coefficient at or above the degree of d. (The reported r.degree is not reduced: r.degree < d.degree fails.)", "quantifier": "all pairs of rational coefficient tuples", "why_tests_cant": "unbounded degrees; loop invariant over all iterations", "anchors": ["src/linpde_gp/functions/_polynomial.py: _divmod_rational_polynomial"]}
{"id": "C04", "title": "Monomial division succeeds exactly on multiples", "statement": "p // Monomial(m) raises ValueError if and only if m exceeds p.degree or one of the m lowest coefficients is non-zero; otherwise the result times Monomial(m) is p.", "quantifier": "all coefficient tuples and all monomial degrees", "why_tests_cant": "iff statement over unbounded tuples", "anchors": ["src/linpde_gp/functions/_polynomial.py: __floordiv__ handlers"]}
{"id": "C05", "title": "Piecewise functions evaluate the piece that contains the point", "statement": "A Piecewise function evaluates, at a point of its knot range, to the value of the (unique) piece whose half-open cell contains the point, and to 0 outside; scaling distributes over pieces; PiecewiseLinear.from_points returns y_i at every x_i and is continuous. (PiecewiseConstant returns 0 instead of ys[0] at the leftmost knot.)", "quantifier": "all increasing knot vectors of any length, all piece functions, all points", "why_tests_cant": "boundary behaviour at each knot for every number of pieces", "anchors": ["src/linpde_gp/functions/_piecewise.py: Piecewise, PiecewiseLinear, PiecewiseConstant"]}
{"id": "C06", "title": "Integrals of piecewise functions", "statement": "LebesgueIntegral(lower, upper) of a Piecewise function returns the integral of the function over [lower, upper] whenever both bounds lie in the knot range. (The code satisfies this only if upper is a knot; otherwise it drops or misuses pieces.)", "quantifier": "all knot vectors, all pieces, all pairs of bounds", "why_tests_cant": "index arithmetic over every position of the bounds relative to the knots", "anchors": ["src/linpde_gp/functions/_linfunctls.py: LebesgueIntegral handler for Piecewise"]}
{"id": "C07", "title": "Sums and scalings of functions keep their meaning", "statement": "Building sums, differences and scalar multiples of functions (with the library's flattening of nested sums, folding of nested scalars, and simplification of Zero and Constant operands) never changes the value of the expression at any point.", "quantifier": "all function expressions built by +, -, * of any depth, all points", "why_tests_cant": "expression trees of unbounded depth and all special-case combinations", "anchors": ["src/linpde_gp/functions/_jax.py", "src/linpde_gp/functions/_jax_arithmetic.py", "src/linpde_gp/functions/_constant.py"]}
{"id": "C08", "title": "Hat-function basis of the linear interpolation basis", "statement": "The basis functions of UnivariateLinearInterpolationBasis are non-negative, equal 1 at their own node and 0 at all other nodes, vanish outside their support, sum to 1 on the whole domain when zero_boundary is False, and eval_elem(i, x) equals component i of the vector evaluation.", "quantifier": "all strictly increasing grids with at least 3 points, all indices, all points, both zero_boundary settings", "why_tests_cant": "continuum of points and grids of every length", "anchors": ["src/linpde_gp/functions/bases/_fem.py: UnivariateLinearInterpolationBasis"]}
{"id": "C09", "title": "L2 projection normaliser is the mass matrix", "statement": "The normaliser of the L2 projection onto the hat basis contains in entry (i,j) the integral of the product of basis functions i and j over the domain, the unnormalised projection of a function is the vector of its inner products with the basis functions, the normalised projection has a residual orthogonal to every basis function, and a constant is projected to the constant coefficient vector when zero_boundary is False.", "quantifier": "all strictly increasing grids, all index pairs, both zero_boundary settings", "why_tests_cant": "equality of integrals for every grid", "anchors": ["src/linpde_gp/linfunctls/projections/l2/_fem.py"]}
{"id": "C10", "title": "Weak form of the Laplacian is the stiffness matrix", "statement": "The weak form of the Laplacian on hat functions has entries given by the integrals of products of derivatives. (The code uses spacings shifted by one index, so this holds on uniform grids only.)", "quantifier": "all strictly increasing grids and index pairs", "why_tests_cant": "all grids; the defect is invisible on uniform grids", "anchors": ["src/linpde_gp/linfunctls/weak_forms/_laplacian.py"]}
{"id": "C11", "title": "Boundary parts cover exactly the topological boundary", "statement": "The union of the parts returned by boundary of an interval, box or Cartesian product of such is exactly the topological boundary of the set (relative to the product structure, a point being its own boundary).", "quantifier": "all dimensions, all bounds, all points", "why_tests_cant": "set equality in every dimension", "anchors": ["src/linpde_gp/domains/_box.py", "src/linpde_gp/domains/_cartesian_product.py", "src/linpde_gp/domains/_interval.py", "src/linpde_gp/domains/_point.py"]}
{"id": "C12", "title": "Domain membership, indexing and volume", "statement": "The domain constructors accept exactly bounds with lower <= upper of floating dtype and fail with the documented error classes otherwise; an interval, point or box contains an array iff it has the domain's shape and every coordinate lies between its bounds; factor access and selection return the factors of the given positions; a box is the product of its factors; volume is the product of the factors' volumes, is non-negative, and is zero exactly when a factor is degenerate. (Membership in a general Cartesian product raises NotImplementedError; an interval indexed out of range returns an exception object; asdomain rejects two integer vectors with TypeError.)", "quantifier": "all dimensions, bounds and points", "why_tests_cant": "all dimensions and boundary values", "anchors": ["src/linpde_gp/domains/_box.py", "src/linpde_gp/domains/_cartesian_product.py", "src/linpde_gp/domains/_interval.py", "src/linpde_gp/domains/_point.py"]}
{"id": "C13", "title": "Domain equality identifies domains", "statement": "Comparing two domains of the same form (same class, same number of factors, same array shape) with == returns True exactly if they are the same set, and domains of different classes are never equal. (Without equal forms this fails: Cartesian products compare equal to any product they are a prefix of, boxes and points compare after broadcasting.)", "quantifier": "all pairs of domains", "why_tests_cant": "all pairs, including different numbers of factors", "anchors": ["src/linpde_gp/domains/_cartesian_product.py: CartesianProduct.__eq__", "src/linpde_gp/domains/_point.py: Point.__eq__", "src/linpde_gp/domains/_interval.py: Interval.__eq__", "src/linpde_gp/domains/_box.py: Box.__eq__"]}
{"id": "C14", "title": "Uniform grids stay inside the domain", "statement": "uniform_grid(n, inset) of an interval returns n points that start at lower+inset, end at upper-inset, are evenly spaced, and all lie in the domain whenever 0 <= inset <= half the width; the box grid is the tensor product of the factor grids with exactly the requested shape, collapsed dimensions contributing one point, and products of intervals, points and boxes use the grid of the equal box. (A box factor with a collapsed side makes the product grid fail with TypeError; nested products raise NotImplementedError.)", "quantifier": "all bounds, sizes, insets, dimensions", "why_tests_cant": "all sizes and dimensions", "anchors": ["src/linpde_gp/domains/_interval.py: uniform_grid", "src/linpde_gp/domains/_box.py: uniform_grid"]}
{"id": "C15", "title": "Block matrices behave like the dense matrix they display", "statement": "A BlockMatrix accepts exactly the block layouts whose row heights and column widths agree; matrix product, transpose and densification all describe the matrix obtained by placing the blocks side by side; the same holds for concatenated operators along either axis.", "quantifier": "all block grids, all block sizes, all vectors", "why_tests_cant": "every grid shape and block size", "anchors": ["src/linpde_gp/linops/_block.py: BlockMatrix", "src/linpde_gp/linops/_concatenated.py: ConcatenatedLinearOperator"]}
{"id": "C16", "title": "2x2 block operator: structure-exploiting operations are correct", "statement": "For the 2x2 block operator in every configuration it accepts (missing off-diagonal blocks, symmetric completion), product, transpose, trace, determinant, densification and Cholesky factor agree with the dense matrix [[A,B],[C,D]].", "quantifier": "all block sizes, all blocks (A invertible where the Schur complement is used), all flag combinations the constructor accepts", "why_tests_cant": "all sizes and all branch combinations", "anchors": ["src/linpde_gp/linops/_block.py: BlockMatrix2x2"]}
{"id": "C17", "title": "2x2 block operator: solve and Schur update solve the system", "statement": "solve(b) returns x with [[A,B],[C,D]] x = b in every branch (block diagonal, lower triangular, upper triangular, SPD, general), and schur_update(A^{-1}u, v) returns the solution for (u, v).", "quantifier": "all block sizes, all right-hand sides, all branches", "why_tests_cant": "all sizes and branches", "anchors": ["src/linpde_gp/linops/_block.py: BlockMatrix2x2._solve, schur_update"]}
{"id": "C18", "title": "Covariance array and matrix views agree", "statement": "Entry (i, j) of the matrix view of a covariance equals the array entry at the multi-indices obtained by C-order unravelling of i and j; converting one representation into the other and back is the identity; sums, differences and scalar multiples commute with both views.", "quantifier": "all shapes of any rank, all entries", "why_tests_cant": "shapes of unbounded rank", "anchors": ["src/linpde_gp/randvars/_covariance.py"]}
{"id": "C19", "title": "Conditioning a normal random variable", "statement": "condition_normal_on_observations returns the Gaussian conditional: mean m + S A^T G^-1 (y - A m - b), covariance S - S A^T G^-1 A S with G = A S A^T + noise covariance; the result covariance is symmetric positive semi-definite and never exceeds the prior's; conditioning on two independent observations one after the other equals conditioning on both at once. (A 1-D transform without noise fails with TypeError.)", "quantifier": "all dimensions, means, covariances, observation operators and values with invertible Gram matrix", "why_tests_cant": "all dimensions and inputs", "anchors": ["src/linpde_gp/randvars/_normal.py: condition_normal_on_observations"]}
{"id": "C20", "title": "Posterior of a GP given one batch of observations", "statement": "ConditionalGaussianProcess.from_observations yields mean m(x) + k(x,L) G^-1 (Y - Lm - E[b]) and covariance k(x,x') - k(x,L) G^-1 k(L,x') with G = LkL* + Cov[b]; without noise the posterior mean reproduces the observations and the posterior variance of every observed functional is zero.", "quantifier": "all priors, functionals, numbers of observations and query points with invertible Gram matrix", "why_tests_cant": "all sizes and inputs", "anchors": ["src/linpde_gp/randprocs/_gaussian_process/_conditional.py: ConditionalGaussianProcess.from_observations, Mean, CovarianceFunction"]}
{"id": "C21", "title": "Incremental conditioning equals batch conditioning", "statement": "Conditioning on any sequence of observation blocks one after the other gives the same representer weights, posterior mean and posterior covariance as conditioning on all of them at once, whatever the number and sizes of the blocks.", "quantifier": "all sequences of observation blocks of any length and sizes (histories), with invertible Gram matrices", "why_tests_cant": "quantifies over all histories of condition_on_observations calls", "anchors": ["src/linpde_gp/randprocs/_gaussian_process/_conditional.py: condition_on_observations", "src/linpde_gp/linops/_block.py: schur_update"]}
{"id": "C22", "title": "Order of observations does not matter", "statement": "Conditioning on the same observation blocks in a different order gives the same posterior mean and covariance functions.", "quantifier": "all permutations of all observation sequences", "why_tests_cant": "all permutations of all histories", "anchors": ["src/linpde_gp/randprocs/_gaussian_process/_conditional.py: condition_on_observations"]}
{"id": "C23", "title": "Posterior covariance is a covariance", "statement": "For every posterior reachable by conditioning, every covariance matrix it assigns to query points is symmetric positive semi-definite and is bounded above (in the Loewner order) by the prior's; more data never increases variance.", "quantifier": "all priors, histories and query points", "why_tests_cant": "matrix inequality for all sizes", "anchors": ["src/linpde_gp/randprocs/_gaussian_process/_conditional.py: CovarianceFunction"]}
{"id": "C24", "title": "Linear functionals commute with conditioning", "statement": "Applying a linear functional or operator to a conditioned process gives the same Gaussian as conditioning the transformed joint prior: mean L m + (L k L_a^*) w and covariance LkL* - (L k L_a^*) G^-1 (...)^T.", "quantifier": "all functionals, priors and histories", "why_tests_cant": "all sizes and histories", "anchors": ["src/linpde_gp/randprocs/_gaussian_process/_conditional.py: LinearFunctionOperator and LinearFunctional handlers", "src/linpde_gp/randprocs/_gaussian_process/_lintransforms.py"]}
{"id": "C25", "title": "Multi-output posterior covariance evaluation", "statement": "Evaluating the covariance function of a conditioned multi-output process pointwise gives the same numbers as building its covariance operator for the same points. The operator and the mean hold the posterior covariance and mean of every pair of points and outputs, pointwise evaluation agrees on equal outputs. (Violated across outputs: the pointwise update has no cross-output entries and is broadcast; for several points it does not even have a fitting shape, and the jax variant fails.)", "quantifier": "all numbers of outputs and points", "why_tests_cant": "all sizes", "anchors": ["src/linpde_gp/randprocs/_gaussian_process/_conditional.py: CovarianceFunction._evaluate, _evaluate_linop"]}
{"id": "C26", "title": "Validation of observations", "statement": "Observation arguments are rejected exactly when documented: missing or inconsistent functional/points, shapes of Y or noise not matching the functional's output; accepted ones are flattened in C order, and noise mean and covariance enter additively. (For vector-valued processes the required layout of Y differs between point observations and operator observations, and noise must be laid out differently from Y.)", "quantifier": "all combinations of arguments and shapes", "why_tests_cant": "all shape combinations", "anchors": ["src/linpde_gp/randprocs/_gaussian_process/_conditional.py: _preprocess_observations"]}
{"id": "C27", "title": "Galerkin covariance splits into independent parts", "statement": "The Galerkin covariance function equals P k P* + (I-P) k (I-P)*: the projection of the process has the same covariance as before, projection and residual are uncorrelated, and the function is symmetric positive semi-definite if k is; applying the projection to it once or twice, or another projection, gives the covariances this formula implies. Shown in particular for the L2 projection onto linear finite elements and every continuous kernel. (A projection without normalisation is not a projection of functions; applied to its own Galerkin covariance function it returns a cross-covariance that is not the projection of that function.)", "quantifier": "all kernels and projections (P linear, reproducing its basis), all points", "why_tests_cant": "functional identity for all kernels", "anchors": ["src/linpde_gp/randprocs/covfuncs/_galerkin.py"]}
{"id": "C28", "title": "Parametric covariance functions", "statement": "The parametric covariance at (x0, x1) equals phi(x0)^T Sigma phi(x1) in every evaluation branch (scalar features, array and linear-operator features), is symmetric and positive semi-definite, and the parametric process has mean phi(x)^T E[w]. (The stand-alone parametric covariance function is constructed for scalar and matrix-shaped features too, but can then never be evaluated, and its constructor does not check the first shape of the weight covariance.)", "quantifier": "all feature vectors, weights covariances and points", "why_tests_cant": "all sizes and branches", "anchors": ["src/linpde_gp/randprocs/covfuncs/_parametric.py", "src/linpde_gp/randprocs/_gaussian_process/_parametric.py"]}
{"id": "C29", "title": "Tensor-product covariance on grids", "statement": "A tensor product covariance is the product of its factors; on a tensor-product grid (ij indexing) its Kronecker operator equals, entry by entry in C order, the dense covariance matrix. Any other arguments give the dense matrix of all pairs of points; products of symmetric positive semi-definite factors are symmetric positive semi-definite. (With xy indexing the operator describes a permuted grid; an array derived from a grid by slicing or arithmetic raises AttributeError; with several outputs the Kronecker operator has the wrong size; a grid with fewer coordinates than the covariance function is accepted.)", "quantifier": "all numbers of factors, all grid sizes, all factor kernels", "why_tests_cant": "all dimensions and grid sizes", "anchors": ["src/linpde_gp/randprocs/covfuncs/_tensor_product.py"]}
{"id": "C30", "title": "Multi-output covariance layout", "statement": "Independent multi-output and stacked covariance functions have on output pair (i,j) the covariance of the corresponding component (zero off the diagonal for independent outputs), and their operators are the output-major block arrangement of the component operators. (The jax evaluation of stacked covariances is identically zero.)", "quantifier": "all numbers of outputs, points, component kernels", "why_tests_cant": "all sizes", "anchors": ["src/linpde_gp/randprocs/covfuncs/_independent_multi_output.py", "src/linpde_gp/randprocs/covfuncs/_stack.py", "src/linpde_gp/randprocs/crosscov/_stack.py"]}
{"id": "C31", "title": "Point evaluation of one kernel argument", "statement": "Evaluating a Dirac or evaluation functional on argument 1 (0) of a covariance function k gives the cross-covariance k(x, X) (k(X, x)), with operator and array views agreeing. Applying evaluations to both arguments gives the matrix k(X0, X1), and applied to a function they give its values. (Violated for argument 0 by the array path, which computes k(x, X) and hence is right only for symmetric kernels; for Dirac functionals with several outputs and points the operator view is output-major while the array view is point-major.)", "quantifier": "all kernels including non-symmetric ones, all points, all batch shapes", "why_tests_cant": "all kernels and shapes", "anchors": ["src/linpde_gp/randprocs/crosscov/linfunctls/_dirac.py", "src/linpde_gp/randprocs/crosscov/linfunctls/_evaluation.py"]}
{"id": "C32", "title": "Process-vector cross-covariance views and arithmetic", "statement": "Scaled, summed and linearly transformed cross-covariances have both as arrays and as operators the values obtained by transforming the random-vector index; the operator view is the output-major C-order flattening of the array view in both orientations. (Violated: the operator view of a linearly transformed, non-reversed cross-covariance multiplies from the wrong side; the parametric cross-covariance with the process first uses the covariance untransposed.)", "quantifier": "all shapes, orientations, points, linear maps", "why_tests_cant": "all shapes and nestings", "anchors": ["src/linpde_gp/randprocs/crosscov/_pv_crosscov.py", "src/linpde_gp/randprocs/crosscov/_arithmetic.py", "src/linpde_gp/randprocs/crosscov/_parametric.py"]}
{"id": "C33", "title": "Exponentiated-quadratic kernel derivatives", "statement": "For every input dimension, lengthscales, direction and weights, directional derivatives and weighted Laplacians of the ExpQuad kernel with respect to either or both arguments return exactly the corresponding partial derivatives of the kernel; so does every covariance function obtained by further scaling, adding and applying operators. (Violated where no answer is given: two Laplacians with argument 0 first raise AttributeError, repeating an operator on the same argument raises TypeError or RecursionError, and partial derivatives in several dimensions return the object NotImplemented.)", "quantifier": "all dimensions, lengthscales, directions, weights and points, all dispatch paths", "why_tests_cant": "identity of real functions in every dimension", "anchors": ["src/linpde_gp/randprocs/covfuncs/linfuncops/diffops/_expquad.py", "src/linpde_gp/randprocs/covfuncs/linfuncops/diffops/_registry.py"]}
{"id": "C34", "title": "Half-integer Matérn derivative polynomials", "statement": "half_integer_matern_derivative_polynomial(p, n) times exp(-r) is the n-th derivative of the half-integer Matérn radial profile, for every p and n; odd-order coefficients vanish as needed for smoothness, so the monomial divisions in the closed forms succeed exactly for sufficiently large p.", "quantifier": "all p, n and r", "why_tests_cant": "all smoothness parameters and derivative orders", "anchors": ["src/linpde_gp/randprocs/covfuncs/linfuncops/diffops/_matern.py: half_integer_matern_derivative_polynomial"]}
{"id": "C35", "title": "Univariate Matérn kernel derivatives", "statement": "For univariate half-integer Matérn kernels, every combination of directional derivative and weighted Laplacian on the two arguments that the library answers in closed form equals the derivative of the kernel at every pair of points. (Violated for nu=3/2 with second-order operators on both arguments, and nu=1/2 with a Laplacian: the derivative does not exist and the returned 'variance' can be negative; a second operator on the same argument of a kernel on scalars never returns.)", "quantifier": "all p, lengthscales, weights, directions and pairs of points including coincident ones", "why_tests_cant": "all reals including the non-smooth diagonal", "anchors": ["src/linpde_gp/randprocs/covfuncs/linfuncops/diffops/_matern.py", "src/linpde_gp/randprocs/covfuncs/linfuncops/diffops/_registry.py"]}
{"id": "C36", "title": "Multivariate Matérn directional derivatives", "statement": "For half-integer Matérn kernels in any dimension with nu > 1 the directional derivative in either argument equals the derivative of the kernel everywhere, and the mixed directional derivatives equal the second derivatives for nu >= 5/2. (nu = 3/2 is rejected for the mixed derivative; a second directional derivative in the same argument raises TypeError.)", "quantifier": "all dimensions, directions, lengthscales and points including coincident ones", "why_tests_cant": "identity of real functions in every dimension", "anchors": ["src/linpde_gp/randprocs/covfuncs/linfuncops/diffops/_matern.py"]}
{"id": "C37", "title": "Evaluating a covariance function has no side effects", "statement": "Evaluating a differentiated covariance function any number of times, in any order of calls, returns the same values for the same inputs. (Violated by the Matérn directional derivative with vector lengthscales: the first evaluation overwrites the scale factors.)", "quantifier": "all call histories", "why_tests_cant": "quantifies over histories of calls", "anchors": ["src/linpde_gp/randprocs/covfuncs/linfuncops/diffops/_matern.py: HalfIntegerMatern_Identity_DirectionalDerivative._scaled_direction"]}
{"id": "C38", "title": "Wendland polynomials", "statement": "For every dimension d and smoothness k, the Wendland polynomial has value 1 at 0, degree floor(d/2)+3k+1, satisfies the defining recursion phi -> int_r^1 t phi(t) dt starting from (1-r)^l up to normalisation, vanishes at r=1 together with its first 2k derivatives, has vanishing odd coefficients up to order 2k, and is positive on [0,1); the internal assertions never fail.", "quantifier": "all d >= 1, all k >= 0", "why_tests_cant": "two unbounded integer parameters", "anchors": ["src/linpde_gp/randprocs/covfuncs/_wendland.py: WendlandPolynomial, WendlandFunction, pascal_row"]}
{"id": "C39", "title": "Integrals of Matérn and radial kernels", "statement": "The closed-form single and double integrals of univariate half-integer Matérn covariance functions equal the integrals of the kernel over the interval(s), for every position of the evaluation point and every pair of intervals; integrals of scaled and summed kernels are the corresponding combinations. (Violated for kernels without closed form when the first argument is integrated: the second argument is integrated instead.)", "quantifier": "all p, lengthscales, intervals and points", "why_tests_cant": "all orderings of the interval endpoints and the evaluation point", "anchors": ["src/linpde_gp/randprocs/crosscov/linfunctls/integrals/_matern_lebesgue.py", "src/linpde_gp/randprocs/crosscov/linfunctls/integrals/_radial_lebesgue.py"]}
{"id": "C40", "title": "Projection of the Matérn-3/2 kernel onto hat functions", "statement": "The closed-form L2 projection of the Matérn-3/2 kernel onto the hat basis equals the integral of kernel times hat function, for every evaluation point relative to the cell; with normalisation the residual is orthogonal to the basis; scaled kernels, sums and projections of both arguments are the corresponding combinations; values and projection coefficients together have a symmetric positive semidefinite covariance. (Violated for kernels without closed form when the first argument is projected: the second argument is projected instead.)", "quantifier": "all grids, indices, lengthscales and points", "why_tests_cant": "all relative positions of point and cell", "anchors": ["src/linpde_gp/randprocs/crosscov/linfunctls/projections.py: Matern32_L2Projection_UnivariateLinearInterpolationBasis"]}
{"id": "C41", "title": "Coefficients of differential operators", "statement": "Sums, differences, negation and scalar multiples of differential-operator coefficients act coefficient-wise for every output component and multi-index; the Laplacian, weighted Laplacian, spatial Laplacian, heat, directional and partial derivative operators have exactly the coefficients of their definition, and applying the operator equals the coefficient-weighted sum of partial derivatives.", "quantifier": "all multi-indices, dimensions and coefficient sets", "why_tests_cant": "all dimensions and dictionaries", "anchors": ["src/linpde_gp/linfuncops/diffops/_coefficients.py", "src/linpde_gp/linfuncops/diffops/_lindiffop.py", "src/linpde_gp/linfuncops/diffops/_laplacian.py", "src/linpde_gp/linfuncops/diffops/_heat.py", "src/linpde_gp/linfuncops/diffops/_directional_derivative.py"]}
{"id": "C42", "title": "Factorisation of partial derivatives", "statement": "Factorising a partial derivative into first-order or one-dimension-at-a-time factors and composing the factors gives back the same multi-index; the factors have the promised form. (Order 0 cannot be factorised: IndexError.)", "quantifier": "all multi-indices", "why_tests_cant": "all dimensions and orders", "anchors": ["src/linpde_gp/linfuncops/diffops/_partial_derivative.py"]}
{"id": "C43", "title": "Algebra of linear operators on functions", "statement": "Scaled, summed, negated, subtracted and composed linear function operators act on smooth functions as scalar multiple, sum, negation, difference and composition of the actions of their parts (partial derivatives, directional derivatives, weighted Laplacians, identity) through all the library's rewriting of nested expressions; expressions are built exactly when shapes fit and fail with AssertionError otherwise; application terminates when neither the function nor an inner operator is scaled. (Violated: applying a differential operator to a scaled function recurses forever, hence so do compositions with a scaled inner operator; order-zero partial derivatives map constants to zero; operators with no coefficients cannot be applied.)", "quantifier": "all operator expressions of any depth, all functions", "why_tests_cant": "expression trees of unbounded depth", "anchors": ["src/linpde_gp/linfuncops/_linfuncop.py", "src/linpde_gp/linfuncops/_arithmetic.py"]}
{"id": "C44", "title": "Algebra of linear functionals", "statement": "Scaled, summed and composed linear functionals (with matrix post-composition and operator pre-composition) act on smooth functions as the corresponding combinations of their parts (point evaluations, integrals over an interval, projections) through all rewriting of nested expressions; they are built exactly when the shapes fit (AssertionError, or ValueError for merged matrices, otherwise); application terminates on functions without scaled summands when no integral follows a scaled operator. (Violated: integrals and weak forms of a scaled function recurse forever; the weak form of the zero function has shape () instead of its output shape.)", "quantifier": "all functional expressions of any depth, all functions", "why_tests_cant": "expression trees of unbounded depth", "anchors": ["src/linpde_gp/linfunctls/_linfunctl.py", "src/linpde_gp/linfunctls/_arithmetic.py"]}
{"id": "C45", "title": "Differential operators on both kernel arguments commute", "statement": "Applying one operator to argument 0 and another to argument 1 of a covariance function gives the same result in either order. (Violated for two Laplacians on ExpQuad: argument 0 first raises AttributeError.)", "quantifier": "all supported operators and kernels", "why_tests_cant": "all dispatch paths", "anchors": ["src/linpde_gp/randprocs/covfuncs/linfuncops/diffops/_registry.py"]}
{"id": "C46", "title": "1-D Poisson boundary value problem solution", "statement": "The closed-form solution attached to the 1-D Poisson Dirichlet problem with constant right-hand side satisfies -alpha u'' = f on the interval and both boundary values.", "quantifier": "all alpha != 0, bounds, boundary values, right-hand sides", "why_tests_cant": "identity at every point for all parameters", "anchors": ["src/linpde_gp/problems/pde/_poisson.py"]}
{"id": "C47", "title": "1-D Poisson initial value problem solutions", "statement": "The polynomial and piecewise-polynomial initial value solutions satisfy -alpha u'' = f inside every piece, the initial value and slope, and are continuously differentiable across all knots.", "quantifier": "all polynomials, all knot vectors, all numbers of pieces", "why_tests_cant": "induction over pieces", "anchors": ["src/linpde_gp/problems/pde/_poisson.py"]}
{"id": "C48", "title": "Heat equation Dirichlet solution", "statement": "The attached truncated sine-series solution satisfies the homogeneous heat equation, the initial condition and zero boundary values. (Violated if the right-hand side is non-zero: the problem is accepted and the solution ignores it; initial values with outputs of the wrong shape are accepted because of 'and' in the validation.)", "quantifier": "all coefficient vectors, alpha, intervals, times", "why_tests_cant": "identity at every point for all series lengths", "anchors": ["src/linpde_gp/problems/pde/_heat.py", "src/linpde_gp/functions/_fourier.py"]}
{"id": "C49", "title": "Boundary value problem validation", "statement": "Boundary conditions and boundary value problems are accepted exactly when their domains, operators, and shapes fit together; one-dimensional Dirichlet observations pair each boundary part with the value of the boundary function there. (Violated for the Poisson problem on a box: an array with too few boundary values silently drops boundary conditions.)", "quantifier": "all problem specifications", "why_tests_cant": "all combinations of shapes", "anchors": ["src/linpde_gp/problems/pde/_bvp.py", "src/linpde_gp/problems/pde/_linear_pde.py"]}
{"id": "C50", "title": "Integer inputs evaluate like float inputs", "statement": "Evaluating a polynomial or piecewise function at an integer-typed point gives the same value as at the equal float point. (Violated: the result array takes the integer dtype, so values are truncated or the call fails.)", "quantifier": "all coefficient tuples and integer points", "why_tests_cant": "all inputs, both dtypes", "anchors": ["src/linpde_gp/functions/_polynomial.py: Polynomial._evaluate", "src/linpde_gp/functions/_piecewise.py: Piecewise._evaluate, PiecewiseConstant._evaluate"]}
{"id": "C51", "title": "Functionals on covariance functions and cross-covariances", "statement": "Applying a linear functional to one argument of a covariance function gives the cross-covariance obtained by applying it to that argument pointwise, and applying a functional to a cross-covariance gives the covariance obtained by applying it to the process argument; both respect scalings, sums, matrix post-composition, stacks and zero, and are rejected with ValueError when domain or codomain do not fit. (Violated for cross-covariances of an evaluation of a multi-output process: ValueError; Dirac functionals of a multi-output cross-covariance put output-major entries under a point-major shape.)", "quantifier": "all functionals, covariance functions, cross-covariances, points and shapes", "why_tests_cant": "all shapes and compositions", "anchors": ["src/linpde_gp/randprocs/covfuncs/linfunctls/_registry.py", "src/linpde_gp/randprocs/crosscov/linfunctls/_linfunctl.py", "src/linpde_gp/randprocs/crosscov/linfunctls/_dirac.py", "src/linpde_gp/randprocs/crosscov/linfunctls/_evaluation.py", "src/linpde_gp/randprocs/crosscov/linfunctls/_arithmetic.py"]}
{"id": "C52", "title": "Function operators on covariance functions and cross-covariances", "statement": "Applying a linear function operator to one argument of a covariance function, or to the process argument of a cross-covariance, gives the values obtained by applying the operator to that argument pointwise; scalings, sums, stacks, zero and evaluations of the other argument are respected, and shapes that do not fit are rejected with ValueError. (Violated: on the cross-covariance k(X, x) of an evaluation of argument 0 every operator raises TypeError; differential operators on cross-covariances made by integrals and other functionals with their own rules, by matrices, parametric priors or stacks return, without an exception, a function that cannot be evaluated, and raise AttributeError on multiples and sums of those; the identity operator returns None or raises.)", "quantifier": "all operators, covariance functions, cross-covariances, points and shapes", "why_tests_cant": "all shapes and compositions", "anchors": ["src/linpde_gp/randprocs/covfuncs/linfuncops/_registry.py", "src/linpde_gp/randprocs/crosscov/linfuncops.py"]}
{"id": "C53", "title": "Differential operators on tensor products", "statement": "Applying linear differential operators L0 to the first and L1 to the second argument of a tensor product covariance gives, at all points and on tensor-product grids, the sum over the terms of both operators of the products of the differentiated factors, which is the mixed derivative L0 L1 of the product kernel; both orders of application give the same object; on one grid the sum of Kronecker products equals the dense matrix. (With two grids the second one is ignored; a second operator on the same argument raises AttributeError or returns NotImplemented; an operator without terms raises IndexError, one on vector-valued outputs KeyError.)", "quantifier": "all numbers of factors, all operators, all differentiable factor kernels, all points and grids", "why_tests_cant": "memoised evaluation over all pairs of terms, all dimensions", "anchors": ["src/linpde_gp/randprocs/covfuncs/linfuncops/diffops/_tensor_product.py", "src/linpde_gp/randprocs/covfuncs/linfuncops/diffops/_registry.py"]}
{"id": "C54", "title": "Affine and stacked functions", "statement": "An affine function built from a matrix, vector or number A and an offset b maps every point x of a batch of any shape to A x + b, with NumPy and with JAX, and other shapes are refused with ValueError; stacking functions puts the value of the k-th function at position k of the new output axis at every point of every batch; selecting an output of stacked scalar functions returns the function whose values are that entry (negative positions count from the end, others raise IndexError). (Violated: an affine function with a vector A raises on every batch of numbers; its JAX version accepts a bare number for a one-coordinate point and then uses the first slope for all outputs; a stacking axis counted from the front is applied to the batch axes, so the call fails or returns values at the wrong places.)", "quantifier": "all matrices, offsets, functions, axes, batch shapes, positions", "why_tests_cant": "all shapes and batches", "anchors": ["src/linpde_gp/functions/_affine.py", "src/linpde_gp/functions/_stack.py", "src/linpde_gp/functions/_jax.py", "src/linpde_gp/functions/linfuncops/_registry.py"]}
{"id": "C55", "title": "Truncated Gaussian mixture densities", "statement": "The truncated Gaussian mixture density of any number of components is, at every point, the equally weighted average of the normal densities each divided by its integral over the interval; it is positive and integrates to one over the interval; domains other than intervals raise TypeError. (Violated: outside of the interval the function is not zero.)", "quantifier": "all intervals, numbers of components, means, non-zero standard deviations, points and batch shapes", "why_tests_cant": "an identity of integrals for all parameters", "anchors": ["src/linpde_gp/functions/_truncated_gmm.py"]}
{"id": "C56", "title": "Covariance functions are positive semidefinite, jointly with derivatives", "statement": "Every squared exponential covariance function, everything built from such by adding, by scaling with non-negative numbers and by applying one operator to both arguments, and every half-integer Matern covariance function has positive semidefinite Gram matrices at all finite sets of points; and the joint covariance of any finite number of observations, each the value of the process at a point or of a linear function operator applied to it, put together from the covariance functions L1(L0(k, argnum=0), argnum=1) the library returns, is positive semidefinite (for Matern: values, directional derivatives, and Laplacians of univariate kernels with nu >= 5/2). On the real line the same holds for values and integrals over intervals, with the covariances the integral rules return. (Violated: two Laplacians of the univariate Matern 3/2 covariance function give a negative variance at every point; scaling by a negative number is accepted.)", "quantifier": "all dimensions, lengthscales, half-integer smoothness parameters, operator expressions, finite sets of points and weights", "why_tests_cant": "positivity of a quadratic form for all points and weights", "anchors": ["src/linpde_gp/randprocs/covfuncs/_expquad.py", "src/linpde_gp/randprocs/covfuncs/_matern.py", "src/linpde_gp/randprocs/covfuncs/_jax_arithmetic.py", "src/linpde_gp/randprocs/covfuncs/linfuncops/diffops/_expquad.py", "src/linpde_gp/randprocs/covfuncs/linfuncops/diffops/_matern.py"]}
{"id": "C57", "title": "Evaluation of covariance functions at arrays of points", "statement": "For every squared exponential or Matern covariance function, their derivatives, and sums and scalings of these, k(x0, x1) with x0 of shape b0 + input_shape and x1 of shape b1 + input_shape is the floating point array whose shape is the broadcast of b0 and b1 and whose entries are the values at the corresponding pairs of points, with NumPy and with JAX, whether the lengthscale is a number or an array; k(x0) is the array of the values at (x0, x0); arrays that do not end in input_shape or whose batches do not broadcast raise ValueError; the lazy tensors of the Matern derivatives hold the values at all pairs of points. (Violated at integers: k(x0) with an array of integers truncates the values towards zero, and the first-order Matern derivatives raise TypeError at two arrays of integers.)", "quantifier": "all batch shapes, input shapes, dtypes, lengthscales, directions, weights, compositions", "why_tests_cant": "all shapes and broadcasts of array programs", "anchors": ["src/linpde_gp/randprocs/covfuncs/_jax.py", "src/linpde_gp/randprocs/covfuncs/_jax_arithmetic.py", "src/linpde_gp/randprocs/covfuncs/_expquad.py", "src/linpde_gp/randprocs/covfuncs/_matern.py", "src/linpde_gp/randprocs/covfuncs/linfuncops/diffops/_expquad.py", "src/linpde_gp/randprocs/covfuncs/linfuncops/diffops/_matern.py"]}
{"id": "C58", "title": "Conditioning on values and derivatives always works for squared exponential priors", "statement": "A process whose covariance function is put together from squared exponentials (sums, non-negative factors, one operator on both arguments) and whose mean is smooth can be conditioned on values, and on linear function operators applied to it, at points, in any sequence of conditionings and operator applications: with noise of positive definite covariance every step succeeds and gives the posterior; without noise it does so if no combination of the observed quantities vanishes on all infinitely differentiable functions, provided a squared exponential with nonzero lengthscales is a summand, and for noise-free data this is also necessary; in particular collocation with informative observations at different points succeeds and the posterior mean has exactly the observed values and derivatives. The entries of the Gram matrix are the values of the covariance functions the library returns for the operators on the two arguments.", "quantifier": "all dimensions, covariance expressions, smooth means, sequences of observations and operators, points, noise distributions", "why_tests_cant": "invertibility of Gram matrices for all finite sets of observations", "anchors": ["src/linpde_gp/randprocs/_gaussian_process/_conditional.py", "src/linpde_gp/randprocs/covfuncs/linfuncops/diffops/_expquad.py", "src/linpde_gp/randprocs/covfuncs/_expquad.py"]}
{"id": "C59", "title": "Linear functionals and operators applied to processes", "statement": "Applying a linear functional (point values, integrals, functionals with their own rules, linear combinations, matrices after functionals without point values, operators before point values) to a Gaussian process with scalar values gives the normal random variable whose mean is the functional of the mean and whose covariance is the functional applied to both arguments of the covariance function (operators that act on sums of operators: for smooth sections); the covariance of any combination of values of operators is symmetric and positive semidefinite for the smooth kernels, and that of values and integrals for squared exponential and half-integer Matern kernels on the line; applying an operator gives the process with the operator applied to the mean and to both arguments of the covariance function, again positive semidefinite, a composition being applied factor by factor with the same result; deterministic processes become constants and deterministic processes with the transformed function, and samples of them are copies of the values, of the requested shape. (Violated: integrals computed by quadrature of the mean, and sums of such, raise AssertionError, all other functionals without operators do not; integrals or own-rule functionals after an operator give no random variable, and TypeError for differential operators; every functional after the identity fails, with NotImplementedError for point values, integrals and own-rule functionals; a non-square matrix applied to point values raises ValueError and a square one gives A A K instead of A K A^T, which need not be symmetric; operators multiplied by a number fail on deterministic processes with TypeError.)", "quantifier": "all functional and operator expressions, means, covariance functions, points, shapes", "why_tests_cant": "all compositions and shapes, positivity of quadratic forms", "anchors": ["src/linpde_gp/randprocs/_gaussian_process/_lintransforms.py", "src/linpde_gp/randprocs/_deterministic_process.py", "src/linpde_gp/randprocs/_utils.py", "src/linpde_gp/linfunctls/_arithmetic.py", "src/linpde_gp/linfuncops/_arithmetic.py", "src/linpde_gp/linfuncops/_identity.py", "src/linpde_gp/randprocs/crosscov/_arithmetic.py"]}
{"id": "C60", "title": "Conditioning on values and integrals always works for squared exponential and Matern priors", "statement": "A process on the real line with a continuous mean and a covariance function put together from squared exponentials and half-integer Matern kernels (sums, non-negative factors) can be conditioned on values and integrals over intervals, also weighted by continuous functions, in any sequence of conditionings and multiplications by numbers: with noise of positive definite covariance every step succeeds and gives the posterior, whose covariance matrices are positive semidefinite; without noise (and without weights) it does so if no combination of the observed quantities vanishes on all infinitely differentiable functions; it fails to have an invertible Gram matrix if some combination vanishes on all continuous functions. In particular for values at different points and integrals over intervals that do not overlap, the posterior mean has exactly the observed values and integrals (Bayesian quadrature), and in any number of dimensions the posterior mean given values at different points interpolates them, for every mean function. The entries of the Gram matrix are the covariances the integral rules of the library return.", "quantifier": "all lengthscales, half-integer smoothness parameters, sums, intervals, weights, points, sequences of observations, noise distributions", "why_tests_cant": "invertibility of Gram matrices for all finite sets of points and intervals", "anchors": ["src/linpde_gp/randprocs/_gaussian_process/_conditional.py", "src/linpde_gp/randprocs/covfuncs/_matern.py", "src/linpde_gp/randprocs/covfuncs/_expquad.py", "src/linpde_gp/randprocs/crosscov/linfunctls/integrals/_covfunc_lebesgue.py", "src/linpde_gp/randprocs/crosscov/linfunctls/integrals/_matern_lebesgue.py"]}
{"id": "C61", "title": "Conditioning on derivatives always works for products of squared exponential and Matern covariance functions", "statement": "A process on R^n whose covariance function is a tensor product of squared exponential and half-integer Matern covariance functions of one variable (smoothness at least that of the derivatives observed in the coordinate) and whose mean has these derivatives can be conditioned on linear differential operators applied to it at points, in any sequence of conditionings and multiplications by numbers: with noise of positive definite covariance every step succeeds and gives the posterior, whose covariance matrices are positive semidefinite; without noise it does so if no combination of the observed quantities vanishes on all infinitely differentiable functions, and the Gram matrix is not invertible if some combination vanishes on all functions with these derivatives; the variance of a combination is nonnegative and zero only in that case. In particular collocation, with some differential operator that is not zero at each of finitely many different points, succeeds and the posterior mean satisfies all equations. All this holds as well for sums of positive multiples of such tensor products, the covariances of the observed quantities being the sums of the multiples. The factors are differentiated at most twice in each argument with the derivatives as values, and the arrays and matrices the tensor product returns for the operators on both arguments, also as sums of Kronecker products on a grid, have the entries of the Gram matrix. (Violated: a factor differentiated three or more times in one argument is the object NotImplemented.)", "quantifier": "all dimensions, factors, lengthscales, smoothness parameters, operators, points, means, sequences of observations, noise distributions", "why_tests_cant": "invertibility of Gram matrices for all finite sets of points and operators", "anchors": ["src/linpde_gp/randprocs/covfuncs/_tensor_product.py", "src/linpde_gp/randprocs/covfuncs/linfuncops/diffops/_tensor_product.py", "src/linpde_gp/randprocs/covfuncs/linfuncops/diffops/_expquad.py", "src/linpde_gp/randprocs/covfuncs/linfuncops/diffops/_matern.py", "src/linpde_gp/randprocs/covfuncs/linfuncops/diffops/_registry.py", "src/linpde_gp/randprocs/_gaussian_process/_conditional.py"]}
{"id": "C62", "title": "jax views of cross-covariances and the cross-covariances of a conditioned process", "statement": "For a cross-covariance between a process and a random vector, jax(x) returns or raises exactly what the call does, for all points and batches, as long as no matrix product, parametric cross-covariance or stack is involved; inside a jax transformation this holds if also no evaluation functional is involved. A conditioned process keeps the cross-covariances with all observations side by side: the array and the matrix show, in the columns of the observation number j in C order, the cross-covariance with it, for all non-empty batches; only a non-empty list of cross-covariances with the same shapes and the random vector last is accepted, appending keeps the earlier ones; the posterior mean is the prior mean plus, for each observation, the cross-covariance times its weights. (Violated: jax of a stack is zero everywhere; matrix products and parametric cross-covariances have no jax view (NotImplementedError); evaluation functionals raise TypeError when traced; therefore the jax views of the mean and covariance function of every conditioned process always raise; an empty batch raises ValueError.)", "quantifier": "all cross-covariances, numbers and shapes of observations, batch shapes, weights", "why_tests_cant": "all shapes and compositions", "anchors": ["src/linpde_gp/randprocs/crosscov/_pv_crosscov.py", "src/linpde_gp/randprocs/crosscov/_arithmetic.py", "src/linpde_gp/randprocs/crosscov/_stack.py", "src/linpde_gp/randprocs/crosscov/linfunctls/_dirac.py", "src/linpde_gp/randprocs/crosscov/linfunctls/_evaluation.py", "src/linpde_gp/randprocs/_gaussian_process/_conditional.py"]}
{"id": "C63", "title": "Differential operators given by coefficients", "statement": "A linear differential operator given by coefficients, that is numbers for pairs of an output index and a multi-index, can be built if and only if the coefficients are given for its shapes; an output is selected by an index that names one entry, negative integers counting from the end, and every other index is an error. Applied to a real-valued function (sums, polynomials, constants, other smooth functions; all multi-indices of order at least one) it returns the linear combination of the derivatives; at single points the values are right. Applied to one argument of a covariance function made from squared exponentials by sums, multiples and operators, a result that can be evaluated is the operator applied in this argument, and for the squared exponential on the line the result exists if the derivatives have order at most two; applied to the argument of a stacked covariance function along which the outputs are stacked, the outputs are combined with the coefficients, and in the other argument each output is treated by itself. (Violated: for functions that are neither constant nor zero the result raises TypeError on every batch with more than one point and under jax transformations; coefficients with entries of order zero next to derivatives raise TypeError, and constants are mapped to zero whatever the coefficients; multiples of functions recurse for ever; on functions with several outputs it raises NotImplementedError, on stacked functions and independent outputs AssertionError; the squared exponential covariance function in several coordinates or with derivatives of order three or more raises TypeError, for inputs of shape (1,) ValueError; covariance functions known by their jax implementation give an object that cannot be evaluated; output indices counted from the end beyond the first output are accepted and fail when the operator is applied.)", "quantifier": "all coefficients, shapes, functions, kernels, arguments, points, batches", "why_tests_cant": "all coefficients, functions and points", "anchors": ["src/linpde_gp/linfuncops/diffops/_lindiffop.py", "src/linpde_gp/linfuncops/_select_output.py", "src/linpde_gp/linfuncops/diffops/_coefficients.py", "src/linpde_gp/randprocs/covfuncs/linfuncops/diffops/_registry.py", "src/linpde_gp/randprocs/covfuncs/linfuncops/_registry.py", "src/linpde_gp/functions/linfuncops/_registry.py"]}
{"id": "C64", "title": "Functions and covariance functions given by a callable", "statement": "A function built from a callable on single points (any input and output shapes) evaluates every point of a batch of any shape by the callable, the same when called and through jax; a covariance function built from a callable on pairs of numbers or vectors with values that are numbers, vectors or matrices evaluates the pairs of points along the broadcast batches, and k(x) is k(x, x). A callable that raises makes every evaluation raise the same exception, one with values of another shape ValueError or AssertionError; points of the wrong shape and batches that do not broadcast are refused. Without vectorisation the callable gets the arrays as they are. Covariance functions and cross-covariances to which operators or functionals have been applied exist exactly if the operators take functions with the shapes of their argument; the shapes of the other argument stay, and for operators on both arguments the order does not matter. (Violated: shapes given as integers raise TypeError; through jax, points that merely broadcast to the input shape are passed on as they are, so that the callable is evaluated at smaller points; a covariance function on inputs with several axes, and outputs with at most one axis per argument, can never be evaluated, and one whose outputs have several axes raises ValueError though the callable returns what was declared.)", "quantifier": "all callables that jax can trace, all shapes of inputs, outputs and batches", "why_tests_cant": "all shapes and callables", "anchors": ["src/linpde_gp/functions/_jax.py", "src/linpde_gp/randprocs/covfuncs/_jax.py", "src/linpde_gp/randprocs/covfuncs/linfuncops/_abstract.py", "src/linpde_gp/randprocs/crosscov/linfunctls/_base.py"]}
{"id": "C65", "title": "Lazy tensors of products, of operators on them and of Wendland covariance functions", "statement": "The lazy tensor (KeOps) of a tensor product of covariance functions of one variable at n0 and n1 points holds, for every pair of points, the product of the factors, if the lazy tensors of the factors hold theirs (in particular for derivatives of Matern covariance functions); the lazy tensor of a tensor product to which differential operators have been applied holds the operators applied in both arguments, and only needs lazy tensors of the differentiated factors that occur; the lazy tensor of a Wendland covariance function holds its values, and its evaluation on arrays of points of any shape (NumPy and jax, broadcast against each other) has them as entries, with ones if the second argument is left out. Points with too few coordinates raise IndexError, a factor without lazy tensors passes its exception on, and shapes that do not fit raise ValueError.", "quantifier": "all numbers of factors, factors, operators, points, lengthscales, smoothness parameters, batch shapes", "why_tests_cant": "all factors, operators and points", "anchors": ["src/linpde_gp/randprocs/covfuncs/_tensor_product.py", "src/linpde_gp/randprocs/covfuncs/linfuncops/diffops/_tensor_product.py", "src/linpde_gp/randprocs/covfuncs/_wendland.py"]}
{"id": "C66", "title": "Wendland covariance functions are positive definite and interpolate", "statement": "For every smoothness the constructor accepts a Wendland covariance function of points with one coordinate; with a nonzero lengthscale it is symmetric, the variance of every combination of values is nonnegative, and zero only if the weights at each point add up to zero. The same holds for tensor products of such covariance functions as functions of several coordinates (more generally of any positive definite functions of one variable), and for combinations of derivatives of order at most the smoothness parameter. A process with such a covariance function, or any other positive definite one, and any mean can be conditioned on exact values at finitely many different points: the Gram matrix is invertible, the posterior is given by the usual formulas and its mean takes exactly the given values; every sequence of noisy observations of values, at repeated points too, succeeds with the posterior.", "quantifier": "all smoothness parameters, lengthscales, numbers of factors, points, weights, means, data, sequences of noisy observations", "why_tests_cant": "positive definiteness quantifies over all finite sets of points and all weights", "anchors": ["src/linpde_gp/randprocs/covfuncs/_wendland.py", "src/linpde_gp/randprocs/covfuncs/_tensor_product.py", "src/linpde_gp/randprocs/_gaussian_process/_conditional.py"]}
{"id": "C67", "title": "Derivatives by automatic differentiation", "statement": "Where an operator has no closed form it differentiates the jax implementation. For squared exponential covariance functions, polynomials, monomials and sine series, derivatives of every order along any directions and in either argument computed this way are the mathematical derivatives, at all points; for Matern covariance functions of half-integer smoothness they are wherever the two points differ, and for Wendland covariance functions of smoothness k in d dimensions wherever the points differ, inside, outside and on the edge of the support, for up to d/2 + 2k derivatives (rounded down). So are partial derivatives, directional derivatives and weighted Laplacians, also of the covariance functions that the closed forms return, of their scalings and sums, and several operators one after the other. (Violated: where the two points coincide every derivative of a Matern or Wendland covariance function computed this way is NaN, although the function has 2p and 2k derivatives there.)", "quantifier": "all points, directions, orders, lengthscales, smoothness parameters, dimensions", "why_tests_cant": "all points and all orders; the edge of the support and the diagonal are null sets", "anchors": ["src/linpde_gp/linfuncops/diffops/_partial_derivative.py", "src/linpde_gp/linfuncops/diffops/_laplacian.py", "src/linpde_gp/linfuncops/diffops/_directional_derivative.py", "src/linpde_gp/randprocs/covfuncs/_jax.py", "src/linpde_gp/randprocs/covfuncs/_expquad.py", "src/linpde_gp/randprocs/covfuncs/_matern.py", "src/linpde_gp/randprocs/covfuncs/_wendland.py", "src/linpde_gp/functions/_polynomial.py", "src/linpde_gp/functions/_fourier.py"]}
{"id": "C68", "title": "Weak forms of operators", "statement": "For every multiple s of the Laplacian, however it is written (scalings, nested scalings, negations), weak_form with a basis of hat functions that vanish at the boundary, applied to the full basis on the same uniform grid, is the matrix of minus the integrals of s times the products of derivatives of test and trial functions; linear combinations of such weak forms on one test basis give the same linear combinations of matrices. Every other differential operator raises NotImplementedError, a test basis that does not vanish at the boundary AssertionError, sums of operators have no weak form, and weak forms with different numbers of test functions cannot be added. (Violated: the domain of the operator is not compared with that of the basis, so Laplacians of any dimension are accepted.)", "quantifier": "all grids, scalars, expressions of operators and functionals, entries", "why_tests_cant": "all expressions and all grids", "anchors": ["src/linpde_gp/linfuncops/diffops/_laplacian.py", "src/linpde_gp/linfuncops/diffops/_arithmetic.py", "src/linpde_gp/linfunctls/weak_forms/_laplacian.py", "src/linpde_gp/linfunctls/_arithmetic.py"]}
{"id": "C69", "title": "Derivatives of piecewise functions", "statement": "Differential operators differentiate piecewise functions with polynomial or constant pieces through jax. The traced function has the values of the function itself at every point; strictly between two knots derivatives of every order and the operators built from them are those of the function, which exist there; at the right end of a cell they are those of the piece of that cell; outside the knots they are zero. (Violated: at a knot where the slope changes a derivative is returned although none exists, and at the left end, where the function jumps, the derivative of the first piece.)", "quantifier": "all knots, pieces, points, orders and directions", "why_tests_cant": "all points; knots are a null set", "anchors": ["src/linpde_gp/functions/_piecewise.py", "src/linpde_gp/functions/_polynomial.py", "src/linpde_gp/linfuncops/diffops/_lindiffop.py"]}
{"id": "C70", "title": "Derivatives of integrated covariance functions", "statement": "The jax version of the integral of a half-integer Matern covariance function over an interval in one of its arguments, and of sums and multiples of such covariance functions, has the values of the integral at every point, and at every point other than the two ends derivatives of every order computed by automatic differentiation are those of the integral, which exist; so are those of the two antiderivatives everywhere. Integrals by quadrature have no jax version and raise NotImplementedError. (Violated: at the ends of the interval the derivative of the integral exists, but the one returned is off by the value of the covariance function on the diagonal.)", "quantifier": "all lengthscales, smoothness parameters, intervals, points, orders, sums and multiples", "why_tests_cant": "all points; the ends of the interval are a null set", "anchors": ["src/linpde_gp/randprocs/crosscov/linfunctls/integrals/_matern_lebesgue.py", "src/linpde_gp/randprocs/crosscov/linfunctls/integrals/_radial_lebesgue.py", "src/linpde_gp/randprocs/crosscov/linfunctls/integrals/_covfunc_lebesgue.py", "src/linpde_gp/randprocs/crosscov/_arithmetic.py"]}
{"id": "C71", "title": "Operators applied to functions with a jax version", "statement": "For every operator expression (identities, partial derivatives, directional derivatives, weighted Laplacians, multiples, sums, compositions) and every function whose jax version has no singularity, the function that the application returns takes the values of the operator applied to the function, at every point. In particular the operator of a Poisson problem with constant right-hand side, applied to the solution attached to it, gives the right-hand side everywhere. A function without jax version can be scaled and added, but a derivative of it raises TypeError when it is evaluated. (Violated: the solution attached to heat problems is such a function, although a jax formula for which the operator gives zero is written in its class; the residual of that solution cannot be evaluated.)", "quantifier": "all operator expressions, functions, points, problem parameters", "why_tests_cant": "all expressions and all points", "anchors": ["src/linpde_gp/linfuncops/diffops/_lindiffop.py", "src/linpde_gp/linfuncops/_arithmetic.py", "src/linpde_gp/problems/pde/_poisson.py", "src/linpde_gp/problems/pde/_heat.py"]}
{"id": "C72", "title": "Symmetry of covariance functions in floating point", "statement": "In IEEE 754 arithmetic, with signed zeros, subnormal numbers, overflow, infinities and NaN, squared exponential, half-integer Matern and Wendland covariance functions and their weighted Laplacians (Matern: one dimension), scalings and sums return the same number, bit for bit, when the two points are exchanged. Directional derivatives of odd total order change only their sign, those of even total order not at all, up to the sign of a zero, and a derivative in one argument is the derivative in the other at the exchanged points; so the entries (i, j) and (j, i) of a Gram matrix agree. At equal points with finite coordinates the value of the covariance function is exactly the 1 that is returned without a second point. (Violated: at a point with an infinite coordinate the first is NaN, the second 1.)", "quantifier": "all formats, all points including infinities and NaN, all parameters, any implementation of exp, any rounding of constants", "why_tests_cant": "all bit patterns of all coordinates and parameters", "anchors": ["src/linpde_gp/randprocs/covfuncs/_jax.py", "src/linpde_gp/randprocs/covfuncs/_expquad.py", "src/linpde_gp/randprocs/covfuncs/_matern.py", "src/linpde_gp/randprocs/covfuncs/_wendland.py", "src/linpde_gp/randprocs/covfuncs/linfuncops/diffops/_expquad.py", "src/linpde_gp/randprocs/covfuncs/linfuncops/diffops/_matern.py"]}
{"id": "C73", "title": "Accuracy of evaluations up to rounding", "statement": "In double precision every arithmetic operation of an evaluation returns the nearest number to the exact result of its operands unless it overflows. Unless something overflows, a polynomial of degree n differs from its exact value by at most ((1+u)^(2n) - 1) times the polynomial of absolute values plus an underflow term, with u = 2^-53; the n-th power of a number of absolute value at least 1 has a relative error of at most (1+u)^(n-1) - 1; and sine series and covariance functions with their closed-form derivatives, scalings and sums differ from their exact value at the same points by at most the bound that standard error propagation gives operation by operation from the exact values, for every library whose exp has a given relative and whose sine a given absolute error; Wendland covariance functions do so unless the distance is at the edge of the support up to rounding.", "quantifier": "all points, parameters and coefficients representable in double precision", "why_tests_cant": "all bit patterns of all coordinates and parameters", "anchors": ["src/linpde_gp/functions/_polynomial.py", "src/linpde_gp/randprocs/covfuncs/_jax.py", "src/linpde_gp/randprocs/covfuncs/_expquad.py", "src/linpde_gp/randprocs/covfuncs/_matern.py", "src/linpde_gp/randprocs/covfuncs/_wendland.py", "src/linpde_gp/randprocs/covfuncs/linfuncops/diffops/_expquad.py", "src/linpde_gp/randprocs/covfuncs/linfuncops/diffops/_matern.py"]}
{"id": "C74", "title": "Covariance functions at points that are far apart", "statement": "In double precision, for points with finite coordinates and any scale factors that are not rounded to zero, the squared exponential covariance function and the Matern covariance function with smoothness 1/2 return a number between 0 and 1, never NaN, also if the distance of the points overflows, and then the library's exp of minus infinity; half-integer Matern covariance functions return a number that is not negative unless their polynomial overflows while the exponential function underflows; Wendland covariance functions return 0 whenever the computed distance exceeds 1 or overflows. (Violated: from smoothness 3/2 on, a Matern covariance function returns NaN instead of 0 for points whose squared distance overflows.)", "quantifier": "all points with finite coordinates, all lengthscales, smoothness parameters and libraries whose exp maps nonpositive numbers into [0, 1]", "why_tests_cant": "all bit patterns of all coordinates and parameters", "anchors": ["src/linpde_gp/randprocs/covfuncs/_jax.py", "src/linpde_gp/randprocs/covfuncs/_expquad.py", "src/linpde_gp/randprocs/covfuncs/_matern.py", "src/linpde_gp/randprocs/covfuncs/_wendland.py"]}
{"id": "C75", "title": "Uniform accuracy of covariance functions", "statement": "In double precision, unless a result overflows, the squared exponential covariance function of points with n coordinates is within eps + (n + 10) 2^-53 of its exact value, and the Matern covariance function with smoothness p + 1/2 within 2 eps + 2 (n + 12)(p + 2) 2^-53, where eps is the relative error of the library's exp; the Wendland covariance function with smoothness k is within ((2 m + 3) A + (n + 11) B) 2^-53, with m = n/2 (rounded down) + 3 k + 1 the degree of its polynomial, A the sum of the absolute values of its coefficients c_i and B the sum of i |c_i|, also at the edge of the support, where the computed and the exact distance may be on different sides of it. Scaled squared exponential and Matern covariance functions and sums of them, nested in any way, are within a bound that is computed from these bounds, the scale factors and the number of summands alone. The bounds are absolute errors that depend on neither the points nor the lengthscales: cancellation, underflow of squared distances and large distances never make them worse. Scale factors and the coefficients of the Matern polynomial must not be subnormal, n is at most 2^20 and p and k are at most 1000.", "quantifier": "all points, lengthscales, smoothness parameters, dimensions and libraries with a given accuracy of exp", "why_tests_cant": "all bit patterns of all coordinates and parameters", "anchors": ["src/linpde_gp/randprocs/covfuncs/_jax.py", "src/linpde_gp/randprocs/covfuncs/_expquad.py", "src/linpde_gp/randprocs/covfuncs/_matern.py", "src/linpde_gp/randprocs/covfuncs/_wendland.py"]}
{"id": "C76", "title": "Integrals over boxes", "statement": "The integral over a box or an interval can be constructed for these two kinds of domains only (TypeError otherwise). Whatever the integral over a box returns for a function of points of the box is the iterated integral over the sides of every output of the function, with the output shape; in particular for constants, also if sides are collapsed, and for sums of constants. An integral of a covariance function is accepted exactly if the argument number and the shapes fit and the outputs are scalar. (Violated: nothing else can be integrated. For functions without a rule the coordinates are passed to the function as separate arguments, which raises TypeError, or ValueError on boxes with one side; scaled functions raise RecursionError; a sum with such a summand fails; a polynomial is accepted although it is a function of numbers, and gives an array of two integrals over other intervals; the integral of a covariance function over a box is accepted but raises on every evaluation.)", "quantifier": "all boxes, functions, sums, shapes, recursion depths", "why_tests_cant": "all functions and all boxes", "anchors": ["src/linpde_gp/linfunctls/_integrals.py", "src/linpde_gp/linfunctls/_linfunctl.py", "src/linpde_gp/functions/_linfunctls.py", "src/linpde_gp/domains/_box.py", "src/linpde_gp/randprocs/covfuncs/linfunctls/_registry.py", "src/linpde_gp/randprocs/crosscov/linfunctls/integrals/_covfunc_lebesgue.py"]}
{"id": "C77", "title": "Intervals and grids in double precision", "statement": "In double precision, finite bounds make an interval exactly if they are in order (ValueError otherwise); membership is exact, and neither infinities nor NaN are members; the volume is not negative, 0 exactly for equal bounds, and within one rounding of the width. A uniform grid with an inset between 0 and half the width has the requested number of points; all of them are members of the interval and they are in order, from lower bound plus inset to upper bound minus inset; each is within (6 width + largest bound) 2^-53 + 2^-1075 of the exact grid point, and they differ if the spacing is more than twice that. A shape with a number of axes other than one raises AssertionError. (Violated: NaN is accepted as a bound; grids of intervals so small that the spacing is subnormal can leave the interval and be out of order; if the width overflows the first grid point is NaN.)", "quantifier": "all bounds, insets and numbers of points up to 2^50", "why_tests_cant": "all bit patterns of the bounds and of the inset", "anchors": ["src/linpde_gp/domains/_interval.py"]}
{"id": "C78", "title": "Boxes and their grids in double precision", "statement": "In double precision, finite bounds make a box exactly if they are in order on every side, and NaN as a bound raises ValueError; a side whose bounds are equal as numbers becomes a point, any other an interval; membership is exact. A volume that is finite is not negative, 0 if a side is collapsed, and within a factor of (1 - 2^-53)^(2D-1) to (1 + 2^-53)^(2D-1) of the exact volume of the D sides if no product on the way underflows. A uniform grid has one factor for every side: the bound of a collapsed side, and the grid of the interval of any other side, with the next number of points of the shape; a shape with a number of axes other than the number of sides that are not collapsed raises TypeError; all points of the grid are members of the box under the conditions for intervals. (Violated: boxes of positive volume can have computed volume 0, and a collapsed box has volume NaN if the width of another side overflows; a box without sides has no volume.)", "quantifier": "all bounds, numbers of sides, insets and numbers of points up to 2^50", "why_tests_cant": "all bit patterns of the bounds, any number of sides", "anchors": ["src/linpde_gp/domains/_box.py", "src/linpde_gp/domains/_cartesian_product.py", "src/linpde_gp/domains/_interval.py", "src/linpde_gp/domains/_point.py"]}
{"id": "C79", "title": "Tensor products in double precision", "statement": "The jax evaluation of a tensor product of covariance functions in double precision returns the product, from the left, of the values of its factors at the coordinates of the points; it raises exactly if there is no factor or a factor raises. For factors that depend on squared distances only, exchanging the points gives the same bits; for squared exponential factors the value of a point with itself is exactly 1. For factors that are squared exponential or Matern with smoothness 1/2 the value is between 0 and 1, never NaN, for all points with finite coordinates, and 0 if one factor is 0. Unless something overflows, the value is within a bound of the exact product that depends on the factors' bounds alone, neither on points nor on lengthscales: for m factors with values up to 1 and errors up to e at most ((1 + e)(1 + 2^-52))^m - 1.", "quantifier": "all numbers of factors, points, lengthscales and libraries with a given accuracy of exp", "why_tests_cant": "all bit patterns of all coordinates and parameters, any number of factors", "anchors": ["src/linpde_gp/randprocs/covfuncs/_tensor_product.py", "src/linpde_gp/randprocs/covfuncs/_expquad.py", "src/linpde_gp/randprocs/covfuncs/_matern.py", "src/linpde_gp/randprocs/covfuncs/_jax_arithmetic.py"]}
{"id": "C80", "title": "Finite element basis in double precision", "statement": "In double precision, a linear interpolation basis needs at least three points (ValueError otherwise) and has one function for every point, or for every inner point with zero boundary; without zero boundary a sentinel point is added at both ends, one spacing away up to (absolute value of the end point + 3 spacings) 2^-53. If the points, with the sentinel points, are increasing, at least 2^-1021 apart and at most 2^1020 in absolute value, then at every finite number up to that size every function has a value between 0 and 1, never NaN; it is within 5 * 2^-53 of the exact hat function, exactly 0 from the neighbouring points on, outside the support bounds and, without zero boundary, outside the points given; at its own point it is between 1 - 2^-53 and 1; between two consecutive points the two functions that are not zero sum to 1 within 10 * 2^-53. Evaluating one function gives the same bits as evaluating all; NaN gives NaN. (Violated: the value of a function at its own point is not always exactly 1, so that interpolation is not exact; for large points a sentinel point can round to the end point, and the last function is NaN at its own point although the points given are 1 apart.)", "quantifier": "all grids, points and functions", "why_tests_cant": "all bit patterns of the grid points and of the argument", "anchors": ["src/linpde_gp/functions/bases/_fem.py"]}
{"id": "C81", "title": "Polynomial arithmetic in double precision", "statement": "For polynomials with finite coefficients in double precision: values are within the bound of Horner's method of the exact values, and the value at 0 is exactly the first coefficient. Sums and differences have the larger number of coefficients, and each coefficient is the exact one rounded once (relative error 2^-53, also for subnormal numbers); a sum does not depend on the order of its two summands, bit by bit, and a polynomial minus itself is zero. Adding a constant changes the first coefficient only. Negation is exact, twice it gives the same bits, and the values of the negative are exactly the negative values. Scaling, differentiating and integrating round each coefficient once; a coefficient is infinite or NaN only if the exact one rounds to a number that is too large; antiderivatives start with 0, have one coefficient more and never overflow; the derivative of a constant is 0. Differentiating an antiderivative gives the same number of coefficients, each within 3 * 2^-53 of the original in relative terms if the quotient is not subnormal. Dividing by a monomial drops its degree many coefficients if these are zeros, and raises ValueError if one is not zero or the degree is too large. (Violated: the derivative of the antiderivative is not always the same polynomial, and sums are not associative.)", "quantifier": "all polynomials, degrees below 2^53 for derivatives, points", "why_tests_cant": "all bit patterns of the coefficients, any degree", "anchors": ["src/linpde_gp/functions/_polynomial.py"]}
{"id": "C82", "title": "Linear interpolation in double precision", "statement": "Linear interpolation through points in double precision accepts one or more points with at least as many values (further values are ignored; a single point is accepted but evaluation then raises IndexError) and raises ValueError otherwise. For increasing finite points every finite argument between the first and the last point, both included, is evaluated on the line through the two points around it, a point on the line before it; for every other number, the infinities and NaN, the value is exactly 0. If points and values are at most 2^300 in absolute value and consecutive points at least 2^-300 apart, the value is finite and within 2^-49 (|y| + |s| X) + 2^-1073 (X + 1) of the exact line, where y is the left value, s the slope and X the larger absolute value of the two points; if the two values are equal, it is exactly that value. (Violated: the values can leave the range of the data, and interpolation is not exact: through (2^52, 0) and (2^52 + 1, 1/10) the value at the second point is 1/8.)", "quantifier": "all lists of points and values, arguments", "why_tests_cant": "all bit patterns of points, values and arguments, any number of points", "anchors": ["src/linpde_gp/functions/_piecewise.py", "src/linpde_gp/functions/_polynomial.py"]}
