# Design

Formal model of `linpde-gp` in Rocq (Coq 8.16.1) and proofs of the properties in
`properties.jsonl`. The code in `/repo` is never run; every model definition cites the
file and lines it was read from.

## Conventions

* One area per group of files in `rocq/theories/`:
  `XModel.v` (definitions only, each with a source citation), `XSpec.v` (small
  specification that does not use the model's helpers), `XProofs.v` (lemmas),
  `XProps.v` (property theorems only: `exact lemma`, `Print Assumptions`, and an
  `Example` showing that the hypotheses are met by a concrete case).
* Exceptions are values: `result A := Ok a | Err e` with one constructor per Python
  exception class.
* A property violated by the code gets a theorem `..._refuted` with a concrete witness,
  next to the strongest positive theorem that does hold.
* A property proved in part gets `..._partial`.

## Trusted base

* Coq's kernel (8.16.1).
* Axioms listed by `Print Assumptions`: only those of the standard library's real
  numbers (`ClassicalDedekindReals.sig_not_dec`, `ClassicalDedekindReals.sig_forall_dec`,
  `FunctionalExtensionality.functional_extensionality_dep`) and
  `Classical_Prop.classic` (via Coquelicot), and
  `ClassicalEpsilon.constructive_indefinite_description` (standard library) in
  `RealField.v`, which turns the reals into a mathcomp field with decidable equality (used
  by C58 and the examples of C20-C24). Purely algebraic files are axiom free.
* The reading of the Python source: the model is hand written.
* Idealisations:
  - floats are exact real numbers (or elements of an arbitrary field); rounding,
    overflow and NaN are not modelled, except in C67 (infinities and NaN) and in C72 to C75 and C77 to C82 (IEEE 754). `Fraction` is exact rational arithmetic.
  - NumPy/SciPy/jax/probnum/pykeops primitives are modelled by their documented
    behaviour: broadcasting of the shapes that occur, `piecewise`, `searchsorted`,
    `linspace`, `meshgrid`, `moveaxis`, `transpose`, `reshape(order="C")`,
    `scipy.sparse.diags`, matrix product, `solve` as multiplication by the inverse,
    Cholesky factor as any lower-triangular factor with L L^T = A, `Kronecker`.
  - probnum is not in the repository (empty submodule); `Matern.half_integer_coefficients`,
    `_scale_factors`, the arithmetic fallbacks and `GaussianProcess` are modelled by their
    published formulas.
* `jax.jvp` in `_jax_fallback` is, in all properties but C67 and C69 to C71, the mathematical derivative. C67 and C69 to C71 model it by
  the rules jax registers for the primitives that occur and prove when the two agree; jax itself is not
  in the repository.
* Not modelled: plotting, `experiments/`, the KeOps lazy-tensor backend except the
  expressions built by the Matérn derivatives, Wendland covariance functions and tensor products (C57, C65), jit of jax, quadrature
  (`scipy.integrate.quad`), sampling, reprs, performance, memory sharing between arrays
  except the in-place update behind C37.

## Plan per property

| id | modelled | how proved |
|----|----------|------------|
| C01 | Polynomial, RationalPolynomial as coefficient lists over an arbitrary field; Horner loop | induction on coefficient lists against the power-sum specification; instantiated at Qc and R |
| C02 | differentiate, integrate, LebesgueIntegral(Polynomial) | Coquelicot `is_derive`, `is_RInt` |
| C03 | `_divmod_rational_polynomial` loop | loop invariant; error branch by cases; `_refuted` for the reported degree |
| C04 | `__floordiv__` | list reasoning |
| C05 | Piecewise, PiecewiseLinear, PiecewiseConstant on R | induction on knots; `_refuted` for the left end of PiecewiseConstant |
| C06 | searchsorted-based integral | Coquelicot Chasles; `_refuted` witness for non-knot upper bound |
| C07 | expression type for functions with the dispatch of `__add__`, `__sub__`, `__rmul__`, `__neg__` | structural induction |
| C08 | grid construction, `_evaluate`, `eval_elem`, `support_bounds` | real arithmetic, induction on grids |
| C09 | normalizer and Constant projection | integrals of piecewise quadratics (Coquelicot) |
| C10 | `scipy.sparse.diags` assembly of the stiffness matrix | positive theorem on uniform grids, `_refuted` otherwise |
| C11 | boundary of Point, Interval, Box, CartesianProduct | induction on the factor list |
| C12 | `__contains__`, `__getitem__`, `volume`, bounds | induction on dimension |
| C13 | `__eq__` of the domain classes | positive for equal numbers of factors, `_refuted` for prefixes |
| C14 | `uniform_grid` | real arithmetic, list combinatorics |
| C15 | `Block*`: BlockMatrix, ConcatenatedLinearOperator and the NumPy operations they use | matrices as index functions, offsets of blocks; which inputs are accepted, with the error of every other |
| C16, C17 | `Block2*`: BlockMatrix2x2 branch by branch, with the property flags of the operator and of its blocks | mathcomp block matrices over an ordered field; the Cholesky routine is any one with the usual contract, which is shown satisfiable |
| C18 | reshape in C order | ravel/unravel bijection on shapes of any rank |
| C19 | condition_normal_on_observations | mathcomp matrices, Schur complement; `C19_accepts`: the inputs that are rejected |
| C20-C24 | ConditionalGaussianProcess with processes as index-set kernels and finite functionals; functionals and operators have to be linear only on the functions that conditioning reaches from the prior (`admissible`), so derivatives are included | mathcomp matrices; induction over histories |
| C25 | shapes and values of `_evaluate` vs `_evaluate_linop` | explicit witness |
| C26 | `_preprocess_observations` decision logic | case analysis |
| C27 | `Galerkin*`: constructor, evaluation, embedded cross-covariance, the projection applied again; the projection is any map of functions to coefficients | linearity on a class of functions, finite sums; instances: interpolation, and the L2 projection onto linear finite elements (`GalerkinL2*`, `is_fem_projection` built from C09/C40) for continuous kernels, with double integrals as limits of Riemann sums (`PsdIntegral`) |
| C28 | `Param*`: ParametricGaussianProcess mean and covariance with every branch (scalar, array, operator features), ParametricCovarianceFunction | array index functions, finite sums; `_refuted` for scalar and matrix features |
| C29 | `Tensor*`: TensorProduct (constructor, array, jax and operator views), TensorProductGrid with its attribute, Kronecker products (lazy tensors: C65) | index arithmetic, Schur product theorem by Gram factorisation, `_refuted` witnesses |
| C30 | `Cross*`: Stack, IndependentMultiOutput, Zero covariance functions with array, jax and operator views, `SelectOutput` | index arithmetic on arrays of any rank, `_refuted` for the jax path |
| C31 | `Cross*`: Dirac/evaluation functionals on either argument | array index functions, `_refuted` for argument 0 and the Dirac layout |
| C32 | `Cross*`: cross-covariance classes, `_move_shape_blocks`, operator view and its fallback | index arithmetic, `_refuted` for the LinOp view and the parametric orientation; jax views in C62 |
| C33 | `Kernel*`: the ExpQuad classes of covfuncs/linfuncops/diffops with the registry dispatch, on either or both arguments, in any dimension and with a lengthscale per coordinate | Coquelicot derivatives (`KernelCalc`), smoothness and symmetry of mixed derivatives, soundness by induction over the objects the calls return (`KernelSound`) |
| C34 | `MaternPoly`, `MaternProps`: coefficient recursion of the half-integer Matérn polynomials and of their derivatives | coefficient identities, Coquelicot `is_derive_n` |
| C35, C36 | `Matern*` over `KernelModel`: closed forms of first and second derivatives, directional derivatives and Laplacians with the registry dispatch | derivatives at and away from the diagonal, up to the order of smoothness; `_refuted` beyond it and for repeated application |
| C37 | `Effect*`: state machine of covariance objects that share their array of scale factors | invariant over histories; witness history; positive for scalar lengthscales |
| C38 | `Wendland*`: WendlandPolynomial recursion over the rationals and the covariance function built from it | induction over k |
| C39, C40 | `Integral*`, `Proj*`, `Obs*`: antiderivative recursions, closed forms of integrals on one or both arguments, projections onto hats | Coquelicot integrals; positivity of the resulting covariances in `ObsPsdProps` (double integrals as limits of Riemann sums, `PsdIntegral`) |
| C41, C42 | PartialDerivativeCoefficients as association lists | finite-map semantics |
| C43 | `Lfo*`: operator objects with rewriting constructors and call dispatch | denotational semantics; fuel-indexed evaluator for non-termination |
| C44 | `Functl*`: functional objects, rewriting constructors and call dispatch on the function classes of C07 | same; integrals over boxes in C76; scalings of random processes not modelled |
| C45 | dispatch of `Kernel*`: which of the pairs (operator, covariance function) have a closed form, a generic composite or an error | case analysis over operators and classes, `_refuted` witness |
| C46-C48 | solution classes | Coquelicot derivatives |
| C49 | constructor checks; rejected inputs of C43, C45, C46, C49 in `ErrorProps` | case analysis |
| C50 | dtype-tagged evaluation | witness; positive for floats |
| C51, C52 | `Cross*`: dispatch of functionals and operators on the classes of C30-C32; the action on a leaf covariance function is an arbitrary map of its values | structural reasoning over the classes, `_refuted` witnesses |
| C53 | `Tensor*`: TensorProduct_LinDiffOp_LinDiffOp (constructor with its table, memoised evaluation, array, jax and operator views) and the dispatch; the univariate derivatives of a factor are an arbitrary map (C33-C36) (lazy tensors: C65) | invariant of the memo table, Coquelicot partial derivatives of products up to the orders that occur, `_refuted` witnesses |
| C54 | `Shaped*`: Affine, StackedFunction, SelectOutput on it, probnum's `Function.__call__` and `JaxFunction.jax` around `_evaluate`; stacked functions are arbitrary vectorised functions | broadcasting lemmas, index arithmetic, `_refuted` for all inputs of the failing kind |
| C55 | `Mixture*`: TruncatedGaussianMixturePDF with its broadcasting; `scipy.stats.norm.cdf` is the integral of the density | Coquelicot: fundamental theorem, change of scale; zero standard deviations and empty mixtures excluded |
| C56 | `Psd*` over `KernelModel`/`MaternModel`: no new model code; the specification assembles the joint covariance of observations from the objects the operator calls return | Schur products and power series give Gaussians; Gaussian mixtures (limits of integrals) give every half-integer Matérn; derivatives are limits of difference quotients, by induction over operator expressions |
| C57 | `BatchModel`: `_evaluate`, `_evaluate_jax` of all ExpQuad and Matérn classes (and sums, scalings, lambdas) on arrays with a dtype, step by step with broadcasting, in-place updates and sums over trailing axes; the lazy tensors of the Matérn derivatives | every operation keeps the invariant "entry (i, j) of an array whose shape is the batch, the input shape, both or neither"; then class by class; also closes the contract that C29–C32 and C51–C53 assume of scalar covariance functions (`C57_contract`) |
| C58 | no new model code: C20-C24 over the reals with the covariance functions of C33 | positivity from C56; universality of Gaussians: sections of a squared exponential separate observations because exponentials times monomials are linearly independent; `kstrict`, `informative`, `c_infty` in `PdeCondSpec.v` |
| C59 | `RandProc*`: functionals of C44 and operators of C08/C41 on Gaussian and deterministic processes, via the covariance and cross-covariance rules of C51, C52; the covariance function is an arbitrary scalar one whose rules give the pointwise action (`KLeaf`) | a functional is a list of weighted actions (`lterms`); invariant of the cross-covariance it builds (`good`); operators act on it step by step (`op_apply`), as a linear combination of repeated derivatives (`oterms`); positivity from C56; `_refuted` for all inputs of the failing kind |
| C60 | conditioning model of C20-C24 on the real line with values and weighted integrals (`LineCond`), covariance functions of C33/C40/C56; points of any shape for interpolation (`PointStrict`) | admissibility from C56's positivity and Fubini (`LineObs`); Matérn kernels are integrals of squared exponentials over the lengthscale (`MaternStrict`), so a null combination for a Matérn kernel is one for almost every Gaussian, hence for all, hence vanishes on all smooth functions (`LineStrict`); `separate_independent` for grids |
| C61 | conditioning model of C20-C24 on functions of several coordinates (`TensorCond`), tensor products (`TensorModel`) of the one-dimensional covariance functions of C33/C35; the map that differentiates the factors of a tensor product is assumed to return what the calls in `KernelModel` return (`follows`); the smoothness required of mean and factors is finite (`regular`) | derivatives of squared exponential and Matérn kernels on the line are strictly positive definite up to the order of smoothness (`StatChain`, `MaternChain`), strictness passes to products by a Schur complement over the values of one factor (`TensorStrict`), hence combinations of mixed derivatives without variance vanish on all functions (`TensorObs`); admissibility and collocation in `TensorCond*`; the same for any covariance function with these properties, and for sums of positive multiples of products, in `TensorMix*`; values of the code from C33, C35, C53 (`TensorFactor`, `TensorGram`) |
| C62 | `CrossJax*`: the jax views of all cross-covariance classes with a flag for tracing (`np.asarray` of a tracer raises TypeError, jnp functions accept it), PriorPredictiveCrossCovariance (constructor, append, array, jax, operator view), `Mean._evaluate`, `Mean._evaluate_jax` and `CovarianceFunction._evaluate_jax` up to their first exception | induction over cross-covariances, index arithmetic, `_refuted` for all inputs of the failing kind |
| C63 | `Gen*`: `LinearDifferentialOperator.__init__`, `to_sum`, `_to_sum_no_jax`, `_jax_fallback` and `__call__` for coefficients given directly, `SelectOutput.__init__`, on functions, covariance functions (scalar outputs), stacked covariance functions, independent outputs and stacked functions; a result that jax cannot evaluate on batches carries a flag, a covariance function that cannot be evaluated is `None`; assumed: a NumPy record without fields is an empty sequence, an array of them is not a sequence of integers | sums of partial derivatives through C43/C33/C45, folds over the summands with the first exception, `_refuted` for all inputs of the failing kind |
| C64 | `Lambda*`: `JaxLambdaFunction`, `JaxLambdaCovarianceFunction` (`jnp.vectorize` with the signature they build, on arrays of every shape) for callables whose exceptions and result shapes depend on the shapes of the arguments; the constructors of `covfuncs/linfuncops/_abstract.py` and `crosscov/linfunctls/_base.py` | shape by shape; the values are compared with a point-by-point specification |
| C65 | `Lazy*`: `_keops_lazy_tensor` of TensorProduct, TensorProduct_LinDiffOp_LinDiffOp and WendlandCovarianceFunction, the latter's `_evaluate` and `_evaluate_jax` on arrays with a dtype; the lazy tensors of factors are an arbitrary map, pykeops' operations as in `BatchModel` | every entry of the table of differentiated factors comes from a pair of terms; the lemmas on the memoised evaluation of C53, on the steps of C57 and the radial function of C38 |
| C66 | the model of C38 and C29 with the conditioning of C20-C24 (`WendPd*`; `Bump*`, `WendTail`, `WendPsd`, `WendChain`, `EdgeStrict` are proofs) | the Wendland function is a mixture of autocorrelations of the bumps (s^2-t^2)^k (an identity of integrals proved by a commutative-algebra argument with two derivations, `BumpAlg`); strictness from the order of vanishing at the edge of the support; Schur products for tensor products. Only points with one coordinate per factor: Wendland functions of several coordinates need integrals over balls, which the installed libraries do not have |
| C67 | `Ad*`: jax programs of the covariance functions, polynomials and sine series as terms over scalar primitives, forward mode with symbolic zeros, numbers with infinities and NaN | a program without singularity at the points computes its derivative, and so do its tangents (induction over programs and over the list of directions); for Wendland covariance functions an invariant on the cut-off polynomial and gluing at the edge of the support; on the diagonal a class of programs with value NaN that is closed under tangents; `AdCov*`: the same for the jax program of every class of covariance function with a closed form, for scalings and sums of them and for several operators one after the other (induction over the object; two real functions that agree on a set open along moves have the same derivatives there) |
| C68 | `WeakForm*`: `weak_form` of the differential operators, scalings and sums of operators and of the functionals, applied to a basis of hat functions | induction over the expressions users write; the matrix from C10 |
| C69 | `PwJax*`: jax versions of piecewise functions with polynomial and constant pieces, as the program of the branch taken | the branch is the piece of the cell; derivatives of functions that agree on an open cell (`derivs_ext`); `_refuted` at kinks and at the left end |
| C70 | `XJax*`: jax versions of the Matérn antiderivatives and of the cross-covariances of integrals, as the program traced at a point (`jnp.abs` multiplies the tangent by the sign) | away from the ends the program agrees with the integral on an open set; at all points the returned derivative is computed and compared with the fundamental theorem of calculus; `_refuted` at the ends |
| C71 | `Residual*`: operator expressions applied to jax programs (`op_prog`) and to functions without one (`op_numpy`), programs of the attached solutions | programs without singularity are smooth functions (tangents are linear in the direction), then by induction over the expression; the attached solutions with the theorems of C46 and C48 |
| C72 | `Float*`: the programs of C67 run in the IEEE arithmetic of `Coq.Floats.SpecFloat`, any format, one primitive after the other (no fused multiply-add, no reassociation by XLA); `exp` and the rounding of constants are unknown functions | each operation commutes with negation up to the sign of a zero; induction over programs and covariance functions with three relations between the runs at exchanged points (same number, same value, opposite); zeros propagate exactly at equal points |
| C73 | `FloatRound*`, `FloatErr`: binary64; Flocq relates `SpecFloat` to rounded real numbers (no axioms beyond those of the reals) | operations are correctly rounded; Horner's method by induction over the coefficients; for programs the bound `err` propagates the error through each operation (mean value bounds for `exp`, `sqrt`, quotients) and adds one rounding; `in_scope` holds for every program of a covariance function whose lengthscales are at least the smallest positive number |
| C74 | the model of C72 in binary64; hypotheses on the library: `exp` maps nonpositive numbers into [0, 1] | every intermediate result is classified (not NaN, not negative, positive) with the correctness theorems of Flocq; Horner's method with positive coefficients stays positive; a correctly rounded library meets the hypotheses, and 2^600 and 0 are far apart for it. Violated for Matern: C74_matern_far_refuted |
| C75 | the model of C72 in binary64, hypotheses on the library as in C73 | relative errors `(1+u)^k - 1` are accumulated through sums of squares and Horner's method with positive coefficients, where an underflow is either impossible (addition) or absorbed; the exact profiles `exp(-s)` and `P(r) exp(-r)` are insensitive to relative errors uniformly in the argument, because the coefficients of the polynomial are dominated by those of the exponential series; Wendland polynomials vanish at the edge of the support and are Lipschitz, so that a distance rounded across the edge does no harm; scaled covariance functions and sums by induction (`FloatCompoundProps`); examples at the points 0 and 1 with explicit bounds (13, 82 and, at the edge of the support, 22 roundoffs) |
| C76 | `BoxInt*`: constructor and call of integrals over boxes on the function classes of C07 and the domains of C12, acceptance and evaluation of integrals of covariance functions | induction on the recursion depth against iterated Coquelicot integrals; `_refuted` for everything that goes to quadrature, for polynomials and for covariance functions |
| C77 | `FloatGrid*`: `Interval` and its `uniform_grid` with `SpecFloat` numbers in binary64; `np.linspace` operation by operation as in NumPy, with its special case for a spacing that underflows to 0 | relations of C73 between rounded operations and reals; rounding is monotone and fixes the bounds, so that it suffices that the offsets stay below the exact width; `_refuted` for NaN bounds, subnormal spacings (computed) and widths that overflow |
| C78 | `FloatBox*`: `Box` with `SpecFloat` numbers in binary64, on top of `FloatGridModel`: bounds, factors, membership, volume (product from the left) and `uniform_grid` with one inset; bounds are given as rows | induction over the sides with the theorems of C77 for each; relative errors of the multiplications as long as no product is subnormal; `_refuted` for underflow and for collapsed sides beside a width that overflows (computed) |
| C79 | `FloatTensor*`: `TensorProduct._evaluate_jax` and `evaluate_dimensionwise_jax` in binary64, with the programs of C72 for the factors; the constructor is in `TensorModel` | the theorems of C72, C74 and C75 for the factors, induction over the factors for the product; in the unit interval products neither overflow nor leave it |
| C80 | `FloatFem*`: `UnivariateLinearInterpolationBasis` (construction, `_evaluate`, `eval_elem`, `support_bounds` for indices from 0) with `SpecFloat` numbers in binary64; `np.maximum(0, v)` returns NaN for NaN | relations of C73 between rounded operations and reals; a spacing times its rounded inverse rounds to at most 1 (a tie to even), so that the unit interval follows from monotone rounding; negative products, also those that overflow, by their sign; `_refuted` for exact interpolation and for sentinel points that round to the end point (computed) |
| C81 | `FloatPoly*`: `Polynomial` with `SpecFloat` coefficients in binary64: `_evaluate`, `differentiate`, `integrate`, negation, sums, differences, constants, numbers as factors, division by monomials; class dispatch is in `PolyClassModel` and the conversion of coefficients to floats is not modelled | coefficient by coefficient with the relations of C73; Horner's method as in C73; rounding is odd (negation) and fixes doubles (value at 0); `_refuted` for the exact round trip of differentiation and for associativity (computed) |
| C82 | `FloatLinear*`: `PiecewiseLinear.from_points` and `Piecewise._evaluate` for lists of `SpecFloat` numbers in binary64 and one argument; `np.piecewise` is the last condition that holds, 0 if none does; shapes other than one-dimensional lists are not modelled here | the piece is unique for increasing points; errors of slope, offset and value added up with the relations of C73, no overflow because all intermediate results are at most 2^902; `_refuted` for the range of the data (computed) |

## Findings in the code

Each finding is a theorem (usually `..._refuted`) about the model; the property statement
names the exception.

* C03: the remainder returned by `divmod` keeps the degree of the dividend (trailing zeros).
* C05: `PiecewiseConstant` is zero at its left end point.
* C06: integrals whose upper bound is not a knot are wrong.
* C07: polynomial plus constant of another input or output shape is accepted for size 1.
* C10: the stiffness matrix is wrong on non-uniform grids.
* C12: `asdomain` reads an integer vector as a point; membership in products; interval index.
* C13: products compare equal to their prefixes; points compare by broadcasting.
* C14: a collapsed box factor contributes no grid axis of its own length.
* C19: the one-dimensional transform without noise raises TypeError.
* C25: the pointwise posterior covariance of several outputs has the wrong values or shape, the
  jax path raises TypeError when compiled (C62) and otherwise puts the batch index in the wrong place.
* C26: the layout of `Y` depends on the functional; a scalar functional of a process is a
  random variable of shape `(1,)`; a functional on a conditional process adds a mean of the
  output shape to a flat correction.
* C27: the non-normalised projection applied to its Galerkin covariance function returns the weight
  covariance expanded in the basis, which is not the projection of the function.
* C28: `ParametricCovarianceFunction` with scalar or matrix-shaped features is accepted but fails on
  every evaluation; the first shape of the weight covariance is not checked.
* C29: the operator of an `xy` grid is that of the `ij` grid; arrays derived from a grid have no
  `factors` (AttributeError); the Kronecker operator has the wrong size for several outputs; a grid
  with fewer coordinates than factors is accepted; no factors at all give IndexError.
* C30: the jax evaluation of stacked covariance functions is identically zero.
* C31: the array path for argument 0 evaluates k(x, X) instead of k(X, x); Dirac functionals of
  several outputs have a point-major array but an output-major operator.
* C32: `LinOpProcessVectorCrossCovariance` with the process first multiplies its operator
  from the left (wrong value or ValueError); the parametric cross-covariance with the process
  first uses C phi instead of C^T phi.
* C33, C45: two Laplacians on ExpQuad with argument 0 first raise AttributeError; repeated
  operators on one argument raise RecursionError (scalar inputs) or TypeError; partial
  derivatives in several dimensions return the object `NotImplemented`.
* C35: the Laplacian for nu = 1/2 and two Laplacians for nu = 3/2 are answered although the
  derivatives do not exist (negative variance); partial derivatives on inputs of shape
  `(1,)` raise ValueError.
* C36: weighted Laplacian on a multivariate Matern and directional derivatives of other nu
  raise TypeError; mixed derivatives for nu = 3/2 are rejected in several dimensions.
* C37: evaluating a directional derivative at two points overwrites the shared scale factors.
* C38: negative `k` always fails the assertion.
* C39, C40: the quadrature fallbacks ignore `reverse`.
* C41: negative codomain indices are accepted; all-zero weights give an empty operator that
  raises IndexError when applied.
* C42: order-zero partial derivatives cannot be factorised (IndexError).
* C43: operators on scaled functions recurse forever (RecursionError); an order-zero partial
  derivative maps constants to zero.
* C44: integrals and weak forms of scaled functions recurse forever; the weak form of the zero
  function has shape `()`.
* C46, C49: too few array boundary values silently drop boundary conditions.
* C48: a non-zero right-hand side is ignored; vector-valued initial values are accepted.
* C50: integer points truncate or raise TypeError.
* C51: functionals with own rules on the cross-covariance of an evaluation with several outputs raise ValueError;
  Dirac functionals put output-major entries under a point-major shape.
* C52: every function operator on k(X, x) raises TypeError (the handler passes the
  cross-covariance instead of the covariance function); on cross-covariances without rules
  (functionals with their own rules, matrices, parametric, stacks) a differential operator falls
  through to `JaxLambdaFunction(self._jax_fallback(f))` and returns a function object whose
  evaluation raises TypeError; on multiples and sums of them AttributeError.
* C53: `linop` of a differentiated tensor product on two grids uses the first grid for both sides;
  a second operator on the same argument raises AttributeError or returns `NotImplemented`.
* C35, C36: a second differential operator on the same argument of a Matérn kernel recurses forever
  on scalars and raises TypeError in more than one dimension.
* C54: an affine function with a vector A raises on every batch of numbers; `jax` of an affine
  function with one input coordinate takes a bare number and returns wrong values; stacking along
  an axis counted from the front fails or permutes values on batches; `jax` also accepts inputs with
  fewer axes than declared and passes them on.
* C55: the truncated density is not zero outside of its interval.
* C56: the univariate Matérn 3/2 kernel accepts a Laplacian in both arguments; the result is negative on the diagonal, so no process has it as its covariance. Scaling a covariance function by a negative number is accepted.
* C57: called with one array of integers, a covariance function returns its values truncated to integers (`np.full_like` keeps the dtype), so k(x) and k(x, x) differ; with NumPy the first-order Matérn derivatives raise TypeError when both arrays hold integers (in-place multiplication).
* C59: a functional whose value on the mean is a Python float (an integral computed by
  quadrature) raises AssertionError on a Gaussian process; integrals after an operator fail (TypeError
  for differential operators, see C52); `Identity.__call__` lacks a `return` (linfuncops/_identity.py:20-22), so
  that every functional after the identity fails; a matrix applied to point values fails or gives
  A A K (crosscov/_arithmetic.py:127-130 multiplies from the left); scaled operators fail on
  deterministic processes.
* C61: factors of tensor products differentiated three or more times are the object NotImplemented.
* C62: `jax` of a stacked cross-covariance drops every update and returns zeros; the jax views of
  evaluation functionals and of PriorPredictiveCrossCovariance call the NumPy interface, so that the
  compiled jax views of mean and covariance function of a conditioned process always raise; an empty
  batch of points raises ValueError (`reshape` with -1).
* C63: for an operator given by coefficients, the jax fallback wraps a function object instead of its
  jax method (_lindiffop.py:145-148), so that results for functions other than constants fail with
  TypeError on every batch of more than one point and under jax transformations, and the fallback for
  covariance functions takes one argument instead of two; entries of order zero next to derivatives
  fail with TypeError; outputs are selected by tuples, which the rules for stacked functions and
  independent outputs refuse (`isinstance(idx, int)`); partial derivatives of squared exponential
  covariance functions are available for inputs of shape () and orders up to two only; negative
  output indices out of range are accepted and fail when the operator is applied.
* C64: `JaxLambdaFunction` refuses integer shapes (`len` of the raw argument); `JaxFunction.jax` accepts points
  that merely broadcast to the input shape and passes them on unbroadcast; the signature of
  `JaxLambdaCovarianceFunction` has at most one axis per shape, so that inputs with several axes always raise
  AssertionError and outputs with several axes ValueError.
* C67: `_euclidean_distances_jax` takes `jnp.sqrt` of the squared distance, whose tangent at zero is
  infinity times zero. All derivatives of Matérn and Wendland covariance functions that are computed by
  automatic differentiation are therefore NaN where the two points coincide, so on the diagonal of every
  Gram matrix: always for Wendland, and for Matérn where no closed form is registered (for instance
  Laplacians in two or more dimensions). The covariance functions have 2k and 2p derivatives there.
* C68: `Laplacian(shape).weak_form(basis)` accepts operators on any domain, although the basis has one input.
* C69: at a knot where the slope changes, where no derivative exists, automatic differentiation of a piecewise
  function silently returns the derivative of the piece on the left; at the left end, where the function jumps,
  that of the first piece.
* C70: `UnivariateRadialCovarianceFunctionLebesgueIntegral._evaluate_jax` composes `jnp.abs` with an antiderivative;
  jax's derivative of `abs` at zero is zero, so at the ends of the interval the derivative of the integral of a Matérn
  covariance function is wrong by exactly the value on the diagonal.
* C71: `Solution_HeatEquation_DirichletProblem_1D_InitialTruncatedSineSeries_BoundaryZero` derives from
  `pn.functions.Function` and calls its jax formula `_jax_evaluate`; operators therefore differentiate its NumPy
  evaluation, and evaluating the result raises TypeError (C71_heat_refuted; C71_heat shows the unused formula is right).
  This rests on `pn.functions.Function.__call__` converting its argument with `np.asarray` (ProbNum, not in the repository).
* C72: `ExpQuad._evaluate_jax(x0, None)` returns ones without looking at `x0` (_expquad.py:16-20); for a point with an
  infinite coordinate `k(x, x)` is NaN (C72_diagonal_infinite_refuted).
* C76: integrals over boxes of functions without a rule raise TypeError or ValueError (`nquad` passes the coordinates as
  separate arguments, _integrals.py:52-56); polynomials are accepted and give two numbers; integrals of covariance
  functions over boxes cannot be evaluated (_covfunc_lebesgue.py:46-52).
* C77: `Interval` accepts NaN as a bound (the comparison is false). Points of `uniform_grid` leave the interval if the
  spacing is subnormal, and are NaN if the width overflows; both come from `np.linspace`.
* C78: `Box.volume` is NaN for a collapsed box with a side whose width overflows (0 times infinity), and 0 for boxes with
  sides whose product underflows. `Box` rejects NaN as a bound while `Interval` accepts it.
* C80: without zero boundary the point that `UnivariateLinearInterpolationBasis` adds after the last one can round to the last one
  (points 2^53 - 2, 2^53 - 1, 2^53): the normalization factor is infinite and the last function is NaN at its own point. The value of a
  function at its own point can be 1 - 2^-53 (points 0, 49, 98).
* C82: `PiecewiseLinear.from_points` evaluates `slope * x + offset` with `offset = y_l - slope * l`, which cancels if the points are large compared to their distance: through (2^52, 0) and (2^52 + 1, 1/10) the value at the second point is 1/8 (`C82_range_refuted`). A NaN argument gives 0 instead of NaN (`C82_nan`).
* C74: for points whose squared scaled distance overflows `Matern._evaluate_jax` multiplies an infinite polynomial with
  `exp(-inf) = 0` (_matern.py:30-43): NaN instead of 0, for every smoothness from 3/2 on (C74_matern_far_refuted).

## Axioms per theorem

<!-- assumptions:begin -->

Output of `Print Assumptions` for every property theorem, grouped by axiom set:

* `ClassicalDedekindReals.sig_forall_dec`, `FunctionalExtensionality.functional_extensionality_dep`:
  - `PolyProps.v`: `C01_make_float_value`, `C01_make_rational_value`, `C01_add`, `C01_sub`, `C01_neg`, `C01_scale`, `C01_add_constant`, `C01_mul`, `C01_mul_monomial`, `C01_rational_closed`, `C02_differentiate_integrate`, `C04_floordiv_monomial`, `C01_monomial`
  - `PiecewiseProps.v`: `C05_constructor`, `C05_cells_partition`, `C05_value_in_cell`, `C05_value_outside`, `C05_no_pieces`, `C05_constant_value`, `C05_constant_left`, `C05_constant_left_refuted`, `C05_scale`, `C05_scale_constant`, `C05_scale_constant_refuted`, `C05_add_polynomial`, `C05_add_constant`, `C05_from_points_errors`, `C05_from_points_knots`, `C05_from_points_interpolates`
  - `FunExprProps.v`: `C07_expressions`, `C07_add`, `C07_sub`, `C07_scale`, `C07_neg`, `C07_classes`, `C07_shape_mismatch`, `C07_constants_broadcast`, `C07_polynomial_constant_shape_refuted`, `C07_polynomial_constant`
  - `FemProps.v`: `C08_construct`, `C08_nonnegative`, `C08_nodes`, `C08_linear_between_nodes`, `C08_zero_outside`, `C08_support`, `C08_eval_elem`, `C08_bad_index`, `C08_partition_of_unity`, `C09_function_unnormalised`, `C09_normaliser_unique`, `C10_accepts`
  - `DomainProps.v`: `C12_construct_interval`, `C12_construct_box`, `C12_asdomain`, `C12_asdomain_integers_refuted`, `C11_boundary_is_frontier`, `C11_parts_are_domains`, `C11_box_number_of_parts`, `C12_membership`, `C12_box_is_product_of_factors`, `C12_factor_access`, `C12_select`, `C12_shape_counts_coordinates`, `C12_volume`, `C12_volume_sign`, `C13_equality`, `C13_reflexive`, `C13_different_classes`, `C13_product_prefix_refuted`, `C13_box_broadcast_refuted`, `C13_point_broadcast_refuted`, `C14_interval_grid`, `C14_interval_grid_shape`, `C14_box_grid`, `C14_box_grid_shape_checked`, `C14_box_grid_inside`, `C14_product_grid`, `C14_nested_product_unavailable`, `C14_collapsed_box_factor_refuted`
  - `PdeProps.v`: `C49_pde`, `C49_pde_rejects`, `C49_condition`, `C49_condition_rejects`, `C49_dirichlet`, `C49_bvp`, `C49_bvp_rejects`, `C49_ibvp`, `C49_observations`, `C49_observations_points`, `C49_poisson_drops_conditions_refuted`, `C46_no_solution`, `C46_given_solution`, `C46_errors`, `C46_interval_only`, `C46_boundary_function`, `C47_errors`, `C47_interval_only`
  - `DtypeProps.v`: `C50_in_place`, `C50_polynomial_floats`, `C50_polynomial_integers`, `C50_polynomial_integers_fail_refuted`, `C50_polynomial_truncated_refuted`, `C50_constant_integers`, `C50_jax_floats`, `C50_jax_integers`, `C50_jax_truncated_refuted`, `C50_monomial`, `C50_piecewise_floats`, `C50_piecewise_integers`, `C50_piecewise_truncated_refuted`, `C50_piecewise_linear_fails_refuted`
  - `MaternProps.v`: `C34_divisions`, `C34_half_integer_only`
  - `IntegralProps.v`: `C39_bad_argnum`, `C39_bad_shape`
  - `ProjProps.v`: `C09_normaliser_exists`, `C40_bad_argnum`, `C40_bad_shape`
  - `FunctlProps.v`: `C44_add_mismatch`, `C44_operator_mismatch`, `C44_matrix_mismatch`, `C44_merged`, `C44_integral_of_vector`, `C44_weak_form`
  - `ParamProps.v`: `C28_process_psd`, `C28_covfunc_psd`
  - `GalerkinProps.v`: `C27_psd`, `C27_interpolation_psd`
  - `RandProcProps.v`: `C59_deterministic_sample`, `C59_construction`
  - `GenProps.v`: `C63_constructor`, `C63_negative_output_refuted`, `C63_single_points`, `C63_unflagged_points`, `C63_vector_zero`, `C63_stacked_function_refuted`, `C63_independent_refuted`, `C63_independent_shapes`
  - `LazyProps.v`: `C65_split`, `C65_tensor`, `C65_tensor_errors`, `C65_operators`, `C65_conditional`
  - `ErrorProps.v`: `C49_ibvp_rejects`, `C49_observations_rejects`, `C46_boundary_values_reject`, `C46_constant_rejects`, `C07_constants_reject`
  - `AdProps.v`: `C67_arithmetic`
  - `WeakFormProps.v`: `C68_accepts`, `C68_sum_of_operators`, `C68_value`, `C68_different_tests`
  - `ResidualProps.v`: `C71_accepts`, `C71_errors`
  - `FloatProps.v`: `C72_wendland`
  - `FloatPowProps.v`: `C73_power_zero`
  - `BoxIntProps.v`: `C76_domains`, `C76_other_domains`, `C76_several_outputs`, `C76_polynomial_one_side`, `C76_covariance_refuted`
  - `FloatBoxProps.v`: `C78_volume_refuted`
  - `FloatTensorProps.v`: `C79_bound`
  - `FloatFemProps.v`: `C80_sentinel_refuted`
  - `FloatPolyProps.v`: `C81_neg`, `C81_floordiv`
* closed under the global context (no axioms):
  - `PolyProps.v`: `C01_mul_coefficients`, `C01_degrees`, `C02_coefficients`, `C03_divmod`, `C03_divmod_zero_division`, `C03_remainder_degree_refuted`, `C04_monomial_degree`
  - `DomainProps.v`: `C12_product_membership_unavailable`, `C12_interval_getitem`, `C14_inset_broadcast`
  - `BlockProps.v`: `C15_block_accepts`, `C15_block_todense`, `C15_block_matmul`, `C15_block_transpose`, `C15_concat_accepts`, `C15_concat_todense`, `C15_concat_matmul`, `C15_concatenate`, `C15_sum`, `C15_concat_transpose`
  - `Block2Props.v`: `C16_construct`, `C16_flags`, `C16_matmul`, `C16_transpose`, `C16_trace`, `C16_schur`, `C16_det`, `C16_cholesky`, `C16_cholesky_not_spd`, `C16_block_flags`, `C17_solve`, `C17_schur_update`, `C16_cholesky_contract_satisfiable`
  - `CovProps.v`: `C18_array`, `C18_linop`, `C18_from_scalar`, `C18_roundtrip_array`, `C18_roundtrip_matrix`, `C18_add`, `C18_add_mismatch`, `C18_sub`, `C18_neg`, `C18_scale`, `C18_scale_by_array`, `C18_flatten`
  - `NormalProps.v`: `C19_is_conditional`, `C19_formula`, `C19_accepts`, `C19_vector_transform_without_noise`, `C19_gram_posdef`, `C19_posterior_covariance`, `C19_sequential`
  - `CondProps.v`: `C20_posterior`, `C20_at_points`, `C20_is_conditional`, `C20_covariance_operator`, `C20_noise_free_data`, `C20_noisy_data`, `C20_gram_invertible`, `C20_gram_noise_free`, `C21_incremental_is_batch`, `C21_recomputed_weights`, `C22_order`, `C23_covariance`, `C23_more_data`, `C24_history`, `C24_functional`, `C24_functional_formula`, `C24_operator`, `C20_points_admissible`
  - `ObsProps.v`: `C26_accepted`, `C26_errors`, `C26_noise_type`, `C26_data_vector`, `C26_data_at_points`, `C26_noise_added`, `C26_layout_depends_on_L_refuted`, `C26_noise_layout_refuted`
  - `MultiProps.v`: `C25_operator`, `C25_mean`, `C25_pointwise`, `C25_pointwise_same_output`, `C25_pointwise_refuted`, `C25_batched_refuted`, `C25_jax_traced_refuted`, `C25_jax_refuted`, `C25_jax_batched_refuted`
  - `DiffopProps.v`: `C41_validation`, `C41_add`, `C41_add_shapes`, `C41_scale`, `C41_neg`, `C41_sub`, `C41_lookup`, `C41_num_entries`, `C41_has_mixed`, `C41_weighted_laplacian`, `C41_laplacian`, `C41_directional_derivative`, `C41_spatial_laplacian`, `C41_spatial_laplacian_error`, `C41_partial_derivative`, `C41_time_derivative`, `C41_time_derivative_scalar`, `C41_time_derivative_error`, `C41_derivative`, `C41_derivative_error`, `C41_heat`, `C41_heat_error`, `C41_multi_index`, `C41_from_index`, `C41_is_mixed`, `C41_order`, `C41_equality`, `C42_first_order`, `C42_dimwise`, `C42_order_zero`, `C42_factor_at_dim`
  - `LfoProps.v`: `C43_add_mismatch`, `C43_matmul_mismatch`
  - `CrossProps.v`: `C30_independent`, `C30_independent_jax`, `C30_independent_linop`, `C30_stack`, `C30_stack_linop`, `C30_stack_jax_zero`, `C30_leaf`, `C30_zero`, `C30_constructors`, `C30_select_stack`, `C30_select_independent`, `C30_select_cross`, `C31_function`, `C31_constructor`, `C32_views`, `C32_bad_points`, `C32_leaf`, `C32_zero`, `C32_scaled`, `C32_neg`, `C32_sum`, `C32_add`, `C32_sum_constructor`, `C32_linear`, `C32_linear_operator`, `C32_linear_constructor`, `C32_stack`, `C32_stack_constructor`, `C32_parametric`, `C32_parametric_symmetric`, `C51_evaluation`, `C51_leaf`, `C51_scaled`, `C51_sum`, `C51_linear`, `C51_dirac`, `C51_composite`, `C51_composite_constructor`, `C51_kernel_validation`, `C51_kernel_leaf`, `C51_kernel_zero`, `C51_kernel_stack`, `C51_kernel_composite`, `C52_kernel_leaf`, `C52_kernel_zero`, `C52_kernel_stack`, `C52_kernel_validation`, `C52_unavailable`, `C52_evaluation0_refuted`, `C52_zero`, `C52_scaled`, `C52_sum`, `C30_stack_jax_refuted`, `C32_parametric_refuted`, `C51_evaluation_layout_refuted`, `C51_dirac_layout_refuted`
  - `CrossJaxProps.v`: `C62_concrete`, `C62_traced`, `C62_traced_error_refuted`, `C62_not_implemented`, `C62_stack_zero`, `C62_stack_refuted`, `C62_constructor`, `C62_append`, `C62_call`, `C62_no_points_refuted`, `C62_empty`, `C62_linop`, `C62_mean`, `C62_posterior_jax_refuted`
  - `ParamProps.v`: `C28_process_covariance`, `C28_process_covariance_scalar`, `C28_process_mean`, `C28_process_mean_scalar`, `C28_process_mismatch`, `C28_process_weight_axes`, `C28_process_symmetric`, `C28_covfunc`, `C28_covfunc_symmetric`, `C28_covfunc_constructor`, `C28_covfunc_first_shape`, `C28_covfunc_scalar_features_refuted`, `C28_covfunc_matrix_features_refuted`
  - `GalerkinProps.v`: `C27_constructor`, `C27_constructor_domain`, `C27_decomposition`, `C27_symmetric`, `C27_projection_first`, `C27_projection_second`, `C27_uncorrelated`, `C27_other_projection`, `C27_bad_argument`, `C27_projection_twice`, `C27_embedded_reversed`
  - `TensorProps.v`: `C29_constructor`, `C29_constructor_errors`, `C29_value`, `C29_value_errors`, `C29_grid`, `C29_grid_xy`, `C29_grid_errors`, `C29_kronecker`, `C29_kronecker_one`, `C29_dense`, `C29_kronecker_dense`, `C29_kronecker_xy`, `C29_xy_refuted`, `C29_derived_grid_refuted`, `C29_multi_output_refuted`, `C29_fewer_coordinates_refuted`, `C29_more_coordinates`
  - `TensorDiffProps.v`: `C53_value`, `C53_summands`, `C53_kronecker`, `C53_second_grid_refuted`, `C53_dense`, `C53_kronecker_dense`, `C53_derived_grid_refuted`, `C53_application`, `C53_validation`, `C53_order_zero`, `C53_repeated_refuted`, `C53_no_terms`, `C53_vector_valued`
  - `ShapedProps.v`: `C54_input_refused`, `C54_output_shape`, `C54_no_jax`, `C54_jax_call`, `C54_affine_matrix`, `C54_affine_number`, `C54_affine_vector`, `C54_affine_vector_refuted`, `C54_affine_refused`, `C54_affine_jax_refuted`, `C54_stack`, `C54_stack_point`, `C54_stack_front_refuted`, `C54_stack_errors`, `C54_stack_default`, `C54_select`, `C54_select_errors`
  - `GenProps.v`: `C63_select`, `C63_select_error`, `C63_select_int`
  - `LambdaProps.v`: `C64_function`, `C64_function_errors`, `C64_function_integer_shape_refuted`, `C64_function_whole`, `C64_function_jax_small_refuted`, `C64_function_few_axes`, `C64_covfunc`, `C64_covfunc_one`, `C64_covfunc_refused`, `C64_covfunc_errors`, `C64_covfunc_matrix_inputs_refuted`, `C64_covfunc_matrix_outputs_refuted`, `C64_covfunc_whole`, `C64_vectorize_errors`, `C64_operator_shapes`, `C64_operators_both`, `C64_functional_shapes`, `C64_functional_swap`
  - `BoxIntProps.v`: `C76_covariance`
  - `FloatGridProps.v`: `C77_nan_refuted`, `C77_shape`, `C77_tiny_refuted`
  - `FloatBoxProps.v`: `C78_nan`, `C78_no_sides`
  - `FloatFemProps.v`: `C80_init`, `C80_nan`, `C80_node_refuted`
  - `FloatPolyProps.v`: `C81_add_comm`, `C81_sub_self`, `C81_roundtrip_refuted`, `C81_assoc_refuted`
  - `FloatLinearProps.v`: `C82_construct`, `C82_nan`, `C82_range_refuted`, `C82_infinite`
* `ClassicalDedekindReals.sig_forall_dec`, `ClassicalDedekindReals.sig_not_dec`, `FunctionalExtensionality.functional_extensionality_dep`:
  - `PolyProps.v`: `C02_differentiate`, `C02_integrate`, `C02_lebesgue_integral`
  - `PiecewiseProps.v`: `C06_integral_upper_knot`, `C06_lower_bound_checked`, `C06_empty_domain`, `C06_inside_one_cell_zero`, `C06_interior_upper_refuted`, `C06_upper_bound_unchecked_refuted`
  - `LfoProps.v`: `C41_apply`, `C42_apply`, `C43_shape_mismatch`, `C43_distributes`, `C43_argument_shapes`, `C43_constant_shapes`, `C43_identity`, `C43_constants`, `C43_order_zero`, `C43_order_zero_constant_refuted`, `C43_scaled_function_refuted`, `C43_scaled_composition_refuted`, `C43_zero_weights_refuted`
  - `PdeProps.v`: `C48_series`, `C48_series_ends`, `C48_zero`, `C48_other`, `C48_given_solution`, `C48_time_order`, `C48_source_ignored_refuted`, `C48_vector_initial_values_refuted`, `C48_initial_space`, `C48_operator`
  - `KernelProps.v`: `C33_two_laplacians_refuted`, `C33_rejects`, `C33_partial_refuted`, `C33_repeated_refuted`, `C33_repeated_scalar_refuted`, `C45_expquad`, `C45_two_laplacians_refuted`
  - `MaternProps.v`: `C34_profile`
  - `MaternKernelProps.v`: `C35_rejects`, `C35_partial_derivative`, `C35_partial_derivative_refuted`, `C35_one_argument`, `C36_rejects`, `C36_laplacian_refuted`, `C36_repeated_refuted`, `C35_repeated_refuted`, `C45_matern`
  - `EffectProps.v`: `C37_scalar_lengthscales`, `C37_before_directional`, `C37_first_directional`
  - `WendlandProps.v`: `C38_accepts`, `C38_recursion`, `C38_coefficients`, `C38_positive`
  - `IntegralProps.v`: `C39_matern_kernel`
  - `FunctlProps.v`: `C44_shape_mismatch`, `C44_integral_of_constant`, `C44_integral_domain`, `C44_scaled_function_refuted`, `C44_scaled_operator_refuted`, `C44_zero_shape_refuted`
  - `TensorProps.v`: `C29_psd`
  - `TensorDiffProps.v`: `C53_derivative`
  - `MixtureProps.v`: `C55_domain_pair`, `C55_domain`, `C55_no_jax`
  - `PsdProps.v`: `C56_add`, `C56_scale`
  - `GalerkinL2Props.v`: `C27_l2_exists`, `C27_l2_decomposition`, `C27_l2_symmetric`, `C27_l2_psd`
  - `BatchProps.v`: `C57_two_arrays`, `C57_one_array`, `C57_one_integer_array`, `C57_one_integer_refuted`, `C57_matern_integers_refuted`, `C57_shape_errors`, `C57_unavailable`, `C57_jax_one_integer_array`, `C57_matern_objects`, `C57_contract`
  - `BatchKeops.v`: `C57_keops`
  - `RandProcProps.v`: `C59_expression`, `C59_accepted`, `C59_scaled_deterministic_refuted`, `C59_identity`, `C59_identity_inside_refuted`, `C59_float_refuted`, `C59_integral_refuted`, `C52_derivative_refuted`, `C52_derivative_inside_refuted`, `C52_derivative_reversed_refuted`, `C52_order_zero`, `C52_zero`, `C52_identity_refuted`, `C52_identity_argument`, `C52_composed_refuted`, `C59_integral_of_operator_refuted`, `C59_identity_before_refuted`
  - `TensorGram.v`: `C61_factor_order_refuted`
  - `GenProps.v`: `C63_order_zero_refuted`, `C63_constant`, `C63_constant_order_zero_refuted`, `C63_scaled_refuted`, `C63_vector_function_refuted`, `C63_argument_shapes`, `C63_kernel_exists`, `C63_kernel_order_refuted`, `C63_kernel_multivariate_refuted`, `C63_kernel_one_coordinate_refuted`, `C63_kernel_jax_refuted`, `C63_kernel_jax_order_zero_refuted`, `C63_kernel_value`, `C63_kernel_shapes`, `C63_kernel_scaled`, `C63_kernel_sum`, `C63_stack_exists`, `C63_stack_other`, `C63_stack_other_error`, `C63_stack_shapes`
  - `LazyProps.v`: `C65_tensor_matern`, `C65_derivative`, `C65_wendland_shape_errors`
  - `WendPdProps.v`: `C66_product`
  - `ErrorProps.v`: `C45_identity`, `C43_zero_function`, `C45_sum`
  - `AdProps.v`: `C67_values`, `C67_nan`, `C67_operator_defined`, `C67_diagonal_operator_refuted`
  - `AdCovProps.v`: `C67_covariances_defined`, `C67_errors`, `C67_covariances_values`, `C67_diagonal_covariances_refuted`
  - `PwJaxProps.v`: `C69_values`, `C69_errors`
  - `XJaxProps.v`: `C70_errors`, `C70_quadrature`
  - `ResidualProps.v`: `C71_numpy`, `C71_heat_refuted`
  - `FloatProps.v`: `C72_symmetric`, `C72_even`, `C72_odd`, `C72_mirrored`, `C72_direction`, `C72_gram`, `C72_diagonal_expquad`, `C72_diagonal_matern`, `C72_diagonal_infinite_refuted`, `C72_other_smoothness`
  - `FloatRoundProps.v`: `C73_exact`
  - `BoxIntProps.v`: `C76_constant`, `C76_sound`, `C76_quadrature_refuted`, `C76_one_side`, `C76_scaled_refuted`, `C76_sum_fails`, `C76_polynomial_refuted`, `C76_polynomial_collapsed_refuted`, `C76_no_sides`
  - `FloatTensorProps.v`: `C79_value`, `C79_error`, `C79_symmetric`, `C79_diagonal`
* `ClassicalDedekindReals.sig_forall_dec`, `ClassicalDedekindReals.sig_not_dec`, `Classical_Prop.classic`, `FunctionalExtensionality.functional_extensionality_dep`:
  - `PiecewiseProps.v`: `C05_from_points_continuous`
  - `FemProps.v`: `C09_mass_matrix`, `C09_constant_unnormalised`, `C09_projection_orthogonal`, `C09_constant_projection`, `C10_stiffness_uniform`, `C10_stiffness_iff_uniform`, `C10_stiffness_refuted`
  - `LfoProps.v`: `C43_sound`, `C43_total`, `C43_expressions`
  - `PdeProps.v`: `C46_solution`, `C47_polynomial`, `C47_unique`, `C47_piecewise`, `C48_solution`
  - `KernelProps.v`: `C33_sound`, `C33_smooth`, `C33_one_argument`, `C33_one_operator`, `C33_both_arguments`, `C45_values`
  - `MaternProps.v`: `C34_derivatives`, `C34_odd`
  - `MaternKernelProps.v`: `C35_one_operator`, `C35_both_arguments`, `C35_nonsmooth_refuted`, `C36_directional`, `C36_mixed`
  - `EffectProps.v`: `C37_refuted`
  - `WendlandProps.v`: `C38_boundary`, `C38_smoothness`, `C38_kernel`
  - `IntegralProps.v`: `C39_antiderivatives`, `C39_matern_single`, `C39_matern_double`, `C39_single`, `C39_double`, `C39_first_argument_refuted`
  - `ProjProps.v`: `C40_matern32`, `C40_matern32_value`, `C40_single`, `C40_double`, `C40_matern32_double`, `C40_first_argument_refuted`
  - `FunctlProps.v`: `C44_expressions`, `C44_total`, `C44_direct_total`
  - `MixtureProps.v`: `C55_distribution`, `C55_value`, `C55_normalised`, `C55_total_mass`, `C55_outside_refuted`
  - `PsdProps.v`: `C56_expquad_gram`, `C56_expquad`, `C56_matern_gram`, `C56_matern`, `C56_matern_three_halves_refuted`
  - `GalerkinL2Props.v`: `C27_l2_projection`, `C27_l2_uncorrelated`, `C27_unnormalised_refuted`
  - `ObsPsdProps.v`: `C56_integrals`, `C40_psd`, `C27_l2_prior`
  - `BatchProps.v`: `C57_expquad_arrays`
  - `RandProcProps.v`: `C59_functional`, `C59_total`, `C59_smooth_sections`, `C59_covariance_psd`, `C59_covariance_symmetric`, `C59_operator`, `C59_operator_total`, `C59_composition`, `C59_operator_psd`, `C59_deterministic`, `C59_float`, `C59_matrix_of_values_refuted`
  - `RandProcIntProps.v`: `C59_integrals_psd`
  - `TensorGram.v`: `C61_factor_values`, `C61_prior`, `C61_gram_entry`, `C61_gram_matrix`
  - `GenProps.v`: `C63_function`, `C63_function_total`, `C63_batch_refuted`, `C63_kernel`, `C63_stack`
  - `LazyProps.v`: `C65_wendland_lazy`, `C65_wendland_arrays`, `C65_wendland_one_array`
  - `AdProps.v`: `C67_programs`, `C67_expquad`, `C67_functions`, `C67_matern`, `C67_wendland`, `C67_operator`, `C67_diagonal_refuted`
  - `AdCovProps.v`: `C67_covariances`, `C67_nested`, `C67_fallback`
  - `WeakFormProps.v`: `C68_weak_form`
  - `PwJaxProps.v`: `C69_cell`, `C69_interior`, `C69_outside`, `C69_operator`, `C69_kink_refuted`, `C69_left_end_refuted`
  - `XJaxProps.v`: `C70_antiderivatives`, `C70_derivatives`, `C70_values`, `C70_first_derivative`, `C70_ends_refuted`
  - `ResidualProps.v`: `C71_operator`, `C71_poisson`, `C71_heat`
  - `FloatRoundProps.v`: `C73_nearest`, `C73_unit_roundoff`, `C73_primitives`, `C73_horner`, `C73_horner_relative`, `C73_program`, `C73_covariance`, `C73_functions`, `C73_wendland`
  - `FloatPowProps.v`: `C73_power`, `C73_reciprocal`, `C73_monomial`
  - `FloatRangeProps.v`: `C74_expquad`, `C74_matern_half`, `C74_matern`, `C74_matern_far_refuted`, `C74_wendland`
  - `FloatUniformProps.v`: `C75_expquad`
  - `FloatMaternProps.v`: `C75_matern`
  - `FloatWendlandProps.v`: `C75_wendland`
  - `FloatGridProps.v`: `C77_interval`, `C77_contains`, `C77_volume`, `C77_grid`, `C77_distinct`, `C77_wide_refuted`
  - `FloatBoxProps.v`: `C78_box`, `C78_factor`, `C78_contains`, `C78_volume`, `C78_shape`, `C78_grid`, `C78_inside`
  - `FloatCompoundProps.v`: `C75_compound`
  - `FloatTensorProps.v`: `C79_range`, `C79_accuracy`
  - `FloatFemProps.v`: `C80_sentinels`, `C80_range`, `C80_zero`, `C80_node`, `C80_accuracy`, `C80_partition`, `C80_elem`, `C80_support`
  - `FloatPolyProps.v`: `C81_eval`, `C81_at_zero`, `C81_add`, `C81_sub`, `C81_add_const`, `C81_neg_eval`, `C81_scale`, `C81_differentiate`, `C81_integrate`, `C81_roundtrip`
  - `FloatLinearProps.v`: `C82_select`, `C82_outside`, `C82_accuracy`, `C82_constant`
* `ClassicalDedekindReals.sig_forall_dec`:
  - `DomainProps.v`: `C12_construct_point`, `C12_construct_product`, `C12_interval_getitem_range_refuted`
  - `ErrorProps.v`: `C49_point_number`
  - `WeakFormProps.v`: `C68_domain_refuted`
* `FunctionalExtensionality.functional_extensionality_dep`:
  - `CrossProps.v`: `C31_argument1`, `C31_argument0`, `C31_argument0_symmetric`, `C31_both`, `C52_evaluation1`, `C31_argument0_refuted`, `C31_dirac_layout_refuted`, `C32_linear_refuted`
* `ClassicalDedekindReals.sig_forall_dec`, `ClassicalDedekindReals.sig_not_dec`, `ClassicalEpsilon.constructive_indefinite_description`, `Classical_Prop.classic`, `FunctionalExtensionality.functional_extensionality_dep`:
  - `PdeCondProps.v`: `C58_admissible`, `C58_noisy`, `C58_independent`, `C58_noise_free_iff`, `C58_collocation`, `C58_gram_entries`
  - `LineCondProps.v`: `C60_admissible`, `C60_noisy`, `C60_independent`, `C60_dependent`, `C60_quadrature`, `C60_gram_entries`, `C60_points`
  - `TensorCondProps.v`: `C61_admissible`, `C61_noisy`, `C61_independent`, `C61_dependent`, `C61_variance`, `C61_collocation`, `C61_gram_entries`
  - `TensorMixProps.v`: `C61_mixture_admissible`, `C61_mixture_noisy`, `C61_mixture_independent`, `C61_mixture_dependent`, `C61_mixture_variance`, `C61_mixture_covariance`, `C61_mixture_collocation`
  - `WendPdProps.v`: `C66_wendland`, `C66_wendland_product`, `C66_wendland_derivatives`
* `ClassicalDedekindReals.sig_forall_dec`, `ClassicalEpsilon.constructive_indefinite_description`, `Classical_Prop.classic`, `FunctionalExtensionality.functional_extensionality_dep`:
  - `WendPdProps.v`: `C66_interpolation`, `C66_noisy`

<!-- assumptions:end -->
