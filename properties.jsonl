{"id": "C01", "title": "Units are kept in canonical form", "statement": "Whatever sequence of constructor calls, products, quotients, inverses and powers produced it, a unit (or bare dimension) stores every base dimension at most once, never with exponent zero, and every stored exponent is a reduced fraction with denominator at most 10^6; looking up an absent base dimension yields 0. Hence two units with the same exponents compare equal as dimensions however they were built.", "quantifier": "every constructor argument mapping and every finite expression built with *, /, **, ~ from units", "why_tests_cant": "The set of reachable units is infinite; a test sees finitely many expressions.", "anchors": ["phytorch/units/unit.py: UnitBase.__init__, __missing__, _operate_other, _operate_self"]}
{"id": "C02", "title": "Unit multiplication is commutative with neutral and inverse elements", "statement": "u*v and v*u are equal units; u*Unit() equals u; u*~u, u/u and u**0 are dimensionless with scale 1 (scale nonzero); ~~u equals u; 1/u equals ~u.", "quantifier": "every pair of units in canonical form with nonzero scale", "why_tests_cant": "Universally quantified algebraic law over rational exponents and scales.", "anchors": ["phytorch/units/unit.py: UnitBase.__mul__, __truediv__, __rtruediv__, __invert__, __pow__; Unit.__mul__, __pow__, __invert__"]}
{"id": "C03", "title": "Unit multiplication is associative", "statement": "(u*v)*w and u*(v*w) are the same unit. (The code rounds each exponent with Fraction.limit_denominator after each step, so this is expected only when the exponents' sums need no rounding.)", "quantifier": "every triple of units", "why_tests_cant": "Needs all rational exponents; rounding makes it fail only for huge denominators that no test would pick.", "anchors": ["phytorch/units/unit.py: UnitBase.__init__ (limit_denominator), _operate_other"]}
{"id": "C04", "title": "Integer powers are repeated multiplication", "statement": "For integer n>=0, u**n equals the product of n copies of u; u**(-n) is its inverse; u**(m+n) equals u**m * u**n; (u**m)**n equals u**(m*n); (u*v)**n equals u**n * v**n whenever the exponent sums of u*v are representable (denominator at most 10^6). Up to that proviso no exponent rounding can occur.", "quantifier": "all units and all integers m, n", "why_tests_cant": "Induction over an unbounded integer exponent.", "anchors": ["phytorch/units/unit.py: UnitBase.__pow__, Unit.__pow__, _operate_self"]}
{"id": "C05", "title": "Rational powers: roots undo powers", "statement": "(u**(1/n))**n has the dimension of u, and (u**n)**(1/n) too, for every positive integer n for which the intermediate exponents are representable (denominator at most 10^6).", "quantifier": "all units and all positive n", "why_tests_cant": "The failing region (intermediate denominators above 10^6) is invisible to sampling; the safe region is infinite.", "anchors": ["phytorch/units/unit.py: UnitBase.__pow__, UnitBase.__init__"]}
{"id": "C06", "title": "Unit conversion succeeds exactly on equal dimensions and is a consistent scale", "statement": "u.to(v) returns scale(u)/scale(v) when the dimensions agree and raises TypeError otherwise; conversions satisfy u.to(u)=1, u.to(v)*v.to(u)=1, u.to(v)*v.to(w)=u.to(w), and converting products multiplies conversion factors.", "quantifier": "all pairs and triples of units with nonzero scale", "why_tests_cant": "Quantifies over all units; the raise/return split must be exact.", "anchors": ["phytorch/units/unit.py: Unit.to"]}
{"id": "C07", "title": "Unit equality and hashing agree", "statement": "Unit equality is an equivalence relation; equal units have equal hash keys (so dictionaries keyed by units never miss), irrespective of the order in which their dimensions were inserted; a Unit never equals a bare dimension from the left.", "quantifier": "all units, all insertion orders", "why_tests_cant": "All permutations of the insertion order and all unit values are quantified.", "anchors": ["phytorch/units/unit.py: Unit.__eq__, Unit.__hash__, UnitBase.__hash__"]}
{"id": "C08", "title": "Exponent rounding is harmless below the cap and bounded by it", "statement": "Normalising an exponent returns it unchanged when its denominator is at most 10^6, always yields a denominator between 1 and 10^6, and changes the exponent by less than the spacing 1/10^6; it commutes with negation.", "quantifier": "every rational exponent", "why_tests_cant": "The continued-fraction loop runs a data-dependent number of steps.", "anchors": ["phytorch/units/unit.py: UnitBase.__init__ (Fraction.limit_denominator)"]}
{"id": "C09", "title": "Metric prefixes scale by the right power of ten and keep the dimension", "statement": "Applying a prefix to a unit yields a unit of identical dimension whose scale is 10^k times the original, with k the SI exponent of that prefix; the prefix table has no duplicated name or symbol, and kilo applied to gram equals the kilogram base unit.", "quantifier": "every prefix of the table and every unit", "why_tests_cant": "Finite in prefixes but unbounded in units; name clashes across the product of tables are not visible in samples.", "anchors": ["phytorch/units/_prefixes.py", "phytorch/units/prefixes.py", "phytorch/units/_utils.py"]}
{"id": "C10", "title": "Prefixed name maps contain every prefix/unit combination", "statement": "The map produced by prefixing a collection of names contains exactly the concatenations of each prefix name with each unit name not excluded, every key is bound to the prefixed unit it names, and on a name collision the later definition wins.", "quantifier": "every prefix table, every unit name table and exclusion list", "why_tests_cant": "Universally quantified over arbitrary name tables.", "anchors": ["phytorch/units/_prefixes.py: prefix application helpers", "phytorch/units/_utils.py: names_and_abbrevs, unpack_and_name, register_unit_map"]}
{"id": "C11", "title": "Registering names in a module scope never loses a binding silently", "statement": "After any sequence of register calls the exported scope maps each name to the last value registered for it, except that registrations with ignore-if-exists keep the first; a clash is always reported unless it was asked to be ignored.", "quantifier": "every sequence of register calls, flags and name collisions", "why_tests_cant": "History property over arbitrary operation sequences.", "anchors": ["phytorch/utils/scoping.py: GlobalScope.register, register_many"]}
{"id": "C12", "title": "Leaving a cleanup scope exports exactly the registered names", "statement": "On leaving the context the host namespace contains every registered name with its registered value, keeps dunder names, drops the helper names that existed when the scope was entered or built, and leaving twice (explicitly and through garbage collection) has no further effect.", "quantifier": "every host namespace, every registration history", "why_tests_cant": "Quantifies over namespaces and interleavings of exit and finaliser.", "anchors": ["phytorch/utils/scoping.py: GlobalScope.__exit__, AutoCleanupGlobalScope._del"]}
{"id": "C13", "title": "Flatten and unflatten are inverse", "statement": "Unflattening the flattened form of a tree gives back the tree; flattening an unflattened tree gives back the leaves and the spec, for every leaf list of the right length.", "quantifier": "every nested structure of lists, tuples, dicts and leaves; every spec and leaf list", "why_tests_cant": "Structural induction over unboundedly deep trees.", "anchors": ["phytorch/utils/pytree.py: tree_flatten, tree_unflatten"]}
{"id": "C14", "title": "Unflatten rejects the wrong number of leaves", "statement": "Unflattening raises ValueError if and only if the number of leaves differs from the number of leaves of the spec; no leaf is silently dropped or duplicated.", "quantifier": "every spec and leaf list", "why_tests_cant": "Requires all specs and all lengths.", "anchors": ["phytorch/utils/pytree.py: tree_unflatten, TreeSpec.num_leaves"]}
{"id": "C15", "title": "tree_map is functorial and structure preserving", "statement": "Mapping keeps the spec, maps the identity to the identity, composes, and applies the function once to each leaf in flatten order.", "quantifier": "every tree and function", "why_tests_cant": "Universal over functions and trees.", "anchors": ["phytorch/utils/pytree.py: tree_map"]}
{"id": "C16", "title": "Broadcasting a prefix tree onto a spec", "statement": "Broadcasting a tree to a spec either fails (None) because the tree is not a structural prefix of the spec, or returns exactly one value per leaf of the spec, each being the value of the prefix leaf above it.", "quantifier": "every tree and spec", "why_tests_cant": "Structural induction over pairs of trees.", "anchors": ["phytorch/utils/pytree.py: _broadcast_to_and_flatten"]}
{"id": "C17", "title": "What named-tuple containers do", "statement": "A user expects a named-tuple instance to be flattened like any tuple and unflattened to the same class. The code does not do this: flattening any tree that contains a named tuple, at any depth, raises TypeError; a tuple subclass whose constructor does not accept one iterable is flattened but cannot be unflattened (TypeError), and one that does is restored exactly.", "quantifier": "every named-tuple instance", "why_tests_cant": "Depends on type dispatch, not on values.", "anchors": ["phytorch/utils/pytree.py: CustomDict, SUPPORTED_NODES"]}
{"id": "C18", "title": "Converting a quantity preserves the physical value", "statement": "q.to(unit) raises TypeError exactly when the dimensions differ; otherwise number*scale is unchanged, converting back gives the original number, and asking for the present unit returns the very same object.", "quantifier": "every quantity and target unit with nonzero scale", "why_tests_cant": "All values, all units.", "anchors": ["phytorch/quantities/quantity.py: GenericQuantity.to"]}
{"id": "C19", "title": "Arithmetic on quantities is dimensionally sound", "statement": "add/sub/min/max/hypot/fmod/comparison of quantities raise UnitError whenever the operands' dimensions differ (including a bare number against a dimensional quantity) and never otherwise. (Dimensions are compared through the rounded quotient of the units, so for exponents with denominators near 10^6 two different dimensions can be accepted; below that the statement is exact.)", "quantifier": "every pair of operands (quantity or bare) and every function of the shared-unit family", "why_tests_cant": "Universal over units; the accepting and rejecting sets must be exact.", "anchors": ["phytorch/quantities/dimspec.py: DimSpec.__call__, _dimspecs", "phytorch/quantities/tensor_quantity.py: TensorQuantity.__torch_function__"]}
{"id": "C20", "title": "Results do not depend on the units the operands are expressed in", "statement": "For each function with a dimension rule (add, sub, rsub, mul, div, addcmul, addcdiv, addmm, lerp, where, sqrt, square, reciprocal, var, atan2, sin, exp and similar, det, comparisons) the physical value of the result (number times scale, and dimension) equals the function applied to the physical values of the operands; re-expressing any operand in another unit of the same dimension does not change it. (In-place functions, some linalg_* aliases and rounding division violate this, with counterexamples.)", "quantifier": "every operand tuple and every choice of units of the same dimension", "why_tests_cant": "A universal statement over all real values and scales, for each row of a large table.", "anchors": ["phytorch/quantities/dimspec.py: _dimspecs"]}
{"id": "C21", "title": "Powers of quantities", "statement": "q**p raises UnitError exactly when p carries a dimension; when the base carries a unit (even a dimensionless one) the exponent must be a single number or one-element tensor (ValueError otherwise) and the result has dimension dim(q)**p and physical value equal to the power of the physical value; a bare base gives a bare result, the exponent being first reduced to its physical value.", "quantifier": "every base and exponent", "why_tests_cant": "All bases and exponents.", "anchors": ["phytorch/quantities/dimspec.py: PowerDimSpec"]}
{"id": "C22", "title": "alpha and weights in scaled additions", "statement": "torch.add(x, y, alpha=a) physically computes x + a*y: the implementation may attach the ratio of units to alpha but the physical result is unaffected by the operands' units; likewise torch.sub and torch.rsub.", "quantifier": "every x, y with equal dimensions, every alpha", "why_tests_cant": "All scales and values.", "anchors": ["phytorch/quantities/dimspec.py: _dimspecs (add, sub, rsub)"]}
{"id": "C23", "title": "Determinant and products track the dimension", "statement": "The determinant of an n-by-n matrix with unit u has unit u**n and is physically the determinant; a product of a chain of matrices has the product of the units.", "quantifier": "every n and every unit; every chain length", "why_tests_cant": "Unbounded n and chain length.", "anchors": ["phytorch/quantities/dimspec.py: DetDimSpec, MultiproductDimSpec"]}
{"id": "C24", "title": "Functions of dimensionless arguments", "statement": "exp, log and other transcendental functions raise UnitError for an argument with dimension, and for a dimensionless argument with scale s (percent, say) evaluate the function at the physical value.", "quantifier": "every quantity", "why_tests_cant": "All values and scales.", "anchors": ["phytorch/quantities/dimspec.py: DimSpec.__call__, _dimspecs (trans)"]}
{"id": "C25", "title": "Ragged shapes count leaves correctly", "statement": "For a well-formed nested length description, the per-level sizes equal the number of leaves below each node and the total size is the number of leaves.", "quantifier": "every nesting depth and every list of lengths", "why_tests_cant": "Induction over depth and list lengths.", "anchors": ["phytorch/ragged/__init__.py: RaggedShape.__post_init__"]}
{"id": "C26", "title": "Ragged broadcasting gives each leaf its ancestor's value", "statement": "Broadcasting a ragged tensor to a deeper compatible shape repeats each element once for every descendant, in order; its length is the target size.", "quantifier": "every pair of compatible shapes", "why_tests_cant": "Unbounded depth.", "anchors": ["phytorch/ragged/__init__.py: RaggedTensor.broadcast_to"]}
{"id": "C27", "title": "Ragged broadcasting composes", "statement": "Broadcasting to an intermediate shape and then to a deeper one equals broadcasting directly.", "quantifier": "every chain of compatible shapes", "why_tests_cant": "Unbounded depth.", "anchors": ["phytorch/ragged/__init__.py: RaggedTensor.broadcast_to, RaggedShape.broadcastable"]}
{"id": "C28", "title": "Ragged shapes are built faithfully from nested sizes", "statement": "Building a shape from a nested list of uniform depth yields level lists that are well formed and whose leaf counts are the sums of the nested sizes.", "quantifier": "every uniformly nested list", "why_tests_cant": "Unbounded nesting.", "anchors": ["phytorch/ragged/__init__.py: RaggedShape.from_nested_sizes"]}
{"id": "C29", "title": "Vieta: coefficients computed from roots", "statement": "vieta(r1..rn) gives the coefficients of the monic polynomial whose roots are exactly r1..rn: the polynomial equals the product of (x - ri) for all x.", "quantifier": "every degree and every root list over a commutative ring", "why_tests_cant": "Unbounded degree; identity of polynomials.", "anchors": ["phytorch/roots/__init__.py: vieta", "phytorch/utils/symmetry.py: elementary_symmetric"]}
{"id": "C30", "title": "Elementary symmetric polynomials are symmetric", "statement": "The k-th elementary symmetric function of a list is invariant under permutation, is the sum for k=1, the product for k equal to the length, 0 for k larger than the list, and satisfies the one-variable recursion e_{k+1}(x,l) = x e_k(l) + e_{k+1}(l) for k>=1. (Order 0 raises TypeError.)", "quantifier": "every list and k", "why_tests_cant": "All permutations, all lengths.", "anchors": ["phytorch/utils/symmetry.py: elementary_symmetric, product"]}
{"id": "C31", "title": "The companion matrix has the polynomial's roots as eigenvalues", "statement": "For the companion matrix built from coefficients, (t^(n-1),...,t,1) is mapped to t times itself exactly when t is a root of the monic polynomial; det(x I - M) is that polynomial; so root finding through any correct eigenvalue routine returns its roots with multiplicity.", "quantifier": "every degree n>=1, every coefficient list, every t", "why_tests_cant": "Unbounded degree.", "anchors": ["phytorch/roots/__init__.py: companion_matrix"]}
{"id": "C32", "title": "Gradients of roots with respect to coefficients", "statement": "The gradient returned by root finding is the one determined by implicit differentiation: the returned Jacobian inverts the Jacobian of the coefficients with respect to the roots when the roots are distinct.", "quantifier": "every degree and every list of distinct roots", "why_tests_cant": "Unbounded degree; derivative statement.", "anchors": ["phytorch/roots/__init__.py: Roots.backward"]}
{"id": "C33", "title": "Closed-form quadratic roots", "statement": "The two values returned for x^2+b x+c satisfy the equation and Vieta's relations, for all complex b, c.", "quantifier": "every complex b, c", "why_tests_cant": "Branches on c==0 and square-root choice; infinitely many inputs.", "anchors": ["phytorch-extensions/roots/roots.h: roots2"]}
{"id": "C34", "title": "Closed-form cubic roots", "statement": "The three values returned for the cubic are its roots with multiplicity (product of factors equals the polynomial).", "quantifier": "every complex coefficient triple outside the degenerate branch", "why_tests_cant": "Algebraic identity over all complex inputs with choice of cube roots.", "anchors": ["phytorch-extensions/roots/roots.h: roots3"]}
{"id": "C35", "title": "Closed-form quartic roots", "statement": "The four values returned for the quartic are its roots with multiplicity, including the biquadratic branch.", "quantifier": "every complex coefficient quadruple whose resolvent cubic is outside the degenerate branch (all biquadratics and all real coefficients are)", "why_tests_cant": "As above; several branches.", "anchors": ["phytorch-extensions/roots/roots.h: roots4, roots4_depressed"]}
{"id": "C36", "title": "Ordering four roots by modulus", "statement": "The reordering network returns a permutation of its four inputs in non-increasing order of modulus.", "quantifier": "all four-tuples", "why_tests_cant": "All orderings incl. ties.", "anchors": ["phytorch-extensions/roots/roots.h: sort4"]}
{"id": "C37", "title": "Grid cell lookup brackets the query", "statement": "For a sorted grid and any query inside its range the selected cell contains the query; outside the range the first or last cell is selected.", "quantifier": "every sorted grid with at least two knots, every query", "why_tests_cant": "All grids and queries.", "anchors": ["phytorch/interpolate/abc.py: project_one"]}
{"id": "C38", "title": "One-dimensional linear interpolation", "statement": "The interpolant passes through every knot value, is exact on affine data everywhere (also when extrapolating), stays between neighbouring knot values inside a cell, and is continuous across knots.", "quantifier": "every strictly increasing grid, values and query", "why_tests_cant": "All grids and queries.", "anchors": ["phytorch/interpolate/Linear1dInterpolator.py"]}
{"id": "C39", "title": "N-dimensional grid interpolation", "statement": "The interpolant reproduces the table at every grid point and every multilinear function inside the grid; weights are non-negative and sum to one, so values stay within the range of the cell's corners.", "quantifier": "every dimension count, every grid, every query", "why_tests_cant": "Unbounded dimension.", "anchors": ["phytorch/interpolate/LinearNDGridInterpolator.py"]}
{"id": "C40", "title": "Spline interpolation conditions", "statement": "The spline evaluated at each knot gives that knot's value and consecutive pieces agree in value and in derivatives up to order degree-1 at interior knots, with natural end conditions, whenever the linear system is solvable.", "quantifier": "every knot sequence and value list", "why_tests_cant": "Unbounded number of knots.", "anchors": ["phytorch/interpolate/splines.py"]}
{"id": "C41", "title": "Distance relations", "statement": "Angular diameter distance, transverse comoving distance and luminosity distance satisfy DL = (1+z) DM = (1+z)^2 DA; the flat limit of DM is DC; the two-redshift form agrees with the one-redshift form at z1=0; distance modulus is 5 log10(DL/10pc).", "quantifier": "every redshift > -1 and every parameter choice", "why_tests_cant": "Continuum of inputs.", "anchors": ["phytorch/cosmology/core.py: FLRWDriver"]}
{"id": "C42", "title": "Comoving volume is the integral of the area", "statement": "The derivative of comoving volume with respect to radial comoving distance is 4 pi DM^2, for positive, zero and negative curvature.", "quantifier": "every distance and curvature", "why_tests_cant": "Derivative statement over a continuum.", "anchors": ["phytorch/cosmology/core.py: comoving_volume_dimless, transform_curved", "phytorch/cosmology/special/flat.py"]}
{"id": "C43", "title": "Dark-energy density laws", "statement": "For each dark energy model the density scale equals 1 today and obeys d ln f / d ln(1+z) = 3 (1 + w(z)) with w the model's equation of state: for LambdaCDM, wCDM, w0waCDM and wpwaCDM. For w0wzCDM the code violates both parts whenever wz is not 0, by exactly known amounts.", "quantifier": "every redshift > -1 and every parameter value", "why_tests_cant": "Derivative statement over a continuum.", "anchors": ["phytorch/cosmology/special/concrete.py"]}
{"id": "C44", "title": "The closure relation holds after any parameter assignment", "statement": "After assigning parameters in any order, the density fractions (matter, radiation, curvature, dark energy) sum to one, the expansion rate squared at z=0 is one (except for w0wzCDM with wz not 0), and a parameter read back equals what was set.", "quantifier": "every sequence of parameter assignments", "why_tests_cant": "History property.", "anchors": ["phytorch/cosmology/special/decdm.py", "phytorch/cosmology/core.py: Cosmology._set_params"]}
{"id": "C45", "title": "Flat cosmologies have zero curvature", "statement": "A FlatLambdaCDM or FlatLambdaCDMR cosmology has Ok0=0 and expansion rate one at z=0 for any accepted constructor arguments and after any assignments. The other flat classes do not constrain Ode0 and can be curved.", "quantifier": "every constructor call", "why_tests_cant": "Depends on order of assignments of arbitrary arguments.", "anchors": ["phytorch/cosmology/special/flat.py"]}
{"id": "C46", "title": "Age and lookback time are complementary", "statement": "In classes that define the age, age(z) + lookback_time(z) is the age of the universe today, for every z, and in FlatLambdaCDM the age decreases to 0 as z goes to infinity and the lookback time is the integral of 1/((1+z)E). In classes that define only the lookback time the relation fails.", "quantifier": "every redshift", "why_tests_cant": "Continuum; needs an improper integral.", "anchors": ["phytorch/cosmology/core.py: age_dimless, lookback_time_dimless", "phytorch/cosmology/special/flat.py"]}
{"id": "C47", "title": "Parameters listed by a cosmology", "statement": "The listing of parameters contains each declared parameter exactly once with its current value, and constructing from the listing gives the same cosmology. (Derived parameters are meant to be excluded but are not.)", "quantifier": "every cosmology instance and assignment history", "why_tests_cant": "Reflection over class attributes; all instances.", "anchors": ["phytorch/cosmology/core.py: Cosmology.parameters"]}
{"id": "C48", "title": "Temperature and neutrino parametrisations agree", "statement": "Setting the radiation density through the temperature and effective neutrino number and reading any of them back round-trips. The order of the setters matters: they do not commute, and what each order leaves is known.", "quantifier": "every value and order", "why_tests_cant": "History property over a continuum.", "anchors": ["phytorch/cosmology/special/decdm.py: RadiationFLRWMixin"]}
{"id": "C49", "title": "Density fractions as functions of redshift", "statement": "The fraction of each component at redshift z equals its density over the critical density at z: fractions sum to one at every z and reduce to the present ones at z=0, for every concrete class. (The generic components.Omega lacks the present density and violates this.)", "quantifier": "every z and component list", "why_tests_cant": "Continuum; any number of components.", "anchors": ["phytorch/cosmology/components.py"]}
{"id": "C50", "title": "Polynomial form of the expansion rate", "statement": "In the analytic classes E(z)^2 equals the leading coefficient times the product of (z - root) over the stored roots.", "quantifier": "every z and parameters", "why_tests_cant": "Continuum.", "anchors": ["phytorch/cosmology/drivers/_analytic_base.py"]}
{"id": "C51", "title": "Physical constants have one object and the textbook value, in any access history", "statement": "Reading any constant from phytorch.constants (or from constants.codata2014, constants.default, constants.astro, ...) returns, whatever was read before and in whatever order, a constant whose canonical name, dimension and value are those of its table; the derived ones are given by the textbook relations among the defining numbers, for any non-zero defining numbers, and agree with the CODATA recommended values; b and b_prime are the maxima of Planck's spectra; aliases and repeated reads return the same object, and different constants or different tables different objects; names nobody defines raise.", "quantifier": "every history of attribute accesses, every set of non-zero defining numbers", "why_tests_cant": "Constants are created lazily and cached in several places; the number of access orders is unbounded.", "anchors": ["phytorch/constants/__init__.py: __getattr__, _get_codata", "phytorch/constants/codata.py", "phytorch/constants/constant.py", "phytorch/constants/astro.py"]}
{"id": "C52", "title": "Elliptic reduction returns the integral", "statement": "EllipticReduction(x, y, a, h).Im(m) terminates and returns the integral from y to x of prod_i (a_i+t)^m_i divided by sqrt(prod_{i<=h} (a_i+t)), for the cubic and the quartic case, any number of further factors, any integer exponents, either order of the limits, provided the Carlson functions it calls return their integrals on positive arguments and the last arguments of R_J and R_C that come up are positive; exchanging the limits changes the sign.", "quantifier": "every list of distinct real coefficients, integer exponents and distinct limits at which all factors are positive", "why_tests_cant": "The recursion reduces arbitrary exponent vectors over a continuum of coefficients; a test meets a few exponent vectors.", "anchors": ["phytorch/special/elliptic_reduction/core.py: EllipticReduction"]}
{"id": "C53", "title": "Custom gradients are returned in argument order", "statement": "Backward returns exactly one slot per input in argument order, None for inputs that need no gradient or have no rule, and the rule of the right argument times the incoming gradient otherwise; inheritance and overriding do not misalign the slots.", "quantifier": "every signature, inheritance chain and needs-grad mask", "why_tests_cant": "All masks and all class hierarchies.", "anchors": ["phytorch/utils/function_context.py: TorchFunctionContext, TorchFunction"]}
{"id": "C54", "title": "Gradients of inverse functions", "statement": "For y solving f(x=y, params)=v the gradients are 1/f_x and -f_p/f_x at the solution, delivered to the right arguments after the argument swap.", "quantifier": "every position of the inverted variable", "why_tests_cant": "All arities and positions.", "anchors": ["phytorch/utils/function_context.py: InverseMixin"]}
{"id": "C55", "title": "The elliptic extension computes Carlson's and Legendre's integrals", "statement": "For non-negative real arguments (at most one zero; the last argument of elliprj positive) the duplication loops of elliprf, elliprc, elliprd and elliprj end and return Carlson's integral R_F, R_C, R_D, R_J (Cauchy's principal value for elliprc with a negative second argument) with a relative error below machine epsilon over a million (a thousand epsilon for R_J), elliprg returns R_G; infinity is returned exactly where the integral diverges; the results do not depend on the order of the symmetric arguments.  ellipk, ellipe, ellipd, ellippi and their incomplete versions return Legendre's integrals for amplitudes between 0 and PI/2 and parameters with m sin^2(phi) < 1.  (Exceptions: elliprj is not a number when its last argument equals another one, so ellippi is not a number for n = m; elliprc is not real for x = 0 > y; the incomplete functions are even in the amplitude.)", "quantifier": "every real argument in the stated range, every epsilon", "why_tests_cant": "Termination and accuracy for every input: the number of iterations and the truncation error of the series depend on the arguments, and the reference is an improper integral.", "anchors": ["phytorch-extensions/elliptic/elliptic.h", "phytorch-extensions/elliptic/elliprf.h", "phytorch-extensions/elliptic/elliprc.h", "phytorch-extensions/elliptic/elliprd.h", "phytorch-extensions/elliptic/elliprj.h", "phytorch-extensions/elliptic/elliprg.h", "phytorch-extensions/elliptic/ellip.h"]}
{"id": "C56", "title": "Merging two grids", "statement": "Merging two sorted one-dimensional grids gives a sorted grid containing each input knot, and the masks identify where each input's knots landed.", "quantifier": "every pair of sorted grids", "why_tests_cant": "All grids.", "anchors": ["phytorch/interpolate/Linear1dInterpolator.py: merge, merge_grids"]}
{"id": "C57", "title": "Predefined SI, cgs and angular units have their textbook dimension and scale", "statement": "Every name exported by the SI, cgs, angular and additional unit modules denotes a unit with the textbook base-dimension exponents and the textbook scale in metres, seconds, kilograms, amperes, kelvins.", "quantifier": "every exported unit name", "why_tests_cant": "The table is large and a test only samples it; a name shadowed by a later definition is invisible to a sampled test.", "anchors": ["phytorch/units/_si/base.py, coherent.py, additional.py, prefixed.py", "phytorch/units/cgs/__init__.py", "phytorch/units/angular.py"]}
{"id": "C58", "title": "Conversion of any unit to a table of base units", "statement": "Converting a unit to a table of base units gives the number of the unit's scale measured in the corresponding product of base-unit powers, and raises KeyError exactly when a base dimension of the unit is missing from the table.", "quantifier": "every unit and every table of base units", "why_tests_cant": "Universal over units and tables.", "anchors": ["phytorch/units/_utils.py: Latexifier.base_from, to_base"]}
{"id": "C59", "title": "Analytic comoving distances equal the integral", "statement": "The closed-form comoving distance of the LambdaCDM classes (with and without radiation, curved or flat) between any two redshifts is the integral of 1/E between them, with either order of the redshifts, however the roots of the polynomial are distributed over the complex plane, provided the Carlson functions return their integrals.", "quantifier": "every parameter set with a positive leading density and E^2 > 0 between the redshifts, every pair of redshifts", "why_tests_cant": "The branch cuts of seven complex square roots depend on the parameters; a sampled test meets only a few configurations of the roots.", "anchors": ["phytorch/cosmology/drivers/_analytic_base.py: _epoly_roots, _fix_dimless", "phytorch/cosmology/drivers/analytic.py: _get_ellipr_params, _ellipr_comoving_distance_dimless_z1z2"]}
{"id": "C60", "title": "Analytic lookback times equal the integral", "statement": "The closed-form lookback time of the LambdaCDM classes without radiation is the integral of 1/((1+z)E) from 0 to z for every z > -1, provided the Carlson functions return their integrals.", "quantifier": "every parameter set with positive matter density and E^2 > 0 up to the redshift, every redshift above -1", "why_tests_cant": "As for the distance; the fourth argument of R_J must never vanish or change sign.", "anchors": ["phytorch/cosmology/drivers/analytic.py: _ellipr_lookback_time_dimless"]}
{"id": "C61", "title": "Units defined from constants", "statement": "The electronvolt, bar, barn, Julian year, jansky, light-year, parsec, rydberg and torr have their textbook scale in SI units and their dimension.", "quantifier": "every iteration order of the dimension sets (the units are otherwise fixed)", "why_tests_cant": "The scale is computed from lazily created constants and set-ordered dimension products.", "anchors": ["phytorch/units/astro.py", "phytorch/units/_si/additional.py"]}
{"id": "C62", "title": "Gradients of elliptic_integral", "statement": "The backward rule of the elliptic integral returns one slot per argument, None for the exponents, the number of roots and the inputs that need no gradient, and otherwise the incoming gradient times the partial derivative of the integral with respect to that limit or that coefficient.", "quantifier": "every exponent vector, coefficients, limits, needs-grad mask and incoming gradient", "why_tests_cant": "Derivatives over a continuum; all masks and coefficient counts.", "anchors": ["phytorch/special/elliptic_reduction/functional.py"]}
{"id": "C63", "title": "Gradients of Carlson's functions", "statement": "The gradient that backward returns for each argument of elliprc, elliprd, elliprf, elliprg and elliprj is the partial derivative of Carlson's integral with respect to that argument, for non-negative arguments with at most one zero, in the general case and in every special case of coinciding arguments, provided arguments that are not equal differ by more than the tolerance of the equality test.  (Exception: the tolerance is absolute, so for small arguments the rule for equal arguments is taken although they differ by a large factor and the gradient is wrong by that order.)", "quantifier": "every argument tuple, every tolerance, with and without the equality tests", "why_tests_cant": "Ten rules with up to eight cases each over a continuum of arguments; the special cases have measure zero and are never met by random arguments.", "anchors": ["phytorch/special/ellipr.py"]}
{"id": "C64", "title": "Gradients of Legendre's functions", "statement": "The gradients that backward returns for the parameter m and the characteristic n of ellipk, ellipe, ellipd, ellippi and their incomplete versions are the partial derivatives of Legendre's integrals, also at m = 0, at amplitude 0 and for parameters above 1, and the chain of the rules for the squared cosecant and for its argument is the derivative with respect to the amplitude inside (0, PI/2).", "quantifier": "every amplitude in [0, PI/2], every parameter and characteristic at which the integrals converge, except the removable singularities n = 0, n = m and m = 1 of the rules", "why_tests_cant": "Derivatives over a continuum of three arguments.", "anchors": ["phytorch/special/ellip.py"]}
{"id": "C65", "title": "Analytic absorption distances equal the integral", "statement": "The closed-form absorption distance of the LambdaCDM classes without radiation between two different redshifts, in either order, is the integral of (1+z)^2/E between them when E^2 is positive at the smaller redshift and everywhere above it, provided the Carlson functions return their integrals.  (Exceptions: in a universe that bounced above both redshifts the result is wrong by 4/3 (E(z2)-E(z1))/Om0, and at equal redshifts, so for the distance to z = 0, it is not a number.)", "quantifier": "every parameter set with positive matter density, every pair of redshifts", "why_tests_cant": "As for the comoving distance; in addition the sign of a product of three square roots against the square root of the product depends on where the roots are.", "anchors": ["phytorch/cosmology/drivers/analytic.py: _ellipr_absorption_distance_dimless_z1z2, _absorption_distance_dimless_z1z2"]}
{"id": "C66", "title": "Gradients of the incomplete gamma functions", "statement": "The gradients that the regularised incomplete gamma functions P(a, x) and Q(a, x) return for a and for x are the partial derivatives of the normalised Euler integrals; those returned for their inverses in x are the partial derivatives of the inverse functions, in each slot that needs a gradient and None in the others; and those of the auxiliary function T(m, a, z) are its partial derivatives for a and, for m > 1, for z.  (Exception: for m = 1 the derivative with respect to z exists but computing it raises.)", "quantifier": "every a > 0, x > 0, m > 0, every probability strictly between 0 and 1, every needs-grad mask and incoming gradient", "why_tests_cant": "Derivatives of improper integrals over a continuum of arguments.", "anchors": ["phytorch/special/gammainc.py"]}
{"id": "C67", "title": "Numerical cosmological driver", "statement": "With an exact ODE solver, the numerically integrated comoving distance, lookback time and absorption distance are the integrals of 1/E, 1/((1+z)E) and (1+z)^2/E for every combination of redshift and parameters: the result has the shape of the redshifts followed by the shape of the parameters.  (Exceptions: a start redshift with several elements, redshifts that are not strictly monotone from the start on, or a distance to z = 0 raise; because redshift and parameter axes are concatenated rather than broadcast, the luminosity distance of M redshifts with N parameter values raises for M <> N and multiplies by 1+z of the wrong axis for M = N.)", "quantifier": "every parameter set, scalar or batched, every tensor or number of redshifts, every positive E^2, curvature cases included", "why_tests_cant": "Every shape of batch and redshift tensor and every ordering of redshifts.", "anchors": ["phytorch/cosmology/drivers/odeint.py: OdeintFLRWDriver", "phytorch/cosmology/core.py: luminosity_distance_dimless"]}
{"id": "C68", "title": "Sampling from a table of probabilities", "statement": "The inverse distribution function of a table of probabilities on two or more grids succeeds for all values in [0, 1]; every coordinate lies within its grid; the multilinear interpolation, at the coordinates returned, of the conditional cumulative probabilities of each dimension given the later ones is the value given for that dimension; and each coordinate increases strictly with its value.  (Exceptions: a table on one grid raises; cell probabilities ignore the spacing of the knots, and the end knots of the other dimensions get the weight of inner ones, so that the samples do not follow the interpolated density except on equally spaced knots with two knots in the other dimension.)", "quantifier": "every number of dimensions, every increasing grids, every table with positive cell weights, every value vector in the unit cube", "why_tests_cant": "The coordinates depend on each other through nested interpolations of any depth; sampling tests cannot distinguish close distributions.", "anchors": ["phytorch/distributions/__init__.py: NDIDistribution.__init__, NDIDistribution.icdf"]}
{"id": "C69", "title": "Differentiable analytic cosmological driver", "statement": "The comoving distance of the differentiable analytic driver, which goes through the general reduction of elliptic integrals, is the integral of 1/E for the four LambdaCDM classes; without radiation its lookback time is the integral of 1/((1+z)E) and its absorption distance the integral of (1+z)^2/E, also at z = 0 where the plain analytic driver fails, provided E^2 is positive on the range (for the absorption distance: also above it) and the Carlson functions return their integrals.", "quantifier": "every parameter set with positive leading density, every pair of redshifts, every redshift above -1 for the lookback time", "why_tests_cant": "As for the plain analytic driver; the two drivers use different formulas for the same integral, with different cases of vanishing denominators.", "anchors": ["phytorch/cosmology/drivers/analytic_diff.py: AnalyticFLRWDriver", "phytorch/special/elliptic_reduction/functional.py: elliptic_integral", "phytorch/special/elliptic_reduction/core.py: EllipticReduction"]}
{"id": "C70", "title": "Hypergeometric series and the function T", "statement": "The hypergeometric series code returns the partial sum up to the first term below the tolerance, and not a number when there is none within the term limit or a denominator vanishes before; if from some point on the terms shrink at least by the factor r < 1 and no earlier term is below the tolerance eps, the error is at most eps r/(1-r); the series with at most as many upper as lower parameters, or one more and |z| < 1, converge and are computed when enough terms are allowed.  At -z with z >= 0 the exponential series is within eps of exp(-z); T(1, a, z) is within eps z^(a-1) of z^(a-1) e^-z, and T(2, a, z) within eps z^(a-1)/a of Gamma(a, z)/z for a > 0 that is not an integer.  (Exceptions: the stopping test does not bound the error in general: a single small term stops the summation however large the sum; slowly converging series give not a number; for m >= 3 the parameters of T(m, a, z) are always moved, by multiples of 2^-15 in double precision.)", "quantifier": "every parameter list, argument, tolerance and term limit; every real a and z >= 2 eps", "why_tests_cant": "The stopping index depends on the arguments and is unbounded; the errors are those of infinite series.", "anchors": ["phytorch-extensions/special/hyper.h", "phytorch-extensions/special/meijerg.h: Tgamma"]}
{"id": "C71", "title": "Gamma function and its logarithm", "statement": "For a real argument the compiled loggamma returns a complex number whose real part is log|Gamma(x)| within 1e-17 (1e-9 once x or 1-x reaches 1e8, where the series is dropped), whose imaginary part is 0 for positive x and pi floor(x) for negative x, and whose exponential has the sign of Gamma(x); the compiled gamma returns Gamma(x) within a relative 5e-15, except within 1e-9 of the poles 0, -1, ..., -17 where 2e-9 is proved.  Gamma is Euler's integral, continued by Gamma(x+1) = x Gamma(x).  Both return NaN exactly when x is not positive and within 100 machine epsilons of an integer, and otherwise terminate with a number after at most 36 steps.  (Apart from rounding.)", "quantifier": "every real argument, on both sides of every threshold of the code (-18, -14, 0, 14, 18, 1e8, the poles)", "why_tests_cant": "A continuum of arguments against an improper integral; tests sample points and compare with another implementation of the same Stirling series.", "anchors": ["phytorch-extensions/special/loggamma.h", "phytorch-extensions/special/gamma.h", "phytorch-extensions/common/complex.h: is_int"]}
{"id": "C72", "title": "Incomplete gamma functions", "statement": "The compiled gammainc and gammaincc approximate P(a,x) and Q(a,x), the lower and upper incomplete gamma integrals divided by Euler's integral: where the power series is used (x at most max(a, 1), a at most 1900) the error is relative to P and at most eps max(1, a/2), from below; where the continued fraction is used (x at least a and above 1.1, a at most 1900) it is relative and at most eps max(1, 2002/(x+a-1)), with no condition on the stopping test; where the alternating series is used it is at most eps x^a/Gamma(a).  The prefactor x^a e^-x/Gamma(a) is exact where it is taken from log-gamma, and has a relative error of at most 1e-14 where Lanczos's formula is used, whose coefficients give the gamma function to that accuracy at every positive argument.  The two add up to exactly 1 wherever one is computed as the complement of the other and in the whole region of the uniform asymptotic expansion.  Negative arguments give NaN, zero and infinite arguments the limits.  (Exceptions: for a below about 1e-308 and x <= 1 gammainc returns 0 although P is close to 1; for a = 1e6 and x = 995400 the 2000 terms of the series leave a relative error above 4e-10.)", "quantifier": "every real a and x, finite or not, on both sides of every region boundary", "why_tests_cant": "A continuum of arguments, five evaluation methods chosen by region, and loops whose number of steps depends on the arguments.", "anchors": ["phytorch-extensions/special/gammainc.h"]}
{"id": "C73", "title": "Digamma", "statement": "For a real argument x that is not a pole the compiled digamma returns the logarithmic derivative of the gamma function (continued to the negative axis) with an absolute error of at most 4.25e-15 / (1 + max(x, 1-x)), so below 3e-15 everywhere; it returns NaN exactly within 100 eps of a nonpositive integer (and not above 0) and ends after at most one recursive call; the reflection formula digamma(1-x) - digamma(x) = pi cot(pi x) holds exactly, the recurrence digamma(x+1) - digamma(x) = 1/x to 5e-15 for positive x.", "quantifier": "every real argument, on both sides of 1/2 and of every pole", "why_tests_cant": "A continuum of arguments; the reference value is the derivative of an improper integral, and the fourteen coefficients of the sum could be wrong in any digit.", "anchors": ["phytorch-extensions/special/digamma.h", "phytorch-extensions/special/gammahead.h", "phytorch-extensions/common/complex.h: is_int"]}
{"id": "C74", "title": "Inverse incomplete gamma functions", "statement": "For 1e-4 <= a < 1 and 1e-280 <= p <= 0.9, wherever the first of DiDonato and Morris's starting values is taken ((1-p) Gamma(a) above 0.6, or at least 0.45 with a >= 0.3), the compiled gammaincinv(a, p) is within a relative 1e-6 of the unique s with P(a, s) = p; for a = 1 and 1e-280 <= p <= 0.55 it is within a relative 1e-12 of -log(1-p).  Within the same ranges, with p = 1 - q, gammainccinv(a, q) is as close to the s with Q(a, s) = q, and for a = 1 to -log q.  The inverse of P at p and the inverse of Q at 1-p are the same number when p is below 0.1 or above 0.9, and for every p when a > 20 (a not 200).  Arguments that are NaN, negative, or a p above 1 give NaN; p = 0 and p = 1 give 0 and infinity (the reverse for Q).  (Exceptions: the second-order correction that the iteration announces is never applied: the result is always three steps of Newton's method; for a = 0, where P(0, x) = 1, the results are NaN or 0 depending on p.)", "quantifier": "every real a and p in the stated ranges, on both sides of the thresholds of the code; every a >= 0 and every p for the special values", "why_tests_cant": "The inverse of a function that is defined by improper integrals, over a continuum of arguments; tests compare with another implementation at sample points.", "anchors": ["phytorch-extensions/special/gammaincinv.h"]}
{"id": "C75", "title": "Sums over ragged groups", "statement": "In the old ragged tensors, reduce_add over a dimension of n entries whose group sizes add up to n gives, for each group, the sum of its consecutive entries; every entry belongs to exactly one group, so the group sums add up to the sum of the row, and a group of size 0 gives 0.  Sizes that add up to anything else are rejected.  (Exception: sizes that add up to 1 are accepted for every n, and the whole row is added to the one group that is not empty.)", "quantifier": "every list of group sizes, every number of rows, every row length and content", "why_tests_cant": "The number of groups, their sizes and the row lengths are unbounded; empty groups and broadcasting make the exceptions invisible to a few samples.", "anchors": ["phytorch/ragged/ragged_old.py: RaggedTensor.reduce_add, reduce_indices"]}
{"id": "C76", "title": "Two-dimensional interpolation on a regular grid", "statement": "interp2d interpolates bilinearly: inside each cell of the grid the result is the average of the four surrounding values weighted by distance, at the nodes it is the value there, functions linear in each variable are reproduced everywhere between the outermost nodes, and there the result lies between the bounds of the values.  With align_corners the nodes divide the extents evenly, ends included; by default they are the middles of equal parts.  A node's width or more outside, the result is 0.  For x of at most two dimensions the result has the broadcast shape of x and y.  (Exceptions: by default the result at the corner of the extent is a quarter of the value there; x and y without dimensions, and three-dimensional ones whose first and last dimensions differ and are not 1, are rejected; with a last dimension of 1 the result is larger than x and y.)", "quantifier": "every grid size, extent, table of values, point and batch shape", "why_tests_cant": "A continuum of points and extents, every batch shape; the placement of the nodes is a convention of the called routine.", "anchors": ["phytorch/interpolate/__init__.py: interp2d"]}
{"id": "C77", "title": "Signature lookups do not depend on earlier ones", "statement": "Looking up the signature of a function in the table of signatures gives the same result, or the same exception, whatever was looked up, tested with 'in' or fetched with get before.  The result comes from the function's other name if it has one, else from the built-in overrides, Python's inspection, the second line of the docstring, and last the overrides of torch's tests; it is None if none of them has one.  (Exceptions: 'in' is true for every function unless finding the signature raises something other than KeyError, so get never returns its default; a docstring of one line is an IndexError although later sources might have a signature.)", "quantifier": "every function, every history of uses of the table, whatever inspection, docstrings and overrides say", "why_tests_cant": "The table fills itself as it is read: the property ranges over all histories of reads.", "anchors": ["phytorch/quantities/signatures.py: SigDict"]}
{"id": "C78", "title": "Loading compiled extensions", "statement": "Asking phytorch.extensions for an extension gives a module made from the compiled extension of that name or, failing that, from its stub, and never an unrelated top-level module of the same name; if there is neither, an AttributeError that changes nothing.  Whatever is imported in between, asking again gives the same module.  Top-level modules of other names are left alone.  (Exceptions: the stub is replaced when the compiled extension becomes importable and is imported by its full name; a stub cannot be imported by its full name; loading an extension replaces the top-level module of the same name, so that 'import special' then gives phytorch's.)", "quantifier": "every history of attribute accesses, imports of the extensions by full name, imports of top-level modules, and changes of what can be imported", "why_tests_cant": "The loader changes the process-wide table of modules: the property ranges over all histories of a process.", "anchors": ["phytorch/extensions/__init__.py: __getattr__"]}
{"id": "C79", "title": "Complex arguments", "statement": "The conversion that the special functions apply to their arguments keeps number, order, shapes and values: complex tensors are passed as they are, float32 and float64 ones become complex64 and complex128 with zero imaginary part, everything that is not floating point takes the precision of the default type, and missing arguments stay missing.  Converting twice changes nothing.  With the usual default types nothing but float16 and bfloat16 tensors can be rejected.  (Exception: a Python number is first rounded to the default type, even beside float64 tensors.)", "quantifier": "every number of arguments, every type, shape and content, every default type and rounding", "why_tests_cant": "All combinations of types of any number of arguments, and every value.", "anchors": ["phytorch/utils/complex.py: to_complex, as_complex_tensors, with_complex_args"]}
