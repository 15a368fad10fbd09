import json
P=[]
def p(title, statement, quantifier, why, *anchors):
    P.append(dict(id=f"C{len(P)+1:02d}", title=title, statement=statement, quantifier=quantifier, why_tests_cant=why, anchors=list(anchors)))

U="phytorch/units/unit.py"
# ---- units
p("Units are kept in canonical form",
  "Whatever sequence of constructor calls, products, quotients, inverses and powers produced it, a unit (or bare dimension) stores every base dimension at most once, never with exponent zero, and every stored exponent is a reduced fraction with denominator at most 10^6; looking up an absent base dimension yields 0. Hence two units with the same exponents compare equal as dimensions however they were built.",
  "every constructor argument mapping and every finite expression built with *, /, **, ~ from units",
  "The set of reachable units is infinite; a test sees finitely many expressions.",
  U+": UnitBase.__init__, __missing__, _operate_other, _operate_self")
p("Unit multiplication is commutative with neutral and inverse elements",
  "u*v and v*u are equal units; u*Unit() equals u; u*~u, u/u and u**0 are dimensionless with scale 1 (scale nonzero); ~~u equals u; 1/u equals ~u.",
  "every pair of units in canonical form with nonzero scale",
  "Universally quantified algebraic law over rational exponents and scales.",
  U+": UnitBase.__mul__, __truediv__, __rtruediv__, __invert__, __pow__; Unit.__mul__, __pow__, __invert__")
p("Unit multiplication is associative",
  "(u*v)*w and u*(v*w) are the same unit. (The code rounds each exponent with Fraction.limit_denominator after each step, so this is expected only when the exponents' sums need no rounding.)",
  "every triple of units",
  "Needs all rational exponents; rounding makes it fail only for huge denominators that no test would pick.",
  U+": UnitBase.__init__ (limit_denominator), _operate_other")
p("Integer powers are repeated multiplication",
  "For integer n>=0, u**n equals the product of n copies of u; u**(-n) is its inverse; u**(m+n) equals u**m * u**n; (u**m)**n equals u**(m*n); (u*v)**n equals u**n * v**n whenever the exponent sums of u*v are representable (denominator at most 10^6). Up to that proviso no exponent rounding can occur.",
  "all units and all integers m, n",
  "Induction over an unbounded integer exponent.",
  U+": UnitBase.__pow__, Unit.__pow__, _operate_self")
p("Rational powers: roots undo powers",
  "(u**(1/n))**n has the dimension of u, and (u**n)**(1/n) too, for every positive integer n for which the intermediate exponents are representable (denominator at most 10^6).",
  "all units and all positive n",
  "The failing region (intermediate denominators above 10^6) is invisible to sampling; the safe region is infinite.",
  U+": UnitBase.__pow__, UnitBase.__init__")
p("Unit conversion succeeds exactly on equal dimensions and is a consistent scale",
  "u.to(v) returns scale(u)/scale(v) when the dimensions agree and raises TypeError otherwise; conversions satisfy u.to(u)=1, u.to(v)*v.to(u)=1, u.to(v)*v.to(w)=u.to(w), and converting products multiplies conversion factors.",
  "all pairs and triples of units with nonzero scale",
  "Quantifies over all units; the raise/return split must be exact.",
  U+": Unit.to")
p("Unit equality and hashing agree",
  "Unit equality is an equivalence relation; equal units have equal hash keys (so dictionaries keyed by units never miss), irrespective of the order in which their dimensions were inserted; a Unit never equals a bare dimension from the left.",
  "all units, all insertion orders",
  "All permutations of the insertion order and all unit values are quantified.",
  U+": Unit.__eq__, Unit.__hash__, UnitBase.__hash__")
p("Exponent rounding is harmless below the cap and bounded by it",
  "Normalising an exponent returns it unchanged when its denominator is at most 10^6, always yields a denominator between 1 and 10^6, and changes the exponent by less than the spacing 1/10^6; it commutes with negation.",
  "every rational exponent",
  "The continued-fraction loop runs a data-dependent number of steps.",
  U+": UnitBase.__init__ (Fraction.limit_denominator)")
# ---- prefixes, names
p("Metric prefixes scale by the right power of ten and keep the dimension",
  "Applying a prefix to a unit yields a unit of identical dimension whose scale is 10^k times the original, with k the SI exponent of that prefix; the prefix table has no duplicated name or symbol, and kilo applied to gram equals the kilogram base unit.",
  "every prefix of the table and every unit",
  "Finite in prefixes but unbounded in units; name clashes across the product of tables are not visible in samples.",
  "phytorch/units/_prefixes.py", "phytorch/units/prefixes.py", "phytorch/units/_utils.py")
p("Prefixed name maps contain every prefix/unit combination",
  "The map produced by prefixing a collection of names contains exactly the concatenations of each prefix name with each unit name not excluded, every key is bound to the prefixed unit it names, and on a name collision the later definition wins.",
  "every prefix table, every unit name table and exclusion list",
  "Universally quantified over arbitrary name tables.",
  "phytorch/units/_prefixes.py: prefix application helpers", "phytorch/units/_utils.py: names_and_abbrevs, unpack_and_name, register_unit_map")
# ---- scoping
p("Registering names in a module scope never loses a binding silently",
  "After any sequence of register calls the exported scope maps each name to the last value registered for it, except that registrations with ignore-if-exists keep the first; a clash is always reported unless it was asked to be ignored.",
  "every sequence of register calls, flags and name collisions",
  "History property over arbitrary operation sequences.",
  "phytorch/utils/scoping.py: GlobalScope.register, register_many")
p("Leaving a cleanup scope exports exactly the registered names",
  "On leaving the context the host namespace contains every registered name with its registered value, keeps dunder names, drops the helper names that existed when the scope was entered or built, and leaving twice (explicitly and through garbage collection) has no further effect.",
  "every host namespace, every registration history",
  "Quantifies over namespaces and interleavings of exit and finaliser.",
  "phytorch/utils/scoping.py: GlobalScope.__exit__, AutoCleanupGlobalScope._del")
# ---- pytree
p("Flatten and unflatten are inverse",
  "Unflattening the flattened form of a tree gives back the tree; flattening an unflattened tree gives back the leaves and the spec, for every leaf list of the right length.",
  "every nested structure of lists, tuples, dicts and leaves; every spec and leaf list",
  "Structural induction over unboundedly deep trees.",
  "phytorch/utils/pytree.py: tree_flatten, tree_unflatten")
p("Unflatten rejects the wrong number of leaves",
  "Unflattening raises ValueError if and only if the number of leaves differs from the number of leaves of the spec; no leaf is silently dropped or duplicated.",
  "every spec and leaf list",
  "Requires all specs and all lengths.",
  "phytorch/utils/pytree.py: tree_unflatten, TreeSpec.num_leaves")
p("tree_map is functorial and structure preserving",
  "Mapping keeps the spec, maps the identity to the identity, composes, and applies the function once to each leaf in flatten order.",
  "every tree and function",
  "Universal over functions and trees.",
  "phytorch/utils/pytree.py: tree_map")
p("Broadcasting a prefix tree onto a spec",
  "Broadcasting a tree to a spec either fails (None) because the tree is not a structural prefix of the spec, or returns exactly one value per leaf of the spec, each being the value of the prefix leaf above it.",
  "every tree and spec",
  "Structural induction over pairs of trees.",
  "phytorch/utils/pytree.py: _broadcast_to_and_flatten")
p("What named-tuple containers do",
  "A user expects a named-tuple instance to be flattened like any tuple and unflattened to the same class. The code does not do this: flattening any tree that contains a named tuple, at any depth, raises TypeError; a tuple subclass whose constructor does not accept one iterable is flattened but cannot be unflattened (TypeError), and one that does is restored exactly.",
  "every named-tuple instance",
  "Depends on type dispatch, not on values.",
  "phytorch/utils/pytree.py: CustomDict, SUPPORTED_NODES")
# ---- quantities
Q="phytorch/quantities/"
p("Converting a quantity preserves the physical value",
  "q.to(unit) raises TypeError exactly when the dimensions differ; otherwise number*scale is unchanged, converting back gives the original number, and asking for the present unit returns the very same object.",
  "every quantity and target unit with nonzero scale",
  "All values, all units.",
  Q+"quantity.py: GenericQuantity.to")
p("Arithmetic on quantities is dimensionally sound",
  "add/sub/min/max/hypot/fmod/comparison of quantities raise UnitError whenever the operands' dimensions differ (including a bare number against a dimensional quantity) and never otherwise. (Dimensions are compared through the rounded quotient of the units, so for exponents with denominators near 10^6 two different dimensions can be accepted; below that the statement is exact.)",
  "every pair of operands (quantity or bare) and every function of the shared-unit family",
  "Universal over units; the accepting and rejecting sets must be exact.",
  Q+"dimspec.py: DimSpec.__call__, _dimspecs", Q+"tensor_quantity.py: TensorQuantity.__torch_function__")
p("Results do not depend on the units the operands are expressed in",
  "For each function with a dimension rule (add, sub, rsub, mul, div, addcmul, addcdiv, addmm, lerp, where, sqrt, square, reciprocal, var, atan2, sin, exp and similar, det, comparisons) the physical value of the result (number times scale, and dimension) equals the function applied to the physical values of the operands; re-expressing any operand in another unit of the same dimension does not change it. (In-place functions, some linalg_* aliases and rounding division violate this, with counterexamples.)",
  "every operand tuple and every choice of units of the same dimension",
  "A universal statement over all real values and scales, for each row of a large table.",
  Q+"dimspec.py: _dimspecs")
p("Powers of quantities",
  "q**p raises UnitError exactly when p carries a dimension; when the base carries a unit (even a dimensionless one) the exponent must be a single number or one-element tensor (ValueError otherwise) and the result has dimension dim(q)**p and physical value equal to the power of the physical value; a bare base gives a bare result, the exponent being first reduced to its physical value.",
  "every base and exponent",
  "All bases and exponents.",
  Q+"dimspec.py: PowerDimSpec")
p("alpha and weights in scaled additions",
  "torch.add(x, y, alpha=a) physically computes x + a*y: the implementation may attach the ratio of units to alpha but the physical result is unaffected by the operands' units; likewise torch.sub and torch.rsub.",
  "every x, y with equal dimensions, every alpha",
  "All scales and values.",
  Q+"dimspec.py: _dimspecs (add, sub, rsub)")
p("Determinant and products track the dimension",
  "The determinant of an n-by-n matrix with unit u has unit u**n and is physically the determinant; a product of a chain of matrices has the product of the units.",
  "every n and every unit; every chain length",
  "Unbounded n and chain length.",
  Q+"dimspec.py: DetDimSpec, MultiproductDimSpec")
p("Functions of dimensionless arguments",
  "exp, log and other transcendental functions raise UnitError for an argument with dimension, and for a dimensionless argument with scale s (percent, say) evaluate the function at the physical value.",
  "every quantity",
  "All values and scales.",
  Q+"dimspec.py: DimSpec.__call__, _dimspecs (trans)")
# ---- ragged
R="phytorch/ragged/__init__.py"
p("Ragged shapes count leaves correctly",
  "For a well-formed nested length description, the per-level sizes equal the number of leaves below each node and the total size is the number of leaves.",
  "every nesting depth and every list of lengths",
  "Induction over depth and list lengths.",
  R+": RaggedShape.__post_init__")
p("Ragged broadcasting gives each leaf its ancestor's value",
  "Broadcasting a ragged tensor to a deeper compatible shape repeats each element once for every descendant, in order; its length is the target size.",
  "every pair of compatible shapes",
  "Unbounded depth.",
  R+": RaggedTensor.broadcast_to")
p("Ragged broadcasting composes",
  "Broadcasting to an intermediate shape and then to a deeper one equals broadcasting directly.",
  "every chain of compatible shapes",
  "Unbounded depth.",
  R+": RaggedTensor.broadcast_to, RaggedShape.broadcastable")
p("Ragged shapes are built faithfully from nested sizes",
  "Building a shape from a nested list of uniform depth yields level lists that are well formed and whose leaf counts are the sums of the nested sizes.",
  "every uniformly nested list",
  "Unbounded nesting.",
  R+": RaggedShape.from_nested_sizes")
# ---- roots
p("Vieta: coefficients computed from roots",
  "vieta(r1..rn) gives the coefficients of the monic polynomial whose roots are exactly r1..rn: the polynomial equals the product of (x - ri) for all x.",
  "every degree and every root list over a commutative ring",
  "Unbounded degree; identity of polynomials.",
  "phytorch/roots/__init__.py: vieta", "phytorch/utils/symmetry.py: elementary_symmetric")
p("Elementary symmetric polynomials are symmetric",
  "The k-th elementary symmetric function of a list is invariant under permutation, is the sum for k=1, the product for k equal to the length, 0 for k larger than the list, and satisfies the one-variable recursion e_{k+1}(x,l) = x e_k(l) + e_{k+1}(l) for k>=1. (Order 0 raises TypeError.)",
  "every list and k",
  "All permutations, all lengths.",
  "phytorch/utils/symmetry.py: elementary_symmetric, product")
p("The companion matrix has the polynomial's roots as eigenvalues",
  "For the companion matrix built from coefficients, (t^(n-1),...,t,1) is mapped to t times itself exactly when t is a root of the monic polynomial; det(x I - M) is that polynomial; so root finding through any correct eigenvalue routine returns its roots with multiplicity.",
  "every degree n>=1, every coefficient list, every t",
  "Unbounded degree.",
  "phytorch/roots/__init__.py: companion_matrix")
p("Gradients of roots with respect to coefficients",
  "The gradient returned by root finding is the one determined by implicit differentiation: the returned Jacobian inverts the Jacobian of the coefficients with respect to the roots when the roots are distinct.",
  "every degree and every list of distinct roots",
  "Unbounded degree; derivative statement.",
  "phytorch/roots/__init__.py: Roots.backward")
p("Closed-form quadratic roots",
  "The two values returned for x^2+b x+c satisfy the equation and Vieta's relations, for all complex b, c.",
  "every complex b, c",
  "Branches on c==0 and square-root choice; infinitely many inputs.",
  "phytorch-extensions/roots/roots.h: roots2")
p("Closed-form cubic roots",
  "The three values returned for the cubic are its roots with multiplicity (product of factors equals the polynomial).",
  "every complex coefficient triple outside the degenerate branch",
  "Algebraic identity over all complex inputs with choice of cube roots.",
  "phytorch-extensions/roots/roots.h: roots3")
p("Closed-form quartic roots",
  "The four values returned for the quartic are its roots with multiplicity, including the biquadratic branch.",
  "every complex coefficient quadruple whose resolvent cubic is outside the degenerate branch (all biquadratics and all real coefficients are)",
  "As above; several branches.",
  "phytorch-extensions/roots/roots.h: roots4, roots4_depressed")
p("Ordering four roots by modulus",
  "The reordering network returns a permutation of its four inputs in non-increasing order of modulus.",
  "all four-tuples",
  "All orderings incl. ties.",
  "phytorch-extensions/roots/roots.h: sort4")
# ---- interpolation
p("Grid cell lookup brackets the query",
  "For a sorted grid and any query inside its range the selected cell contains the query; outside the range the first or last cell is selected.",
  "every sorted grid with at least two knots, every query",
  "All grids and queries.",
  "phytorch/interpolate/abc.py: project_one")
p("One-dimensional linear interpolation",
  "The interpolant passes through every knot value, is exact on affine data everywhere (also when extrapolating), stays between neighbouring knot values inside a cell, and is continuous across knots.",
  "every strictly increasing grid, values and query",
  "All grids and queries.",
  "phytorch/interpolate/Linear1dInterpolator.py")
p("N-dimensional grid interpolation",
  "The interpolant reproduces the table at every grid point and every multilinear function inside the grid; weights are non-negative and sum to one, so values stay within the range of the cell's corners.",
  "every dimension count, every grid, every query",
  "Unbounded dimension.",
  "phytorch/interpolate/LinearNDGridInterpolator.py")
p("Spline interpolation conditions",
  "The spline evaluated at each knot gives that knot's value and consecutive pieces agree in value and in derivatives up to order degree-1 at interior knots, with natural end conditions, whenever the linear system is solvable.",
  "every knot sequence and value list",
  "Unbounded number of knots.",
  "phytorch/interpolate/splines.py")
# ---- cosmology
K="phytorch/cosmology/"
p("Distance relations",
  "Angular diameter distance, transverse comoving distance and luminosity distance satisfy DL = (1+z) DM = (1+z)^2 DA; the flat limit of DM is DC; the two-redshift form agrees with the one-redshift form at z1=0; distance modulus is 5 log10(DL/10pc).",
  "every redshift > -1 and every parameter choice",
  "Continuum of inputs.",
  K+"core.py: FLRWDriver")
p("Comoving volume is the integral of the area",
  "The derivative of comoving volume with respect to radial comoving distance is 4 pi DM^2, for positive, zero and negative curvature.",
  "every distance and curvature",
  "Derivative statement over a continuum.",
  K+"core.py: comoving_volume_dimless, transform_curved", K+"special/flat.py")
p("Dark-energy density laws",
  "For each dark energy model the density scale equals 1 today and obeys d ln f / d ln(1+z) = 3 (1 + w(z)) with w the model's equation of state: for LambdaCDM, wCDM, w0waCDM and wpwaCDM. For w0wzCDM the code violates both parts whenever wz is not 0, by exactly known amounts.",
  "every redshift > -1 and every parameter value",
  "Derivative statement over a continuum.",
  K+"special/concrete.py")
p("The closure relation holds after any parameter assignment",
  "After assigning parameters in any order, the density fractions (matter, radiation, curvature, dark energy) sum to one, the expansion rate squared at z=0 is one (except for w0wzCDM with wz not 0), and a parameter read back equals what was set.",
  "every sequence of parameter assignments",
  "History property.",
  K+"special/decdm.py", K+"core.py: Cosmology._set_params")
p("Flat cosmologies have zero curvature",
  "A FlatLambdaCDM or FlatLambdaCDMR cosmology has Ok0=0 and expansion rate one at z=0 for any accepted constructor arguments and after any assignments. The other flat classes do not constrain Ode0 and can be curved.",
  "every constructor call",
  "Depends on order of assignments of arbitrary arguments.",
  K+"special/flat.py")
p("Age and lookback time are complementary",
  "In classes that define the age, age(z) + lookback_time(z) is the age of the universe today, for every z, and in FlatLambdaCDM the age decreases to 0 as z goes to infinity and the lookback time is the integral of 1/((1+z)E). In classes that define only the lookback time the relation fails.",
  "every redshift",
  "Continuum; needs an improper integral.",
  K+"core.py: age_dimless, lookback_time_dimless", K+"special/flat.py")
p("Parameters listed by a cosmology",
  "The listing of parameters contains each declared parameter exactly once with its current value, and constructing from the listing gives the same cosmology. (Derived parameters are meant to be excluded but are not.)",
  "every cosmology instance and assignment history",
  "Reflection over class attributes; all instances.",
  K+"core.py: Cosmology.parameters")
p("Temperature and neutrino parametrisations agree",
  "Setting the radiation density through the temperature and effective neutrino number and reading any of them back round-trips. The order of the setters matters: they do not commute, and what each order leaves is known.",
  "every value and order",
  "History property over a continuum.",
  K+"special/decdm.py: RadiationFLRWMixin")
p("Density fractions as functions of redshift",
  "The fraction of each component at redshift z equals its density over the critical density at z: fractions sum to one at every z and reduce to the present ones at z=0, for every concrete class. (The generic components.Omega lacks the present density and violates this.)",
  "every z and component list",
  "Continuum; any number of components.",
  K+"components.py")
p("Polynomial form of the expansion rate",
  "In the analytic classes E(z)^2 equals the leading coefficient times the product of (z - root) over the stored roots.",
  "every z and parameters",
  "Continuum.",
  K+"drivers/_analytic_base.py")
# ---- constants
p("Physical constants have one object and the textbook value, in any access history",
  "Reading any constant from phytorch.constants (or from constants.codata2014, constants.default, constants.astro, ...) returns, whatever was read before and in whatever order, a constant whose canonical name, dimension and value are those of its table; the derived ones are given by the textbook relations among the defining numbers, for any non-zero defining numbers, and agree with the CODATA recommended values; b and b_prime are the maxima of Planck's spectra; aliases and repeated reads return the same object, and different constants or different tables different objects; names nobody defines raise.",
  "every history of attribute accesses, every set of non-zero defining numbers",
  "Constants are created lazily and cached in several places; the number of access orders is unbounded.",
  "phytorch/constants/__init__.py: __getattr__, _get_codata", "phytorch/constants/codata.py", "phytorch/constants/constant.py", "phytorch/constants/astro.py")
# ---- elliptic reduction
E="phytorch/special/elliptic_reduction/core.py"
p("Elliptic reduction returns the integral",
  "EllipticReduction(x, y, a, h).Im(m) terminates and returns the integral from y to x of prod_i (a_i+t)^m_i divided by sqrt(prod_{i<=h} (a_i+t)), for the cubic and the quartic case, any number of further factors, any integer exponents, either order of the limits, provided the Carlson functions it calls return their integrals on positive arguments and the last arguments of R_J and R_C that come up are positive; exchanging the limits changes the sign.",
  "every list of distinct real coefficients, integer exponents and distinct limits at which all factors are positive",
  "The recursion reduces arbitrary exponent vectors over a continuum of coefficients; a test meets a few exponent vectors.",
  E+": EllipticReduction")
# ---- autograd
F="phytorch/utils/function_context.py"
p("Custom gradients are returned in argument order",
  "Backward returns exactly one slot per input in argument order, None for inputs that need no gradient or have no rule, and the rule of the right argument times the incoming gradient otherwise; inheritance and overriding do not misalign the slots.",
  "every signature, inheritance chain and needs-grad mask",
  "All masks and all class hierarchies.",
  F+": TorchFunctionContext, TorchFunction")
p("Gradients of inverse functions",
  "For y solving f(x=y, params)=v the gradients are 1/f_x and -f_p/f_x at the solution, delivered to the right arguments after the argument swap.",
  "every position of the inverted variable",
  "All arities and positions.",
  F+": InverseMixin")
# ---- carlson
C="phytorch-extensions/elliptic/"
p("The elliptic extension computes Carlson's and Legendre's integrals",
  "For non-negative real arguments (at most one zero; the last argument of elliprj positive) the duplication loops of elliprf, elliprc, elliprd and elliprj end and return Carlson's integral R_F, R_C, R_D, R_J (Cauchy's principal value for elliprc with a negative second argument) with a relative error below machine epsilon over a million (a thousand epsilon for R_J), elliprg returns R_G; infinity is returned exactly where the integral diverges; the results do not depend on the order of the symmetric arguments.  ellipk, ellipe, ellipd, ellippi and their incomplete versions return Legendre's integrals for amplitudes between 0 and PI/2 and parameters with m sin^2(phi) < 1.  (Exceptions: elliprj is not a number when its last argument equals another one, so ellippi is not a number for n = m; elliprc is not real for x = 0 > y; the incomplete functions are even in the amplitude.)",
  "every real argument in the stated range, every epsilon",
  "Termination and accuracy for every input: the number of iterations and the truncation error of the series depend on the arguments, and the reference is an improper integral.",
  C+"elliptic.h", C+"elliprf.h", C+"elliprc.h", C+"elliprd.h", C+"elliprj.h", C+"elliprg.h", C+"ellip.h")
p("Merging two grids",
  "Merging two sorted one-dimensional grids gives a sorted grid containing each input knot, and the masks identify where each input's knots landed.",
  "every pair of sorted grids",
  "All grids.",
  "phytorch/interpolate/Linear1dInterpolator.py: merge, merge_grids")
p("Predefined SI, cgs and angular units have their textbook dimension and scale",
  "Every name exported by the SI, cgs, angular and additional unit modules denotes a unit with the textbook base-dimension exponents and the textbook scale in metres, seconds, kilograms, amperes, kelvins.",
  "every exported unit name",
  "The table is large and a test only samples it; a name shadowed by a later definition is invisible to a sampled test.",
  "phytorch/units/_si/base.py, coherent.py, additional.py, prefixed.py", "phytorch/units/cgs/__init__.py", "phytorch/units/angular.py")
p("Conversion of any unit to a table of base units",
  "Converting a unit to a table of base units gives the number of the unit's scale measured in the corresponding product of base-unit powers, and raises KeyError exactly when a base dimension of the unit is missing from the table.",
  "every unit and every table of base units",
  "Universal over units and tables.",
  "phytorch/units/_utils.py: Latexifier.base_from, to_base")
p("Analytic comoving distances equal the integral",
  "The closed-form comoving distance of the LambdaCDM classes (with and without radiation, curved or flat) between any two redshifts is the integral of 1/E between them, with either order of the redshifts, however the roots of the polynomial are distributed over the complex plane, provided the Carlson functions return their integrals.",
  "every parameter set with a positive leading density and E^2 > 0 between the redshifts, every pair of redshifts",
  "The branch cuts of seven complex square roots depend on the parameters; a sampled test meets only a few configurations of the roots.",
  "phytorch/cosmology/drivers/_analytic_base.py: _epoly_roots, _fix_dimless", "phytorch/cosmology/drivers/analytic.py: _get_ellipr_params, _ellipr_comoving_distance_dimless_z1z2")
p("Analytic lookback times equal the integral",
  "The closed-form lookback time of the LambdaCDM classes without radiation is the integral of 1/((1+z)E) from 0 to z for every z > -1, provided the Carlson functions return their integrals.",
  "every parameter set with positive matter density and E^2 > 0 up to the redshift, every redshift above -1",
  "As for the distance; the fourth argument of R_J must never vanish or change sign.",
  "phytorch/cosmology/drivers/analytic.py: _ellipr_lookback_time_dimless")
p("Units defined from constants",
  "The electronvolt, bar, barn, Julian year, jansky, light-year, parsec, rydberg and torr have their textbook scale in SI units and their dimension.",
  "every iteration order of the dimension sets (the units are otherwise fixed)",
  "The scale is computed from lazily created constants and set-ordered dimension products.",
  "phytorch/units/astro.py", "phytorch/units/_si/additional.py")
p("Gradients of elliptic_integral",
  "The backward rule of the elliptic integral returns one slot per argument, None for the exponents, the number of roots and the inputs that need no gradient, and otherwise the incoming gradient times the partial derivative of the integral with respect to that limit or that coefficient.",
  "every exponent vector, coefficients, limits, needs-grad mask and incoming gradient",
  "Derivatives over a continuum; all masks and coefficient counts.",
  "phytorch/special/elliptic_reduction/functional.py")
p("Gradients of Carlson's functions",
  "The gradient that backward returns for each argument of elliprc, elliprd, elliprf, elliprg and elliprj is the partial derivative of Carlson's integral with respect to that argument, for non-negative arguments with at most one zero, in the general case and in every special case of coinciding arguments, provided arguments that are not equal differ by more than the tolerance of the equality test.  (Exception: the tolerance is absolute, so for small arguments the rule for equal arguments is taken although they differ by a large factor and the gradient is wrong by that order.)",
  "every argument tuple, every tolerance, with and without the equality tests",
  "Ten rules with up to eight cases each over a continuum of arguments; the special cases have measure zero and are never met by random arguments.",
  "phytorch/special/ellipr.py")
p("Gradients of Legendre's functions",
  "The gradients that backward returns for the parameter m and the characteristic n of ellipk, ellipe, ellipd, ellippi and their incomplete versions are the partial derivatives of Legendre's integrals, also at m = 0, at amplitude 0 and for parameters above 1, and the chain of the rules for the squared cosecant and for its argument is the derivative with respect to the amplitude inside (0, PI/2).",
  "every amplitude in [0, PI/2], every parameter and characteristic at which the integrals converge, except the removable singularities n = 0, n = m and m = 1 of the rules",
  "Derivatives over a continuum of three arguments.",
  "phytorch/special/ellip.py")
p("Analytic absorption distances equal the integral",
  "The closed-form absorption distance of the LambdaCDM classes without radiation between two different redshifts, in either order, is the integral of (1+z)^2/E between them when E^2 is positive at the smaller redshift and everywhere above it, provided the Carlson functions return their integrals.  (Exceptions: in a universe that bounced above both redshifts the result is wrong by 4/3 (E(z2)-E(z1))/Om0, and at equal redshifts, so for the distance to z = 0, it is not a number.)",
  "every parameter set with positive matter density, every pair of redshifts",
  "As for the comoving distance; in addition the sign of a product of three square roots against the square root of the product depends on where the roots are.",
  "phytorch/cosmology/drivers/analytic.py: _ellipr_absorption_distance_dimless_z1z2, _absorption_distance_dimless_z1z2")
p("Gradients of the incomplete gamma functions",
  "The gradients that the regularised incomplete gamma functions P(a, x) and Q(a, x) return for a and for x are the partial derivatives of the normalised Euler integrals; those returned for their inverses in x are the partial derivatives of the inverse functions, in each slot that needs a gradient and None in the others; and those of the auxiliary function T(m, a, z) are its partial derivatives for a and, for m > 1, for z.  (Exception: for m = 1 the derivative with respect to z exists but computing it raises.)",
  "every a > 0, x > 0, m > 0, every probability strictly between 0 and 1, every needs-grad mask and incoming gradient",
  "Derivatives of improper integrals over a continuum of arguments.",
  "phytorch/special/gammainc.py")
p("Numerical cosmological driver",
  "With an exact ODE solver, the numerically integrated comoving distance, lookback time and absorption distance are the integrals of 1/E, 1/((1+z)E) and (1+z)^2/E for every combination of redshift and parameters: the result has the shape of the redshifts followed by the shape of the parameters.  (Exceptions: a start redshift with several elements, redshifts that are not strictly monotone from the start on, or a distance to z = 0 raise; because redshift and parameter axes are concatenated rather than broadcast, the luminosity distance of M redshifts with N parameter values raises for M <> N and multiplies by 1+z of the wrong axis for M = N.)",
  "every parameter set, scalar or batched, every tensor or number of redshifts, every positive E^2, curvature cases included",
  "Every shape of batch and redshift tensor and every ordering of redshifts.",
  "phytorch/cosmology/drivers/odeint.py: OdeintFLRWDriver", "phytorch/cosmology/core.py: luminosity_distance_dimless")
p("Sampling from a table of probabilities",
  "The inverse distribution function of a table of probabilities on two or more grids succeeds for all values in [0, 1]; every coordinate lies within its grid; the multilinear interpolation, at the coordinates returned, of the conditional cumulative probabilities of each dimension given the later ones is the value given for that dimension; and each coordinate increases strictly with its value.  (Exceptions: a table on one grid raises; cell probabilities ignore the spacing of the knots, and the end knots of the other dimensions get the weight of inner ones, so that the samples do not follow the interpolated density except on equally spaced knots with two knots in the other dimension.)",
  "every number of dimensions, every increasing grids, every table with positive cell weights, every value vector in the unit cube",
  "The coordinates depend on each other through nested interpolations of any depth; sampling tests cannot distinguish close distributions.",
  "phytorch/distributions/__init__.py: NDIDistribution.__init__, NDIDistribution.icdf")
p("Differentiable analytic cosmological driver",
  "The comoving distance of the differentiable analytic driver, which goes through the general reduction of elliptic integrals, is the integral of 1/E for the four LambdaCDM classes; without radiation its lookback time is the integral of 1/((1+z)E) and its absorption distance the integral of (1+z)^2/E, also at z = 0 where the plain analytic driver fails, provided E^2 is positive on the range (for the absorption distance: also above it) and the Carlson functions return their integrals.",
  "every parameter set with positive leading density, every pair of redshifts, every redshift above -1 for the lookback time",
  "As for the plain analytic driver; the two drivers use different formulas for the same integral, with different cases of vanishing denominators.",
  "phytorch/cosmology/drivers/analytic_diff.py: AnalyticFLRWDriver", "phytorch/special/elliptic_reduction/functional.py: elliptic_integral", "phytorch/special/elliptic_reduction/core.py: EllipticReduction")
p("Hypergeometric series and the function T",
  "The hypergeometric series code returns the partial sum up to the first term below the tolerance, and not a number when there is none within the term limit or a denominator vanishes before; if from some point on the terms shrink at least by the factor r < 1 and no earlier term is below the tolerance eps, the error is at most eps r/(1-r); the series with at most as many upper as lower parameters, or one more and |z| < 1, converge and are computed when enough terms are allowed.  At -z with z >= 0 the exponential series is within eps of exp(-z); T(1, a, z) is within eps z^(a-1) of z^(a-1) e^-z, and T(2, a, z) within eps z^(a-1)/a of Gamma(a, z)/z for a > 0 that is not an integer.  (Exceptions: the stopping test does not bound the error in general: a single small term stops the summation however large the sum; slowly converging series give not a number; for m >= 3 the parameters of T(m, a, z) are always moved, by multiples of 2^-15 in double precision.)",
  "every parameter list, argument, tolerance and term limit; every real a and z >= 2 eps",
  "The stopping index depends on the arguments and is unbounded; the errors are those of infinite series.",
  "phytorch-extensions/special/hyper.h", "phytorch-extensions/special/meijerg.h: Tgamma")
p("Gamma function and its logarithm",
  "For a real argument the compiled loggamma returns a complex number whose real part is log|Gamma(x)| within 1e-17 (1e-9 once x or 1-x reaches 1e8, where the series is dropped), whose imaginary part is 0 for positive x and pi floor(x) for negative x, and whose exponential has the sign of Gamma(x); the compiled gamma returns Gamma(x) within a relative 5e-15, except within 1e-9 of the poles 0, -1, ..., -17 where 2e-9 is proved.  Gamma is Euler's integral, continued by Gamma(x+1) = x Gamma(x).  Both return NaN exactly when x is not positive and within 100 machine epsilons of an integer, and otherwise terminate with a number after at most 36 steps.  (Apart from rounding.)",
  "every real argument, on both sides of every threshold of the code (-18, -14, 0, 14, 18, 1e8, the poles)",
  "A continuum of arguments against an improper integral; tests sample points and compare with another implementation of the same Stirling series.",
  "phytorch-extensions/special/loggamma.h", "phytorch-extensions/special/gamma.h", "phytorch-extensions/common/complex.h: is_int")
p("Incomplete gamma functions",
  "The compiled gammainc and gammaincc approximate P(a,x) and Q(a,x), the lower and upper incomplete gamma integrals divided by Euler's integral: where the power series is used (x at most max(a, 1), a at most 1900) the error is relative to P and at most eps max(1, a/2), from below; where the continued fraction is used (x at least a and above 1.1, a at most 1900) it is relative and at most eps max(1, 2002/(x+a-1)), with no condition on the stopping test; where the alternating series is used it is at most eps x^a/Gamma(a).  The prefactor x^a e^-x/Gamma(a) is exact where it is taken from log-gamma, and has a relative error of at most 1e-14 where Lanczos's formula is used, whose coefficients give the gamma function to that accuracy at every positive argument.  The two add up to exactly 1 wherever one is computed as the complement of the other and in the whole region of the uniform asymptotic expansion.  Negative arguments give NaN, zero and infinite arguments the limits.  (Exceptions: for a below about 1e-308 and x <= 1 gammainc returns 0 although P is close to 1; for a = 1e6 and x = 995400 the 2000 terms of the series leave a relative error above 4e-10.)",
  "every real a and x, finite or not, on both sides of every region boundary",
  "A continuum of arguments, five evaluation methods chosen by region, and loops whose number of steps depends on the arguments.",
  "phytorch-extensions/special/gammainc.h")
p("Digamma",
  "For a real argument x that is not a pole the compiled digamma returns the logarithmic derivative of the gamma function (continued to the negative axis) with an absolute error of at most 4.25e-15 / (1 + max(x, 1-x)), so below 3e-15 everywhere; it returns NaN exactly within 100 eps of a nonpositive integer (and not above 0) and ends after at most one recursive call; the reflection formula digamma(1-x) - digamma(x) = pi cot(pi x) holds exactly, the recurrence digamma(x+1) - digamma(x) = 1/x to 5e-15 for positive x.",
  "every real argument, on both sides of 1/2 and of every pole",
  "A continuum of arguments; the reference value is the derivative of an improper integral, and the fourteen coefficients of the sum could be wrong in any digit.",
  "phytorch-extensions/special/digamma.h", "phytorch-extensions/special/gammahead.h", "phytorch-extensions/common/complex.h: is_int")
p("Inverse incomplete gamma functions",
  "For 1e-4 <= a < 1 and 1e-280 <= p <= 0.9, wherever the first of DiDonato and Morris's starting values is taken ((1-p) Gamma(a) above 0.6, or at least 0.45 with a >= 0.3), the compiled gammaincinv(a, p) is within a relative 1e-6 of the unique s with P(a, s) = p; for a = 1 and 1e-280 <= p <= 0.55 it is within a relative 1e-12 of -log(1-p).  Within the same ranges, with p = 1 - q, gammainccinv(a, q) is as close to the s with Q(a, s) = q, and for a = 1 to -log q.  The inverse of P at p and the inverse of Q at 1-p are the same number when p is below 0.1 or above 0.9, and for every p when a > 20 (a not 200).  Arguments that are NaN, negative, or a p above 1 give NaN; p = 0 and p = 1 give 0 and infinity (the reverse for Q).  (Exceptions: the second-order correction that the iteration announces is never applied: the result is always three steps of Newton's method; for a = 0, where P(0, x) = 1, the results are NaN or 0 depending on p.)",
  "every real a and p in the stated ranges, on both sides of the thresholds of the code; every a >= 0 and every p for the special values",
  "The inverse of a function that is defined by improper integrals, over a continuum of arguments; tests compare with another implementation at sample points.",
  "phytorch-extensions/special/gammaincinv.h")
p("Sums over ragged groups",
  "In the old ragged tensors, reduce_add over a dimension of n entries whose group sizes add up to n gives, for each group, the sum of its consecutive entries; every entry belongs to exactly one group, so the group sums add up to the sum of the row, and a group of size 0 gives 0.  Sizes that add up to anything else are rejected.  (Exception: sizes that add up to 1 are accepted for every n, and the whole row is added to the one group that is not empty.)",
  "every list of group sizes, every number of rows, every row length and content",
  "The number of groups, their sizes and the row lengths are unbounded; empty groups and broadcasting make the exceptions invisible to a few samples.",
  "phytorch/ragged/ragged_old.py: RaggedTensor.reduce_add, reduce_indices")
p("Two-dimensional interpolation on a regular grid",
  "interp2d interpolates bilinearly: inside each cell of the grid the result is the average of the four surrounding values weighted by distance, at the nodes it is the value there, functions linear in each variable are reproduced everywhere between the outermost nodes, and there the result lies between the bounds of the values.  With align_corners the nodes divide the extents evenly, ends included; by default they are the middles of equal parts.  A node's width or more outside, the result is 0.  For x of at most two dimensions the result has the broadcast shape of x and y.  (Exceptions: by default the result at the corner of the extent is a quarter of the value there; x and y without dimensions, and three-dimensional ones whose first and last dimensions differ and are not 1, are rejected; with a last dimension of 1 the result is larger than x and y.)",
  "every grid size, extent, table of values, point and batch shape",
  "A continuum of points and extents, every batch shape; the placement of the nodes is a convention of the called routine.",
  "phytorch/interpolate/__init__.py: interp2d")
p("Signature lookups do not depend on earlier ones",
  "Looking up the signature of a function in the table of signatures gives the same result, or the same exception, whatever was looked up, tested with 'in' or fetched with get before.  The result comes from the function's other name if it has one, else from the built-in overrides, Python's inspection, the second line of the docstring, and last the overrides of torch's tests; it is None if none of them has one.  (Exceptions: 'in' is true for every function unless finding the signature raises something other than KeyError, so get never returns its default; a docstring of one line is an IndexError although later sources might have a signature.)",
  "every function, every history of uses of the table, whatever inspection, docstrings and overrides say",
  "The table fills itself as it is read: the property ranges over all histories of reads.",
  "phytorch/quantities/signatures.py: SigDict")
p("Loading compiled extensions",
  "Asking phytorch.extensions for an extension gives a module made from the compiled extension of that name or, failing that, from its stub, and never an unrelated top-level module of the same name; if there is neither, an AttributeError that changes nothing.  Whatever is imported in between, asking again gives the same module.  Top-level modules of other names are left alone.  (Exceptions: the stub is replaced when the compiled extension becomes importable and is imported by its full name; a stub cannot be imported by its full name; loading an extension replaces the top-level module of the same name, so that 'import special' then gives phytorch's.)",
  "every history of attribute accesses, imports of the extensions by full name, imports of top-level modules, and changes of what can be imported",
  "The loader changes the process-wide table of modules: the property ranges over all histories of a process.",
  "phytorch/extensions/__init__.py: __getattr__")
p("Complex arguments",
  "The conversion that the special functions apply to their arguments keeps number, order, shapes and values: complex tensors are passed as they are, float32 and float64 ones become complex64 and complex128 with zero imaginary part, everything that is not floating point takes the precision of the default type, and missing arguments stay missing.  Converting twice changes nothing.  With the usual default types nothing but float16 and bfloat16 tensors can be rejected.  (Exception: a Python number is first rounded to the default type, even beside float64 tensors.)",
  "every number of arguments, every type, shape and content, every default type and rounding",
  "All combinations of types of any number of arguments, and every value.",
  "phytorch/utils/complex.py: to_complex, as_complex_tensors, with_complex_args")
open('/verif/properties.jsonl','w').write(''.join(json.dumps(x,ensure_ascii=False)+'\n' for x in P))
for x in P: print(x['id'],x['title'])
