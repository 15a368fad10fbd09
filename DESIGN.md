# phytorch in Rocq: design

The model is in `rocq/theories/`. Each area has a *model* file (definitions only; every definition cites the
file and lines of /repo it models and says where it simplifies), a *specification* file where one is needed
(`*Spec.v`: textbook notions, independent of the model), *fact* files (proofs), and `Prop_*.v` files with the
property theorems, `Print Assumptions` after each and a non-vacuity `Example Cnn_nonvacuous*` beside them.
Theorems whose name ends in `_refuted` are counterexamples: they prove that an expectation a user may have is false of
the code, and are listed with the claim they limit. `MANIFEST.json` is generated by `tools/manifest.py` from the theorem
names and `tools/notes.json`; `properties.jsonl` by `tools/props.py`; wrong-program tests are run by `tools/mutate.py` and
recorded in `seeded/LOG.jsonl`.

## Trusted base

* Coq 8.16.1's kernel (`coqc`; no native or VM-only extraction is relied upon, no kernel check is switched off).
* The axioms listed per theorem in `ASSUMPTIONS.md` (generated by `tools/assumptions.py` from `Print Assumptions`). They are
  all of Coq's standard library: the axioms of the classical reals `ClassicalDedekindReals.sig_forall_dec`,
  `ClassicalDedekindReals.sig_not_dec`, `FunctionalExtensionality.functional_extensionality_dep`, and `Classical_Prop.classic`
  (through Coquelicot). `Description.constructive_definite_description` occurs only in the example `C40_nonvacuous_solver`.
  Units' structure, scopes, pytrees, ragged shapes and others are closed under the global context.
* No axiom is added. Section variables are discharged, so every hypothesis appears in the statement.
* The correspondence between the Python/C++ text and the model, which is by reading. `seeded/LOG.jsonl` tests it in one direction
  (a realistic change of the model makes a theorem fail).

## What numbers and tensors are

Python `Fraction` is a canonical rational (`Qc`); `int` is `Z` or `nat`; floating point numbers are exact reals (`R`) or complex
numbers (Coquelicot's `C`), so rounding, overflow, NaN, infinities and signed zeros are not modelled unless a model says so
(e.g. infinity as a redshift in `Cosmo.v`). Tensors are modelled elementwise (one batch element) unless the code's
shape logic is the subject (quantities' argument lists, ragged shapes, interpolation tables, matrices), where they are lists.
Python exceptions are values of an error type or `None`. Devices, dtypes (except the flag floating/integral), autograd graph
bookkeeping and printing are not modelled.

## What is modelled

| code (/repo) | model | claims | left out |
|---|---|---|---|
| units/unit.py | Frac.v, Units.v | C01-C08, C58 | names of composite units, repr, astropy |
| units/_utils.py, _prefixes.py, prefixes.py, _si/*, cgs, angular.py | Prefixes.v | C09, C10, C57 | `str.lower` bytewise |
| utils/scoping.py | Scope.v | C11, C12 | `inspect.stack` (the caller's namespace is given) |
| utils/pytree.py | PyTree.v | C13-C17 | cyclic objects |
| quantities/{quantity,dimspec,tensor_quantity}.py | Quantities.v, QuantFuns.v, QuantMulti.v | C18-C24 | torch's numerical functions are parameters with a stated scaling law; signature lookup |
| ragged/__init__.py | Ragged.v | C25-C28 | negative lengths |
| roots/__init__.py, utils/symmetry.py, phytorch-extensions/roots/roots.h | Roots.v | C29-C36 | `isfinite` guards; `torch.linalg.eigvals` is any function returning the eigenvalues |
| interpolate/{abc,Linear1dInterpolator,LinearNDGridInterpolator}.py | Interp.v, InterpND.v | C37-C39, C56 | `broadcast_gather` (phytorchx) elementwise; `Linear1dInterpolator.merge` (reads a missing attribute) |
| interpolate/splines.py | Splines.v | C40 | `torch.linalg.solve`, `Tensor.inverse` by contract |
| cosmology/{core,utils,module,components}.py, special/*.py | Cosmo.v, CosmoDist.v | C41-C49 | quantities in a fixed coherent unit system; steradian; the driver's comoving distance is a parameter |
| cosmology/drivers/{_analytic_base,analytic}.py | Analytic.v; proofs AnalyticAbs and others | C50, C59, C60, C65 | Carlson functions by contract (CarlsonSpec.v); LambdaCDMR lookback and absorption distance |
| constants/*.py, units/_si/additional.py, units/astro.py | Constants.v | C51, C61 | import machinery reduced to globals and module `__getattr__` |
| utils/function_context.py and the classes of special/{ellip,ellipr,gamma,gammainc}.py | FuncCtx.v | C53, C54 | the MRO is given; `ninputs = None` |
| special/elliptic_reduction/{core,functional}.py | Reduction.v, ReductionSpec.v; proofs PartFrac, RedAlg, RedInt, RedBase, RedMain, RedSym, RedGrad | C52, C62 | complex arguments, rounding, principal values |
| special/{ellipr,ellip}.py (gradient rules) | EllipGrad.v, EllipGradSpec.v; proofs CarlsonGrad, LegendreGrad | C63, C64 | complex arguments, rounding; IEEE infinities reduced to the test for an infinite c; `torch.where` is not eager |
| special/gammainc.py | GammaGrad.v, GammaSpec.v; proofs GammaInt, GammaFun | C66 (inverses through FuncCtx.v, C54) | forward values; log Gamma, digamma and Tgamma by contract; complex arguments |
| cosmology/drivers/odeint.py | Odeint.v, OdeintSpec.v | C67 | dtype and device, solver accuracy (exact solver by contract), adjoint gradients, `odeint_adjoint_kwargs` |
| distributions/__init__.py | NDI.v, NDISpec.v | C68 | batch dimensions, rsample's random numbers, values outside [0, 1]; cdf and log_prob are stubs in the code |
| cosmology/drivers/analytic_diff.py, elliptic_reduction/functional.py | DiffDriver.v (complex a_i, see Reduction.v for the real reduction) | C69 | exponents with two or more nonzero entries, second arguments that are tensors |
| phytorch-extensions/elliptic/*.h | Ellipr.v (specification EllipSpec.v, proofs Carlson*.v, Legendre.v, EllipMain.v) | C55 | complex arguments, rounding, the message printed by elliprj |
| phytorch-extensions/special/{loggamma,gamma}.h | GammaFn.v, GammaFnSpec.v; proofs Stirling, Stirling2, Reflection, GammaFnFacts | C71 | complex arguments; rounding; pi and its logarithms are exact |
| phytorch-extensions/special/gammainc.h | GammaInc.v, GammaIncSpec.v; proofs GammaIncFacts, GammaIncFacts2, GammaIncCF, GammaIncCF2, LanczosPoly, Lanczos, LanczosAcc, LanczosAcc2 | C72 | rounding; lgamma, erfc and the table d[k][n] are parameters |
| phytorch-extensions/special/digamma.h | Digamma.v, DigammaSpec.v; proofs LanczosPoly, Lanczos, DigammaFacts | C73 | complex arguments; rounding; pi is exact |
| phytorch-extensions/special/gammaincinv.h | GammaIncInv.v, GammaIncInvSpec.v; proofs GammaIncInvFacts, GammaIncInvStart, GammaIncInvNewton | C74 | infinite a; NaN of logarithms inside the starting value; rounding; tgamma, lgamma, erfc are parameters |
| phytorch/ragged/ragged_old.py: reduce_add, reduce_indices | RaggedOld.v, RaggedOldSpec.v | C75 | storage sharing, the other methods of the class; one ragged dimension, moved last |
| phytorch/interpolate/__init__.py: interp2d | Interp2d.v | C76 | grid_sample modes other than bilinear with zero padding; flattening of the batch is index by index; empty dimensions |
| quantities/signatures.py: SigDict | SigDict.v | C77 | the contents of my_overrides and of torch's tables; parsing of a docstring line is a parameter |
| extensions/__init__.py | ExtLoader.v | C78 | warnings; removal from sys.modules; errors inside a stub; threads |
| utils/complex.py | ComplexArgs.v | C79 | devices and gradients; other things that torch.as_tensor accepts |
| phytorch-extensions/special/{hyper,meijerg}.h | Hyper.v, HyperSpec.v; proofs HyperFacts, HyperExp | C70 | rounding; gamma and complex power by contract; meijerg for p >= q (asymptotic series) |

Not modelled at all: astropy interoperability, docs, setup,
LaTeX printing.

## Plan per property

| id | model | proof |
|----|-------|-------|
| C01 | dict as association list; `UnitBase.__init__` incl. `limit_denominator` loop | invariant over every expression |
| C02-C05 | same model | finite-map extensionality, rational arithmetic, lemma that limit_denominator is the identity below the cap; the laws that rounding breaks are refuted by witness |
| C06 | `Unit.to` | field arithmetic |
| C07 | `__eq__`, hash key = (value, sorted items) | sorted permutation uniqueness |
| C08 | `Fraction.limit_denominator` (CPython algorithm) | loop invariant on continued fraction convergents |
| C09, C10 | prefix table as data; prefixing helpers as folds over association lists | finite computation for the table, induction for arbitrary tables |
| C11, C12 | scope as state machine | induction over operation list |
| C13-C17 | inductive pytree with dispatch on type tags | structural induction |
| C18-C24 | quantity = (real value, unit); each dimspec row executed by a common interpreter of the table | per row, physical value semantics over R |
| C25-C28 | RaggedShape as lists of level lengths; tree specification | induction on depth |
| C29-C32 | lists over an arbitrary commutative ring / field | induction on degree; C32 by the implicit function argument with roots only assumed continuous |
| C33-C36 | complex numbers, principal square root, any cube root | ring identities |
| C37-C40, C56 | sorted lists of reals; searchsorted as count | induction on grids; splines by the tridiagonal system |
| C41, C42 | distances over the driver's comoving distance | algebra; Coquelicot derivative of the volume per curvature sign, error bound on the small-argument series |
| C43-C49 | setters as a state machine over parameter records | induction over assignment histories; Coquelicot derivatives |
| C50 | companion/closed-form roots of the driver | Vieta and factorisation theorems of C29-C34 |
| C51, C61 | tables as data, package globals and caches as a state machine | induction over access histories; rational interval arithmetic for the recommended values; Wien's constants by monotonicity of the spectrum's derivative |
| C52, C62 | reduction of elliptic integrals: whole recursion against the integrals, and the gradients of the functional | partial fractions, integration by parts, Carlson's addition formulas; differentiation under the integral |
| C63, C64 | every gradient rule as a function over the reals, against the derivative of the integral | differentiation under the (improper) integral with a quadratic remainder bound; partial fractions and boundary terms for each special case |
| C53, C54 | class hierarchies as namespaces with an MRO, backward as list function | induction over argument list; implicit differentiation |
| C55 | duplication loops over reals with fuel | loop invariant = the duplication theorem for improper integrals, termination bound, truncation error of the tail series by Taylor bounds of the integrand, substitution for Legendre's integrals |
| C57 | tables as data | finite computation |
| C58 | `Unit.to` against a table | induction |
| C59, C60, C65 | closed forms against improper Riemann integrals | substitution, complex square-root bookkeeping by continuity (constant sign of the phase) |
| C66 | derivatives of improper integrals: the integral over [z, oo) is written as z^a times an integral over (0, oo) depending smoothly on a and z | differentiation under the integral sign with an explicit majorant; integration by parts; inverse through C54 |
| C67 | tensors as shape plus function of indices, right-aligned broadcasting; solver by contract | unfolding; indices of a reshaped stack; broadcasting of concatenated shapes |
| C68 | the table as a function of multi-indices, the nested loop over dimensions last to first | induction on the dimensions still to do; each row of cumulative sums is increasing from 0 to 1, so are their multilinear blends; inversion of a piecewise linear function |
| C69 | the reduction for complex a_i, the driver on top of epoly_roots | unfold the recursion for the three exponent vectors; algebraic identities between the two sets of formulas (e2 of the roots is 0; the square root of U^2 is U because its real part is positive); then C59, C60, C65 and the symmetry of the Carlson integrals |
| C70 | hypsum, hypercomb, meijerg_series1, Tgamma on complex numbers | invariant of the loop: the pair (s, t) is the partial sum and the term; ratio of consecutive terms tends to 0 or |z|; remainder of the exponential and of the lower incomplete gamma series by integrating the alternating remainder |
| C71 | loggamma and gamma on real arguments, with the literals of the code | Stirling's series encloses log Gamma (the remainder is monotone under x -> x+1; Wallis for the constant), reflection formula from the integrals of cos^n t cos 2st, loops unfold to x(x+1)...(x+n-1), the seventh-degree polynomial against the series by the mean value theorem |
| C72 | gammainc, gammaincc with all five evaluations, on finite, infinite and NaN arguments | series: a gamma(a,x) = D sum + remainder by repeated integration by parts, remainder below D c_n x/(a+n+1-x); alternating series: Leibniz; continued fraction: numerators minus value times denominators are (1-a)_{k+1} times an integral K_k that decreases with k, three-term recurrence by induction on k for all a, denominators grow at least by k+0.8 sqrt k, so consecutive convergents bound the error and 2000 steps exhaust it for a <= 1900; Lanczos: as for C73, integrated from 1, where 23 digits of exp 1 settle it |
| C73 | digamma, the whole function | f(z) = ln zp + n/d - g/zp is the logarithmic derivative of Lanczos's formula with polynomial N; f(z+1) - f(z) - 1/z is a rational function (8 terms of the atanh series and a remainder) whose product with (z+1)(z+2) is bounded by comparing coefficients of integer polynomials (computed in the kernel); telescoping and f - ln -> 0, psi - ln -> 0 give the bound; reflection from Gamma(z) Gamma(1-z) |
| C74 | inverse incomplete gamma: accuracy, mirror, special values | P(a, .) is concave for a <= 1, so an exact Newton step never passes the root and squares the distance from below (Taylor with the bound on dens'/dens); the start of eq. (21) lies between 0.8 s and s by x^a e^(-ax/(a+1)) <= a gamma(a,x) <= x^a (1+x/(a+1))^(-a), and the branch condition bounds s by Gamma(a,x) <= e^(-x)((1-a) ln(1+1/x)+a); errors of the computed P and prefactor from C72; on the Q side the computed value is the complement or the alternating series, whose error is below eps x^a/Gamma(a) <= 1.7 eps P. Special values and the mirror by unfolding; the dead Halley step by comparison with a plain Newton loop |
| C75 | repeat_interleave, expansion of the index row and scatter_add on lists | induction on the group sizes: scatter_add over the interleaved indices adds up firstn/skipn slices; broadcasting of a row of length 1 |
| C76 | interp2d with broadcasting, expand and grid_sample written out | the integer part of the pixel coordinate, one axis at a time (both neighbours with their weights, also at the right end); shapes by computation on the broadcast lists |
| C77 | the table of signatures as a list of items, inspection and docstrings as parameters | a stateless meaning of a lookup; every history keeps the invariant that each item agrees with it |
| C78 | globals, sys.modules and what can be imported as a state; accesses and imports as events | an invariant of every history (each submodule under its own name; sys.modules agrees with the globals) |
| C79 | tensors as type, shape and list of numbers; rounding a parameter | cases on types, induction on the arguments |

## Findings (proved unless marked)

* Named tuples cannot be used in pytrees (C17); exponent rounding breaks associativity near 10^6 (C03, C04, C05, C19).
* In-place torch functions, some `linalg_*` aliases and rounding division break unit independence (C20); a unit argument is counted twice (C23).
* Closed-form cubic returns a non-root three times on one branch (C34); order-0 symmetric polynomial raises (C30).
* N-dimensional interpolation outside the grid neither clamps nor extrapolates (C39).
* w0wzCDM's density law is wrong (C43), flat dark-energy classes are not flat (C45), `components.Omega` is wrong (C49), derived parameters are listed (C47),
  the order of Tcmb0/Neff setters matters (C48), the inherited age ignores the redshift (C46), scalar comoving volume divides by zero curvature (C42).
* An explicit gradient list hides overriding rules (C53); the inverse-function mixin mishandles class-method rules (C54).
* elliprj is NaN when its last argument equals another one, hence ellippi(m, m); elliprc(0, y<0) is not real; the incomplete Legendre functions are even and periodic in the amplitude (C55).
* The equality test of the Carlson gradients has an absolute tolerance: for arguments below it that differ by a factor 9 the gradient of elliprc is less than a third of the derivative (C63_close_refuted).  Not proved, IEEE only: the gradient with respect to the amplitude is NaN at 0 and infinite at PI/2, grad_n is NaN at n = 0 and n = m, grad_m of ellipkinc is NaN at m = 1.
* The analytic absorption distance is wrong by 4/3 (E(z2)-E(z1))/Om0 for universes that bounced above both redshifts, and not a number at equal redshifts, hence at z = 0 (C65).
* The z-derivative of T(m, a, z) raises at m = 1 (C66_Tgamma_one_refuted).  Unproved, by reading: `_special.polygamma` does not exist in the extension, so gradients of digamma and polygamma raise AttributeError; the hypergeometric sum stops at the first small term.
* The numerical driver concatenates the axes of redshifts and parameters, the core broadcasts them: luminosity distances of several redshifts with several parameter values raise or use the wrong redshift; z = 0 and unsorted redshifts raise (C67).  Unproved, by reading: `odeint_adjoint_kwargs` is never used.
* NDIDistribution raises for one-dimensional tables, ignores the spacing of the knots and overweights end knots (C68).
* hyper.h stops at the first small term, which is no bound for the error; T(m, a, z) is computed at parameters moved by 2^-15 whenever m >= 3 (C70).
* Not proved, found by reading: LambdaCDMR's lookback time and absorption distance for some negative redshifts;
  `Latexifier.__call__` ignores `prec`.
* gammainc.h: the prefactor is tested for underflow before it is divided by a, so that gammainc(a, x <= 1) is 0 instead of nearly 1 for a below about 1e-308 (C72_underflow_refuted); 2000 terms are too few for a of 1e6 (C72_truncation_refuted).
* gammaincinv.h: an inverted `isfinite` test makes Halley's correction dead code (C74_newton); gammaincinv(0, p) is NaN for p < 1 - 1e-5 and 0 above (C74_edges).
* ragged_old.py: reduce_add accepts rows of any length when the group sizes add up to 1 (C75_single_refuted).
* interp2d: the batch shape is taken from x.shape[:-2] where z.shape[:-2] is meant, so that batches of three-dimensional points are rejected or enlarged and single points are rejected (C76_batch_refuted, C76_larger_refuted, C76_scalar_refuted); without align_corners the outer half cells fade to zero (C76_edge_refuted).
* signatures.py: `in` is always true and get never returns its default (C77_contains, C77_get); a one-line docstring is an IndexError (C77_one_line_refuted).
* extensions/__init__.py: line 32 enters the module in sys.modules under `name` instead of `modname` (C78_shadows_top_level, C78_stub_not_importable); a stub can be replaced (C78_same_module_refuted).
* utils/complex.py: Python numbers are rounded to the default type before they meet the other arguments (C79_number_precision_refuted).
