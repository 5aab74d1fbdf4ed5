# Formal model of lucciver/geotecha — design

Source under study: `/repo` (pinned commit), Python/numpy. Nothing is executed;
every Gallina definition carries a comment with the file and lines it models.

## 1. Conventions

* **Numbers.** numpy float arrays are modelled in two ways.
  - *Generic*: combinatorial code (piecewise lines, PolyLine, ...) is written once
    over a record of numeric operations (`NumOps`).  Instances: `R` (theorems),
    `Q` (executable witnesses), `PrimFloat` (binary64, only where rounding *is* the
    property, e.g. C12).
  - *Real*: transcendental code (smear zones, spectral integrals, constitutive
    models, Terzaghi) is modelled directly over Coq's `R`, integrals by Coquelicot's
    `is_RInt`, derivatives by `is_derive`.
  Theorems over `R` are about the formulas in exact arithmetic: rounding, overflow,
  nan/inf are outside them (said per property in MANIFEST notes).
* **Exceptions** are values: `result A = Ok a | Err exn`.
* **Arrays** are lists; an index out of range is `Err IndexError`, a negative index
  wraps as numpy does where the code can produce one.
* **Aliasing / mutation** (PolyLine, dict popping) is modelled by explicit heaps.
* **External calls** (scipy `fsolve`, user functions, `os` calls) are function
  arguments of the model (oracles), universally quantified in the theorems.
* **Files.** `*Model.v`: definitions only. `*Proofs.v`: lemmas. `Props*.v`: the
  property theorems only, each closed by `exact lemma` with `Print Assumptions`, and
  beside each an `Example` showing the hypotheses are met by a non-trivial case.
  `Spec*.v`: small independent specifications used in statements.
* Names ending in `_partial` prove part of a property; `_refuted` exhibit a concrete
  input on which the faithful model (hence, as read, the code) violates it.

## 2. Plan per property

(See properties.jsonl for the statements.)

| id | model | proof idea |
|----|-------|------------|
| C01–C09 | PiecewiseModel.v generic; segment search, interpolation, trapezoid integration | induction on the vertex list; RInt by Chasles over segments |
| C10 | closed-form cubic per layer over R | antiderivative + `field` |
| C11 | converters on lists | induction on layers |
| C12 | `force_strictly_increasing` over Q/R and PrimFloat | exact arithmetic partial theorem; binary64 refutation by `vm_compute` |
| C13–C17 | list predicates | induction; refutations by computation |
| C18 | geometric mesh over R | geometric series |
| C19–C21 | heap model of PolyLine | step semantics; refutation of non-mutation; allclose asymmetry |
| C22 | fold over loads | list induction; refuted corner for scalar omega_phase |
| C23–C30 | transliterated closed forms (generated from the source text by tools/, committed) | derivative of an antiderivative, `field`, Pythagoras |
| C31 | m_from_sin_mx over R | trig periodicity |
| C32–C33 | finite series over R | termwise differentiation/integration |
| C34–C38 | smear-zone formulas | `field`, `ln` algebra, RInt |
| C39–C43 | constitutive models | `ln`/`exp`/`Rpower` algebra, one-sided cases, derivative; refutations for sign bug |
| C44–C45 | Newell normal, shoelace over lists | cyclic sums |
| C46–C48 | fuelled iteration with oracle / table recursion | induction on fuel / table shape |
| C49 | Python AST subset + visitor | induction on AST; refutation by a stored dunder name |
| C50–C59 | string/list/heap state machines | induction over lists |
| C60 | affine map | `lra` |
| C61–C63 | subdivision, layered functions, layer coordinates | induction over layers, RInt by Chasles |
| C64–C67 | generated closed forms of the remaining one-dimensional integrals; load integrals | antiderivatives per layer |
| C68–C71 | PolyLine simplification, common abscissae, sums, integrals of products | invariants of the point-removal loop; merge of sorted lists |
| C72–C77 | remaining smear-zone models, monotonicity, convergence of the Terzaghi series | `ln` bounds, geometric domination |
| C78–C81 | piecewise soil and permeability models, Hansbo | inversion on each segment |
| C82–C85 | polygon/polyhedron moments and volumes | cyclic sums, signed tetrahedra |
| C86–C89 | fixed point, Wynn epsilon, Gauss quadrature (tables generated) | induction on iterations; exactness on monomials from rational bounds |
| C90–C92 | input objects, input checks (attribute tables generated), saving | state machines over attribute maps / file systems |
| C93–C96 | modulated load integrals (generated) | differentiate the closed form, integrate by parts |
| C97 | spectral integral wrappers over PolyLines | composition of C69 with C23–C30, C64–C65 |
| C98 | time integrals of load tables | mild solution of the modal equation, induction over load segments |
| C99 | dim1sin_f, dim1sin_avgf, dim1sin_integrate_af | one pressure field; termwise integrals |
| C100 | Speccon1dVR end to end (SpecconModel.v) | every load contributes its source to the modal equations; modal → matrix → weak form; inv/eig as parameters |
| C101 | Speccon1dVRW end to end (WellModel.v) | elimination of the drain unknowns; same assembly; refutation of two terms of the reported drain pressure |
| C102 | Speccon1dVRC end to end (ColumnModel.v) | 3x3 block elimination (area mean, equal loss, interface balance); reuse of the C100 assembly; refutation of the boundary flux term for a layered column |
| C103, C104 | swcc.py: both curve classes (SwccModel.v) | documented formula, is_derive of the hand-written slope, sign of the slope, strict monotonicity, end values |
| C105 | swcc.py: both k_from_psi | midpoint rule converges to the integral (uniform continuity); sign and monotonicity of the integrand; scaling |
| C106 | swcc.py: kwrel_from_discrete_swcc | closed form per segment, counting lemma for searchsorted, termwise comparison; refutation of the wrap-around below the curve |
| C107 | swcc.py: karel_air_from_saturation | monotonicity of powers |
| C108 | Speccon1dUnsat end to end (UnsatModel.v) | 2x2 block system for water and air; masked loads contribute to one half; reuse of the C100 assembly; refutation of the four-load case and of the settlement split |
| C109 | XieAndLeo2004 pressure, void ratio, Up (XieModel.v, SpecXie.v) | the series solves the linear problem (C32 lemmas); the exponential substitution; Abel summation for positivity of the truncated sine series |
| C110 | XieAndLeo2004 settlement, Us, xi | termwise integration; limits of finite sums of decaying exponentials |
| C111 | XieAndLeo2004 initial and final state | calculus |
| C112 | XieAndLeo2004 velocities | derivative of the settlement; Darcy flux from C109; refutation for the drained base |
| C113 | XieAndLeo2004 total pressures and stresses | direct; the stress methods raise |
| C114 | XieAndLeo2004 t_from_Us | bracketing lemma for interpolation of an increasing function on a geometric grid |
| C115 | dengetal2013 | closed forms per branch, differentiated in time; resistance is the integral of the inverse capacity |
| C116 | dengetal2014 | series differentiated term by term, drain pressure given explicitly; truncation by the Terzaghi misfit lemma |
| C117 | SchiffmanAndStein1970 make_output, por | rows of the matrix give conditions at top and interfaces; Duhamel integral by the load lemma; search for roots from C47 |
| C118 | characteristic equation, terms | determinant zero iff nonzero solution of all conditions (uniqueness of harmonic solutions); Green's identity layer by layer for orthogonality; projection for the minimum |
| C119 | calc_settle_and_avp | closed-form layer integrals shown equal to the integrals of the pressure |
| C120 | make_output errors and tables | case analysis of the model; singular 1x1 system |
| C121 | tangandonitsuka2000, por | sums of modes obey the coupled equations term by term; Duhamel integral as in C117; mu from C34; misfit from Terzaghi's |
| C122 | tangandonitsuka2000, avp and settle | integrals of sines; mirror symmetry for the doubly drained layer |
| C123 | luetal2010, por, pors, porc | algebra of one wave gives the coupled equations; linear profile by integrating Terzaghi's misfit (Cauchy-Schwarz) |
| C124 | luetal2010, avp and settle | integrals of sines |
| C125 | laplace.py and mp_laplace.py Talbot | points are odd multiples of pi/N (parity excludes singularities); symmetry of the contour under conjugation |
| C126 | cosenzaandkorosak2014 | transform algebra; integrals of sines; Talbot from C125 |
| C127 | zhuandyin2012 pressures; jv, yv, fsolve parameters | change of variable y = (1+alpha z/H)^(1-n/2), Bessel equation; Wronskian; Sturm-Liouville orthogonality; least squares |
| C128 | zhuandyin2012 doc, settlement, errors | antiderivatives of mv phi and mv phi^2; Bessel's inequality |
| C129 | shanetal2012; np.linalg.eig a parameter | modal equation from the eigendecomposition, term by term; lifting of the end values; orthogonality of the waves, Basel sum with error |
| C130 | shanetal2012 | characteristic polynomial: negative eigenvalues; limits term by term |
| C131 | shanetal2012 | v E v^-1 as a polynomial of the matrix; trace and determinant |
| C132 | nogamiandli2003; Bessel functions and fsolve parameters | real transfer matrices behind the complex ones; Sturm-Liouville in depth and in radius; the Bessel functions enter by their derivatives and Wronskian (`are_bessel`), and power series show that such functions exist |
| C133 | nogamiandli2003 | closed forms of the integrals of the shapes |
| C134 | nogamiandli2003 without drain | as C132 with wavenumber 0 |
| C135 | nogamiandli2003 | case analysis of make_output; straight shapes and a run with zeros of the equations as counterexamples |
| C136 | Yin and Graham model, one element; exp and ln over the reals | logarithms turn the six cases into linear equations |
| C137 | the object with its accumulated creep; fixed_point is a parameter giving its last evaluation | closed form of the creep integral differentiated; uniqueness by an energy argument; induction over the increments |
| C138 | as C137 | the creep increment is monotone in stress and linear in time |
| C139 | CRSS and CRSN, step and odeint (a parameter) | induction over the subdivided times; a solution of the whole is a history of the parts |
| C140 | as C137 | uniqueness of the solution of the law |
| C141 | av_from_stress | algebra from the closed form |
| C142 | fourier.FourierTransform; quad with weight a parameter assumed exact | both halves by mirroring; linearity of (improper) integrals |
| C143 | vcosine_transform, v2dcosine_transform (2-d without shanks_ind) | composite rule from the moments of the tables (C88); induction over rows for shanks |
| C144 | hankel.HankelTransform, vhankel_transform; jn and its zeros parameters | sorted lists for np.unique and clip; composite Gauss-Kronrod bound (C89); C48 |
| C145 | dingetal2012.DingEtAl2012 __init__, vectorfield, w; find_n_roots, solve, odeint parameters | total derivatives in closed form, orthogonality of sines, normalisation by field |
| C146 | the same: points_SS, weights (np.linalg.solve: a solution and only if unique) | moments, linearity; Lagrange products for independence |
| C147 | phiCC, phiFF, points_CC, wofx | closed derivatives of four functions; repeated point gives a second solution |
| C148 | static_point_load_shape, multi_static (BeamModel) | closed derivatives on each side, jumps at the load |
| C149 | moving_load_on_beam_on_elastic_foundation, DAFinfinite, DAFrelative; np.roots, solve parameters | complex exponentials of the roots, scaling to physical units |
| C150 | tanhtran, tanhtrani, tanhtranib | tanh and arctanh inverse |
| C151 | reverse_curve_transition | circle equations, square roots monotone |
| C152 | MovingPointLoads (not plots and animation) | arithmetic per axle |
| C153 | SpecBeam: constructor, matrices, vectorfield; odeint replaced by any solution, np.linalg.solve by its equations | rows of the equations are integrals (C97), change of variable, positions of axles (C152), interpolation independent of units |
| C154 | SpecBeam constructor | case analysis; functional extensionality for the equations handed to odeint |
| C155 | SpecBeam.runme (numerical), wofx | computation |
| C156 | StressPath, DataResults addition | induction over the list of dictionaries |
| C157 | CurveFittingSWCC.Wc, DWc | differentiation in Coquelicot |
| C158 | EPUS.DryPoreSize, SlurryPoreSize | closed forms by logarithm laws; inequalities |
| C159 | EPUS.Calresults (scalar), Drying, Wetting, Loading, Unloading | invariant over every sequence of calls; case analysis of one group |
| C160 | the same on stress-only paths | induction over the points with the yield stress as invariant |
| C161 | the same within one step | monotonicity of each group, then sums |
| C162 | the same on used objects | the state that survives a run is overwritten before it is read |
| C163 | reported points; success of a run | progression lemmas; totality by an invariant of positivity |
| C164 | epus_ext.f95 Calresults against the Python implementation | the C159 invariant again; simulation on stress-only paths; a computed counterexample |
| C165 | epus.py EpusProfile.calc, over an arbitrary EPUS response | the last pass of the iteration by induction on passes and refinements; sortedness of the grid; C159/C164 for either EPUS |
| C166 | EpusProfile.compression_indexes, also as a loop that writes in place | unfolding point by point; induction on the loop for the state after a failure; C163 for the failing path |
| C167 | EpusProfile.water_permeability, air_permeability | reduction to C106 and C107 |
| C168 | integrals.py Eload_linear, Eload_sinlinear with complex eigenvalues (closed forms transliterated by tools/gen_load_complex.py) | complex calculus by components; each closed form is a difference of antiderivatives (field over C) |
| C169 | specbeam.py use_analytical=True path, dim1sin_E_Igamv_the_mvpl, dim1sin_E_Igamv_the_deltamag_linear (dT=1, theta_zero_indexes=slice(None,n)) (SpecBeamModalModel.v) | first-order system Gam y' = Psi y + load diagonalised over C; Duhamel's integral for each mode; uniqueness from VV^-1=1; imaginary parts vanish by uniqueness |
| C170 | the same model as C153 and C169 (SpecBeamModel.v, SpecBeamModalModel.v) | vectorfield's rows are the system of C169 at all times without an event; uniqueness on an interval; the mass matrix is injective |
| C171 | SmearBackModel.v: back_calc_drain_spacing_from_eta with fsolve as an oracle | the returned triple against the definition of eta; strict monotonicity of mu_ideal and mu_constant in n (mean value theorem) gives uniqueness |
| C172 | SpecBeamUnderModel.v: defl_vs_time_under_loads on the SpecBeam object of C153 | np.interp against straight lines between grid points; error bound for mode sums by two convexity arguments (mean value theorem) |
| C173 | TimeoutModel.v: a transition system of parent, child, feeder, pipe and clock (timeout.py); the multiprocessing primitives are modelled from their documentation | an invariant over all runs; progress by constructing a run from every reachable state; stuck states for the known defects |
| C174 | HelpersModel.v: the three helpers over abstract objects, methods and setters that may fail, dicts as lists of items | induction on the lists; an order-of-effects specification with partial effects at an exception |
| C175 | HelpersModel.v: MarkersDashesColors.__call__; indexes are naturals (Python's negative indexes are not modelled), the tables are parameters | itertools.cycle as index modulo length; surjectivity of i mod n on the tables |
| C176 | NonDarcyModel.v: _g and _gbar, both branches, reals for floats, arrays one element at a time | term-wise derivatives; the partial sums of the binomial coefficients in closed form give positivity; the binomial series by its differential equation (NonDarcyProofs.v, NonDarcyProofs2.v) |
| C177 | NonDarcyModel.v: the three betas and u_piecewise_constant; nflow a number | the profile glued over the zones, fundamental theorem of calculus on each, Chasles over the zones; mean value theorem for the sign |
| C178 | NonDarcyEtaModel.v: non_darcy_drain_eta with number arguments, the beta function's result a parameter | algebra of powers against an independent statement of Hansbo's law and the flow balance |

## 3. Trusted base

1. **Coq 8.16.1's kernel** (every file is also accepted by `coqchk`).
2. **Axioms.** [ASSUMPTIONS.md](ASSUMPTIONS.md) (generated by `tools/assumptions.py`) lists
   what `Print Assumptions` prints for each property theorem.  Only the standard
   library's axioms occur:
   * `ClassicalDedekindReals.sig_forall_dec`, `ClassicalDedekindReals.sig_not_dec`
     (construction of `R`),
   * `FunctionalExtensionality.functional_extensionality_dep` (used by `R` and Coquelicot),
   * `Classical_Prop.classic` (used by Coquelicot's / the standard library's analysis);
   * for `C12_force_strictly_increasing_refuted` only: the kernel's primitive binary64
     floats and 63-bit integers (`PrimFloat`, `PrimInt63`), no axiom about them.
   Coquelicot is used as a library of proved lemmas; it contributes no axiom.
3. **The reading of /repo into Gallina.**  Every definition cites file and lines.  The long
   closed forms (spectral integrals, load integrals, quadrature tables, syntax tables,
   attribute tables) are not typed by hand: `tools/gen_*.py` reads the text of /repo and
   emits `IntegralsGen.v`, `LoadGen.v`, `LoadTrigGen.v`, `QuadratureGen.v`, `SyntaxGen.v`,
   `SetupGen.v`, which are committed; the generators are therefore part of the trusted base.
4. **Real arithmetic for floats** in all analytic modules (see section 1).
5. **External code as parameters.**  `numpy.linalg.inv` and `numpy.linalg.eig` are
   universally quantified functions `inv`, `eig` in C100-C102 and C108; the theorems assume of them
   only that a returned inverse is an inverse and that returned eigenpairs diagonalise.
   numpy's power of a complex number (C126), scipy's `fsolve`/`brentq`, user callbacks and the file system are likewise arguments.

## 4. What is modelled and what is not

Modelled (function by function, in the `*Model.v`/`*Gen.v` files): `piecewise_linear_1d.py`;
the integrals of `integrals.py` used by speccon, with their wrappers; `speccon1d.py` (except
`*_mvpl`), `speccon1d_vr.py`, `speccon1d_vrw.py`, `speccon1d_vrc.py`, `speccon1d_unsat.py` from input arrays to
output tables (not plotting); `smear_zones.py`; `terzahi.py`; `xieandleo2004.py`; `dengetal2013and2014.py`;
`schiffmanandstein1970.py` (calculations, tables; not plotting); `tangandonitsuka2000.py`;
`epus.py` (EPUS scalar calculation, PoresizeDistribution, CurveFittingSWCC, StressPath, DataResults; a step with npp = 1, where numpy gives nan, is an error in the model; not the plots, not the messages); `epus.py` (class EpusProfile: calc, compression_indexes, water_permeability, air_permeability, for an arbitrary EPUS response; the plot and saving are not modelled); `epus_ext.f95` (Calresults and what it calls, in exact arithmetic; out-of-bounds reads give arbitrary values); `specbeam.py` (class SpecBeam: constructor, vectorfield, time_independant_matrices, calulate_qk, wofx, numerical runme; the analytical solution and defl_vs_time_under_loads; not the plots, saving; static_point_load_shape, point_load_static_defl_shape_function, multi_static, moving_load_on_beam_on_elastic_foundation, DAFinfinite, DAFrelative, tanhtran, tanhtrani, tanhtranib, reverse_curve_transition, MovingPointLoads without plots); `dingetal2012.py` (class DingEtAl2012; not the figure functions, tslice all times); `fourier.py` and `hankel.py` (quad, jn, jn_zeros parameters; no error estimates of FourierTransform; 2-d shanks not modelled); `luetal2010.py`; `cosenzaandkorosak2014.py`; `zhuandyin2012.py` (without plot_eigs; `x**y` for positive x); `shanetal2012.py` (`shanetal2012`; z and t arrays; not the sympy helpers that derived its integrals); `nogamiandli2003.py` (parsed attributes; not the plots; a beta of exactly zero, where the code gives nan in the depth profile, is excluded); `laplace.py` and `mp_laplace.py` (`Talbot`, in exact arithmetic); the constitutive models of
`void_ratio_stress.py` (the Yin and Graham model elementwise; not just_before and logx of its simulations; that stress_from_e returns its internal array, which later calls overwrite, is not modelled), `void_ratio_permeability.py`,
`specbeam.py` also with use_analytical=True (frequency loads only through an open oracle), integrals.py pEload_linear and pEload_sinlinear also with complex eigenvalues (LoadComplexGen.v, generated by tools/gen_load_complex.py); `velocity_hydraulic_gradient.py`, `swcc.py`; `geometry.py`, `quadrature.py`, `root_finding.py`,
`transformations.py`, the Shanks/epsilon part of `multi_transform.py` and its n-fold loop; `timeout.py`; from
`inputoutput.py` the checks, path and syntax helpers, saving and the directory driver; the
data-selecting, method-calling, argument-merging and style-choosing helpers of `one_d.py`.

Not modelled: matplotlib/GUI code (`*_interactive.py`, drawing), numba/f95 twins
(`ext_integrals.f95`; the same formulas in python are modelled),
`integrals_generate_code.py` (sympy code generator: its output is modelled),
floating-point rounding (except C12), and modules absent from the list above.
