{
 "C01": {
  "note": "Exact arithmetic (R). Any list of query points, either choose_max."
 },
 "C02": {
  "note": "Exact arithmetic (R); holds without any monotonicity of x."
 },
 "C03": {
  "note": "Exact arithmetic (R)."
 },
 "C04": {
  "note": "Exact arithmetic (R)."
 },
 "C05": {
  "note": "Exact arithmetic (R)."
 },
 "C06": {
  "note": "Exact arithmetic (R)."
 },
 "C07": {
  "status": "proved",
  "note": "Exact arithmetic. The excluded case xi = xj is documented by C07_empty_interval_refuted / _value."
 },
 "C08": {
  "status": "proved",
  "note": "For a<b<c; with empty sub-intervals see C07 (refuted there)."
 },
 "C09": {
  "note": "For xi < xj."
 },
 "C10": {
  "note": "Whole function: any number of layers, jumps allowed, xi<xj anywhere in range; exact arithmetic. Breakpoints exactly equal (the code also accepts allclose ones)."
 },
 "C100": {
  "note": "numpy.linalg.inv and eig are parameters with the hypotheses inverts / diagonalises (real eigenvalues); exact reals; theta_zero_indexes None. Witness: a concrete problem with surcharge, two top loads, a fixed point and a pump."
 },
 "C101": {
  "status": "proved",
  "note": "The restricted statement (4) is proved by C101_drain; C101_solution gives the exact error of the reported drain pressure in general and C101_drain_refuted a concrete problem (H = 10, bottom gradient) where it is off by 45. inv and eig are parameters."
 },
 "C102": {
  "status": "proved",
  "note": "End to end, inv/eig as parameters. C102_exact: no dropped entries gives exact balance. C102_column_refuted documents the defect (kvc varying with a top load): no pressures with the reported values satisfy the loss equation."
 },
 "C103": {
  "note": "Exact arithmetic; one array element. 0**y is 0 (y>0)."
 },
 "C104": {
  "note": "Exact arithmetic; one array element."
 },
 "C105": {
  "note": "Exact arithmetic; one element of psi. Limit and range are of the documented integrals (Coquelicot RInt, Derive)."
 },
 "C106": {
  "status": "proved",
  "note": "Exact arithmetic; one suction. The wrap-around below the first point is C106_below_the_curve_refuted."
 },
 "C107": {
  "note": "Exact arithmetic; one element."
 },
 "C108": {
  "status": "proved",
  "note": "End to end with inv/eig as parameters; the statement excludes the four-load case and states the actual setw/seta values. C108_exact: no dropped entries gives exact balances. C108_four_boundary_loads_refuted and C108_water_settlement_refuted document the defects on concrete problems."
 },
 "C109": {
  "status": "proved",
  "note": "Series as summed by the code (finite number of terms); quad is a parameter."
 },
 "C11": {
  "note": "Contiguous layers of positive thickness."
 },
 "C110": {
  "status": "proved",
  "note": ""
 },
 "C111": {
  "status": "proved",
  "note": ""
 },
 "C112": {
  "status": "proved",
  "note": "The restricted statement is proved; C112_water_velocity_refuted documents the defect of vw_PTPB."
 },
 "C113": {
  "status": "proved",
  "note": "Proved for the methods that return; C113_stresses_refuted documents the four methods that raise NameError."
 },
 "C114": {
  "status": "proved",
  "note": "np.logspace over the reals; np.interp as in ConstitutiveModel."
 },
 "C115": {
  "status": "proved",
  "note": "The restricted statement is proved; C115_gaps_refuted documents the inputs for which the code returns None or nan."
 },
 "C116": {
  "status": "proved",
  "note": "Proved for A3 > 0; C116_constant_capacity_refuted documents that the default A3 = 0 gives a time-independent result which solves no such system."
 },
 "C117": {
  "status": "proved",
  "note": "numpy.linalg.solve, det and scipy fsolve are parameters; solve is assumed to return only unique solutions, fsolve positive answers."
 },
 "C118": {
  "status": "proved",
  "note": "det is assumed to be zero exactly on singular matrices of the size used; the solver answers are assumed to be roots for the second half."
 },
 "C119": {
  "status": "proved",
  "note": "Load value in the sense of the program (value before an interior step; see the known defect)."
 },
 "C12": {
  "status": "proved",
  "note": "Exact arithmetic. C12_force_strictly_increasing_refuted: machine-checked IEEE binary64 counterexample (absorption); C12_argument_mutated_refuted: the caller's array is overwritten."
 },
 "C120": {
  "status": "proved",
  "note": "The refuted theorems document the defects."
 },
 "C121": {
  "status": "proved",
  "note": "sound_tang: 0 < rw < re, rw <= rs <= re, H, kh, ks, kw, mv, gamw > 0, kv >= 0. The refuted theorem documents the truncation of integer depths."
 },
 "C122": {
  "status": "proved",
  "note": "Same hypotheses as C121; the load is the one of load_value (before a step that happens at the time)."
 },
 "C123": {
  "status": "proved",
  "note": "sound_lu: 0 < rc < re, rc <= rs <= re if given, all other properties positive. The refuted theorems document the ZeroDivisionError."
 },
 "C124": {
  "status": "proved",
  "note": "Same hypotheses as C123."
 },
 "C125": {
  "status": "proved",
  "note": "Exact arithmetic; how close the midpoint rule is to the inverse transform is not claimed."
 },
 "C126": {
  "status": "proved",
  "note": "numpy's complex power is a parameter. C126_no_effect_refuted documents that kv, mv, gamw and tpor are ignored; the factor two is in C126_waves."
 },
 "C127": {
  "status": "proved",
  "note": "scipy's jv and yv are parameters; is_bessel lists the recurrences, derivatives and Wronskian used of them (met by closed forms in the witness). fsolve is a parameter with positive answers; exactness of its answers is a hypothesis only where stated."
 },
 "C128": {
  "status": "proved",
  "note": "Same hypotheses as C127; C128_degree assumes exact zeros (and distinct ones for the lower bound 0)."
 },
 "C13": {
  "note": "Exact arithmetic (R)."
 },
 "C14": {
  "status": "proved",
  "note": "The excluded case (doubled points) is documented by C14_classification_refuted."
 },
 "C15": {
  "status": "proved",
  "note": "The known limit is C15_initially_increasing_refuted, for every such input."
 },
 "C16": {
  "note": "Exact arithmetic (R)."
 },
 "C17": {
  "note": "All five predicates."
 },
 "C18": {
  "note": "Exact arithmetic; n natural."
 },
 "C19": {
  "status": "proved",
  "note": "C19_shift_overwrites/_refuted document the known in-place overwrite of p by p+c, p-c, c-p."
 },
 "C20": {
  "status": "proved",
  "note": "C20_stale_layers_refuted shows why histories with p+c are excluded."
 },
 "C21": {
  "status": "proved",
  "note": "C21_symmetry_refuted documents the asymmetry."
 },
 "C22": {
  "status": "proved",
  "note": "C22_single_tuple_refuted documents the single-tuple omega_phase error."
 },
 "C23": {
  "note": "Exact arithmetic. Closed forms generated mechanically from the python source (tools/gen_integrals.py). Fortran extension not modelled."
 },
 "C24": {
  "note": "Exact arithmetic; also the strong (integrated-by-parts) form."
 },
 "C25": {
  "note": "Exact arithmetic."
 },
 "C26": {
  "note": "Exact arithmetic."
 },
 "C27": {
  "note": "Exact arithmetic."
 },
 "C28": {
  "note": "Exact arithmetic; z1 < z2 (for z1 = z2 at a layer boundary see C07)."
 },
 "C29": {
  "status": "proved",
  "note": "Exact arithmetic; dT*eig <> 0. Closed forms generated from the source. Doubled points: C29_doubled_point_refuted. 'fortran' implementation not modelled."
 },
 "C30": {
  "note": "Exact arithmetic; dT*eig <> 0; no doubled points."
 },
 "C31": {
  "note": "Exact arithmetic; also that no positive root is skipped."
 },
 "C32": {
  "note": "Exact arithmetic (R)."
 },
 "C33": {
  "note": "Exact arithmetic (R)."
 },
 "C34": {
  "note": "Exact arithmetic (R); mu_constant for scalar arguments."
 },
 "C35": {
  "note": "Exact arithmetic (R); empty lists excluded."
 },
 "C36": {
  "note": "Exact arithmetic (R); parameters that np.isclose merges without being equal are excluded; u_piecewise_linear needs s[0] < s[1]."
 },
 "C37": {
  "note": "Exact arithmetic (R)."
 },
 "C38": {
  "note": "Exact arithmetic (R); pi enclosed to 16 digits in PiBounds.v; empty pattern (IndexError) excluded."
 },
 "C39": {
  "note": "Exact arithmetic (R); the source literal 2.3025850929940459 is modelled as that rational, hence the 2e-16."
 },
 "C40": {
  "note": "Exact arithmetic (R); literal 0.43429448190325182 modelled as that rational."
 },
 "C41": {
  "status": "proved",
  "note": "The statement is what the code does; C41_constant_plot_refuted documents the plotting defect."
 },
 "C42": {
  "note": "Exact arithmetic (R); parameters consistent in the sense of hansbo_ok (C81 shows what the constructor yields)."
 },
 "C43": {
  "status": "proved",
  "note": "The unrestricted property is false: C43_negative_refuted, C43_linear_at_zero_refuted, C43_darcy_refuted hold for every negative (zero) gradient. dv_di is modelled as written."
 },
 "C44": {
  "status": "proved",
  "note": "C44_area gives the exact result for every vertex list (sign included); C44_clockwise_refuted and C44_facing_y_refuted document where the code does not return the area. Reals instead of floats; a division by zero is an error (numpy: nan)."
 },
 "C45": {
  "note": "Exact arithmetic."
 },
 "C46": {
  "note": "Scalar func only; the array branch (np.allclose style masks) is not modelled."
 },
 "C47": {
  "status": "proved",
  "note": "scipy's fsolve is an arbitrary function of the guess; reals instead of floats. The _refuted theorems document the defects listed in the statement."
 },
 "C48": {
  "status": "proved",
  "note": "Real arithmetic, 1-d arrays. C48_caller_array_kept_refuted documents the in-place update."
 },
 "C49": {
  "status": "proved",
  "note": "accepted texts characterised for all trees; the bypasses are shown by the _refuted theorems"
 },
 "C50": {
  "status": "proved",
  "note": "prefix taken as literal text, ascii digits"
 },
 "C51": {
  "status": "proved",
  "note": "user code and file system arbitrary; paths without .. and links"
 },
 "C52": {
  "status": "proved",
  "note": "C52_array_refuted documents the numpy-array defect. Values abstracted to None / list / PolyLine / array / other with or without length; np.allclose exact over R."
 },
 "C53": {
  "note": "Objects live in a store, so from and to may be the same object."
 },
 "C54": {
  "status": "proved",
  "note": "user code arbitrary; interrupt behaviour documented by _refuted theorems"
 },
 "C55": {
  "status": "proved",
  "note": "Exact arithmetic. C55_below_60_refuted: 59.999 s is shown as 0:00:60.00."
 },
 "C56": {
  "note": "Exact arithmetic."
 },
 "C57": {
  "status": "proved",
  "note": "Any number of dimensions. C57_step_refuted documents steps other than 1 and -1."
 },
 "C58": {
  "status": "proved",
  "note": "Dictionaries in a heap, so repetition and sharing are covered; pandas (label checks) and str are parameters; file system = tree of files and directories. C58_caller_refuted and C58_same_name_refuted document the defects. The options dictionary is not itself one of the data dictionaries."
 },
 "C59": {
  "status": "proved",
  "note": "Transforms are arbitrary adaptive strategies (parameters). C59_one_dict_refuted documents the single-dict defect. opts shorter than transforms is modelled as an immediate IndexError."
 },
 "C60": {
  "note": "Exact arithmetic."
 },
 "C61": {
  "note": "logx=logy=False, just_before=None; exact arithmetic."
 },
 "C62": {
  "note": "Exact arithmetic."
 },
 "C63": {
  "note": "Exact arithmetic; the float point count passed to np.linspace (TypeError on current numpy) is modelled as a natural number."
 },
 "C64": {
  "note": "Exact arithmetic."
 },
 "C65": {
  "note": "Exact arithmetic."
 },
 "C66": {
  "note": "Exact arithmetic."
 },
 "C67": {
  "note": "Exact arithmetic; dT*eig <> 0."
 },
 "C68": {
  "note": "Exact arithmetic (R)."
 },
 "C69": {
  "note": "Exact arithmetic (R); tolerance side conditions in the statement."
 },
 "C70": {
  "note": "Exact arithmetic (R)."
 },
 "C71": {
  "note": "Exact arithmetic (R)."
 },
 "C72": {
  "note": "Exact arithmetic (R)."
 },
 "C73": {
  "status": "proved",
  "note": "The unrestricted property is false of the code (C73_nan_refuted); the statement gives the exact range in which it holds."
 },
 "C74": {
  "status": "proved",
  "note": "The unrestricted property fails at s = n (C74_touching_refuted)."
 },
 "C75": {
  "note": "Exact arithmetic (R); nodes that np.isclose merges without being equal are excluded."
 },
 "C76": {
  "note": "Exact arithmetic (R)."
 },
 "C77": {
  "note": "Exact arithmetic (R); proves the sum of 1/(2k+1)^2 is pi^2/8."
 },
 "C78": {
  "note": "Exact arithmetic (R)."
 },
 "C79": {
  "status": "proved",
  "note": "C79_pwise_ends_refuted documents the end-point defects."
 },
 "C80": {
  "note": "Exact arithmetic (R)."
 },
 "C81": {
  "status": "proved",
  "note": "C81_darcy_reduction_refuted documents the k_linear typo (line 421). Convergence of the exponent iteration is not claimed."
 },
 "C82": {
  "status": "proved",
  "note": "The statement is about the inputs for which polygon_area is right; C82_level_refuted and C82_facing_y_refuted document the defects."
 },
 "C83": {
  "note": "Exact arithmetic."
 },
 "C84": {
  "note": "Exact arithmetic."
 },
 "C85": {
  "note": "Exact arithmetic."
 },
 "C86": {
  "status": "proved",
  "note": "C86_zero_fixed_point_refuted documents the limit of the relative test."
 },
 "C87": {
  "status": "proved",
  "note": "randomized=False. C87_always_an_estimate_refuted documents the empty table for two terms."
 },
 "C88": {
  "status": "proved",
  "note": "Table literals taken exactly as decimals (generated by tools/gen_quadrature.py); floating point rounding and array-valued integrands not modelled."
 },
 "C89": {
  "status": "proved",
  "note": "As C88; C89_estimate for the orders tabulated in both tables (7, 10, 15, 20)."
 },
 "C90": {
  "note": "Executing the text (make_module_from_text) is a parameter: any resulting module dictionary or any exception."
 },
 "C91": {
  "note": "The tables are generated from the _setup methods by tools/gen_setup.py (SetupGen.v); tables_ok is checked for each class (C91_tables). sample_passes is an instance."
 },
 "C92": {
  "status": "proved",
  "note": "Composition of C50 with the saving methods. The prefix is literal (not a regular expression) and names contain no path separator. C92_single_figure_refuted documents the defect."
 },
 "C98": {
  "status": "proved",
  "note": "C98_after_table_refuted documents the known defect after the last tabulated time."
 },
 "C99": {
  "status": "proved",
  "note": "Inside the load tables; C99_short_modulations_refuted documents the silent truncation by zip."
 },
 "C132": {
  "status": "proved",
  "note": "Bessel functions are any functions with the derivatives, Wronskian of J and Y; NogamiProofs7 constructs such functions. never_straight excludes terms whose shape is straight in a layer (C135_straight_refuted)."
 },
 "C135": {
  "status": "proved",
  "note": "The _refuted theorems document the two defects."
 },
 "C137": {
  "status": "proved",
  "note": "Restricted to increments that change the stress; C137_creep_refuted and C137_restart_refuted document the defects."
 },
 "C139": {
  "status": "proved",
  "note": "method='step' on a new object; C139_twice_refuted, C139_origin_refuted, C139_varying_refuted document the defects. just_before and logx are not modelled."
 },
 "C141": {
  "status": "proved",
  "note": "Positive rates; C141_unloading_refuted documents the sign defect for falling stress."
 },
 "C142": {
  "status": "proved",
  "note": "Restricted as stated; C142_imag_refuted, C142_sign_refuted and C142_parity_refuted document the defects."
 },
 "C143": {
  "status": "proved",
  "note": "C143_together_refuted documents the interaction of rows under extrapolation."
 },
 "C144": {
  "status": "proved",
  "note": "C144_cut_refuted and C144_start_refuted document the limits beyond the last zero."
 },
 "C147": {
  "status": "proved",
  "note": "the four _refuted theorems document known defects named in the property"
 },
 "C145": {
  "status": "proved",
  "note": "np.linalg.solve is a parameter that returns as many numbers as equations; odeint's trajectory is a hypothesis"
 },
 "C149": {
  "status": "proved",
  "note": "np.roots is a parameter that returns the four roots of the polynomial at hand, np.linalg.solve one whose results solve the system"
 },
 "C150": {
  "status": "proved",
  "note": "the _refuted theorems document known defects named in the property"
 },
 "C151": {
  "status": "proved",
  "note": "the _refuted theorems document known defects named in the property"
 },
 "C152": {
  "status": "proved",
  "note": "the _refuted theorems document known defects named in the property"
 },
 "C153": {
  "status": "proved",
  "note": "the _refuted theorems document known defects named in the property"
 },
 "C154": {
  "status": "proved",
  "note": "the _refuted theorems document known defects named in the property"
 },
 "C155": {
  "status": "proved",
  "note": "the _refuted theorems document known defects named in the property"
 },
 "C156": {
  "status": "proved",
  "note": "the _refuted theorems document known defects named in the property"
 },
 "C157": {
  "status": "proved",
  "note": "the _refuted theorems document known defects named in the property"
 },
 "C163": {
  "status": "proved",
  "note": "the _refuted theorems document known defects named in the property"
 },
 "C164": {
  "status": "proved",
  "note": "the _refuted theorems document known defects named in the property"
 },
 "C165": {
  "status": "proved",
  "note": "the _refuted theorems document known defects named in the property"
 },
 "C166": {
  "status": "proved",
  "note": "the _refuted theorems document known defects named in the property"
 },
 "C170": {
  "status": "proved",
  "note": "the _refuted theorems document known defects named in the property"
 },
 "C171": {
  "status": "proved",
  "note": "the _refuted theorems document known defects named in the property"
 },
 "C172": {
  "status": "proved",
  "note": "the _refuted theorems document known defects named in the property"
 },
 "C173": {
  "status": "proved",
  "note": "the _refuted theorems document known defects named in the property"
 },
 "C175": {
  "status": "proved",
  "note": "the _refuted theorems document known defects named in the property"
 }
}