# Formal model of wwcphy/electrode

## Layout

* `rocq/theories/Base.v` - python-level vocabulary: exceptions as values (`res`), zip-style writes, finite sums, 3-vectors.
* `rocq/theories/Model*.v` - the model, function by function, each definition with the `/repo` file and lines it models.
* `rocq/theories/Spec*.v` - small specifications that do not use the model's helpers (what a rotation is, what a partition is, ...).
* `rocq/theories/Proof*.v` - lemmas.
* `rocq/theories/Props*.v` - the property theorems only (`Theorem Cnn_... . Proof. exact lemma. Qed.`), each with `Print Assumptions` and
  an `Example` that meets its hypotheses.
* `MANIFEST.json` maps properties to theorems, `seeded/LOG.jsonl` records the wrong programs tried against the theorems.

## Modelling conventions

* Numbers (`float64`) are modelled by the reals of Coq's standard library. Rounding, overflow, NaN and infinities are not modelled except
  where a definition says so. A division that numpy would carry out with a zero divisor is excluded by a hypothesis of the theorem or modelled
  as an explicit error.
* An array of points is a list of triples; an output array `out` is a list of rows; in-place `+=` becomes a function returning the new rows.
* Tensors are functions on index lists (an index is a list of axes `0..2`), or flat row-major lists where the code reshapes.
* Exceptions are values `Raise e`; python loops are folds or structural recursion; `while` loops are fuelled recursion with an explicit
  out-of-fuel result that the theorems exclude.
* External numerics (numpy `eig`/`eigh`/`pinv`, cvxopt, scipy `minimize` and `map_coordinates`, shapely, triangle, gni integrators) are
  function arguments of the model ("oracles"); what a theorem needs of them is a hypothesis in its statement.
* No axioms are added. `Print Assumptions` under every property theorem lists at most the axioms of Coq's standard library for the reals:
  `ClassicalDedekindReals.sig_forall_dec`, `ClassicalDedekindReals.sig_not_dec`, `FunctionalExtensionality.functional_extensionality_dep`
  and `Classical_Prop.classic` (the latter two through Coquelicot's derivative library).

## Plan per property

| id | modelled | proof |
|----|----------|-------|
| C01 | heap of electrodes, the context manager as enter/body/exit with exceptions as values | lens laws, induction over bodies/nesting |
| C02 | the same with iterables that fail at some position | refuted: failing dcs leaves the new rfs behind |
| C03,C04 | zip writes over a heap with aliasing, list lookup | induction over lists |
| C05,C06 | all five electrode classes' `potential`, the loop in `electrical_potential` | induction over electrodes, points and pixels |
| C07 | time_potential | trigonometry |
| C08,C09,C10 | einsum contractions of orders 0..4 | Coquelicot derivatives, ring |
| C11 | order dispatch of every entry point | case analysis; findings where refuted |
| C12-C16 | `_derivative_names`, `_populate_maps` and all name maps as computed by the code | computation on the finite index sets, lifted to all real tensors |
| C17 | rotate_tensor on tensors of any order | induction over the order |
| C18 | the six coefficient tables | field with explicit solid harmonics; orthonormality by integrating Legendre polynomials |
| C19 | shoelace sums | induction over the path |
| C20-C31 | the expressions of all orders, image loops, polygon and mesh loops | Coquelicot derivatives per edge, telescoping over closed paths; C30 by the angles under which the edges are seen |
| C32-C34 | grid maps, trilinear interpolation, np.gradient | real arithmetic, induction |
| C35-C39 | group, optimize, shims, solve with solver oracles | partition lemma, linear algebra; findings |
| C40-C43 | constraint generators as lists of linear (in)equalities | induction |
| C44-C49 | closures of minimum/saddle/trajectory, rfo loop | chain rule, loop invariants; findings |
| C50-C57 | Floquet matrix, Mathieu coefficients | complex/real algebra, induction |
| C58-C65 | polygon bookkeeping with geometry oracles | induction, sets |
| C66-C70 | adaptive, adjust, xic as state machines | induction over events |
| C71-C74 | index maps, coordinates, discrete transforms | arithmetic, trigonometry |
| C75-C87 | transformations.py matrices and quaternions | ring/field, trigonometry, case analysis over the 24 conventions |
| C88 | reshape arithmetic | induction over shapes |
| C100-C106 | the classes of constraints.py as generators over positions with the arrays they write to | induction over the index list; refutations by computing one position |
| C107-C111 | decompose/compose, orthogonalization, point set registration | Gram-Schmidt, von Neumann's trace inequality by quaternions, Horn's quadratic form |
| C112-C113 | smooth=True of the two voltage derivative constraints | reflection-symmetric extension over the integers, induction over pairs of steps |
| C114-C118 | the ..._from_matrix functions undo their counterparts | eigenvectors of rank-one updates and of rotations, over all admissible lists |
| C119-C127 | the extension module transformations.c agrees with transformations.py | branch by branch equality of the two models; base-256 digits of the axes names |
| C128-C130 | inverse_matrix of the extension | cofactors by ring; invariant of the LU factorisation with row permutation, forward and back substitution by induction, right inverse to left inverse by regularity |
| C131-C135 | eigenvalues, quaternion_from_matrix and superimposition_matrix of the extension | reflections by ring and field, conjugation; the bisection as an invariant on Rayleigh quotients (Sturm count by LDL^T), termination by halving; cofactors are a row of the adjugate; Horn's quadratic form |
| C136-C138 | random numbers, vector_norm and unit_vector, Python and extension | memory as a function of addresses, arrays as start, shape and strides; loops of writes by induction on the indices; quotient and remainder for the random numbers |
| C139-C143 | import of the extension, concatenate_matrices, vector_product, angle_between_vectors, is_same_quaternion, euler_from_quaternion | invariant of the loop over names; induction on the list; Cauchy-Schwarz; the double cover by products of components |
| C144, C145 | potentials of convex polygons | the edge term is half the integral of a kernel along the abscissa of the edge plus terms of the corners that telescope; vertical slices of a convex polygon are intervals between one upper and one lower side; the kernel increases with the ordinate, so disjoint slices add up to at most its total increase, whose integral is 2 pi |
| C146, C147 | GridElectrode.from_vtk and from_result; the file is its decoded contents | index arithmetic of reshape and transpose; interpolation at grid points (C19) |
| C148, C149 | plot_contour, plot_voltages, plot: the arguments of the matplotlib calls | the grid's points (C32), the potentials (C03, C05), extrema by induction |
| C150-C152 | norm, DummyPool, apply_method, UnstructuredGrid, SphericalGrid | induction over programs of submissions and gets; index arithmetic |
| C153, C154 | smooth with splprep and splev as arguments; Polygons.smooth | angles modulo 2 pi; cumulative sums by induction; induction over rings and polygons |
| C155, C156 | threads of loads and stores under any schedule; the compiled loops and with_voltages as such programs | invariant over the schedule: each race-free thread is at a point of its run alone |
| C157 | area_centroid, to_points and the polygon potential | moments of affine functions over the vertical slices (as C145); Taylor's theorem with a bound of the second derivative of the kernel |
| C158 | polygons cut into convex pieces: the sides of the pieces are those of the outlines and each cut in both directions | the edge potential changes sign with the direction; C144 and C145 for the pieces |
| C159, C160 | the functions of transformations.c as programs of steps that take or give up references, blocks, the lock and the exception; tests and failures as free choices | a static analysis of ownership, proved sound by induction over programs for all heaps, arguments and choices; then computed for each function; induction over histories |
| C161 | Arcball of ModelTrans.v, histories of down, drag and next | the quaternion of two unit vectors is the product of two reflections; drags depend on the press and the last point only (induction over the path) |
| C162-C164 | the formulas of cexpressions.pyx as terms (ModelFloat.v, ModelFloatExpr.v), the additions of every electrode in order (ModelFloatField.v), evaluated with a rounding after every operation (Flocq) | the voltage enters each term by multiplications and divisions only (checked by computation), rounding commutes with sign and powers of two; relative errors as factors (1+u)^n; without rounding the model equals ModelField |
| C165-C167 | nu_exp_det, nu_exp_d0ap, nu_exp_bla, nu_exp_ivp, init_sol (ModelFloquet.v); det and solve_ivp are arguments | Floquet's theorem from uniqueness and the monodromy matrix (Cayley-Hamilton), existence by power series, Gronwall for the error of the truncated series |
| C168 | modes of the total potential (ModelSearch.v, ModelField.v) | expanded tensors are traceless; trace = sum of eigenvalues; second-derivative test for a harmonic function |
| C169 | what Electrode.plot hands to matplotlib (ModelDraw.v) | the pen's path over vertices and codes is a permutation of the edges; the mean of a convex polygon's vertices lies left of every edge |
| C170 | angle_between_vectors of arrays (ModelAngle.v) | broadcasting of shapes with as many dimensions is componentwise; the sum along the axis commutes with it |
| C171 | Mathieu.sum_c (ModelSumC.v) | invariant of the loop; summation by parts against the recurrence of C55 |
| C172 | affine_matrix_from_points and superimposition_matrix in n dimensions (ModelRegN.v) | determinants of any size from the expansion along the first row (alternating forms, ProofDet.v); an orthogonal matrix of determinant -1 has trace at most n - 2 since it reverses a direction; von Neumann's inequality; kernels instead of cofactors |
| C173 | vector_product for arrays (ModelCross.v) | broadcasting of shapes of different lengths reduced to equal lengths by leading ones; uniqueness of the right-handed perpendicular vector from Lagrange's identity |
| C174 | orientations of the electrodes (ModelOrient.v) | the area of an outline is the sum of those of its pieces, the potential that of the pieces (C158); the boundary values (C30) for the counterexample |
| C175 | the potential of a system in doubles, order 0, all electrodes (ModelFloatField.v) | the errors of numerator and denominator of an edge compared to their sizes (as C164); moving them along a line, the angle moves by at most the integral of its derivative; where the denominator may lose its sign the angle is off by less than 6, which the bound allows; summed along the trace of additions |
| C176 | the potential with n images (ModelField.v), as a sum over images of the potential without | the kernel of the half space is Lipschitz in the height with constant 1/(pi z^3), hence so is its integral over the electrode with constant S/(pi z^3); the pair of images n+1 is such a difference by oddness; telescoping 1/(2n+1)^3 against 1/n^2 |
| C177 | as C176, for systems | every combination of potentials at points is bounded by the area times the largest such combination of the kernel, so differences and second differences of what a pair of images adds are small, hence its derivatives; these sums converge uniformly, hence the limit can be differentiated twice under the limit and is harmonic; oddness about the cover gives 0 there; uniqueness by a maximum principle on boxes with a quadratic barrier |
| C178 | as C158 and C177 | boundary values: a small triangle below the point is inside the piece (or disjoint from it), so the potential of the piece is at least (at most one minus) that of the triangle, which tends to 1 at its centre; uniqueness: a maximum principle for the slab and the half space that ignores finitely many lines, with a logarithmic barrier that is infinite on the lines through the sides |
| C179 | as C04 and C07 (potentials and their derivatives as in the compiled loops, pseudopotential) | order 0 by algebra on the closed forms; the next order is the derivative of the previous one along the turned axes, and the closed forms are differentiable along every direction with a derivative linear in the direction |
| C180 | as C08, C10, C52 (pseudopotential, total potential, modes with eigh as an argument) | the closed forms are continuous and differentiable along every direction, so the mean value theorem along the segment gives the expansion; eigenvectors turn positive curvatures into a bound of the quadratic form; extrema: a subharmonic function plus a small paraboloid has no maximum inside a box, compactness of the box |
| C181 | the derivatives of a system in doubles, orders 1 to 5, all electrodes (ModelFloatField.v) | the polynomials of all edge formulas are homogeneous: a checker computes their roundings, the sum of their coefficients and their degree, with literals in place of the variables, and is proved sound; the common factor divides by a power of L, whose error is compared to L; summed along the trace of additions as C175 |
| C182 | electrical_potential with any number of images (ModelField.v) | the sum of images is harmonic between the planes, close to the plane it differs from the potential without images by a multiple of z, close to the cover only the outermost image is left (C176, C177); then the maximum principle between planes; strictness by adding a small multiple of the potential of a charge above the cover and its mirror image, less a uniform field |
| C183 | System.pseudo_potential and System.potential in doubles, orders 0 to 4, with expand_tensor (ModelFloatPseudo.v) | errors and sizes are carried together through sums, products and roundings: the derivatives by C181, one rounding for an entry given by Laplace, one for the coefficient, three for einsum, up to eight for the sums; the reals are the same program without rounding |
| C184 | the programs of C175, C181 and C183 with images in the cover | between plane and cover the rounded height of an image is within four roundings of its value, because the shift is at most twice the height of the image; the distances get three roundings more, and the counts of C175, C181 and C183 are worked out again with them; sums over parts and images are exchanged to state the sizes image by image |
| C185 | System.electrical_potential and the geometry of C178 | the comparison principle of C178 (barriers at the lines of the sides) with values on the plane that are not positive; strict by adding a small triangle at a point where the voltage is lower, whose potential is positive everywhere; with images the difference of the layouts as one layout and the bounds of C182 on sums of images, below a cover the slab version of the comparison, strict by the barrier in a shell of C187 |
| C186 | the same, with area_centroid | the potential is the integral of the Poisson kernel (C145, C158); the kernel is compared with its value at the centre, to first order by the triangle inequality, to second order by the Taylor expansion of C157; the gradient from the difference of the kernel at two points, which is at most 2 h / (pi m^3) for points h apart and no closer than m |
| C187 | System.potential at order 0 (C180), the decay of C186 | the potentials are subharmonic and continuous (C168, C180); the maximum principle on open sets by compactness of a box with the value of the surface outside of the set and atan in place of a bound; regions without bound are cut off where C186 makes the potential small; strict with one over the square of the distance, which is subharmonic, as a barrier in a spherical shell |
| C188 | System.electrical_potential at orders 0 and 1 for pixels and polygons | each potential and each component of its gradient vanish far away (C186, and the formulas of a pixel); the difference is harmonic and continuous, so the maximum principle of C187 on half-spaces bounds it from both sides |
| C99 | System.ions: energy, gradient, Hessian with its array axes | Coquelicot derivatives of sums over pairs; the Hessian is refuted |
| C89-C98 | additions found while modelling: rotations about axes, Mathieu coefficients, layouts, meshes, harmonics | as their groups |

## Trusted base

* Coq 8.16.1's kernel and `coqchk`; `vm_compute` is used to compute with concrete name tables, index lists, axis codes and polynomial terms (C12-C16, C78 and the edge formulas).
* The axioms `Print Assumptions` lists, all of Coq's standard library (table below, written by `tools/assumptions.py`).
* That the definitions of `Model*.v` are what the cited lines of python do. They were transcribed by reading (the formulas of
  `expressions.py` by the text tool `tools/transcribe.py`); nothing was run.
* The idealisations listed under "Modelling conventions" and, for external code, the hypotheses written in the theorem statements. Each
  oracle is an argument of the model; no theorem uses a property of it that is not a hypothesis.

Coquelicot is used as a library of definitions and lemmas (derivatives, limits, complex numbers); it adds no axioms of its own.

* For C159 and C160, the documented behaviour of the C API: PyArg_ParseTupleAndKeywords runs converters in order and cleans up nothing, PyArray_FROM_OTF and
  the creating functions return a new reference or NULL with an exception set, PyArray_Return gives NULL when an exception is set, Py_BuildValue with N and
  PyArray_Zeros take over a reference.
* For C162-C164 and C175, that a C compiler carries out the operations of the text in doubles, in the order written and without contraction; Flocq is used as a
  library of definitions and lemmas about rounding, it adds no axioms of its own.
* For C165 and C166, that np.linalg.det and solve_ivp are functions of their arguments; where exactness is needed it is a hypothesis of the theorem
  (`integrates`, determinant 1 of the unit matrix). NaN is a value of the model, infinities are not: a division by zero gives NaN.
* C175 assumes of the C function `atan2`: three quarters of a unit in the last place in the right half plane, at most 4 in magnitude everywhere (`good_atan2` of SpecFloat2.v).
* C183 takes `np.einsum` over an axis of length 3 as an argument that may add its products in any order, with at most three roundings on each product; numpy's implementation is not modelled.
<!-- assumptions -->
* no axioms (closed under the global context): C121_tuples, C121_valid_tuples, C121_names_partial, C121_other_names, C121_refuted_3x3, C130_refuted_vector, C54_close_partial, C54_throw, C54_refuted_close, C54_one_ion, C54_refuted_two_ions, C71_bijection, C151_in_order, C151_pure, C151_lazy, C151_refuted, C151_apply_method, C151_apply_method_unknown, C152_unstructured_errors, C58_assign_to_pad, C59_every_fragment_once, C59_labels, C65_unify_by_name, C65_names_once, C65_filter, C65_filter_deep, C65_refuted_default, C94_validate, C94_unify, C146_names, C139_import, C139_missing, C139_refuted_twice, C136_uniform, C159_settled, C159_returns, C159_history, C159_history_returns, C159_refuted_axes, C159_refuted_growing, C159_refuted_slerp, C159_refuted_from_matrix, C159_refuted_iterators, C160_orderly, C47_saddle_integer_start_raises, C48_lists_are_type_errors, C52_unsorted, C153_result_parameters, C154_kept, C154_raises, C154_identity, C13_select_entries, C14_name_deriv_bijection, C14_name_to_idx_spells, C14_idx_to_name_sorts, C14_nidx_rowmajor, C14_reduced_idx_out_of_range, C14_unknown, C14_import_succeeds, C15_find_laplace_complete, C16_construct_derivative, C16_construct_derivative_else_keyerror, C155_independent, C66_mesh_input, C66_ring_closed, C68_lengths, C68_values_partial, C68_refuted_partial_first, C70_white_space, C01_with_voltages_restores, C01_nested_with_voltages, C02_failed_setup_leaks_rf, C02_failed_setup_partial, C03_set_dcs_positional, C03_set_rfs_positional, C03_set_names_positional, C03_get_set_dcs, C03_get_set_rfs, C03_get_set_names, C03_set_get_dcs, C03_set_get_rfs_names, C03_second_write_wins, C03_refused, C04_lookup_by_name, C04_lookup_by_index, C04_lookup_by_other
* `ClassicalDedekindReals.sig_forall_dec`: C119_identity, C119_translation, C122_multiply, C122_conjugate, C40_single, C173_plane, C152_unstructured, C92_coverage, C92_parts, C94_restrict, C94_gaps_union, C112_extension, C52_sorted, C14_reduced_idx, C155_restored, C155_body, C68_refuted_unsaved, C69_refuted_reject, C69_accept_partial, C69_refuted_own, C88_pointwise_partial, C88_refuted_one_point, C02_failed_setup_refuted
* `ClassicalDedekindReals.sig_forall_dec`, `FunctionalExtensionality.functional_extensionality_dep`: C187_linked, C132_ends, C132_not_above, C132_found_partial, C132_refuted, C119_clip, C119_same_transform, C122_inverse, C128_inverse, C128_refuses, C128_refuted_tiny, C129_result, C129_found, C129_refuted_singular, C129_refuted_tiny, C130_argument, C130_shape, C130_error, C130_refuted_view, C100_constraint, C100_objective, C100_negative_weight, C100_refuted_equal, C101_symmetry, C101_refuted_constraints_only, C102_potential, C103_bound, C103_zero, C103_refuted_coord_raises, C103_refuted_coord, C103_coord_three, C104_bounds, C104_refuted_coord_raises, C104_refuted_coord, C104_coord_three, C105_data_kept, C105_refuted_only_variable, C106_refuted_offset, C106_no_electrodes, C40_range_all, C40_range_index, C40_range_bad_index, C41_multi, C42_entries, C42_polynomial, C42_vanishes, C42_bounds_inf, C42_bounds_one, C42_objective, C43_differences, C43_bounds, C43_norms, C43_same, C43_other_orders, C173_arrays, C173_unique, C173_errors, C173_exchanged, C50_eigenpairs, C50_refuted_documented_order, C175_roundings, C32_inverse, C32_origin, C32_step, C32_centred, C32_to_xyz, C32_points, C33_accumulates, C33_stored, C33_between, C33_affine, C33_clamps, C33_linear, C34_keeps, C34_available_partial, C34_refuted_maxderiv, C34_difference, C34_affine, C35_groups, C35_exactly_one, C35_default, C37_met_partial, C37_last_met_partial, C37_refuted_last, C38_vectors, C38_unit_partial, C38_refuted_initial, C38_failure_leaks, C39_objective, C39_total_partial, C39_refuted_sum, C60_pads, C60_inside_partial, C60_refuted_odd, C60_opposite, C61_remove_overlaps, C62_from_system, C62_contours, C63_to_system, C64_sorted, C64_total, C64_refuted_missing_name, C64_refuted_routes, C65_default_deep, C92_refuted_all_area, C93_round_trip, C93_covered, C94_names, C94_add_gaps, C94_within, C94_simplify, C146_stored, C146_others_ignored, C146_no_file, C146_wrong_size, C146_refuted_order, C146_refuted_empty, C147_stored, C55_recurrence, C55_lengths, C55_defined, C90_hill_matrix, C90_tolerance, C90_tolerance_fails, C91_continued_fractions, C112_entries, C112_bounds, C113_ends_partial, C113_refuted_odd, C113_refuted_inner, C140_applied, C140_associates, C140_one, C141_product, C142_refuted_symmetric, C136_numbers, C136_errors, C174_others, C149_given_scale, C149_default_scale, C149_shade, C149_empty, C149_plot, C149_plot_colours, C149_intensity, C29_python_divides_by_zero, C31_to_points, C19_area, C19_start_vertex, C19_reverse, C19_cut, C19_shift, C19_scale, C19_triangle, C19_rectangle, C44_value, C44_other_coordinates_stay, C44_start, C45_gradient_is_along_rows, C47_float_start_partial, C47_integer_start_truncates, C47_refuted_integer_start, C47_integer_start_toward_zero, C48_times, C48_ends, C48_steps, C153_equidistant, C171_sums, C171_normalised, C171_first, C12_expand_symmetric_traceless, C13_select_of_expand, C13_expand_of_select, C13_completion_unique, C15_find_laplace_sound, C17_rotate_contracts, C17_rotate_compose, C17_rotate_identity, C17_rotate_back, C17_rotate_keeps_symmetric_traceless, C155_refuted_same_system, C67_refinement_partial, C67_size, C67_refuted_border, C67_refuted_none, C95_transformed_copy, C70_polygons_partial, C70_no_error, C70_refuted_blank, C70_refuted_python3, C75_hamilton, C75_associative, C75_unit, C75_norm, C75_conjugate, C75_inverse, C82_translation, C82_translations_add, C83_box_corners, C83_frustum_corners, C83_box_interior, C83_rejects, C83_rejects_near, C64_read, C64_covered, C61_each, C35_other
* `ClassicalDedekindReals.sig_forall_dec`, `ClassicalDedekindReals.sig_not_dec`, `FunctionalExtensionality.functional_extensionality_dep`: C131_tridiagonal, C131_shape, C133_vector_partial, C133_refuted_order, C133_refuted_small, C134_ends, C134_unit, C134_shape, C135_ends, C135_shape, C135_rigid, C135_similar, C135_refuted_small, C135_refuted_line, C119_reflection, C119_rotation, C119_projection, C119_shear, C119_orthogonalization, C120_scale_partial, C120_refuted_direction, C121_matrix, C121_quaternion, C121_default, C121_refuted_backwards, C122_about_axis, C122_random, C122_random_rotation, C123_matrix, C123_refuted_argument, C125_precise, C125_refuted_sign, C126_sphere, C126_constrain_partial, C126_refuted_hemisphere, C127_matrices, C127_quaternions, C127_wrong_vectors, C127_wrong_quaternions, C127_refuted_from_matrix, C107_order, C108_cell, C109_least_squares, C109_superimposition, C109_shapes, C110_rigid, C110_similarity, C110_affine, C111_spread_partial, C111_refuted_scale, C169_outline, C169_label, C169_discs, C169_points_label, C169_system, C169_system_each, C169_nothing, C169_refuted_empty, C169_refuted_alpha, C169_refuted_hole, C181_away, C183_nonneg, C184_away, C184_same, C166_uninitialised, C114_inverse, C114_refuted_order, C116_along_direction, C116_uniform, C116_one, C117_orthogonal, C117_parallel, C117_perspective_partial, C117_pseudo_partial, C117_refuted_one, C117_refuted_origin, C117_refuted_pseudo, C73_inverse, C74_round_trip, C74_synthesis, C74_analysis, C74_shapes, C74_refuted_modern_numpy, C97_orthonormal, C98_real_data, C150_last_axis, C150_scalar, C150_refuted_axis_ignored, C150_refuted_first_axis, C99_energy, C99_gradient_length, C99_refuted_returns, C99_refuted_hessian_raises, C55_equation, C55_equation_odd, C56_before, C56_initial_values, C57_initial_value_at_0_partial, C57_refuted_other_times, C57_superposition_partial, C142_complete, C142_sound, C137_extension_all, C137_extension_new_partial, C137_extension_out_partial, C137_extension_axis, C137_extension_errors, C137_python_all, C137_python_new, C137_python_out, C137_python_shape, C137_python_axis, C137_refuted_shape, C137_refuted_empty, C137_refuted_overlap, C137_refuted_type, C137_refuted_axis, C138_extension_partial, C138_extension_shape, C138_extension_axis, C138_python_new, C138_python_out_partial, C138_python_axis, C138_python_shape, C138_python_long, C138_refuted_vector, C138_refuted_overlap, C87_injective, C172_least_squares, C172_rigid, C172_similarity, C172_affine, C172_spread, C172_shapes, C172_superimposition, C45_result, C45_converged, C45_gives_up, C46_step_length, C46_consistent, C46_hessian_symmetric, C46_secant, C46_iterations, C46_status, C46_direction, C153_parameters, C18_taylor_term, C18_other_lengths, C76_rotation, C76_acts_by_conjugation, C76_scale_partial, C76_product_partial, C76_inverse_partial, C76_refuted_tiny, C77_euler, C77_tuples, C77_no_other_names, C79_quaternion, C80_rigid, C80_fixes_axis, C80_rotates, C80_additive, C80_full_turns, C80_default_point, C81_involution, C81_determinant, C81_mirrors, C82_scale, C82_scale_direction, C82_orthogonal_projection, C82_parallel_projection, C82_projections_idempotent, C82_perspective, C82_perspective_idempotent, C82_pseudo, C82_fixes_plane, C82_shear, C82_shear_fixes_plane, C82_shear_moves, C82_shear_rejects, C82_refuted_shear_determinant, C84_precise, C84_eigenvector, C86_sphere, C86_sphere_total, C87_unit, C87_rotation, C89_about_axis
* `ClassicalDedekindReals.sig_forall_dec`, `Classical_Prop.classic`, `FunctionalExtensionality.functional_extensionality_dep`: C145_slices
* `ClassicalDedekindReals.sig_forall_dec`, `ClassicalDedekindReals.sig_not_dec`, `Classical_Prop.classic`, `FunctionalExtensionality.functional_extensionality_dep`: C188_above, C188_determined, C170_arrays, C170_one_vector, C170_refuted_extension, C170_first_axis_raises, C170_refuted_first_axis, C161_drag, C161_place, C161_back, C161_axis, C161_next, C187_barrier, C187_static, C187_unbounded, C187_height, C187_strict, C187_height_strict, C30_inside, C30_outside, C30_whole_turns, C30_winding, C30_winding_below, C132_matrix_partial, C134_rotation_partial, C135_optimal_partial, C121_angles, C121_refuted_upper_case, C124_slerp_partial, C124_refuted_backward, C127_euler_partial, C127_wrong_matrices, C127_refuted_slerp, C127_refuted_name, C157_area, C157_area_positive, C157_centroid, C157_distance, C157_to_points, C157_converges, C158_same, C158_between, C158_poisson, C158_area, C158_system, C185_monotone, C185_same, C185_one, C185_raised, C186_far, C186_limit, C186_next, C186_field, C186_pseudo, C185_images, C185_any_images, C185_under, C185_under_strict, C41_value, C41_voltage_free, C176_images, C176_limit, C176_plane, C177_unique, C177_exists, C177_error, C177_field, C182_images, C182_strict, C182_system, C182_positive, C182_pixels, C182_under, C173_angle, C107_round_trip, C107_refused, C178_solves, C178_result, C178_field, C178_mesh, C178_under, C178_error, C178_under_field, C51_equation_of_motion, C51_exponents, C51_sorted_ascending, C51_sorted_keeps_stable_half, C53_pseudopotential, C168_sum, C168_no_static_trap, C168_trap_needs_gradient, C168_rf_null, C168_earnshaw, C05_superposition, C05_adding_electrodes, C06_accumulates, C06_batch, C07_time_potential, C07_time_potential_expanded, C07_periodic, C07_start_and_average, C09_nonnegative_and_zero, C09_quadratic_in_voltages, C09_quadratic_in_coefficient, C09_symmetric, C10_total, C10_bad_typ, C10_no_rf_scale, C11_pseudo_high_is_index_error, C11_refuted_documented_error, C11_expanded_high_is_index_error, C11_refuted_unexpanded_high_is_zero, C11_supported_orders_return, C20_potential, C20_point_derivatives, C21_harmonic, C162_negated, C162_scaled, C163_linear, C163_superposition, C163_order, C164_exact, C164_potential, C164_derivatives, C175_potential, C175_million, C181_derivatives, C181_million, C183_pseudo, C183_value, C183_total, C183_million, C183_left, C183_exact, C183_errors, C184_potential, C184_derivatives, C184_million, C184_pseudo, C184_pseudo_million, C165_solutions, C165_exponent, C165_no_warning_stable, C165_warning_unstable, C165_refuted_no_complex, C165_refuted_unstable_series, C165_refuted_no_steps, C166_det, C166_det_unstable, C166_converged, C166_no_rf, C166_consistent, C166_invalid_mode, C166_refuted_a0, C166_refuted_modes, C167_even, C167_odd, C115_inverse_partial, C115_refuted_small, C118_inverse_partial, C118_refuted_zero, C118_refuted_steep, C36_same_field_partial, C36_refuted_cover, C72_to_and_back, C72_back_and_to, C73_columns, C73_refuted_gradient, C152_spherical, C152_refuted_modern, C99_gradient, C99_refuted_hessian, C99_hessian_three, C56_derivatives, C144_convex, C144_convex_below, C144_disjoint, C144_parts, C144_system, C145_poisson, C180_expansion, C180_minimum, C180_necessary, C180_rf_null, C180_rf_trap, C180_no_maximum, C180_no_static_trap, C141_angle, C141_nan, C143_round_trip, C174_polygons, C174_positive, C174_points, C174_refuted_points, C174_refuted_crossing, C148_values, C148_extrema, C148_levels, C148_levels_in_range, C148_keywords, C148_default_grid, C148_bad_slice, C148_bad_typ, C148_empty_grid, C148_no_grid, C148_refuted_negative, C148_refuted_constant, C22_derivatives, C21_harmonic_surface, C08_pseudo_derivatives, C08_pseudo_value, C23_start_vertex, C23_reverse, C23_cut, C23_paths_add, C24_mirror, C25_single_image, C25_limit, C26_cover, C26_values_and_gradient, C27_mesh, C27_refuted_cover, C28_translation, C28_scaling, C29_formulas_agree, C31_pixels_add, C31_proportional_to_areas, C87_onto, C87_onto_rotations, C87_uniform, C44_gradient_matches, C44_hessian_matches, C45_gradient_symmetric_coord_partial, C45_refuted_rotations, C49_acceleration_is_plus_gradient, C49_refuted_minus_gradient, C153_fit, C153_open, C153_refuted_right_turn, C153_refuted_start, C18_orthonormal, C18_coefficient_is_overlap, C156_own_arrays, C156_same_loops, C156_refuted_shared, C96_gradient_change, C96_position, C78_round_trip_partial, C78_round_trip_close, C78_refuted_near_lock, C78_refuted_upper_case, C85_end_points, C85_unit_partial, C85_arc, C85_refuted_odd_spin, C86_history_partial, C86_refuted_axis, C179_direction, C179_turn, C179_pseudo, C179_symmetric, C179_mirror_plane, C188_field, C188_field_determined
<!-- end assumptions -->

## What is modelled

| file | modelled | not modelled |
|------|----------|--------------|
| `system.py` | 77-357 (voltages, lookup, potentials, pseudopotential), 490-654 (minimum, saddle, modes, trajectory), 656-851 (shims, solve, optimize, group), 853-1056 (mathieu, rf_scale, analyze_static), 1058-1127 (ions), 359-488 (plot, plot_voltages, plot_contour: what is passed to matplotlib) | - |
| `electrode.py` | all electrode classes' potentials, to_points, from_polygon_system, GridElectrode generate/derive/potential, from_vtk (of a decoded file), from_result, orientations, plot (what matplotlib is given) | decoding of files, edge colour and other keywords of plot |
| `expressions.py`, `cexpressions.pyx` | all formulas of orders 0-5, all loops, also with a rounding after every operation (C162-C164); of the compiled file the one formula that differs (order 0 of an edge) ; the compiled loops in several threads | memory models weaker than interleaving |
| `utils.py` | 29-43 (shaped), 80-398 (tensors), 401-508 (spherical harmonics), 511-589 (area_centroid, mathieu), norm, apply_method, DummyPool | `shaper` (a call of `shaped`) |
| `constraints.py` | all classes; cvxopt functions are their values at each candidate and a flag affine or convex | traits validation |
| `pattern_constraints.py` | all classes | `SymmetryConstaint` (has no body) |
| `grid.py` | all | - |
| `saddle.py` | rfo, with the eigen solver as an argument | the demonstration at the end of the file |
| `mathieu.py` | the class Mathieu with all its methods (the plot is empty) | the integrator (solve_ivp) and the determinant (np.linalg.det) are arguments |
| `polygons.py` | the class Polygons, square_pads; shapely and gdsii are arguments | the splines of `smooth` are an argument; plotting, byte encoding of files |
| `adaptive.py`, `adjust.py`, `xic.py` | all | the triangulator and optimizer are arguments |
| `spherical_harmonics.py` | 6-190 | the demonstrations 193-246 |
| `transformations.py` | translation, reflection, rotation, scale, projection, clip and shear matrices, Euler angles and matrices, quaternions, slerp, random rotations, Arcball, decompose_matrix, compose_matrix, orthogonalization_matrix, affine_matrix_from_points and superimposition_matrix in any number of dimensions (ModelRegister.v for three, ModelRegN.v), the reflection, rotation, scale, projection and shear `..._from_matrix` functions (svd, eigh, eig, pinv, inv as arguments), vector_norm and unit_vector of arrays of any shape (ModelNorm.v), concatenate_matrices, angle_between_vectors, is_same_quaternion, _import_module (ModelMisc.v), angle_between_vectors and vector_product of arrays of any shape (ModelAngle.v, ModelCross.v) | `numpy`'s own functions (by what they document) |
| `transformations.c` | is_same_transform, identity, translation, reflection, rotation, projection, clip, scale, shear and orthogonalization matrices, axes names, Euler angles and matrices, quaternions, slerp, random rotations with given variates, Arcball; what the argument converters accept (ModelCExt.v); inverse_matrix of all sizes (ModelCInv.v); superimposition_matrix, quaternion_from_matrix and the eigenvalue functions (ModelCEig.v); vector_norm, unit_vector, random_vector (ModelNorm.v); references, memory, lock and exceptions of all functions (ModelRefs.v) | counts changed by other threads while the lock is released, module initialisation |
| `colors.py` | set3, its only definition | - |

## Findings

Properties that are false of the code. Each has a theorem `..._refuted...` (or the exact behaviour) about the faithful model.

| no | where | what | theorem |
|----|-------|------|---------|
| F1 | `System.with_voltages` | if assigning dcs fails and rfs is given, the new rfs stay | C02_failed_setup_refuted, C02_failed_setup_leaks_rf |
| F2 | `System.pseudo_potential` | order 5 and above raises IndexError, not the documented ValueError | C11_refuted_documented_error |
| F3 | `electrical_potential` | unexpanded orders above 5 are silently zero | C11_refuted_unexpanded_high_is_zero |
| F4 | `MeshPixelElectrode.from_polygon_system` | drops the cover plane | C27_refuted_cover |
| F5 | `cexpressions.pyx` / `expressions.py` | the python edge formula divides by zero where the compiled one does not | C29_python_divides_by_zero |
| F6 | `GridElectrode.generate` | the documented order maxderiv is never generated | C34_refuted_maxderiv |
| F7 | `System.group` | drops cover_nmax and cover_height | C36_refuted_cover |
| F8 | `System.optimize` | the last objective is not constrained | C37_refuted_last |
| F9 | `System.shims` | objectives with a non-zero value spoil the unit vectors; a failing call leaves a value at 1 | C38_refuted_initial, C38_failure_leaks |
| F10 | `System.solve` | objectives of all local constraints but the last are overwritten | C39_refuted_sum |
| F11 | `System.saddle` | rotates with coord where minimum uses its transpose | C45_refuted_rotations |
| F12 | `System.minimum`, `saddle` | an integer start point truncates every trial point or raises | C47_refuted_integer_start, C47_saddle_integer_start_raises |
| F13 | `System.trajectory` | the acceleration is +grad instead of -grad | C49_refuted_minus_gradient |
| F14 | `utils.mathieu` | harmonics come in the reverse of the documented order | C50_refuted_documented_order |
| F15 | `analyze_static` | the bare except swallows GeneratorExit; two ions raise TypeError | C54_refuted_close, C54_refuted_two_ions |
| F16 | `Mathieu.init_value` | t0 != 0 raises TypeError | C57_refuted_other_times |
| F17 | `square_pads` | odd=True always exceeds the edge | C60_refuted_odd |
| F18 | `Polygons.from_gds` | a missing name selects the last structure; route and bridge layers need gap_layers | C64_refuted_missing_name, C64_refuted_routes |
| F19 | `Polygons.filter` | the default test=None with deep=False raises TypeError | C65_refuted_default |
| F20 | `Polygons.from_data` | leaves out the remaining area without gaps and routes | C92_refuted_all_area |
| F21 | `adapt_mesh` | a border edge is compared with the last triangle; result None if the first mesh is too large | C67_refuted_border, C67_refuted_none |
| F22 | `Adjust` | first partial saved call IndexError; unsaved calls; next_step(accept=False) AttributeError | C68_refuted_partial_first, C68_refuted_unsaved, C69_refuted_reject, C69_refuted_own |
| F23 | `xic_to_list` | blank line IndexError; Python 3 TypeError | C70_refuted_blank, C70_refuted_python3 |
| F24 | `shaped` | a single 1-D point is split into three | C88_refuted_one_point |
| F25 | `derivatives_spherical_cartesian` | transforms displacements, not gradients, and in the order (r, phi, theta) | C73_refuted_gradient |
| F26 | `SphericalHarmonics.__init__` | ValueError with numpy 1.12 or newer from nmax = 2 on | C74_refuted_modern_numpy |
| F27 | `quaternion_matrix` | quaternions shorter than eps are taken for the identity | C76_refuted_tiny |
| F28 | `euler_from_matrix` | round trip inexact near gimbal lock; upper case names accepted by one function only | C78_refuted_near_lock, C78_refuted_upper_case |
| F29 | `shear_matrix` | determinant not 1 for accepted directions | C82_refuted_shear_determinant |
| F30 | `quaternion_slerp` | odd spin gives quaternions that are not unit | C85_refuted_odd_spin |
| F33 | `ForceConstraint`, `CurvatureConstraint` | with `coord` the electrode axis is rotated: ValueError unless there are three electrodes, wrong for three | C103_refuted_coord_raises, C103_refuted_coord, C104_refuted_coord_raises, C104_refuted_coord |
| F34 | `constraints.py` | `only_variable` overwrites the caller's arrays with zeros | C105_refuted_only_variable |
| F35 | `OffsetPotentialConstraint` | uses `voltage_dc`, which no electrode has: AttributeError | C106_refuted_offset |
| F36 | `affine_matrix_from_points` | with scale=True the result does not minimise the squared deviations as documented | C111_refuted_scale |
| F37 | `VoltageConstraint` | smooth=True is ignored for orders 1 and 3 and leaves out the steps next to the ends for order 4 (and 0 < step < delta) | C113_refuted_odd, C113_refuted_inner |
| F38 | `rotation_from_matrix` | angles below about 1.4e-4 may come back as 0: every eigenvalue is within 1e-8 of 1 | C115_refuted_small |
| F39 | `projection_from_matrix` | perspective point one away from the plane: ValueError; plane through the origin: nan; pseudo=True depends on the order of the eigenvalues | C117_refuted_one, C117_refuted_origin, C117_refuted_pseudo |
| F40 | `shear_from_matrix` | angle 0 gives nan; steep shears slightly off the plane raise IndexError | C118_refuted_zero, C118_refuted_steep |
| F41 | `transformations.c` scale_matrix | the direction is not normalised: with the extension built, scaling by 2 along (0, 0, 2) scales by 5 | C120_refuted_direction |
| F42 | `transformations.c` axes names | names read backwards ("zyxs") are accepted, upper case ones refused; euler_from_matrix refuses 3 x 3 matrices | C121_refuted_backwards, C121_refuted_upper_case, C121_refuted_3x3 |
| F43 | `transformations.c` quaternion_matrix | normalises the caller's array in place | C123_refuted_argument |
| F44 | `transformations.c` quaternion_slerp | fraction -1 returns the second quaternion; arguments of the wrong shape dereference NULL | C124_refuted_backward, C127_refuted_slerp |
| F45 | `transformations.c` quaternion_from_matrix | isprecise=True: fatal interpreter error if the last element is 0 | C127_refuted_from_matrix |
| F46 | `transformations.c` arcball_constrain_to_axis | points behind the sphere are not turned to the front | C126_refuted_hemisphere |
| F47 | `transformations.c` axis2tuple | names with characters beyond ASCII dereference NULL | C127_refuted_name |
| F48 | `transformations.c` inverse_matrix, sizes 1-4 | a determinant below 2**-50 counts as singular: 2**-30 times the identity is refused | C128_refuted_tiny |
| F49 | `transformations.c` inverse_matrix, sizes from 5 | the last pivot is never tested: diag(1,1,1,1,0) gives infinities, no exception; elements below 1e-14 make an invertible matrix "singular" | C129_refuted_singular, C129_refuted_tiny |
| F50 | `transformations.c` inverse_matrix | a matrix passed as memoryview (or through an array interface) is overwritten by its factors; a one-dimensional argument is read out of bounds | C130_refuted_view, C130_refuted_vector |
| F51 | `transformations.c` max_eigenvalue_of_tridiag_44 | a pivot between -1e-18 and 0 is replaced by +1e-18 and counted as negative: the largest eigenvalue can be missed | C132_refuted |
| F52 | `transformations.c` eigenvector_of_symmetric_44 | the components of the result are in the order 1, 2, 3, 0; matrices with small elements are refused by an absolute threshold | C133_refuted_order, C133_refuted_small |
| F53 | `transformations.c` superimposition_matrix | point sets smaller than about 1/60 (2 cm in metres) or on a line raise ValueError; the Python code handles them | C135_refuted_small, C135_refuted_line |
| F54 | `transformations.c` vector_norm | the shape of out is not compared with the result (lines 3490-3496 compare data with itself): a smaller out is written past its end | C137_refuted_shape |
| F55 | `transformations.c` vector_norm | no elements along the axis: returns uninitialised memory instead of zeros | C137_refuted_empty |
| F56 | `vector_norm`, `unit_vector` | out overlapping data gives wrong values in the extension; without axis the extension returns a number, Python an array of one element; Python ignores the axis of one-dimensional data, and unit_vector of such data with axis and out raises ValueError after overwriting out | C137_refuted_overlap, C137_refuted_type, C137_refuted_axis, C138_refuted_overlap, C138_refuted_vector |
| F57 | `_import_module` | a second import replaces the kept `_py_` functions by those of the extension | C139_refuted_twice |
| F58 | `is_same_quaternion` | not symmetric in its arguments | C142_refuted_symmetric |
| F59 | `GridElectrode.from_vtk` | a file with the field before the potential raises AssertionError, one without both UnboundLocalError | C146_refuted_order, C146_refuted_empty |
| F60 | `System.plot_contour` | for a negative potential the default levels exceed its range; for a constant one all are equal | C148_refuted_negative, C148_refuted_constant |
| F61 | `utils.norm` | the axis is ignored, the last one is always used | C150_refuted_axis_ignored, C150_refuted_first_axis |
| F62 | `DummyPool` | the call is made by get, once for each get, and never without | C151_refuted |
| F63 | `SphericalGrid` | with numpy from 1.12 raises ValueError for n > 1 | C152_refuted_modern |
| F64 | `polygons.smooth` | slight right turns never count as straight; whether the first vertex does depends on the direction of the first edge only | C153_refuted_right_turn, C153_refuted_start |
| F65 | `System.with_voltages` | two threads with blocks on one system: a temporary voltage can stay for ever, and a block can read the other's voltage | C155_refuted_same_system |
| F66 | `cexpressions.pyx` (`with nogil`) | two threads adding to the same `out` can lose a contribution | C156_refuted_shared |
| F67 | `transformations.c` axis2tuple | axes given as a string: the encoded name (line 2128, PyUnicode_AsASCIIString) is never released, every call of euler_matrix, euler_from_matrix and quaternion_from_euler leaks one object | C159_refuted_axes, C159_refuted_growing |
| F68 | `transformations.c` vector_norm | the iterators (lines 3501-3503) are followed without testing for NULL | C159_refuted_iterators |
| F69 | `Mathieu.init_sol` | the default mode raises ValueError for a = 0 (no static field), a < 0 and a = 4, 16, 36, 64, 100: the truncated matrix or sqrt(a) is NaN | C166_refuted_a0 |
| F70 | `Mathieu.init_sol` | modes 'd0ap' and 'ivp' without nc raise UnboundLocalError and leave the new exponent with the old coefficients | C166_refuted_modes |
| F71 | `Mathieu.sol_y1` | after the warning of nu_exp_ivp the growth rate is used as a real exponent: the series is bounded, the solution is not | C165_refuted_unstable_series |
| F72 | `Mathieu.nu_exp_ivp` | np.complex does not exist in numpy >= 1.24: AttributeError instead of the warning's value | C165_refuted_no_complex |
| F73 | `Electrode.plot` | An electrode without polygons (ValueError) or points, or with an empty polygon (IndexError), cannot be plotted, so `System.plot` fails for any system that contains one | C169_refuted_empty |
| F74 | `PointPixelElectrode.plot` | Keyword arguments are ignored: the transparency of `System.plot` has no effect on point electrodes | C169_refuted_alpha |
| F75 | `PointPixelElectrode.plot` | The diameter of a point of negative area (a hole converted by `to_points`) is nan: it is not drawn | C169_refuted_hole |
| F76 | `Mathieu.nu_exp_ivp` | nstep=0 (documented as excluded, not checked) gives the exponent 0 for all a and q | C165_refuted_no_steps |
| F77 | `angle_between_vectors` | One vector against an array with its vectors along the last axis, given by its number (axis=1): Python's vector_norm ignores the axis of a single vector, the extension's raises ValueError; the result depends on whether the extension was imported (C170_refuted_extension). |
| F78 | `angle_between_vectors` | One vector against vectors along the first axis, the default: the vector is multiplied row by row; ValueError as a rule, and wrong angles for n vectors of n components (C170_refuted_first_axis). vector_product takes the same arguments correctly. |
| F79 | `Mathieu.sum_c` | The two numbers printed as a check do not check the exponent: the second is identically 0 and the first leaves out the equation of order 0, the only one that depends on nu being right (C171_normalised, C171_first). |
| F80 | `PointPixelElectrode.orientations` | 1 for every pixel, also for pixels of negative area, which `to_points` makes of clockwise polygons (holes) and whose potential is negative (C174_refuted_points). |
| F81 | `PolygonPixelElectrode.orientations` | For a path that crosses itself the sign of the area is not the sign of the potential (C174_refuted_crossing). |
| F32 | `System.ions` | the Hessian has its axes in the wrong order: ValueError unless there are three ions, wrong for three | C99_refuted_returns, C99_refuted_hessian_raises, C99_refuted_hessian |
| F31 | `Arcball` | axis (0, 0, -1) gives nan; setaxes cannot be undone | C86_refuted_axis |

## Wrong programs

`seeded/LOG.jsonl` records edits of the model in scratch copies. The runner rebuilds everything that depends on the edited definition; a
lemma whose proof breaks is replaced by `Admitted` in the scratch copy, and the property theorems whose `Print Assumptions` then lists such
a lemma are the ones that failed. Where an edit that falsifies a claim broke no theorem, the theorem that was added or strengthened is
recorded in `theorems_tightened`.
