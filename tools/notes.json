{
 "C02": {
  "status": "partial",
  "note": "Refuted as stated (finding F1): when dcs cannot be assigned and rfs is given, the finally clause assigns the requested rfs, so the failed block leaves the new rf voltages behind. C02_failed_setup_refuted and C02_failed_setup_leaks_rf are the counterexamples; C02_failed_setup_partial is the part that holds."
 },
 "C11": {
  "status": "partial",
  "note": "False of the code as documented: pseudo_potential beyond order 4 raises IndexError (proved for every system), not ValueError, and unexpanded electrode potentials beyond order 5 are silently zero (proved). Expanded potentials beyond order 5 raise IndexError (proved)."
 },
 "C34": {
  "status": "partial",
  "note": "Orders 0..maxderiv-1 are proved available (C34_available_partial); the documented order maxderiv is never generated, proved by C34_refuted_maxderiv. The stored values, the difference formula and exactness on affine data are proved."
 },
 "C36": {
  "status": "partial",
  "note": "Proved for polygon electrodes without a cover plane (cover_nmax = 0), for dc and rf, every order. With a cover plane it is false (C36_refuted_cover): group drops cover_nmax and cover_height."
 },
 "C37": {
  "status": "partial",
  "note": "The constraints hold and all objectives but the last are met for every pseudo-inverse and every solver that respects its constraints. The last objective is not constrained by the code; it is met if its row takes part in g (C37_last_met_partial) and missed in general (C37_refuted_last)."
 },
 "C38": {
  "status": "partial",
  "note": "Exact values of every objective on every vector are proved (C38_vectors); they are the unit vectors if additional objectives start at value 0 (C38_unit_partial) and not otherwise (C38_refuted_initial). A failing call leaves a value at 1 (C38_failure_leaks)."
 },
 "C39": {
  "status": "partial",
  "note": "The objective is proved to be that of the last local constraint plus all global ones (C39_objective), so the claim holds only if no other local constraint has terms (C39_total_partial); C39_refuted_sum is the counterexample."
 },
 "C45": {
  "status": "partial",
  "note": "The gradient is that of the potential if coord is symmetric (C45_gradient_symmetric_coord_partial) and is the derivative along the rows of coord in general; C45_refuted_rotations: saddle() rotates with coord where minimum() uses coord.T, so it is wrong for a proper rotation. The returned point and value are proved (C45_result)."
 },
 "C47": {
  "status": "partial",
  "note": "Proved for float start points. An integer x0 truncates every trial point (C47_integer_start_truncates, C47_refuted_integer_start) and saddle() raises TypeError for it (C47_saddle_integer_start_raises)."
 },
 "C49": {
  "status": "partial",
  "note": "False of the code: the acceleration is proved to be +grad (C49_acceleration_is_plus_gradient), refuted as -grad (C49_refuted_minus_gradient)."
 },
 "C50": {
  "status": "proved",
  "note": "Component l belongs to harmonic r-l; the documented order -r...r is refuted (C50_refuted_documented_order)."
 },
 "C54": {
  "status": "partial",
  "note": "Closing works except while suspended in the saddle search, where the bare except swallows GeneratorExit and close() raises RuntimeError (C54_refuted_close). For ions > 1 no mode line is ever produced: TypeError (C54_refuted_two_ions). Reports for one ion are complete (C54_one_ion)."
 },
 "C76": {
  "status": "partial",
  "note": "quaternion_matrix is a proper rotation for every q. Scaling, products and inverses are proved for |q|^2 >= eps = 2^-50 (of all quaternions involved); shorter ones are taken for the unit quaternion, which refutes the claim for all non-zero q (C76_refuted_tiny)."
 },
 "C78": {
  "status": "partial",
  "note": "Exact at gimbal lock and wherever the lock distance exceeds eps (C78_round_trip_partial); within eps of lock the claim is false (C78_refuted_near_lock), the error is at most 2 eps in every entry (C78_round_trip_close). euler_matrix rejects the upper case names which euler_from_matrix accepts."
 },
 "C82": {
  "status": "partial",
  "note": "All proved, but shear_matrix also accepts directions up to 1e-6 off the plane, for which the determinant is not 1 (C82_refuted_shear_determinant)."
 },
 "C85": {
  "status": "partial",
  "note": "End points, and unit results along the great arc for even spin (0 is the default), for every fraction. For odd spin the results are not unit quaternions (C85_refuted_odd_spin)."
 },
 "C86": {
  "status": "partial",
  "note": "Proved for every event history whose constraint axes are not zero and not along -z. For the axis (0, 0, -1) the orientation becomes nan (C86_refuted_axis)."
 },
 "C57": {
  "status": "partial",
  "note": "Proved for t0 = 0. For every other t0 the call np.array(A,B) raises TypeError (C57_refuted_other_times); the two numbers themselves are right (C57_superposition_partial)."
 },
 "C60": {
  "status": "partial",
  "note": "Positions, order, pitch and symmetry are proved for both parities (C60_pads) and the placement step/2 inside for odd=False (C60_inside_partial). With odd=True it is false for every step and edge: the number of pads is raised by one or two, so pads lie outside (C60_refuted_odd)."
 },
 "C64": {
  "status": "partial",
  "note": "Proved if the structure exists. A missing name silently selects the last structure (C64_refuted_missing_name), and without gap_layers the route and bridge layers are ignored (C64_refuted_routes)."
 },
 "C65": {
  "status": "partial",
  "note": "Proved for every test. The documented default of filter (test=None, deep=False) raises TypeError on any non-empty list (C65_refuted_default)."
 },
 "C92": {
  "status": "proved",
  "note": "For every lawful geometry, rounding of coordinates idealised as the identity. The documented claim that all area inside the square is output is false without gaps and routes (C92_refuted_all_area)."
 },
 "C93": {
  "status": "proved",
  "note": "The elements in memory; the gdsii file encoding and its integer rounding are not modelled, and edge=None."
 },
 "C67": {
  "status": "partial",
  "note": "The refinement rule, the size bound and the returned triple are proved. Refuted parts: a border edge (neighbor -1) is compared with the last triangle (C67_refuted_border); if the first mesh is already too large the result is None (C67_refuted_none). The loop's termination depends on the external mesher and is not claimed."
 },
 "C68": {
  "status": "partial",
  "note": "Equal lengths are proved for every sequence whose first saved call names all electrodes; last entries equal the voltages when all calls save. Refuted otherwise: a partial first saved call raises IndexError after changing voltages; an unsaved call changes the voltages but no history."
 },
 "C69": {
  "status": "partial",
  "note": "Refuted: next_step(accept=False) always raises AttributeError (self.Volts) and the proposed voltages stay. Proved instead: what accepting does; a user-supplied deltaV is applied and saved, then UnboundLocalError."
 },
 "C70": {
  "status": "partial",
  "note": "Proved for Python 2 and files without blank lines. Refuted: a blank line raises IndexError; in Python 3 any file with a polygon raises TypeError (map objects)."
 },
 "C88": {
  "status": "partial",
  "note": "Proved for arrays with at least two axes. Refuted for a single 1-D point: its coordinates are taken as separate points."
 },
 "C73": {
  "status": "proved",
  "note": "The docstring's other reading, that to_spherical maps a gradient to (f_r, f_theta, f_phi), is false (C73_refuted_gradient): the matrices transform displacements and the order is (r, phi, theta)."
 },
 "C74": {
  "status": "partial",
  "note": "Proved for every nmax and array with numpy's old integer power; with numpy 1.12 or newer the constructor raises ValueError from nmax = 2 on (C74_refuted_modern_numpy). The exactness of scipy's nodes and Legendre tables is a hypothesis (exact_quadrature), shown to hold for nmax = 2."
 },
 "C99": {
  "status": "partial",
  "note": "Energy and gradient are proved for every number of ions. The second derivatives are refuted: transpose(2, 0, 3, 1) puts the component before the ion, so h raises ValueError for every number of ions but three (C99_refuted_hessian_raises) and ions() never returns then (C99_refuted_returns); for three ions the matrix is not the Hessian (C99_refuted_hessian). What the matrix of three ions contains instead is C99_hessian_three."
 },
 "C100": {
  "status": "proved",
  "note": "The values are arbitrary; equal=True is stated for affine values. C100_refuted_equal: for a bounded ForceConstraint equal=True raises (cvxopt refuses magnitude >= 0)."
 },
 "C101": {
  "status": "proved",
  "note": "A row with two negative indices leaves python booleans in the list (C101_refuted_constraints_only); they are true, so nothing is lost."
 },
 "C103": {
  "status": "partial",
  "note": "Proved without coord. With coord rotate_tensor turns the electrode axis: ValueError unless there are three electrodes (C103_refuted_coord_raises), for three the bound is on something else (C103_refuted_coord; exactly what, C103_coord_three)."
 },
 "C104": {
  "status": "partial",
  "note": "Proved without coord. With coord ValueError unless there are three electrodes, wrong for three (C104_refuted_coord_raises, C104_refuted_coord; exactly what is bounded, C104_coord_three)."
 },
 "C105": {
  "status": "partial",
  "note": "Proved without only_variable; with it the caller's arrays are overwritten with zeros in place (C105_refuted_only_variable), so a later constraint without only_variable no longer sees the fixed electrodes. p0 is taken to be a 0-dimensional array."
 },
 "C106": {
  "status": "partial",
  "note": "Refuted: electrodes have no attribute voltage_dc, so the constraint raises AttributeError for every non-empty list of electrodes (C106_refuted_offset). With no electrodes it bounds the offset of the reference (C106_no_electrodes)."
 },
 "C107": {
  "status": "proved",
  "note": "numpy.linalg.inv is assumed right for invertible affine matrices (hypothesis inverts); an instance is proved."
 },
 "C109": {
  "status": "proved",
  "note": "The svd or eigh is assumed right about the covariance matrix of the two sets (hypotheses svd_right, eigh_right). Three dimensions."
 },
 "C110": {
  "status": "proved",
  "note": "Hypotheses on svd, eigh, pinv, inv as in C109; all are shown to hold for a tetrahedron and its image."
 },
 "C111": {
  "status": "partial",
  "note": "Refuted: the scale is the ratio of the spreads, not the least squares scale (C111_refuted_scale). Proved instead: the result is a similarity that maps the centroid to the centroid and has the spread of the second set."
 },
 "C112": {
  "status": "proved",
  "note": "Sequences of more than delta steps; shorter ones are mirrored only as far as they go."
 },
 "C113": {
  "status": "partial",
  "note": "Refuted: orders 1 and 3 ignore smooth (C113_refuted_odd), order 4 leaves out the steps next to the ends (C113_refuted_inner). Proved: orders 2 and 4 add exactly the differences centred at the two ends."
 },
 "C114": {
  "status": "proved",
  "note": "numpy.linalg.eig is an argument; eig_right states what numpy documents (unit eigenvectors, every eigenvalue listed, no order). C114_refuted_order: an order with a direction last gives a nan point."
 },
 "C115": {
  "status": "partial",
  "note": "numpy.linalg.eig is an argument; eig_right states what numpy documents (unit eigenvectors, every eigenvalue listed, no order). Refuted for 0 < 1 - cos(angle) < 1e-8: the angle may come back as 0 (C115_refuted_small). Proved for cos(angle) = 1 and cos(angle) <= 1 - 1e-8."
 },
 "C116": {
  "status": "proved",
  "note": "numpy.linalg.eig is an argument; eig_right states what numpy documents (unit eigenvectors, every eigenvalue listed, no order). Factors within 1e-8 of 1 but different from it are excluded by the statement."
 },
 "C117": {
  "status": "partial",
  "note": "numpy.linalg.eig is an argument; eig_right states what numpy documents (unit eigenvectors, every eigenvalue listed, no order). Refuted for perspective points one away from the plane (ValueError, C117_refuted_one), planes through the origin (nan, C117_refuted_origin), and pseudo=True when the eigenvalue -1 is listed last (C117_refuted_pseudo). Proved otherwise, and for all orthogonal and parallel projections."
 },
 "C118": {
  "status": "partial",
  "note": "numpy.linalg.eig is an argument; eig_right states what numpy documents (unit eigenvectors, every eigenvalue listed, no order). Refuted for angle 0 (nan, C118_refuted_zero) and for steep shears along directions slightly off the plane that shear_matrix accepts (C118_refuted_steep). Proved for directions in the plane."
 },
 "C119": {
  "status": "proved",
  "note": "For vectors of length at least 2**-50 (shorter ones raise ValueError in the extension) and, in clip_matrix, near != 2**-50."
 },
 "C120": {
  "status": "partial",
  "note": "Refuted for directions that are not unit vectors, which the extension does not normalise (C120_refuted_direction). Proved without a direction and for unit directions."
 },
 "C121": {
  "status": "partial",
  "note": "Matrices, angles and quaternions agree for all 24 names, all tuples and the default. Refuted: names read backwards are accepted (C121_refuted_backwards), upper case names and 3 x 3 matrices, which the Python euler_from_matrix takes, are refused (C121_refuted_upper_case, C121_refuted_3x3)."
 },
 "C122": {
  "status": "proved",
  "note": ""
 },
 "C123": {
  "status": "partial",
  "note": "The matrix is right for all quaternions of length at least 2**-50. Refuted: an array of doubles passed as argument is normalised in place (C123_refuted_argument)."
 },
 "C124": {
  "status": "partial",
  "note": "Refuted for fraction -1, for which the extension returns the second quaternion (C124_refuted_backward). Proved for all fractions that are 0, 1 or not within 2**-50 of 0, 1 and -1, and quaternions whose inner product is not exactly 1 - 2**-50 in magnitude."
 },
 "C125": {
  "status": "proved",
  "note": "The sign may differ from that of the Python function (C125_refuted_sign). The square root of a negative number, nan in C, is not modelled; rotation matrices do not get there."
 },
 "C126": {
  "status": "partial",
  "note": "arcball_map_to_sphere agrees. arcball_constrain_to_axis returns the Python value or its negative; refuted: it does not turn the point to the front (C126_refuted_hemisphere)."
 },
 "C127": {
  "status": "partial",
  "note": "Refuted for quaternion_slerp (NULL dereference for arguments of the wrong shape), quaternion_from_matrix with isprecise (PyEval_RestoreThread(NULL)) and axes names beyond ASCII. Proved for the others."
 },
 "C128": {
  "status": "partial",
  "note": "The inverse is right whenever |det| >= 2**-50. Refuted: invertible matrices of smaller determinant, such as 2**-30 times the identity, are refused (C128_refuted_tiny)."
 },
 "C129": {
  "status": "partial",
  "note": "What is returned without infinities is the inverse, for every size; ValueError only within 1e-14 of a singular matrix. Refuted: a singular matrix whose last pivot alone vanishes gives infinities instead of an exception (C129_refuted_singular), and invertible matrices with small elements are refused (C129_refuted_tiny)."
 },
 "C130": {
  "status": "partial",
  "note": "Refuted for arguments that share their memory with the array numpy makes of them, which are overwritten (C130_refuted_view), and for one-dimensional arguments, for which the second dimension is read out of bounds (C130_refuted_vector)."
 },
 "C131": {
  "status": "proved",
  "note": "Symmetric input; the elements that are not removed are bounded by 2**-50 and named in the theorem."
 },
 "C132": {
  "status": "partial",
  "note": "Ends for every matrix and never exceeds the largest eigenvalue by more than 3e-18; equal to it within 5e-19 unless a pivot of the search falls between -1e-18 and 0. Refuted there: for diagonal (-5e-19, 0, -1/2, -1/2) and subdiagonal (1, 0, 0) the result is at most 0, the largest eigenvalue about 1 (C132_refuted)."
 },
 "C133": {
  "status": "partial",
  "note": "What is returned solves the eigenvalue equations in the order (1, 2, 3, 0) of the components, up to the characteristic polynomial. Refuted: in the order of the matrix it does not (C133_refuted_order); small matrices are refused although the eigenvalue is simple (C133_refuted_small)."
 },
 "C134": {
  "status": "partial",
  "note": "Unit length, nonnegative scalar part and termination for all arguments; within 1e-6 of the right quaternion for all rotations for which the search for the eigenvalue is clear of pivots in (-1e-18, 0). The model computes with real numbers, in doubles pivots near 1/3 are spaced wider than that interval."
 },
 "C135": {
  "status": "partial",
  "note": "Rigid motion or similarity and centroids: for all points. Optimal up to the error of the eigenvalue when its search is clear (C135_optimal_partial). Refuted: points within 1/60 of their centroid, and points on a line, are refused with ValueError (C135_refuted_small, C135_refuted_line); the Python implementation accepts them."
 },
 "C136": {
  "status": "proved",
  "note": "The content of /dev/urandom is an argument of the model; equally likely means that each k comes from 2048 of the 2**64 pairs of words."
 },
 "C137": {
  "status": "partial",
  "note": "Holds for the Python function, and for the extension if the axis is not empty, out has the right shape and does not overlap data. Refuted otherwise: a too small out is written past its end (C137_refuted_shape), an empty axis gives uninitialised memory (C137_refuted_empty), overlap gives wrong lengths (C137_refuted_overlap), without axis the types differ (C137_refuted_type), Python ignores the axis of a one-dimensional array (C137_refuted_axis)."
 },
 "C138": {
  "status": "partial",
  "note": "Holds for the extension if out is data or does not overlap it; for Python except one-dimensional arrays with axis and out, which raise ValueError after out has been overwritten (C138_refuted_vector). Refuted for the extension with other overlaps (C138_refuted_overlap)."
 },
 "C139": {
  "status": "partial",
  "note": "Proved for every module and name space, with the warnings. Refuted: a second import replaces the kept Python functions by those of the extension (C139_refuted_twice)."
 },
 "C140": {
  "status": "proved",
  "note": ""
 },
 "C141": {
  "status": "proved",
  "note": "vector_product of single vectors; the norms of angle_between_vectors are those of C137."
 },
 "C142": {
  "status": "partial",
  "note": "Both directions proved for unit quaternions. Refuted: it is not symmetric, because numpy.allclose scales its tolerance by the second argument (C142_refuted_symmetric)."
 },
 "C143": {
  "status": "proved",
  "note": ""
 },
 "C144": {
  "status": "proved",
  "note": "Counter-clockwise convex polygons with corners in strictly convex position, cover_nmax = 0; below the plane the potential is the negative (C144_convex_below)."
 },
 "C145": {
  "status": "proved",
  "note": "As an iterated Riemann integral, inner over the vertical slices of the inside; C145_slices shows that the slices are intervals."
 },
 "C146": {
  "status": "partial",
  "note": "Proved for files whose first used array is the potential, up to maxderiv = 6; refuted for files with the field first or without both arrays (F59)."
 },
 "C147": {
  "status": "proved",
  "note": "For results whose arrays have the shape of the grid, up to maxderiv = 6."
 },
 "C148": {
  "status": "partial",
  "note": "Values, extrema, keywords and errors proved; the default levels stay in range if the maximum is not negative; refuted otherwise and for constant potentials (F60). The drawing itself is matplotlib's."
 },
 "C149": {
  "status": "proved",
  "note": "matplotlib's colour maps and drawing are arguments."
 },
 "C150": {
  "status": "partial",
  "note": "Proved for the last axis; refuted for the others: the axis is ignored (F61)."
 },
 "C151": {
  "status": "partial",
  "note": "Proved for effect-free calls and for programs that get each result once, in order, and change nothing themselves in between; refuted otherwise: the call is made at the get, again at each get (F62)."
 },
 "C152": {
  "status": "partial",
  "note": "SphericalGrid with numpy before 1.12; with later versions its construction raises ValueError for n > 1 (F63)."
 },
 "C153": {
  "status": "partial",
  "note": "scipy's splprep and splev are arguments. Weights proved for inner vertices and left turns; refuted for right turns and the first vertex (F64)."
 },
 "C154": {
  "status": "proved",
  "note": "With shapely before version 2 (iteration over multi-part geometries, len of a boundary)."
 },
 "C155": {
  "status": "partial",
  "note": "Proved for threads that change nothing the others use; refuted for with_voltages blocks of two threads on one system (F65). The steps are reads and writes of single numbers."
 },
 "C156": {
  "status": "partial",
  "note": "Proved for calls with different out arrays and constant inputs; refuted for two calls with the same array: a contribution can be lost (F66). The edge formula of order 0 is that of expressions.py (C29)."
 },
 "C157": {
  "status": "proved",
  "note": "The pieces share corners with the outline: each simple polygon has such a cut (not proved). Order 0 of the derivatives."
 },
 "C158": {
  "status": "proved",
  "note": "Cuts run between corners and occur once in each direction. Without cover images, except C158_same."
 },
 "C159": {
  "status": "partial",
  "note": "C159_refuted_axes, _growing: axes given by name leave one reference per call behind (F67). C159_refuted_slerp, _from_matrix, _iterators: three functions crash on some failures (F44, F45, F68); when they come back nothing is left (C159_settled). Proved for all other functions and calls. Other threads changing counts while the lock is released are not modelled."
 },
 "C160": {
  "status": "proved",
  "note": "Relies on PyArray_Return of NumPy, which returns NULL when an exception is set."
 },
 "C161": {
  "status": "proved",
  "note": "Turns below the rounding threshold of the code (squared sine of half the turn below eps) are dropped by drag; next() after such a turn is outside C161_next. Axes not zero and not along -z (C86_refuted_axis); exact arithmetic."
 },
 "C162": {
  "status": "proved",
  "note": "Doubles without overflow, NaN and signed zeros; C162_negated includes underflow."
 },
 "C163": {
  "status": "proved",
  "note": "Doubles without overflow and underflow; orders above 5 add nothing."
 },
 "C164": {
  "status": "proved",
  "note": "Doubles without overflow and underflow; cover_nmax = 0; pow and M_PI are arguments with the stated accuracy. Polygons and meshes are C175 and C181."
 },
 "C165": {
  "status": "partial",
  "note": "Refuted parts: with numpy >= 1.24 (no np.complex) the unstable branch raises AttributeError (C165_refuted_no_complex); after the warning sol_y1 uses mu as nu, its series is bounded and arbitrarily far from the growing solution (C165_refuted_unstable_series). The integrator is an argument assumed exact at t = pi."
 },
 "C166": {
  "status": "partial",
  "note": "Refuted parts: the default mode raises ValueError for every a <= 0 and a = 4, 16, 36, 64, 100 (C166_refuted_a0); the modes d0ap and ivp without nc raise UnboundLocalError and leave the new exponent with the old coefficients (C166_refuted_modes)."
 },
 "C167": {
  "status": "proved",
  "note": "Exact real arithmetic; the solutions compared with exist for all a and q (C165_solutions)."
 },
 "C87": {
  "status": "proved",
  "note": "Uniformity as: onto, one to one for 0 < r0 < 1, and volume factor of the parametrisation constant, 2 pi^2 (C87_uniform); the integral over a set is not formalised."
 },
 "C168": {
  "status": "proved",
  "note": "Exact real arithmetic; np.linalg.eigh is an argument assumed to return an orthonormal eigenbasis."
 },
 "C169": {
  "status": "partial",
  "note": "Proved for electrodes that are not empty. Refuted: an electrode without polygons or points, or with an empty polygon, makes System.plot raise (F73); the transparency does not reach point electrodes (F74); points of negative area are not drawn (F75). Colours are C149; what matplotlib does with a path is the specification (SpecDraw.v)."
 },
 "C170": {
  "status": "partial",
  "note": "Proved for arrays with the same number of dimensions, and for one vector against vectors along the last axis. Refuted: with the extension the number of the last axis raises ValueError for one vector, where Python computes (F77); along the first axis, the default, one vector is taken for a row, so the angles with three vectors of three components are wrong (F78). For the extension the vectors must have components and the new arrays must not overlap the arguments."
 },
 "C171": {
  "status": "proved",
  "note": "Real arithmetic. The normalisation assumes that the two sums that are divided by are not 0."
 },
 "C172": {
  "status": "proved",
  "note": "Real arithmetic. svd, eigh, pinv, inv and det are assumed right about the matrices they are given; all are shown to hold for a square and its image. Sets of equal points, for which the scale is nan, are excluded; that the scale is not the least squares one is C111."
 },
 "C173": {
  "status": "proved",
  "note": "Real arithmetic. numpy.cross is modelled as its own Python code (moveaxis, broadcasting, products), moveaxis and broadcasting by what numpy documents."
 },
 "C174": {
  "status": "partial",
  "note": "Proved for polygons that are outlines of areas and for pixels of positive area, without cover images (with them: C182_positive, C182_pixels). Refuted: pixels of negative area, which to_points makes of clockwise polygons, have orientation 1 (C174_refuted_points); a path that crosses itself may have orientation 1 and negative potential at some points (C174_refuted_crossing)."
 },
 "C175": {
  "status": "proved",
  "note": "Underflow and overflow are outside the arithmetic b64x, see the trusted base; derivatives are C181."
 },
 "C176": {
  "status": "proved",
  "note": ""
 },
 "C177": {
  "status": "proved",
  "note": ""
 },
 "C178": {
  "status": "proved",
  "note": ""
 },
 "C179": {
  "status": "proved",
  "note": ""
 },
 "C180": {
  "status": "proved",
  "note": ""
 },
 "C181": {
  "status": "proved",
  "note": "Underflow and overflow are outside the arithmetic b64x, see the trusted base."
 },
 "C182": {
  "status": "proved",
  "note": "C182_images, _strict and _system are without a cover electrode; with one, the sum of images can exceed the range by the error of C178_error, and C182_under is about the limit."
 },
 "C183": {
  "status": "proved",
  "note": "Underflow and overflow are outside the arithmetic b64x, see the trusted base. np.einsum is an argument that puts at most three roundings on each of its three products (good_einsum); C183_left shows that adding them from left to right does."
 },
 "C184": {
  "status": "proved",
  "note": "Underflow and overflow are outside the arithmetic b64x, see the trusted base. The oracles pow, pi, atan2 and einsum are as in C175, C181 and C183. Above the cover of an electrode with images nothing is claimed: the height of an image may cancel there."
 },
 "C185": {
  "status": "proved",
  "note": "Systems of polygon electrodes that do not overlap (tiled_system); the voltage of the plane is SpecCompare.plane_voltage. C185_raised does not need that they do not overlap. C185_images also asks that each outline by itself is one of C158's (flat_area); it is strict where C185_monotone is."
 },
 "C186": {
  "status": "proved",
  "note": "Systems of polygon electrodes without cover images that do not overlap (tiled_system). C186_next needs outlines of area other than 0, as area_centroid divides by the area."
 },
 "C187": {
  "status": "proved",
  "note": "potential_entry is the entry of System.potential that C180 uses; smooth excludes electrodes of unknown type and meshes that are not closed. The regions without bound need polygon electrodes that do not overlap (tiled_system), whose potential decays by C186. linked (SpecBarrier) is a chain of balls inside the region."
 },
 "C188": {
  "status": "proved",
  "note": "local_electrode (SpecBarrier): pixels of any area, or polygons with pieces inside a disc, without cover images. Cover electrodes, whose potential grows with the height, are not among them."
 }
}