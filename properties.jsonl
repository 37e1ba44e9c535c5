{"id": "C01", "title": "Temporary voltages are undone", "statement": "Leaving a `with s.with_voltages(dcs=..., rfs=...)` block, normally or by an exception, restores every electrode's dc (if dcs was given) and rf (if rfs was given) to the value it had on entry, whatever the body assigned, whatever length the voltage lists have, and however deeply such blocks are nested. A voltage kind that was not given is left exactly as the body left it, names are never touched.", "quantifier": "all systems (also with one electrode object listed twice), all voltage lists, all bodies (any sequence of attribute writes ending normally or by exception), all nestings", "why_tests_cant": "histories of nested bodies and exceptions are unbounded", "anchors": ["electrode/system.py: System.with_voltages", "electrode/system.py: System.dcs", "electrode/system.py: System.rfs"]}
{"id": "C02", "title": "Failed voltage set-up leaves the system untouched", "statement": "If entering `with_voltages` fails (the given dcs or rfs cannot be iterated, or iteration raises part way) the system's voltages are unchanged after the exception has propagated.", "quantifier": "all systems, all failing dcs/rfs arguments, all failure points", "why_tests_cant": "failure points in user-supplied iterables are unbounded", "anchors": ["electrode/system.py: System.with_voltages"]}
{"id": "C03", "title": "Voltage and name assignment is positional", "statement": "Assigning s.dcs, s.rfs or s.names sets element i of the sequence on electrode i for i below both lengths and changes nothing else; reading gives the list back; writing what was read changes nothing; a second write wins; a non-iterable raises TypeError and changes nothing, an iterable failing too early raises its own exception.", "quantifier": "all systems, all assigned sequences of any length", "why_tests_cant": "every combination of lengths and aliasing", "anchors": ["electrode/system.py: System.dcs", "electrode/system.py: System.rfs", "electrode/system.py: System.names"]}
{"id": "C04", "title": "Electrode lookup", "statement": "s[i] follows list indexing (negative indices count from the end, IndexError outside), s[name] returns the first electrode with that name and None iff there is none; a key of another type gives None.", "quantifier": "all systems, all indices, all names", "why_tests_cant": "every name distribution, duplicates included", "anchors": ["electrode/system.py: System.__getitem__"]}
{"id": "C05", "title": "Superposition", "statement": "electrical_potential(x, d, typ) equals the sum over the electrodes of their voltage times individual_potential(x, d); so it is linear in the voltages, electrodes at 0 V (which the code skips) contribute nothing, and adding electrodes adds their contribution.", "quantifier": "all systems of cover, point, polygon, mesh and grid electrodes, all voltages, points and derivative orders", "why_tests_cant": "an equality of functions over the reals for every system", "anchors": ["electrode/system.py: System.electrical_potential", "electrode/system.py: System.individual_potential", "electrode/electrode.py: *.potential"]}
{"id": "C06", "title": "Evaluation is pointwise and accumulates", "statement": "Electrode.potential(x, d, v, out) adds to out exactly v times the unit potential, row j depends only on point j, and a batch of points gives the same rows as the points one at a time.", "quantifier": "all electrodes, all batches, all out arrays, all voltages", "why_tests_cant": "every batch length and content", "anchors": ["electrode/expressions.py: _point_potential", "electrode/expressions.py: _polygon_potential", "electrode/expressions.py: _mesh_potential", "electrode/electrode.py: *.potential"]}
{"id": "C07", "title": "Instantaneous potential", "statement": "time_potential(x, d, t) = electrical_potential(dc) + cos(t) * electrical_potential(rf); it is 2*pi periodic in t, equals dc+rf at t=0 and its average over t and t+pi is the dc potential.", "quantifier": "all systems, points, derivative orders, times", "why_tests_cant": "real-valued time", "anchors": ["electrode/system.py: System.time_potential"]}
{"id": "C08", "title": "Pseudopotential derivatives are derivatives", "statement": "pseudo_potential(x, d) for d=0..4 is the d-th derivative tensor of rf_coeff**2 * |grad phi_rf|**2: each entry of order d+1 is the partial derivative of the corresponding entry of order d.", "quantifier": "all rf potentials that are differentiable with the derivative tensors the electrodes return, all points", "why_tests_cant": "a statement about limits at every point", "anchors": ["electrode/system.py: System.pseudo_potential"]}
{"id": "C09", "title": "Pseudopotential shape", "statement": "The pseudopotential is non-negative, vanishes iff the rf field does (or rf_coeff=0), is quadratic in the rf voltages and in rf_coeff, and its derivative tensors are symmetric under every permutation of indices.", "quantifier": "all systems, points, voltages, index permutations", "why_tests_cant": "universally quantified over tensors", "anchors": ["electrode/system.py: System.pseudo_potential"]}
{"id": "C10", "title": "Total potential", "statement": "potential(x,d,'tot') is the sum of potential(x,d,'dc') and potential(x,d,'rf'); any other typ is a ValueError; without rf_scale the call raises AttributeError, even for typ='dc'.", "quantifier": "all systems, points, orders, typ strings", "why_tests_cant": "all typ strings", "anchors": ["electrode/system.py: System.potential"]}
{"id": "C11", "title": "Unsupported derivative orders are reported", "statement": "Asking for a derivative order the code does not implement raises the documented error rather than returning a wrong number: pseudo_potential beyond order 4 is a ValueError, electrode potentials beyond order 5 do not silently come out as something else.", "quantifier": "all derivative orders", "why_tests_cant": "every integer order", "anchors": ["electrode/system.py: System.pseudo_potential", "electrode/expressions.py: point_potential_expr", "electrode/expressions.py: edge_potential_expr", "electrode/utils.py: expand_tensor"]}
{"id": "C12", "title": "expand_tensor output is symmetric, traceless and extends its input", "statement": "For every reduced tensor of order 0..5 the expanded tensor is invariant under every permutation of its indices, has zero trace over every pair of indices, and its named entries are the input entries.", "quantifier": "all real (2n+1)-vectors, orders 0..5, all index permutations", "why_tests_cant": "all real inputs", "anchors": ["electrode/utils.py: expand_tensor", "electrode/utils.py: _populate_maps"]}
{"id": "C13", "title": "expand and select are inverse", "statement": "select_tensor(expand_tensor(c)) = c for every reduced tensor, and expand_tensor(select_tensor(t)) = t for every symmetric traceless tensor; so expansion is the only symmetric traceless completion.", "quantifier": "all reduced tensors and all symmetric traceless tensors of order 0..5", "why_tests_cant": "all real tensors", "anchors": ["electrode/utils.py: expand_tensor", "electrode/utils.py: select_tensor"]}
{"id": "C14", "title": "Derivative names", "statement": "name_to_deriv and deriv_to_name are inverse bijections; idx_to_name(name_to_idx(n)) sorts n; idx_to_nidx is the row-major position and injective on tuples of one length; deriv_to_reduced_idx(d) picks from the reduced tensor the entry (or -a-b pair) whose value is the expanded entry d, for every spelling of d.", "quantifier": "all names over x,y,z, all index tuples of any length", "why_tests_cant": "names and tuples of any length", "anchors": ["electrode/utils.py: name_to_deriv", "electrode/utils.py: deriv_to_name", "electrode/utils.py: name_to_idx", "electrode/utils.py: idx_to_name", "electrode/utils.py: idx_to_nidx", "electrode/utils.py: deriv_to_reduced_idx"]}
{"id": "C15", "title": "find_laplace", "statement": "Every pair (a, b) find_laplace(c) generates satisfies t[a]+t[b]+t[c]=0 for every symmetric traceless tensor t of that order, and one pair is generated for each axis occurring at least twice in c.", "quantifier": "index tuples of any length, all symmetric traceless tensors", "why_tests_cant": "orders are unbounded", "anchors": ["electrode/utils.py: find_laplace"]}
{"id": "C16", "title": "construct_derivative", "statement": "For orders 1..5 and every reduced index, construct_derivative names a lower-order reduced entry and an axis such that the entry is that axis-derivative of the lower one.", "quantifier": "all reduced indices of orders 1..5, all smooth harmonic fields", "why_tests_cant": "statement about all fields", "anchors": ["electrode/utils.py: construct_derivative", "electrode/utils.py: _populate_maps"]}
{"id": "C17", "title": "rotate_tensor is a group action", "statement": "rotate_tensor(c, r) contracts every tensor index with the first index of r; rotating by r then s is rotating by r.s; rotating by an orthogonal r and then by its transpose is the identity; rotation by an orthogonal r keeps tensors symmetric and traceless.", "quantifier": "tensors of any order, all 3x3 matrices", "why_tests_cant": "any order, any matrix", "anchors": ["electrode/utils.py: rotate_tensor"]}
{"id": "C18", "title": "Spherical harmonics coefficients", "statement": "cartesian_to_spherical_harmonics maps the order-l derivative tensor (l=0..5) of a harmonic potential to the coefficients s_m, m=-l..l, of its order-l Taylor term in orthonormal real solid harmonics (Condon-Shortley sign, sine for m<0): the term equals sum_m s_m r^l Y_lm at every point, and s_m is the overlap of the term with Y_lm on the unit sphere. Arrays of an even length from 4 to 12 raise ValueError; above order 5 the input is only scaled.", "quantifier": "all reduced derivative tensors of order 0..5, all points", "why_tests_cant": "all real tensors and points", "anchors": ["electrode/utils.py: cartesian_to_spherical_harmonics"]}
{"id": "C19", "title": "Polygon area and centroid", "statement": "area_centroid is independent of the starting vertex, negates the area and keeps the centroid when the path is reversed, shifts the centroid with the polygon, scales quadratically/linearly, is additive under cutting along a diagonal, and gives the exact values for triangles and rectangles.", "quantifier": "all polygons with any number of vertices and non-zero area", "why_tests_cant": "paths of any length", "anchors": ["electrode/utils.py: area_centroid"]}
{"id": "C20", "title": "Point electrode derivatives", "statement": "For point pixel electrodes, each entry of the (expanded) derivative of order n+1 is the partial derivative of the matching entry of order n, for n=0..4, at every point not on a pixel (or image).", "quantifier": "all point electrodes, areas, voltages, cover images, all observation points off the pixels", "why_tests_cant": "limits at every point", "anchors": ["electrode/expressions.py: point_potential_expr", "electrode/expressions.py: _point_potential"]}
{"id": "C21", "title": "Point electrode potential is harmonic", "statement": "The potential of a point pixel electrode satisfies Laplace's equation in z>0, so the reduced tensors lose nothing.", "quantifier": "all point electrodes and points off the pixels", "why_tests_cant": "limits at every point", "anchors": ["electrode/expressions.py: point_potential_expr"]}
{"id": "C22", "title": "Polygon electrode derivatives", "statement": "For polygon electrodes, each entry of the (expanded) derivative of order n+1 is the partial derivative of the matching entry of order n at every point with z != 0.", "quantifier": "all closed polygons of any length, all points with z != 0", "why_tests_cant": "limits at every point, any number of vertices", "anchors": ["electrode/expressions.py: edge_potential_expr", "electrode/expressions.py: _polygon_potential"]}
{"id": "C23", "title": "Polygon orientation and composition", "statement": "The polygon potential does not depend on the starting vertex, is negated by reversing the path, and is additive: cutting a polygon along a chord gives two polygons whose potentials add up.", "quantifier": "all polygons, all points, derivative orders", "why_tests_cant": "any number of vertices", "anchors": ["electrode/expressions.py: _polygon_potential", "electrode/expressions.py: edge_potential_expr"]}
{"id": "C24", "title": "Mirror parity in z", "statement": "Mirroring the observation point at the z=0 plane multiplies the derivative named d by -(-1)**(number of z in d), for point and polygon electrodes.", "quantifier": "all electrodes, points, orders", "why_tests_cant": "all real points", "anchors": ["electrode/expressions.py: point_potential_expr", "electrode/expressions.py: edge_potential_expr"]}
{"id": "C25", "title": "Cover plane expansion", "statement": "With cover_nmax=n the potential on the cover plane z=cover_height equals that of the single image at (2n+1)*cover_height; it tends to 0 as n grows, so the cover is an equipotential in the limit.", "quantifier": "all point and polygon electrodes, all n, all heights", "why_tests_cant": "limit in n", "anchors": ["electrode/expressions.py: _point_potential", "electrode/expressions.py: _polygon_potential", "electrode/electrode.py: SurfaceElectrode"]}
{"id": "C26", "title": "Cover electrode", "statement": "CoverElectrode gives 0 at z=0, the full voltage at z=height, is affine between, its first derivative is the gradient of its potential and all higher ones vanish.", "quantifier": "all heights != 0, points, voltages, orders", "why_tests_cant": "all reals", "anchors": ["electrode/electrode.py: CoverElectrode.potential"]}
{"id": "C27", "title": "Mesh from polygons", "statement": "MeshPixelElectrode.from_polygon_system(s) has the same potential and derivatives as the dc potential of s, when no cover expansion is used.", "quantifier": "all systems of polygon electrodes, any number of paths and vertices, all points and orders", "why_tests_cant": "any sizes", "anchors": ["electrode/electrode.py: MeshPixelElectrode.from_polygon_system", "electrode/expressions.py: _mesh_potential"]}
{"id": "C28", "title": "Translation and scaling", "statement": "Moving a surface electrode and the observation point together in the plane changes nothing; scaling all lengths by s>0 multiplies the derivative of order n by s**-n.", "quantifier": "all electrodes, points, shifts, scales", "why_tests_cant": "all reals", "anchors": ["electrode/expressions.py: _point_potential", "electrode/expressions.py: _polygon_potential"]}
{"id": "C29", "title": "Two edge formulas agree", "statement": "The pure python edge potential (atan of a quotient) and the compiled one (atan2) agree whenever z != 0: the denominator is positive there; at z = 0 the python one divides by zero.", "quantifier": "all edges and points", "why_tests_cant": "all reals", "anchors": ["electrode/expressions.py: edge_potential_expr", "electrode/cexpressions.pyx: edge_potential"]}
{"id": "C30", "title": "Boundary values of a patch", "statement": "As z tends to 0 from above the potential at 1 V of a counter-clockwise triangle tends to 1 over its interior and to 0 over every point outside, with any number of cover images. For any polygon electrode it tends, over a point on none of the edges, to the number of times the paths go around the point (from below to its negative).", "quantifier": "all triangles, closed paths and polygon electrodes, all points of the plane off the edges, any number of images", "why_tests_cant": "limit statement", "anchors": ["electrode/expressions.py: edge_potential_expr"]}
{"id": "C31", "title": "Area weighting", "statement": "A point electrode's potential is additive in its pixels and proportional to the areas; to_points keeps total signed area and the order of the paths and the voltages.", "quantifier": "all electrodes", "why_tests_cant": "any number of pixels", "anchors": ["electrode/expressions.py: _point_potential", "electrode/electrode.py: PolygonPixelElectrode.to_points"]}
{"id": "C32", "title": "Grid coordinates", "statement": "Grid.indices_to_coordinates and coordinates_to_indices are inverse, index 0 is get_origin, to_xyz lists exactly the coordinates of indices 0..n-1 along each axis, the grid is centred on center.", "quantifier": "all grids with non-zero steps, all indices (fractional too)", "why_tests_cant": "all reals, all shapes", "anchors": ["electrode/grid.py: Grid"]}
{"id": "C33", "title": "Grid electrode interpolation", "statement": "GridElectrode.potential returns the stored value at grid points, stays between the smallest and largest of the surrounding values, is exact for affine data inside the grid and clamps outside; it is linear in the data.", "quantifier": "all grids, data, points", "why_tests_cant": "all sizes, all reals", "anchors": ["electrode/electrode.py: GridElectrode.potential"]}
{"id": "C34", "title": "Grid electrode derivative generation", "statement": "generate(maxderiv) keeps existing orders unchanged, afterwards orders 0..maxderiv are available as documented, and the generated order is the finite-difference derivative named by the reduced index, exact for affine data.", "quantifier": "all grids and data, all maxderiv", "why_tests_cant": "all sizes", "anchors": ["electrode/electrode.py: GridElectrode.generate", "electrode/electrode.py: GridElectrode.derive"]}
{"id": "C35", "title": "Grouping electrodes is a partition", "statement": "group(thresholds, voltages) with ascending thresholds returns len(thresholds)+1 groups, puts electrode j into group i iff thresholds[i-1] <= voltages[j] < thresholds[i], so each electrode is in exactly one group, in order. A system with an electrode that is not a polygon electrode is refused with AttributeError.", "quantifier": "all voltage vectors, all ascending threshold lists", "why_tests_cant": "any sizes", "anchors": ["electrode/system.py: System.group"]}
{"id": "C36", "title": "Grouping keeps the field", "statement": "A grouped system in which every electrode of a group had the same voltage produces the same potential as the original.", "quantifier": "all systems and groupings", "why_tests_cant": "any sizes", "anchors": ["electrode/system.py: System.group"]}
{"id": "C37", "title": "optimize reaches the requested objectives", "statement": "The returned p and c satisfy (objective_i of p) = c * (requested value_i) for every objective and all constraints hold.", "quantifier": "all constraint sets, all solver outcomes", "why_tests_cant": "all systems of linear objectives", "anchors": ["electrode/system.py: System.optimize"]}
{"id": "C38", "title": "shims yields one unit vector per objective", "statement": "shims(...) returns one vector per objective whose own objective value is 1 while all other objectives are 0.", "quantifier": "all objective lists, all initial objective values", "why_tests_cant": "any number of objectives and any state of user-supplied ones", "anchors": ["electrode/system.py: System.shims"]}
{"id": "C39", "title": "solve minimises the sum of all objectives", "statement": "The objective given to the solver is the sum over all points and all local constraints, plus the global constraints.", "quantifier": "all constraint lists and points", "why_tests_cant": "any number of constraints", "anchors": ["electrode/system.py: System.solve"]}
{"id": "C40", "title": "Range constraints", "statement": "PatternRangeConstraint(min,max,index) admits exactly the voltage vectors with min <= v_i <= max for every i in scope (None meaning unbounded); SingleValueConstraint admits exactly offset/min/max as given.", "quantifier": "all bounds, indices, voltage vectors", "why_tests_cant": "any lengths, all reals", "anchors": ["electrode/pattern_constraints.py: PatternRangeConstraint", "electrode/pattern_constraints.py: SingleValueConstraint"]}
{"id": "C41", "title": "Potential objectives", "statement": "PotentialObjective.get returns the coefficients whose product with the dc voltages is the requested derivative of the dc potential at the point, in the rotated frame if one is given; MultiPotentialObjective is the weighted sum of its components.", "quantifier": "all systems, points, derivative names, rotations, voltages", "why_tests_cant": "all reals", "anchors": ["electrode/pattern_constraints.py: PotentialObjective.get", "electrode/pattern_constraints.py: MultiPotentialObjective.get"]}
{"id": "C42", "title": "Voltage derivative constraints", "statement": "VoltageDerivativeConstraint of order n without smoothing bounds the n-th finite differences with stride delta, divided by delta**n: it has len-n*delta entries and vanishes on sequences that are polynomial of degree < n. Its objective is the weight times the sum over the sequence of the norms of these differences.", "quantifier": "all sequences, orders, strides", "why_tests_cant": "any order and length", "anchors": ["electrode/pattern_constraints.py: VoltageDerivativeConstraint"]}
{"id": "C43", "title": "Legacy voltage constraint", "statement": "VoltageConstraint of order 0..4 bounds the same n-th differences (binomial stencils) as its generalisation. With the infinity norm the range bounds their largest component, with the 1-norm the sum of their components.", "quantifier": "all sequences, strides, orders 0..4", "why_tests_cant": "any length", "anchors": ["electrode/constraints.py: VoltageConstraint"]}
{"id": "C44", "title": "minimum: gradient matches the function", "statement": "The gradient minimum() passes to the minimiser is the gradient of the function it passes, for every coordinate transformation and subset of axes; coordinates not in axis stay at x0.", "quantifier": "all potentials, x0, axes, transformations", "why_tests_cant": "limits at all points", "anchors": ["electrode/system.py: System.minimum"]}
{"id": "C45", "title": "saddle: gradient matches the function", "statement": "The gradient saddle() passes to the search is the gradient of the function it passes, for every orthogonal coordinate transformation.", "quantifier": "all potentials, rotations, axes", "why_tests_cant": "all rotations", "anchors": ["electrode/system.py: System.saddle"]}
{"id": "C46", "title": "Rational function optimisation loop", "statement": "rfo takes steps of length at most dx_max, keeps function value, gradient and position consistent, keeps the Hessian symmetric and satisfying the secant equation after an update, and with maxiter>0 stops after at most maxiter+1 iterations with a status that holds.", "quantifier": "all functions, starting points, eigen-solvers, iteration histories", "why_tests_cant": "iteration histories are unbounded", "anchors": ["electrode/saddle.py: rfo"]}
{"id": "C47", "title": "Starting points of any numeric type", "statement": "minimum(x0) returns the minimiser's point for every x0, also given as integers.", "quantifier": "all x0", "why_tests_cant": "all inputs", "anchors": ["electrode/system.py: System.minimum"]}
{"id": "C48", "title": "Trajectory time grid", "statement": "trajectory() advances in steps of dt from t0, yields after every step, the yielded times are t0+dt, t0+2dt, ... and the last one is the first to reach t1.", "quantifier": "all t0, dt>0, t1", "why_tests_cant": "any number of steps", "anchors": ["electrode/system.py: System.trajectory"]}
{"id": "C49", "title": "Trajectory force", "statement": "The acceleration trajectory() hands to the integrator is minus the gradient of the instantaneous potential along the chosen axes.", "quantifier": "all systems, points, axes", "why_tests_cant": "all fields", "anchors": ["electrode/system.py: System.trajectory"]}
{"id": "C50", "title": "Floquet matrix", "statement": "(mu, b) is an eigenpair of the matrix built by utils.mathieu iff the 0th-derivative components solve the truncated Hill recurrence of x''+(a_0+2 a_1 cos 2t+...)x=0 with exponent mu, and the 1st-derivative components are their derivatives.", "quantifier": "all cutoffs r, numbers of harmonics, dimensions n, coefficient matrices, mu", "why_tests_cant": "all sizes", "anchors": ["electrode/utils.py: mathieu"]}
{"id": "C51", "title": "Mathieu parameters", "statement": "System.mathieu uses a=16*scale**2*V_dc'', q=8*scale**2*V_rf'' so that with scale=rf_coeff the equation it solves is the ion's equation of motion; with sorted=True it keeps exactly the exponents with non-negative imaginary part, in ascending order.", "quantifier": "all systems, points, frequencies, spectra", "why_tests_cant": "all reals", "anchors": ["electrode/system.py: System.mathieu"]}
{"id": "C52", "title": "Modes", "statement": "modes() returns eigenvalue/eigenvector pairs of the Hessian in ascending order of curvature; sorting keeps pairs together.", "quantifier": "all symmetric matrices, all eigen-solvers", "why_tests_cant": "all matrices", "anchors": ["electrode/system.py: System.modes"]}
{"id": "C53", "title": "RF scale", "statement": "After rf_scale(m,q,l,o) the pseudopotential is q V**2 |grad u|**2/(4 m o**2 l**2) in units of volts.", "quantifier": "all positive m,l,o,q", "why_tests_cant": "all reals", "anchors": ["electrode/system.py: System.rf_scale", "electrode/system.py: System.pseudo_potential"]}
{"id": "C54", "title": "analyze_static as a generator", "statement": "The report generator can be closed at every point; asking for ions>1 yields the ion mode lines. An exception thrown in by the consumer is passed on.", "quantifier": "all suspension points, all ion numbers", "why_tests_cant": "every suspension point", "anchors": ["electrode/system.py: System._analyze_static"]}
{"id": "C55", "title": "Mathieu coefficients", "statement": "The coefficients from coeff_ratio/coeff_Cn satisfy the three-term Mathieu recurrence at every interior order except 0, for every q, a, nu and truncation for which the continued fractions are defined.", "quantifier": "all parameters and truncations", "why_tests_cant": "any truncation", "anchors": ["electrode/mathieu.py: mathieu.coeff_ratio", "electrode/mathieu.py: mathieu.coeff_Cn"]}
{"id": "C56", "title": "Mathieu basis solutions", "statement": "sol_y1/sol_y2 with deri=k return the k-th time derivative; at t=0 y1=1,y1'=0,y2=0,y2'=1 when the coefficient sums are non-zero.", "quantifier": "all coefficients, times", "why_tests_cant": "all reals", "anchors": ["electrode/mathieu.py: mathieu.sol_y1", "electrode/mathieu.py: mathieu.sol_y2"]}
{"id": "C57", "title": "Initial value problem", "statement": "init_value returns the combination of basis solutions with the given value and slope at t0, for every t0.", "quantifier": "all t0, initial values", "why_tests_cant": "all reals", "anchors": ["electrode/mathieu.py: mathieu.init_value"]}
{"id": "C58", "title": "Pad assignment", "statement": "assign_to_pad yields every polygon index exactly once; every pad is used at most once, in order; a pad is paired with the first not yet used polygon that meets its point; a pad that is skipped meets none of the unused polygons.", "quantifier": "all polygon lists, pad lists, intersection relations", "why_tests_cant": "any sizes and geometry", "anchors": ["electrode/polygons.py: Polygons.assign_to_pad"]}
{"id": "C59", "title": "Naming fragments", "statement": "from_data's naming step keeps every fragment exactly once and gives label i to the fragment assigned to its point.", "quantifier": "all fragments and labels", "why_tests_cant": "any sizes", "anchors": ["electrode/polygons.py: Polygons.from_data"]}
{"id": "C60", "title": "Pad ring", "statement": "square_pads returns 4n pads in four-fold symmetric counter-clockwise order with pitch step, all step/2 inside the square of the given edge.", "quantifier": "all steps, edges, parities", "why_tests_cant": "all reals", "anchors": ["electrode/polygons.py: square_pads"]}
{"id": "C61", "title": "remove_overlaps", "statement": "After remove_overlaps no two electrodes overlap by more than the tolerance and the union is unchanged. An electrode that overlaps those before it by no more than the tolerance is left as it is; from the others exactly the points of those before it are removed. The tolerance is an area of 2^-23.", "quantifier": "all lists of regions", "why_tests_cant": "any number of regions", "anchors": ["electrode/polygons.py: Polygons.remove_overlaps"]}
{"id": "C62", "title": "Holes go to the smallest enclosing contour", "statement": "from_system attaches each clockwise contour to the smallest counter-clockwise contour that contains it, at most once, and keeps every counter-clockwise contour.", "quantifier": "all electrodes and contour nestings", "why_tests_cant": "any nesting depth", "anchors": ["electrode/polygons.py: Polygons.from_system"]}
{"id": "C63", "title": "Path orientation on export", "statement": "to_system emits every exterior counter-clockwise, every hole clockwise and drops the closing vertex, in order.", "quantifier": "all polygons", "why_tests_cant": "any sizes", "anchors": ["electrode/polygons.py: Polygons.to_system"]}
{"id": "C64", "title": "GDS import selection", "statement": "from_gds uses the named structure (the first if no name is given) and sorts elements into gaps, routes and boundaries by the given layers. Its result is that of from_data on these, so the electrodes read cover, within the square, the boundaries and what the gaps and routes leave.", "quantifier": "all libraries, names, layer choices", "why_tests_cant": "any library contents", "anchors": ["electrode/polygons.py: Polygons.from_gds"]}
{"id": "C65", "title": "Polygon list maintenance", "statement": "unify_by_name leaves one entry per name in order of first occurrence with the union of the geometry, filter keeps exactly the entries passing the test and drops nothing else. Without a test, boundaries around more than 0.01 of area are kept, whatever their orientation.", "quantifier": "all polygon lists and tests", "why_tests_cant": "any sizes", "anchors": ["electrode/polygons.py: Polygons.filter", "electrode/polygons.py: Polygons.unify_by_name"]}
{"id": "C66", "title": "Mesh input", "statement": "paths_to_mesh produces for each path a closed ring of segments over its own vertices, with the marker of its electrode.", "quantifier": "all path lists", "why_tests_cant": "any sizes", "anchors": ["electrode/adaptive.py: paths_to_mesh"]}
{"id": "C67", "title": "Mesh refinement rule", "statement": "adapt_mesh refines a triangle only if its potential differs by more than the threshold from an adjacent one, and returns only meshes with at most the allowed number of triangles.", "quantifier": "all meshes, thresholds", "why_tests_cant": "any mesh", "anchors": ["electrode/adaptive.py: adapt_mesh"]}
{"id": "C68", "title": "Voltage history", "statement": "Over any sequence of set_volts calls all per-electrode histories recorded by Adjust have the same length and their last entries are the system's voltages.", "quantifier": "all call sequences", "why_tests_cant": "operation histories", "anchors": ["electrode/adjust.py: Adjust.set_volts"]}
{"id": "C69", "title": "Rejecting a step", "statement": "next_step(accept=False) puts the voltages back to the last accepted ones.", "quantifier": "all states", "why_tests_cant": "operation histories", "anchors": ["electrode/adjust.py: Adjust.next_step"]}
{"id": "C70", "title": "XIC import", "statement": "xic_to_list collects each polygon's coordinates from its P line to its terminating semicolon and ignores blank lines.", "quantifier": "all files", "why_tests_cant": "any file content", "anchors": ["electrode/xic.py: xic_to_list"]}
{"id": "C71", "title": "Spherical harmonic packing", "statement": "The (n, m) -> (p, q) index map used by SphericalHarmonics is a bijection between {(n,m): |m|<=n<nmax} and the nmax x nmax square, for every nmax.", "quantifier": "all nmax", "why_tests_cant": "nmax is unbounded", "anchors": ["electrode/spherical_harmonics.py: SphericalHarmonics.indices"]}
{"id": "C72", "title": "Spherical coordinates", "statement": "cartesian_to_spherical and spherical_to_cartesian are inverse; r>=0, theta in [0,pi].", "quantifier": "all points", "why_tests_cant": "all reals", "anchors": ["electrode/spherical_harmonics.py: cartesian_to_spherical", "electrode/spherical_harmonics.py: spherical_to_cartesian"]}
{"id": "C73", "title": "Spherical derivative conversion", "statement": "The to_spherical and to_cartesian conversions of vectors are inverse away from the axis, and each column is the derivative of the coordinate map.", "quantifier": "all points off the axis", "why_tests_cant": "all reals", "anchors": ["electrode/spherical_harmonics.py: derivatives_spherical_cartesian"]}
{"id": "C74", "title": "Analysis inverts synthesis", "statement": "Given a quadrature that is exact on the Legendre tables, analysis(synthesis(a)) = a for every coefficient array.", "quantifier": "all nmax, all coefficient arrays", "why_tests_cant": "nmax unbounded", "anchors": ["electrode/spherical_harmonics.py: SphericalHarmonics.analysis", "electrode/spherical_harmonics.py: SphericalHarmonics.synthesis"]}
{"id": "C75", "title": "Quaternion algebra", "statement": "quaternion_multiply is associative with unit, the norm is multiplicative, conjugation reverses products, quaternion_inverse is a two-sided inverse of every non-zero quaternion.", "quantifier": "all quaternions", "why_tests_cant": "all reals", "anchors": ["electrode/transformations.py: quaternion_multiply", "electrode/transformations.py: quaternion_inverse", "electrode/transformations.py: quaternion_conjugate"]}
{"id": "C76", "title": "Quaternions act as rotations", "statement": "quaternion_matrix(q) is a proper rotation for every non-zero q, is the same for q, -q and s*q, maps products to matrix products, and the inverse to the transpose.", "quantifier": "all non-zero quaternions", "why_tests_cant": "all reals", "anchors": ["electrode/transformations.py: quaternion_matrix"]}
{"id": "C77", "title": "Euler matrices are rotations", "statement": "euler_matrix gives an orthogonal matrix of determinant 1 for all angles and all 24 axis conventions and is the product of the three elementary rotations its name denotes.", "quantifier": "all angles, all 24 conventions", "why_tests_cant": "all reals", "anchors": ["electrode/transformations.py: euler_matrix"]}
{"id": "C78", "title": "Euler angle round trip", "statement": "euler_matrix(*euler_from_matrix(R, axes), axes) = R for every rotation matrix R and each convention, including gimbal lock handled as in the code.", "quantifier": "all rotations, all conventions", "why_tests_cant": "all rotations", "anchors": ["electrode/transformations.py: euler_from_matrix"]}
{"id": "C79", "title": "Euler angles to quaternion", "statement": "quaternion_matrix(quaternion_from_euler(a,b,c,axes)) = euler_matrix(a,b,c,axes).", "quantifier": "all angles and conventions", "why_tests_cant": "all reals", "anchors": ["electrode/transformations.py: quaternion_from_euler"]}
{"id": "C80", "title": "Axis-angle rotation", "statement": "rotation_matrix(angle, axis, point) is a proper rigid motion fixing the point and the axis direction, composes additively in the angle, and equals the identity at multiples of 2*pi.", "quantifier": "all angles, axes != 0, points", "why_tests_cant": "all reals", "anchors": ["electrode/transformations.py: rotation_matrix"]}
{"id": "C81", "title": "Reflection", "statement": "reflection_matrix is an involution of determinant -1 that fixes the mirror plane and flips its normal.", "quantifier": "all planes", "why_tests_cant": "all reals", "anchors": ["electrode/transformations.py: reflection_matrix"]}
{"id": "C82", "title": "Projection, scaling and shear", "statement": "projection_matrix is idempotent and maps onto the plane; scale_matrix fixes the origin and scales by the factor; shear_matrix has determinant 1 and fixes its plane; translation_matrix adds.", "quantifier": "all parameters", "why_tests_cant": "all reals", "anchors": ["electrode/transformations.py: projection_matrix", "electrode/transformations.py: scale_matrix", "electrode/transformations.py: shear_matrix", "electrode/transformations.py: translation_matrix"]}
{"id": "C83", "title": "Clipping", "statement": "clip_matrix maps the corners of the view volume to the corners of the unit cube and rejects inverted bounds.", "quantifier": "all bounds", "why_tests_cant": "all reals", "anchors": ["electrode/transformations.py: clip_matrix"]}
{"id": "C84", "title": "Quaternion from matrix", "statement": "quaternion_from_matrix(R, isprecise=True) returns a unit quaternion whose matrix is R, for every rotation R.", "quantifier": "all rotations", "why_tests_cant": "all rotations", "anchors": ["electrode/transformations.py: quaternion_from_matrix"]}
{"id": "C85", "title": "Spherical interpolation", "statement": "quaternion_slerp returns the end points at fractions 0 and 1 (up to sign on the shortest path) and unit quaternions between.", "quantifier": "all unit quaternions, fractions", "why_tests_cant": "all reals", "anchors": ["electrode/transformations.py: quaternion_slerp"]}
{"id": "C86", "title": "Arcball", "statement": "The virtual trackball's orientation stays a unit quaternion (a rotation) over every sequence of mouse events; cursor points are mapped to the unit sphere.", "quantifier": "all event sequences", "why_tests_cant": "event histories", "anchors": ["electrode/transformations.py: Arcball", "electrode/transformations.py: arcball_map_to_sphere"]}
{"id": "C87", "title": "Random rotations", "statement": "random_quaternion returns a unit quaternion for every triple of variates; every unit quaternion (and, by random_rotation_matrix, every proper rotation) comes up for some triple, from one triple only unless the first variate is 0 or 1, and with the same density everywhere on the sphere: independent uniform variates give a uniformly distributed rotation.", "quantifier": "all variates in [0,1], all unit quaternions and rotations", "why_tests_cant": "all reals; uniformity and reaching every rotation cannot be sampled", "anchors": ["electrode/transformations.py: random_quaternion, random_rotation_matrix"]}
{"id": "C88", "title": "shaped wrapper", "statement": "shaped(f) applied to an array of points of any shape gives the same values as applying f point by point.", "quantifier": "all shapes and pointwise functions", "why_tests_cant": "any number of dimensions", "anchors": ["electrode/utils.py: shaped"]}
{"id": "C89", "title": "Quaternion about an axis", "statement": "quaternion_about_axis(angle, axis) is a unit quaternion whose matrix is rotation_matrix(angle, axis).", "quantifier": "all angles, all axes longer than the machine tolerance", "why_tests_cant": "all reals", "anchors": ["electrode/transformations.py: quaternion_about_axis", "electrode/transformations.py: rotation_matrix"]}
{"id": "C90", "title": "Characteristic exponent", "statement": "The determinant nu_exp_det takes is that of Hill's matrix: ones on the diagonal and q/((2k)^2-a) on both sides of it in row k=-ntr..ntr. nu_tolerance returns the first pair of truncations n, 2n whose exponents agree to the tolerance, with the exponent at 2n, and raises ValueError only if none of the hundred does.", "quantifier": "all a, q, truncations, tolerances", "why_tests_cant": "all truncations and reals", "anchors": ["electrode/mathieu.py: Mathieu.nu_exp_det", "electrode/mathieu.py: Mathieu.nu_tolerance"]}
{"id": "C91", "title": "Continued fraction ratios", "statement": "Entry k of the positive (negative) ratios of coeff_ratio is the continued fraction from order k+1 (-k-1) to order nc+ng (-nc-ng).", "quantifier": "all parameters and truncations", "why_tests_cant": "any truncation", "anchors": ["electrode/mathieu.py: Mathieu.coeff_ratio"]}
{"id": "C92", "title": "Coverage of from_data", "statement": "from_data: a point is covered by the output iff it lies in the square and in a given polygon, or (if there are gaps or routes) in the square, off the buffered routes and off the buffered gaps unless inside a cell of routes and bridges; the polygons come first with their names, cut to the square, and the rest does not overlap them.", "quantifier": "all polygons, gaps, routes, bridges, names, edges; all shapely operations that act on point sets", "why_tests_cant": "any number and nesting of polygons", "anchors": ["electrode/polygons.py: Polygons.from_data"]}
{"id": "C93", "title": "GDS round trip", "statement": "The elements to_gds writes are read back by from_gds as the same boundaries with their names, the same gap lines and the same labels, for every scale and unit. The electrodes read back cover, within the square, the outlines written and what lies off the gap lines.", "quantifier": "all polygon lists, scales, units, layers", "why_tests_cant": "any number and nesting of polygons", "anchors": ["electrode/polygons.py: Polygons.to_gds", "electrode/polygons.py: Polygons.from_gds"]}
{"id": "C94", "title": "Shape edits keep names", "statement": "add_gaps, unify, simplify, restrict, within and remove_overlaps keep the number, order and names of the electrodes; restrict intersects each with the given region; validate raises exactly if one is invalid; gaps_union is the union of all boundaries. within cuts each to the square of the given edge length about the origin, simplify moves no point further than its tolerance, unify keeps the points.", "quantifier": "all polygon lists, all geometry operations", "why_tests_cant": "any number and nesting of polygons", "anchors": ["electrode/polygons.py: Polygons.add_gaps", "electrode/polygons.py: Polygons.restrict", "electrode/polygons.py: Polygons.validate", "electrode/polygons.py: Polygons.gaps_union"]}
{"id": "C95", "title": "Symmetric copies", "statement": "transformed_copy returns, for each given (matrix, sign), the image of the path under the matrix, reversed if the sign is -1; its signed area is the sign times the determinant of the planar part times the area of the path.", "quantifier": "all matrices, signs and paths", "why_tests_cant": "any matrix, any number of vertices", "anchors": ["electrode/adaptive.py: transformed_copy"]}
{"id": "C96", "title": "Voltage steps do what they solve for", "statement": "Applying the voltage change found by Adjust.volt_change changes the dc field gradient at the evaluation point by exactly the requested vector; with method 'position' the total potential's gradient vanishes at the requested point.", "quantifier": "all systems, groups of electrodes, points and voltage histories in agreement with the system", "why_tests_cant": "any number of electrodes and groups, any geometry", "anchors": ["electrode/adjust.py: Adjust.volt_change, Adjust.construct_config, Adjust.propose_move"]}
{"id": "C97", "title": "Orthonormal sampled harmonics", "statement": "With exact Gauss-Legendre nodes, the weighted grid sum of conj(Y_nm) Y_n'm' is 1 for equal indices and 0 otherwise, for all |m|<=n<nmax.", "quantifier": "all nmax, all pairs of indices", "why_tests_cant": "nmax is unbounded; check_orthogonality only runs for one nmax at a time", "anchors": ["electrode/spherical_harmonics.py: SphericalHarmonics.__init__", "electrode/spherical_harmonics.py: SphericalHarmonics.check_orthogonality"]}
{"id": "C98", "title": "Coefficients of real data", "statement": "For real samples, analysis gives coefficients with a(n,-m) = (-1)^m conj(a(n,m)).", "quantifier": "all nmax, all real sample arrays, all indices", "why_tests_cant": "all arrays of unbounded size", "anchors": ["electrode/spherical_harmonics.py: SphericalHarmonics.analysis"]}
{"id": "C99", "title": "Energy of several ions", "statement": "ions() minimises the trap energy plus the Coulomb energy of every pair of ions, gives the minimiser its gradient and its matrix of second derivatives, and returns positions and modes for any number of ions.", "quantifier": "all numbers of ions, distinct positions, charges, trap potentials", "why_tests_cant": "derivative statement over all positions and numbers of ions", "anchors": ["electrode/system.py: System.ions"]}
{"id": "C100", "title": "Weight of a classic constraint", "statement": "A constraint object with weight 0 demands that every value it yields is 0 (equal) or at most 0, and adds nothing to the objective; with a positive weight it adds weight times the sum of its values to the objective and demands nothing; with a negative weight it does neither.", "quantifier": "all weights, all value generators, all candidate voltages", "why_tests_cant": "any number of values and any voltages", "anchors": ["electrode/constraints.py: Constraint.constraints", "electrode/constraints.py: Constraint.objective"]}
{"id": "C101", "title": "SymmetryConstraint", "statement": "SymmetryConstraint admits exactly those voltages for which, at every selected position, the two electrodes of each row of symmetry have equal voltage; a negative index stands for ground.", "quantifier": "all symmetry tables, index selections, numbers of positions and electrodes, voltages", "why_tests_cant": "any table and any voltages", "anchors": ["electrode/constraints.py: SymmetryConstraint.single_value", "electrode/constraints.py: SingleIndexConstraint.values"]}
{"id": "C102", "title": "PotentialConstraint", "statement": "PotentialConstraint admits exactly those voltages for which the potential of fixed and variable electrodes (of the variable ones alone with only_variable) lies between pmin and pmax at every selected position.", "quantifier": "all potentials, bounds, index selections, voltages", "why_tests_cant": "any number of positions and electrodes", "anchors": ["electrode/constraints.py: PotentialConstraint.single_value", "electrode/constraints.py: SingleIndexConstraint.values"]}
{"id": "C103", "title": "ForceConstraint", "statement": "ForceConstraint admits exactly those voltages for which the magnitude of each force component (along the columns of coord, if given) is at most fmax, or zero without fmax and with equal, at every selected position.", "quantifier": "all forces, bounds, axes, index selections, voltages", "why_tests_cant": "any number of positions and electrodes", "anchors": ["electrode/constraints.py: ForceConstraint.single_value", "electrode/constraints.py: SingleIndexConstraint.values"]}
{"id": "C104", "title": "CurvatureConstraint", "statement": "CurvatureConstraint admits exactly those voltages for which the six entries of the upper triangle of the curvature (in the axes coord, if given) lie between cmin and cmax at every selected position.", "quantifier": "all curvatures, bounds, axes, index selections, voltages", "why_tests_cant": "any number of positions and electrodes", "anchors": ["electrode/constraints.py: CurvatureConstraint.single_value", "electrode/constraints.py: SingleIndexConstraint.values"]}
{"id": "C105", "title": "Constraints do not change their data", "statement": "Collecting the constraints leaves the arrays of potentials, forces and curvatures unchanged, so that constraints can be listed in any order.", "quantifier": "all classes, options, data", "why_tests_cant": "any number of positions", "anchors": ["electrode/constraints.py: PotentialConstraint.single_value", "electrode/constraints.py: ForceConstraint.single_value", "electrode/constraints.py: CurvatureConstraint.single_value"]}
{"id": "C106", "title": "OffsetPotentialConstraint", "statement": "OffsetPotentialConstraint bounds the potential difference between the reference point and each selected position by pmin and pmax.", "quantifier": "all systems, reference points, bounds, voltages", "why_tests_cant": "any system", "anchors": ["electrode/constraints.py: OffsetPotentialConstraint.single_value"]}
{"id": "C107", "title": "compose_matrix undoes decompose_matrix", "statement": "For every homogeneous matrix with an invertible linear part and M[3,3] not zero, decompose_matrix returns scale, shear, angles, translation and perspective from which compose_matrix rebuilds the matrix (divided by M[3,3]; a last row within eps of (0,0,0,1) is taken for it); other matrices raise ValueError. compose_matrix applies scale, shear, rotation about x, y, z, translation and perspective in this order and leaves out what is not given.", "quantifier": "all 4x4 real matrices, all combinations of parts", "why_tests_cant": "all matrices, including mirror images and gimbal lock", "anchors": ["electrode/transformations.py: decompose_matrix", "electrode/transformations.py: compose_matrix"]}
{"id": "C108", "title": "Crystal cells", "statement": "The columns of orthogonalization_matrix have the given lengths and enclose the given angles in degrees, its determinant is the volume of the cell; angles for which no cell exists raise ValueError.", "quantifier": "all lengths and angles with alpha and beta between 0 and 180 degrees", "why_tests_cant": "all angles", "anchors": ["electrode/transformations.py: orthogonalization_matrix"]}
{"id": "C109", "title": "Superposition of point sets", "statement": "superimposition_matrix, and affine_matrix_from_points without shear and scale, return a proper rigid motion whose sum of squared deviations is the least among all rigid motions, with the SVD and with the quaternion algorithm; fewer than three points or sets of different size raise ValueError.", "quantifier": "all pairs of point sets, all rigid motions compared with", "why_tests_cant": "a minimum over all rigid motions, for all point sets", "anchors": ["electrode/transformations.py: affine_matrix_from_points", "electrode/transformations.py: superimposition_matrix"]}
{"id": "C110", "title": "Registered point sets are recovered", "statement": "If one point set is the image of the other under a rigid motion, a similarity (scale=True) or, for points that are not coplanar, any affine map (shear=True), the returned matrix maps each point to its image; in the affine case it is that map.", "quantifier": "all point sets and all such maps", "why_tests_cant": "all maps and any number of points", "anchors": ["electrode/transformations.py: affine_matrix_from_points", "electrode/transformations.py: superimposition_matrix"]}
{"id": "C111", "title": "Superposition with scale", "statement": "With scale=True the returned similarity minimises the sum of squared deviations, as documented.", "quantifier": "all pairs of point sets, all similarities compared with", "why_tests_cant": "a minimum over all similarities", "anchors": ["electrode/transformations.py: affine_matrix_from_points", "electrode/transformations.py: superimposition_matrix"]}
{"id": "C112", "title": "Mirror-extended voltage derivatives", "statement": "VoltageDerivativeConstraint with smooth=True takes the n-th differences (stride delta, divided by delta**n) of the sequence continued by reflection at its first and last step: one centred at every step for even n, delta more for odd n, and the bound applies to all of them.", "quantifier": "all sequences longer than delta, all orders and strides", "why_tests_cant": "any order, stride and length", "anchors": ["electrode/pattern_constraints.py: VoltageDerivativeConstraint.get, coef, constraints"]}
{"id": "C113", "title": "Mirror-extended legacy voltage constraint", "statement": "VoltageConstraint with smooth=True bounds the same differences of the mirror-extended sequence as VoltageDerivativeConstraint does.", "quantifier": "all sequences, strides, orders 0..4", "why_tests_cant": "any length and stride", "anchors": ["electrode/constraints.py: VoltageConstraint.values"]}
{"id": "C114", "title": "Reflections are read back", "statement": "reflection_from_matrix of a matrix made by reflection_matrix returns a unit normal of the mirror plane, and, when the last eigenvector of eigenvalue 1 listed by numpy is not a direction at infinity, a point of the plane; the two rebuild the matrix exactly.", "quantifier": "all planes and all lists of unit eigenvectors", "why_tests_cant": "any plane, axis, direction and point, and any admissible list of eigenvectors numpy may return", "anchors": ["electrode/transformations.py: reflection_from_matrix, reflection_matrix"]}
{"id": "C115", "title": "Rotations are read back", "statement": "rotation_from_matrix of a matrix made by rotation_matrix returns an angle, a unit axis and a point (unless the last eigenvector is a direction at infinity) that rebuild the matrix exactly.", "quantifier": "all angles, axes, points and all lists of unit eigenvectors", "why_tests_cant": "any plane, axis, direction and point, and any admissible list of eigenvectors numpy may return", "anchors": ["electrode/transformations.py: rotation_from_matrix, rotation_matrix"]}
{"id": "C116", "title": "Scalings are read back", "statement": "scale_from_matrix of a matrix made by scale_matrix returns the factor, the direction (None for a uniform scaling) and an origin that rebuild the matrix exactly, for every factor equal to 1 or at least 1e-8 away from it.", "quantifier": "all factors, origins, directions and all lists of unit eigenvectors", "why_tests_cant": "any plane, axis, direction and point, and any admissible list of eigenvectors numpy may return", "anchors": ["electrode/transformations.py: scale_from_matrix, scale_matrix"]}
{"id": "C117", "title": "Projections are read back", "statement": "projection_from_matrix of a matrix made by projection_matrix returns arguments that rebuild the matrix exactly: a point of the plane, its normal and the direction, or the perspective point.", "quantifier": "all planes, directions, perspective points and all lists of unit eigenvectors", "why_tests_cant": "any plane, axis, direction and point, and any admissible list of eigenvectors numpy may return", "anchors": ["electrode/transformations.py: projection_from_matrix, projection_matrix"]}
{"id": "C118", "title": "Shears are read back", "statement": "shear_from_matrix of a matrix made by shear_matrix returns an angle, direction, normal and point that rebuild the matrix exactly.", "quantifier": "all angles, directions, planes and all lists of unit eigenvectors", "why_tests_cant": "any plane, axis, direction and point, and any admissible list of eigenvectors numpy may return", "anchors": ["electrode/transformations.py: shear_from_matrix, shear_matrix"]}
{"id": "C119", "title": "Built or not, the same matrices", "statement": "identity_matrix, translation_matrix, reflection_matrix, rotation_matrix, projection_matrix (all modes), clip_matrix, shear_matrix and orthogonalization_matrix return the same matrix whether or not the extension module has been built, and is_same_transform of the extension is the comparison with numpy.allclose of the Python code.", "quantifier": "all arguments in the domain of both", "why_tests_cant": "the two implementations would have to be compared on every vector, angle and option; the extension takes over silently when it has been built", "anchors": ["electrode/transformations.c: py_identity_matrix, py_translation_matrix, py_reflection_matrix, py_rotation_matrix, py_projection_matrix, py_clip_matrix, py_shear_matrix, py_orthogonalization_matrix, py_is_same_transform", "electrode/transformations.py: _import_module"]}
{"id": "C120", "title": "Built or not, the same scaling", "statement": "scale_matrix returns the same matrix whether or not the extension module has been built.", "quantifier": "all arguments in the domain of both", "why_tests_cant": "the two implementations would have to be compared on every vector, angle and option; the extension takes over silently when it has been built", "anchors": ["electrode/transformations.c: py_scale_matrix", "electrode/transformations.py: _import_module"]}
{"id": "C121", "title": "Built or not, the same Euler angles", "statement": "With the extension module, euler_matrix returns the product of elementary rotations the axes name denotes, euler_from_matrix and quaternion_from_euler return what the Python functions return, for each of the 24 names, tuples and the default; no other axes are accepted.", "quantifier": "all angles, matrices, axes names and tuples, both byte orders, and any previous content of memory", "why_tests_cant": "the two implementations would have to be compared on every vector, angle and option; the extension takes over silently when it has been built", "anchors": ["electrode/transformations.c: axis2tuple, py_euler_matrix, py_euler_from_matrix, py_quaternion_from_euler", "electrode/transformations.py: _import_module"]}
{"id": "C122", "title": "Built or not, the same quaternions", "statement": "quaternion_multiply, quaternion_conjugate, quaternion_inverse, quaternion_about_axis, random_quaternion and random_rotation_matrix return the same whether or not the extension module has been built, except that quaternion_inverse of the extension raises ValueError for quaternions whose square is below 2**-50.", "quantifier": "all arguments in the domain of both", "why_tests_cant": "the two implementations would have to be compared on every vector, angle and option; the extension takes over silently when it has been built", "anchors": ["electrode/transformations.c: py_quaternion_multiply, py_quaternion_conjugate, py_quaternion_inverse, py_quaternion_about_axis, py_random_quaternion, py_random_rotation_matrix", "electrode/transformations.py: _import_module"]}
{"id": "C123", "title": "Built or not, the same rotation of a quaternion", "statement": "quaternion_matrix of the extension returns the rotation of the normalised quaternion, the matrix of the Python function, and leaves its argument alone.", "quantifier": "all quaternions of length at least 2**-50", "why_tests_cant": "the two implementations would have to be compared on every vector, angle and option; the extension takes over silently when it has been built", "anchors": ["electrode/transformations.c: quaternion_matrix, py_quaternion_matrix", "electrode/transformations.py: _import_module"]}
{"id": "C124", "title": "Built or not, the same interpolation", "statement": "quaternion_slerp returns the same whether or not the extension module has been built.", "quantifier": "all quaternions, fractions, spins and both paths", "why_tests_cant": "the two implementations would have to be compared on every vector, angle and option; the extension takes over silently when it has been built", "anchors": ["electrode/transformations.c: py_quaternion_slerp", "electrode/transformations.py: _import_module"]}
{"id": "C125", "title": "Built or not, the same quaternion of a rotation", "statement": "quaternion_from_matrix with isprecise=True of the extension returns a unit quaternion of the rotation for every rotation matrix, the Python function's or its negative.", "quantifier": "all rotation matrices", "why_tests_cant": "the two implementations would have to be compared on every vector, angle and option; the extension takes over silently when it has been built", "anchors": ["electrode/transformations.c: quaternion_from_matrix, py_quaternion_from_matrix", "electrode/transformations.py: _import_module"]}
{"id": "C126", "title": "Built or not, the same Arcball", "statement": "arcball_map_to_sphere and arcball_constrain_to_axis return the same whether or not the extension module has been built.", "quantifier": "all points, centres, radii and axes", "why_tests_cant": "the two implementations would have to be compared on every vector, angle and option; the extension takes over silently when it has been built", "anchors": ["electrode/transformations.c: py_arcball_map_to_sphere, py_arcball_constrain_to_axis", "electrode/transformations.py: _import_module"]}
{"id": "C127", "title": "No argument takes the interpreter down", "statement": "Whatever is passed to the functions of the extension module, they return a value or raise ValueError.", "quantifier": "all arguments: vectors of any length, matrices of any shape, anything else", "why_tests_cant": "the two implementations would have to be compared on every vector, angle and option; the extension takes over silently when it has been built", "anchors": ["electrode/transformations.c: PyConverter_DoubleVector3, PyConverter_DoubleVector4, PyConverter_DoubleMatrix44, PyConverter_DoubleVector3OrNone, axis2tuple, py_quaternion_slerp, py_quaternion_from_matrix", "electrode/transformations.py: _import_module"]}
{"id": "C128", "title": "Inverse of matrices up to 4 x 4", "statement": "With the extension module, inverse_matrix of a matrix of 1 to 4 rows returns its inverse on both sides, or raises ValueError if and only if the matrix is singular.", "quantifier": "all square matrices of 1 to 4 rows", "why_tests_cant": "the cofactor formulas are sums of dozens of products; a wrong sign shows only for matrices that use it", "anchors": ["electrode/transformations.c: invert_matrix22, invert_matrix33, invert_matrix44, py_inverse_matrix", "electrode/transformations.py: inverse_matrix, _import_module"]}
{"id": "C129", "title": "Inverse of larger matrices", "statement": "With the extension module, inverse_matrix of a matrix of 5 or more rows returns its inverse on both sides, or raises ValueError if and only if the matrix is singular.", "quantifier": "all square matrices of any size from 5 on", "why_tests_cant": "pivoting and back substitution take different paths for each matrix and size", "anchors": ["electrode/transformations.c: invert_matrix, py_inverse_matrix", "electrode/transformations.py: inverse_matrix, _import_module"]}
{"id": "C130", "title": "inverse_matrix leaves its argument alone", "statement": "inverse_matrix of the extension module does not change the matrix it is given, and refuses what is not a square matrix with a ValueError.", "quantifier": "all arguments, whether numpy copies them or not", "why_tests_cant": "depends on how numpy obtained the array: passed through, copied, or built around the argument's memory", "anchors": ["electrode/transformations.c: py_inverse_matrix, invert_matrix", "electrode/transformations.py: inverse_matrix, _import_module"]}
{"id": "C131", "title": "Tridiagonal form of a symmetric matrix", "statement": "_tridiagonalize_symmetric_44 of the extension module returns the diagonal and subdiagonal of a tridiagonal matrix that is orthogonally similar to the given symmetric 4 x 4 matrix, up to elements of 2**-50; other shapes raise ValueError.", "quantifier": "all symmetric 4 x 4 matrices", "why_tests_cant": "two chained reflections with branches for columns that already vanish; a wrong product shows only off the branch a test takes", "anchors": ["electrode/transformations.c: tridiagonalize_symmetric_44, py_tridiagonalize_symmetric_44", "electrode/transformations.py: _import_module"]}
{"id": "C132", "title": "Largest eigenvalue", "statement": "_max_eigenvalue_of_tridiag_44 ends for every tridiagonal matrix and returns its largest eigenvalue.", "quantifier": "all diagonals and subdiagonals", "why_tests_cant": "the bisection counts signs of pivots and treats tiny pivots specially; only the matrices that hit the special case show whether it is right", "anchors": ["electrode/transformations.c: max_eigenvalue_of_tridiag_44, py_max_eigenvalue_of_tridiag_44", "electrode/transformations.py: _import_module"]}
{"id": "C133", "title": "Eigenvector", "statement": "_eigenvector_of_symmetric_44 returns a unit eigenvector of the symmetric 4 x 4 matrix for the given eigenvalue.", "quantifier": "all symmetric matrices and simple eigenvalues", "why_tests_cant": "thresholds decide which row of cofactors is used and whether one is found at all", "anchors": ["electrode/transformations.c: eigenvector_of_symmetric_44, py_eigenvector_of_symmetric_44", "electrode/transformations.py: _import_module"]}
{"id": "C134", "title": "Quaternion of a rotation matrix, extension module", "statement": "quaternion_from_matrix of the extension module (isprecise=False) returns for every rotation matrix a unit quaternion of that rotation with nonnegative scalar part.", "quantifier": "all rotation matrices", "why_tests_cant": "every rotation takes another path through reflections, bisection and cofactors", "anchors": ["electrode/transformations.c: py_quaternion_from_matrix", "electrode/transformations.py: quaternion_from_matrix, _import_module"]}
{"id": "C135", "title": "superimposition_matrix of the extension module", "statement": "superimposition_matrix of the extension module returns the rigid motion (with scaling: similarity) that maps the centroid of the first point set to that of the second and fits the points best in the least squares sense.", "quantifier": "all pairs of point sets with the same number of points", "why_tests_cant": "optimality is a statement about all rigid motions; thresholds depend on the size of the points", "anchors": ["electrode/transformations.c: py_superimposition_matrix", "electrode/transformations.py: superimposition_matrix, _import_module"]}
{"id": "C136", "title": "Random numbers of the extension module", "statement": "_random_vector(n) of the extension module returns n numbers k / 2**53 with 0 <= k < 2**53, each number from its own 64 bits of the operating system, and every k equally likely; a negative size raises MemoryError, a source that cannot be read ValueError.", "quantifier": "all sizes and all bits of the source", "why_tests_cant": "a test sees a few numbers: not that they are all below 1, evenly spread, and not mixed up by the conversion in place", "anchors": ["electrode/transformations.c: random_doubles, py_random_vector", "electrode/transformations.py: _import_module"]}
{"id": "C137", "title": "Length of vectors", "statement": "vector_norm(data) returns the Euclidean length of all of data, vector_norm(data, axis) those of the vectors along the axis, in a new array or in out; nothing else in memory changes; wrong axes and wrong shapes of out raise ValueError; Python and extension module agree.", "quantifier": "all shapes, strides, axes, contents and arrays out", "why_tests_cant": "depends on strides, overlap and the shape of out; writes out of bounds often go unnoticed", "anchors": ["electrode/transformations.py: vector_norm", "electrode/transformations.c: py_vector_norm"]}
{"id": "C138", "title": "Unit vectors", "statement": "unit_vector(data) returns data divided by its Euclidean length, unit_vector(data, axis) by the lengths along the axis, in a new array or in out, which may be data itself; nothing else in memory changes; Python and extension module agree.", "quantifier": "all shapes, strides, axes, contents and arrays out", "why_tests_cant": "depends on strides, overlap and dimensions", "anchors": ["electrode/transformations.py: unit_vector", "electrode/transformations.c: py_unit_vector"]}
{"id": "C139", "title": "The extension module takes the place of the Python functions", "statement": "On import every public name of the extension module replaces the Python one, which stays reachable as _py_name; no other name changes; if the extension is missing nothing changes; importing again has no further effect.", "quantifier": "all modules and all sets of names in the extension", "why_tests_cant": "any set of names; names that collide with saved ones", "anchors": ["electrode/transformations.py: _import_module"]}
{"id": "C140", "title": "Product of transformations", "statement": "concatenate_matrices(m1, ..., mk) is the transformation that applies mk first and m1 last; splitting the list does not change it; of one matrix it is that matrix.", "quantifier": "all lists of 4 x 4 matrices", "why_tests_cant": "any number of matrices", "anchors": ["electrode/transformations.py: concatenate_matrices"]}
{"id": "C141", "title": "Vector product and angle between vectors", "statement": "vector_product is at right angles to both vectors, as long as the area of their parallelogram, and right-handed; angle_between_vectors is the angle in [0, pi], undirected in [0, pi/2], with the cosine of the inner product, and nan if a vector is 0.", "quantifier": "all vectors of 3 components; of any number of components for the angle", "why_tests_cant": "real vectors of any dimension", "anchors": ["electrode/transformations.py: vector_product, angle_between_vectors"]}
{"id": "C142", "title": "is_same_quaternion", "statement": "is_same_quaternion of two unit quaternions is true if they stand for the same rotation, and only if their rotation matrices agree within 1e-4; it does not depend on the order of its arguments.", "quantifier": "all unit quaternions", "why_tests_cant": "the double cover and the tolerance concern every pair", "anchors": ["electrode/transformations.py: is_same_quaternion"]}
{"id": "C143", "title": "Euler angles of a quaternion", "statement": "The angles of euler_from_quaternion give back, with euler_matrix, the rotation matrix of the quaternion up to 2**-49, in every convention.", "quantifier": "all quaternions, including 0, and the 24 conventions", "why_tests_cant": "gimbal lock and 24 conventions", "anchors": ["electrode/transformations.py: euler_from_quaternion"]}
{"id": "C144", "title": "The potential stays between the voltages", "statement": "Above the electrode plane the potential of a convex polygon electrode at 1 V is strictly between 0 and 1; so is that of an electrode of several convex polygons that do not overlap; convex parts of a convex polygon contribute at most its potential; with voltages between m <= 0 and M >= 0 the potential of a system of such electrodes is between m and M everywhere above the plane.", "quantifier": "all convex polygons with any number of corners, any number of electrodes and patches, all points above the plane, all voltages; no cover images", "why_tests_cant": "every shape and every point", "anchors": ["electrode/electrode.py:PolygonPixelElectrode.potential", "electrode/expressions.py: _polygon_potential", "electrode/system.py:System.electrical_potential"]}
{"id": "C145", "title": "The potential is the Poisson integral over the electrode", "statement": "The potential of a convex polygon electrode at 1 V at a point above the plane is the integral over the inside of the polygon of z / (2 pi r^3), r the distance from the point of the plane: the solution of the Laplace equation with value 1 on the electrode and 0 elsewhere on the plane (gapless plane approximation).", "quantifier": "all convex polygons with any number of corners and all points above the plane", "why_tests_cant": "equality of a closed form with an integral for every shape and point", "anchors": ["electrode/electrode.py:PolygonPixelElectrode.potential", "electrode/expressions.py: _polygon_potential"]}
{"id": "C146", "title": "from_vtk loads every sample at its point", "statement": "GridElectrode.from_vtk returns an electrode whose potential at every point of the file's grid is the sample of the array 'potential' there, and whose gradient is the sample of the array 'field' if the file has one; arrays of other names have no influence; derivatives up to maxderiv are available. Other suffixes than .vtk or no file raise FileNotFoundError, arrays of the wrong size ValueError.", "quantifier": "all files with any grid and any arrays, all grid points", "why_tests_cant": "every file and grid", "anchors": ["electrode/electrode.py:GridElectrode.from_vtk"]}
{"id": "C147", "title": "from_result stores every sample at its point", "statement": "GridElectrode.from_result returns an electrode whose potential and gradient at every grid point are the potential and field of the result there.", "quantifier": "all results with or without field, all grid points", "why_tests_cant": "every result", "anchors": ["electrode/electrode.py:GridElectrode.from_result"]}
{"id": "C148", "title": "plot_contour draws the requested potential", "statement": "System.plot_contour draws, in row j and column i, the requested potential (dc, rf or tot) at the point of the slice with the coordinates of that row and column; it returns the extrema of what it draws; the default levels increase from the minimum and stay within the range; keyword arguments of the user are kept; unknown slices raise KeyError, unknown types ValueError.", "quantifier": "all systems, grids, slices, types and options", "why_tests_cant": "every grid and system", "anchors": ["electrode/system.py:System.plot_contour"]}
{"id": "C149", "title": "plot_voltages and plot colour each electrode by its own voltage or index", "statement": "System.plot_voltages draws each electrode in the colour of its voltage on a symmetric scale: the middle of the colour map for 0 V only, colours ordered as the voltages, the ends for the largest magnitude; System.plot draws each electrode once, in order, in one of twelve different colours in turn.", "quantifier": "all systems, voltages and colour maps", "why_tests_cant": "every voltage vector", "anchors": ["electrode/system.py:System.plot_voltages", "electrode/system.py:System.plot", "electrode/colors.py:set3"]}
{"id": "C150", "title": "norm gives the lengths of the vectors along an axis", "statement": "utils.norm(x, axis) is the array of the Euclidean lengths of the vectors of x along the axis.", "quantifier": "all arrays of any number of dimensions, all axes", "why_tests_cant": "every shape", "anchors": ["electrode/utils.py:norm"]}
{"id": "C151", "title": "DummyPool behaves like a pool of one worker", "statement": "A program that submits calls to DummyPool with apply_async and gets the results obtains the same values and leaves the same state as with a pool that runs each call at its submission; apply_method calls the named method with the arguments.", "quantifier": "all programs of submissions, gets and other steps, all calls with or without effects", "why_tests_cant": "every interleaving", "anchors": ["electrode/utils.py:DummyPool", "electrode/utils.py:apply_method"]}
{"id": "C152", "title": "UnstructuredGrid and SphericalGrid give their points in order", "statement": "UnstructuredGrid.to_points is the transpose of the (3, n) array it was made of; SphericalGrid.to_points lists, for each origin, the Gauss-Legendre points of the sphere of radius r around it, in the order of its shape.", "quantifier": "all arrays, origins, radii and orders n", "why_tests_cant": "every n and number of origins", "anchors": ["electrode/grid.py:UnstructuredGrid", "electrode/grid.py:SphericalGrid"]}
{"id": "C153", "title": "smooth fits a spline to a closed path with the documented weights", "statement": "polygons.smooth of a closed path calls the spline fit once, with all points, the normalised path length as parameter (strictly increasing from 0 to 1), the weight `straight` at vertices where the path is straight within the tolerance, `corner` at vertices next to those and 1 at the others; it returns the spline at its inner knots or at `knots` equidistant parameters; an open path or a failed fit raises AssertionError.", "quantifier": "all paths with any number of vertices, all options", "why_tests_cant": "every path", "anchors": ["electrode/polygons.py:smooth"]}
{"id": "C154", "title": "Polygons.smooth keeps the structure of a layout", "statement": "Polygons.smooth keeps the names and their order, smooths each ring by itself, drops exactly the polygons and holes that have fewer than three points afterwards, and fails with the error of the first ring that cannot be smoothed; if the smoothing leaves the rings unchanged so is the layout.", "quantifier": "all layouts and all smoothing functions", "why_tests_cant": "every layout", "anchors": ["electrode/polygons.py:Polygons.smooth"]}
{"id": "C155", "title": "Threads using different systems do not disturb each other", "statement": "Several threads, each of which uses systems (with_voltages blocks, reads and writes of electrode voltages) that no other thread changes, read and leave under every schedule what they would read and leave by themselves; every with_voltages block restores the voltages it found.", "quantifier": "all numbers of threads, all programs of reads and writes, all schedules", "why_tests_cant": "every interleaving", "anchors": ["electrode/system.py:System.with_voltages"]}
{"id": "C156", "title": "Compiled loops in several threads", "statement": "Any number of threads may be in the compiled point_potential, polygon_potential and mesh_potential at once: each call leaves in its array out what the Python loops make of it.", "quantifier": "all numbers of threads, all calls, all schedules of single reads and writes", "why_tests_cant": "every interleaving", "anchors": ["electrode/cexpressions.pyx:point_potential", "electrode/cexpressions.pyx:polygon_potential", "electrode/cexpressions.pyx:mesh_potential"]}
{"id": "C157", "title": "to_points approximates the polygons it replaces", "statement": "area_centroid returns the area of a polygon and its centroid, and the point electrode to_points makes of a polygon electrode has the same potential up to an error of second order in the size of the polygons: at most total area times 3 delta^2 / (pi z^4), summed over the images of the cover, if each polygon is within delta of its centroid. For electrodes cut in ever smaller pieces it converges.", "quantifier": "all polygons that are convex or can be cut into convex pieces, in either direction, all numbers of images and all points off the plane", "why_tests_cant": "every polygon and every point", "anchors": ["electrode/electrode.py:PolygonPixelElectrode.to_points", "electrode/utils.py:area_centroid"]}
{"id": "C158", "title": "Polygons that are not convex, and polygons with holes", "statement": "A polygon electrode, not necessarily convex and with holes as clockwise outlines, has the same potential and derivatives as the convex pieces it can be cut into; its potential at 1 V is the Poisson integral over the pieces and is between 0 and 1; the potential of a system of such electrodes that do not overlap stays between the lowest and the highest of the voltages and 0; the signed areas of the outlines add up to the area.", "quantifier": "all electrodes with any number of outlines and pieces, all points above the plane", "why_tests_cant": "every polygon and every point", "anchors": ["electrode/electrode.py:PolygonPixelElectrode", "electrode/expressions.py:polygon_potential", "electrode/system.py:System.electrical_potential"]}
{"id": "C159", "title": "Calls of the extension module leak nothing", "statement": "Whatever a function of the extension module is given and whichever conversion or allocation fails on the way, the call comes back, every reference and block of memory it took is given up exactly once except the references in its result, and a sequence of calls leaves only the results the caller kept.", "quantifier": "all functions of the module, all arguments, every place at which a conversion, an allocation or a numerical test can fail, all sequences of calls", "why_tests_cant": "the failing allocations cannot be provoked one by one, and a leak of one reference per call shows only after many calls", "anchors": ["electrode/transformations.c: all py_ functions, PyConverter_DoubleVector3, PyConverter_AnyDoubleArray, PyOutputConverter_AnyDoubleArrayOrNone, PySequence_GetInteger, axis2tuple"]}
{"id": "C160", "title": "A value or an exception, never both", "statement": "Every call of a function of the extension module that comes back returns an object with no exception set or raises one, and holds the interpreter lock.", "quantifier": "all functions, arguments and failing places", "why_tests_cant": "the paths on which an ignored error or a released lock would be left behind are those of failing allocations and objects with unusual truth values", "anchors": ["electrode/transformations.c: all py_ functions"]}
{"id": "C161", "title": "Dragging the trackball", "statement": "Pressing the cursor and dragging it turns the Arcball from the point pressed towards the point reached, by twice the angle between them, whatever path the cursor took; dragged back to where it was pressed, the orientation is as before. Constrained to axes, the ball turns about one of the axes given. next() repeats the turn of the last drag.", "quantifier": "all orientations, centres, radii, points, paths of the cursor and lists of axes", "why_tests_cant": "all paths and points; a test compares a few numbers", "anchors": ["electrode/transformations.py: Arcball.down, Arcball.drag, Arcball.next, Arcball.matrix, arcball_map_to_sphere, arcball_constrain_to_axis, arcball_nearest_axis"]}
{"id": "C162", "title": "Reversed and doubled voltages in doubles", "statement": "Computed in doubles, System.electrical_potential of any order reverses the sign of every number exactly, bit for bit, when every voltage is reversed; when every voltage is multiplied by a power of two, every number is multiplied by it exactly, as long as nothing overflows or underflows. No rounding spoils this, whatever the accuracy of pow and atan2.", "quantifier": "all systems, points, orders, voltages and exponents", "why_tests_cant": "exactness for every input; a test finds no counterexample by sampling", "anchors": ["electrode/cexpressions.pyx: point_potential, polygon_potential, mesh_potential, point_potential_expr, edge_potential_expr", "electrode/system.py: System.electrical_potential", "electrode/electrode.py: CoverElectrode.potential, MeshPixelElectrode.potential, GridElectrode.potential"]}
{"id": "C163", "title": "Linear in the voltages up to rounding", "statement": "Computed in doubles, each number returned by System.electrical_potential is the sum of the voltages times the numbers each electrode adds at unit voltage, with a relative error of one rounding (2**-53) per addition and ten more, compared to the sum of the absolute values. So superposition and independence of the order of the electrodes hold up to that error.", "quantifier": "all systems without overflow and underflow, points, orders 0-5, entries", "why_tests_cant": "an error bound over all inputs; tests compare with a tolerance on a few", "anchors": ["electrode/cexpressions.pyx: point_potential, polygon_potential, mesh_potential, point_potential_expr, edge_potential_expr", "electrode/system.py: System.electrical_potential", "electrode/electrode.py: CoverElectrode.potential, MeshPixelElectrode.potential, GridElectrode.potential"]}
{"id": "C164", "title": "Rounding error of point pixels", "statement": "Computed in doubles, the potential and its derivatives up to order 5 of electrodes made of point pixels differ from their exact values by at most one rounding (2**-53) per pixel and 83 more (21 for the potential itself), compared to the sum over the pixels of |V| a / (2 pi r^(d+2)) (for the potential: of the absolute contributions). There is no position above the plane where the formulas lose all digits.", "quantifier": "all systems of point pixels without cover images, voltages, positions above the plane, orders 0-5; pow accurate to 3/4 unit in the last place", "why_tests_cant": "an error bound over all inputs; tests compare with a tolerance on a few", "anchors": ["electrode/cexpressions.pyx: point_potential, polygon_potential, mesh_potential, point_potential_expr, edge_potential_expr", "electrode/system.py: System.electrical_potential", "electrode/electrode.py: CoverElectrode.potential, MeshPixelElectrode.potential, GridElectrode.potential"]}
{"id": "C165", "title": "The characteristic exponent by integration tells stable from unstable", "statement": "The equation y'' + (a - 2 q cos 2t) y = 0 has one solution for every initial condition. If the integrator is exact, Mathieu.nu_exp_ivp(a, q) returns, when the even solution is at most 1 in absolute value after one period, a real nu in [0, 1] such that some non-zero complex solution is multiplied by exp(i pi nu) in each period; when it returns a number strictly between 0 and 1 without a warning, every solution stays bounded for ever. Otherwise it warns and returns mu + i k (k 0 or 1) with mu > 0 for which a solution grows by (-1)^k exp(pi mu) in each period and is unbounded. Solutions drawn after the warning should be those of the equation.", "quantifier": "all a, q, numbers of steps, solutions and times", "why_tests_cant": "boundedness for ever and for all parameters; a test integrates a few for a finite time", "anchors": ["electrode/mathieu.py: Mathieu.nu_exp_ivp, Mathieu.init_sol, Mathieu.sol_y1"]}
{"id": "C166", "title": "Setting up a solution of Mathieu's equation", "statement": "Mathieu.init_sol(a, q, nc, ng, tol_nu, mode) leaves the object with an exponent and the coefficients that belong to it, in each of the modes 'd0ap', 'det' and 'ivp', and raises ValueError and changes nothing for any other mode. The exponent by the determinant satisfies cos(pi nu) = 1 - 2 D sin(pi sqrt(a)/2)^2 with the determinant D of the truncated matrix; without radio frequency (q = 0) all estimates give cos(pi nu) = cos(pi sqrt(a)). In mode 'det' the exponent is the first whose orders n and 2n agree to the tolerance, in the complex plane; complex exponents are those of growing solutions; solutions before init_sol raise AttributeError.", "quantifier": "all a, q, truncations, tolerances, modes, and states of the object before the call", "why_tests_cant": "must hold for every parameter, including a = 0 and defocusing a < 0, and for every history of the object", "anchors": ["electrode/mathieu.py: Mathieu.nu_exp_det, Mathieu.nu_exp_d0ap, Mathieu.nu_exp_bla, Mathieu.nu_tolerance, Mathieu.init_sol"]}
{"id": "C167", "title": "Error of the truncated series solution", "statement": "Mathieu.sol_y1 and sol_y2, for any a, q, nu and any truncation, and their first derivatives, differ at time t from the even and odd solution of the equation and their derivatives by at most D (exp(K |t|) - 1) / K, where K = (1 + |a| + 2|q|)/2 and D is the sum of the absolute residues of the five rows of the recursion for the coefficients that truncation leaves unsatisfied (orders 0, +-nc, +-(nc+1)). If these rows are satisfied the series is the solution.", "quantifier": "all a, q, nu, truncations, times", "why_tests_cant": "an error bound for all parameters and times", "anchors": ["electrode/mathieu.py: Mathieu.coeff_Cn, Mathieu.sol_y1, Mathieu.sol_y2"]}
{"id": "C168", "title": "Curvatures of a trap add up; no trap without rf", "statement": "The three curvatures System.modes returns at a point add up to 2 rf_coeff^2 times the sum of the squared second derivatives of the rf potential there, whatever the dc voltages are: dc voltages only move curvature from one axis to another. So without rf voltages the three curvatures add up to zero and are never all positive, with rf they are all positive only where the rf field has a gradient, and at a null of the rf field the curvatures of the pseudopotential are never negative. Above the electrodes the static potential, and the potential at any instant, has neither a well nor a hill of quadratic shape (Earnshaw's theorem).", "quantifier": "all systems of electrodes of every kind, voltages, points, times; for the last sentence points where the electrodes' potentials are smooth", "why_tests_cant": "a statement about every point in space and every choice of voltages; tests evaluate a few", "anchors": ["electrode/system.py: System.modes, System.potential, System.pseudo_potential, System.electrical_potential, System.time_potential", "electrode/utils.py: expand_tensor"]}
{"id": "C169", "title": "What an electrode draws is the electrode", "statement": "A polygon electrode draws one shape whose outline consists of exactly the edges of its polygons, each once and in its direction (so holes stay holes), and which encloses the sum of their signed areas. Every polygon carries the label (the electrode's name unless another one is given; an empty one is not drawn) at the mean of its vertices, which is inside a convex polygon. A point electrode draws one disc per point, centred on it and of the point's area. System.plot draws every electrode in order with the given transparency; covers, meshes and grids draw nothing.", "quantifier": "all polygons, points, areas, names, labels and systems", "why_tests_cant": "drawings are looked at, not tested; every shape and number of vertices", "anchors": ["electrode/electrode.py: Electrode.plot, PointPixelElectrode.plot, PolygonPixelElectrode.plot", "electrode/system.py: System.plot"]}
{"id": "C170", "title": "Angles between arrays of vectors", "statement": "angle_between_vectors of two arrays with the same number of dimensions returns, for every index of the axes other than axis, the angle between the two vectors along axis at that index: 0 to pi, or 0 to pi/2 if undirected, nan if a vector is zero. Dimensions of size 1 are repeated. One vector can be compared with an array of any number of dimensions that has its vectors along the last axis. The result does not depend on whether the extension module was imported.", "quantifier": "all arrays of any number of dimensions, shapes, strides, axes, directed or not, vector_norm of Python or of the extension", "why_tests_cant": "the tests use three shapes; broadcasting and the axis interact for every number of dimensions", "anchors": ["electrode/transformations.py: angle_between_vectors, vector_norm", "electrode/transformations.c: py_vector_norm"]}
{"id": "C171", "title": "Sums of the coefficients of a Mathieu solution", "statement": "Mathieu.sum_c returns the sums over all orders -nc..nc of n C, (nu + 2n) C, G C and n G C of the even coefficients C, and of S and (nu + 2n) S of the odd coefficients S. The last one is 1, the second is nu plus twice the first. The second number it prints is 0 whatever nu is; the first consists only of the errors of the recurrence at the truncation, so neither tells whether nu is the characteristic exponent. G C summed, minus 2, contains the error at the order 0 and does tell.", "quantifier": "all a, q, nu, nc, ng for which the coefficients can be computed", "why_tests_cant": "identities between sums of any length; the source says: make it a test in future", "anchors": ["electrode/mathieu.py: Mathieu.sum_c, Mathieu.coeff_Cn, Mathieu.gn"]}
{"id": "C172", "title": "Registering point sets in any number of dimensions", "statement": "For points with n >= 2 coordinates, affine_matrix_from_points without shear and scale returns the (n+1) x (n+1) matrix of the rigid motion (no reflection) with the least sum of squared deviations; if the second points are the images of the first under a rigid motion or, with scale, a similarity, it returns one that maps them onto each other; with shear it returns the affine map itself unless the points lie in a hyperplane. With scale the spread about the centroid becomes that of the second set. ValueError is raised exactly if there are fewer than 2 coordinates, fewer points than coordinates, or the shapes differ. superimposition_matrix uses the first three coordinates.", "quantifier": "all n, all point sets of any size, both algorithms, all competing motions", "why_tests_cant": "an optimum over all rotations in every dimension; the reflection case of the svd occurs on a set of inputs tests rarely hit", "anchors": ["electrode/transformations.py: affine_matrix_from_points, superimposition_matrix"]}
{"id": "C173", "title": "Vector products of arrays of vectors", "statement": "vector_product of two arrays whose vectors lie along the given axis returns, at every index of the other axes after broadcasting, the vector that is perpendicular to both, as long as their parallelogram is large and right-handed; the result has its vectors along the same axis. Vectors of two components lie in the plane, two such give the signed area. Exchanged arguments give the opposite vectors; the lengths agree with the angles of angle_between_vectors. ValueError is raised exactly for axes that do not exist, vectors of other lengths and other axes that do not go together.", "quantifier": "all arrays of any numbers of dimensions and any shapes, all axes", "why_tests_cant": "shapes, axes and broadcasting combine in unboundedly many ways; orthogonality is for all vectors", "anchors": ["electrode/transformations.py: vector_product, angle_between_vectors"]}
{"id": "C174", "title": "The orientation of an electrode is the sign of its potential", "statement": "The property orientations has one number per polygon or pixel of an electrode. A polygon that is the outline of an area has orientation 1 if it runs counter-clockwise and -1 if it runs clockwise, and at every point above the plane it contributes, per volt, a potential of that sign and of magnitude less than 1; so an electrode whose orientations are all positive has a positive potential at positive voltage everywhere above the plane.", "quantifier": "all polygons that can be cut into convex pieces, all pixels, all points above the plane", "why_tests_cant": "infinitely many points and shapes", "anchors": ["electrode/electrode.py: orientations of Electrode, PointPixelElectrode, PolygonPixelElectrode", "electrode/utils.py: area_centroid"]}
{"id": "C175", "title": "The potential in doubles is the potential in the real numbers up to a stated error", "statement": "Above the electrode plane and without cover images, the potential System.electrical_potential computes with doubles differs from its value in the real numbers by at most the relative error of one rounding for every pixel, polygon side, mesh edge, cover and grid it adds up and 21 more, compared to a sum of sizes: a pixel, a cover and a grid count with the magnitude of their own potential, a side at voltage V with 17 |V| times the distance from the point to its nearer end divided by the height of the point. With up to a million such additions the error is below 3e-10 of that sum.", "quantifier": "all systems of pixels, polygons, meshes, covers and grids without cover images, all voltages, all points above the plane, every pow and atan2 accurate to three quarters of a unit in the last place", "why_tests_cant": "the error bound must hold for every double input; a test compares a few", "anchors": ["electrode/cexpressions.pyx: point_potential, polygon_potential, mesh_potential, edge_potential_expr", "electrode/system.py: System.electrical_potential"]}
{"id": "C176", "title": "The images in the cover converge", "statement": "With a cover at height h, the potential of a pixel or polygon electrode at heights z from 0 to h with n images on each side differs from the potential with any larger number of images, and from the limit of infinitely many, by at most S z / (8 pi h^3 n^2), S being the area of the electrode; the limit exists, is 0 on the cover, and differs from the potential without images by at most 17 S z / (8 pi h^3), so that the potential on the electrode plane is kept.", "quantifier": "all pixel electrodes, all polygon electrodes whose outlines can be cut into convex pieces, all cover heights, all points between the plane and the cover, all numbers of images", "why_tests_cant": "a statement about the limit of infinitely many images at every point between the planes", "anchors": ["electrode/electrode.py: SurfaceElectrode, PointPixelElectrode.potential, PolygonPixelElectrode.potential", "electrode/cexpressions.pyx: point_potential, polygon_potential"]}
{"id": "C177", "title": "With many images the potential is that below a conducting cover", "statement": "Between the electrode plane and a cover at height h there is exactly one continuous potential without charges in between that takes the voltages of the electrodes on the plane and that of the cover electrodes on the cover (and stays a bounded amount from the potential without images). What System.electrical_potential returns with cover_nmax = n differs from it at height z by at most the sum of |voltage| times area of the electrodes, times z / (8 pi h^3 n^2), and the first derivatives it returns converge to the derivatives of that potential.", "quantifier": "all systems of pixel electrodes, polygon electrodes whose outlines can be cut into convex pieces and cover electrodes at one height, all voltages, all points between the planes, all numbers of images", "why_tests_cant": "a statement about the solution of a boundary value problem at every point", "anchors": ["electrode/system.py: System.electrical_potential", "electrode/electrode.py: CoverElectrode, SurfaceElectrode, PointPixelElectrode.potential, PolygonPixelElectrode.potential", "electrode/cexpressions.pyx: point_potential, polygon_potential"]}
{"id": "C178", "title": "The potential is the one with the voltages on the electrodes and 0 on the rest of the plane", "statement": "Above the plane there is exactly one bounded continuous potential without charges that tends to the voltage of each electrode inside the electrode and to 0 outside all electrodes (whatever it does on the edges), and it is what System.electrical_potential returns, as is its gradient. Below a cover at height h that is at the voltage of the cover electrodes there is also exactly one, and what System.electrical_potential returns with cover_nmax = n differs from it at height z by at most the sum of |voltage| times area of the electrodes, times z / (8 pi h^3 n^2); the gradient converges to its gradient. MeshPixelElectrode.from_polygon_system makes of the electrodes one electrode with that potential.", "quantifier": "all systems of polygon electrodes that can be cut into convex pieces, none of which overlap (and cover electrodes at one height), all voltages, all points above the plane (below the cover), all numbers of images", "why_tests_cant": "a statement about the solution of a boundary value problem at every point", "anchors": ["electrode/system.py: System.electrical_potential", "electrode/electrode.py: PolygonPixelElectrode.potential, CoverElectrode, SurfaceElectrode", "electrode/cexpressions.pyx: polygon_potential"]}
{"id": "C179", "title": "Turning or mirroring the electrodes turns the fields with them", "statement": "If all electrodes are turned about the z axis by any angle, with or without a mirroring in their plane, then what System.electrical_potential returns at the turned point, for all derivatives up to order 5, is what it returned for the original electrodes, with the axes of the tensor turned; System.pseudo_potential turns likewise up to order 4. So a layout with a symmetry has fields with this symmetry, and on a mirror plane y = 0 all entries with an odd number of y are 0. The derivative of each entry along any direction is the combination of the entries of the next order.", "quantifier": "all systems of electrodes, voltages, angles, points off the electrodes and images, orders up to 5 (4 for the pseudopotential and for derivatives along a direction)", "why_tests_cant": "a statement about every angle and every layout; the closed forms do not show the symmetry", "anchors": ["electrode/system.py: System.electrical_potential, System.pseudo_potential", "electrode/electrode.py: PointPixelElectrode.potential, PolygonPixelElectrode.potential, MeshPixelElectrode.potential", "electrode/cexpressions.pyx: point_potential, polygon_potential, mesh_potential", "electrode/expressions.py"]}
{"id": "C180", "title": "Positive curvatures mean a trap", "statement": "At a point off the electrodes the potential is, up to terms of higher than second order, the expansion made of what System.potential returns for derivatives 0, 1 and 2. Where the gradient is 0 and the three curvatures of System.modes are positive, the potential has a strict minimum; at every minimum the gradient is 0 and no curvature is negative. The pseudopotential is nowhere negative, it is 0 exactly where the rf field is 0, and if the derivative of the rf field is invertible there, it has a strict minimum. No potential has a strict maximum off the electrodes, and neither a static potential nor the potential at an instant of the drive has a strict minimum.", "quantifier": "all systems of electrodes, voltages, rf scales and points off the electrodes and images; all correct eigenvalue routines", "why_tests_cant": "a statement about all points of a neighbourhood", "anchors": ["electrode/system.py: System.potential, System.pseudo_potential, System.electrical_potential, System.modes, System.minimum"]}
{"id": "C181", "title": "Derivatives in doubles are the derivatives in the real numbers up to a stated error", "statement": "Above the electrode plane, away from the sides of the electrodes and without cover images, every entry of the derivatives of order 1 to 5 that System.electrical_potential computes with doubles differs from its value in the real numbers by at most the relative error of one rounding for every pixel, side, edge, cover and grid it adds up and at most 242 more, compared to a sum of sizes. A side of one volt with the distances r1 and r2 of its ends, the larger one r, and L = (r1+r2)^2 minus the square of its length, counts with a constant times r^(5d) / ((r1 r2)^(2d-1) L^(d+1)); a pixel with a constant times its area over 2 pi r^(d+2). With up to a million such additions the error is below 3e-10 of that sum. Points at least a millionth of the distances of the ends above the plane are away from a side.", "quantifier": "all systems of pixels, polygons, meshes, covers and grids without cover images, all voltages, orders 1 to 5, all entries, all points above the plane with r^2 <= 10^12 L for every side, every pow accurate to three quarters of a unit in the last place", "why_tests_cant": "the error bound must hold for every double input; a test compares a few", "anchors": ["electrode/cexpressions.pyx: point_potential, polygon_potential, mesh_potential, point_potential_expr, edge_potential_expr", "electrode/system.py: System.electrical_potential"]}
{"id": "C182", "title": "Images in the cover do not take the potential out of its range", "statement": "If the potential of pixel and polygon electrodes without cover images stays between two values above the plane, it stays between them everywhere between the plane and the cover for any number of images, and does not reach a value it does not reach without images. So the potential of electrodes that do not overlap stays between the lowest and highest of their voltages and 0, strictly if those differ from 0; an electrode with positive orientations, or pixels of positive area, at a positive voltage give a positive potential. The potential below a conducting cover stays between 0 and the voltages of electrodes and cover.", "quantifier": "all pixel and polygon electrodes with the same cover_height and cover_nmax, all numbers of images, all voltages, all points between the plane and the cover", "why_tests_cant": "every image changes sign along z, every number of images and every point", "anchors": ["electrode/electrode.py: SurfaceElectrode, PointPixelElectrode.potential, PolygonPixelElectrode.potential", "electrode/cexpressions.pyx: point_potential, polygon_potential", "electrode/system.py: System.electrical_potential"]}
{"id": "C183", "title": "The pseudopotential in doubles is the one in the real numbers up to a stated error", "statement": "Above the electrode plane, away from the sides of the electrodes and without cover images, every entry of System.pseudo_potential of order 0 to 4 computed with doubles differs from its value in the real numbers by at most the relative error of two roundings for every pixel, side, edge, cover and grid a derivative adds up and at most 499 more, compared to the same combination of products of the sizes of the derivatives (C181). The same holds of System.potential for the orders 1 to 4 with one rounding more. With up to a million such additions both errors are below 5e-10 of the sizes. The pseudopotential computed with doubles is never negative. Which errors are raised does not depend on the rounding.", "quantifier": "all systems of pixels, polygons, meshes, covers and grids without cover images, all voltages and rf coefficients, orders 0 to 4, all entries, all points above the plane and away from the sides as in C181, every order in which einsum may add its three products", "why_tests_cant": "the error bound must hold for every double input and every order of summation; a test compares a few", "anchors": ["electrode/system.py: System.pseudo_potential, System.potential, System.electrical_potential", "electrode/utils.py: expand_tensor"]}
{"id": "C184", "title": "Below a cover, with images, the potentials in doubles are those in the real numbers up to a stated error", "statement": "Above the electrode plane and not above the cover, System.electrical_potential computed with doubles, cover images included, differs from its value in the real numbers by at most the relative error of one rounding for every addition of the program, images counted, and 33 more (potential) or at most 371 more (derivatives of order 1 to 5, away from the sides), compared to the sum of the sizes of what is added as seen from the point and from its images; with up to a million additions the error is below 3e-10 of the sizes. System.pseudo_potential of the orders 0 to 4 and System.potential of the orders 1 to 4 follow with twice as many roundings, below 5e-10 of the sizes. A point is away from all sides, and so are its images, if the ends of all sides are within a million times its height.", "quantifier": "all systems of pixels, polygons and meshes with any numbers of cover images and any cover heights, covers and grids, all voltages, orders 0 to 5, all points above the plane and not above the cover of an electrode with images", "why_tests_cant": "the error bound must hold for every double input, every number of images and every cover height; a test compares a few", "anchors": ["electrode/cexpressions.pyx: point_potential, polygon_potential, mesh_potential", "electrode/electrode.py: PointPixelElectrode.potential, PolygonPixelElectrode.potential, MeshPixelElectrode.potential", "electrode/system.py: System.electrical_potential, System.pseudo_potential, System.potential"]}
{"id": "C185", "title": "More voltage on the plane means more potential everywhere", "statement": "Let the plane be at the voltage of the electrode at each point and at 0 outside the electrodes. If in one layout it is nowhere at a lower voltage than in another, System.electrical_potential is nowhere above the plane lower; if it is higher at one point that is not on a side, the potential is higher everywhere. Two layouts have the same potential above the plane exactly if the plane is at the same voltages in both: how the area is cut into electrodes and polygons and in which order these come makes no difference. Raising voltages of given electrodes raises the potential, whether they overlap or not. The comparison of two layouts also holds with any number of cover images, at the points up to the cover; and the potential below a conducting cover, which these results approximate, does not fall if voltages of the plane rise, rises everywhere if one rises somewhere and none falls, and rises at height z by at least z/h times what is added to the voltage of a cover at height h.", "quantifier": "all pairs of systems of polygon electrodes, convex or not, with holes or without, that do not overlap; all voltages and all points above the plane; all heights of the cover and numbers of images", "why_tests_cant": "a comparison at every point of space of all pairs of layouts; a test compares two layouts at a few points", "anchors": ["electrode/electrode.py: PolygonPixelElectrode.potential", "electrode/system.py: System.electrical_potential"]}
{"id": "C186", "title": "Seen from far away electrodes are their areas times their voltages", "statement": "For electrodes within a disc of radius r, at a point at the distance d > r from its centre and the height z above the plane, System.electrical_potential is at most the sum of area times |voltage| times z / (2 pi (d - r)^3); it is the sum of area times voltage times z / (2 pi d^3) up to the first sum times 3 r z / (2 pi (d - r)^4), so the potential times 2 pi d^3 / z converges to it; and with the term of the next order, which contains the centroids, up to 3 z r^2 / (pi (d - r)^5) times the first sum. Each component of the gradient (derivative order 1) is at most the first sum times 2 / (pi (d - r)^3), so the pseudopotential is at most 12 (first sum of the rf voltages)^2 / (pi^2 (d - r)^6) times the square of its coefficient. Area and centroid are those of area_centroid.", "quantifier": "all systems of polygon electrodes, convex or not, with holes or without, that do not overlap, without cover images; all voltages and all points above the plane outside the disc", "why_tests_cant": "bounds and limits over all layouts and an unbounded region; a test samples some points", "anchors": ["electrode/utils.py: area_centroid", "electrode/electrode.py: PolygonPixelElectrode.potential", "electrode/system.py: System.electrical_potential"]}
{"id": "C187", "title": "The highest potential of a region is at its surface", "statement": "If System.potential, static, pseudopotential or both together, does not exceed C at the surface of a bounded region above the plane off the electrodes, it does not exceed C inside. The static potential and the potential at an instant of the rf drive are not below the lowest surface value either. For polygon electrodes that do not overlap the first holds also for regions without bound if C >= 0, so a bound at one height holds at all greater heights. If the highest value of a region is reached at an inner point, the potential has this value at all points linked with it inside; a positive bound at one height is not reached at greater heights.", "quantifier": "all systems, coefficients and types of potential, all open regions above the plane, of any shape, in which no point is on an electrode or an image of one; all limits at the surface from inside; without bound: systems of polygon electrodes without cover images", "why_tests_cant": "a statement about all points of all regions; a test compares finitely many points", "anchors": ["electrode/system.py: System.potential, System.electrical_potential, System.pseudo_potential", "electrode/electrode.py: PolygonPixelElectrode.potential, PointPixelElectrode.potential"]}
{"id": "C188", "title": "What two layouts differ by at one height bounds what they differ by above", "statement": "If System.electrical_potential of two systems differs by at most eps at every point of one height above the plane, it differs by at most eps at every point of all greater heights, and by less than eps if eps > 0. The same holds for each component of the gradient (derivative order 1). So the potential or the gradient at one height determines it above: an approximation, for instance by pixels, has to be compared at one height only.", "quantifier": "all pairs of systems of pixel electrodes and polygon electrodes that can be cut into convex pieces, overlapping or not, without cover images; all voltages, heights, eps and points", "why_tests_cant": "infinitely many points at one height imply a bound at infinitely many points above; a test compares finitely many points", "anchors": ["electrode/system.py: System.electrical_potential", "electrode/electrode.py: PointPixelElectrode.potential, PolygonPixelElectrode.potential, PolygonPixelElectrode.to_points"]}
