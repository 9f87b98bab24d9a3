{"claims": [
  {"property": "C01", "status": "proved", "theorems": ["C01_I2H_H2I", "C01_H2I_I2H", "C01_point_mass", "C01_H2I_symmetric", "C01_I2H_symmetric", "C01_H2I_raise", "C01_I2H_raise"], "note": ""},
  {"property": "C02", "status": "proved", "theorems": ["C02_from_vec_vec", "C02_vec_from_vec", "C02_vec_order", "C02_from_vec_massless", "C02_from_vec_negative", "C02_from_vec_length"], "note": "Exact real arithmetic."},
  {"property": "C03", "status": "proved", "theorems": ["C03_from_pim_J", "C03_pim_round_trip", "C03_from_pim_row", "C03_from_pim_shape", "C03_from_pim_negative", "C03_from_pim_massless"], "note": ""},
  {"property": "C04", "status": "proved", "theorems": ["C04_vec_pim", "C04_vec_pim_object", "C04_linear", "C04_injective", "C04_shape"], "note": ""},
  {"property": "C05", "status": "proved", "theorems": ["C05_congruence", "C05_compose", "C05_identity", "C05_inverse"], "note": ""},
  {"property": "C06", "status": "proved", "theorems": ["C06_moves_points", "C06_central_second_moment", "C06_central_inertia", "C06_mass_com", "C06_consistent"], "note": ""},
  {"property": "C07", "status": "proved", "theorems": ["C07_add_J", "C07_commutative", "C07_associative", "C07_combined_system", "C07_sum_J", "C07_sum_system", "C07_massless"], "note": ""},
  {"property": "C08", "status": "proved", "theorems": ["C08_moments", "C08_psd", "C08_com_hull", "C08_errors"], "note": ""},
  {"property": "C09", "status": "proved", "theorems": ["C09_consistent_psd", "C09_consistent_body", "C09_eigvals_diag"], "note": "Premise: the eigenvalue routine returns exactly the eigenvalues of J (eigvals_spec)."},
  {"property": "C10", "status": "proved", "theorems": ["C10_parallel_axis", "C10_second_moment", "C10_point_mass", "C10_h_com", "C10_errors"], "note": ""},
  {"property": "C11", "status": "proved", "theorems": ["C11_regressor"], "note": ""},
  {"property": "C12", "status": "proved", "theorems": ["C12_newton"], "note": ""},
  {"property": "C13", "status": "proved", "theorems": ["C13_kinetic_energy", "C13_nonneg", "C13_symmetric", "C13_gyroscopic_power"], "note": ""},
  {"property": "C14", "status": "proved", "theorems": ["C14_skew3", "C14_lift3", "C14_lift6", "C14_contact_jacobian", "C14_not_3"], "note": ""},
  {"property": "C15", "status": "proved", "theorems": ["C15_parts", "C15_from_vec", "C15_from_vec_raise", "C15_operations", "C15_adjoint", "C15_antisymmetric", "C15_jacobi", "C15_random"], "note": "C15_random: for laws of the draws with finitely many outcomes; the factor computed by numpy is an argument."},
  {"property": "C16", "status": "proved", "theorems": ["C16_unvech_vech", "C16_vech_unvech", "C16_vech_rows", "C16_unvech_raise", "C16_vech_raise"], "note": ""},
  {"property": "C17", "status": "proved", "theorems": ["C17_rounding", "C17_float", "C17_float_agrees", "C17_float_complete", "C17_float_reject", "C17_float_int_refuted", "C17_float_float_refuted", "C17_float_big", "C17_exact"], "note": "Exact arithmetic for every real; binary64 (Model/FloatUtil.v, rounding by Flocq) equivalence for every integer below 2^49, given as int or float, no false negatives while 8x+1 < 2^64, false positives refuted with witnesses for int and float, TypeError beyond 2^61. Overflow to infinity and nan are not modelled."},
  {"property": "C18", "status": "proved", "theorems": ["C18_float", "C18_float_raise", "C18_float_strict_refuted", "C18_float_cover_refuted", "C18_float_empty_refuted", "C18_exact", "C18_raise"], "note": "Exact arithmetic for every positive input; binary64: every returned time within relative error 2^-53 of k*step, ordered, below duration*(1+2^-53)^2, count covers the duration up to 2^-53. The strict bound, covering and n >= 1 are refuted in binary64 (2.1/0.3, 0.9/0.3, underflow). Overflow to infinity is not modelled."},
  {"property": "C19", "status": "proved", "theorems": ["C19_apply", "C19_default", "C19_inverse", "C19_inverse_needs_dimension_3", "C19_inverse_other_dimension_refuted"], "note": "The expectation that transform_matrix_inv works in every dimension is refuted for every dimension other than 3."},
  {"property": "C20", "status": "proved", "theorems": ["C20_vertices", "C20_count", "C20_hull"], "note": ""},
  {"property": "C21", "status": "proved", "theorems": ["C21_membership", "C21_tolerance", "C21_vertices", "C21_array", "C21_constructor", "C21_negative"], "note": ""},
  {"property": "C22", "status": "proved", "theorems": ["C22_membership", "C22_small_extents_are_zero", "C22_constructor", "C22_negative"], "note": ""},
  {"property": "C23", "status": "proved", "theorems": ["C23_forms", "C23_degenerate_not_finite"], "note": ""},
  {"property": "C24", "status": "proved", "theorems": ["C24_reflexive", "C24_finite", "C24_same_points", "C24_degenerate_never_same", "C24_degenerate_refuted", "C24_different_refuted"], "note": ""},
  {"property": "C25", "status": "proved", "theorems": ["C25_membership", "C25_complete", "C25_tolerance_ignored", "C25_constructor", "C25_negative"], "note": ""},
  {"property": "C26", "status": "proved", "theorems": ["C26_union", "C26_hull", "C26_convex", "C26_complete", "C26_sound", "C26_tolerance_refuted"], "note": "Membership is the union of cylinder and caps and equals the convex hull at tol = 0; the expectation that tol widens the cylinder part is refuted (C26_tolerance_refuted)."},
  {"property": "C27", "status": "proved", "theorems": ["C27_box", "C27_box_total", "C27_box_compose", "C27_box_default", "C27_box_about_center", "C27_ellipsoid", "C27_ellipsoid_total", "C27_ellipsoid_compose", "C27_ellipsoid_default", "C27_cylinder", "C27_cylinder_total", "C27_cylinder_compose", "C27_cylinder_default", "C27_capsule", "C27_capsule_total", "C27_capsule_compose", "C27_capsule_default", "C27_capsule_zero_radius_refuted", "C27_face_form", "C27_polyhedron"], "note": "Capsules: equality of contains needs radius > 1e-8 or tol = 0; refuted otherwise (C27_capsule_zero_radius_refuted). Polyhedra at tol = 0, premise: the double description routine is correct on the moved vertices."},
  {"property": "C28", "status": "proved", "theorems": ["C28_points", "C28_polyhedron", "C28_polyhedron_total", "C28_ellipsoid", "C28_cylinder", "C28_cylinder_total", "C28_capsule", "C28_contains", "C28_least"], "note": ""},
  {"property": "C29", "status": "proved", "theorems": ["C29_box_mie", "C29_box_mie_sphere", "C29_box_mie_total", "C29_box_mbe", "C29_box_mbe_sphere", "C29_box_mbe_total", "C29_ellipsoid_mbb", "C29_ellipsoid_mib", "C29_ellipsoid_mbe_sphere", "C29_ellipsoid_total", "C29_cylinder_mib", "C29_cylinder_mbb", "C29_cylinder_mbe", "C29_cylinder_mbe_sphere", "C29_cylinder_total", "C29_capsule_mbb", "C29_capsule_total"], "note": ""},
  {"property": "C30", "status": "proved", "theorems": ["C30_box_mie", "C30_box_mbe", "C30_ellipsoid_mbb", "C30_ellipsoid_mib", "C30_box_mie_sphere", "C30_cylinder_mbe", "C30_cylinder_mib", "C30_box_mbe_sphere_larger", "C30_box_mbe_sphere_refuted"], "note": "Box.mbe(sphere=True) is refuted as the smallest bounding sphere for every non-cubic box (C30_box_mbe_sphere_refuted)."},
  {"property": "C31", "status": "proved", "theorems": ["C31_polyhedron", "C31_polyhedron_zero", "C31_box", "C31_ellipsoid", "C31_cylinder", "C31_capsule"], "note": ""},
  {"property": "C32", "status": "proved", "theorems": ["C32_polyhedron", "C32_ellipsoid", "C32_cylinder"], "note": ""},
  {"property": "C33", "status": "proved", "theorems": ["C33_equality", "C33_reflexive", "C33_transitive", "C33_symmetric_same_class", "C33_box_and_polyhedron", "C33_asymmetric_refuted"], "note": "Premise poly_agree: the face and vertex forms describe the same set (proved for boxes and for polyhedra built from vertices given a correct double description). Symmetry across classes is refuted."},
  {"property": "C34", "status": "proved", "theorems": ["C34_stack", "C34_stack_total", "C34_equalities", "C34_equalities_mismatch", "C34_cdd_rows", "C34_roundtrip", "C34_from_cdd", "C34_from_cdd_total", "C34_all_equalities", "C34_stack_count", "C34_from_cdd_count", "C34_rays_count"], "note": ""},
  {"property": "C35", "status": "proved", "theorems": ["C35_empty", "C35_points", "C35_total", "C35_equalities_only", "C35_all_equalities_refuted", "C35_unbounded", "C35_bounded"], "note": "Premise: the double description routine is correct on the stacked inequalities and on the resulting vertices. When it answers with equalities only, intersect raises IndexError although the intersection is not empty (C35_all_equalities_refuted, concrete case C35_example_point)."},
  {"property": "C36", "status": "proved", "theorems": ["C36_bounded", "C36_rays_rotation", "C36_rays_translation_refuted"], "note": "Holds without rays and for pure rotations; refuted for rays under translation (C36_rays_translation_refuted)."},
  {"property": "C37", "status": "proved", "theorems": ["C37_set", "C37_bounded", "C37_cone", "C37_roundtrip", "C37_empty", "C37_from_cdd", "C37_to_cdd", "C37_to_cdd_nothing"], "note": ""},
  {"property": "C38", "status": "proved", "theorems": ["C38_psd_matrix", "C38_weight_vectors", "C38_weight_vectors_zero", "C38_hypersphere", "C38_hypersphere_zero", "C38_ball", "C38_ball_covers", "C38_ball_one", "C38_box", "C38_box_covers", "C38_ellipsoid", "C38_ellipsoid_covers", "C38_ellipsoid_one", "C38_cylinder", "C38_cylinder_covers", "C38_polyhedron", "C38_polyhedron_covers", "C38_capsule", "C38_capsule_total", "C38_inertial"], "note": "Draws are universally quantified over numpy's documented ranges. Proved: points in the shape, and (covers) every interior point is obtained by some draw. random_points_in_ball accepts dim=1 in its assertion but always fails (C38_ball_one), so 1-d ellipsoids have no random points. Weight vectors / sphere points are non-finite exactly for an all-zero row of draws. Distribution (uniformity) is not modelled."},
  {"property": "C39", "status": "proved", "theorems": ["C39_box_edges", "C39_box_edges_cover", "C39_box_edges_zero", "C39_box_surface", "C39_box_surface_cover", "C39_box_surface_error", "C39_box_surface_moved", "C39_box_surface_translated_refuted", "C39_box_surface_rotated_refuted", "C39_ellipsoid_surface", "C39_ellipsoid_surface_symmetric", "C39_ellipsoid_surface_cover", "C39_ellipsoid_surface_rotated_refuted", "C39_ellipsoid_surface_degenerate", "C39_ellipsoid_surface_one", "C39_ellipsoid_surface_fuel", "C39_ellipsoid_surface_progress"], "note": "Edges: correct for every pose. Findings (refuted expectations): Box.random_points_on_surface applies the pose twice (every translated box has a draw that leaves the box; a rotated witness) and raises IndexError for n=1; Ellipsoid.random_points_on_surface rotates by the transpose: the points lie on the ellipsoid with the transposed rotation, which is the right one only for symmetric rotations; witness given."},
  {"property": "C40", "status": "proved", "theorems": ["C40_rejection", "C40_rejection_points", "C40_requests", "C40_missing", "C40_never", "C40_progress"], "note": "missing/accepted in Spec/RandomSpec.v define independently how many points are missing before each try and which were accepted. The result is Ok of the accepted points exactly when the missing count reaches 0 within max_tries, else ValueError; C40_requests: the answer depends only on the requested batches."},
  {"property": "C41", "status": "proved", "theorems": ["C41_box_points", "C41_box_count", "C41_box_inside", "C41_box_contained", "C41_box_corners", "C41_ellipsoid", "C41_cylinder", "C41_capsule", "C41_polyhedron", "C41_zero"], "note": ""},
  {"property": "C42", "status": "proved", "theorems": ["C42_box", "C42_ellipsoid", "C42_degenerate_ellipsoid"], "note": ""},
  {"property": "C43", "status": "proved", "theorems": ["C43_basis", "C43_dimension", "C43_first", "C43_order_zero", "C43_ones", "C43_ones_order_zero"], "note": "basis(n, 0) holds the Python integer 0 instead of a multi-index, so ones(n, 0) raises TypeError (C43_order_zero, C43_ones_order_zero)."},
  {"property": "C44", "status": "proved", "theorems": ["C44_evaluate", "C44_add", "C44_localize", "C44_localize_mismatch", "C44_affine", "C44_init_wellformed", "C44_affine_wellformed", "C44_no_zero_stored", "C44_init_function", "C44_degree", "C44_degree_total", "C44_degree_zero_polynomial", "C44_substitute", "C44_substitute_missing"], "note": "Statements assume each stored index has n entries (the constructor theorem shows when this holds); degree of the zero polynomial raises ValueError, localize with an index of the wrong length raises AssertionError, and substitute with a missing moment raises KeyError."},
  {"property": "C45", "status": "proved", "theorems": ["C45_moment_matrix", "C45_localize", "C45_localizing_constraints", "C45_too_high", "C45_moment_constraints_mean", "C45_localizing_constraints_mean", "C45_order_zero"], "note": "Proved for d >= 1. For d = 0 every localize call on a non-zero constant raises AttributeError (C45_order_zero), because basis(n, 0) holds an integer. The constraint lists are also characterised exactly for arbitrary matrices."},
  {"property": "C46", "status": "proved", "theorems": ["C46_body", "C46_body_centres", "C46_body_capsule", "C46_polyhedron", "C46_box", "C46_cylinder", "C46_polyhedron_centre", "C46_box_centre", "C46_cylinder_centre", "C46_trivial_face", "C46_order_zero"], "note": "Proved for polyhedra, boxes, cylinders and bodies of any number of shapes, for every relaxation order d > 0 (for d = 1 as well). The centre theorems show the constraints are not void. Order 0 raises ValueError; a face 0 <= 0 raises ValueError; a body containing a capsule raises AttributeError."},
  {"property": "C47", "status": "proved", "theorems": ["C47_vertex_constraints", "C47_bounds"], "note": "Proved with the margin: realizable and J - eps I PSD imply the constraints; the constraints imply the margin, a centre of mass in the hull, and second moments bounded by the vertices."},
  {"property": "C48", "status": "proved", "theorems": ["C48_custom_box"], "note": "The custom constraints imply the general vertex constraints (last conjunct)."},
  {"property": "C49", "status": "proved", "theorems": ["C49_custom_cylinder", "C49_defined", "C49_bounds", "C49_thin"], "note": "Proved for a radius that is 0 or above 1e-8. A radius in (0, 1e-8] raises ValueError (C49_thin). For eps > 0 the constraints are infeasible for every J (C49_defined), because the margin is passed on to the flat disks."},
  {"property": "C50", "status": "proved", "theorems": ["C50_test", "C50_constraints", "C50_test_margin", "C50_thin_test", "C50_thin_constraints"], "note": "Both directions, for the test and for the constraints."},
  {"property": "C51", "status": "proved", "theorems": ["C51_test", "C51_constraints", "C51_mixed", "C51_test_exact_refuted"], "note": "The constraints are exact; the test is only necessary: it accepts parameters off the plane within tolerance (C51_test_exact_refuted)."},
  {"property": "C52", "status": "proved", "theorems": ["C52_ellipsoid", "C52_vertex", "C52_box_custom", "C52_polyhedron_sdp_margin_dropped", "C52_polyhedron_sdp_refuted", "C52_box_sdp_margin_dropped", "C52_box_sdp_refuted", "C52_cylinder_sdp_margin_dropped", "C52_cylinder_sdp_refuted", "C52_flat_ellipsoid"], "note": "The expectation holds for ellipsoids, vertex and custom box constraints, and fails for the three moment relaxations (refuted for every eps > 0). Flat ellipsoids are infeasible for every positive margin."},
  {"property": "C53", "status": "proved", "theorems": ["C53_s_procedure", "C53_code_condition", "C53_unit_sphere_sound", "C53_unit_sphere_iff", "C53_concentric_spheres", "C53_size_refuted", "C53_false_refuted", "C53_unit_spheres_anywhere", "C53_place_refuted", "C53_dimensions", "C53_mbe_code_condition", "C53_mbe_unit_spheres", "C53_mbe_sphere_best", "C53_mbe_sphere_feasible", "C53_mbe_sphere_result", "C53_mbe_refuted"], "note": "The user's expectation is refuted (C53_*_refuted) for the faithful model; positive results for unit spheres and a sound S-procedure are proved. Solver, eigh and linear solve are arguments with premises."},
  {"property": "C54", "status": "proved", "theorems": ["C54_points_feasible", "C54_mbe_contains", "C54_mbe_minimal", "C54_halfspaces_feasible", "C54_mie_inside", "C54_mie_maximal", "C54_poly_mie", "C54_empty"], "note": "Feasible sets are characterised in every dimension; results of the functions contain the points / are inscribed for every feasible solver answer, minimal / maximal volume for optimal answers (full-dimensional points). mbe_of_points with sphere=True is not modelled beyond its constraints: the code rebinds r to a cvxpy variable. External routines orth, null_space, eigh, lstsq, inv, log_det and the solver are arguments with premises."},
  {"property": "C55", "status": "proved", "theorems": ["C55_from_shape_matrix", "C55_from_affine", "C55_singular"], "note": ""},
  {"property": "C56", "status": "proved", "theorems": ["C56_sound", "C56_zero_tolerance", "C56_complete_when_separated", "C56_incomplete", "C56_complete_refuted", "C56_shape", "C56_answers"], "note": "Soundness, completeness for zero tolerances and for separated rows; the greedy choice is incomplete in general (C56_complete_refuted)."},
  {"property": "C57", "status": "proved", "theorems": ["C57_box_region", "C57_cylinder_region", "C57_ellipsoid_region", "C57_box_uniform", "C57_box_hollow", "C57_box_wireframe", "C57_cylinder_uniform", "C57_ellipsoid_uniform", "C57_box_flat", "C57_cylinder_flat", "C57_ellipsoid_flat", "C57_ellipsoid_not_plate", "C57_ellipsoid_plate_refuted", "C57_massless", "C57_negative_mass"], "note": "Riemann integrals (Coquelicot is_RInt) over iterated regions that are proved to be the shapes; every pose and mass > 0; flat shapes as images of the unit shape. Refuted for flat ellipsoids read as uniform elliptic plates; mass 0 is NonFinite."},
  {"property": "C58", "status": "proved", "theorems": ["C58_surface", "C58_area_element", "C58_sphere", "C58_spheroid_differs", "C58_spheroid_refuted"], "note": "Sphere: equals the surface integral for every pose. All spheroids (a,a,c) with c <= a/20: refuted. Parametrisation covers the boundary and the area element is the norm of the cross product of the derivatives."},
  {"property": "C59", "status": "proved", "theorems": ["C59_box_uniform", "C59_box_hollow", "C59_box_wireframe", "C59_ellipsoid_uniform", "C59_ellipsoid_hollow", "C59_cylinder_uniform", "C59_ellipsoid_accepts_uniform", "C59_ellipsoid_accepts_hollow", "C59_box_uniform_moves", "C59_box_hollow_moves", "C59_box_wireframe_moves", "C59_ellipsoid_uniform_moves", "C59_ellipsoid_hollow_moves", "C59_cylinder_uniform_moves", "C59_vertex_masses", "C59_vertex_mass"], "note": "Mass, centre of mass, positive semidefinite J, realizability on the shape (eight explicit point masses), acceptance by Ellipsoid.can_realize and equivariance for all six methods; vertex point masses of polyhedra."},
  {"property": "C60", "status": "proved", "theorems": ["C60_add", "C60_add_realizable", "C60_sum", "C60_add_massless", "C60_transform", "C60_transform_realizable", "C60_transform_total", "C60_mbes", "C60_mbes_ellipsoid"], "note": "Adding two bodies built without parameters gives non-finite parameters (C60_add_massless). Transforming polyhedra presupposes a correct double description of the moved vertices. mbes raises TypeError at the first ellipsoid."},
  {"property": "C61", "status": "proved", "theorems": ["C61_closest", "C61_distance", "C61_symmetric", "C61_invariant", "C61_separating", "C61_solver", "C61_exists"], "note": "The solver is an argument; the premise is that its answer minimises the problem built by the code, and C61_exists shows that a minimiser always exists. Failing solvers are not modelled. Also proved: the returned points carry separating planes."},
  {"property": "C62", "status": "proved", "theorems": ["C62_other_shape", "C62_raises"], "note": "Capsule.is_same always raises TypeError on another capsule."},
  {"property": "C63", "status": "proved", "theorems": ["C63_positive", "C63_zero", "C63_negative"], "note": ""},
  {"property": "C64", "status": "proved", "theorems": ["C64_value", "C64_zero", "C64_weight_ignored", "C64_no_data"], "note": "Exact arithmetic. The W argument is ignored; no data gives nan."},
  {"property": "C65", "status": "proved", "theorems": ["C65_few_points", "C65_hull"], "note": "Premise: the canonicalisation routine keeps a subset of the rows with the same hull."},
  {"property": "C66", "status": "proved", "theorems": ["C66_reflexive", "C66_quarter_turn", "C66_rotation_refuted"], "note": ""},
  {"property": "C67", "status": "proved", "theorems": ["C67_cylinder_mbb", "C67_capsule_mbb", "C67_ellipsoid_sphere", "C67_cylinder_sphere", "C67_cylinder_sphere_refuted"], "note": "C67_cylinder_sphere_refuted: Cylinder.mbe(sphere=True) is not the smallest bounding sphere (finding); C67_cylinder_sphere says so for every cylinder with L^2 <> 2 r^2."},
  {"property": "C68", "status": "proved", "theorems": ["C68_box_volume", "C68_cylinder_volume", "C68_ellipsoid_volume", "C68_ellipsoid_flat", "C68_ellipse_area", "C68_ellipse_refuted", "C68_diagonal", "C68_diagonal_attained", "C68_unique_box", "C68_unique_shell", "C68_unique_frame", "C68_unique_cylinder", "C68_unique_ellipsoid", "C68_unique_surface", "C68_unique_plate", "C68_unique_stretched", "C68_parameters"], "note": "C68_ellipse_refuted: Ellipsoid.volume of a two-dimensional ellipsoid is not its area (finding)."},
  {"property": "C69", "status": "proved", "theorems": ["C69_cube", "C69_cube_total", "C69_sides", "C69_sides_total", "C69_as_poly", "C69_simplex", "C69_simplex_error", "C69_halfspaces", "C69_halfspaces_total", "C69_halfspaces_empty", "C69_halfspaces_unbounded", "C69_rotate_about_center"], "note": "The double-description routines are arguments constrained by ineqs_correct / gens_correct / hcanon_correct (Spec/DoubleDesc.v)."},
  {"property": "C70", "status": "proved", "theorems": ["C70_entries", "C70_reflexive", "C70_symmetric_refuted", "C70_tiny", "C70_tiny_refuted"], "note": "C70_symmetric_refuted and C70_tiny_refuted record where is_same is not the equality a user expects (findings)."},
  {"property": "C71", "status": "proved", "theorems": ["C71_contains", "C71_minimal"], "note": "solver, eigh, orth, null_space, lstsq and log_det are arguments constrained by their specifications; sphere=False."},
  {"property": "C72", "status": "proved", "theorems": ["C72_box_surface", "C72_box_edges", "C72_face_shares", "C72_edge_shares", "C72_ball", "C72_ellipsoid_surface"], "note": "What the code hands to the generator (pvals), and which outcome of the draws gives which point; that numpy's draws follow their laws is outside the model."},
  {"property": "C73", "status": "proved", "theorems": ["C73_value", "C73_total", "C73_zero", "C73_symmetric", "C73_invariant", "C73_inverse", "C73_scaled", "C73_frame", "C73_singular", "C73_shape", "C73_satisfiable"], "note": "np.linalg.solve and eigvals are arguments constrained by their specifications; the triangle inequality is not claimed."},
  {"property": "C74", "status": "proved", "theorems": ["C74_eigh", "C74_order", "C74_shape_matrix", "C74_affine", "C74_affine_refuted"], "note": "from_affine is right for symmetric A only; C74_affine_refuted gives a non-symmetric witness."},
  {"property": "C75", "status": "proved", "theorems": ["C75_least_squares", "C75_least_squares_weighted", "C75_least_squares_zero", "C75_least_squares_weighted_zero", "C75_least_squares_errors", "C75_regularizer_minimum", "C75_regularizer_single", "C75_regularizer_convex", "C75_regularizer_lengths", "C75_log_det_exists", "C75_log_det_concave"], "note": "cp.log_det and np.linalg.inv are arguments constrained by their specifications; C75_log_det_exists shows the specification of log_det is met."},
  {"property": "C76", "status": "proved", "theorems": ["C76_fit", "C76_recover", "C76_nominal", "C76_no_worse", "C76_guarantee", "C76_centre_of_mass", "C76_total", "C76_failed", "C76_init_errors", "C76_bounding_shapes", "C76_definite_refuted", "C76_finite_refuted"], "note": "The solver is an argument: any answer that is optimal (or, for the guarantees, feasible). C76_definite_refuted and C76_finite_refuted are findings."},
  {"property": "C77", "status": "proved", "theorems": ["C77_feasible", "C77_fit", "C77_guarantee", "C77_failed", "C77_settings", "C77_margin_refuted"], "note": "C77_margin_refuted: eps is ignored (finding)."},
  {"property": "C78", "status": "proved", "theorems": ["C78_shape", "C78_shape_total", "C78_shape_errors", "C78_bodies", "C78_union", "C78_total", "C78_settings", "C78_geometry_errors", "C78_argument_errors"], "note": "Pinocchio and HPP-FCL objects are records of the attributes the code reads; URDF parsing is not modelled."},
  {"property": "C79", "status": "proved", "theorems": ["C79_regressor", "C79_torques", "C79_index_error", "C79_floating_base_refuted", "C79_mimic_refuted"], "note": "For nv = number of links, as the code assumes. C79_floating_base_refuted and C79_mimic_refuted: false otherwise (findings)."},
  {"property": "C80", "status": "proved", "theorems": ["C80_get_bodies", "C80_get_bodies_errors", "C80_frame_pose", "C80_frame_queries", "C80_kinematics", "C80_torques", "C80_pose_order_refuted"], "note": "C80_pose_order_refuted: the documented order of the result is not the actual one (finding). Negative indices are not modelled."},
  {"property": "C81", "status": "proved", "theorems": ["C81_box_sdp_refuted", "C81_cylinder_sdp_refuted", "C81_box_vertex_refuted", "C81_identification_refuted"], "note": "Finding: the relaxations accept parameters that no mass distribution in the shape has (witnesses). Order two is the default; C46, C48 and C49 prove that the constraints are necessary."},
  {"property": "C82", "status": "proved", "theorems": ["C82_cylinder", "C82_flat_box", "C82_stricter"], "note": "eps = 0; the radius is zero or above the 1e-8 threshold below which the constraints raise ValueError (C49)."},
  {"property": "C83", "status": "proved", "theorems": ["C83_inner_product", "C83_contains", "C83_default_tolerance", "C83_large_refuted", "C83_total"], "note": "Binary64 with any summation order and fused multiply-add; overflow not modelled. C83_large_refuted shows that the bound on the coordinates is needed."},
  {"property": "C84", "status": "proved", "theorems": ["C84_same", "C84_default_tolerance", "C84_total", "C84_inaccurate_rotation_refuted"], "note": "Binary64 with any summation order and fused multiply-add; overflow not modelled. C84_inaccurate_rotation_refuted shows that the accuracy of the rotation is needed."},
  {"property": "C85", "status": "proved", "theorems": ["C85_contains", "C85_half_extents", "C85_default_tolerance", "C85_total", "C85_large_refuted"], "note": "Binary64; overflow not modelled. C85_large_refuted shows that the bound on the coordinates is needed."},
  {"property": "C86", "status": "proved", "theorems": ["C86_contains", "C86_default_tolerance", "C86_total"], "note": "Binary64 with any summation order and fused multiply-add, three dimensions; overflow not modelled."},
  {"property": "C87", "status": "proved", "theorems": ["C87_box", "C87_polyhedron", "C87_cylinder", "C87_body", "C87_polyhedron_problem", "C87_cylinder_problem", "C87_box_detects", "C87_cylinder_detects", "C87_body_detects", "C87_box_monotone", "C87_polyhedron_monotone", "C87_cylinder_monotone", "C87_body_monotone", "C87_accumulation", "C87_order_matters"], "note": "Limit of the moment relaxation. Equivalence for boxes, polyhedra, cylinders (any eps, since these drop it) and bodies (eps = 0); for bodies with eps > 0 the limit direction is C87_body_detects and C87_accumulation. Nothing is claimed about how large the order has to be."},
  {"property": "C88", "status": "proved", "theorems": ["C88_integral", "C88_polyhedron", "C88_box", "C88_shape", "C88_body", "C88_certificate", "C88_box_gap"], "note": "Exact characterisation (if and only if) of the vertex constraints of polyhedra and the custom constraints of boxes; for bodies the relaxations of all orders together."},
  {"property": "C89", "status": "proved", "theorems": ["C89_init", "C89_from_vec", "C89_from_pim", "C89_from_point_masses", "C89_transform", "C89_add", "C89_sum", "C89_zero", "C89_h", "C89_J", "C89_spatial_init", "C89_spatial_from_vec", "C89_spatial_views", "C89_from_pim_refuted", "C89_com_refuted"], "note": "Arrays live in a store; each constructor is proved to return the values of the value model and to own or share exactly the stated buffers. The refuted theorems are the sharing findings."},
  {"property": "C90", "status": "proved", "theorems": ["C90_ellipsoid", "C90_sphere", "C90_ellipsoid_transform", "C90_ellipsoid_rotate", "C90_from_vertices", "C90_from_halfspaces", "C90_from_halfspaces_shared", "C90_face_form_equalities", "C90_face_form_shared", "C90_polyhedron_transform", "C90_vertices", "C90_convex_hull", "C90_box", "C90_box_transform", "C90_box_rotate", "C90_box_mie", "C90_box_center", "C90_cylinder", "C90_cylinder_transform", "C90_cylinder_center", "C90_capsule", "C90_capsule_transform", "C90_cylinder_center_refuted", "C90_from_halfspaces_refuted"], "note": "As C89, for shapes, face and span forms and convex_hull. Rebinding attributes is not modelled."},
  {"property": "C91", "status": "proved", "theorems": ["C91_body", "C91_body_one", "C91_body_add", "C91_body_sum_single", "C91_body_mbes", "C91_body_transform", "C91_multibody", "C91_torque_regressor", "C91_polynomial_add", "C91_localizing_matrix"], "note": "Shapes, lists, parameters, dictionaries and index arrays are heap objects; the in-place loops are proved to refine the value models."},
  {"property": "C92", "status": "proved", "theorems": ["C92_mbe_exists", "C92_mbe_unique", "C92_mie_exists", "C92_mie_exists_sphere", "C92_mie_unique", "C92_sphere_centre_refuted", "C92_mbe_of_points", "C92_poly_mbe", "C92_mie_inequality_form", "C92_poly_mie"], "note": "Closes the premise of C53, C54 and C71 that the solver returned an optimum: says exactly when there is one, that it is unique, and that the returned set depends on the convex set only. sphere_centre_refuted: a 4 x 2 rectangle has many largest inscribed circles. sphere=True of mbe_of_points is not modelled beyond its constraints (the code rebinds r there)."},
  {"property": "C93", "status": "proved", "theorems": ["C93_ellipsoid", "C93_polyhedron_vertices", "C93_polyhedron", "C93_box_custom", "C93_cylinder_custom", "C93_cylinder", "C93_shape", "C93_body", "C93_parameters_sum", "C93_composite", "C93_must_contain", "C93_centre_of_mass"], "note": "conic (Spec/Cone.v) says that constraints are closed under combinations with non-negative weights, the margins being combined alike. Premises: shapes built by the constructors with an orthogonal rotation (shape_is), ellipsoids with no half extent in (0, 1e-8] (shape_proper), polyhedra with matching representations; a capsule has no constraints and raises, so it is excluded by shape_proper. The composite theorem is an equivalence for eps = 0."},
  {"property": "C94", "status": "proved", "theorems": ["C94_convex", "C94_strictly_convex", "C94_unique", "C94_solver", "C94_discretized_cone", "C94_discretized_unique", "C94_discretized_solver", "C94_undetermined_refuted"], "note": "Feasible set and cost are those of C76/C77; log_det and inv are the oracles of C75. Existence of an optimal solution is not claimed here. C94_undetermined_refuted is a finding: without regularizer and with undetermined parameters the result depends on the solver."},
  {"property": "C95", "status": "proved", "theorems": ["C95_accepted_limit", "C95_exists", "C95_exists_unique", "C95_outcome", "C95_discretized", "C95_unattained_refuted"], "note": "Cost and feasible set are those of C76/C77; log_det and inv are the oracles of C75. With must_realize=True the bodies may not contain cylinders (premise no_cylinders): whether the order-two constraints of a cylinder are closed under limits is left open. C95_unattained_refuted is a finding."},
  {"property": "C96", "status": "proved", "theorems": ["C96_index", "C96_low_degree", "C96_index_clash_refuted", "C96_polynomial", "C96_parameters", "C96_spatial", "C96_shapes", "C96_polyhedra", "C96_missing"], "note": "show, show_vec and show_mat stand for Python and numpy printing a number or an array; numpy shortens to eight digits, so different arrays may have the same printed form. C96_index_clash_refuted is a finding."},
  {"property": "C97", "status": "proved", "theorems": ["C97_growth", "C97_tolerance", "C97_stable", "C97_lipschitz", "C97_noise", "C97_error", "C97_discretized_growth", "C97_discretized_stable"], "note": "Both identification problems. The constant of the error bounds depends on the regressors and the covariance only. Rounding and the numerical accuracy of the solver enter only through C97_tolerance."},
  {"property": "C98", "status": "proved", "theorems": ["C98_rank", "C98_one_motion", "C98_two_motions", "C98_fixed_axis", "C98_fixed_point", "C98_translations", "C98_rich", "C98_recover", "C98_noise", "C98_robot"], "note": "As stated. tells_apart quantifies over bodies with positive definite pseudo-inertia. The robot theorem has the relation between the regressor of pinocchio and the joint torques as a premise."},
  {"property": "C99", "status": "proved", "theorems": ["C99_largest", "C99_box_custom", "C99_cylinder_custom", "C99_box_moment", "C99_cylinder_moment", "C99_box_order_two", "C99_box_orders", "C99_cylinder_orders", "C99_box_limit", "C99_cylinder_limit", "C99_box_order_one", "C99_cylinder_order_one", "C99_cylinder_tighter", "C99_box_looser", "C99_box_tighter_refuted", "C99_order_two_refuted"], "note": "The claim that the custom constraints are always at least as tight is refuted for boxes (C99_box_looser, C99_box_tighter_refuted) and proved for cylinders. Values are suprema; the solver is not modelled. Cylinder discs need radius 0 or above 1e-8, as in C82."},
  {"property": "C100", "status": "proved", "theorems": ["C100_box_layer", "C100_ellipsoid_layer", "C100_box_shell", "C100_ellipsoid_shell", "C100_sphere_limit", "C100_sphere_shell", "C100_box_edges", "C100_box_vertices", "C100_cubes", "C100_cuboid_solution", "C100_cuboid_weights", "C100_cuboid_weights_sum", "C100_cuboid_masses", "C100_cylinder_masses"], "note": "Limits are stated with an explicit one-sided epsilon definition (Spec/Limit.v); sympy's limit and simplify are not modelled. In Model/Theory.v the symbolic substitution of moments for monomials is written out for each sign pattern."},
  {"property": "C101", "status": "proved", "theorems": ["C101_shell", "C101_wireframe", "C101_solid", "C101_unique_rows", "C101_unique_draws", "C101_shell_fails", "C101_wireframe_fails"], "note": "mean and mean squared error over independent draws for the shell, the wireframe and the solid box; means are iterated Riemann integrals over the uniform draws and the finite multinomial law"},
  {"property": "C102", "status": "proved", "theorems": ["C102_solid", "C102_edges", "C102_surface", "C102_unique_rows", "C102_unique_draws"], "note": "random_points_on_surface at poses other than the identity is excluded: its points leave the surface (C39)."},
  {"property": "C103", "status": "proved", "theorems": ["C103_ball_mean", "C103_ball_second", "C103_ellipsoid_mean", "C103_ellipsoid_second", "C103_cylinder_mean", "C103_cylinder_second", "C103_ball_rows", "C103_ellipsoid_rows", "C103_cylinder_rows", "C103_unique"], "note": "The law of the normal draws enters through its symmetries only (symmetric_law); that independent normal draws have them is not proved in Coq. Second moments, not the whole law."},
  {"property": "C104", "status": "proved", "theorems": ["C104_law", "C104_unique"], "note": "One requested point (n = 1). The direction is uniform on the sphere, given by height and azimuth, where the code normalises normal draws. The rotation enters transposed (finding of C39). Three dimensional ellipsoids."},
  {"property": "C105", "status": "proved", "theorems": ["C105_law", "C105_capsule_volume", "C105_capsule", "C105_unique"], "note": "One requested point (n = 1). The region is the one that contains accepts with its tolerances, cut with the bounding box."},
  {"property": "C106", "status": "proved", "theorems": ["C106_solid", "C106_edges", "C106_surface", "C106_ellipsoid"], "note": "Same restrictions as C102 and C104: surface of a box at the identity pose, one point of the ellipsoid surface, direction uniform on the sphere."},
  {"property": "C107", "status": "proved", "theorems": ["C107_rejection", "C107_capsule", "C107_unique", "C107_surface", "C107_surface_unique"], "note": "Bounding shape of rejection_sample modelled as a box, the only bounding shape the package passes. The statements are for functions with integrals over the region; the draws of the ellipsoid loop are directions uniform on the sphere. Finished runs only: for the unbounded loop of the ellipsoid K is the number of turns."},
  {"property": "C108", "status": "proved", "theorems": ["C108_surface_mean", "C108_sampled_mean", "C108_translated"], "note": "Means and existence of the mean squared deviation are proved; the value of the deviation at a general pose is not stated."},
  {"property": "C109", "status": "proved", "theorems": ["C109_ellipsoid_element", "C109_cylinder_element", "C109_ellipsoid_volume", "C109_ellipsoid", "C109_ellipsoid_pose", "C109_cylinder"], "note": "Polar coordinates; that normalised normal draws are uniform directions is assumed. For rotated ellipsoids the law is the image of the uniform law of the unit ball under the linear map of the code; that a linear map takes a uniform law to a uniform law is not proved."},
  {"property": "C110", "status": "proved", "theorems": ["C110_weights_mean", "C110_polyhedron_mean", "C110_two_weights", "C110_uniform_entries_refuted", "C110_exchangeable", "C110_psd_mean"], "note": "For k other than 2 that k independent uniform draws are exchangeable is a premise; for k = 2 it is proved."},
  {"property": "C111", "status": "proved", "theorems": ["C111_orth", "C111_null_space", "C111_runs", "C111_defined"], "note": "Existence half of C92: the premises mbe_oracles are satisfiable exactly if two points differ. Exact reals; the run with k = 0 columns is not covered."},
  {"property": "C112", "status": "proved", "theorems": ["C112_mbe_of_points", "C112_poly_mbe", "C112_mie_inequality_form"], "note": "Exact reals; similarities, for spheres too; general affine maps are C113. The routines are premises as in C92, whose satisfiability for mbe is C111."},
  {"property": "C113", "status": "proved", "theorems": ["C113_mbe_of_points", "C113_poly_mbe", "C113_mie_inequality_form", "C113_poly_mie"], "note": "Exact reals; invertible affine maps, ellipsoids only for mie (a sphere has no sphere as its image); the routines are premises as in C92, whose satisfiability for mbe is C111."},
  {"property": "C114", "status": "proved", "theorems": ["C114_mbe_of_points", "C114_poly_mbe", "C114_mie_inequality_form", "C114_poly_mie"], "note": "Exact reals; the routines are premises as in C92. The inscribed sphere is excluded: its centre need not be unique."}
]}
