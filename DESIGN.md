# Formal model of rigeo: design

The subject is the Python package `rigeo` (`/repo/src/rigeo`). The properties are in
`properties.jsonl`; their status is in `MANIFEST.json`. The development is in
`rocq/theories` (Coq 8.16.1).

## 1. Layout

* `Base/` - exceptions as values, list-based vectors and matrices (numpy primitives), and
  the lemma library about them.
* `Model/` - the code, function by function. Every definition cites file and lines of
  `/repo/src/rigeo`. No proofs in these files.
* `Spec/` - the small independent specifications: cross product, positive
  semidefiniteness, convex hull, point sets (box, ellipsoid, cylinder, capsule, polyhedron),
  point-mass systems and realizability, eigenvalues, integrals; laws of draws and means
  (`Expect`, `Symmetric`, `Exchangeable`, `Turns`, `Blocks`, `Solid`, `Continuous`).
* `Proofs/` - lemmas.
* `Properties/` - only the property theorems (`C01_...`), each closed by `exact`, with
  `Print Assumptions` beneath, and an `Example` giving a concrete non-trivial instance of
  the hypotheses.

## 2. What is modelled and how

* Numbers are the stdlib reals `R`: floating-point rounding is **not** modelled, except for
  C17, C18 and C83-C86 (Flocq binary64), whose subject is rounding. In C83-C86 an inner product may be
  evaluated in any order and with fused multiply-add; overflow is not modelled.
* A numpy 1-d array is a `list R`, a 2-d array a list of rows. Shape assertions in the code are
  modelled by explicit checks on lengths.
* Exceptions are values: `res A := Ok a | Raise e | NonFinite`. `NonFinite` stands for
  "numpy silently produced nan/inf", which happens at division by zero. Where the
  code goes on computing with infinities (degenerate ellipsoids) the model uses extended reals
  `Fin r | PInf | NInf | NaN` with IEEE rules.
* `np.isclose(a,b,rtol,atol)` is `|a-b| <= atol + rtol*|b|`, decided on reals.
* External routines (`np.linalg.eigvals`, `eigh`, `lstsq`, `cdd`, the random generator, the
  cvxpy solver) are extra arguments of the modelled functions. What is assumed about their
  answers is a premise of the theorem concerned; nothing is an axiom.
* A list of cvxpy constraints is modelled as the proposition that the variables satisfy it;
  `cp.Variable`s created inside a function become existential quantifiers.
* Random draws are arguments constrained to the documented range of the generator.
  The probability of draws enters in C101 and C102 (`Spec/Expect.v`: independent uniform draws and multinomial counts) and
  in C103 (`Spec/Symmetric.v`: any law with the symmetries of independent normal draws). C104, C107 and C109 use directions that
  are uniform on the sphere, given by height and azimuth (`Spec/Turns.v`), and C105 and C107 uniform draws for every try
  (`Spec/Expect.v`, `Spec/Blocks.v`). That normalised normal draws are uniform on the sphere is assumed, not proved.
  C110 uses laws of draws that are exchangeable (`Spec/Exchangeable.v`), shown to hold of two uniform draws.
  C106 replaces the integrability premises by continuity (`Spec/Continuous.v`).
* Values are immutable in most of the model. Sharing and assignment are modelled separately (C89-C91): in
  `Model/Store.v`, `StoreInertial.v` and `StoreShapes.v` an array is a list of positions in a buffer of a store (views are arrays with the
  same buffer), every constructor and transform is written with its copies and views, and is proved to return
  what the value model returns. In `Model/StoreObjects.v` shapes, lists, parameter objects, dictionaries and index arrays
  are objects of a heap. Rebinding an attribute (`b.center = x`) is not modelled.

Not modelled: how Python and numpy print a number or an array (an argument of the `__str__` and `__repr__` modelled in
`Model/Print.v`; `MomentMatrix.__str__` is numpy's), the abstract methods of `Shape` (they have no body; the methods of
the subclasses are modelled), the URDF loaders of `unused/multibody.py`, scripts outside `src/rigeo` (except the problems set up by
`scripts/experiments/generate_drip_data.py`, C99; its random directions, timing and solver calls are not modelled; and the
derivations of `scripts/theory`, C100, whose sympy simplification, `limit` and printing are not modelled; and the two
Monte Carlo scripts for boxes, C101, whose generator is replaced by means over all draws), solver
performance, warnings, numpy broadcasting beyond the shapes the documentation allows, floating-point rounding
(see above). `unused/polydd_pycddlib3.py` differs from `polydd.py` only in the names of the cdd functions it
calls; as these are arguments of the model, `Model/Polydd.v` describes it as well.

## 3. Trusted base

Coq's kernel (and `vm_compute` where used), the reading of the Python source recorded in the
comments of `Model/`, the reading of numpy/cvxpy semantics listed in section 2. `Print Assumptions`
of the theorems lists at most the standard library's axioms:
`ClassicalDedekindReals.sig_not_dec`, `ClassicalDedekindReals.sig_forall_dec`,
`FunctionalExtensionality.functional_extensionality_dep`, `Classical_Prop.classic` (see section 6).

## 4. Plan per property

| id | model | proof idea |
|----|-------|-----------|
| C01 | `H2I`, `I2H` | coordinates + ring; cross product spec for point masses |
| C02-C04 | `InertialParameters`, `vec`, `from_vec`, `J`, `from_pim`, `pim_sum_vec_matrices` | coordinates, field with m <> 0; mass 0 gives `NonFinite` |
| C05-C06 | `transform`, `transform_matrix` | matrix identity in coordinates; induction over the list of point masses |
| C07-C08 | `__add__`, `__radd__`, `from_point_masses` | induction over lists; zero-mass sum refuted |
| C09 | `consistent` with an eigenvalue oracle | PSD <=> all eigenvalues >= eps via the infimum of the Rayleigh quotient; body existence via rank-one (LDL / Sturm-Zhang) decomposition |
| C10 | constructor with all optional arguments | case analysis, ring |
| C11-C15 | `M`, `adjoint`, `body_wrench`, `regressor`, `lift3/6`, `skew3`, `SpatialVector` | ring; induction over point masses |
| C16 | `vech`, `unvech` | index arithmetic of the row-wise upper triangle, all n |
| C17 | exact and binary64 `is_triangular_number` | integer square root argument; error bound of the rounded square root; witness for large x |
| C18 | exact and binary64 `compute_evaluation_times` | properties of ceil; witnesses 2.1 / 0.3 and 0.9 / 0.3 |
| C19 | `transform_matrix`, `_inv`, `clean_transform` | general dimension list algebra; error branch |
| C20 | `box_vertices` | induction on dimension |
| C21 | `Box` constructor, `contains` | orthogonal change of variables; multilinear hull weights |
| C22-C24 | `Ellipsoid` constructor, `contains`, S/A/b/Q over extended reals, `is_same` | quadratic form algebra in every dimension; NaN propagation |
| C25-C26 | `Cylinder`, `Capsule` `contains` | coordinates in the local frame; nearest point of the segment |
| C27 | `transform` of every shape | orthogonality, general list algebra |
| C28-C29 | `aabb`, `mie`, `mbe`, `mib`, `mbb` | support function / Cauchy-Schwarz |
| C30 | volume optimality | Hadamard's inequality + AM-GM in 3 dimensions |
| C31, C63 | `must_contain`, `schur` | Schur complement in every dimension |
| C32 | `contains_polyhedron` | convexity |
| C33-C37 | `polydd.py`, `ConvexPolyhedron` with cdd oracle | linear algebra over rows; counterexamples |
| C38-C39 | random functions, draws as arguments | range reasoning; counterexamples |
| C40 | `rejection_sample` as recursion over the stream of batches | invariant by induction on tries |
| C41-C42 | `grid`, `on_surface` | list reasoning |
| C43-C45 | `moment.py` | induction on n, d; positive combinations of rank-one matrices |
| C46-C49 | moment constraints of polyhedra, boxes, cylinders, bodies | witness measure gives witness variables |
| C50-C51 | `Ellipsoid.can_realize`, `moment_constraints` | necessity: integrate the quadratic; sufficiency: Sturm-Zhang rank-one decomposition |
| C52 | eps constraint dropped | witness |
| C53 | `contains_ellipsoid`, `_mbee_con_mat` | witness; S-procedure direction proved for the correct matrices |
| C54-C55 | `mbe_of_points`, `mie_inequality_form`, `from_shape_matrix`, `from_affine` | Cauchy-Schwarz and duality; eigh oracle |
| C56 | `allclose_unordered` | invariant of the greedy loop; counterexample |
| C57-C59 | density parameters | Coquelicot integrals; spheroid integral bounds for the counterexample |
| C60 | `RigidBody` | lists of shapes |
| C61 | `closest_points`, solver oracle | minimality premise; compactness of the shapes gives existence |
| C62, C64, C65, C66 | `Capsule.is_same`, `validation_rmse`, `convex_hull`, `Cylinder.is_same` | direct |
| C67 | `mbb`, `mbe(sphere=True)` of cylinders, capsules, ellipsoids | support function of the solid along the axes of the competing box, then an inequality between products |
| C68 | `volume`, `diaglen` | integrals of C57 with integrand 1; uniqueness of Riemann integrals |
| C69 | `Box.cube`, `from_side_lengths`, `as_poly`, `simplex`, `from_halfspaces`, `rotate_about_center` | reduction to the constructors of C21, C22, C33 |
| C70 | `InertialParameters.is_same` | entries of the two matrices |
| C71 | `ConvexPolyhedron.mbe` | C54 for the vertices + convexity of the ellipsoid |
| C72 | pvals of the multinomial draws, radius in the ball, acceptance on the surface | shares of the integrals; inverse of the distribution function |
| C73 | `unused/geodesic.py` | simultaneous diagonalisation (own spectral theorem) |
| C74 | `from_shape_matrix`, `from_affine` for arbitrary matrices | spectral theorem, eigenvalues of an answer of eigh are unique |
| C75 | `unused/identify.py`: objective and regularizer | block rows of the stacked system; the support inequality of ln det |
| C76 | `IdentificationProblem` | the true parameters are feasible with cost zero; any optimum is compared with them |
| C77 | `DiscretizedIdentificationProblem` | the same, with point masses |
| C78 | `unused/multibody.py`: `__init__` | invariant of the loop over the geometries |
| C79 | `compute_joint_torque_regressor` | induction over the links, block by block |
| C80 | lookups, kinematics, torques | case analysis |
| C81 | the relaxations (`moment_sdp_constraints`, vertex constraints, identification) | a positive functional on monomials satisfies the moment constraints; witnesses with integer sum-of-squares certificates |
| C82 | `Cylinder.moment_custom_vertex_constraints`, the box version for flat boxes | explicit construction of the masses: reduction of the matrix along chords of the cylinder, then along sides and diagonals of a rectangle |
| C83 | `ConvexPolyhedron.contains` in binary64 | error of an inner product by induction over its evaluation; witness at 2^53 |
| C84 | `_box_vertices`, `_box_inequalities`, `is_same` in binary64 | error of the vertices and of the offsets, near-orthogonality of the rotation; witness with an inaccurate rotation |
| C85 | `from_two_vertices`, `from_points_to_bound` in binary64 | error of center and half extents per coordinate; witness with two ties |
| C86 | `Ellipsoid.contains` in binary64 | relative error of the weights, absolute error of the local coordinates |
| C87 | the limit of `moment_sdp_constraints` in the order d | quadratic modules: the faces (by Fourier-Motzkin elimination) give an Archimedean module, whose positive functionals are approximated by point masses on a grid; Caratheodory and compactness give the masses of the limit |
| C88 | `moment_vertex_constraints`, `moment_custom_vertex_constraints`, and the relaxations of all orders, as sets of quadratic tests | linear programming duality (Fourier-Motzkin) for boxes; separation of a point from a closed convex cone for polyhedra and for realizable matrices |
| C89 | `InertialParameters`, `SpatialVector` with arrays in a store | a call only adds buffers; the buffers of the result are new, or the named ones of the caller |
| C90 | shapes, `FaceForm`, `SpanForm`, `convex_hull` with arrays in a store | the same, composed along the constructors |
| C91 | `RigidBody`, `MultiBody.__init__`, `compute_joint_torque_regressor`, `Polynomial.__add__`, `localizing_matrix` on a heap | invariant of each loop: what was read is unchanged, every link owns its list |
| C92 | the programs of `mbe_of_points` and `mie_inequality_form`, and what these, `mbe` and `mie` return | compactness of the bounded part of the feasible set for existence; strict concavity of log det for uniqueness; change of chart between two orthonormal bases of the same affine hull |
| C93 | what `moment_constraints`, `moment_vertex_constraints`, `moment_custom_vertex_constraints`, `moment_sdp_constraints` (shapes and bodies), `must_contain` and the centre-of-mass constraint accept | combination of the linear functionals behind two feasible sets of moment variables; the characterisations of C52, C88; splitting the parts of a composite body |
| C94 | the feasible set, the cost and the result of `IdentificationProblem.solve` and `DiscretizedIdentificationProblem.solve` | C93; the exact defect of convexity of a quadratic; strict concavity of log det |
| C95 | existence of an optimal solution of both identification problems, outcome of `solve`, limits of accepted parameters | C94; compactness of sublevel sets; bounds on the moments of a bounded polyhedron up to order three |
| C96 | `__str__` and `__repr__` of indices, polynomials, parameters, spatial vectors and shapes | the first separator determines what is before it; Python's and numpy's printing of numbers is an argument |
| C97 | dependence of both identification problems on the observations and on the tolerance of the solver | exact defect of convexity of the least squares term; C93 and C94 for the constraints and the regularizer |
| C98 | which recorded motions determine the parameters of a body, and what identification returns for them | rank of the regressor rows; explicit kernel vectors (a point mass at the unaccelerated point, a rod along a normal of the axis); C76 and C97 for the solver |
| C99 | the extreme value problems of `generate_drip_data.py` with custom and moment constraints | compactness for attainment; C82 and the tests of C88 for the custom constraints; explicit sum of nine face-times-square terms for the box counterexample; C87 for the limit |
| C100 | the derivations of `scripts/theory` and the library's formulas | one-sided limits of rational functions by cancelling the thickness; `__add__` of the layer and the inner solid; induction over the point masses for the vertex weights |
| C101 | mean and mean squared error of sampled inertia matrices | means as iterated integrals (draws) and finite sums (counts); linearity; induction over the samples; every row before the shuffle is affine in its draws |
| C102 | uniform law of the random points of a box | change of variable per face or edge; the shares of area and length weigh the pieces; means as in C101 |
| C103 | mean and second moments of sampled points of balls, ellipsoids, cylinders | symmetry of the law of the direction; integral of c^(2/d) by a primitive that is also differentiated at 0; congruences |
| C104 | law of the points of Ellipsoid.random_points_on_surface | first accepted turn; geometric series; the acceptance probability times the sphere element is the area element of the ellipsoid |
| C105 | law of the points of rejection_sample and Capsule.random_points | first accepted try, geometric series; monotone functions and indicators of intervals are Riemann integrable, so the volume of the accepted region exists |
| C106 | the uniform laws for every continuous function | integrals of continuous functions over boxes, faces, edges and ellipsoid surfaces exist (compactness of a segment, continuity of integrals with a parameter); then C102, C104 |
| C107 | independence and law of several points of the rejection samplers | one candidate per empty slot in each turn, so the slots fill independently; induction over turns and candidates with the weight of a partly filled array |
| C108 | bias of Box.random_points_on_surface at a pose | the points of each face are affine in the draws; multinomial mean over the faces; uniqueness of means |
| C109 | uniform law of Ellipsoid.random_points and Cylinder.random_points | the radius v^(1/d) has density d rho^(d-1): substitution in the integral, continuity of the root; integrals of continuous functions exist |
| C110 | law of random_weight_vectors, ConvexPolyhedron.random_points, random_psd_matrix | symmetry of the draws; area of the part of the square below a line; that two uniform draws are exchangeable needs the integral of x ln((1+x)/x) |
| C111 | mbe_of_points is defined exactly if two points differ | Gram-Schmidt and completion by dimension counting for orth and null_space; C92 for the optimum; the spectral theorem for eigh; excluded middle for lstsq |
| C112 | extremal ellipsoids of moved and scaled input | the optimum of one program is carried to the other, log_det changes by n ln s; uniqueness (C92) for all other runs; ConvexPolyhedron.mie by carrying the chart of the hull (chart_image) |
| C113 | extremal ellipsoids of affinely mapped input | log_det changes by the same amount under K X K^T for all X (quadratically small increments along a path), polar decomposition carries the optimum; uniqueness (C92) for all other runs; ConvexPolyhedron.mie by carrying the chart of the hull (chart_image) |
| C114 | extremal ellipsoids of symmetric input | C113 for the map and uniqueness (C92); a bounded set has at most one centre of symmetry |

## 5. Findings

Where the faithful model does not do what a user (or the documentation) expects. A theorem
`..._refuted` gives a witness; the theorem named beside it, if any, gives the general form.

Geometry:

* `contains_ellipsoid` (the LMI test for one ellipsoid in another) uses `S`, `A`, `b` of the two
  ellipsoids in the wrong mixture. For concentric spheres it answers r2 <= r1^2 instead of
  r2 <= r1 (`C53_concentric_spheres`): it accepts spheres that stick out (`C53_size_refuted`),
  rejects spheres that are inside (`C53_false_refuted`), and depends on the absolute
  position (`C53_place_refuted`). `mbe_of_ellipsoids` uses the same coefficients; for one sphere of
  radius 3 it returns the sphere of radius sqrt 3 (`C53_mbe_refuted`, `C53_mbe_sphere_result`).
* `mbe_of_points(sphere=True)` rebinds `r` (the reference point) to a cvxpy variable; the
  later `+ r` is no number. Only its constraints are modelled.
* `mbe_of_points` of points that all coincide (or of one point) has no optimum to return, whatever orthonormal columns
  orth returns (`C111_runs`). With scipy, orth returns no column at all and cvxpy is asked for a variable of shape (0, 0);
  that call is outside the model.
* `Box.mbe(sphere=True)` is not the smallest bounding sphere of any box that is not a cube
  (`C30_box_mbe_sphere_refuted`, `C30_box_mbe_sphere_larger`), and `Cylinder.mbe(sphere=True)`, which
  goes through it, of no cylinder with L^2 <> 2 r^2 (`C67_cylinder_sphere_refuted`, `C67_cylinder_sphere`).
* `Ellipsoid.volume` keeps 4/3 pi in every dimension; for an ellipse in the plane it is not the area
  (`C68_ellipse_refuted`).
* `Ellipsoid.is_same` compares `A` and `b`: a degenerate ellipsoid is not the same as itself,
  because inf * 0 = nan (`C24_degenerate_refuted`, `C24_degenerate_never_same`), and different degenerate
  ellipsoids can be the same (`C24_different_refuted`).
* `Cylinder.is_same` compares rotation matrices: the same solid turned about its axis is
  different (`C66_rotation_refuted`, `C66_quarter_turn`).
* `Capsule.is_same` passes `tol` to `Cylinder.is_same`, which has no such parameter: always
  TypeError (C62).
* `is_same` of polyhedra is not symmetric across classes: `poly.is_same(box)` is True,
  `box.is_same(poly)` False (`C33_asymmetric_refuted`).
* `Cylinder.contains` ignores its `tol` argument and always uses 1e-8. So a capsule asked with tol = 0
  still accepts points outside the capsule (`C26_tolerance_refuted`), and with a large tol the cylinder part
  does not grow. For capsules of radius at most 1e-8 the answer can change under a rotation
  (`C27_capsule_zero_radius_refuted`).
* `ConvexPolyhedron.intersect` raises IndexError when the intersection is a single point (more generally when cdd
  answers with equalities only) (`C35_all_equalities_refuted`, `C35_equalities_only`).
* `Ellipsoid.from_affine` computes `A @ A` instead of `A.T @ A`: for a non-symmetric A it gives another ellipsoid
  than {x : |Ax + b| <= 1} (`C74_affine_refuted`).
- `IdentificationProblem`'s documentation promises positive definite pseudo-inertia matrices; with the
  default eps = 0 an optimal result can be singular (`C76_definite_refuted`), and an optimum of zero mass
  makes the result not finite (`C76_finite_refuted`).  eps > 0 or gamma > 0 rules the latter out (`C76_total`).
- `DiscretizedIdentificationProblem` accepts gamma and eps but uses neither (`C77_settings`); a result need
  not satisfy J >= eps (`C77_margin_refuted`).
- `unused/identify.py` and `unused/multibody.py` cannot be imported: their relative imports do not exist
  below `unused/`.
- `compute_joint_torque_regressor` loops over `model.nv` where it means the number of links.  With a
  floating base, which `from_urdf_string(root_joint=...)` offers, it raises IndexError
  (`C79_floating_base_refuted`; `C79_index_error` for every model with more velocities than links).  With
  fewer velocities than links the last links' columns stay in pinocchio's order (`C79_mimic_refuted`).
- `get_frame_pose` documents (position, orientation) but returns (rotation, translation)
  (`C80_pose_order_refuted`).
* `SpanForm.transform` translates rays, which are directions (`C36_rays_translation_refuted`).
* `transform_matrix_inv` asserts dimension 3 whatever `dim` says (`C19_inverse_other_dimension_refuted`).
* `from_halfspaces` raises AttributeError (not ValueError) for an empty intersection (`C69_halfspaces_empty`).
* `InertialParameters.is_same` is not symmetric (`C70_symmetric_refuted`); bodies with
  all entries below 5e-9 are all the same (`C70_tiny_refuted`, `C70_tiny`).

Mass distributions:

* `Ellipsoid.uniform_density_params` of a flat ellipsoid gives the limit of thin solid ellipsoids, not a
  uniform elliptic plate (`C57_ellipsoid_plate_refuted`).
* `Ellipsoid.hollow_density_params` is right for spheres only; for all spheroids with c <= a/20 it
  differs from the uniform surface (`C58_spheroid_refuted`, `C58_spheroid_differs`).
* All density functions assert mass >= 0 but a mass of 0 gives nan (`C57_massless`); `RigidBody.__add__` of
  two bodies without parameters likewise (`C60_add_massless`).

Realizability constraints:

* `moment_sdp_constraints` of polyhedra, boxes and cylinders drop the margin `eps`: parameters with a
  smallest eigenvalue below eps are feasible (`C52_*_sdp_refuted`, `C52_*_margin_dropped`).
* The moment constraints of order two (the default) of a cube and of a cylinder, and the vertex and custom vertex
  constraints of a cube, accept parameters that no mass distribution in the shape has (`C81_box_sdp_refuted`,
  `C81_cylinder_sdp_refuted`, `C81_box_vertex_refuted`).  Identification with `must_realize=True` can therefore
  return parameters that no body in the shape has, even for data that determine them (`C81_identification_refuted`).
  The custom constraints of a cylinder, by contrast, are exact (`C82_cylinder`), as are those of a flat box
  (`C82_flat_box`).
  Raising the order helps: it never accepts more (`C87_*_monotone`), and parameters that are not realizable are
  rejected from some order on (`C87_*_detects`); no order that works for all parameters is claimed.
  What the vertex constraints do check is described exactly by C88: convex quadratics for polyhedra, quadratics
  convex along the axes for boxes; `C88_box_gap` exhibits a missed one.
* In binary64 the tolerance of `contains` is absolute, so at coordinates around 2^53 a point of the polyhedron is accepted
  or rejected depending on the order in which the products are added (`C83_large_refuted`; for coordinates up to 1e6 the
  default tolerance suffices, `C83_default_tolerance`).
* A bounding box of points need not contain them: with coordinates around 2.7e8 the rounded center and half extents lose
  one of two points under the default tolerance (`C85_large_refuted`; safe up to 1e6, `C85_default_tolerance`).
* A box whose rotation is orthonormal only to 1e-5 (for instance converted from single precision) is not the same as itself
  under the default tolerance (`C84_inaccurate_rotation_refuted`, `C84_default_tolerance`): the constructor does not check
  the rotation.
* For flat ellipsoids, and for `Cylinder.moment_custom_vertex_constraints`, every eps > 0 makes the
  constraints infeasible (`C52_*`, `C49_defined`); a cylinder radius in (0, 1e-8] raises ValueError (`C49_thin`).
* `Ellipsoid.can_realize` accepts parameters slightly off the plane of a flat ellipsoid (`C51_test_exact_refuted`).
* Relaxation order 0 fails: `Polynomial.basis(n, 0)` holds the integer 0 instead of a multi-index (C43, C45, C46).
* A face `0 <= 0` of a polyhedron raises ValueError (C46); a body with a capsule raises AttributeError;
  `RigidBody.mbes` raises TypeError at the first ellipsoid (C60).

Sampling:

* `Box.random_points_on_surface` applies the pose twice (`C39_box_surface_translated_refuted`,
  `C39_box_surface_rotated_refuted`) and raises IndexError for n = 1 (`C39_box_surface_error`). The mean of its points is
  wrong in every coordinate in which an unrotated box is translated (`C108_translated`).
* `Ellipsoid.random_points_on_surface` rotates by the transpose (`C39_ellipsoid_surface_rotated_refuted`).
* The weights of `random_weight_vectors` are not "uniformly distributed" as its docstring says
  (`C110_uniform_entries_refuted`, `C110_two_weights`; for k other than 2 their mean is 1/k, not 1/2).
* `random_points_in_ball` accepts dim = 1 in its assertion and then always fails (`C38_ball_one`).

Utilities:

* `allclose_unordered` matches greedily and can miss a matching (`C56_complete_refuted`, `C56_incomplete`).
* `validation_rmse` ignores its weight argument (C64).
* `is_triangular_number` has false positives in binary64 from about 2^57 on (`C17_float_int_refuted`,
  `C17_float_float_refuted`) and raises TypeError from 2^61 on for ints.
* `compute_evaluation_times` in binary64 can return the end time itself (`C18_float_strict_refuted`), miss the
  end (`C18_float_cover_refuted`), or return nothing (`C18_float_empty_refuted`).

Sharing (none of this is documented):

* `InertialParameters.from_pim` keeps a view of its argument for H but copies mass and centre: assigning to the matrix
  afterwards leaves inconsistent parameters (`C89_from_pim_refuted`). `com=` and `H=` are kept as well (`C89_com_refuted`).
* `ConvexPolyhedron.from_halfspaces` without pruning and `FaceForm` keep the caller's arrays; the vertices and
  the cached localising polynomials do not follow (`C90_from_halfspaces_refuted`).
* `Cylinder.center` and `Box.center` can be assigned to, but `contains` and the vertices go on using the old one
  (`C90_cylinder_center_refuted`, `C90_box_center`); assigning to `vertices` leaves the faces as they were (`C90_vertices`).
* `convex_hull` of a single point returns its argument, and `sum([p])` is `p` (`C90_convex_hull`, `C89_sum`, `C91_body_sum_single`).
* `Capsule` keeps the cylinder, `RigidBody` the list of shapes and the parameters, `mbes` the parameters of the body
  (`C90_capsule`, `C91_body`, `C91_body_mbes`).
* The largest sphere inscribed in a polyhedron need not be unique: `mie(sphere=True)` returns one of the solver's choice
  (`C92_sphere_centre_refuted`).
* With `gamma = 0` and regressors that do not determine the parameters, `IdentificationProblem` has several optimal
  solutions and the result depends on the solver (`C94_undetermined_refuted`).
  It may also have feasible parameters and no optimal solution at all (`C95_unattained_refuted`).  Existence with
  `must_realize=True` is proved for boxes, polyhedra and ellipsoids; for cylinders the fourth moments along the axis are not
  bounded by the constraints of order two and the question is left open.
* `MomentIndex.__str__` joins the exponents without a separator: (1, 10) and (11, 0) are both printed as 110
  (`C96_index_clash_refuted`; no clash up to degree ten, `C96_low_degree`).
* Wrenches of one motion, of motions whose angular velocities and accelerations are all parallel to one direction, or of
  motions with an unaccelerated body point never determine the parameters, however many there are
  (`C98_one_motion`, `C98_fixed_axis`, `C98_fixed_point`).  Two motions can be enough (`C98_two_motions`).
* `scripts/experiments/process_drip_data.py:18-19` says that the custom values "should always be as least as tight as the
  moment constraints (our proofs say so)".  This is true of cylinders (`C99_cylinder_tighter`) and false for every box that
  is not flat, including the script's: for some D the custom constraints allow 45 per unit mass more than any order d >= 2
  (`C99_box_looser`, `C99_box_tighter_refuted`).  For other D the order two value is the larger (`C99_order_two_refuted`), so
  for boxes neither implies the other.  The README's remark on the experiments, that the custom constraints "yield the same
  results", therefore does not hold for boxes either.
* With d = 1 the moment constraints do not bound the second moments (`C99_box_order_one`, `C99_cylinder_order_one`).
* `Ellipsoid.hollow_density_params` is the limit of layers between the ellipsoids with half extents h and h + d
  (`C100_ellipsoid_layer`).  These layers do not have uniform thickness unless the ellipsoid is a sphere, which is why the result
  is not that of a uniform mass on the surface (C58).  For boxes the layer has uniform thickness and both agree.
* `cylinder_density_realizability_proof.py` is described as a proof for cuboids; its matrix is that of two masses on the end
  discs of a cylinder (`C100_cylinder_masses`).
* The Monte Carlo scripts for boxes sample the distribution they compare with (`C101_shell`, `C101_wireframe`).
  `ellipsoid_shell_inertia_monte_carlo.py` does not: it samples the uniform surface (C72) and compares with
  `hollow_density_params`, which describes another distribution (proved for spheroids, C58), so there its error cannot tend
  to zero.  `box_shell_inertia_monte_carlo.py` raises IndexError for N = 1 (`C101_shell_fails`).

## 6. Assumptions per theorem

Printed by `Print Assumptions` for every theorem of `Properties/`; all are axioms of Coq's standard library.

No axioms (closed under the global context) — 28 theorems:

C15 parts; C37 bounded, cone; C38 ball_one; C40 missing; C41 zero; C43 basis, dimension, first, ones_order_zero,
order_zero; C44 degree, degree_total, degree_zero_polynomial; C62 other_shape, raises; C80 frame_pose,
frame_queries, torques; C96 index, index_clash_refuted, low_degree, missing, parameters, polyhedra, polynomial,
shapes, spatial.

`ClassicalDedekindReals.sig_forall_dec` — 41 theorems:

C01 H2I_raise; C02 vec_order; C14 not_3; C15 from_vec, from_vec_raise; C16 vech_raise, vech_rows; C19 default,
inverse_needs_dimension_3; C20 count; C34 all_equalities, equalities_mismatch, from_cdd_count, from_cdd_total,
rays_count, stack, stack_count, stack_total; C37 to_cdd_nothing; C40 never, progress, rejection, rejection_points,
requests; C44 evaluate, substitute, substitute_missing; C45 moment_constraints_mean; C68 unique_stretched; C75
least_squares_errors, regularizer_lengths; C79 index_error; C80 kinematics; C89 J, h, spatial_from_vec,
spatial_init, spatial_views; C90 face_form_equalities, face_form_shared; C91 torque_regressor.

`ClassicalDedekindReals.sig_forall_dec`, `FunctionalExtensionality.functional_extensionality_dep` — 360 theorems:

C01 H2I_I2H, H2I_symmetric, I2H_H2I, I2H_raise, I2H_symmetric, point_mass; C02 from_vec_length, from_vec_massless,
from_vec_negative, from_vec_vec, vec_from_vec; C03 from_pim_J, from_pim_massless, from_pim_negative, from_pim_row,
from_pim_shape, pim_round_trip; C04 injective, linear, shape, vec_pim, vec_pim_object; C05 compose, congruence,
identity, inverse; C06 central_inertia, central_second_moment, consistent, mass_com, moves_points; C07 add_J,
associative, combined_system, commutative, massless, sum_J, sum_system; C08 com_hull, errors, moments, psd; C09
eigvals_diag; C100 box_edges, box_layer, box_shell, box_vertices, cubes, cuboid_masses, cuboid_solution,
cuboid_weights, cuboid_weights_sum, cylinder_masses, ellipsoid_shell, sphere_limit, sphere_shell; C101 shell_fails,
unique_draws, unique_rows, wireframe_fails; C102 unique_draws, unique_rows; C105 unique; C107 unique; C10 errors,
h_com, parallel_axis, point_mass, second_moment; C110 polyhedron_mean, weights_mean; C11 regressor; C12 newton; C13
gyroscopic_power, kinetic_energy, nonneg, symmetric; C14 contact_jacobian, lift3, lift6, skew3; C15 adjoint,
antisymmetric, jacobi, operations; C18 exact, raise; C19 apply, inverse, inverse_other_dimension_refuted; C20 hull,
vertices; C21 array, constructor, membership, negative, tolerance, vertices; C22 constructor, membership, negative,
small_extents_are_zero; C23 degenerate_not_finite; C24 degenerate_never_same, degenerate_refuted, different_refuted,
finite, reflexive; C25 complete, constructor, membership, negative, tolerance_ignored; C27 box, box_about_center,
box_compose, box_default, box_total, capsule, capsule_compose, capsule_default, capsule_total,
capsule_zero_radius_refuted, cylinder, cylinder_compose, cylinder_default, cylinder_total, ellipsoid,
ellipsoid_compose, ellipsoid_default, ellipsoid_total, face_form, polyhedron; C28 contains, least, points,
polyhedron, polyhedron_total; C29 box_mie, box_mie_total, capsule_total, cylinder_mbb, ellipsoid_mbb; C31 box,
cylinder, ellipsoid, polyhedron, polyhedron_zero; C32 cylinder, ellipsoid, polyhedron; C33 asymmetric_refuted,
box_and_polyhedron, equality, reflexive, symmetric_same_class, transitive; C34 cdd_rows, equalities, from_cdd,
roundtrip; C35 all_equalities_refuted, bounded, empty, equalities_only, points, total, unbounded; C36 bounded,
rays_rotation, rays_translation_refuted; C37 empty, from_cdd, roundtrip, set, to_cdd; C38 box, box_covers,
capsule_total, inertial, polyhedron, polyhedron_covers, psd_matrix, weight_vectors, weight_vectors_zero; C39
box_edges, box_edges_cover, box_edges_zero, box_surface, box_surface_cover, box_surface_error, box_surface_moved,
box_surface_rotated_refuted, box_surface_translated_refuted; C41 box_contained, box_corners, box_count, box_inside,
box_points, polyhedron; C42 degenerate_ellipsoid, ellipsoid; C43 ones; C44 add, affine, affine_wellformed,
init_function, init_wellformed, localize, localize_mismatch, no_zero_stored; C45 localize, localizing_constraints,
localizing_constraints_mean, moment_matrix, order_zero, too_high; C46 box, order_zero, polyhedron, trivial_face; C47
bounds; C49 thin; C50 thin_constraints; C51 mixed; C52 box_sdp_margin_dropped, box_sdp_refuted,
polyhedron_sdp_margin_dropped, polyhedron_sdp_refuted; C53 dimensions, mbe_sphere_best, mbe_sphere_feasible; C56
answers, complete_refuted, complete_when_separated, incomplete, shape, sound, zero_tolerance; C57 box_region,
massless, negative_mass; C59 box_hollow_moves, box_uniform_moves, box_wireframe_moves, cylinder_uniform_moves,
ellipsoid_hollow_moves, ellipsoid_uniform_moves, vertex_mass, vertex_masses; C60 add, add_massless, sum; C63
negative, positive, zero; C65 few_points, hull; C66 quarter_turn, reflexive, rotation_refuted; C68 parameters; C69
as_poly, cube, cube_total, halfspaces, halfspaces_empty, halfspaces_total, halfspaces_unbounded,
rotate_about_center, sides, sides_total, simplex, simplex_error; C70 entries, reflexive, symmetric_refuted, tiny,
tiny_refuted; C74 order; C75 least_squares_weighted, least_squares_weighted_zero; C76 bounding_shapes, init_errors;
C77 feasible, settings; C78 argument_errors, geometry_errors, settings, shape_errors, shape_total, total; C79
floating_base_refuted, mimic_refuted, regressor, torques; C80 get_bodies, get_bodies_errors, pose_order_refuted; C81
box_sdp_refuted, cylinder_sdp_refuted; C87 box_monotone, cylinder_monotone, polyhedron_monotone; C88 box, integral;
C89 add, com_refuted, from_pim, from_pim_refuted, from_point_masses, from_vec, init, sum, transform, zero; C90 box,
box_center, box_mie, box_rotate, box_transform, capsule, capsule_transform, convex_hull, cylinder, cylinder_center,
cylinder_center_refuted, cylinder_transform, ellipsoid, ellipsoid_rotate, ellipsoid_transform, from_halfspaces,
from_halfspaces_refuted, from_halfspaces_shared, from_vertices, polyhedron_transform, sphere, vertices; C91 body,
body_add, body_one, body_sum_single, body_transform, localizing_matrix, multibody, polynomial_add; C93 box_custom,
cylinder, polyhedron; C98 fixed_axis, fixed_point, one_motion, rank, rich, translations, two_motions; C99
box_looser, box_orders, cylinder_order_one, cylinder_orders.

`ClassicalDedekindReals.sig_forall_dec`, `ClassicalDedekindReals.sig_not_dec`,
`FunctionalExtensionality.functional_extensionality_dep` — 192 theorems:

C100 ellipsoid_layer; C103 unique; C104 law, unique; C107 surface, surface_unique; C111 null_space, orth; C15
random; C16 unvech_raise, unvech_vech, vech_unvech; C17 exact; C23 forms; C24 same_points; C26 complete, convex,
hull, sound, tolerance_refuted, union; C28 capsule, cylinder, cylinder_total, ellipsoid; C29 box_mbe,
box_mbe_sphere, box_mbe_total, box_mie_sphere, capsule_mbb, cylinder_mbe, cylinder_mbe_sphere, cylinder_mib,
cylinder_total, ellipsoid_mbe_sphere, ellipsoid_mib, ellipsoid_total; C30 box_mbe, box_mbe_sphere_larger,
box_mbe_sphere_refuted, box_mie, box_mie_sphere, cylinder_mbe, cylinder_mib, ellipsoid_mbb, ellipsoid_mib; C31
capsule; C38 capsule, hypersphere, hypersphere_zero; C39 ellipsoid_surface, ellipsoid_surface_cover,
ellipsoid_surface_degenerate, ellipsoid_surface_fuel, ellipsoid_surface_one, ellipsoid_surface_progress,
ellipsoid_surface_rotated_refuted, ellipsoid_surface_symmetric; C41 capsule, cylinder, ellipsoid; C42 box; C46 body,
body_capsule, body_centres, box_centre, cylinder, cylinder_centre, polyhedron_centre; C47 vertex_constraints; C48
custom_box; C49 bounds, custom_cylinder, defined; C50 constraints; C51 constraints; C52 box_custom,
cylinder_sdp_margin_dropped, cylinder_sdp_refuted, ellipsoid, flat_ellipsoid, vertex; C53 code_condition,
concentric_spheres, false_refuted, mbe_code_condition, mbe_refuted, mbe_sphere_result, mbe_unit_spheres,
place_refuted, s_procedure, size_refuted, unit_sphere_iff, unit_sphere_sound, unit_spheres_anywhere; C54 empty,
halfspaces_feasible, mbe_contains, mie_inside, points_feasible, poly_mie; C55 from_affine, from_shape_matrix,
singular; C57 cylinder_region, ellipsoid_region; C59 box_hollow, box_uniform, box_wireframe, cylinder_uniform,
ellipsoid_hollow, ellipsoid_uniform; C60 add_realizable, mbes, mbes_ellipsoid, transform, transform_realizable,
transform_total; C61 closest, distance, invariant, separating, solver, symmetric; C64 no_data, value,
weight_ignored, zero; C67 capsule_mbb, cylinder_mbb, cylinder_sphere, cylinder_sphere_refuted, ellipsoid_sphere; C68
diagonal, diagonal_attained, ellipsoid_flat, unique_box, unique_cylinder, unique_ellipsoid, unique_frame,
unique_plate, unique_shell, unique_surface; C71 contains; C72 ellipsoid_surface; C74 affine, affine_refuted,
shape_matrix; C75 least_squares, least_squares_zero; C76 centre_of_mass, definite_refuted, failed, finite_refuted,
fit, guarantee, recover, total; C77 failed, fit, guarantee, margin_refuted; C78 bodies, shape, union; C81
box_vertex_refuted, identification_refuted; C82 cylinder, flat_box, stricter; C87 body_monotone; C91 body_mbes; C93
body, centre_of_mass, composite, cylinder_custom, ellipsoid, must_contain, parameters_sum, shape; C94 convex,
discretized_cone, discretized_solver, discretized_unique, undetermined_refuted; C95 unattained_refuted; C97
discretized_growth, discretized_stable; C98 recover, robot; C99 cylinder_custom, cylinder_moment.

`ClassicalDedekindReals.sig_forall_dec`, `Classical_Prop.classic`,
`FunctionalExtensionality.functional_extensionality_dep` — 1 theorems:

C99 box_order_one.

`ClassicalDedekindReals.sig_forall_dec`, `ClassicalDedekindReals.sig_not_dec`, `Classical_Prop.classic`,
`FunctionalExtensionality.functional_extensionality_dep` — 193 theorems:

C09 consistent_body, consistent_psd; C101 shell, solid, wireframe; C102 edges, solid, surface; C103 ball_mean,
ball_rows, ball_second, cylinder_mean, cylinder_rows, cylinder_second, ellipsoid_mean, ellipsoid_rows,
ellipsoid_second; C105 capsule, capsule_volume, law; C106 edges, ellipsoid, solid, surface; C107 capsule, rejection;
C108 sampled_mean, surface_mean, translated; C109 cylinder, cylinder_element, ellipsoid, ellipsoid_element,
ellipsoid_pose, ellipsoid_volume; C110 exchangeable, psd_mean, two_weights, uniform_entries_refuted; C111 defined,
runs; C112 mbe_of_points, mie_inequality_form, poly_mbe; C113 mbe_of_points, mie_inequality_form, poly_mbe, poly_mie;
C114 mbe_of_points, mie_inequality_form, poly_mbe, poly_mie; C17 float, float_agrees, float_big, float_complete,
float_float_refuted, float_int_refuted, float_reject, rounding; C18 float, float_cover_refuted, float_empty_refuted,
float_raise, float_strict_refuted; C38 ball, ball_covers, cylinder, cylinder_covers, ellipsoid, ellipsoid_covers,
ellipsoid_one; C50 test, test_margin, thin_test; C51 test, test_exact_refuted; C54 mbe_minimal, mie_maximal; C57
box_flat, box_hollow, box_uniform, box_wireframe, cylinder_flat, cylinder_uniform, ellipsoid_flat,
ellipsoid_not_plate, ellipsoid_plate_refuted, ellipsoid_uniform; C58 area_element, sphere, spheroid_differs,
spheroid_refuted, surface; C59 ellipsoid_accepts_hollow, ellipsoid_accepts_uniform; C61 exists; C68 box_volume,
cylinder_volume, ellipse_area, ellipse_refuted, ellipsoid_volume; C71 minimal; C72 ball, box_edges, box_surface,
edge_shares, face_shares; C73 frame, invariant, inverse, satisfiable, scaled, shape, singular, symmetric, total,
value, zero; C74 eigh; C75 log_det_concave, log_det_exists, regularizer_convex, regularizer_minimum,
regularizer_single; C76 no_worse, nominal; C83 contains, default_tolerance, inner_product, large_refuted, total; C84
default_tolerance, inaccurate_rotation_refuted, same, total; C85 contains, default_tolerance, half_extents,
large_refuted, total; C86 contains, default_tolerance, total; C87 accumulation, body, body_detects, box,
box_detects, cylinder, cylinder_detects, cylinder_problem, order_matters, polyhedron, polyhedron_problem; C88 body,
box_gap, certificate, polyhedron, shape; C92 mbe_exists, mbe_of_points, mbe_unique, mie_exists, mie_exists_sphere,
mie_inequality_form, mie_unique, poly_mbe, poly_mie, sphere_centre_refuted; C93 polyhedron_vertices; C94 solver,
strictly_convex, unique; C95 accepted_limit, discretized, exists, exists_unique, outcome; C97 error, growth,
lipschitz, noise, stable, tolerance; C98 noise; C99 box_custom, box_limit, box_moment, box_order_two,
box_tighter_refuted, cylinder_limit, cylinder_tighter, largest, order_two_refuted.
