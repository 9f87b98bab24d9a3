{"id": "C01", "title": "Inertia matrix and second-moment matrix convert back and forth losslessly", "statement": "For every 3x3 matrix X, I2H(H2I(X)) = X and H2I(I2H(X)) = X; H2I(H) is the rotational inertia of a body with second moments H (for a point mass m at p it is the matrix of w -> m p x (w x p)); both maps preserve symmetry. A matrix that is not 3x3 is rejected with an assertion error.", "quantifier": "every 3x3 real matrix; every point mass", "why_tests_cant": "an identity between linear maps on a nine-dimensional real space; tests evaluate it at a few matrices", "anchors": ["src/rigeo/inertial.py:H2I", "src/rigeo/inertial.py:I2H"]}
{"id": "C02", "title": "Parameter vector round trip", "statement": "For every 10-vector theta with positive mass entry, InertialParameters.from_vec(theta).vec == theta; for every parameter object with positive mass and symmetric H, from_vec(p.vec) has the same mass, centre of mass and H. vec is ordered [m, hx, hy, hz, Ixx, Ixy, Ixz, Iyy, Iyz, Izz]. With mass 0 the constructor divides by zero and the object is not finite.", "quantifier": "every parameter vector and every parameter object", "why_tests_cant": "ten-dimensional real input space; ordering mistakes cancel on symmetric test data", "anchors": ["src/rigeo/inertial.py:InertialParameters.vec", "src/rigeo/inertial.py:InertialParameters.from_vec", "src/rigeo/inertial.py:InertialParameters.__init__"]}
{"id": "C03", "title": "Pseudo-inertia matrix round trip", "statement": "For every parameter object p of positive mass, from_pim(p.J) has the same mass, centre of mass and H; for every symmetric 4x4 J with J[3,3] > 0, from_pim(J).J == J.", "quantifier": "every parameter object with positive mass; every symmetric 4x4 matrix with positive corner", "why_tests_cant": "universally quantified real identity", "anchors": ["src/rigeo/inertial.py:InertialParameters.J", "src/rigeo/inertial.py:InertialParameters.from_pim"]}
{"id": "C04", "title": "The linear parameter-vector-to-pseudo-inertia map used in constraints agrees with the numeric class", "statement": "For every 10-vector theta with positive mass, sum_i A_i theta_i over pim_sum_vec_matrices() (= pim_must_equal_vec(theta)) equals InertialParameters.from_vec(theta).J, so constraints on theta constrain the right matrix.", "quantifier": "every parameter vector", "why_tests_cant": "the cvxpy side is symbolic: an optimiser may visit any theta", "anchors": ["src/rigeo/constraint.py:pim_sum_vec_matrices", "src/rigeo/constraint.py:pim_must_equal_vec"]}
{"id": "C05", "title": "Transforming inertial parameters is the congruence T J T^T and a group action", "statement": "p.transform(R, t).J == T p.J T^T with T the homogeneous matrix of (R, t), for every 3x3 R; transforming by (R1,t1) and then (R2,t2) equals transforming by the composite; the default transform is the identity; for orthogonal R, transforming by the inverse (R^T, -R^T t) restores the parameters.", "quantifier": "every parameter object and every rotation/translation, and every composition of them", "why_tests_cant": "real-valued identity over 4x4 matrices and all chains of transforms", "anchors": ["src/rigeo/inertial.py:InertialParameters.transform", "src/rigeo/util.py:transform_matrix"]}
{"id": "C06", "title": "Rigid transforms act on the body's physics as expected", "statement": "For every system of point masses, transforming its parameters by (R, t) gives the parameters of the system with every point p moved to R p + t: mass is unchanged, the CoM moves to R c + t, the inertia about the CoM is R Ic R^T, and physical consistency (J positive semidefinite) is preserved.", "quantifier": "every finite system of point masses and every rigid transform", "why_tests_cant": "unbounded number of points, continuous inputs", "anchors": ["src/rigeo/inertial.py:InertialParameters.transform", "src/rigeo/inertial.py:InertialParameters.from_point_masses", "src/rigeo/inertial.py:InertialParameters.Ic"]}
{"id": "C07", "title": "Adding bodies adds moments", "statement": "If the total mass is positive, (p1 + p2).J == p1.J + p2.J; addition is commutative and associative; Python's sum() over a non-empty list of parameters of positive mass returns the parameters whose J is the sum; adding the parameters of two point-mass systems gives the parameters of the combined system. Adding two massless objects (the default of RigidBody) is not finite: the sum divides 0 by 0.", "quantifier": "all pairs and lists of parameter objects", "why_tests_cant": "lists of any length; the zero-mass corner is never exercised by tests", "anchors": ["src/rigeo/inertial.py:InertialParameters.__add__", "src/rigeo/inertial.py:InertialParameters.__radd__", "src/rigeo/inertial.py:InertialParameters.zero"]}
{"id": "C08", "title": "Point-mass parameters are the moments of the point masses", "statement": "from_point_masses(masses, points) has mass sum m_i, first moment sum m_i p_i and second moment sum m_i p_i p_i^T whenever the total mass is positive; with non-negative masses its J is positive semidefinite and its centre of mass is a convex combination of the points.", "quantifier": "every number of points, every mass vector, every location", "why_tests_cant": "unbounded number of points", "anchors": ["src/rigeo/inertial.py:InertialParameters.from_point_masses"]}
{"id": "C09", "title": "Physical consistency means a body exists", "statement": "For parameters with symmetric H, consistent(eps) returns True exactly when J - eps*I is positive semidefinite (given that eigvals returns the eigenvalues of J); and parameters with positive mass are consistent (eps=0) exactly when some finite system of positive point masses has those parameters.", "quantifier": "every parameter object, every eps", "why_tests_cant": "equivalence between an eigenvalue test and an existential over all bodies", "anchors": ["src/rigeo/inertial.py:InertialParameters.consistent"]}
{"id": "C10", "title": "Parallel axis theorem in the constructor", "statement": "Constructing with an inertia about the CoM (translate_from_com=True) gives the same parameters as constructing with the inertia about the origin: I = Ic + m(|c|^2 1 - c c^T); Hc and Ic recover the matrices supplied about the CoM. Supplying both h and com, or both H and I, raises ValueError; negative mass raises AssertionError.", "quantifier": "every mass, centre of mass, second moment or inertia matrix and every combination of constructor arguments", "why_tests_cant": "all argument combinations times continuous values", "anchors": ["src/rigeo/inertial.py:InertialParameters.__init__", "src/rigeo/inertial.py:InertialParameters.Hc", "src/rigeo/inertial.py:InertialParameters.Ic"]}
{"id": "C11", "title": "The regressor reproduces the body wrench", "statement": "For every body-frame velocity V, acceleration A and parameters p with symmetric H, RigidBody.regressor(V, A) @ p.vec == p.body_wrench(V, A).vec; the regressor does not depend on the parameters.", "quantifier": "every velocity, acceleration and parameter object", "why_tests_cant": "22-dimensional real identity", "anchors": ["src/rigeo/rigidbody.py:RigidBody.regressor", "src/rigeo/util.py:lift6", "src/rigeo/inertial.py:InertialParameters.body_wrench"]}
{"id": "C12", "title": "The body wrench is Newton's law summed over the body's points", "statement": "For every finite system of point masses moving rigidly with body-frame twist (w, v) and spatial acceleration (al, a), body_wrench of its parameters is the sum over points of (p x f, f) with f = m (a + al x p + w x (v + w x p)).", "quantifier": "every point-mass system and every motion", "why_tests_cant": "physics identity over unbounded systems", "anchors": ["src/rigeo/inertial.py:InertialParameters.body_wrench", "src/rigeo/spatial.py:SpatialVector.adjoint", "src/rigeo/inertial.py:InertialParameters.M"]}
{"id": "C13", "title": "Spatial mass matrix gives the kinetic energy", "statement": "V^T M V is the sum over the points of m |v + w x p|^2 (twice the kinetic energy); it is non-negative for every consistent parameter object, M is symmetric, and the velocity-dependent part of the body wrench does no work: V . body_wrench(V, 0) == 0.", "quantifier": "every twist, every consistent parameter object", "why_tests_cant": "quantifies over all motions", "anchors": ["src/rigeo/inertial.py:InertialParameters.M", "src/rigeo/inertial.py:InertialParameters.body_wrench"]}
{"id": "C14", "title": "Cross-product matrices", "statement": "skew3(a) @ b is the cross product a x b, skew3(a) is skew-symmetric; lift3(x) @ vech(A) == A @ x for symmetric A; lift6(V) @ p.vec == p.M @ V.vec; contact_jacobian(p) @ f == (p x f, f). Arguments that are not 3-vectors raise AssertionError.", "quantifier": "every 3-vector, symmetric matrix, twist and parameter object", "why_tests_cant": "real-valued identities", "anchors": ["src/rigeo/util.py:skew3", "src/rigeo/util.py:lift3", "src/rigeo/util.py:lift6", "src/rigeo/util.py:contact_jacobian"]}
{"id": "C15", "title": "Spatial vectors form a vector space with angular part first", "statement": "from_vec(s.vec) has the linear and angular parts of s; s.vec is [angular; linear]; +, -, scalar * and / act componentwise on vec; V.adjoint() @ W.vec is the spatial motion cross product, is antisymmetric in V and W (so V.adjoint() @ V.vec == 0) and satisfies the Jacobi identity. random_diag_normal, given standardised draws, has the given mean and the given variances, and uncorrelated components.", "quantifier": "every pair/triple of spatial vectors and every scalar", "why_tests_cant": "continuous inputs", "anchors": ["src/rigeo/spatial.py:SpatialVector", "src/rigeo/spatial.py:SpatialVector.random_diag_normal"]}
{"id": "C16", "title": "Half-vectorization round trip in every dimension", "statement": "unvech(vech(A)) == A for every symmetric n x n matrix and every n >= 1; vech(unvech(a)) == a for every vector whose length is triangular; vech(A)[k] enumerates the upper triangle row by row, and with offset k=1 the strict upper triangle; unvech of a vector of non-triangular length raises AssertionError.", "quantifier": "every dimension n and every symmetric matrix", "why_tests_cant": "unbounded dimension", "anchors": ["src/rigeo/util.py:vech", "src/rigeo/util.py:unvech"]}
{"id": "C17", "title": "Triangular-number test", "statement": "is_triangular_number(x) returns (True, n) exactly when x = n(n+1)/2 with n >= 1. In exact arithmetic this holds for every x. With the binary64 square root that the code uses it holds for every integer 1 <= x < 2^49 and fails for some larger x (a non-triangular x is reported triangular).", "quantifier": "every integer (and every float that is an integer)", "why_tests_cant": "infinitely many integers; the failure needs numbers beyond 2^50", "anchors": ["src/rigeo/util.py:is_triangular_number"]}
{"id": "C18", "title": "Evaluation times cover the interval at a fixed step", "statement": "For positive duration and step, compute_evaluation_times returns n >= 1 and times k*step for k < n, all of them in [0, duration), the next one (n*step) would be >= duration. In binary64 the strict bound fails for some inputs. Non-positive arguments raise AssertionError.", "quantifier": "every positive duration and step", "why_tests_cant": "continuous inputs; rounding corner cases", "anchors": ["src/rigeo/util.py:compute_evaluation_times"]}
{"id": "C19", "title": "Transformation matrices and their inverses", "statement": "transform_matrix(R, t) applied to (p, 1) is (R p + t, 1); for orthogonal R in 3 dimensions transform_matrix_inv(R, t) is the two-sided inverse. In every other dimension the inverse raises AssertionError, because dim is not passed on.", "quantifier": "every dimension, every rotation and translation", "why_tests_cant": "all dimensions; the failing branch is not tested", "anchors": ["src/rigeo/util.py:transform_matrix", "src/rigeo/util.py:transform_matrix_inv", "src/rigeo/util.py:clean_transform"]}
{"id": "C20", "title": "Box vertices", "statement": "box_vertices(h) in dimension d returns exactly the 2^d points whose i-th coordinate is +h_i or -h_i, and their convex hull is the box { |x_i| <= h_i }, in every dimension.", "quantifier": "every dimension and every vector of half extents", "why_tests_cant": "2^d vertices for unbounded d", "anchors": ["src/rigeo/util.py:box_vertices"]}
{"id": "C21", "title": "Box membership, faces and vertices agree", "statement": "For orthogonal rotation and tol = 0, Box.contains(p) holds exactly when p = R u + c for some u with |u_i| <= h_i, exactly when p is a convex combination of Box.vertices: the face form and the span form built independently by the constructor describe the same set. With tol > 0 the box grows by tol along each face normal. Negative half extents raise AssertionError.", "quantifier": "every box and every point", "why_tests_cant": "two independent descriptions must agree at every real point", "anchors": ["src/rigeo/shape/box.py:Box", "src/rigeo/shape/box.py:_box_inequalities", "src/rigeo/shape/box.py:_box_vertices", "src/rigeo/shape/poly.py:ConvexPolyhedron.contains"]}
{"id": "C22", "title": "Ellipsoid membership", "statement": "For orthogonal rotation, half extents that are 0 or larger than 1e-8, and tol = 0, Ellipsoid.contains(p) holds exactly when p is the image R (h o u) + c of a point u of the closed unit ball, in every dimension and including degenerate ellipsoids. Half extents in (0, 1e-8] are treated as zero.", "quantifier": "every dimension, every ellipsoid and every point", "why_tests_cant": "all dimensions and degenerate cases", "anchors": ["src/rigeo/shape/ellipsoid.py:Ellipsoid.contains", "src/rigeo/shape/ellipsoid.py:_inv_with_zeros"]}
{"id": "C23", "title": "Shape matrix, affine and Q forms describe the same ellipsoid", "statement": "For a non-degenerate ellipsoid (half extents > 1e-8) S, A, b, Q and E are finite and (p-c)^T S (p-c) <= 1, |A p + b| <= 1 and (p,1)^T Q (p,1) >= 0 are each equivalent to membership; E is the inverse of S.", "quantifier": "every non-degenerate ellipsoid, every point", "why_tests_cant": "equivalence of four formulas at every real point", "anchors": ["src/rigeo/shape/ellipsoid.py:Ellipsoid.S", "src/rigeo/shape/ellipsoid.py:Ellipsoid.A", "src/rigeo/shape/ellipsoid.py:Ellipsoid.b", "src/rigeo/shape/ellipsoid.py:Ellipsoid.Q", "src/rigeo/shape/ellipsoid.py:Ellipsoid.E", "src/rigeo/shape/ellipsoid.py:_Q_matrix"]}
{"id": "C24", "title": "Ellipsoid equality test", "statement": "A user expects e.is_same(e), and is_same to tell different ellipsoids apart. Two non-degenerate ellipsoids (half extents > 1e-8) with the same points always compare equal for tol >= 0, whatever rotation and axis order represents them; in particular e.is_same(e). But a degenerate ellipsoid (some half extent 0) whose rotation has a zero in the column of that axis (e.g. the identity), or whose centre has a zero coordinate, has NaN in Q and e.is_same(e) is False; and two different degenerate ellipsoids without such zeros can compare equal, because their Q matrices hold the same infinities.", "quantifier": "every ellipsoid, degenerate or not", "why_tests_cant": "NaN propagation through matrix products happens for every degenerate ellipsoid, none of which the tests compare", "anchors": ["src/rigeo/shape/ellipsoid.py:Ellipsoid.is_same", "src/rigeo/shape/ellipsoid.py:Ellipsoid.Q"]}
{"id": "C25", "title": "Cylinder membership", "statement": "For orthogonal rotation, Cylinder.contains(p) (default tolerance) is True for every p = c + R (x, y, z) with x^2 + y^2 <= r^2 and |z| <= L/2, and every accepted point is within the stated 1e-8 tolerance of satisfying these. The tol argument is ignored: contains(p, tol) does not depend on tol.", "quantifier": "every cylinder, every point, every tolerance", "why_tests_cant": "continuous inputs; the ignored argument is invisible at the tolerances used in tests", "anchors": ["src/rigeo/shape/cylinder.py:Cylinder.contains", "src/rigeo/shape/cylinder.py:Cylinder.__init__"]}
{"id": "C26", "title": "Capsule membership is distance to the axis segment", "statement": "For an orthogonal rotation, the union of the two caps and the cylinder that Capsule.contains tests is (with the caps' and cylinder's exact membership) exactly the set of points within distance r of the segment between the cylinder's endpoints, and that is the convex hull of the two end spheres.", "quantifier": "every capsule and every point", "why_tests_cant": "set equality over R^3", "anchors": ["src/rigeo/shape/capsule.py:Capsule.contains", "src/rigeo/shape/cylinder.py:Cylinder.endpoints"]}
{"id": "C27", "title": "Transforming a shape transforms its point set", "statement": "For orthogonal R and every translation t, S.transform(R, t).contains(R p + t, tol) == S.contains(p, tol) for boxes, ellipsoids and cylinders, for capsules of radius above 1e-8 or with tol = 0, and for polyhedra (face forms at every tol; vertex-form polyhedra at tol = 0 given a correct double description); two successive transforms equal the composite transform; the default transform is the identity. For a capsule of radius 0 and positive tol the equality fails.", "quantifier": "every shape, point, tolerance and rigid transform", "why_tests_cant": "set-level equivariance over all of R^3 and SE(3)", "anchors": ["src/rigeo/shape/box.py:Box.transform", "src/rigeo/shape/ellipsoid.py:Ellipsoid.transform", "src/rigeo/shape/cylinder.py:Cylinder.transform", "src/rigeo/shape/capsule.py:Capsule.transform", "src/rigeo/polydd.py:FaceForm.transform"]}
{"id": "C28", "title": "Axis-aligned bounding boxes contain the shape and are the smallest such box", "statement": "from_points_to_bound(points) contains every point and is contained in every axis-aligned box that does; aabb() of a polyhedron, ellipsoid, cylinder and capsule contains every point of the shape and every one of its six faces is touched by a point of the shape.", "quantifier": "every shape and every point of it; every competing box", "why_tests_cant": "minimality quantifies over all boxes, containment over all points", "anchors": ["src/rigeo/shape/box.py:Box.from_points_to_bound", "src/rigeo/shape/box.py:Box.from_two_vertices", "src/rigeo/shape/poly.py:ConvexPolyhedron.aabb", "src/rigeo/shape/ellipsoid.py:Ellipsoid.aabb", "src/rigeo/shape/cylinder.py:Cylinder.aabb", "src/rigeo/shape/capsule.py:Capsule.aabb"]}
{"id": "C29", "title": "Closed-form inscribed and bounding shapes really are inscribed and bounding", "statement": "Box.mie() is inside the box, Box.mbe() contains it, Ellipsoid.mib() is inside the ellipsoid, Ellipsoid.mbb() and mbe(sphere=True) contain it, Cylinder.mib() is inside the cylinder, Cylinder.mbb() and mbe() contain it, Capsule.mbb() contains the capsule; the same for the sphere=True variants of Box.mie/mbe and Cylinder.mbe.", "quantifier": "every box, ellipsoid, cylinder, capsule and every point of it", "why_tests_cant": "containment of infinite sets", "anchors": ["src/rigeo/shape/box.py:Box.mie", "src/rigeo/shape/box.py:Box.mbe", "src/rigeo/shape/ellipsoid.py:Ellipsoid.mib", "src/rigeo/shape/ellipsoid.py:Ellipsoid.mbb", "src/rigeo/shape/ellipsoid.py:Ellipsoid.mbe", "src/rigeo/shape/cylinder.py:Cylinder.mib", "src/rigeo/shape/cylinder.py:Cylinder.mbb", "src/rigeo/shape/cylinder.py:Cylinder.mbe", "src/rigeo/shape/capsule.py:Capsule.mbb"]}
{"id": "C30", "title": "Volume optimality of the closed-form extremal ellipsoids and boxes", "statement": "No ellipsoid inside a box has larger volume than Box.mie(); no ellipsoid containing a box has smaller volume than Box.mbe(); no (arbitrarily oriented) box containing an ellipsoid has smaller volume than Ellipsoid.mbb() and no box inside it has larger volume than mib(). The sphere=True variant of Box.mbe is bounding but not the smallest: a strictly smaller bounding sphere exists for every non-cubic box.", "quantifier": "every box/ellipsoid and every competitor", "why_tests_cant": "optimisation over an infinite family", "anchors": ["src/rigeo/shape/box.py:Box.mie", "src/rigeo/shape/box.py:Box.mbe", "src/rigeo/shape/ellipsoid.py:Ellipsoid.mib", "src/rigeo/shape/ellipsoid.py:Ellipsoid.mbb"]}
{"id": "C31", "title": "must_contain constrains a point to the shape, and scales", "statement": "A point satisfies the constraints produced by must_contain(p, scale=s), s > 0, exactly when p/s belongs to the shape - for polyhedra, ellipsoids (Schur complement matrix positive semidefinite, degenerate extents included), cylinders and capsules (existence of the auxiliary variables). With s = 0 a bounded non-empty shape admits only p = 0.", "quantifier": "every shape, every point, every scale", "why_tests_cant": "the constraint is consumed by an optimiser that may pick any point; capsule constraints contain existential variables", "anchors": ["src/rigeo/shape/poly.py:ConvexPolyhedron.must_contain", "src/rigeo/shape/ellipsoid.py:Ellipsoid.must_contain", "src/rigeo/shape/cylinder.py:Cylinder.must_contain", "src/rigeo/shape/capsule.py:Capsule.must_contain", "src/rigeo/constraint.py:schur"]}
{"id": "C32", "title": "Containing the vertices means containing the polyhedron", "statement": "shape.contains_polyhedron(poly, tol) is True exactly when shape.contains(p, tol) for every convex combination p of poly's vertices, for polyhedral, ellipsoidal and cylindrical shapes.", "quantifier": "every shape, polyhedron, tolerance and point", "why_tests_cant": "finite test standing for a statement about infinitely many points", "anchors": ["src/rigeo/shape/base.py:Shape.contains_polyhedron", "src/rigeo/shape/poly.py:ConvexPolyhedron.contains", "src/rigeo/shape/ellipsoid.py:Ellipsoid.contains"]}
{"id": "C33", "title": "Polyhedron equality test", "statement": "For polyhedra whose face and span forms describe the same set, is_same with tol = 0 holds exactly when the point sets are equal, and it is reflexive and transitive. It is not symmetric across classes: a Box b and the equal general polyhedron p satisfy p.is_same(b) but b.is_same(p) is False.", "quantifier": "all pairs/triples of polyhedra", "why_tests_cant": "equivalence-relation laws over all polyhedra", "anchors": ["src/rigeo/shape/poly.py:ConvexPolyhedron.is_same", "src/rigeo/shape/box.py:Box"]}
{"id": "C34", "title": "Face forms: stacking is intersection, equalities are two-sided", "statement": "x satisfies f.stack(g) exactly when it satisfies f and g; a FaceForm built with equalities is satisfied exactly by points satisfying the inequalities and the equalities; to_cdd_matrix/from_cdd_matrix round-trips; a CDD matrix all of whose rows are equalities makes from_cdd_matrix raise IndexError. The number of faces nf counts an equality twice, and the number of rays nr a line twice.", "quantifier": "every face form and every point in every dimension", "why_tests_cant": "all dimensions and row counts", "anchors": ["src/rigeo/polydd.py:FaceForm", "src/rigeo/polydd.py:FaceForm.stack", "src/rigeo/polydd.py:FaceForm.from_cdd_matrix", "src/rigeo/polydd.py:FaceForm.to_cdd_matrix"]}
{"id": "C35", "title": "Polyhedron intersection", "statement": "Given a correct double-description routine, p.intersect(q) is None exactly when no point belongs to both and otherwise contains exactly the points in both; ConvexPolyhedron rejects unbounded span forms with ValueError.", "quantifier": "every pair of polyhedra", "why_tests_cant": "set equality over all points", "anchors": ["src/rigeo/shape/poly.py:ConvexPolyhedron.intersect", "src/rigeo/shape/poly.py:ConvexPolyhedron.__init__", "src/rigeo/polydd.py:FaceForm.to_span_form"]}
{"id": "C36", "title": "Transforming a span form", "statement": "SpanForm.transform maps the represented set {hull(vertices) + cone(rays)} to its image under x -> R x + t when the form has no rays. A user expects it for rays too, but the translation is also added to the rays, so for some forms with rays the result is a different set.", "quantifier": "every span form, with and without rays", "why_tests_cant": "set equality; tests only transform bounded polyhedra", "anchors": ["src/rigeo/polydd.py:SpanForm.transform"]}
{"id": "C37", "title": "Span form bookkeeping", "statement": "SpanForm(vertices, rays, span) represents hull + cone(rays) + linspan(span): each span generator becomes the two rays +-s; from_cdd_matrix(to_cdd_matrix(f)) = f; bounded() holds exactly when there are vertices and no rays; is_cone() exactly when there are rays and no vertices; a CDD matrix with no rows gives None.", "quantifier": "every set of vertices, rays and span generators in every dimension", "why_tests_cant": "all counts and dimensions", "anchors": ["src/rigeo/polydd.py:SpanForm", "src/rigeo/polydd.py:SpanForm.from_cdd_matrix", "src/rigeo/polydd.py:SpanForm.to_cdd_matrix", "src/rigeo/polydd.py:SpanForm.bounded", "src/rigeo/polydd.py:SpanForm.is_cone"]}
{"id": "C38", "title": "Random points lie in the shape whatever the generator draws", "statement": "For every draw of the random generator in its range, Box.random_points, Ellipsoid.random_points, Cylinder.random_points and ConvexPolyhedron.random_points return points of the shape; random_weight_vectors are non-negative and sum to one; random_points_on_hypersphere have norm one and random_points_in_ball norm at most one; random_psd_matrix is symmetric positive semidefinite; InertialParameters.random is consistent with positive mass.", "quantifier": "every outcome of the random generator, every shape, every number of points", "why_tests_cant": "tests sample a few seeds", "anchors": ["src/rigeo/random.py", "src/rigeo/shape/box.py:Box.random_points", "src/rigeo/shape/ellipsoid.py:Ellipsoid.random_points", "src/rigeo/shape/cylinder.py:Cylinder.random_points", "src/rigeo/shape/poly.py:ConvexPolyhedron.random_points", "src/rigeo/inertial.py:InertialParameters.random"]}
{"id": "C39", "title": "Random points on surfaces and edges", "statement": "Box.random_points_on_edges always returns points on edges of the (rotated, translated) box. random_points_on_surface of an ellipsoid is on the surface when the rotation is symmetric (e.g. the identity), but for some rotation it is not, because the points are multiplied by R instead of R^T. Box.random_points_on_surface is on the surface for an axis-aligned box at the origin and n >= 2, but not for a translated box (the pose is applied twice), and for n = 1 (the default) it raises IndexError.", "quantifier": "every box/ellipsoid pose and every outcome of the generator", "why_tests_cant": "the failing poses are not tested and the claim is about every draw", "anchors": ["src/rigeo/shape/box.py:Box.random_points_on_surface", "src/rigeo/shape/box.py:Box.random_points_on_edges", "src/rigeo/shape/ellipsoid.py:Ellipsoid.random_points_on_surface"]}
{"id": "C40", "title": "Rejection sampling returns only contained points and always stops", "statement": "For every sequence of candidate batches, rejection_sample either returns exactly the requested number of points, each of them a candidate contained in at least one actual shape, or raises ValueError after exactly max_tries batches; it never requests more candidates than are still missing.", "quantifier": "every sequence of random batches, every requested count, every max_tries", "why_tests_cant": "all histories of a random loop", "anchors": ["src/rigeo/random.py:rejection_sample", "src/rigeo/shape/capsule.py:Capsule.random_points"]}
{"id": "C41", "title": "Grids", "statement": "Box.grid(n) returns n^3 points (n_x n_y n_z for a triple), all in the box; the grid of any other shape consists of exactly those points of its bounding box's grid that the shape contains, in order.", "quantifier": "every shape and every grid size", "why_tests_cant": "all n and all shapes", "anchors": ["src/rigeo/shape/box.py:Box.grid", "src/rigeo/shape/base.py:Shape.grid", "src/rigeo/shape/poly.py:ConvexPolyhedron.grid"]}
{"id": "C42", "title": "Surface test", "statement": "With tol = 0, Box.on_surface(p) holds exactly when p is in the box but not in its interior (some local coordinate equals its half extent in absolute value); Ellipsoid.on_surface(p) holds exactly when p is the image of a unit vector (non-degenerate), and for a degenerate ellipsoid exactly when p is in it.", "quantifier": "every box/ellipsoid and point", "why_tests_cant": "continuous inputs", "anchors": ["src/rigeo/shape/box.py:Box.on_surface", "src/rigeo/shape/ellipsoid.py:Ellipsoid.on_surface"]}
{"id": "C43", "title": "Polynomial basis", "statement": "Polynomial.basis(n, d), d >= 1, lists every multi-index of n non-negative integers with sum <= d exactly once; it has Polynomial.dim(n, d) = C(n+d, d) elements; the first dim(n, d') of them are exactly those of degree <= d'; basis(n, 0) is the list [0] holding the integer 0, not a MomentIndex.", "quantifier": "every n and d", "why_tests_cant": "combinatorial statement for all n, d", "anchors": ["src/rigeo/moment.py:Polynomial.basis", "src/rigeo/moment.py:Polynomial.dim"]}
{"id": "C44", "title": "Polynomial operations agree with polynomial functions", "statement": "evaluate(p + q, x) = evaluate(p, x) + evaluate(q, x); evaluate(p.localize(i), x) = x^i evaluate(p, x); evaluate(affine(a, b), x) = b - a.x; zero coefficients are never stored; degree is the largest total degree stored; substitute with the monomial values of x equals evaluate(x).", "quantifier": "every polynomial, index and point in every dimension", "why_tests_cant": "all polynomials", "anchors": ["src/rigeo/moment.py:Polynomial", "src/rigeo/moment.py:MomentIndex"]}
{"id": "C45", "title": "Moment and localizing matrices of a measure", "statement": "For every finite non-negative point measure, the matrix of its moments in the order of MomentMatrix(n, d) is positive semidefinite and satisfies moment_constraints; for every polynomial g that is non-negative on the points, with degree <= 2d, MomentMatrix.localize succeeds (no missing moment) and is positive semidefinite; degree > 2d raises ValueError.", "quantifier": "every n, d, polynomial and point measure", "why_tests_cant": "unbounded sizes", "anchors": ["src/rigeo/moment.py:MomentMatrix", "src/rigeo/moment.py:MomentMatrix.localize", "src/rigeo/moment.py:MomentMatrix.moment_constraints", "src/rigeo/moment.py:MomentMatrix.localizing_constraints"]}
{"id": "C46", "title": "Moment SDP constraints are necessary for realizability", "statement": "Whenever parameters are realized by non-negative point masses inside a polyhedron (box) or cylinder, the constraints produced by moment_sdp_constraints are satisfiable for those parameters, for every relaxation order d >= 2; the same for a RigidBody made of several shapes. So no realizable parameter set is ever excluded.", "quantifier": "every polyhedron, cylinder, body, relaxation order and realizable parameter set", "why_tests_cant": "soundness of a relaxation: forall measures exists auxiliary matrices", "anchors": ["src/rigeo/shape/poly.py:ConvexPolyhedron.moment_sdp_constraints", "src/rigeo/shape/cylinder.py:Cylinder.moment_sdp_constraints", "src/rigeo/rigidbody.py:RigidBody.moment_sdp_constraints"]}
{"id": "C47", "title": "Vertex constraints are necessary for realizability on polyhedra", "statement": "Parameters realized by non-negative point masses in the hull of the vertices satisfy moment_vertex_constraints (eps = 0).", "quantifier": "every polyhedron and realizable parameter set", "why_tests_cant": "forall/exists over measures", "anchors": ["src/rigeo/shape/poly.py:ConvexPolyhedron.moment_vertex_constraints"]}
{"id": "C48", "title": "Custom box constraints are necessary for realizability on boxes", "statement": "Parameters realized by non-negative point masses in a (rotated, translated) box satisfy Box.moment_custom_vertex_constraints (eps = 0), and for the box at any pose those constraints imply the general vertex constraints' bounds on the second moments.", "quantifier": "every box and realizable parameter set", "why_tests_cant": "forall/exists over measures", "anchors": ["src/rigeo/shape/box.py:Box.moment_custom_vertex_constraints"]}
{"id": "C49", "title": "Custom cylinder constraints are necessary for realizability on cylinders", "statement": "Parameters realized by non-negative point masses in a (rotated, translated) cylinder satisfy Cylinder.moment_custom_vertex_constraints (eps = 0).", "quantifier": "every cylinder and realizable parameter set", "why_tests_cant": "forall/exists over measures", "anchors": ["src/rigeo/shape/cylinder.py:Cylinder.moment_custom_vertex_constraints"]}
{"id": "C50", "title": "Ellipsoid realizability test is exact", "statement": "For a non-degenerate ellipsoid (half extents > 1e-8) and parameters with symmetric H and positive mass, can_realize(params) is True exactly when the parameters are those of some finite system of non-negative point masses inside the ellipsoid; moment_constraints (eps = 0) accept exactly the same parameters. An ellipsoid with a half extent in (0, 1e-8] makes can_realize raise AssertionError on consistent parameters.", "quantifier": "every ellipsoid and parameter set", "why_tests_cant": "an existential over all mass distributions on one side", "anchors": ["src/rigeo/shape/ellipsoid.py:Ellipsoid.can_realize", "src/rigeo/shape/ellipsoid.py:Ellipsoid.moment_constraints"]}
{"id": "C51", "title": "Degenerate ellipsoid realizability", "statement": "For a degenerate ellipsoid (disk, segment), parameters realized by point masses inside it satisfy can_realize and moment_constraints (both the default and the trace formulation).", "quantifier": "every degenerate ellipsoid and realizable parameter set", "why_tests_cant": "forall measures", "anchors": ["src/rigeo/shape/ellipsoid.py:Ellipsoid._Q_degenerate", "src/rigeo/shape/ellipsoid.py:Ellipsoid._QV_degenerate", "src/rigeo/shape/ellipsoid.py:Ellipsoid.can_realize", "src/rigeo/shape/ellipsoid.py:Ellipsoid.moment_constraints"]}
{"id": "C52", "title": "The eps margin of realizability constraints", "statement": "A user expects moment_sdp_constraints(J, eps) to force J - eps I to be positive semidefinite. Ellipsoid.moment_constraints and the vertex constraints do; ConvexPolyhedron.moment_sdp_constraints and Cylinder.moment_sdp_constraints drop the eps constraint, so for every eps > 0 some J satisfies them with J - eps I not positive semidefinite.", "quantifier": "every eps, every J", "why_tests_cant": "an optimiser can reach any feasible J", "anchors": ["src/rigeo/shape/poly.py:ConvexPolyhedron.moment_sdp_constraints", "src/rigeo/shape/cylinder.py:Cylinder.moment_sdp_constraints", "src/rigeo/constraint.py:pim_psd"]}
{"id": "C53", "title": "Ellipsoid-in-ellipsoid test and bounding ellipsoid of ellipsoids", "statement": "A user expects contains_ellipsoid(other) to be True only when other is inside, and mbe_of_ellipsoids to bound its inputs. The semidefinite conditions in the code use other.A and self.b where the S-procedure needs other.S and other.A other.b. contains_ellipsoid is right when other is the unit sphere and both are centred at the origin; for concentric spheres it answers r2 <= r1^2 instead of r2 <= r1 (radius 2 is reported to contain radius 3), and the unit sphere at the origin is reported to contain a unit sphere anywhere. The bounding constraints are right for unit-radius spheres, but for one sphere of radius r the optimal result is the sphere of radius sqrt r. The S-procedure with S and A b is proved sound.", "quantifier": "every pair of ellipsoids", "why_tests_cant": "the only tests use unit spheres or validate one wrong routine with the other", "anchors": ["src/rigeo/shape/ellipsoid.py:Ellipsoid.contains_ellipsoid", "src/rigeo/shape/ellipsoid.py:mbe_of_ellipsoids", "src/rigeo/shape/ellipsoid.py:_mbee_con_mat"]}
{"id": "C54", "title": "Feasible points of the extremal-ellipsoid programs are bounding / inscribed", "statement": "Every (A, b) satisfying the constraints of mbe_of_points gives an ellipsoid {|Ax+b| <= 1} containing all points and hence their convex hull, and conversely; every (B, c) satisfying the constraints of mie_inequality_form gives an ellipsoid {B u + c : |u| <= 1} inside the polyhedron, and conversely. The ellipsoids that mbe_of_points, mie_inequality_form and ConvexPolyhedron.mie build from a feasible solution contain the points / lie inside the polyhedron, also when the points span a lower-dimensional subspace, and they have extremal volume when the solution is optimal.", "quantifier": "every set of points/halfspaces, every feasible pair, every dimension", "why_tests_cant": "the solver may return any feasible pair", "anchors": ["src/rigeo/shape/ellipsoid.py:mbe_of_points", "src/rigeo/shape/ellipsoid.py:mie_inequality_form"]}
{"id": "C55", "title": "Ellipsoids rebuilt from their matrices", "statement": "For every non-degenerate ellipsoid and every eigendecomposition that eigh may return, from_shape_matrix(e.S, e.center) and from_affine(e.A, e.b) have the same S and centre (when 1/h is also above 1e-8); a singular shape matrix makes from_shape_matrix raise AssertionError.", "quantifier": "every ellipsoid and every valid eigendecomposition", "why_tests_cant": "all ellipsoids; eigh's answer is not unique", "anchors": ["src/rigeo/shape/ellipsoid.py:Ellipsoid.from_shape_matrix", "src/rigeo/shape/ellipsoid.py:Ellipsoid.from_affine"]}
{"id": "C56", "title": "Unordered matrix comparison", "statement": "allclose_unordered(A, B) returning True implies a one-to-one matching of the rows of A to rows of B that are close; with zero tolerances it is True exactly when B's rows are a permutation of A's; with positive tolerance it can return False although a matching exists (the greedy choice is not complete). Different shapes raise AssertionError.", "quantifier": "all pairs of matrices of any size", "why_tests_cant": "all permutations of all sizes", "anchors": ["src/rigeo/test_util.py:allclose_unordered"]}
{"id": "C57", "title": "Uniform-density parameters are the integrals they claim to be", "statement": "Box.uniform_density_params, hollow_density_params and wireframe_density_params, Cylinder.uniform_density_params and Ellipsoid.uniform_density_params equal mass times the normalised second-moment integrals over the volume / surface / edges of the shape, for every pose.", "quantifier": "every shape and mass", "why_tests_cant": "integral identities; tests use Monte Carlo or scaling", "anchors": ["src/rigeo/shape/box.py:Box.uniform_density_params", "src/rigeo/shape/box.py:Box.hollow_density_params", "src/rigeo/shape/box.py:Box.wireframe_density_params", "src/rigeo/shape/cylinder.py:Cylinder.uniform_density_params", "src/rigeo/shape/ellipsoid.py:Ellipsoid.uniform_density_params"]}
{"id": "C58", "title": "Hollow ellipsoid parameters", "statement": "Ellipsoid.hollow_density_params says that the mass is uniformly distributed on the surface. That is right for spheres but wrong for some spheroids: the second moment differs from the surface integral.", "quantifier": "every ellipsoid", "why_tests_cant": "needs an exact surface integral", "anchors": ["src/rigeo/shape/ellipsoid.py:Ellipsoid.hollow_density_params"]}
{"id": "C59", "title": "Density parameters are consistent, realizable on their own shape and move with it", "statement": "Every *_density_params result has the requested mass, its CoM at the shape's centre and J positive semidefinite; Ellipsoid.can_realize accepts the ellipsoid's own uniform and hollow parameters; shape.transform(R,t).uniform_density_params(m) equals uniform_density_params(m).transform(R,t).", "quantifier": "every shape, mass and rigid transform", "why_tests_cant": "continuous inputs", "anchors": ["src/rigeo/shape/box.py:Box.uniform_density_params", "src/rigeo/shape/ellipsoid.py:Ellipsoid.uniform_density_params", "src/rigeo/shape/cylinder.py:Cylinder.uniform_density_params", "src/rigeo/shape/poly.py:ConvexPolyhedron.vertex_point_mass_params"]}
{"id": "C60", "title": "Rigid bodies combine and move as their parts do", "statement": "RigidBody addition concatenates shapes and adds moments; transform moves every shape and the parameters together, so parameters realized inside a body's shapes stay realized inside the transformed body. mbes() raises TypeError as soon as one shape is an Ellipsoid (its mbe takes no solver argument).", "quantifier": "every body, list of shapes and transform", "why_tests_cant": "arbitrary lists of shapes", "anchors": ["src/rigeo/rigidbody.py:RigidBody", "src/rigeo/rigidbody.py:RigidBody.transform", "src/rigeo/rigidbody.py:RigidBody.mbes"]}
{"id": "C61", "title": "Closest points", "statement": "For an exact solver, closest_points returns points p1 in shape1 and p2 in shape2 with dist = |p2 - p1| <= |y - x| for all x in shape1, y in shape2; dist is 0 exactly when the shapes intersect (given that a minimiser exists), is symmetric in the shapes and invariant under a common rigid transform.", "quantifier": "every pair of shapes and all their points", "why_tests_cant": "minimality over infinite sets", "anchors": ["src/rigeo/closest.py:closest_points"]}
{"id": "C62", "title": "Capsule equality test", "statement": "Comparing two capsules always raises TypeError, because Cylinder.is_same takes no tol argument; comparing a capsule with another kind of shape returns False.", "quantifier": "every pair of capsules", "why_tests_cant": "method never called by the tests", "anchors": ["src/rigeo/shape/capsule.py:Capsule.is_same", "src/rigeo/shape/cylinder.py:Cylinder.is_same"]}
{"id": "C63", "title": "Schur complement matrix", "statement": "schur(A, b, c) with scalar c > 0 is positive semidefinite exactly when A - b b^T / c is; with c = 0 exactly when A is and b = 0.", "quantifier": "every symmetric A, vector b, scalar c, every dimension", "why_tests_cant": "equivalence of matrix inequalities", "anchors": ["src/rigeo/constraint.py:schur"]}
{"id": "C64", "title": "Validation error", "statement": "validation_rmse is the root of the mean squared error norm, is non-negative, and is zero exactly when every prediction is exact; the W argument does not influence the result.", "quantifier": "every data set of any size and every weight matrix", "why_tests_cant": "unbounded data", "anchors": ["src/rigeo/util.py:validation_rmse"]}
{"id": "C65", "title": "Convex hull", "statement": "convex_hull returns a set of points with the same convex hull as the input, given a canonicalisation routine that keeps a subset of rows spanning the same set; zero or one points are returned unchanged.", "quantifier": "every finite point set", "why_tests_cant": "set equality", "anchors": ["src/rigeo/polydd.py:convex_hull", "src/rigeo/polydd.py:SpanForm.canonical"]}
{"id": "C66", "title": "Cylinder equality test", "statement": "Cylinder.is_same is reflexive. A user expects it to hold for two cylinders that are the same solid; it compares rotation matrices entry by entry, so a cylinder turned by 90 degrees about its own axis - the same point set - is reported as different.", "quantifier": "every cylinder with an orthogonal rotation", "why_tests_cant": "The failure concerns every cylinder; tests compare a cylinder with itself or with a copy built from the same rotation matrix.", "anchors": ["src/rigeo/shape/cylinder.py:112-120"]}
{"id": "C67", "title": "Least-volume boxes and spheres", "statement": "Cylinder.mbb and Capsule.mbb have the least volume among all boxes, in any pose, that contain the solid; Ellipsoid.mbe(sphere=True) has the least volume among all spheres that contain the ellipsoid. Cylinder.mbe(sphere=True) is documented as a minimum-volume bounding sphere; a smaller sphere exists unless L^2 = 2 r^2.", "quantifier": "every cylinder, capsule and ellipsoid with an orthogonal rotation and every competing box or sphere", "why_tests_cant": "Optimality compares with all other shapes; the existing tests only check containment.", "anchors": ["src/rigeo/shape/cylinder.py:mbb", "src/rigeo/shape/cylinder.py:mbe", "src/rigeo/shape/capsule.py:mbb", "src/rigeo/shape/ellipsoid.py:mbe"]}
{"id": "C68", "title": "Volumes are integrals", "statement": "The volumes of boxes, cylinders and three-dimensional ellipsoids equal the integral of 1 over the solid, and the diagonal of a box is the largest distance of two of its points. The integrals that specify uniform bodies have at most one value, so the inertial parameters of a uniform body are determined. Ellipsoid.volume keeps the factor 4/3 pi in every dimension, so for an ellipse in the plane it is not the area.", "quantifier": "all half extents, radii, lengths and poses", "why_tests_cant": "An integral over a continuum is not observable by a test.", "anchors": ["src/rigeo/shape/box.py:volume", "src/rigeo/shape/box.py:diaglen", "src/rigeo/shape/cylinder.py:volume", "src/rigeo/shape/ellipsoid.py:volume"]}
{"id": "C69", "title": "Convenience constructors", "statement": "Box.cube, Box.from_side_lengths, Box.as_poly, ConvexPolyhedron.simplex, ConvexPolyhedron.from_halfspaces and Ellipsoid.rotate_about_center describe the intended point sets; bad sizes raise AssertionError, an empty intersection of halfspaces raises AttributeError and an unbounded one ValueError.", "quantifier": "all sizes, poses, dimensions and bounded or unbounded systems of inequalities, for every correct double-description routine", "why_tests_cant": "Equality of point sets.", "anchors": ["src/rigeo/shape/box.py:cube", "src/rigeo/shape/box.py:from_side_lengths", "src/rigeo/shape/box.py:as_poly", "src/rigeo/shape/poly.py:simplex", "src/rigeo/shape/poly.py:from_halfspaces", "src/rigeo/shape/ellipsoid.py:rotate_about_center"]}
{"id": "C70", "title": "Comparison of inertial parameters", "statement": "InertialParameters.is_same holds exactly when every entry of the two pseudo-inertia matrices differs by at most 1e-8 + 1e-5 |other|; it is reflexive. It is not symmetric, and any two bodies whose entries are at most 5e-9 count as the same whatever their shape.", "quantifier": "every pair of inertial parameters", "why_tests_cant": "A tolerance test passes on the examples at hand whether or not it is an equivalence.", "anchors": ["src/rigeo/inertial.py:is_same"]}
{"id": "C71", "title": "Bounding ellipsoid of a polyhedron", "statement": "ConvexPolyhedron.mbe contains every point of the polyhedron, also when it is lower-dimensional; when the polyhedron is full-dimensional no ellipsoid that contains it has a smaller volume.", "quantifier": "every bounded polyhedron of any dimension, given a solver, eigh, orth, null_space and lstsq that meet their specifications", "why_tests_cant": "Containment of a continuum and optimality over all ellipsoids.", "anchors": ["src/rigeo/shape/poly.py:mbe", "src/rigeo/shape/ellipsoid.py:mbe_of_points"]}
{"id": "C72", "title": "Laws of the samplers", "statement": "Box surface and edge samplers choose a face or edge with probability its share of the total area or length and place the points on the chosen face or edge; the radius of a point in the ball has distribution function rho^dim; a candidate for the ellipsoid surface is kept with probability proportional to the area element there.", "quantifier": "all half extents, numbers of points and random draws", "why_tests_cant": "A wrong law passes containment tests, and statistics of finitely many samples cannot establish a law.", "anchors": ["src/rigeo/shape/box.py:random_points_on_surface", "src/rigeo/shape/box.py:random_points_on_edges", "src/rigeo/random.py:random_points_in_ball", "src/rigeo/shape/ellipsoid.py:random_points_on_surface"]}
{"id": "C73", "title": "Distance between pseudo-inertia matrices", "statement": "positive_definite_distance of two positive definite matrices is sqrt(1/2 sum (ln w_i)^2) over the eigenvalues of A^-1 B; it is non-negative, zero exactly when A = B, symmetric, unchanged under congruence, inversion and changes of the frame of the inertial parameters; singular input and unequal shapes raise.", "quantifier": "all positive definite matrices of every size, all invertible congruences, all rigid transforms", "why_tests_cant": "Metric laws over all positive definite matrices of all sizes; the symmetry and the invariance hold for exact eigenvalues, which floating-point tests see only approximately.", "anchors": ["src/rigeo/unused/geodesic.py:positive_definite_distance"]}
{"id": "C74", "title": "Ellipsoids from arbitrary shape matrices and affine maps", "statement": "Every symmetric matrix has an answer of eigh, and all answers have the same eigenvalues; from_shape_matrix gives {x : (x-c)^T S (x-c) <= 1} for every symmetric S whose eigenvalues lie within the tolerance, and from_affine gives {x : |Ax+b| <= 1} when A is symmetric.", "quantifier": "all symmetric matrices of every size; all points", "why_tests_cant": "Quantifies over all matrices, whichever eigenbasis eigh returns, and all points.", "anchors": ["src/rigeo/shape/ellipsoid.py:from_shape_matrix", "src/rigeo/shape/ellipsoid.py:from_affine"]}
{"id": "C75", "title": "Fitting cost and entropic regularizer", "statement": "least_squares_objective is the sum of |A_i theta - b_i|^2 (with a weight, of e^T W e), it is zero exactly when theta explains every observation; entropic_regularizer is convex over positive definite matrices and minimal exactly at the nominal parameters; data of the wrong shape raise.", "quantifier": "all data sizes, all data, all weights, all numbers of bodies, all positive definite matrices", "why_tests_cant": "Quantifies over all data and matrices; convexity and a unique minimum are claims about all pairs of points.", "anchors": ["src/rigeo/unused/identify.py:entropic_regularizer", "src/rigeo/unused/identify.py:least_squares_objective"]}
{"id": "C76", "title": "Identified inertial parameters", "statement": "If the data come from allowed parameters, IdentificationProblem.solve returns parameters that explain the data, the true ones when the data determine them; with a regularizer it returns the nominal parameters when they explain the data and never fits worse than them; every result has positive mass, J >= eps, a J split among the shapes of its body, and its centre of mass in the bounding shape; with eps or gamma positive a solved problem gives a result; errors are raised otherwise.", "quantifier": "all bodies, shapes, data, covariances, gamma and eps; every optimal answer of the solver", "why_tests_cant": "Optimisation over continuous sets, with an arbitrary solver; tests see one solver on one data set.", "anchors": ["src/rigeo/unused/identify.py:IdentificationProblem"]}
{"id": "C77", "title": "Identification with point masses", "statement": "DiscretizedIdentificationProblem.solve returns parameters of non-negative masses at the given points, that explain the data whenever such masses exist, and the true ones when the data determine them, with the centre of mass in the bounding shape.", "quantifier": "all points, data, covariances and bounding shapes; every optimal answer of the solver", "why_tests_cant": "Optimisation over continuous sets, with an arbitrary solver.", "anchors": ["src/rigeo/unused/identify.py:DiscretizedIdentificationProblem"]}
{"id": "C78", "title": "Bodies of a multibody", "statement": "MultiBody maps each joint that has geometry to one body whose shapes are that joint's boxes, spheres and cylinders placed by their placements, in order, and whose parameters have the joint's mass, centre of mass and inertia about it; joints without geometry have no body; meshes, other geometries, bad indices, unknown tools and malformed gravity raise.", "quantifier": "all robot models and geometry lists of any length, all placements", "why_tests_cant": "Quantifies over lists of geometries of any length and order, and over all points of the placed shapes.", "anchors": ["src/rigeo/unused/multibody.py:_hppfcl_to_shape", "src/rigeo/unused/multibody.py:_pin_to_shape", "src/rigeo/unused/multibody.py:MultiBody.__init__"]}
{"id": "C79", "title": "Joint torque regressor in rigeo's parameter order", "statement": "compute_joint_torque_regressor turns pinocchio's regressor into one that maps the links' parameters, stacked in rigeo's order, to the same torques.", "quantifier": "all numbers of links, all regressor matrices, all parameters", "why_tests_cant": "A wrong permutation of columns is invisible for symmetric bodies; the claim is about all parameters and all numbers of links.", "anchors": ["src/rigeo/unused/multibody.py:compute_joint_torque_regressor"]}
{"id": "C80", "title": "Lookups and argument checks of a multibody", "statement": "get_bodies and get_frame_pose find the first joint or frame of the given name, or the one with the given index, and raise otherwise; the kinematics and torque methods pass the motion on unchanged, with zeros for what is omitted, and reject vectors of the wrong length. The frame queries for velocities, accelerations and Jacobians refer to the same frame, in the local reference frame unless another is given.", "quantifier": "all names, indices, models and motions", "why_tests_cant": "All names and lists of joints, and all error cases.", "anchors": ["src/rigeo/unused/multibody.py:get_bodies", "src/rigeo/unused/multibody.py:get_frame_pose", "src/rigeo/unused/multibody.py:compute_forward_kinematics", "src/rigeo/unused/multibody.py:compute_joint_torques", "src/rigeo/unused/multibody.py:get_frame_velocity", "src/rigeo/unused/multibody.py:compute_frame_jacobian"]}
{"id": "C81", "title": "Accepted parameters need not be realizable", "statement": "The moment constraints of order two of a box or a cylinder, the vertex constraints and the custom vertex constraints of a box are necessary conditions only: each accepts parameters that no mass distribution in the shape has, and so identification with must_realize=True can return parameters that no body in the shape has.", "quantifier": "witnesses; for the identification, all settings of log_det, inverse and trace form", "why_tests_cant": "Non-existence of any mass distribution in the shape is a statement about all finite sets of masses; sampling only ever shows realizable parameters.", "anchors": ["src/rigeo/shape/poly.py:moment_sdp_constraints", "src/rigeo/shape/poly.py:moment_vertex_constraints", "src/rigeo/shape/box.py:moment_custom_vertex_constraints", "src/rigeo/shape/cylinder.py:moment_sdp_constraints", "src/rigeo/identify.py:IdentificationProblem.solve"]}
{"id": "C82", "title": "Cylinder custom constraints are exact", "statement": "Cylinder.moment_custom_vertex_constraints holds of a pseudo-inertia matrix if and only if some finite set of masses inside the cylinder has that matrix; the same is true of Box.moment_custom_vertex_constraints when the box is flat (a half extent is zero). In particular they reject parameters that Cylinder.moment_sdp_constraints of order two accepts.", "quantifier": "all lengths, radii (zero or above 1e-8), poses, matrices; all boxes with a zero half extent", "why_tests_cant": "Sufficiency asserts that a mass distribution exists for every accepted matrix; no sampling scheme covers the cone.", "anchors": ["src/rigeo/shape/cylinder.py:moment_custom_vertex_constraints", "src/rigeo/shape/box.py:moment_custom_vertex_constraints", "src/rigeo/shape/ellipsoid.py:moment_constraints"]}
{"id": "C83", "title": "Polyhedron membership under rounding", "statement": "In IEEE binary64, whatever order numpy's BLAS adds the terms in and whether or not it fuses multiplications and additions, ConvexPolyhedron.contains errs by at most an explicit margin: a point that satisfies every inequality with that margin to spare is accepted, and an accepted point violates no inequality by more than tol plus the margin. With the default tolerance, normals with entries at most 1, coordinates up to 1e6 and offsets up to 1e7, every point of the polyhedron is accepted and every accepted point is within 2e-8 of each half space. For coordinates around 2^53 the answer for a point of the polyhedron depends on the order of the additions.", "quantifier": "all polyhedra in half-space form of any dimension, all points, all evaluation orders", "why_tests_cant": "Tests exercise one BLAS on a few points; the claim ranges over all doubles, evaluation orders and fused operations.", "anchors": ["src/rigeo/shape/poly.py:ConvexPolyhedron.contains"]}
{"id": "C84", "title": "A box is the same as itself under rounding", "statement": "Box.is_same(self) with the box's own computed vertices and computed inequalities answers True in binary64 for every evaluation order, provided 8*e*M + 256*2^-53*M + 256*2^-1075 <= tol, where M bounds the half extents and the coordinates of the center and e the deviation of the rotation's columns from orthonormality; with the default tolerance this covers M = 1000 and e = 1e-13. With a rotation that is orthonormal only to 1e-5 a box of half extents 1 is never the same as itself.", "quantifier": "all boxes, rotations, centers, tolerances, all evaluation orders", "why_tests_cant": "The margin depends on the size of the box and the accuracy of the rotation; tests use a handful of well-scaled boxes on one machine.", "anchors": ["src/rigeo/shape/box.py:_box_vertices", "src/rigeo/shape/box.py:_box_inequalities", "src/rigeo/shape/poly.py:ConvexPolyhedron.is_same", "src/rigeo/shape/base.py:contains_polyhedron"]}
{"id": "C85", "title": "Bounding boxes of points under rounding", "statement": "In binary64 the box built by Box.from_points_to_bound (and so ConvexPolyhedron.aabb) contains every one of its points according to Box.contains, for every evaluation order, whenever 32*2^-53*M + 32*2^-1075 <= tol for coordinates of magnitude at most M (the default tolerance covers M = 1e6), and its half extents are never negative, so the constructor does not raise. For coordinates around 2.7e8 there are two points one of which is outside their own bounding box under the default tolerance.", "quantifier": "all non-empty lists of points with binary64 coordinates, all tolerances, all evaluation orders", "why_tests_cant": "The failure needs coordinates whose sum and difference both round the wrong way; tests use small coordinates.", "anchors": ["src/rigeo/shape/box.py:Box.from_points_to_bound", "src/rigeo/shape/box.py:Box.from_two_vertices", "src/rigeo/shape/poly.py:ConvexPolyhedron.contains"]}
{"id": "C86", "title": "Ellipsoid membership under rounding", "statement": "In binary64, for every evaluation order, Ellipsoid.contains accepts every point of the ellipsoid (degenerate or not), and an accepted point is within 2*tol of the degenerate directions and satisfies the quadratic inequality with 1 + 2*tol, provided 640*2^-53*M + 320*2^-1075 <= tol*m, where M bounds the half extents and coordinates and m <= 1 bounds the nonzero half extents from below. With the default tolerance this covers M/m up to 50000.", "quantifier": "all half extents including zero ones, all matrices with entries at most 1.01, all centers and points, all evaluation orders", "why_tests_cant": "Rounding depends on the ratio of coordinates to the smallest half extent and on the order of evaluation, over all doubles.", "anchors": ["src/rigeo/shape/ellipsoid.py:Ellipsoid.contains", "src/rigeo/shape/ellipsoid.py:_inv_with_zeros"]}
{"id": "C87", "title": "The moment relaxations become exact as the order grows", "statement": "For boxes, convex polyhedra, cylinders and rigid bodies made of such shapes and ellipsoids: parameters satisfy moment_sdp_constraints for every order d exactly if some mass distribution in the shape has them. Parameters that are not realizable are rejected by every order from some order on; a higher order never accepts parameters that a lower one rejects; and a limit of parameters accepted at orders growing without bound is realizable. (C81 shows that no such statement holds for order two alone.) The feasibility problems have objective zero and these constraints.", "quantifier": "all shapes, all poses, all symmetric pseudo-inertia matrices, all orders d", "why_tests_cant": "It is a statement about all orders at once and about the existence of a mass distribution; a test evaluates one order with a numerical solver.", "anchors": ["src/rigeo/shape/poly.py:ConvexPolyhedron.moment_sdp_constraints", "src/rigeo/shape/cylinder.py:Cylinder.moment_sdp_constraints", "src/rigeo/rigidbody.py:RigidBody.moment_sdp_constraints", "src/rigeo/moment.py:MomentMatrix", "src/rigeo/shape/poly.py:ConvexPolyhedron.moment_sdp_feasibility_problem", "src/rigeo/shape/cylinder.py:Cylinder.moment_sdp_feasibility_problem"]}
{"id": "C88", "title": "Which test functions the vertex constraints and the relaxations check", "statement": "Read a symmetric 4x4 matrix S as the quadratic function x -> (x,1)^T S (x,1) and trace(S J) as its integral over the masses. moment_vertex_constraints of a convex polyhedron hold for J exactly if J has the requested margin and every convex quadratic that is nonpositive on the polyhedron has a nonpositive integral; moment_custom_vertex_constraints of a box hold exactly if J has the margin and this holds for every quadratic that is nonpositive on the box and convex along its three axes. J satisfies moment_sdp_constraints of a rigid body at every order exactly if all quadratics that are nonpositive on its shapes have a nonpositive integral, and so a rejection is always witnessed by a quadratic. The custom constraints of a box do miss some quadratics (all of those are concave along some axis).", "quantifier": "all polyhedra, boxes, poses, margins eps >= 0, pseudo-inertia matrices and rigid bodies of boxes, polyhedra, ellipsoids and cylinders", "why_tests_cant": "It quantifies over all quadratic functions and over the existence of multipliers, and says that nothing weaker and nothing stronger is imposed; a test compares single matrices through a numerical solver.", "anchors": ["src/rigeo/shape/poly.py:ConvexPolyhedron.moment_vertex_constraints", "src/rigeo/shape/box.py:Box.moment_custom_vertex_constraints", "src/rigeo/rigidbody.py:RigidBody.moment_sdp_constraints"]}
{"id": "C89", "title": "Inertial parameters and spatial vectors: which memory they share with the caller", "statement": "Seen as arrays in a memory that the caller can go on assigning to: InertialParameters.__init__ keeps the caller's com array, and the caller's H array when translate_from_com is false, so later assignments to these arrays change the parameters; everything else it keeps is new. from_vec, from_point_masses, transform, __add__, zero and sums of at least two objects return parameters that no assignment to arrays existing before the call changes, and assignments to their arrays change nothing that existed; sum([p]) is p itself. from_pim shares the second-moment block, but not mass and centre, with its argument, so a change of one consistent pseudo-inertia matrix into another can leave parameters that are not consistent. h and J are new arrays at every access. SpatialVector copies its arguments; linear and angular are views of its vector. No call changes an array that existed before it, and all of them return the values of the functions on values (C01-C06, C10).", "quantifier": "all stores, all (possibly overlapping) array arguments, all sequences of later assignments to existing arrays or to the object's arrays", "why_tests_cant": "It speaks about all later assignments and about overlapping arguments; a test sees the value right after the call, where sharing is invisible.", "anchors": ["src/rigeo/inertial.py:InertialParameters.__init__", "src/rigeo/inertial.py:InertialParameters.from_pim", "src/rigeo/inertial.py:InertialParameters.from_vec", "src/rigeo/inertial.py:InertialParameters.transform", "src/rigeo/inertial.py:InertialParameters.__add__", "src/rigeo/spatial.py:SpatialVector"]}
{"id": "C90", "title": "Shapes: which memory they share with the caller and with each other", "statement": "Ellipsoids, boxes, cylinders, pruned polyhedra, polyhedra from vertices and the results of transform, rotate_about_center and mie are unchanged by any assignment to arrays existing before the call, and assignments to their own arrays change nothing that existed. FaceForm and ConvexPolyhedron.from_halfspaces without pruning keep the caller's A and b: changing them changes the face form but neither the vertices nor the localising polynomials. convex_hull of at most one point returns its argument, otherwise a new array. A capsule refers to the cylinder it was made from, its end caps are new. Assigning to the center of a box or of a cylinder changes neither its faces, vertices, disks nor its contains; assigning to the vertices of a polyhedron changes its vertices but not its faces. No call changes an array that existed before it, and all return the values of the functions on values.", "quantifier": "all stores, all (possibly overlapping) array arguments, all sequences of later assignments, all answers of cdd", "why_tests_cant": "It speaks about all later assignments and about overlapping arguments; a test sees the value right after the call, where sharing is invisible.", "anchors": ["src/rigeo/shape/ellipsoid.py:Ellipsoid.__init__", "src/rigeo/shape/box.py:Box.__init__", "src/rigeo/shape/cylinder.py:Cylinder.__init__", "src/rigeo/shape/capsule.py:Capsule.__init__", "src/rigeo/shape/poly.py:ConvexPolyhedron.__init__", "src/rigeo/polydd.py:FaceForm.__init__", "src/rigeo/polydd.py:SpanForm.__init__", "src/rigeo/polydd.py:convex_hull", "src/rigeo/util.py:clean_transform"]}
{"id": "C91", "title": "Bodies, multibodies, polynomials and moment matrices: operands stay unchanged", "statement": "RigidBody keeps the list and the parameters it is given, so that later changes to them are changes of the body. The sum of two bodies has a new list and new parameters but refers to the same shapes: appending to its list or changing its parameters leaves every existing body unchanged, appending to an operand's list leaves the sum unchanged, changing a shape changes both; sum([b]) is b. transform returns a body that shares nothing; mbes returns new shapes but the same parameters object. The loop of MultiBody.__init__ that appends shapes in place builds the bodies of the value model (C78), with a list of its own for every link. compute_joint_torque_regressor swaps columns of a copy and leaves pinocchio's matrix as it was. Polynomial.__add__ (also p + p) and MomentMatrix.localizing_matrix leave their operands, in particular the array of indices, unchanged, although they update a copy while reading.", "quantifier": "all heaps of shapes, lists, parameters, dictionaries and arrays, all bodies (also equal ones), all sequences of later modifications, all models and geometries", "why_tests_cant": "Loops that update a copy of what they read, and objects that are shared by several owners, go wrong only for particular orders of later modifications or equal operands.", "anchors": ["src/rigeo/rigidbody.py:RigidBody.__init__", "src/rigeo/rigidbody.py:RigidBody.__add__", "src/rigeo/rigidbody.py:RigidBody.mbes", "src/rigeo/rigidbody.py:RigidBody.transform", "src/rigeo/unused/multibody.py:MultiBody.__init__", "src/rigeo/unused/multibody.py:MultiBody.compute_joint_torque_regressor", "src/rigeo/moment.py:Polynomial.__add__", "src/rigeo/moment.py:MomentMatrix.localizing_matrix"]}
{"id": "C92", "title": "The extremal ellipsoids are well defined", "statement": "The program that mbe_of_points gives to the solver has an optimal solution exactly if the projected points lie on no hyperplane (with sphere=True: if two of them differ), and then exactly one. The program of mie_inequality_form has one exactly if the halfspaces contain a ball and bound a bounded set; the optimal B is unique, and so is the centre unless sphere=True, for which the centre need not be unique. Therefore mbe_of_points, ConvexPolyhedron.mbe, mie_inequality_form and ConvexPolyhedron.mie (sphere=False) return the same set of points whatever solver, eigenvector routine, orth and null_space are used, in whatever order and with whatever redundant points or inequalities the same convex set is given.", "quantifier": "all dimensions, all finite lists of points and inequalities, all solvers and linear algebra routines that meet their specifications, all pairs of lists with the same convex hull and all pairs of systems with the same solutions", "why_tests_cant": "Existence and uniqueness of optima quantify over all feasible ellipsoids, and independence of the result over all solvers, bases and vertex orders; a test runs one solver on one list.", "anchors": ["src/rigeo/shape/ellipsoid.py:mbe_of_points", "src/rigeo/shape/ellipsoid.py:mie_inequality_form", "src/rigeo/shape/poly.py:ConvexPolyhedron.mbe", "src/rigeo/shape/poly.py:ConvexPolyhedron.mie"]}
{"id": "C93", "title": "Admissible parameters form convex cones, and composite bodies add them up", "statement": "For Ellipsoid.moment_constraints, ConvexPolyhedron.moment_vertex_constraints and moment_sdp_constraints, Box.moment_custom_vertex_constraints, Cylinder.moment_custom_vertex_constraints and moment_sdp_constraints and RigidBody.moment_sdp_constraints (any order d): if the constraints built for J1 with margin eps1 and for J2 with eps2 hold, then those built for a J1 + b J2 with margin a eps1 + b eps2 hold for all a, b >= 0. So the parameters accepted are a convex cone (eps = 0) or a convex set (eps > 0), sums of accepted parameters are accepted, and the same holds for must_contain (point and scale) and for the centre-of-mass constraint of the identification. The constraints of a composite body (RigidBody.__add__) accept J exactly if J = J1 + J2 with positive semidefinite J1 accepted by the first and J2 accepted by the second body.", "quantifier": "all shapes and bodies that can be built, all rotations, centers and orders d, all weights a, b >= 0, all pairs of parameters given as matrix, vector or object, all margins", "why_tests_cant": "Cvxpy checks the curvature of expressions, not that the feasible set of parameters after eliminating the auxiliary moment variables is a cone, nor that the composite accepts exactly the sums; both quantify over all pairs of feasible parameters.", "anchors": ["src/rigeo/shape/ellipsoid.py:Ellipsoid.moment_constraints", "src/rigeo/shape/poly.py:ConvexPolyhedron.moment_sdp_constraints", "src/rigeo/shape/poly.py:ConvexPolyhedron.moment_vertex_constraints", "src/rigeo/shape/box.py:Box.moment_custom_vertex_constraints", "src/rigeo/shape/cylinder.py:Cylinder.moment_sdp_constraints", "src/rigeo/shape/cylinder.py:Cylinder.moment_custom_vertex_constraints", "src/rigeo/rigidbody.py:RigidBody.moment_sdp_constraints", "src/rigeo/rigidbody.py:RigidBody.__add__"]}
{"id": "C94", "title": "The identification problems are convex and have at most one solution", "statement": "The feasible parameters of IdentificationProblem.solve form a convex set, with and without must_realize and bounding shapes, and its cost is convex on it; the cost is strictly convex if gamma > 0 or the regressors determine the parameters. Then there is at most one optimal solution, and solve returns the same parameters (or raises the same exception) for all solvers that return an optimal one. DiscretizedIdentificationProblem.solve has a feasible set that is a convex cone and at most one optimal solution if the regressors determine the parameters. With gamma = 0 and undetermined parameters there are several optimal solutions, so the result depends on the solver.", "quantifier": "all data, covariances, numbers of bodies, shapes, nominal parameters, gamma, eps >= 0, all pairs of feasible parameters and weights, all solvers", "why_tests_cant": "Uniqueness and independence of the solver quantify over all feasible points and all solvers; a test runs one solver on one data set.", "anchors": ["src/rigeo/unused/identify.py:IdentificationProblem.solve", "src/rigeo/unused/identify.py:DiscretizedIdentificationProblem.solve", "src/rigeo/unused/identify.py:least_squares_objective", "src/rigeo/unused/identify.py:entropic_regularizer"]}
{"id": "C95", "title": "The identification problems have a solution whenever they are feasible", "statement": "If some parameters are feasible for IdentificationProblem.solve and gamma > 0 or the regressors determine the parameters, then there is exactly one optimal solution. With a solver that reports an optimal solution exactly when there is one and with eps > 0 or gamma > 0, solve therefore either returns the parameters of the optimal solution or raises AssertionError, and the latter happens only if no parameters are feasible. DiscretizedIdentificationProblem.solve always has exactly one optimal solution if the regressors determine the parameters. Underneath: a limit of parameters accepted by RigidBody.moment_sdp_constraints (default order 2, margin 0) is accepted. With must_realize this covers bodies made of boxes, polyhedra and non-degenerate ellipsoids; cylinders are not covered. Without regularizer and with undetermined parameters a feasible problem may have no optimal solution.", "quantifier": "all data, covariances, numbers of bodies, box, polyhedron and ellipsoid shapes, nominal parameters, bounding shapes, gamma, eps >= 0, all sequences of accepted parameters", "why_tests_cant": "Attainment of an infimum over an unbounded set of matrices, with auxiliary moment variables that may diverge, is not observable from runs; solvers return approximate points even where no optimum exists.", "anchors": ["src/rigeo/unused/identify.py:IdentificationProblem.solve", "src/rigeo/unused/identify.py:DiscretizedIdentificationProblem.solve", "src/rigeo/rigidbody.py:RigidBody.moment_sdp_constraints", "src/rigeo/shape/poly.py:ConvexPolyhedron.moment_sdp_constraints", "src/rigeo/shape/ellipsoid.py:Ellipsoid.moment_constraints"]}
{"id": "C96", "title": "Printed forms tell objects apart, except for moment indices of degree eleven and more", "statement": "str of a moment index determines it if all exponents have one digit, or if the number of variables is known and the degree is at most ten; at degree eleven different indices of the same length are printed alike. str of a polynomial whose exponents have one digit determines the polynomial including the order of its terms. The repr of inertial parameters, spatial vectors, boxes, ellipsoids, polyhedra, span forms and face forms determines the printed form of each field; boxes and ellipsoids are never printed alike.", "quantifier": "all indices, all polynomials, all field values, all ways of printing numbers that tell numbers apart and use no space or equals sign", "why_tests_cant": "That no two different objects share a printed form quantifies over all pairs of objects; the smallest clash of indices needs degree eleven.", "anchors": ["src/rigeo/moment.py:MomentIndex.__str__", "src/rigeo/moment.py:Polynomial.__str__", "src/rigeo/inertial.py:InertialParameters.__repr__", "src/rigeo/spatial.py:SpatialVector.__repr__", "src/rigeo/shape/box.py:Box.__repr__", "src/rigeo/shape/ellipsoid.py:Ellipsoid.__repr__", "src/rigeo/shape/poly.py:ConvexPolyhedron.__repr__", "src/rigeo/polydd.py:SpanForm.__repr__", "src/rigeo/polydd.py:FaceForm.__repr__"]}
{"id": "C97", "title": "Identified parameters depend continuously on the data", "statement": "Let the observations of an IdentificationProblem change while regressors, covariance, gamma, eps, bodies and bounding shapes stay the same. The predictions of the two optimal solutions differ, in the norm of the least squares objective, by no more than the observations do; for any gamma >= 0 and any constraints. If the regressors determine the parameters, the parameters change by at most a constant times the change of the observations, with a constant depending only on regressors and covariance. In particular, with gamma = 0 and admissible true parameters the error of the parameters returned by solve is bounded by a constant times the measurement noise. The cost grows at least quadratically away from the optimum, so a solution that is optimal up to a tolerance is close to the optimal one. The same stability holds for DiscretizedIdentificationProblem.", "quantifier": "all pairs of data sets with the same regressors, all covariances, numbers of bodies, shapes, bounding shapes, nominal parameters, gamma, eps >= 0, all feasible parameters, all solvers returning an optimal solution", "why_tests_cant": "A test adds some noise to some data and compares with a threshold; that no noise of a given size causes a larger error, under any active constraints, quantifies over all data sets.", "anchors": ["src/rigeo/unused/identify.py:IdentificationProblem.solve", "src/rigeo/unused/identify.py:DiscretizedIdentificationProblem.solve", "src/rigeo/unused/identify.py:least_squares_objective"]}
{"id": "C98", "title": "Which recorded motions determine the inertial parameters", "statement": "For a list of body motions (spatial velocity and acceleration), bodies with different consistent parameters need different wrenches for some motion exactly if the stacked RigidBody regressor matrices have full column rank. One motion is never enough; two can be. Motions about one fixed axis direction, pure translations, and motions around one unaccelerated body point never determine the parameters. Pure translations with two non-parallel accelerations determine exactly the mass and the centre of mass. Two such translations together with three starts from rest with independent angular accelerations determine everything. For motions that determine the parameters, IdentificationProblem.solve with gamma = 0 returns exactly the parameters whose wrenches were recorded, and with noisy wrenches an error bounded by a constant times the noise. For a multibody, the parameters identified from joint torques reproduce the recorded torques.", "quantifier": "all lists of motions, all admissible parameters, bodies, covariances, bounding shapes, noise, all solvers returning an optimal solution; all multibodies whose regressor satisfies the stated relation to the torques", "why_tests_cant": "A test identifies parameters from random motions, which are rich with probability one; that no amount of data of a degenerate kind helps, and that the exact parameters come back for every rich data set, quantifies over all data sets.", "anchors": ["src/rigeo/inertial.py:InertialParameters.body_wrench", "src/rigeo/rigidbody.py:RigidBody.regressor", "src/rigeo/unused/multibody.py:MultiBody.compute_joint_torque_regressor", "src/rigeo/unused/identify.py:IdentificationProblem.solve"]}
{"id": "C99", "title": "Extreme values under the custom and the moment constraints", "statement": "For a box or cylinder in any pose, a symmetric matrix D and a mass, let q be the greatest value of the quadratic function [x;1]^T D [x;1] on the shape. The problem of generate_drip_data.py (maximise trace(D J) over PSD J with J[3,3] = mass under the realizability constraints) has value exactly mass * q, attained, for a cylinder with the custom constraints. For a box with the custom constraints its optimum is attained, at least mass * q, and equal to it when D is convex along each edge direction. With the moment constraints of order d >= 2 the value is finite, at least mass * q, does not increase with d, and tends to mass * q; at order one it is unbounded. The claim of process_drip_data.py that the custom constraints are always at least as tight as the moment constraints holds for cylinders and is false for every box that is not flat: in some direction the custom value exceeds the values of all orders d >= 2 by the same margin.", "quantifier": "all boxes and cylinders in every pose, all D, all masses, all orders", "why_tests_cant": "The script compares the values for random D on one box and one cylinder with an interior point solver; whether one set of constraints is tighter in every direction, and what the values tend to, quantifies over all directions, shapes and orders.", "anchors": ["scripts/experiments/generate_drip_data.py:setup_drip_problem", "scripts/experiments/process_drip_data.py:main", "src/rigeo/shape/box.py:Box.moment_custom_vertex_constraints", "src/rigeo/shape/cylinder.py:Cylinder.moment_custom_vertex_constraints", "src/rigeo/shape/poly.py:ConvexPolyhedron.moment_sdp_constraints", "src/rigeo/shape/cylinder.py:Cylinder.moment_sdp_constraints"]}
{"id": "C100", "title": "The thin-layer, face, edge and vertex derivations behind the density formulas and the realizability proofs", "statement": "For a box or ellipsoid in any pose with positive half extents and any mass m, let the layer of thickness parameter d be the difference of the uniform solids with half extents h + d and h, of the same density and total mass m: its parameters added to those of the inner solid give those of the outer one, and as d decreases to 0 its pseudo-inertia matrix tends entrywise to that of hollow_density_params. The limit and the parallel-axis computation of box_shell_inertia.py agree with each other and with Box.hollow_density_params; the limits of ellipsoid_shell_inertia.py agree with Ellipsoid.hollow_density_params; the sums of box_wireframe_inertia.py give Box.wireframe_density_params; box_vertex_inertia.py sums over Box.vertices. The weights of cuboid_density_realizability_proof.py solve A mu = b for every value of the placeholder, and when the parameters come from non-negative masses in the box (and the placeholder is their third moment) they are non-negative masses at the vertices with the same mass, first moments and off-diagonal second moments and with diagonal second moments m r^2. These weights are the sums over the body of the weights of its single points, which are non-negative, sum to one and have the point as their weighted mean of the vertices. The matrix of cylinder_density_realizability_proof.py is that of two non-negative masses on the end discs and differs from p p^T in the zz entry only.", "quantifier": "all half extents, poses, masses, layer thicknesses, point-mass systems in the box, points of the cylinder", "why_tests_cant": "A limit is a statement about all thicknesses; the scripts check identities of symbolic expressions of their own and never compare them with the library, and the sign of the weights depends on every point of the box.", "anchors": ["scripts/theory/box_shell_inertia.py:box_shell_inertia", "scripts/theory/box_shell_inertia.py:box_shell_inertia_parax", "scripts/theory/ellipsoid_shell_inertia.py:ellipsoid_shell_inertia", "scripts/theory/box_wireframe_inertia.py:box_edge_inertia", "scripts/theory/box_vertex_inertia.py:box_vertex_inertia", "scripts/theory/cuboid_density_realizability_proof.py", "scripts/theory/cylinder_density_realizability_proof.py", "src/rigeo/shape/box.py:Box.hollow_density_params", "src/rigeo/shape/box.py:Box.wireframe_density_params", "src/rigeo/shape/ellipsoid.py:Ellipsoid.hollow_density_params"]}
{"id": "C101", "title": "Sampled inertia matrices: mean and mean squared error of the Monte Carlo scripts", "statement": "For a box at the identity pose with faces of positive total area and n >= 2 samples, over independent uniform draws, multinomial counts with the probabilities that the code passes and any shuffle, box_shell_inertia_monte_carlo.py returns a matrix for all draws, each entry of which has the corresponding entry of hollow_density_params(1).I as its mean and V / n as its mean squared deviation from it, where V depends on the box and the entry only and 0 <= V <= (x^2 + y^2 + z^2)^2. The same holds for box_wireframe_inertia_monte_carlo.py and wireframe_density_params (edges of positive total length, n >= 1), and for random_points and uniform_density_params. Mean and mean squared deviation are determined by the program. With N = 1 the shell script raises IndexError, with N = 0 the quotient is not finite, and without area (length) ValueError is raised.", "quantifier": "all half extents, entries, numbers of samples, shuffles; all draws", "why_tests_cant": "A run of the script shows one sample of a random matrix next to the expected one; no number of runs distinguishes a small bias from sampling error, and an error of order 1/n is a statement about every n.", "anchors": ["scripts/examples/box_shell_inertia_monte_carlo.py", "scripts/examples/box_wireframe_inertia_monte_carlo.py", "src/rigeo/shape/box.py:Box.random_points_on_surface", "src/rigeo/shape/box.py:Box.random_points_on_edges", "src/rigeo/shape/box.py:Box.random_points", "src/rigeo/shape/box.py:Box.hollow_density_params", "src/rigeo/shape/box.py:Box.wireframe_density_params"]}
{"id": "C102", "title": "The random points of a box have the uniform law", "statement": "For a box with positive half extents at any pose and a real function f of a point, let the integrals of 1, f and f^2 over the posed solid box be A, T and T2. Over independent uniform draws, the average of f over the n >= 1 points returned by random_points has mean T / A and mean squared deviation (T2/A - (T/A)^2) / n from it. The same holds for random_points_on_edges with integrals over the twelve edges, with multinomial counts of the probabilities that the code passes and any shuffle. It holds for random_points_on_surface with integrals over the six faces when the pose is the identity and n >= 2. Mean and mean squared deviation are determined by the program.", "quantifier": "all half extents, poses, functions with existing integrals, numbers of samples, shuffles; all draws", "why_tests_cant": "A sample of points cannot show that a sampler is uniform: each statistical test looks at finitely many functions f and accepts small errors of the probabilities. The statement is about all functions f and gives the exact mean.", "anchors": ["src/rigeo/shape/box.py:Box.random_points", "src/rigeo/shape/box.py:Box.random_points_on_surface", "src/rigeo/shape/box.py:Box.random_points_on_edges"]}
{"id": "C103", "title": "Mean and second moments of the random points of balls, ellipsoids and cylinders", "statement": "Let the normal draws be replaced by any law of non-zero vectors whose means are linear and do not change when the sign of a coordinate changes or two coordinates are exchanged, as is the case for independent standard normal draws, and let the radius draw be uniform on [0, 1). A point of random_points_in_ball in dimension d >= 2 has mean 0 and second moments 1/(d + 2) times the identity. A point of Ellipsoid.random_points of a three dimensional ellipsoid at any orthogonal pose has the centre as its mean and the matrix H of uniform_density_params(1) as its second moments. The same holds for Cylinder.random_points with its axial draw uniform on [-1/2, 1/2). Each point of a sample of n points is the point of its own draws, and the mean is determined by the program.", "quantifier": "all laws with the symmetries, dimensions, half extents, radii, lengths and poses", "why_tests_cant": "A wrong exponent of the radius or a transposed rotation changes the moments of the sample by amounts that a test must tell from sampling error; the equality of exact means for all shapes and poses is not a statement about a sample.", "anchors": ["src/rigeo/random.py:random_points_in_ball", "src/rigeo/shape/ellipsoid.py:Ellipsoid.random_points", "src/rigeo/shape/cylinder.py:Cylinder.random_points", "src/rigeo/shape/ellipsoid.py:Ellipsoid.uniform_density_params", "src/rigeo/shape/cylinder.py:Cylinder.uniform_density_params"]}
{"id": "C104", "title": "Law of the points of Ellipsoid.random_points_on_surface", "statement": "Let the direction drawn on each turn of the loop of Ellipsoid.random_points_on_surface be uniform on the unit sphere and the number drawn with it uniform on [0, 1). For every three dimensional ellipsoid with positive half extents at any pose and one requested point, there is a number a in (0, 1], the same for all functions and all numbers of turns, such that the loop has ended within k turns with probability 1 - (1 - a)^k, so that it ends with probability 1; and for every function f whose integral over the surface exists, the mean of f of the returned point over the runs that end within k turns is 1 - (1 - a)^k times the average of f over the surface of the ellipsoid, taken with respect to surface area. The surface is the one posed with the transpose of the rotation (finding of C39). A run never raises and never returns anything but one point.", "quantifier": "all half extents, poses, functions with a surface integral, numbers of turns", "why_tests_cant": "An acceptance probability that is off by a factor depending on the point leaves every returned point on the surface and biases only the distribution; a test would have to tell a biased sample from sampling error for every ellipsoid.", "anchors": ["src/rigeo/shape/ellipsoid.py:Ellipsoid.random_points_on_surface", "src/rigeo/random.py:random_points_on_hypersphere"]}
{"id": "C105", "title": "Law of the points of rejection_sample and of Capsule.random_points", "statement": "Let the candidates of rejection_sample come from Box.random_points of a box with positive half extents at any pose, each row of draws uniform, and let one point be requested within K tries. Let V be the volume of the box, A > 0 the volume of the part of the box inside some actual shape and B the integral of f over that part. Then 0 < A/V <= 1; a run either returns one point that lies inside an actual shape or raises ValueError; it raises with probability (1 - A/V)^K; and the mean of f of the returned point over the runs that return is B/A times 1 - (1 - A/V)^K, so that given success the point is uniform on that part. For Capsule.random_points of every capsule with radius above 1e-8 at any orthogonal pose the volume A exists and a try succeeds with probability at least 1/8, so that a call for one point fails with probability at most (7/8)^10000, and the same law holds on the region that Capsule.contains accepts within the bounding box.", "quantifier": "all boxes, lists of actual shapes, functions with an integral, numbers of tries; all capsules with radius above 1e-8", "why_tests_cant": "The law of the returned point and the probability of an exception after 10000 failed tries are statements about all draws; no sample shows them.", "anchors": ["src/rigeo/random.py:rejection_sample", "src/rigeo/shape/capsule.py:Capsule.random_points", "src/rigeo/shape/box.py:Box.random_points"]}
{"id": "C106", "title": "The uniform laws of the samplers hold for every continuous function", "statement": "For every continuous function f of a point and every box with positive half extents, the integrals of 1, f and f^2 over the box, its edges and its faces exist, and the average of f over n points of Box.random_points, Box.random_points_on_edges (at any pose) and Box.random_points_on_surface (at the identity pose) has the average of f over the box, its edges or its faces as its mean and the variance of f divided by n as its mean squared error. For every three dimensional ellipsoid with positive half extents the surface area and the surface integral of f exist, and a point of Ellipsoid.random_points_on_surface follows the uniform law on the surface as in C104.", "quantifier": "all continuous functions, boxes, ellipsoids and numbers of points", "why_tests_cant": "A statement about the exact law of the sampled points for all continuous functions is not visible in any finite sample.", "anchors": ["src/rigeo/shape/box.py:Box.random_points", "src/rigeo/shape/box.py:Box.random_points_on_edges", "src/rigeo/shape/box.py:Box.random_points_on_surface", "src/rigeo/shape/ellipsoid.py:Ellipsoid.random_points_on_surface"]}
{"id": "C107", "title": "Several points of the rejection samplers are independent and uniform", "statement": "Let a be the probability that a candidate is accepted. rejection_sample with a box as bounding shape finds n points within K tries with probability (1 - (1 - a)^K)^n. Given this the points are independent, each uniform on the part of the box that the actual shapes contain: the mean of f1(p1) ... fn(pn) is the product of the averages of f1, ..., fn over that part. The same holds for n points of Capsule.random_points, where a is at least 1/8 and K is 10000, and for n points of Ellipsoid.random_points_on_surface with the averages over the surface.", "quantifier": "all shapes, poses, numbers of points, numbers of tries and integrable functions f1, ..., fn", "why_tests_cant": "Independence and the exact law of several points are statements about all functions and all draws; in particular that the reuse of the partly filled array does not correlate the points cannot be seen from samples.", "anchors": ["src/rigeo/random.py:rejection_sample", "src/rigeo/shape/capsule.py:Capsule.random_points", "src/rigeo/shape/ellipsoid.py:Ellipsoid.random_points_on_surface"]}
{"id": "C108", "title": "Bias of Box.random_points_on_surface for boxes that are not at the origin", "statement": "The mean over the surface of a box is its centre. The mean of n >= 2 points of Box.random_points_on_surface is c + R diag(w) c, where R is the rotation, c the centre and w_j the share of the surface area of the faces that are not normal to axis j. So for a box that is translated and not rotated the sampler is biased in exactly those coordinates in which the centre is not zero: the mean is c_j (1 + w_j).", "quantifier": "all boxes with positive half extents, all poses, all numbers of points from two on, all shuffles", "why_tests_cant": "The exact mean over all draws cannot be read off samples, and the tests of the repository sample boxes at the origin only.", "anchors": ["src/rigeo/shape/box.py:Box.random_points_on_surface", "src/rigeo/shape/box.py:Box.random_points"]}
{"id": "C109", "title": "The points of Ellipsoid.random_points and Cylinder.random_points are uniform on the solid", "statement": "Let the direction of a draw be uniform on the sphere (on the circle for the cylinder) and the number that determines its radius uniform on [0, 1). For every continuous function f the mean of f over a point of Cylinder.random_points is the integral of f over the cylinder divided by its volume, at any pose. For every ellipsoid of positive half extents without rotation the mean of f over a point of Ellipsoid.random_points is the integral of f over the ellipsoid divided by its volume. For a rotated ellipsoid it is the average over the unit ball of f(R diag(h) R^T x + c). The integrals exist; they are taken in polar coordinates, whose volume elements are the determinants of the derivatives.", "quantifier": "all continuous functions, ellipsoids, cylinders and poses", "why_tests_cant": "The exact law of the sampled points is a statement about all functions and all draws: a wrong exponent of the radius changes no single point detectably.", "anchors": ["src/rigeo/random.py:random_points_in_ball", "src/rigeo/shape/ellipsoid.py:Ellipsoid.random_points", "src/rigeo/shape/cylinder.py:Cylinder.random_points"]}
{"id": "C110", "title": "Law of random_weight_vectors, ConvexPolyhedron.random_points and random_psd_matrix", "statement": "The entries of a weight vector of random_weight_vectors of length k have the mean 1/k, under every law of the draws that does not change when two of them are exchanged; so the mean of a point of ConvexPolyhedron.random_points is the average of the vertices. The docstring says that the entries are uniformly distributed: they are not. For k = 2 and independent uniform draws an entry is at most t with probability t / (2 (1 - t)) for t <= 1/2 and 1 - (1 - t) / (2 t) above. The mean of random_psd_matrix(n) is n / 3 times the identity.", "quantifier": "all lengths k and exchangeable laws, all polyhedra, all thresholds t, all n", "why_tests_cant": "Exact laws and means over all draws cannot be read off samples; the documented distribution is not tested at all.", "anchors": ["src/rigeo/random.py:random_weight_vectors", "src/rigeo/random.py:random_psd_matrix", "src/rigeo/shape/poly.py:ConvexPolyhedron.random_points"]}
{"id": "C111", "title": "mbe_of_points is defined for all point sets with two different points", "statement": "For every finite list of points of the same length, the routines mbe_of_points calls (orth, the convex solver, eigh, lstsq, null_space) can keep their promises exactly if two of the points differ. Then some run succeeds, every run in which they keep their promises returns an ellipsoid of the dimension of the points, all runs return the same set, and this set contains the convex hull of the points. So the claims about mbe_of_points are never empty.", "quantifier": "all dimensions, all finite lists of points (also of lower rank), all routines keeping their promises", "why_tests_cant": "Existence of an optimum, of orthonormal bases and of completions for every list of points, and agreement of all runs, quantify over all inputs and all behaviours of external routines.", "anchors": ["src/rigeo/shape/ellipsoid.py:mbe_of_points"]}
{"id": "C112", "title": "Extremal ellipsoids move and scale with their input", "statement": "If the points are moved by a rotation or reflection, scaled by a positive factor and translated, the ellipsoid returned by mbe_of_points (and by ConvexPolyhedron.mbe for a polyhedron with any vertex list of the moved hull) is the image of the one returned for the original points, whatever the external routines return within their promises, also for points of lower rank. The same holds of mie_inequality_form for the moved set under any description by inequalities; if a sphere is asked for, its radius scales but its centre may differ.", "quantifier": "all dimensions, all point lists, all orthogonal matrices, positive factors and translations, all routines keeping their promises", "why_tests_cant": "Frame independence of a numerically solved program is a statement about all inputs and all frames; two solver runs agree only up to tolerance.", "anchors": ["src/rigeo/shape/ellipsoid.py:mbe_of_points", "src/rigeo/shape/ellipsoid.py:mie_inequality_form", "src/rigeo/shape/poly.py:ConvexPolyhedron.mbe"]}
{"id": "C113", "title": "Extremal ellipsoids follow affine maps of their input", "statement": "If the points are mapped by any invertible affine map (a shear or an uneven scaling included), the ellipsoid returned by mbe_of_points (and by ConvexPolyhedron.mbe for a polyhedron with any vertex list of the mapped hull) is the image of the one returned for the original points, whatever the external routines return within their promises, also for points of lower rank. The same holds of mie_inequality_form without sphere=True for the mapped set under any description by inequalities, and of ConvexPolyhedron.mie without sphere=True for the mapped polyhedron with any list of vertices.", "quantifier": "all dimensions, all point lists, all invertible matrices and translations, all routines keeping their promises", "why_tests_cant": "Two solver runs agree only up to tolerance, and the claim ranges over all inputs and all invertible maps.", "anchors": ["src/rigeo/shape/ellipsoid.py:mbe_of_points", "src/rigeo/shape/ellipsoid.py:mie_inequality_form", "src/rigeo/shape/poly.py:ConvexPolyhedron.mbe", "src/rigeo/shape/poly.py:ConvexPolyhedron.mie"]}
{"id": "C114", "title": "Extremal ellipsoids have the symmetries of their input", "statement": "If an invertible affine map keeps the convex hull of the points, it keeps the ellipsoid returned by mbe_of_points (and ConvexPolyhedron.mbe) and its centre; if it keeps the set of the inequalities, it keeps the ellipsoid returned by mie_inequality_form (sphere not asked for) and its centre; likewise for ConvexPolyhedron.mie and the hull of the vertices. In particular points symmetric about a point give an ellipsoid centred there.", "quantifier": "all dimensions, all point lists and inequality systems, all invertible affine maps, all routines keeping their promises", "why_tests_cant": "Symmetry of a numerically solved optimum holds in tests only up to tolerance, and the claim ranges over all symmetric inputs.", "anchors": ["src/rigeo/shape/ellipsoid.py:mbe_of_points", "src/rigeo/shape/ellipsoid.py:mie_inequality_form", "src/rigeo/shape/poly.py:ConvexPolyhedron.mbe", "src/rigeo/shape/poly.py:ConvexPolyhedron.mie"]}
