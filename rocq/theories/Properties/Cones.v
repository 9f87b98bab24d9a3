(** Properties C93 and C94: the accepted parameters form convex cones, and the identification
    problems have at most one solution (src/rigeo/shape/*.py, src/rigeo/rigidbody.py, src/rigeo/unused/identify.py). *)
From Verif Require Import Base.Vec Model.Util Model.Inertial Model.Constraint Model.Polydd Model.Poly Model.Ellipsoid Model.Box Model.Cylinder
  Model.Realize Model.RigidBody Model.Identify Spec.Basic Spec.Objects Spec.Shapes Spec.ShapeObjects Spec.PolySpec Spec.Realizable Spec.Bodies
  Spec.ExtremalSpec Spec.Geodesic Spec.Identify Spec.Cone Proofs.Cone Proofs.ConeId Proofs.ConeW.

(** * C93 *)
Theorem C93_ellipsoid : forall h r c e ut,
  ell_init h r c = Ok e -> length h = 3%nat -> orthogonal 3 (pose_rot 3 r) -> proper_half h -> conic (ell_moment_constraints ut e).
Proof. exact ell_conic. Qed.
Print Assumptions C93_ellipsoid.
Theorem C93_polyhedron_vertices : forall p,
  poly_ok 3 p -> conic (poly_moment_vertex_constraints p).
Proof. exact vertex_conic. Qed.
Print Assumptions C93_polyhedron_vertices.
Theorem C93_polyhedron : forall p d,
  p_dim p = 3%nat -> (forall a, In a (p_A p) -> length a = 3%nat) -> faces_ok (p_A p) (p_b p) -> (0 < d)%nat ->
  conic (fun v eps => poly_moment_sdp_constraints p v eps d).
Proof. exact poly_sdp_conic. Qed.
Print Assumptions C93_polyhedron.
Theorem C93_box_custom : forall h c r x,
  box_init h c r = Ok x -> orthogonal 3 (pose_rot 3 r) -> conic (box_moment_custom_vertex_constraints x).
Proof. exact box_custom_conic. Qed.
Print Assumptions C93_box_custom.
Theorem C93_cylinder_custom : forall L R ro co c ut,
  cyl_init L R ro co = Ok c -> orthogonal 3 (pose_rot 3 ro) -> (R = 0 \/ / 100000000 < R) -> conic (cyl_moment_custom_vertex_constraints ut c).
Proof. exact cyl_custom_conic. Qed.
Print Assumptions C93_cylinder_custom.
Theorem C93_cylinder : forall L R ro co c d,
  cyl_init L R ro co = Ok c -> (0 < d)%nat -> conic (fun v eps => cyl_moment_sdp_constraints c v eps d).
Proof. exact cyl_sdp_conic. Qed.
Print Assumptions C93_cylinder.
Theorem C93_shape : forall ut s K d,
  shape_is s K -> shape_proper s -> (0 < d)%nat -> conic (fun v eps => rb_shape_constraints ut s v eps d).
Proof. exact shape_conic. Qed.
Print Assumptions C93_shape.
Theorem C93_body : forall ut b Ks d,
  Forall2 shape_is (bd_shapes b) Ks -> (forall s, In s (bd_shapes b) -> shape_proper s) -> (0 < d)%nat ->
  conic (fun v eps => rb_moment_sdp_constraints ut b v eps d).
Proof. exact body_conic. Qed.
Print Assumptions C93_body.
Theorem C93_parameters_sum : forall ut b Ks d p1 p2 p,
  Forall2 shape_is (bd_shapes b) Ks -> (forall s, In s (bd_shapes b) -> shape_proper s) -> (0 < d)%nat -> ip_ok p1 -> ip_ok p2 -> 0 < ip_mass p1 + ip_mass p2 -> ip_add p1 p2 = Ok p ->
  accepts (rb_moment_sdp_constraints ut b (PVmat (ip_J p1)) 0 d) -> accepts (rb_moment_sdp_constraints ut b (PVmat (ip_J p2)) 0 d) -> accepts (rb_moment_sdp_constraints ut b (PVmat (ip_J p)) 0 d).
Proof. exact params_sum. Qed.
Print Assumptions C93_parameters_sum.
Theorem C93_composite : forall ut b1 b2 b Ks1 Ks2 d J,
  rb_add b1 b2 = Ok b -> Forall2 shape_is (bd_shapes b1) Ks1 -> Forall2 shape_is (bd_shapes b2) Ks2 ->
  (forall s, In s (bd_shapes b1 ++ bd_shapes b2) -> shape_proper s) -> (0 < d)%nat -> is_mat 4 4 J -> symmetric 4 J ->
  accepts (rb_moment_sdp_constraints ut b (PVmat J) 0 d) <->
  exists J1 J2, J = madd J1 J2 /\ PSD 4 J1 /\ PSD 4 J2 /\ accepts (rb_moment_sdp_constraints ut b1 (PVmat J1) 0 d) /\ accepts (rb_moment_sdp_constraints ut b2 (PVmat J2) 0 d).
Proof. exact body_sum. Qed.
Print Assumptions C93_composite.
Theorem C93_must_contain : forall sh K a b x y s t,
  shape_is sh K -> length x = 3%nat -> length y = 3%nat -> 0 <= a -> 0 <= b ->
  shp_must_contain_scaled sh x s -> shp_must_contain_scaled sh y t -> shp_must_contain_scaled sh (vmix a b x y) (a * s + b * t).
Proof. exact must_mix. Qed.
Print Assumptions C93_must_contain.
Theorem C93_centre_of_mass : forall s K a b J1 J2,
  shape_is s K -> 0 <= a -> 0 <= b -> is_mat 4 4 J1 -> is_mat 4 4 J2 -> com_constraint s J1 -> com_constraint s J2 -> com_constraint s (mix a b J1 J2).
Proof. exact com_mix. Qed.
Print Assumptions C93_centre_of_mass.
Example C93_example : forall ut, exists b1 b2 b Ks1 Ks2, rb_add b1 b2 = Ok b /\ length (bd_shapes b) = 6%nat /\ Forall2 shape_is (bd_shapes b1) Ks1 /\ Forall2 shape_is (bd_shapes b2) Ks2 /\
  (forall s, In s (bd_shapes b1 ++ bd_shapes b2) -> shape_proper s) /\ ip_ok (bd_params b1) /\ 0 < ip_mass (bd_params b1) /\
  accepts (rb_moment_sdp_constraints ut b1 (PVmat (ip_J (bd_params b1))) 0 2) /\ accepts (rb_moment_sdp_constraints ut b1 (PVmat (ip_J (bd_params b1))) (1 / 20) 2) /\
  accepts (rb_moment_sdp_constraints ut b (PVmat (ip_J (bd_params b))) 0 2).
Proof. exact composite_example. Qed.

(** * C94 *)
Theorem C94_convex : forall ut inv As bs Sigma gamma eps P bodies mr coms a b l m,
  id_init inv As bs Sigma gamma eps = Ok P -> bodies_ok mr bodies -> coms_ok coms bodies -> 0 <= a -> 0 <= b -> a + b = 1 ->
  id_feasible ut P bodies mr coms l -> id_feasible ut P bodies mr coms m -> id_feasible ut P bodies mr coms (tmix a b l m).
Proof. exact id_convex. Qed.
Print Assumptions C94_convex.
Theorem C94_strictly_convex : forall ut log_det inv r As bs Sigma gamma eps P bodies mr coms t l m,
  log_det_spec 4 log_det -> id_init inv As bs Sigma gamma eps = Ok P -> cov_ok r inv Sigma -> data_ok r (10 * length bodies) As bs -> nominals_ok gamma inv bodies -> 0 <= t <= 1 ->
  id_feasible ut P bodies mr coms l -> id_feasible ut P bodies mr coms m ->
  exists c1 c2 c, id_cost log_det inv P bodies l = Ok c1 /\ id_cost log_det inv P bodies m = Ok c2 /\ id_cost log_det inv P bodies (tmix (1 - t) t l m) = Ok c /\
    c <= (1 - t) * c1 + t * c2 /\ (0 < t < 1 -> 0 < gamma \/ determining (10 * length bodies) As -> l <> m -> c < (1 - t) * c1 + t * c2).
Proof. exact id_cost_convex. Qed.
Print Assumptions C94_strictly_convex.
Theorem C94_unique : forall ut log_det inv r As bs Sigma gamma eps P bodies mr coms l m,
  log_det_spec 4 log_det -> id_init inv As bs Sigma gamma eps = Ok P -> cov_ok r inv Sigma -> data_ok r (10 * length bodies) As bs -> nominals_ok gamma inv bodies -> bodies_ok mr bodies -> coms_ok coms bodies ->
  0 < gamma \/ determining (10 * length bodies) As ->
  optimal (id_cost log_det inv P bodies) (id_feasible ut P bodies mr coms) l -> optimal (id_cost log_det inv P bodies) (id_feasible ut P bodies mr coms) m -> l = m.
Proof. exact id_at_most_one. Qed.
Print Assumptions C94_unique.
Theorem C94_solver : forall ut log_det inv r As bs Sigma gamma eps P bodies mr coms solver solver',
  log_det_spec 4 log_det -> id_init inv As bs Sigma gamma eps = Ok P -> cov_ok r inv Sigma -> data_ok r (10 * length bodies) As bs -> nominals_ok gamma inv bodies -> bodies_ok mr bodies -> coms_ok coms bodies ->
  0 < gamma \/ determining (10 * length bodies) As ->
  solved solver (id_cost log_det inv P bodies) (id_feasible ut P bodies mr coms) -> solved solver' (id_cost log_det inv P bodies) (id_feasible ut P bodies mr coms) ->
  id_solve ut log_det inv solver P bodies mr coms = id_solve ut log_det inv solver' P bodies mr coms.
Proof. exact id_any_solver. Qed.
Print Assumptions C94_solver.
Theorem C94_discretized_cone : forall points com a b x y,
  (forall p, In p points -> length p = 3%nat) -> (forall s, com = Some s -> exists K, shape_is s K) -> 0 <= a -> 0 <= b ->
  di_feasible points com x -> di_feasible points com y -> di_feasible points com (vmix a b x y).
Proof. exact di_feasible_mix. Qed.
Print Assumptions C94_discretized_cone.
Theorem C94_discretized_unique : forall inv r As bs Sigma gamma eps P points com x y,
  id_init inv As bs Sigma gamma eps = Ok P -> cov_ok r inv Sigma -> data_ok r 10 As bs -> (forall p, In p points -> length p = 3%nat) -> (forall s, com = Some s -> exists K, shape_is s K) ->
  determining 10 As -> optimal (di_cost P) (di_feasible points com) x -> optimal (di_cost P) (di_feasible points com) y -> x = y.
Proof. exact di_at_most_one. Qed.
Print Assumptions C94_discretized_unique.
Theorem C94_discretized_solver : forall inv r As bs Sigma gamma eps P points com solver solver',
  id_init inv As bs Sigma gamma eps = Ok P -> cov_ok r inv Sigma -> data_ok r 10 As bs ->
  (forall p, In p points -> length p = 3%nat) -> (forall s, com = Some s -> exists K, shape_is s K) -> determining 10 As ->
  solved solver (di_cost P) (di_feasible points com) -> solved solver' (di_cost P) (di_feasible points com) ->
  di_solve solver P points com = di_solve solver' P points com.
Proof. exact di_solver_independent. Qed.
Print Assumptions C94_discretized_solver.
(** gamma = 0 and data that do not determine the parameters: several optimal solutions *)
Theorem C94_undetermined_refuted : forall ut log_det inv (b : Body),
  exists P l m, id_init inv [zeros2 1 10] [[0]] None 0 0 = Ok P /\ data_ok 1 10 [zeros2 1 10] [[0]] /\
  optimal (id_cost log_det inv P [b]) (id_feasible ut P [b] false None) l /\ optimal (id_cost log_det inv P [b]) (id_feasible ut P [b] false None) m /\ l <> m.
Proof. exact several_solutions. Qed.
Print Assumptions C94_undetermined_refuted.
Example C94_example : forall ut gamma, 0 <= gamma -> exists log_det inv solver As bs Sigma eps P bodies l,
  log_det_spec 4 log_det /\ id_init inv As bs (Some Sigma) gamma eps = Ok P /\ cov_ok 20 inv (Some Sigma) /\ data_ok 20 (10 * length bodies) As bs /\ length bodies = 2%nat /\
  determining (10 * length bodies) As /\ (forall b, In b bodies -> nominal_ok inv (ip_J (bd_params b))) /\
  (forall b, In b bodies -> exists Ks, Forall2 shape_is (bd_shapes b) Ks /\ (forall s, In s (bd_shapes b) -> shape_proper s)) /\
  length l = length bodies /\ (exists Ks, Forall2 shape_is l Ks) /\
  solved solver (id_cost log_det inv P bodies) (id_feasible ut P bodies true (Some l)).
Proof. exact unique_example. Qed.
