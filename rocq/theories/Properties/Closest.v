(** Property C61: closest points (src/rigeo/closest.py). *)
From Verif Require Import Base.Vec Model.Util Model.Polydd Model.Poly Model.Ellipsoid Model.Box Model.Cylinder Model.RigidBody Model.Closest
  Spec.Basic Spec.Shapes Spec.ShapeObjects Spec.PolySpec Spec.Bodies Spec.ClosestSpec Proofs.ClosestP Proofs.ClosestE.

(** * C61 *)
Theorem C61_closest : forall s1 s2 K1 K2 solve,
  shape_is s1 K1 -> shape_is s2 K2 ->
  minimises closest_objective (closest_constraints s1 s2) (solve closest_objective (closest_constraints s1 s2)) ->
  let i := closest_points solve s1 s2 in closest_pair K1 K2 (cpi_p1 i) (cpi_p2 i) (cpi_dist i).
Proof. exact closest_pair_of. Qed.
Print Assumptions C61_closest.
Theorem C61_distance : forall s1 s2 K1 K2 solve,
  shape_is s1 K1 -> shape_is s2 K2 ->
  minimises closest_objective (closest_constraints s1 s2) (solve closest_objective (closest_constraints s1 s2)) ->
  let i := closest_points solve s1 s2 in 0 <= cpi_dist i /\ (cpi_dist i = 0 <-> exists p, length p = 3%nat /\ K1 p /\ K2 p).
Proof. exact closest_dist. Qed.
Print Assumptions C61_distance.
Theorem C61_symmetric : forall s1 s2 K1 K2 solve,
  shape_is s1 K1 -> shape_is s2 K2 ->
  minimises closest_objective (closest_constraints s1 s2) (solve closest_objective (closest_constraints s1 s2)) ->
  minimises closest_objective (closest_constraints s2 s1) (solve closest_objective (closest_constraints s2 s1)) ->
  cpi_dist (closest_points solve s1 s2) = cpi_dist (closest_points solve s2 s1).
Proof. exact closest_symmetric. Qed.
Print Assumptions C61_symmetric.
Theorem C61_invariant : forall dd s1 s2 K1 K2 solve Q c s1' s2',
  shape_is s1 K1 -> shape_is s2 K2 -> orthogonal 3 Q -> length c = 3%nat ->
  shp_transform dd s1 (Some Q) (Some c) = Ok s1' -> shp_transform dd s2 (Some Q) (Some c) = Ok s2' -> dd_moves dd [s1; s2] Q c ->
  minimises closest_objective (closest_constraints s1 s2) (solve closest_objective (closest_constraints s1 s2)) ->
  minimises closest_objective (closest_constraints s1' s2') (solve closest_objective (closest_constraints s1' s2')) ->
  cpi_dist (closest_points solve s1' s2') = cpi_dist (closest_points solve s1 s2).
Proof. exact closest_invariant. Qed.
Print Assumptions C61_invariant.
(** the planes through the returned points and orthogonal to their difference separate the shapes *)
Theorem C61_separating : forall s1 s2 K1 K2 solve,
  shape_is s1 K1 -> shape_is s2 K2 ->
  minimises closest_objective (closest_constraints s1 s2) (solve closest_objective (closest_constraints s1 s2)) ->
  let i := closest_points solve s1 s2 in
  (forall p, length p = 3%nat -> K1 p -> dot (vsub (cpi_p2 i) (cpi_p1 i)) p <= dot (vsub (cpi_p2 i) (cpi_p1 i)) (cpi_p1 i)) /\
  (forall p, length p = 3%nat -> K2 p -> dot (vsub (cpi_p2 i) (cpi_p1 i)) (cpi_p2 i) <= dot (vsub (cpi_p2 i) (cpi_p1 i)) p).
Proof. exact closest_separates. Qed.
Print Assumptions C61_separating.
(** every closest pair of points is a correct answer of the solver *)
Theorem C61_solver : forall s1 s2 K1 K2 x y d,
  shape_is s1 K1 -> shape_is s2 K2 -> closest_pair K1 K2 x y d ->
  minimises closest_objective (closest_constraints s1 s2) (x, y).
Proof. exact minimises_of_pair. Qed.
Print Assumptions C61_solver.
(** the problem handed to the solver always has a solution: the shapes are compact *)
Theorem C61_exists : forall s1 s2 K1 K2,
  shape_is s1 K1 -> shape_is s2 K2 ->
  exists xy, minimises closest_objective (closest_constraints s1 s2) xy.
Proof. exact closest_exists. Qed.
Print Assumptions C61_exists.
(** the cube [-1,1]^3 and the ball of radius 1 about (5,0,0) *)
Example C61_example : exists s1 s2 K1 K2 solve, shape_is s1 K1 /\ shape_is s2 K2 /\
  minimises closest_objective (closest_constraints s1 s2) (solve closest_objective (closest_constraints s1 s2)) /\
  closest_points solve s1 s2 = {| cpi_p1 := [1; 0; 0]; cpi_p2 := [4; 0; 0]; cpi_dist := 3 |}.
Proof. exact closest_case. Qed.
