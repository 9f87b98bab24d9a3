(** Property C92: the extremal ellipsoids are well defined (src/rigeo/shape/ellipsoid.py:670-758, poly.py:188-241). *)
From Verif Require Import Base.Vec Base.Ext Model.Util Model.Polydd Model.Constraint Model.Ellipsoid Model.Poly Model.Extremal
  Spec.Basic Spec.Shapes Spec.ShapeObjects Spec.DoubleDesc Spec.PolySpec Spec.ExtremalSpec Spec.John
  Proofs.SampleDD Proofs.JohnX Proofs.JohnR Proofs.JohnM Proofs.JohnEx.

(** * The programs that the solver is given *)
(** the bounding program has an optimum exactly if the points lie on no hyperplane *)
Theorem C92_mbe_exists : forall n log_det P sphere,
  (0 < n)%nat -> log_det_spec n log_det -> (forall x, In x P -> length x = n) ->
  ((exists A b, log_det_optimal n log_det (mbe_points_constraints n P sphere) A b) <-> wide n P sphere).
Proof. exact mbe_exists_all. Qed.
Print Assumptions C92_mbe_exists.
Example C92_mbe_exists_example : wide 2 [[0; 0]; [1; 0]; [0; 1]] false /\ ~ wide 2 [[0; 0]; [1; 1]; [2; 2]] false.
Proof. split; [exact triangle_wide|exact collinear_not_wide]. Qed.
Theorem C92_mbe_unique : forall n log_det P sphere A1 b1 A2 b2,
  (0 < n)%nat -> log_det_spec n log_det -> (forall x, In x P -> length x = n) ->
  log_det_optimal n log_det (mbe_points_constraints n P sphere) A1 b1 -> log_det_optimal n log_det (mbe_points_constraints n P sphere) A2 b2 -> A1 = A2 /\ b1 = b2.
Proof. exact mbe_unique_all. Qed.
Print Assumptions C92_mbe_unique.
(** the inscribed program has an optimum exactly if the set contains a ball and is bounded *)
Theorem C92_mie_exists : forall n log_det H h,
  (0 < n)%nat -> log_det_spec n log_det -> is_mat (length h) n H ->
  ((exists B c, log_det_optimal n log_det (mie_constraints n H h false) B c) <-> solid_halfspaces n H h /\ bounded_halfspaces n H h).
Proof. exact mie_exists_all. Qed.
Print Assumptions C92_mie_exists.
Theorem C92_mie_exists_sphere : forall n log_det H h,
  (0 < n)%nat -> log_det_spec n log_det -> is_mat (length h) n H -> solid_halfspaces n H h -> bounded_halfspaces n H h ->
  exists B c, log_det_optimal n log_det (mie_constraints n H h true) B c.
Proof. exact mie_exists_sphere. Qed.
Print Assumptions C92_mie_exists_sphere.
Example C92_mie_exists_example : solid_halfspaces 2 [[1; 0]; [-1; 0]; [0; 1]; [0; -1]] [1; 1; 1; 1] /\ bounded_halfspaces 2 [[1; 0]; [-1; 0]; [0; 1]; [0; -1]] [1; 1; 1; 1] /\
  ~ bounded_halfspaces 2 [[0; 1]; [0; -1]] [1; 1].
Proof. split; [exact square_solid|split; [exact square_bounded|exact strip_unbounded]]. Qed.
(** the optimal shape is unique, and so is the centre unless a sphere is asked for *)
Theorem C92_mie_unique : forall n log_det H h sphere B1 c1 B2 c2,
  (0 < n)%nat -> log_det_spec n log_det -> is_mat (length h) n H ->
  log_det_optimal n log_det (mie_constraints n H h sphere) B1 c1 -> log_det_optimal n log_det (mie_constraints n H h sphere) B2 c2 -> B1 = B2 /\ (sphere = false -> c1 = c2).
Proof. exact mie_unique_all. Qed.
Print Assumptions C92_mie_unique.
Theorem C92_sphere_centre_refuted : exists A b log_det B c1 c2, log_det_spec 2 log_det /\ solid_halfspaces 2 A b /\ bounded_halfspaces 2 A b /\
  log_det_optimal 2 log_det (mie_constraints 2 A b true) B c1 /\ log_det_optimal 2 log_det (mie_constraints 2 A b true) B c2 /\ c1 <> c2.
Proof. exact sphere_centre_refuted. Qed.
Print Assumptions C92_sphere_centre_refuted.

(** * What the functions return *)
(** mbe_of_points depends on the convex hull of the points only *)
Theorem C92_mbe_of_points : forall d points1 points2 k1 orth1 null1 eigh1 lstsq1 solver1 k2 orth2 null2 eigh2 lstsq2 solver2,
  (0 < d)%nat -> (forall x, In x points1 -> length x = d) -> (forall x, In x points2 -> length x = d) -> same_hull d points1 points2 ->
  mbe_oracles d k1 orth1 null1 eigh1 lstsq1 solver1 points1 -> mbe_oracles d k2 orth2 null2 eigh2 lstsq2 solver2 points2 ->
  exists e1 e2, mbe_of_points orth1 null1 eigh1 lstsq1 solver1 points1 = Ok e1 /\ mbe_of_points orth2 null2 eigh2 lstsq2 solver2 points2 = Ok e2 /\
    e_dim e1 = d /\ e_dim e2 = d /\
    forall x, ell_set (e_half e1) (e_rot e1) (e_center e1) x <-> ell_set (e_half e2) (e_rot e2) (e_center e2) x.
Proof. exact mbe_of_points_function. Qed.
Print Assumptions C92_mbe_of_points.
Example C92_mbe_of_points_example : exists e1 e2,
  mbe_of_points (fun _ => [[1]; [0]]) (fun _ => [[0]; [1]]) (fun _ => ([1], [[1]])) (fun _ y => y) (fun _ => ([[1]], [1])) [[1; 0]; [-1; 0]] = Ok e1 /\
  mbe_of_points (fun _ => [[-1]; [0]]) (fun _ => [[0]; [-1]]) (fun _ => ([1], [[1]])) (fun _ y => y) (fun _ => ([[1]], [1])) [[-1; 0]; [1; 0]; [0; 0]] = Ok e2 /\
  e_rot e1 <> e_rot e2 /\ forall x, ell_set (e_half e1) (e_rot e1) (e_center e1) x <-> ell_set (e_half e2) (e_rot e2) (e_center e2) x.
Proof. exact mbe_two_runs. Qed.
Example C92_mbe_of_points_premises : same_hull 2 [[1; 0]; [-1; 0]] [[-1; 0]; [1; 0]; [0; 0]] /\
  mbe_oracles 2 1 (fun _ => [[1]; [0]]) (fun _ => [[0]; [1]]) (fun _ => ([1], [[1]])) (fun _ y => y) (fun _ => ([[1]], [1])) [[1; 0]; [-1; 0]] /\
  mbe_oracles 2 1 (fun _ => [[-1]; [0]]) (fun _ => [[0]; [-1]]) (fun _ => ([1], [[1]])) (fun _ y => y) (fun _ => ([[1]], [1])) [[-1; 0]; [1; 0]; [0; 0]].
Proof. split; [exact segment_hulls|split; [exact mbe_first|exact mbe_second]]. Qed.
Theorem C92_poly_mbe : forall d p1 p2 k1 orth1 null1 eigh1 lstsq1 solver1 k2 orth2 null2 eigh2 lstsq2 solver2,
  (0 < d)%nat -> (forall x, In x (p_vertices p1) -> length x = d) -> (forall x, In x (p_vertices p2) -> length x = d) -> same_hull d (p_vertices p1) (p_vertices p2) ->
  mbe_oracles d k1 orth1 null1 eigh1 lstsq1 solver1 (p_vertices p1) -> mbe_oracles d k2 orth2 null2 eigh2 lstsq2 solver2 (p_vertices p2) ->
  exists e1 e2, poly_mbe orth1 null1 eigh1 lstsq1 solver1 p1 = Ok e1 /\ poly_mbe orth2 null2 eigh2 lstsq2 solver2 p2 = Ok e2 /\
    e_dim e1 = d /\ e_dim e2 = d /\
    forall x, ell_set (e_half e1) (e_rot e1) (e_center e1) x <-> ell_set (e_half e2) (e_rot e2) (e_center e2) x.
Proof. exact poly_mbe_function. Qed.
Print Assumptions C92_poly_mbe.
(** mie_inequality_form depends on the set described by the inequalities only *)
Theorem C92_mie_inequality_form : forall n A1 b1 A2 b2 sphere eigh1 inv1 solver1 eigh2 inv2 solver2,
  (0 < n)%nat -> (0 < length b1)%nat -> (0 < length b2)%nat -> is_mat (length b1) n A1 -> is_mat (length b2) n A2 ->
  (forall x, length x = n -> (halfspaces A1 b1 x <-> halfspaces A2 b2 x)) ->
  mie_oracles n eigh1 inv1 solver1 A1 b1 sphere -> mie_oracles n eigh2 inv2 solver2 A2 b2 sphere ->
  exists e1 e2, mie_inequality_form eigh1 inv1 solver1 A1 b1 sphere = Ok e1 /\ mie_inequality_form eigh2 inv2 solver2 A2 b2 sphere = Ok e2 /\
    e_dim e1 = n /\ e_dim e2 = n /\
    exists t, length t = n /\ (forall x, length x = n -> (ell_set (e_half e1) (e_rot e1) (e_center e1) x <-> ell_set (e_half e2) (e_rot e2) (e_center e2) (vadd x t))) /\
      (sphere = false -> t = zeros n).
Proof. exact mie_form_function. Qed.
Print Assumptions C92_mie_inequality_form.
Example C92_mie_inequality_form_example : exists e1 e2,
  mie_inequality_form (fun _ => ([1], [[1]])) (fun _ => [[1]]) (fun _ => ([[1]], [0])) [[1]; [-1]] [1; 1] false = Ok e1 /\
  mie_inequality_form (fun _ => ([1], [[1]])) (fun _ => [[1]]) (fun _ => ([[1]], [0])) [[2]; [-1]; [1]] [2; 1; 5] false = Ok e2 /\
  mie_oracles 1 (fun _ => ([1], [[1]])) (fun _ => [[1]]) (fun _ => ([[1]], [0])) [[1]; [-1]] [1; 1] false /\
  mie_oracles 1 (fun _ => ([1], [[1]])) (fun _ => [[1]]) (fun _ => ([[1]], [0])) [[2]; [-1]; [1]] [2; 1; 5] false /\
  forall x, length x = 1%nat -> (ell_set (e_half e1) (e_rot e1) (e_center e1) x <-> ell_set (e_half e2) (e_rot e2) (e_center e2) x).
Proof. exact mie_two_runs. Qed.
(** ConvexPolyhedron.mie depends on the polyhedron only *)
Theorem C92_poly_mie : forall d p1 p2 k1 dd1 orth1 null1 eigh1 inv1 solver1 k2 dd2 orth2 null2 eigh2 inv2 solver2,
  (0 < d)%nat -> (forall x, In x (p_vertices p1) -> length x = d) -> (forall x, In x (p_vertices p2) -> length x = d) -> same_hull d (p_vertices p1) (p_vertices p2) ->
  poly_mie_oracles d k1 dd1 orth1 null1 eigh1 inv1 solver1 (p_vertices p1) -> poly_mie_oracles d k2 dd2 orth2 null2 eigh2 inv2 solver2 (p_vertices p2) ->
  exists e1 e2, poly_mie dd1 orth1 null1 eigh1 inv1 solver1 p1 false = Ok e1 /\ poly_mie dd2 orth2 null2 eigh2 inv2 solver2 p2 false = Ok e2 /\
    e_dim e1 = d /\ e_dim e2 = d /\
    forall x, ell_set (e_half e1) (e_rot e1) (e_center e1) x <-> ell_set (e_half e2) (e_rot e2) (e_center e2) x.
Proof. exact poly_mie_function. Qed.
Print Assumptions C92_poly_mie.
Example C92_poly_mie_example : exists p1 p2 e1 e2, p_vertices p1 = [[-1]; [1]] /\ p_vertices p2 = [[1]; [-1]] /\
  poly_mie (dd1 0 2) (fun _ => [[1]]) (fun _ => [[]]) (fun _ => ([1], [[1]])) (fun _ => [[1]]) (fun _ => ([[1]], [1])) p1 false = Ok e1 /\
  poly_mie (dd1 0 2) (fun _ => [[-1]]) (fun _ => [[]]) (fun _ => ([1], [[1]])) (fun _ => [[1]]) (fun _ => ([[1]], [1])) p2 false = Ok e2 /\
  forall x, ell_set (e_half e1) (e_rot e1) (e_center e1) x <-> ell_set (e_half e2) (e_rot e2) (e_center e2) x.
Proof. exact poly_mie_two_runs. Qed.
Example C92_poly_mie_premises :
  poly_mie_oracles 1 1 (dd1 0 2) (fun _ => [[1]]) (fun _ => [[]]) (fun _ => ([1], [[1]])) (fun _ => [[1]]) (fun _ => ([[1]], [1])) [[-1]; [1]] /\
  poly_mie_oracles 1 1 (dd1 0 2) (fun _ => [[-1]]) (fun _ => [[]]) (fun _ => ([1], [[1]])) (fun _ => [[1]]) (fun _ => ([[1]], [1])) [[1]; [-1]].
Proof. split; [exact poly_mie_first|exact poly_mie_second]. Qed.
