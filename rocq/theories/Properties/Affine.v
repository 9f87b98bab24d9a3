(** Property C113: extremal ellipsoids follow affine maps of their input (src/rigeo/shape/ellipsoid.py:670-758, poly.py:188-241). *)
From Verif Require Import Base.Vec Base.Ext Model.Util Model.Polydd Model.Constraint Model.Ellipsoid Model.Poly Model.Extremal
  Spec.Basic Spec.Shapes Spec.ShapeObjects Spec.DoubleDesc Spec.PolySpec Spec.ExtremalSpec Spec.Geodesic Spec.John
  Proofs.SampleDD Proofs.JohnEx Proofs.OracleP Proofs.SimilarP Proofs.AffineP Proofs.MieAffineP.

(** mbe_of_points of the points T p + t is the image of mbe_of_points of the points p, for every invertible T *)
Theorem C113_mbe_of_points : forall d T T' t points k1 orth1 null1 eigh1 lstsq1 solver1 k2 orth2 null2 eigh2 lstsq2 solver2,
  (0 < d)%nat -> inverse d T T' -> length t = d -> (forall x, In x points -> length x = d) ->
  mbe_oracles d k1 orth1 null1 eigh1 lstsq1 solver1 points ->
  mbe_oracles d k2 orth2 null2 eigh2 lstsq2 solver2 (map (move T t) points) ->
  exists e1 e2, mbe_of_points orth1 null1 eigh1 lstsq1 solver1 points = Ok e1 /\
    mbe_of_points orth2 null2 eigh2 lstsq2 solver2 (map (move T t) points) = Ok e2 /\
    forall x, length x = d -> (ell_set (e_half e2) (e_rot e2) (e_center e2) (move T t x) <-> ell_set (e_half e1) (e_rot e1) (e_center e1) x).
Proof. exact mbe_affine_all. Qed.
Print Assumptions C113_mbe_of_points.
Example C113_mbe_of_points_example : inverse 2 [[1; 1]; [0; 1]] [[1; -1]; [0; 1]] /\ ~ orthogonal 2 [[1; 1]; [0; 1]] /\
  map (move [[1; 1]; [0; 1]] [1; 0]) [[0; 0]; [2; 0]; [0; 1]] = [[1; 0]; [3; 0]; [2; 1]] /\
  (exists k orth null_space eigh lstsq solver, mbe_oracles 2 k orth null_space eigh lstsq solver [[0; 0]; [2; 0]; [0; 1]]) /\
  exists k orth null_space eigh lstsq solver, mbe_oracles 2 k orth null_space eigh lstsq solver [[1; 0]; [3; 0]; [2; 1]].
Proof. exact shear_premises. Qed.
(** ConvexPolyhedron.mbe of the mapped polyhedron, whatever its list of vertices *)
Theorem C113_poly_mbe : forall d T T' t p1 p2 k1 orth1 null1 eigh1 lstsq1 solver1 k2 orth2 null2 eigh2 lstsq2 solver2,
  (0 < d)%nat -> inverse d T T' -> length t = d -> (forall x, In x (p_vertices p1) -> length x = d) -> (forall x, In x (p_vertices p2) -> length x = d) ->
  (forall x, in_hull d (p_vertices p2) x <-> in_hull d (map (move T t) (p_vertices p1)) x) ->
  mbe_oracles d k1 orth1 null1 eigh1 lstsq1 solver1 (p_vertices p1) -> mbe_oracles d k2 orth2 null2 eigh2 lstsq2 solver2 (p_vertices p2) ->
  exists e1 e2, poly_mbe orth1 null1 eigh1 lstsq1 solver1 p1 = Ok e1 /\ poly_mbe orth2 null2 eigh2 lstsq2 solver2 p2 = Ok e2 /\
    forall x, length x = d -> (ell_set (e_half e2) (e_rot e2) (e_center e2) (move T t x) <-> ell_set (e_half e1) (e_rot e1) (e_center e1) x).
Proof. exact poly_mbe_affine. Qed.
Print Assumptions C113_poly_mbe.
(** mie_inequality_form of the mapped set, whatever the inequalities describing it *)
Theorem C113_mie_inequality_form : forall n T T' t A1 b1 A2 b2 eigh1 inv1 solver1 eigh2 inv2 solver2,
  (0 < n)%nat -> inverse n T T' -> length t = n -> (0 < length b1)%nat -> (0 < length b2)%nat -> is_mat (length b1) n A1 -> is_mat (length b2) n A2 ->
  (forall x, length x = n -> (halfspaces A2 b2 (move T t x) <-> halfspaces A1 b1 x)) ->
  mie_oracles n eigh1 inv1 solver1 A1 b1 false -> mie_oracles n eigh2 inv2 solver2 A2 b2 false ->
  exists e1 e2, mie_inequality_form eigh1 inv1 solver1 A1 b1 false = Ok e1 /\ mie_inequality_form eigh2 inv2 solver2 A2 b2 false = Ok e2 /\
    forall x, length x = n -> (ell_set (e_half e2) (e_rot e2) (e_center e2) (move T t x) <-> ell_set (e_half e1) (e_rot e1) (e_center e1) x).
Proof. exact mie_affine. Qed.
Print Assumptions C113_mie_inequality_form.
Example C113_mie_inequality_form_example : inverse 1 [[2]] [[/ 2]] /\
  (forall x, length x = 1%nat -> (halfspaces [[1]; [-1]] [3; 1] (move [[2]] [1] x) <-> halfspaces [[1]; [-1]] [1; 1] x)) /\
  mie_oracles 1 (fun _ => ([1], [[1]])) (fun _ => [[1]]) (fun _ => ([[1]], [0])) [[1]; [-1]] [1; 1] false /\
  mie_oracles 1 (fun _ => ([/ 4], [[1]])) (fun _ => [[/ 4]]) (fun _ => ([[2]], [1])) [[1]; [-1]] [3; 1] false.
Proof. exact stretch_interval. Qed.
(** ConvexPolyhedron.mie of the mapped polyhedron, whatever its list of vertices, also for polyhedra of lower dimension *)
Theorem C113_poly_mie : forall d T T' t p1 p2 k1 dd1 orth1 null1 eigh1 inv1 solver1 k2 dd2 orth2 null2 eigh2 inv2 solver2,
  (0 < d)%nat -> inverse d T T' -> length t = d -> (forall x, In x (p_vertices p1) -> length x = d) -> (forall x, In x (p_vertices p2) -> length x = d) ->
  (forall x, in_hull d (p_vertices p2) x <-> in_hull d (map (move T t) (p_vertices p1)) x) ->
  poly_mie_oracles d k1 dd1 orth1 null1 eigh1 inv1 solver1 (p_vertices p1) -> poly_mie_oracles d k2 dd2 orth2 null2 eigh2 inv2 solver2 (p_vertices p2) ->
  exists e1 e2, poly_mie dd1 orth1 null1 eigh1 inv1 solver1 p1 false = Ok e1 /\ poly_mie dd2 orth2 null2 eigh2 inv2 solver2 p2 false = Ok e2 /\
    forall x, length x = d -> (ell_set (e_half e2) (e_rot e2) (e_center e2) (move T t x) <-> ell_set (e_half e1) (e_rot e1) (e_center e1) x).
Proof. exact poly_mie_affine. Qed.
Print Assumptions C113_poly_mie.
Example C113_poly_mie_example : inverse 1 [[2]] [[/ 2]] /\ map (move [[2]] [1]) [[-1]; [1]] = [[-1]; [3]] /\
  poly_mie_oracles 1 1 (dd1 0 2) (fun _ => [[1]]) (fun _ => [[]]) (fun _ => ([1], [[1]])) (fun _ => [[1]]) (fun _ => ([[1]], [1])) [[-1]; [1]] /\
  poly_mie_oracles 1 1 (dd1 0 4) (fun _ => [[1]]) (fun _ => [[]]) (fun _ => ([/ 4], [[1]])) (fun _ => [[/ 4]]) (fun _ => ([[2]], [2])) [[-1]; [3]].
Proof. exact stretch_polys. Qed.
