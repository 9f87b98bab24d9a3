(** Property C114: extremal ellipsoids have the symmetries of their input (src/rigeo/shape/ellipsoid.py:670-758, poly.py:188-241). *)
From Verif Require Import Base.Vec Base.Ext Model.Util Model.Polydd Model.Constraint Model.Ellipsoid Model.Poly Model.Extremal
  Spec.Basic Spec.Shapes Spec.ShapeObjects Spec.DoubleDesc Spec.PolySpec Spec.ExtremalSpec Spec.Geodesic Spec.John
  Proofs.SampleDD Proofs.JohnEx Proofs.OracleP Proofs.SimilarP Proofs.AffineP Proofs.SymmetryP Proofs.MieAffineP.

(** an affine map that keeps the hull of the points keeps mbe_of_points and its centre *)
Theorem C114_mbe_of_points : forall d T T' t points k orth null_space eigh lstsq solver,
  (0 < d)%nat -> inverse d T T' -> length t = d -> (forall x, In x points -> length x = d) -> same_hull d (map (move T t) points) points ->
  mbe_oracles d k orth null_space eigh lstsq solver points ->
  exists e, mbe_of_points orth null_space eigh lstsq solver points = Ok e /\ move T t (e_center e) = e_center e /\
    forall x, length x = d -> (ell_set (e_half e) (e_rot e) (e_center e) (move T t x) <-> ell_set (e_half e) (e_rot e) (e_center e) x).
Proof. exact mbe_symmetric. Qed.
Print Assumptions C114_mbe_of_points.
Example C114_mbe_of_points_example : inverse 2 [[-1; 0]; [0; -1]] [[-1; 0]; [0; -1]] /\ map (move [[-1; 0]; [0; -1]] [4; 2]) [[1; 0]; [3; 2]] = [[3; 2]; [1; 0]] /\
  same_hull 2 [[3; 2]; [1; 0]] [[1; 0]; [3; 2]] /\ exists k orth null_space eigh lstsq solver, mbe_oracles 2 k orth null_space eigh lstsq solver [[1; 0]; [3; 2]].
Proof. exact two_points. Qed.
(** ConvexPolyhedron.mbe *)
Theorem C114_poly_mbe : forall d T T' t p k orth null_space eigh lstsq solver,
  (0 < d)%nat -> inverse d T T' -> length t = d -> (forall x, In x (p_vertices p) -> length x = d) -> same_hull d (map (move T t) (p_vertices p)) (p_vertices p) ->
  mbe_oracles d k orth null_space eigh lstsq solver (p_vertices p) ->
  exists e, poly_mbe orth null_space eigh lstsq solver p = Ok e /\ move T t (e_center e) = e_center e /\
    forall x, length x = d -> (ell_set (e_half e) (e_rot e) (e_center e) (move T t x) <-> ell_set (e_half e) (e_rot e) (e_center e) x).
Proof. exact poly_mbe_symmetric. Qed.
Print Assumptions C114_poly_mbe.
(** an affine map that keeps the set of the inequalities keeps mie_inequality_form and its centre *)
Theorem C114_mie_inequality_form : forall n T T' t A b eigh inv solver,
  (0 < n)%nat -> inverse n T T' -> length t = n -> (0 < length b)%nat -> is_mat (length b) n A ->
  (forall x, length x = n -> (halfspaces A b (move T t x) <-> halfspaces A b x)) -> mie_oracles n eigh inv solver A b false ->
  exists e, mie_inequality_form eigh inv solver A b false = Ok e /\ move T t (e_center e) = e_center e /\
    forall x, length x = n -> (ell_set (e_half e) (e_rot e) (e_center e) (move T t x) <-> ell_set (e_half e) (e_rot e) (e_center e) x).
Proof. exact mie_symmetric. Qed.
Print Assumptions C114_mie_inequality_form.
Example C114_mie_inequality_form_example : inverse 1 [[-1]] [[-1]] /\
  (forall x, length x = 1%nat -> (halfspaces [[1]; [-1]] [3; 1] (move [[-1]] [2] x) <-> halfspaces [[1]; [-1]] [3; 1] x)) /\
  mie_oracles 1 (fun _ => ([/ 4], [[1]])) (fun _ => [[/ 4]]) (fun _ => ([[2]], [1])) [[1]; [-1]] [3; 1] false.
Proof. exact reflected_interval. Qed.
(** ConvexPolyhedron.mie *)
Theorem C114_poly_mie : forall d T T' t p k dd orth null_space eigh inv solver,
  (0 < d)%nat -> inverse d T T' -> length t = d -> (forall x, In x (p_vertices p) -> length x = d) -> same_hull d (map (move T t) (p_vertices p)) (p_vertices p) ->
  poly_mie_oracles d k dd orth null_space eigh inv solver (p_vertices p) ->
  exists e, poly_mie dd orth null_space eigh inv solver p false = Ok e /\ move T t (e_center e) = e_center e /\
    forall x, length x = d -> (ell_set (e_half e) (e_rot e) (e_center e) (move T t x) <-> ell_set (e_half e) (e_rot e) (e_center e) x).
Proof. exact poly_mie_symmetric. Qed.
Print Assumptions C114_poly_mie.
Example C114_poly_mie_example : inverse 1 [[-1]] [[-1]] /\ same_hull 1 (map (move [[-1]] [2]) [[-1]; [3]]) [[-1]; [3]] /\
  poly_mie_oracles 1 1 (dd1 0 4) (fun _ => [[1]]) (fun _ => [[]]) (fun _ => ([/ 4], [[1]])) (fun _ => [[/ 4]]) (fun _ => ([[2]], [2])) [[-1]; [3]].
Proof. exact turned_poly. Qed.
