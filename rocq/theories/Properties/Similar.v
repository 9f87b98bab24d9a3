(** Property C112: extremal ellipsoids move and scale with the points (src/rigeo/shape/ellipsoid.py:670-758, poly.py:188-204). *)
From Verif Require Import Base.Vec Base.Ext Model.Util Model.Polydd Model.Constraint Model.Ellipsoid Model.Poly Model.Extremal
  Spec.Basic Spec.Shapes Spec.ShapeObjects Spec.DoubleDesc Spec.PolySpec Spec.ExtremalSpec Spec.John
  Proofs.JohnEx Proofs.OracleP Proofs.SimilarP.

(** mbe_of_points of the points s Q p + t is the image of mbe_of_points of the points p *)
Theorem C112_mbe_of_points : forall d s Q t points k1 orth1 null1 eigh1 lstsq1 solver1 k2 orth2 null2 eigh2 lstsq2 solver2,
  (0 < d)%nat -> 0 < s -> orthogonal d Q -> length t = d -> (forall x, In x points -> length x = d) ->
  mbe_oracles d k1 orth1 null1 eigh1 lstsq1 solver1 points ->
  mbe_oracles d k2 orth2 null2 eigh2 lstsq2 solver2 (map (fun p => move Q t (vscale s p)) points) ->
  exists e1 e2, mbe_of_points orth1 null1 eigh1 lstsq1 solver1 points = Ok e1 /\
    mbe_of_points orth2 null2 eigh2 lstsq2 solver2 (map (fun p => move Q t (vscale s p)) points) = Ok e2 /\
    forall x, length x = d -> (ell_set (e_half e2) (e_rot e2) (e_center e2) (move Q t (vscale s x)) <-> ell_set (e_half e1) (e_rot e1) (e_center e1) x).
Proof. exact mbe_similar_all. Qed.
Print Assumptions C112_mbe_of_points.
Example C112_mbe_of_points_example : orthogonal 2 [[0; -1]; [1; 0]] /\
  map (fun p => move [[0; -1]; [1; 0]] [1; 0] (vscale 2 p)) [[0; 0]; [1; 1]; [2; 2]] = [[1; 0]; [-1; 2]; [-3; 4]] /\
  (exists k orth null_space eigh lstsq solver, mbe_oracles 2 k orth null_space eigh lstsq solver [[0; 0]; [1; 1]; [2; 2]]) /\
  exists k orth null_space eigh lstsq solver, mbe_oracles 2 k orth null_space eigh lstsq solver [[1; 0]; [-1; 2]; [-3; 4]].
Proof. exact similar_premises. Qed.
(** ConvexPolyhedron.mbe of the moved and scaled polyhedron, whatever its list of vertices *)
Theorem C112_poly_mbe : forall d s Q t p1 p2 k1 orth1 null1 eigh1 lstsq1 solver1 k2 orth2 null2 eigh2 lstsq2 solver2,
  (0 < d)%nat -> 0 < s -> orthogonal d Q -> length t = d -> (forall x, In x (p_vertices p1) -> length x = d) -> (forall x, In x (p_vertices p2) -> length x = d) ->
  (forall x, in_hull d (p_vertices p2) x <-> in_hull d (map (fun p => move Q t (vscale s p)) (p_vertices p1)) x) ->
  mbe_oracles d k1 orth1 null1 eigh1 lstsq1 solver1 (p_vertices p1) -> mbe_oracles d k2 orth2 null2 eigh2 lstsq2 solver2 (p_vertices p2) ->
  exists e1 e2, poly_mbe orth1 null1 eigh1 lstsq1 solver1 p1 = Ok e1 /\ poly_mbe orth2 null2 eigh2 lstsq2 solver2 p2 = Ok e2 /\
    forall x, length x = d -> (ell_set (e_half e2) (e_rot e2) (e_center e2) (move Q t (vscale s x)) <-> ell_set (e_half e1) (e_rot e1) (e_center e1) x).
Proof. exact poly_mbe_similar. Qed.
Print Assumptions C112_poly_mbe.
(** mie_inequality_form of the moved and scaled set, whatever the inequalities describing it; a sphere may be displaced *)
Theorem C112_mie_inequality_form : forall n s Q t A1 b1 A2 b2 sphere eigh1 inv1 solver1 eigh2 inv2 solver2,
  (0 < n)%nat -> 0 < s -> orthogonal n Q -> length t = n -> (0 < length b1)%nat -> (0 < length b2)%nat -> is_mat (length b1) n A1 -> is_mat (length b2) n A2 ->
  (forall x, length x = n -> (halfspaces A2 b2 (move Q t (vscale s x)) <-> halfspaces A1 b1 x)) ->
  mie_oracles n eigh1 inv1 solver1 A1 b1 sphere -> mie_oracles n eigh2 inv2 solver2 A2 b2 sphere ->
  exists e1 e2, mie_inequality_form eigh1 inv1 solver1 A1 b1 sphere = Ok e1 /\ mie_inequality_form eigh2 inv2 solver2 A2 b2 sphere = Ok e2 /\
    exists u, length u = n /\ (forall x, length x = n -> (ell_set (e_half e2) (e_rot e2) (e_center e2) (vadd (move Q t (vscale s x)) u) <-> ell_set (e_half e1) (e_rot e1) (e_center e1) x)) /\
      (sphere = false -> u = zeros n).
Proof. exact mie_similar. Qed.
Print Assumptions C112_mie_inequality_form.
Example C112_mie_inequality_form_example : orthogonal 1 [[-1]] /\
  (forall x, length x = 1%nat -> (halfspaces [[1]; [-1]] [5; -3] (move [[-1]] [4] (vscale 1 x)) <-> halfspaces [[1]; [-1]] [1; 1] x)) /\
  mie_oracles 1 (fun _ => ([1], [[1]])) (fun _ => [[1]]) (fun _ => ([[1]], [0])) [[1]; [-1]] [1; 1] false /\
  mie_oracles 1 (fun _ => ([1], [[1]])) (fun _ => [[1]]) (fun _ => ([[1]], [4])) [[1]; [-1]] [5; -3] false.
Proof. exact similar_interval. Qed.
