(** C88: which quadratic test functions the vertex constraints, and the relaxations of all orders, check. *)
From Verif Require Import Base.Vec Spec.Basic Spec.Objects Spec.Realizable Spec.Shapes Spec.ShapeObjects Spec.PolySpec Spec.Bodies Spec.Quadratic
  Model.Util Model.Constraint Model.Inertial Model.Polydd Model.Poly Model.Ellipsoid Model.Box Model.Cylinder Model.Realize Model.RigidBody
  Proofs.SdpP Proofs.RealizeW Proofs.RigidW Proofs.SdpLimitW Proofs.DualBox Proofs.DualPoly.

(** * trace(S J) is the integral of the quadratic S over the masses *)
Theorem C88_integral : forall S J s,
  is_mat 4 4 S -> pms_ok s -> pim_of s J -> qint S J = lsum (map (fun mp => fst mp * qval S (snd mp)) s).
Proof. exact qint_pim. Qed.
Print Assumptions C88_integral.
(** * the vertex constraints of a polyhedron test exactly the convex quadratics *)
Theorem C88_polyhedron : forall p v J eps,
  poly_ok 3 p -> pv_value v J -> is_mat 4 4 J -> 0 <= eps ->
  exists P, poly_moment_vertex_constraints p v eps = Ok P /\
  (P <-> PSD 4 (msub J (mscale eps (eye 4))) /\
    forall S, is_mat 4 4 S -> symmetric 4 S -> (forall u, length u = 3%nat -> 0 <= qdir S u) -> (forall x, in_hull 3 (p_vertices p) x -> qval S x <= 0) -> qint S J <= 0).
Proof. exact poly_tests_exact. Qed.
Print Assumptions C88_polyhedron.
(** * the custom constraints of a box test exactly the quadratics convex along its axes *)
Theorem C88_box : forall h c r b v J eps,
  box_init h c r = Ok b -> orthogonal 3 (pose_rot 3 r) -> pv_value v J -> is_mat 4 4 J -> 0 <= eps ->
  exists P, box_moment_custom_vertex_constraints b v eps = Ok P /\
  (P <-> PSD 4 (msub J (mscale eps (eye 4))) /\
    forall S, is_mat 4 4 S -> symmetric 4 S -> (forall i, (i < 3)%nat -> 0 <= qdir S (col i (pose_rot 3 r))) ->
      (forall x, length x = 3%nat -> box_set h (pose_rot 3 r) (pose_tr 3 c) x -> qval S x <= 0) -> qint S J <= 0).
Proof. exact box_tests_exact. Qed.
Print Assumptions C88_box.
(** * realizable on a shape, and accepted at every order: exactly if all quadratics pass *)
Theorem C88_shape : forall s K J,
  shape_is s K -> is_mat 4 4 J -> symmetric 4 J ->
  (realizable_J K J <-> forall S, is_mat 4 4 S -> symmetric 4 S -> (forall x, length x = 3%nat -> K x -> qval S x <= 0) -> qint S J <= 0).
Proof. exact shape_tests. Qed.
Print Assumptions C88_shape.
Theorem C88_body : forall ut b Ks v J,
  Forall2 shape_is (bd_shapes b) Ks -> (forall s, In s (bd_shapes b) -> shape_proper s) -> pv_value v J -> is_mat 4 4 J -> symmetric 4 J ->
  ((forall d, (0 < d)%nat -> exists P, rb_moment_sdp_constraints ut b v 0 d = Ok P /\ P) <->
   forall S, is_mat 4 4 S -> symmetric 4 S -> (forall x, length x = 3%nat -> union_of Ks x -> qval S x <= 0) -> qint S J <= 0).
Proof. exact body_tests. Qed.
Print Assumptions C88_body.
(** * a rejection is always witnessed by a quadratic *)
Theorem C88_certificate : forall ut b Ks v J,
  Forall2 shape_is (bd_shapes b) Ks -> (forall s, In s (bd_shapes b) -> shape_proper s) -> pv_value v J -> is_mat 4 4 J -> symmetric 4 J ->
  (exists d P, (0 < d)%nat /\ rb_moment_sdp_constraints ut b v 0 d = Ok P /\ ~ P) ->
  exists S, is_mat 4 4 S /\ symmetric 4 S /\ (forall x, length x = 3%nat -> union_of Ks x -> qval S x <= 0) /\ 0 < qint S J.
Proof. exact body_certificate. Qed.
Print Assumptions C88_certificate.
(** * the custom constraints of a box miss quadratics that are concave along an axis *)
Theorem C88_box_gap : exists b J S, box_init [1; 1; 1] None None = Ok b /\ PSD 4 J /\ (exists P, box_moment_custom_vertex_constraints b (PVmat J) 0 = Ok P /\ P) /\
  is_mat 4 4 S /\ symmetric 4 S /\ (forall x, length x = 3%nat -> box_set [1; 1; 1] (pose_rot 3 None) (pose_tr 3 None) x -> qval S x <= 0) /\ 0 < qint S J /\
  exists i, (i < 3)%nat /\ qdir S (col i (pose_rot 3 None)) < 0.
Proof. exact box_tests_gap. Qed.
Print Assumptions C88_box_gap.
Example C88_example : (exists b, box_init [1; 1; 1] None None = Ok b /\ orthogonal 3 (pose_rot 3 None) /\ pv_value (PVmat J6) J6 /\ is_mat 4 4 J6 /\ PSD 4 (msub J6 (mscale (1 / 20) (eye 4)))) /\
  (exists p J, poly_agree 3 p /\ faces_ok (p_A p) (p_b p) /\ is_mat 4 4 J /\ symmetric 4 J /\ realizable_J (halfspaces (p_A p) (p_b p)) J /\ entry J 3 3 = 1) /\
  (exists b Ks, Forall2 shape_is (bd_shapes b) Ks /\ length (bd_shapes b) = 3%nat /\ (forall s, In s (bd_shapes b) -> shape_proper s) /\ realizable_J (union_of Ks) (ip_J (bd_params b)) /\
    PSD 4 (msub (ip_J (bd_params b)) (mscale (1 / 20) (eye 4))) /\ is_mat 4 4 (ip_J (bd_params b))).
Proof.
  split; [|split; [exact limit_poly_case|exact sample_body]]. destruct s6_shapes as (H1 & (b & Hb) & _). exists b. split; [exact Hb|]. split; [exact H1|]. split; [exact eq_refl|]. split; [exact J6_mat|exact J6_margin].
Qed.
