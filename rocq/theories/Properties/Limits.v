(** C87: the moment relaxations become exact as the order grows. *)
From Verif Require Import Base.Vec Spec.Basic Spec.Objects Spec.Realizable Spec.Shapes Spec.ShapeObjects Spec.PolySpec Spec.Bodies
  Model.Util Model.Constraint Model.Inertial Model.Polydd Model.Poly Model.Ellipsoid Model.Box Model.Cylinder Model.Realize Model.RigidBody
  Proofs.SdpP Proofs.RealizeW Proofs.RigidW Proofs.SdpLimit Proofs.SdpLimitB Proofs.SdpLimitW Proofs.Feas.

(** * accepted at every order exactly if realizable *)
Theorem C87_box : forall h c r b v J eps,
  box_init h c r = Ok b -> orthogonal 3 (pose_rot 3 r) -> pv_value v J -> is_mat 4 4 J -> symmetric 4 J -> 0 <= eps ->
  ((forall d, (0 < d)%nat -> exists P, poly_moment_sdp_constraints (b_poly b) v eps d = Ok P /\ P) <-> realizable_J (box_set h (pose_rot 3 r) (pose_tr 3 c)) J).
Proof. exact box_all. Qed.
Print Assumptions C87_box.
Theorem C87_polyhedron : forall p v J eps,
  poly_agree 3 p -> faces_ok (p_A p) (p_b p) -> pv_value v J -> is_mat 4 4 J -> symmetric 4 J -> 0 <= eps ->
  ((forall d, (0 < d)%nat -> exists P, poly_moment_sdp_constraints p v eps d = Ok P /\ P) <-> realizable_J (halfspaces (p_A p) (p_b p)) J).
Proof. exact poly_all. Qed.
Print Assumptions C87_polyhedron.
Theorem C87_cylinder : forall L R ro co c v J eps,
  cyl_init L R ro co = Ok c -> orthogonal 3 (pose_rot 3 ro) -> pv_value v J -> is_mat 4 4 J -> symmetric 4 J -> 0 <= eps ->
  ((forall d, (0 < d)%nat -> exists P, cyl_moment_sdp_constraints c v eps d = Ok P /\ P) <-> realizable_J (cyl_set L R (pose_rot 3 ro) (pose_tr 3 co)) J).
Proof. exact cyl_all. Qed.
Print Assumptions C87_cylinder.
Theorem C87_body : forall ut b Ks v J,
  Forall2 shape_is (bd_shapes b) Ks -> (forall s, In s (bd_shapes b) -> shape_proper s) -> pv_value v J -> is_mat 4 4 J -> symmetric 4 J ->
  ((forall d, (0 < d)%nat -> exists P, rb_moment_sdp_constraints ut b v 0 d = Ok P /\ P) <-> realizable_J (union_of Ks) J).
Proof. exact body_all. Qed.
Print Assumptions C87_body.
(** * the feasibility problems: objective zero, feasible at every order exactly if realizable *)
Theorem C87_polyhedron_problem : forall p v J eps,
  poly_agree 3 p -> faces_ok (p_A p) (p_b p) -> pv_value v J -> is_mat 4 4 J -> symmetric 4 J -> 0 <= eps ->
  (forall d pb, poly_moment_sdp_feasibility_problem p v eps d = Ok pb -> pb_objective pb = 0) /\
  ((forall d, (0 < d)%nat -> exists pb, poly_moment_sdp_feasibility_problem p v eps d = Ok pb /\ pb_constraints pb) <->
   realizable_J (halfspaces (p_A p) (p_b p)) J).
Proof. exact poly_feasibility. Qed.
Print Assumptions C87_polyhedron_problem.
Theorem C87_cylinder_problem : forall L R ro co c v J eps,
  cyl_init L R ro co = Ok c -> orthogonal 3 (pose_rot 3 ro) -> pv_value v J -> is_mat 4 4 J -> symmetric 4 J -> 0 <= eps ->
  (forall d pb, cyl_moment_sdp_feasibility_problem c v eps d = Ok pb -> pb_objective pb = 0) /\
  ((forall d, (0 < d)%nat -> exists pb, cyl_moment_sdp_feasibility_problem c v eps d = Ok pb /\ pb_constraints pb) <->
   realizable_J (cyl_set L R (pose_rot 3 ro) (pose_tr 3 co)) J).
Proof. exact cyl_feasibility. Qed.
Print Assumptions C87_cylinder_problem.
(** * parameters that are not realizable are rejected from some order on *)
Theorem C87_box_detects : forall h c r b v J eps,
  box_init h c r = Ok b -> orthogonal 3 (pose_rot 3 r) -> pv_value v J -> is_mat 4 4 J -> symmetric 4 J -> 0 <= eps ->
  ~ realizable_J (box_set h (pose_rot 3 r) (pose_tr 3 c)) J -> exists D, forall d P, (D <= d)%nat -> (0 < d)%nat -> poly_moment_sdp_constraints (b_poly b) v eps d = Ok P -> ~ P.
Proof. exact box_detects. Qed.
Print Assumptions C87_box_detects.
Theorem C87_cylinder_detects : forall L R ro co c v J eps,
  cyl_init L R ro co = Ok c -> orthogonal 3 (pose_rot 3 ro) -> pv_value v J -> is_mat 4 4 J -> symmetric 4 J -> 0 <= eps ->
  ~ realizable_J (cyl_set L R (pose_rot 3 ro) (pose_tr 3 co)) J -> exists D, forall d P, (D <= d)%nat -> (0 < d)%nat -> cyl_moment_sdp_constraints c v eps d = Ok P -> ~ P.
Proof. exact cyl_detects. Qed.
Print Assumptions C87_cylinder_detects.
Theorem C87_body_detects : forall ut b Ks v J eps,
  Forall2 shape_is (bd_shapes b) Ks -> (forall s, In s (bd_shapes b) -> shape_proper s) -> pv_value v J -> is_mat 4 4 J -> symmetric 4 J -> 0 <= eps ->
  ~ realizable_J (union_of Ks) J -> exists D, forall d P, (D <= d)%nat -> (0 < d)%nat -> rb_moment_sdp_constraints ut b v eps d = Ok P -> ~ P.
Proof. exact body_detects. Qed.
Print Assumptions C87_body_detects.
(** * a higher order never accepts more *)
Theorem C87_box_monotone : forall h c r b v J eps,
  box_init h c r = Ok b -> orthogonal 3 (pose_rot 3 r) -> pv_value v J -> is_mat 4 4 J -> 0 <= eps ->
  forall d d' P, (0 < d <= d')%nat -> poly_moment_sdp_constraints (b_poly b) v eps d' = Ok P -> P -> exists P', poly_moment_sdp_constraints (b_poly b) v eps d = Ok P' /\ P'.
Proof. exact box_mono. Qed.
Print Assumptions C87_box_monotone.
Theorem C87_polyhedron_monotone : forall p v J eps,
  (forall a, In a (p_A p) -> length a = 3%nat) -> faces_ok (p_A p) (p_b p) -> pv_value v J -> is_mat 4 4 J -> 0 <= eps ->
  forall d d' P, (0 < d <= d')%nat -> poly_moment_sdp_constraints p v eps d' = Ok P -> P -> exists P', poly_moment_sdp_constraints p v eps d = Ok P' /\ P'.
Proof. exact poly_mono. Qed.
Print Assumptions C87_polyhedron_monotone.
Theorem C87_cylinder_monotone : forall c v J eps,
  pv_value v J -> is_mat 4 4 J -> 0 <= eps ->
  forall d d' P, (0 < d <= d')%nat -> cyl_moment_sdp_constraints c v eps d' = Ok P -> P -> exists P', cyl_moment_sdp_constraints c v eps d = Ok P' /\ P'.
Proof. exact cyl_mono. Qed.
Print Assumptions C87_cylinder_monotone.
Theorem C87_body_monotone : forall ut b Ks v J eps,
  Forall2 shape_is (bd_shapes b) Ks -> (forall s, In s (bd_shapes b) -> shape_proper s) ->
  pv_value v J -> is_mat 4 4 J -> 0 <= eps ->
  forall d d' P, (0 < d <= d')%nat -> rb_moment_sdp_constraints ut b v eps d' = Ok P -> P -> exists P', rb_moment_sdp_constraints ut b v eps d = Ok P' /\ P'.
Proof. exact body_mono. Qed.
Print Assumptions C87_body_monotone.
(** * accumulation points of parameters accepted at growing orders *)
Theorem C87_accumulation : forall ut b Ks J eps,
  Forall2 shape_is (bd_shapes b) Ks -> (forall s, In s (bd_shapes b) -> shape_proper s) -> is_mat 4 4 J -> symmetric 4 J -> 0 <= eps ->
  (forall e D, 0 < e -> exists d J' P, (D <= d)%nat /\ (0 < d)%nat /\ is_mat 4 4 J' /\ symmetric 4 J' /\
     (forall i j, (i < 4)%nat -> (j < 4)%nat -> Rabs (entry J' i j - entry J i j) <= e) /\ rb_moment_sdp_constraints ut b (PVmat J') eps d = Ok P /\ P) ->
  realizable_J (union_of Ks) J.
Proof. exact body_seq. Qed.
Print Assumptions C87_accumulation.
Theorem C87_order_matters : exists b J D, box_init [1; 1; 1] None None = Ok b /\ orthogonal 3 (pose_rot 3 None) /\ is_mat 4 4 J /\ symmetric 4 J /\ (2 < D)%nat /\
  (forall d, (0 < d <= 2)%nat -> exists P, poly_moment_sdp_constraints (b_poly b) (PVmat J) 0 d = Ok P /\ P) /\
  (forall d, (D <= d)%nat -> exists P, poly_moment_sdp_constraints (b_poly b) (PVmat J) 0 d = Ok P /\ ~ P).
Proof. exact order_matters. Qed.
Print Assumptions C87_order_matters.
Example C87_example : (exists b Ks, Forall2 shape_is (bd_shapes b) Ks /\ length (bd_shapes b) = 3%nat /\
  (forall s, In s (bd_shapes b) -> shape_proper s) /\ realizable_J (union_of Ks) (ip_J (bd_params b)) /\
  PSD 4 (msub (ip_J (bd_params b)) (mscale (1 / 20) (eye 4))) /\ is_mat 4 4 (ip_J (bd_params b))) /\
  (exists p J, poly_agree 3 p /\ faces_ok (p_A p) (p_b p) /\ is_mat 4 4 J /\ symmetric 4 J /\ realizable_J (halfspaces (p_A p) (p_b p)) J /\ entry J 3 3 = 1).
Proof. exact (conj sample_body limit_poly_case). Qed.
