(** C81: the relaxations are necessary but not sufficient.  C82: the custom constraints of a cylinder are exact. *)
From Verif Require Import Base.Vec Spec.Basic Spec.Objects Spec.Realizable Spec.Shapes Spec.ShapeObjects Spec.PolySpec Spec.Bodies
  Spec.ExtremalSpec Spec.Geodesic Spec.Identify
  Model.Util Model.Constraint Model.Inertial Model.Polydd Model.Poly Model.Ellipsoid Model.Box Model.Cylinder Model.Realize Model.RigidBody Model.Identify
  Spec.Samples Proofs.SdpGap Proofs.SdpGapW Proofs.CylExact Proofs.CylExactW.

(** * C81: accepted but not realizable *)
Theorem C81_box_sdp_refuted : exists b J, box_init [1; 1; 1] None None = Ok b /\ is_mat 4 4 J /\ symmetric 4 J /\
  (exists P, poly_moment_sdp_constraints (b_poly b) (PVmat J) 0 2 = Ok P /\ P) /\ ~ realizable_J (box_set [1; 1; 1] (pose_rot 3 None) (pose_tr 3 None)) J.
Proof. exact box_sdp_refuted. Qed.
Print Assumptions C81_box_sdp_refuted.
Theorem C81_cylinder_sdp_refuted : exists c J, cyl_init 2 1 None None = Ok c /\ is_mat 4 4 J /\ symmetric 4 J /\
  (exists P, cyl_moment_sdp_constraints c (PVmat J) 0 2 = Ok P /\ P) /\ ~ realizable_J (cyl_set 2 1 (pose_rot 3 None) (pose_tr 3 None)) J.
Proof. exact cyl_sdp_refuted. Qed.
Print Assumptions C81_cylinder_sdp_refuted.
Theorem C81_box_vertex_refuted : exists b J, box_init [1; 1; 1] None None = Ok b /\ PSD 4 J /\
  (exists P, box_moment_custom_vertex_constraints b (PVmat J) 0 = Ok P /\ P) /\ (exists P, poly_moment_vertex_constraints (b_poly b) (PVmat J) 0 = Ok P /\ P) /\
  ~ realizable_J (box_set [1; 1; 1] (pose_rot 3 None) (pose_tr 3 None)) J.
Proof. exact box_custom_refuted. Qed.
Print Assumptions C81_box_vertex_refuted.
Theorem C81_identification_refuted : forall ut log_det inv, exists solver P b p, id_init inv (id_As P) (id_bs P) None 0 0 = Ok P /\
  data_ok 10 10 (id_As P) (id_bs P) /\ determining 10 (id_As P) /\
  let body := {| bd_shapes := [SBox b]; bd_params := p |} in
  box_init [1; 1; 1] None None = Ok b /\
  solved solver (id_cost log_det inv P [body]) (id_feasible ut P [body] true None) /\
  id_solve ut log_det inv solver P [body] true None = Ok [p] /\
  ~ realizable_J (box_set [1; 1; 1] (pose_rot 3 None) (pose_tr 3 None)) (ip_J p).
Proof. exact identification_refuted. Qed.
Print Assumptions C81_identification_refuted.

(** * C82: the custom constraints of a cylinder, and of a flat box, are exact *)
Theorem C82_cylinder : forall L R ro co c ut v J,
  cyl_init L R ro co = Ok c -> orthogonal 3 (pose_rot 3 ro) -> (R = 0 \/ / 100000000 < R) -> pv_value v J -> is_mat 4 4 J ->
  exists P, cyl_moment_custom_vertex_constraints ut c v 0 = Ok P /\ (P <-> realizable_J (cyl_set L R (pose_rot 3 ro) (pose_tr 3 co)) J).
Proof. exact cyl_custom_exact. Qed.
Print Assumptions C82_cylinder.
Theorem C82_flat_box : forall h c r b v J,
  box_init h c r = Ok b -> orthogonal 3 (pose_rot 3 r) -> pv_value v J -> is_mat 4 4 J -> In 0 h ->
  exists P, box_moment_custom_vertex_constraints b v 0 = Ok P /\ (P <-> realizable_J (box_set h (pose_rot 3 r) (pose_tr 3 c)) J).
Proof. exact box_flat_exact. Qed.
Print Assumptions C82_flat_box.
Theorem C82_stricter : exists c J, cyl_init 2 1 None None = Ok c /\ is_mat 4 4 J /\
  (exists P, cyl_moment_sdp_constraints c (PVmat J) 0 2 = Ok P /\ P) /\ forall ut P, cyl_moment_custom_vertex_constraints ut c (PVmat J) 0 = Ok P -> ~ P.
Proof. exact cyl_custom_stricter. Qed.
Print Assumptions C82_stricter.
Example C82_example : (exists c J, cyl_init 2 1 (Some Q0) (Some t0) = Ok c /\ orthogonal 3 Q0 /\ is_mat 4 4 J /\ realizable_J (cyl_set 2 1 Q0 t0) J /\ entry J 3 3 = 3) /\
  (exists b J, box_init [1; 2; 0] (Some t0) (Some Q0) = Ok b /\ is_mat 4 4 J /\ realizable_J (box_set [1; 2; 0] Q0 t0) J /\ entry J 3 3 = 3).
Proof. exact exact_case. Qed.
