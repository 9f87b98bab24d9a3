(** Properties C46-C52: realizability tests and constraints of the shapes
    (src/rigeo/shape/ellipsoid.py, poly.py, box.py, cylinder.py).

    A parameter variable [v] has the value [J]: [pv_value v J].  A call that returns constraints is
    [Ok P], where P says that the constraints can be satisfied for this value. *)
From Verif Require Import Base.Vec Base.VecFacts Spec.Basic Spec.Objects Spec.Samples Spec.Realizable Spec.Shapes Spec.ShapeObjects Spec.PolySpec
  Model.Util Model.Constraint Model.Inertial Model.Polydd Model.Poly Model.Ellipsoid Model.Box Model.Cylinder Model.Realize
  Proofs.Coord Proofs.InertialP Proofs.BoxP Proofs.ShapesW Proofs.CylP Proofs.PolyP Proofs.RealizeP Proofs.RealizeE Proofs.RealizeX Proofs.SdpP Proofs.VertexP Proofs.CylCustom Proofs.SdpSound
  Proofs.RealizeW Proofs.RefutedP.

(** * C46 *)
Theorem C46_polyhedron : forall p v J eps d,
  p_dim p = 3%nat -> (forall a, In a (p_A p) -> length a = 3%nat) -> faces_ok (p_A p) (p_b p) ->
  pv_value v J -> is_mat 4 4 J -> 0 <= eps -> (0 < d)%nat ->
  exists P, poly_moment_sdp_constraints p v eps d = Ok P /\ (realizable_J (halfspaces (p_A p) (p_b p)) J -> P).
Proof. exact poly_sdp. Qed.
Print Assumptions C46_polyhedron.
Theorem C46_box : forall h c r b v J eps d,
  box_init h c r = Ok b -> orthogonal 3 (pose_rot 3 r) -> pv_value v J -> is_mat 4 4 J -> 0 <= eps -> (0 < d)%nat ->
  exists P, poly_moment_sdp_constraints (b_poly b) v eps d = Ok P /\ (realizable_J (box_set h (pose_rot 3 r) (pose_tr 3 c)) J -> P).
Proof. exact box_sdp. Qed.
Print Assumptions C46_box.
Theorem C46_cylinder : forall L R ro co c v J eps d,
  cyl_init L R ro co = Ok c -> orthogonal 3 (pose_rot 3 ro) -> pv_value v J -> is_mat 4 4 J -> 0 <= eps -> (0 < d)%nat ->
  exists P, cyl_moment_sdp_constraints c v eps d = Ok P /\ (realizable_J (cyl_set L R (pose_rot 3 ro) (pose_tr 3 co)) J -> P).
Proof. exact cyl_sdp. Qed.
Print Assumptions C46_cylinder.
(** the constraints are not void: they force the centre of mass into the shape *)
Theorem C46_polyhedron_centre : forall p v J eps d P,
  (forall a, In a (p_A p) -> length a = 3%nat) -> length (p_A p) = length (p_b p) ->
  pv_value v J -> is_mat 4 4 J -> symmetric 4 J -> 0 <= eps -> (0 < d)%nat -> poly_moment_sdp_constraints p v eps d = Ok P -> P ->
  PSD 4 J /\ (0 < entry J 3 3 -> halfspaces (p_A p) (p_b p) (com_J J)).
Proof. exact poly_sdp_sound. Qed.
Print Assumptions C46_polyhedron_centre.
Theorem C46_box_centre : forall h c r b v J eps d P,
  box_init h c r = Ok b -> orthogonal 3 (pose_rot 3 r) -> pv_value v J -> is_mat 4 4 J -> symmetric 4 J -> 0 <= eps -> (0 < d)%nat ->
  poly_moment_sdp_constraints (b_poly b) v eps d = Ok P -> P ->
  PSD 4 J /\ (0 < entry J 3 3 -> box_set h (pose_rot 3 r) (pose_tr 3 c) (com_J J)).
Proof. exact box_sdp_sound. Qed.
Print Assumptions C46_box_centre.
Theorem C46_cylinder_centre : forall L R ro co c v J eps d P,
  cyl_init L R ro co = Ok c -> orthogonal 3 (pose_rot 3 ro) -> pv_value v J -> is_mat 4 4 J -> symmetric 4 J -> 0 <= eps -> (0 < d)%nat ->
  cyl_moment_sdp_constraints c v eps d = Ok P -> P ->
  PSD 4 J /\ (0 < entry J 3 3 -> cyl_set L R (pose_rot 3 ro) (pose_tr 3 co) (com_J J)).
Proof. exact cyl_sdp_sound. Qed.
Print Assumptions C46_cylinder_centre.
(** calls that raise: a face 0 <= 0 has the zero polynomial; relaxation order zero *)
Theorem C46_trivial_face : forall p v J eps d i,
  p_dim p = 3%nat -> (forall a, In a (p_A p) -> length a = 3%nat) -> length (p_A p) = length (p_b p) ->
  (i < length (p_A p))%nat -> nth i (p_A p) [] = zeros 3 -> nth i (p_b p) 0 = 0 -> pv_value v J -> is_mat 4 4 J -> 0 <= eps -> (0 < d)%nat ->
  poly_moment_sdp_constraints p v eps d = Raise ValueError.
Proof. exact poly_trivial_face. Qed.
Print Assumptions C46_trivial_face.
Theorem C46_order_zero : forall L R ro co c v J eps,
  cyl_init L R ro co = Ok c -> pv_value v J -> is_mat 4 4 J -> 0 <= eps ->
  cyl_moment_sdp_constraints c v eps 0 = Raise ValueError.
Proof. exact cyl_order_zero. Qed.
Print Assumptions C46_order_zero.
Example C46_example : orthogonal 3 (pose_rot 3 None) /\ (exists b, box_init [1; 1; 1] None None = Ok b) /\ (exists c, cyl_init 2 1 None None = Ok c) /\
  pv_value (PVmat J6) J6 /\ is_mat 4 4 J6 /\ symmetric 4 J6 /\ 0 < entry J6 3 3 /\
  realizable_J (box_set [1; 1; 1] (pose_rot 3 None) (pose_tr 3 None)) J6 /\ realizable_J (cyl_set 2 1 (pose_rot 3 None) (pose_tr 3 None)) J6.
Proof.
  destruct s6_shapes as (H1 & H2 & H3 & _). repeat (split; [assumption || exact eq_refl || exact J6_mat || exact J6_sym|]).
  split; [unfold J6, diag; cbn; lra|]. split; [exact s6_box|exact s6_cyl].
Qed.
Example C46_example_polyhedron : exists b, box_init [1; 1; 1] None None = Ok b /\ p_dim (b_poly b) = 3%nat /\
  (forall a, In a (p_A (b_poly b)) -> length a = 3%nat) /\ faces_ok (p_A (b_poly b)) (p_b (b_poly b)) /\ realizable_J (halfspaces (p_A (b_poly b)) (p_b (b_poly b))) J6.
Proof.
  destruct s6_shapes as (H1 & (b & Hb) & _). exists b. destruct (box_faces [1; 1; 1] None None b Hb H1) as (F1 & F2 & F3 & _). repeat (split; [assumption|]).
  eapply realizable_mono; [|exact s6_box]. intros p Lp Hp. now apply (halfspaces_box [1; 1; 1] None None b).
Qed.

(** * C47 *)
Theorem C47_vertex_constraints : forall p v J eps,
  poly_ok 3 p -> pv_value v J -> is_mat 4 4 J -> 0 <= eps ->
  exists P, poly_moment_vertex_constraints p v eps = Ok P /\ (P -> PSD 4 (msub J (mscale eps (eye 4)))) /\
  (realizable_J (in_hull 3 (p_vertices p)) J -> PSD 4 (msub J (mscale eps (eye 4))) -> P).
Proof. exact poly_vertex. Qed.
Print Assumptions C47_vertex_constraints.
(** the constraints force the centre of mass into the hull, and bound the second moments *)
Theorem C47_bounds : forall p v J eps P,
  poly_ok 3 p -> pv_value v J -> is_mat 4 4 J -> 0 <= eps -> poly_moment_vertex_constraints p v eps = Ok P -> P ->
  (0 < entry J 3 3 -> in_hull 3 (p_vertices p) (com_J J)) /\
  (forall x B, length x = 3%nat -> (forall u, In u (p_vertices p) -> Rabs (dot x u) <= B) -> second_J J x <= B * B * entry J 3 3).
Proof. exact vertex_sound. Qed.
Print Assumptions C47_bounds.
Example C47_example : exists b, box_init [1; 1; 1] None None = Ok b /\ poly_ok 3 (b_poly b) /\ pv_value (PVmat J6) J6 /\ is_mat 4 4 J6 /\
  realizable_J (in_hull 3 (p_vertices (b_poly b))) J6 /\ PSD 4 (msub J6 (mscale (1 / 20) (eye 4))).
Proof.
  destruct s6_shapes as (H1 & (b & Hb) & _). exists b. split; [exact Hb|]. pose proof (box_agree [1; 1; 1] None None b Hb H1) as A. split; [exact (proj1 A)|].
  split; [exact eq_refl|]. split; [exact J6_mat|]. split; [|exact J6_margin]. eapply realizable_mono; [|exact s6_box]. intros p Lp Hp.
  apply (proj1 (proj2 A p Lp)). now apply (halfspaces_box [1; 1; 1] None None b).
Qed.

(** * C48 *)
Theorem C48_custom_box : forall h c r b v J eps,
  box_init h c r = Ok b -> orthogonal 3 (pose_rot 3 r) -> pv_value v J -> is_mat 4 4 J -> 0 <= eps ->
  exists P, box_moment_custom_vertex_constraints b v eps = Ok P /\ (P -> PSD 4 (msub J (mscale eps (eye 4)))) /\
  (realizable_J (box_set h (pose_rot 3 r) (pose_tr 3 c)) J -> PSD 4 (msub J (mscale eps (eye 4))) -> P) /\
  (P -> exists P', poly_moment_vertex_constraints (b_poly b) v eps = Ok P' /\ P').
Proof. exact box_custom. Qed.
Print Assumptions C48_custom_box.
Example C48_example : exists b, box_init [1; 1; 1] None None = Ok b /\ orthogonal 3 (pose_rot 3 None) /\ is_mat 4 4 J6 /\
  realizable_J (box_set [1; 1; 1] (pose_rot 3 None) (pose_tr 3 None)) J6 /\ PSD 4 (msub J6 (mscale (1 / 20) (eye 4))).
Proof. destruct s6_shapes as (H1 & (b & Hb) & _). exists b. split; [exact Hb|]. split; [exact H1|]. split; [exact J6_mat|]. split; [exact s6_box|exact J6_margin]. Qed.

(** * C49 *)
Theorem C49_custom_cylinder : forall L R ro co c ut v J,
  cyl_init L R ro co = Ok c -> orthogonal 3 (pose_rot 3 ro) -> (R = 0 \/ / 100000000 < R) -> pv_value v J -> is_mat 4 4 J ->
  realizable_J (cyl_set L R (pose_rot 3 ro) (pose_tr 3 co)) J -> exists P, cyl_moment_custom_vertex_constraints ut c v 0 = Ok P /\ P.
Proof. exact cyl_custom. Qed.
Print Assumptions C49_custom_cylinder.
Theorem C49_defined : forall L R ro co c ut v J eps,
  cyl_init L R ro co = Ok c -> (R = 0 \/ / 100000000 < R) -> pv_value v J -> is_mat 4 4 J -> 0 <= eps ->
  exists P, cyl_moment_custom_vertex_constraints ut c v eps = Ok P /\ (P -> PSD 4 (msub J (mscale eps (eye 4)))) /\ (P -> eps = 0).
Proof. exact cyl_custom_ok. Qed.
Print Assumptions C49_defined.
Theorem C49_bounds : forall L R ro co c ut v J P,
  cyl_init L R ro co = Ok c -> orthogonal 3 (pose_rot 3 ro) -> (R = 0 \/ / 100000000 < R) -> pv_value v J -> is_mat 4 4 J ->
  cyl_moment_custom_vertex_constraints ut c v 0 = Ok P -> P ->
  (0 < entry J 3 3 -> cyl_set L R (pose_rot 3 ro) (pose_tr 3 co) (com_J J)) /\
  quad J (col 2 (pose_rot 3 ro) ++ [- dot (col 2 (pose_rot 3 ro)) (pose_tr 3 co)]) <= L / 2 * (L / 2) * entry J 3 3.
Proof. exact cyl_custom_sound. Qed.
Print Assumptions C49_bounds.
(** a radius in (0, 1e-8]: the call raises *)
Theorem C49_thin : forall L R ro co c v J eps,
  cyl_init L R ro co = Ok c -> 0 < R <= / 100000000 -> pv_value v J -> is_mat 4 4 J -> 0 <= eps ->
  cyl_moment_custom_vertex_constraints false c v eps = Raise ValueError.
Proof. exact cyl_custom_thin. Qed.
Print Assumptions C49_thin.
Example C49_example : orthogonal 3 (pose_rot 3 None) /\ (exists c, cyl_init 2 1 None None = Ok c) /\ / 100000000 < 1 /\ pv_value (PVmat J6) J6 /\ is_mat 4 4 J6 /\
  realizable_J (cyl_set 2 1 (pose_rot 3 None) (pose_tr 3 None)) J6.
Proof. destruct s6_shapes as (H1 & _ & H3 & _). split; [exact H1|]. split; [exact H3|]. split; [lra|]. split; [exact eq_refl|]. split; [exact J6_mat|exact s6_cyl]. Qed.
Example C49_example_thin : exists c, cyl_init 2 (/ 1000000000) None None = Ok c /\ 0 < / 1000000000 <= / 100000000.
Proof. destruct (cyl_w_total 2 (/ 1000000000) None None) as (c & H); try lra; [apply is_mat_eye|reflexivity|]. exists c. split; [exact H|lra]. Qed.

(** * C50 *)
Theorem C50_test : forall h r c e eigvals p,
  ell_init h r c = Ok e -> length h = 3%nat ->
  orthogonal 3 (pose_rot 3 r) -> fat h -> ip_ok p -> symmetric 3 (ip_H p) ->
  eigvals_spec 4 (ip_J p) (eigvals (ip_J p)) ->
  exists b, ell_can_realize eigvals e p 0 = Ok b /\
    (b = true <-> realizable (ell_set h (pose_rot 3 r) (pose_tr 3 c)) (ip_mass p) (ip_h p) (ip_H p)).
Proof. exact ell_x_test0. Qed.
Print Assumptions C50_test.
Theorem C50_constraints : forall h r c e ut v J,
  ell_init h r c = Ok e -> length h = 3%nat ->
  orthogonal 3 (pose_rot 3 r) -> proper_half h -> pv_value v J -> is_mat 4 4 J ->
  exists P, ell_moment_constraints ut e v 0 = Ok P /\ (P <-> realizable_J (ell_set h (pose_rot 3 r) (pose_tr 3 c)) J).
Proof. exact ell_x_constraints0. Qed.
Print Assumptions C50_constraints.
Theorem C50_test_margin : forall h r c e eigvals p eps,
  ell_init h r c = Ok e -> length h = 3%nat ->
  orthogonal 3 (pose_rot 3 r) -> fat h -> ip_ok p -> symmetric 3 (ip_H p) ->
  eigvals_spec 4 (ip_J p) (eigvals (ip_J p)) -> 0 <= eps ->
  exists b, ell_can_realize eigvals e p eps = Ok b /\
    (b = true <-> PSD 4 (msub (ip_J p) (mscale eps (eye 4))) /\ realizable (ell_set h (pose_rot 3 r) (pose_tr 3 c)) (ip_mass p) (ip_h p) (ip_H p)).
Proof. exact ell_x_test. Qed.
Print Assumptions C50_test_margin.
(** half extents in (0, 1e-8] *)
Theorem C50_thin_test : forall h r c e eigvals p eps,
  ell_init h r c = Ok e -> length h = 3%nat ->
  (forall i, (i < 3)%nat -> 0 < nth i h 0) -> (exists i, (i < 3)%nat /\ nth i h 0 <= / 100000000) ->
  ip_ok p -> symmetric 3 (ip_H p) -> eigvals_spec 4 (ip_J p) (eigvals (ip_J p)) -> PSD 4 (msub (ip_J p) (mscale eps (eye 4))) ->
  ell_can_realize eigvals e p eps = Raise AssertionError.
Proof. exact ell_x_thin. Qed.
Print Assumptions C50_thin_test.
Theorem C50_thin_constraints : forall h r c e ut v J eps,
  ell_init h r c = Ok e -> length h = 3%nat ->
  (forall i, (i < 3)%nat -> 0 < nth i h 0) -> (exists i, (i < 3)%nat /\ nth i h 0 <= / 100000000) ->
  pv_value v J -> is_mat 4 4 J -> 0 <= eps -> ell_moment_constraints ut e v eps = NonFinite.
Proof. exact ell_x_thin_constraints. Qed.
Print Assumptions C50_thin_constraints.
Example C50_example : exists e, ell_init [1; 1; 1] None None = Ok e /\ orthogonal 3 (pose_rot 3 None) /\ fat [1; 1; 1] /\ is_mat 4 4 J6 /\
  realizable_J (ell_set [1; 1; 1] (pose_rot 3 None) (pose_tr 3 None)) J6.
Proof.
  destruct s6_shapes as (H1 & _ & _ & (e & He)). exists e. split; [exact He|]. split; [exact H1|]. split; [|split; [exact J6_mat|exact s6_ball]].
  intros [|[|[|i]]] Hi; cbn in *; try lra; lia.
Qed.

(** * C51 *)
Theorem C51_test : forall h r c e eigvals p,
  ell_init h r c = Ok e -> length h = 3%nat ->
  orthogonal 3 (pose_rot 3 r) -> proper_half h -> ip_ok p -> symmetric 3 (ip_H p) ->
  eigvals_spec 4 (ip_J p) (eigvals (ip_J p)) ->
  realizable (ell_set h (pose_rot 3 r) (pose_tr 3 c)) (ip_mass p) (ip_h p) (ip_H p) -> ell_can_realize eigvals e p 0 = Ok true.
Proof. exact ell_x_test_degenerate0. Qed.
Print Assumptions C51_test.
Theorem C51_constraints : forall h r c e ut v J,
  ell_init h r c = Ok e -> length h = 3%nat ->
  orthogonal 3 (pose_rot 3 r) -> proper_half h -> pv_value v J -> is_mat 4 4 J ->
  exists P, ell_moment_constraints ut e v 0 = Ok P /\ (P <-> realizable_J (ell_set h (pose_rot 3 r) (pose_tr 3 c)) J).
Proof. exact ell_x_constraints0. Qed.
Print Assumptions C51_constraints.
(** an exact zero together with a half extent in (0, 1e-8] *)
Theorem C51_mixed : forall h r c e v J eps,
  ell_init h r c = Ok e -> length h = 3%nat ->
  (exists i, (i < 3)%nat /\ nth i h 0 = 0) -> (exists i, (i < 3)%nat /\ 0 < nth i h 0 <= / 100000000) ->
  pv_value v J -> is_mat 4 4 J -> 0 <= eps -> ell_moment_constraints false e v eps = Raise ValueError.
Proof. exact ell_x_mixed. Qed.
Print Assumptions C51_mixed.
(** the test accepts parameters that are 1e-9 off the plane of the disk *)
Theorem C51_test_exact_refuted : exists e, ell_init [1; 1; 0] None None = Ok e /\ ip_ok disk_params /\ symmetric 3 (ip_H disk_params) /\
  exists eigvals, eigvals_spec 4 (ip_J disk_params) (eigvals (ip_J disk_params)) /\ ell_can_realize eigvals e disk_params 0 = Ok true /\
  ~ realizable (ell_set [1; 1; 0] (eye 3) (zeros 3)) (ip_mass disk_params) (ip_h disk_params) (ip_H disk_params).
Proof. exact ell_disk_tolerance. Qed.
Print Assumptions C51_test_exact_refuted.
Example C51_example : exists e, ell_init [1; 2; 0] (Some Q0) (Some t0) = Ok e /\ orthogonal 3 (pose_rot 3 (Some Q0)) /\ proper_half [1; 2; 0].
Proof. destruct ell_example as (e & H1 & H2 & H3 & _). exists e. auto. Qed.

(** * C52 *)
Theorem C52_ellipsoid : forall h r c e ut v J eps,
  ell_init h r c = Ok e -> length h = 3%nat ->
  orthogonal 3 (pose_rot 3 r) -> proper_half h -> pv_value v J -> is_mat 4 4 J -> 0 <= eps ->
  exists P, ell_moment_constraints ut e v eps = Ok P /\
    (P <-> PSD 4 (msub J (mscale eps (eye 4))) /\ realizable_J (ell_set h (pose_rot 3 r) (pose_tr 3 c)) J).
Proof. exact ell_x_constraints. Qed.
Print Assumptions C52_ellipsoid.
Theorem C52_vertex : forall p v J eps,
  poly_ok 3 p -> pv_value v J -> is_mat 4 4 J -> 0 <= eps ->
  exists P, poly_moment_vertex_constraints p v eps = Ok P /\ (P -> PSD 4 (msub J (mscale eps (eye 4)))) /\
  (realizable_J (in_hull 3 (p_vertices p)) J -> PSD 4 (msub J (mscale eps (eye 4))) -> P).
Proof. exact poly_vertex. Qed.
Print Assumptions C52_vertex.
Theorem C52_box_custom : forall h c r b v J eps,
  box_init h c r = Ok b -> orthogonal 3 (pose_rot 3 r) -> pv_value v J -> is_mat 4 4 J -> 0 <= eps ->
  exists P, box_moment_custom_vertex_constraints b v eps = Ok P /\ (P -> PSD 4 (msub J (mscale eps (eye 4)))) /\
  (realizable_J (box_set h (pose_rot 3 r) (pose_tr 3 c)) J -> PSD 4 (msub J (mscale eps (eye 4))) -> P) /\
  (P -> exists P', poly_moment_vertex_constraints (b_poly b) v eps = Ok P' /\ P').
Proof. exact box_custom. Qed.
Print Assumptions C52_box_custom.
(** the moment relaxations ignore the margin *)
Theorem C52_polyhedron_sdp_margin_dropped : forall p x eps d,
  p_dim p = 3%nat -> (forall a, In a (p_A p) -> length a = 3%nat) -> faces_ok (p_A p) (p_b p) ->
  length x = 3%nat -> halfspaces (p_A p) (p_b p) x -> 0 < eps -> (0 < d)%nat ->
  exists J P, is_mat 4 4 J /\ poly_moment_sdp_constraints p (PVmat J) eps d = Ok P /\ P /\ 0 < entry J 3 3 /\ ~ PSD 4 (msub J (mscale eps (eye 4))).
Proof. exact poly_sdp_eps. Qed.
Print Assumptions C52_polyhedron_sdp_margin_dropped.
Theorem C52_polyhedron_sdp_refuted : exists p J P, poly_agree 3 p /\ is_mat 4 4 J /\ poly_moment_sdp_constraints p (PVmat J) 1 2 = Ok P /\ P /\ ~ PSD 4 (msub J (mscale 1 (eye 4))).
Proof. exact poly_sdp_w. Qed.
Print Assumptions C52_polyhedron_sdp_refuted.
Theorem C52_box_sdp_margin_dropped : forall h c r b eps d,
  box_init h c r = Ok b -> orthogonal 3 (pose_rot 3 r) -> 0 < eps -> (0 < d)%nat ->
  exists J P, is_mat 4 4 J /\ poly_moment_sdp_constraints (b_poly b) (PVmat J) eps d = Ok P /\ P /\ 0 < entry J 3 3 /\ ~ PSD 4 (msub J (mscale eps (eye 4))).
Proof. exact box_sdp_eps. Qed.
Print Assumptions C52_box_sdp_margin_dropped.
Theorem C52_box_sdp_refuted : exists b J P, box_init [1; 2; 3] (Some t0) (Some Q0) = Ok b /\ orthogonal 3 Q0 /\ is_mat 4 4 J /\ poly_moment_sdp_constraints (b_poly b) (PVmat J) 1 2 = Ok P /\ P /\ ~ PSD 4 (msub J (mscale 1 (eye 4))).
Proof. exact box_sdp_w. Qed.
Print Assumptions C52_box_sdp_refuted.
Theorem C52_cylinder_sdp_margin_dropped : forall L R ro co c eps d,
  cyl_init L R ro co = Ok c -> orthogonal 3 (pose_rot 3 ro) -> 0 < eps -> (0 < d)%nat ->
  exists J P, is_mat 4 4 J /\ cyl_moment_sdp_constraints c (PVmat J) eps d = Ok P /\ P /\ 0 < entry J 3 3 /\ ~ PSD 4 (msub J (mscale eps (eye 4))).
Proof. exact cyl_sdp_eps. Qed.
Print Assumptions C52_cylinder_sdp_margin_dropped.
Theorem C52_cylinder_sdp_refuted : exists c J P, cyl_init 2 1 (Some Q0) (Some t0) = Ok c /\ orthogonal 3 Q0 /\ is_mat 4 4 J /\ cyl_moment_sdp_constraints c (PVmat J) 1 2 = Ok P /\ P /\ ~ PSD 4 (msub J (mscale 1 (eye 4))).
Proof. exact cyl_sdp_w. Qed.
Print Assumptions C52_cylinder_sdp_refuted.
(** flat shapes accept nothing at all for a positive margin, and neither do the custom constraints
    of a cylinder (C49_defined), which pass the margin on to two flat disks *)
Theorem C52_flat_ellipsoid : forall h r c e i ut v J eps,
  ell_init h r c = Ok e -> length h = 3%nat -> orthogonal 3 (pose_rot 3 r) -> proper_half h ->
  (i < 3)%nat -> nth i h 0 = 0 -> pv_value v J -> is_mat 4 4 J -> 0 < eps ->
  exists P, ell_moment_constraints ut e v eps = Ok P /\ ~ P.
Proof. exact ell_flat_margin. Qed.
Print Assumptions C52_flat_ellipsoid.
Example C52_example : exists e b c, ell_init [1; 1; 1] None None = Ok e /\ box_init [1; 1; 1] None None = Ok b /\ cyl_init 2 1 None None = Ok c /\
  proper_half [1; 1; 1] /\ PSD 4 (msub J6 (mscale (1 / 20) (eye 4))) /\ realizable_J (ell_set [1; 1; 1] (pose_rot 3 None) (pose_tr 3 None)) J6.
Proof.
  destruct s6_shapes as (H1 & (b & Hb) & (c & Hc) & (e & He)). exists e, b, c. repeat (split; [assumption|]).
  split; [|split; [exact J6_margin|exact s6_ball]]. intros [|[|[|i]]] Hi; cbn in *; try lra; lia.
Qed.
