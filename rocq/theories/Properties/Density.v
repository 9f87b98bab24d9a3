(** Properties C57, C58, C59: inertial parameters of uniform mass distributions
    (src/rigeo/shape/box.py, ellipsoid.py, cylinder.py, poly.py). *)
From Verif Require Import Base.Vec Model.Util Model.Inertial Model.Polydd Model.Poly Model.Ellipsoid Model.Box Model.Cylinder Model.Realize
  Spec.Basic Spec.Shapes Spec.Objects Spec.ShapeObjects Spec.Realizable Spec.Integrals Proofs.DensityP Proofs.DensityR Proofs.DensityS Proofs.RefutedP.

(** * C57 *)
(** the regions of integration are the shapes in their own frame *)
Theorem C57_box_region : forall x y z a b c,
  0 <= x -> 0 <= y -> 0 <= z ->
  box_set [x; y; z] (eye 3) (zeros 3) [a; b; c] <-> - x <= a <= x /\ - y <= b <= y /\ - z <= c <= z.
Proof. exact box_region. Qed.
Print Assumptions C57_box_region.
Theorem C57_cylinder_region : forall L r a b c,
  0 <= r ->
  cyl_set L r (eye 3) (zeros 3) [a; b; c] <-> - (L / 2) <= c <= L / 2 /\ - r <= a <= r /\ - sqrt (r * r - a * a) <= b <= sqrt (r * r - a * a).
Proof. exact cyl_region. Qed.
Print Assumptions C57_cylinder_region.
Theorem C57_ellipsoid_region : forall x y z a b c,
  0 < x -> 0 < y -> 0 < z ->
  ell_set [x; y; z] (eye 3) (zeros 3) [a; b; c] <->
  - x <= a <= x /\ - (y * sqrt (1 - (a / x) ^ 2)) <= b <= y * sqrt (1 - (a / x) ^ 2) /\
  - (z * sqrt (1 - (a / x) ^ 2 - (b / y) ^ 2)) <= c <= z * sqrt (1 - (a / x) ^ 2 - (b / y) ^ 2).
Proof. exact ell_region. Qed.
Print Assumptions C57_ellipsoid_region.
Theorem C57_box_uniform : forall h c r b m,
  box_init h c r = Ok b -> (forall i, (i < 3)%nat -> 0 < nth i h 0) -> 0 < m ->
  exists p, box_uniform_density_params b m = Ok p /\ uniform_mass (box_volume h) m (pose_rot 3 r) (pose_tr 3 c) p.
Proof. exact box_uniform_integral. Qed.
Print Assumptions C57_box_uniform.
Theorem C57_box_hollow : forall h c r b m,
  box_init h c r = Ok b -> 0 < nth 0 h 0 * nth 1 h 0 + nth 0 h 0 * nth 2 h 0 + nth 1 h 0 * nth 2 h 0 -> 0 < m ->
  exists p, box_hollow_density_params b m = Ok p /\ uniform_mass (box_shell h) m (pose_rot 3 r) (pose_tr 3 c) p.
Proof. exact box_hollow_integral. Qed.
Print Assumptions C57_box_hollow.
Theorem C57_box_wireframe : forall h c r b m,
  box_init h c r = Ok b -> 0 < nth 0 h 0 + nth 1 h 0 + nth 2 h 0 -> 0 < m ->
  exists p, box_wireframe_density_params b m = Ok p /\ uniform_mass (box_frame h) m (pose_rot 3 r) (pose_tr 3 c) p.
Proof. exact box_wireframe_integral. Qed.
Print Assumptions C57_box_wireframe.
Theorem C57_cylinder_uniform : forall L R r c x m,
  cyl_init L R r c = Ok x -> 0 < L -> 0 < R -> 0 < m ->
  exists p, cyl_uniform_density_params x m = Ok p /\ uniform_mass (cyl_volume L R) m (pose_rot 3 r) (pose_tr 3 c) p.
Proof. exact cyl_uniform_integral. Qed.
Print Assumptions C57_cylinder_uniform.
Theorem C57_ellipsoid_uniform : forall h r c e m,
  ell_init h r c = Ok e -> length h = 3%nat -> (forall i, (i < 3)%nat -> 0 < nth i h 0) -> 0 < m ->
  exists p, ell_uniform_density_params e m = Ok p /\ uniform_mass (ell_volume h) m (pose_rot 3 r) (pose_tr 3 c) p.
Proof. exact ell_uniform_integral. Qed.
Print Assumptions C57_ellipsoid_uniform.
(** shapes with half extents or lengths equal to 0, as the image of the unit shape *)
Theorem C57_box_flat : forall h c r b m,
  box_init h c r = Ok b -> 0 < m ->
  exists p, box_uniform_density_params b m = Ok p /\ uniform_mass (stretch h (box_volume [1; 1; 1])) m (pose_rot 3 r) (pose_tr 3 c) p.
Proof. exact box_uniform_flat. Qed.
Print Assumptions C57_box_flat.
Theorem C57_cylinder_flat : forall L R r c x m,
  cyl_init L R r c = Ok x -> 0 < m ->
  exists p, cyl_uniform_density_params x m = Ok p /\ uniform_mass (stretch [R; R; L] (cyl_volume 1 1)) m (pose_rot 3 r) (pose_tr 3 c) p.
Proof. exact cyl_uniform_flat. Qed.
Print Assumptions C57_cylinder_flat.
Theorem C57_ellipsoid_flat : forall h r c e m,
  ell_init h r c = Ok e -> length h = 3%nat -> 0 < m ->
  exists p, ell_uniform_density_params e m = Ok p /\ uniform_mass (stretch h (ell_volume [1; 1; 1])) m (pose_rot 3 r) (pose_tr 3 c) p.
Proof. exact ell_uniform_flat. Qed.
Print Assumptions C57_ellipsoid_flat.
(** for a flat ellipsoid that is not the uniform distribution over the elliptic plate *)
Theorem C57_ellipsoid_not_plate : forall x y m e,
  ell_init [x; y; 0] None None = Ok e -> 0 < x -> 0 < y -> 0 < m ->
  exists p, ell_uniform_density_params e m = Ok p /\ ~ uniform_mass (plate x y) m (eye 3) (zeros 3) p.
Proof. exact flat_uniform_refuted. Qed.
Print Assumptions C57_ellipsoid_not_plate.
Theorem C57_ellipsoid_plate_refuted : exists e p, ell_init [2; 1; 0] None None = Ok e /\ ell_uniform_density_params e 1 = Ok p /\ ~ uniform_mass (plate 2 1) 1 (eye 3) (zeros 3) p.
Proof. exact plate_w. Qed.
Print Assumptions C57_ellipsoid_plate_refuted.
(** a mass of 0 passes the assertion, and the result is not finite *)
Theorem C57_massless : (forall b, box_uniform_density_params b 0 = NonFinite) /\
  (forall h c r b, box_init h c r = Ok b -> box_hollow_density_params b 0 = NonFinite /\ box_wireframe_density_params b 0 = NonFinite) /\
  (forall e, ell_uniform_density_params e 0 = NonFinite) /\ (forall h r c e, ell_init h r c = Ok e -> length h = 3%nat -> ell_hollow_density_params e 0 = NonFinite) /\
  (forall x, cyl_uniform_density_params x 0 = NonFinite).
Proof. exact density_massless_all. Qed.
Print Assumptions C57_massless.
Theorem C57_negative_mass : (forall h c r b m, box_init h c r = Ok b -> m < 0 -> box_uniform_density_params b m = Raise AssertionError /\ box_hollow_density_params b m = Raise AssertionError /\ box_wireframe_density_params b m = Raise AssertionError) /\
  (forall e m, m < 0 -> ell_uniform_density_params e m = Raise AssertionError /\ ell_hollow_density_params e m = Raise AssertionError) /\
  (forall x m, m < 0 -> cyl_uniform_density_params x m = Raise AssertionError).
Proof. exact density_errors. Qed.
Print Assumptions C57_negative_mass.
Example C57_example : exists b e x p q s, orthogonal 3 [[0; -1; 0]; [1; 0; 0]; [0; 0; 1]] /\ [[0; -1; 0]; [1; 0; 0]; [0; 0; 1]] <> eye 3 /\
  box_init [1; 2; 3] (Some [1; 0; 0]) (Some [[0; -1; 0]; [1; 0; 0]; [0; 0; 1]]) = Ok b /\ box_uniform_density_params b 6 = Ok p /\ ip_H p = [[14; 0; 0]; [0; 2; 0]; [0; 0; 18]] /\
  ell_init [1; 2; 3] (Some [[0; -1; 0]; [1; 0; 0]; [0; 0; 1]]) (Some [1; 0; 0]) = Ok e /\ ell_uniform_density_params e 10 = Ok q /\ ip_H q = [[18; 0; 0]; [0; 2; 0]; [0; 0; 18]] /\
  proper_half [1; 2; 3] /\
  cyl_init 6 2 (Some [[0; -1; 0]; [1; 0; 0]; [0; 0; 1]]) (Some [1; 0; 0]) = Ok x /\ cyl_uniform_density_params x 4 = Ok s /\ ip_H s = [[8; 0; 0]; [0; 4; 0]; [0; 0; 12]].
Proof. exact density_case. Qed.

(** * C58 *)
(** the parametrisation covers the surface and the area element is right *)
Theorem C58_surface : forall x y z p,
  ell_boundary [x; y; z] (eye 3) (zeros 3) p <-> exists u phi, -1 <= u <= 1 /\ 0 <= phi <= 2 * PI /\ p = ell_point [x; y; z] u phi.
Proof. exact ell_point_surface. Qed.
Print Assumptions C58_surface.
Theorem C58_area_element : forall x y z u phi,
  -1 < u < 1 -> exists du dphi,
  curve_derivative (fun s => ell_point [x; y; z] s phi) u du /\ curve_derivative (fun t => ell_point [x; y; z] u t) phi dphi /\
  ell_area [x; y; z] u phi = Vec.norm (cross du dphi).
Proof. exact ell_area_cross. Qed.
Print Assumptions C58_area_element.
Theorem C58_sphere : forall R r c e m,
  ell_init [R; R; R] r c = Ok e -> 0 < R -> 0 < m ->
  exists p, ell_hollow_density_params e m = Ok p /\ uniform_mass (ell_surface [R; R; R]) m (pose_rot 3 r) (pose_tr 3 c) p.
Proof. exact sphere_hollow_integral. Qed.
Print Assumptions C58_sphere.
Theorem C58_spheroid_differs : forall a c m e,
  ell_init [a; a; c] None None = Ok e -> 0 < c -> c <= a / 20 -> 0 < m ->
  exists p, ell_hollow_density_params e m = Ok p /\ ~ uniform_mass (ell_surface [a; a; c]) m (eye 3) (zeros 3) p.
Proof. exact spheroid_refuted. Qed.
Print Assumptions C58_spheroid_differs.
Theorem C58_spheroid_refuted : exists e p, ell_init [20; 20; 1] None None = Ok e /\ ell_hollow_density_params e 1 = Ok p /\ ~ uniform_mass (ell_surface [20; 20; 1]) 1 (eye 3) (zeros 3) p.
Proof. exact spheroid_w. Qed.
Print Assumptions C58_spheroid_refuted.
Example C58_example : exists b e p q, box_init [1; 2; 3] (Some [1; 0; 0]) (Some [[0; -1; 0]; [1; 0; 0]; [0; 0; 1]]) = Ok b /\ box_hollow_density_params b 33 = Ok p /\ entry (ip_H p) 0 0 = 33 + 68 /\
  ell_init [20; 20; 1] None None = Ok e /\ 1 <= 20 / 20 /\ ell_hollow_density_params e 11 = Ok q /\ entry (ip_H q) 2 2 = 31 / 5.
Proof. exact hollow_case. Qed.

(** * C59 *)
Theorem C59_box_uniform : forall h c r b m,
  box_init h c r = Ok b -> 0 < m ->
  exists p, box_uniform_density_params b m = Ok p /\ sound_params (box_set h (pose_rot 3 r) (pose_tr 3 c)) m (pose_tr 3 c) p.
Proof. exact box_uniform_sound. Qed.
Print Assumptions C59_box_uniform.
Theorem C59_box_hollow : forall h c r b m,
  box_init h c r = Ok b -> 0 < nth 0 h 0 * nth 1 h 0 + nth 0 h 0 * nth 2 h 0 + nth 1 h 0 * nth 2 h 0 -> 0 < m ->
  exists p, box_hollow_density_params b m = Ok p /\ sound_params (box_set h (pose_rot 3 r) (pose_tr 3 c)) m (pose_tr 3 c) p.
Proof. exact box_hollow_sound. Qed.
Print Assumptions C59_box_hollow.
Theorem C59_box_wireframe : forall h c r b m,
  box_init h c r = Ok b -> 0 < nth 0 h 0 + nth 1 h 0 + nth 2 h 0 -> 0 < m ->
  exists p, box_wireframe_density_params b m = Ok p /\ sound_params (box_set h (pose_rot 3 r) (pose_tr 3 c)) m (pose_tr 3 c) p.
Proof. exact box_wireframe_sound. Qed.
Print Assumptions C59_box_wireframe.
Theorem C59_ellipsoid_uniform : forall h r c e m,
  ell_init h r c = Ok e -> length h = 3%nat -> 0 < m ->
  exists p, ell_uniform_density_params e m = Ok p /\ sound_params (ell_set h (pose_rot 3 r) (pose_tr 3 c)) m (pose_tr 3 c) p.
Proof. exact ell_uniform_sound. Qed.
Print Assumptions C59_ellipsoid_uniform.
Theorem C59_ellipsoid_hollow : forall h r c e m,
  ell_init h r c = Ok e -> length h = 3%nat ->
  0 < nth 0 h 0 * nth 1 h 0 + nth 0 h 0 * nth 2 h 0 + nth 1 h 0 * nth 2 h 0 -> 0 < m ->
  exists p, ell_hollow_density_params e m = Ok p /\ sound_params (ell_set h (pose_rot 3 r) (pose_tr 3 c)) m (pose_tr 3 c) p.
Proof. exact ell_hollow_sound. Qed.
Print Assumptions C59_ellipsoid_hollow.
Theorem C59_cylinder_uniform : forall L R r c x m,
  cyl_init L R r c = Ok x -> 0 < m ->
  exists p, cyl_uniform_density_params x m = Ok p /\ sound_params (cyl_set L R (pose_rot 3 r) (pose_tr 3 c)) m (pose_tr 3 c) p.
Proof. exact cyl_uniform_sound. Qed.
Print Assumptions C59_cylinder_uniform.
Theorem C59_ellipsoid_accepts_uniform : forall h r c e m eigvals,
  ell_init h r c = Ok e -> length h = 3%nat -> orthogonal 3 (pose_rot 3 r) -> proper_half h -> 0 < m ->
  exists p, ell_uniform_density_params e m = Ok p /\
    (eigvals_spec 4 (ip_J p) (eigvals (ip_J p)) -> ell_can_realize eigvals e p 0 = Ok true).
Proof. exact ell_uniform_accepted. Qed.
Print Assumptions C59_ellipsoid_accepts_uniform.
Theorem C59_ellipsoid_accepts_hollow : forall h r c e m eigvals,
  ell_init h r c = Ok e -> length h = 3%nat -> orthogonal 3 (pose_rot 3 r) -> proper_half h ->
  0 < nth 0 h 0 * nth 1 h 0 + nth 0 h 0 * nth 2 h 0 + nth 1 h 0 * nth 2 h 0 -> 0 < m ->
  exists p, ell_hollow_density_params e m = Ok p /\
    (eigvals_spec 4 (ip_J p) (eigvals (ip_J p)) -> ell_can_realize eigvals e p 0 = Ok true).
Proof. exact ell_hollow_accepted. Qed.
Print Assumptions C59_ellipsoid_accepts_hollow.
Theorem C59_box_uniform_moves : forall h c r b ro tr b' m,
  box_init h c r = Ok b -> box_transform b ro tr = Ok b' -> 0 < m ->
  exists p q, box_uniform_density_params b m = Ok p /\ ip_transform p ro tr = Ok q /\ box_uniform_density_params b' m = Ok q.
Proof. exact box_uniform_moves. Qed.
Print Assumptions C59_box_uniform_moves.
Theorem C59_box_hollow_moves : forall h c r b ro tr b' m,
  box_init h c r = Ok b -> box_transform b ro tr = Ok b' ->
  0 < nth 0 h 0 * nth 1 h 0 + nth 0 h 0 * nth 2 h 0 + nth 1 h 0 * nth 2 h 0 -> 0 < m ->
  exists p q, box_hollow_density_params b m = Ok p /\ ip_transform p ro tr = Ok q /\ box_hollow_density_params b' m = Ok q.
Proof. exact box_hollow_moves. Qed.
Print Assumptions C59_box_hollow_moves.
Theorem C59_box_wireframe_moves : forall h c r b ro tr b' m,
  box_init h c r = Ok b -> box_transform b ro tr = Ok b' ->
  0 < nth 0 h 0 + nth 1 h 0 + nth 2 h 0 -> 0 < m ->
  exists p q, box_wireframe_density_params b m = Ok p /\ ip_transform p ro tr = Ok q /\ box_wireframe_density_params b' m = Ok q.
Proof. exact box_wireframe_moves. Qed.
Print Assumptions C59_box_wireframe_moves.
Theorem C59_ellipsoid_uniform_moves : forall h r c e ro tr e' m,
  ell_init h r c = Ok e -> length h = 3%nat -> ell_transform e ro tr = Ok e' -> 0 < m ->
  exists p q, ell_uniform_density_params e m = Ok p /\ ip_transform p ro tr = Ok q /\ ell_uniform_density_params e' m = Ok q.
Proof. exact ell_uniform_moves. Qed.
Print Assumptions C59_ellipsoid_uniform_moves.
Theorem C59_ellipsoid_hollow_moves : forall h r c e ro tr e' m,
  ell_init h r c = Ok e -> length h = 3%nat -> ell_transform e ro tr = Ok e' ->
  0 < nth 0 h 0 * nth 1 h 0 + nth 0 h 0 * nth 2 h 0 + nth 1 h 0 * nth 2 h 0 -> 0 < m ->
  exists p q, ell_hollow_density_params e m = Ok p /\ ip_transform p ro tr = Ok q /\ ell_hollow_density_params e' m = Ok q.
Proof. exact ell_hollow_moves. Qed.
Print Assumptions C59_ellipsoid_hollow_moves.
Theorem C59_cylinder_uniform_moves : forall L R r c x ro tr x' m,
  cyl_init L R r c = Ok x -> cyl_transform x ro tr = Ok x' -> 0 < m ->
  exists p q, cyl_uniform_density_params x m = Ok p /\ ip_transform p ro tr = Ok q /\ cyl_uniform_density_params x' m = Ok q.
Proof. exact cyl_uniform_moves. Qed.
Print Assumptions C59_cylinder_uniform_moves.
(** point masses at the vertices of a polyhedron *)
Theorem C59_vertex_masses : forall p ms,
  (forall v, In v (p_vertices p) -> length v = 3%nat) -> length ms = length (p_vertices p) -> (forall a, In a ms -> 0 <= a) -> 0 < lsum ms ->
  exists q, poly_vertex_point_mass_params p (MassArray ms) = Ok q /\ describes q (system ms (p_vertices p)) /\ PSD 4 (ip_J q) /\
    in_hull 3 (p_vertices p) (ip_com q).
Proof. exact vertex_params_array. Qed.
Print Assumptions C59_vertex_masses.
Theorem C59_vertex_mass : forall p m,
  (forall v, In v (p_vertices p) -> length v = 3%nat) -> p_vertices p <> [] -> 0 < m ->
  exists q, poly_vertex_point_mass_params p (MassScalar m) = Ok q /\ ip_mass q = m /\
    describes q (map (fun v => (m / INR (length (p_vertices p)), v)) (p_vertices p)) /\ PSD 4 (ip_J q) /\ in_hull 3 (p_vertices p) (ip_com q).
Proof. exact vertex_params_scalar. Qed.
Print Assumptions C59_vertex_mass.
(** the hypotheses are met by C57_example and C58_example *)
