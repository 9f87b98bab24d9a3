(** Property C109: the points of Ellipsoid.random_points and Cylinder.random_points are uniform on the solid,
    for every continuous function.  The direction is uniform on the sphere (height u, azimuth phi), or on the
    circle (azimuth phi), as in C104. *)
From Verif Require Import Base.Vec Model.Util Model.Inertial Model.Polydd Model.Poly Model.Ellipsoid Model.Cylinder Model.Random
  Spec.Basic Spec.Shapes Spec.ShapeObjects Spec.Integrals Spec.RandomSpec Spec.Turns Spec.Continuous Spec.Solid Spec.Samples Proofs.Coord Proofs.SolidP.

(** * the volume elements of the polar coordinates are the determinants of their derivatives *)
Theorem C109_ellipsoid_element : forall x y z u phi rho,
  -1 < u < 1 -> exists dr du dphi,
  curve_derivative (fun s => solid_point [x; y; z] u phi s) rho dr /\ curve_derivative (fun s => solid_point [x; y; z] s phi rho) u du /\ curve_derivative (fun s => solid_point [x; y; z] u s rho) phi dphi /\
  solid_element [x; y; z] rho = dot dr (cross dphi du).
Proof. exact solid_element_det. Qed.
Print Assumptions C109_ellipsoid_element.
Theorem C109_cylinder_element : forall rho phi z,
  exists dr dphi dz,
  curve_derivative (fun s => polar_point s phi z) rho dr /\ curve_derivative (fun s => polar_point rho s z) phi dphi /\ curve_derivative (fun s => polar_point rho phi s) z dz /\ rho = dot dr (cross dphi dz).
Proof. exact polar_element_det. Qed.
Print Assumptions C109_cylinder_element.
Theorem C109_ellipsoid_volume : forall h,
  ell_solid h (fun _ => 1) (4 / 3 * PI * (nth 0 h 0 * nth 1 h 0 * nth 2 h 0)).
Proof. exact ell_solid_volume. Qed.
Print Assumptions C109_ellipsoid_volume.
(** * the ellipsoid: an ellipsoid without rotation, in its own coordinates *)
Theorem C109_ellipsoid : forall f h c e,
  continuous3 f -> ell_init h None c = Ok e -> length h = 3%nat -> (forall a, In a h -> 0 < a) ->
  exists V T, ell_solid h (fun _ => 1) V /\ 0 < V /\ ell_solid h (fun p => f (vadd p (pose_tr 3 c))) T /\
    turn_mean (fun t => let '(u, phi, v) := t in point_stat f (Some (ell_random_points e [ell_point [1; 1; 1] u phi] [v]))) (T / V).
Proof. exact ell_axes_law. Qed.
Print Assumptions C109_ellipsoid.
(** * at any pose: the image of the uniform law of the unit ball under x -> R diag(h) R^T x + c *)
Theorem C109_ellipsoid_pose : forall f h r c e,
  continuous3 f -> ell_init h r c = Ok e -> length h = 3%nat ->
  exists T, ell_solid [1; 1; 1] (fun p => f (move (stretch h r) (pose_tr 3 c) p)) T /\
    turn_mean (fun t => let '(u, phi, v) := t in point_stat f (Some (ell_random_points e [ell_point [1; 1; 1] u phi] [v]))) (T / (4 / 3 * PI)).
Proof. exact ell_random_law. Qed.
Print Assumptions C109_ellipsoid_pose.
(** * the cylinder *)
Theorem C109_cylinder : forall f L r ro co cy,
  continuous3 f -> cyl_init L r ro co = Ok cy -> 0 < L -> 0 < r ->
  exists V T, cyl_solid L r (fun _ => 1) V /\ 0 < V /\ cyl_solid L r (fun p => f (move (pose_rot 3 ro) (pose_tr 3 co) p)) T /\
    polar_mean (fun z phi v => point_stat f (Some (cyl_random_points cy [z] [[cos phi; sin phi]] [v]))) (T / V).
Proof. exact cyl_random_law. Qed.
Print Assumptions C109_cylinder.
Example C109_example : continuous3 (fun p => nth 0 p 0 * nth 1 p 0) /\ (exists e, ell_init [3; 2; 1] (Some Q0) (Some t0) = Ok e) /\
  (exists e, ell_init [3; 2; 1] None (Some t0) = Ok e) /\ (exists cy, cyl_init 2 1 (Some Q0) (Some t0) = Ok cy).
Proof. exact solid_case. Qed.
