(** Properties C67, C68: least volumes of the closed-form boxes and spheres, volumes as integrals
    (src/rigeo/shape/box.py, shape/ellipsoid.py, shape/cylinder.py, shape/capsule.py). *)
From Verif Require Import Base.Vec Base.VecFacts Base.Ext Spec.Basic Spec.Shapes Spec.Objects Spec.ShapeObjects Spec.DoubleDesc Spec.PolySpec Spec.Samples Spec.Integrals Spec.RandomSpec Spec.Uniform Spec.ExtremalSpec
  Model.Util Model.Constraint Model.Polydd Model.Poly Model.Inertial Model.Ellipsoid Model.Box Model.Cylinder Model.Random Model.Extremal
  Proofs.VolumeC Proofs.VolumeV Proofs.MoreEx.

(** * C67 *)
Theorem C67_cylinder_mbb : forall L r ro co c b h' c' r' b',
  cyl_init L r ro co = Ok c -> orthogonal 3 (pose_rot 3 ro) -> cyl_mbb c = Ok b ->
  box_init h' c' r' = Ok b' -> orthogonal 3 (pose_rot 3 r') ->
  (forall p, cyl_set L r (pose_rot 3 ro) (pose_tr 3 co) p -> box_set h' (pose_rot 3 r') (pose_tr 3 c') p) ->
  b_volume b <= b_volume b'.
Proof. exact cyl_mbb_minimal. Qed.
Print Assumptions C67_cylinder_mbb.
Theorem C67_capsule_mbb : forall L r ro co c k b a a' h' c' r' b',
  cyl_init L r ro co = Ok c -> caps_init c = Ok k -> orthogonal 3 (pose_rot 3 ro) -> caps_mbb k = Ok b ->
  cyl_endpoints c = [a; a'] -> box_init h' c' r' = Ok b' -> orthogonal 3 (pose_rot 3 r') ->
  (forall p, length p = 3%nat -> caps_set a a' r p -> box_set h' (pose_rot 3 r') (pose_tr 3 c') p) ->
  b_volume b <= b_volume b'.
Proof. exact caps_mbb_minimal. Qed.
Print Assumptions C67_capsule_mbb.
Example C67_boxes_example : exists c k b b' a a', cyl_init 2 1 (Some Q0) (Some t0) = Ok c /\ caps_init c = Ok k /\ orthogonal 3 Q0 /\ cyl_mbb c = Ok b /\ caps_mbb k = Ok b' /\
  cyl_endpoints c = [a; a'] /\
  (forall p, cyl_set 2 1 Q0 t0 p -> box_set (b_half b) (b_rot b) (b_center b) p) /\
  (forall p, length p = 3%nat -> caps_set a a' 1 p -> box_set (b_half b') (b_rot b') (b_center b') p).
Proof. exact mbb_case. Qed.
Theorem C67_ellipsoid_sphere : forall h r c e e' rad c' s,
  ell_init h r c = Ok e -> length h = 3%nat -> orthogonal 3 (pose_rot 3 r) -> ell_mbe e true = Ok e' ->
  0 <= rad -> length c' = 3%nat -> ell_sphere rad (Some c') = Ok s ->
  (forall p, ell_set h (pose_rot 3 r) (pose_tr 3 c) p -> norm (vsub p c') <= rad) -> e_volume e' <= e_volume s.
Proof. exact ell_mbe_sphere_minimal. Qed.
Print Assumptions C67_ellipsoid_sphere.
Example C67_sphere_example : exists e e' rad s, ell_init [1; 2; 3] (Some Q0) (Some t0) = Ok e /\ orthogonal 3 Q0 /\ ell_mbe e true = Ok e' /\ 0 <= rad /\ ell_sphere rad (Some t0) = Ok s /\
  forall p, ell_set [1; 2; 3] Q0 t0 p -> norm (vsub p t0) <= rad.
Proof. exact mbe_sphere_case. Qed.
(** the bounding sphere of a cylinder is not the smallest unless L^2 = 2 r^2: finding *)
Theorem C67_cylinder_sphere : forall L r ro co c e,
  cyl_init L r ro co = Ok c -> orthogonal 3 (pose_rot 3 ro) -> cyl_mbe c true = Ok e ->
  L * L <> 2 * (r * r) ->
  exists rad e', ell_sphere rad (Some (pose_tr 3 co)) = Ok e' /\
    (forall p, cyl_set L r (pose_rot 3 ro) (pose_tr 3 co) p -> ell_set (e_half e') (e_rot e') (e_center e') p) /\
    e_volume e' < e_volume e.
Proof. exact cyl_mbe_sphere_not_minimal. Qed.
Print Assumptions C67_cylinder_sphere.
Theorem C67_cylinder_sphere_refuted : exists c e rad e', cyl_init 2 1 (Some Q0) (Some t0) = Ok c /\ cyl_mbe c true = Ok e /\ ell_sphere rad (Some t0) = Ok e' /\
  (forall p, cyl_set 2 1 Q0 t0 p -> ell_set (e_half e') (e_rot e') (e_center e') p) /\ e_volume e' < e_volume e.
Proof. exact cyl_sphere_refuted. Qed.
Print Assumptions C67_cylinder_sphere_refuted.

(** * C68 *)
Theorem C68_box_volume : forall h c r b V,
  box_init h c r = Ok b -> (box_volume h (fun _ => 1) V <-> V = b_volume b).
Proof. exact box_volume_integral. Qed.
Print Assumptions C68_box_volume.
Theorem C68_cylinder_volume : forall L r ro co c V,
  cyl_init L r ro co = Ok c -> (cyl_volume L r (fun _ => 1) V <-> V = c_volume c).
Proof. exact cyl_volume_integral. Qed.
Print Assumptions C68_cylinder_volume.
Theorem C68_ellipsoid_volume : forall h r c e V,
  ell_init h r c = Ok e -> length h = 3%nat -> (forall x, In x h -> 0 < x) -> (ell_volume h (fun _ => 1) V <-> V = e_volume e).
Proof. exact ell_volume_integral. Qed.
Print Assumptions C68_ellipsoid_volume.
Theorem C68_ellipsoid_flat : forall h r c e,
  ell_init h r c = Ok e -> In 0 h -> e_volume e = 0.
Proof. exact ell_volume_flat. Qed.
Print Assumptions C68_ellipsoid_flat.
(** the factor 4/3 pi is used in every dimension: finding *)
Theorem C68_ellipse_area : forall x y,
  0 < x -> 0 < y -> plate x y (fun _ => 1) (PI * x * y).
Proof. exact plate_area. Qed.
Print Assumptions C68_ellipse_area.
Theorem C68_ellipse_refuted : exists e A, ell_init [3; 2] None None = Ok e /\ plate 3 2 (fun _ => 1) A /\ e_volume e <> A.
Proof. exact ell_volume_ellipse. Qed.
Print Assumptions C68_ellipse_refuted.
(** the diagonal is the diameter *)
Theorem C68_diagonal : forall h c r b p q,
  box_init h c r = Ok b -> orthogonal 3 (pose_rot 3 r) ->
  box_set h (pose_rot 3 r) (pose_tr 3 c) p -> box_set h (pose_rot 3 r) (pose_tr 3 c) q -> norm (vsub p q) <= b_diaglen b.
Proof. exact box_diag. Qed.
Print Assumptions C68_diagonal.
Theorem C68_diagonal_attained : forall h c r b,
  box_init h c r = Ok b -> orthogonal 3 (pose_rot 3 r) -> exists p q, In p (b_vertices b) /\ In q (b_vertices b) /\
  box_set h (pose_rot 3 r) (pose_tr 3 c) p /\ box_set h (pose_rot 3 r) (pose_tr 3 c) q /\ norm (vsub p q) = b_diaglen b.
Proof. exact box_diag_attained. Qed.
Print Assumptions C68_diagonal_attained.
(** the integrals that specify volumes and mass distributions have at most one value *)
Theorem C68_unique_box : forall h,
  (forall x, In x h -> 0 <= x) -> functional (box_volume h).
Proof. exact functional_box_volume. Qed.
Print Assumptions C68_unique_box.
Theorem C68_unique_shell : forall h,
  (forall x, In x h -> 0 <= x) -> functional (box_shell h).
Proof. exact functional_box_shell. Qed.
Print Assumptions C68_unique_shell.
Theorem C68_unique_frame : forall h,
  functional (box_frame h).
Proof. exact functional_box_frame. Qed.
Print Assumptions C68_unique_frame.
Theorem C68_unique_cylinder : forall L r,
  0 <= L -> 0 <= r -> functional (cyl_volume L r).
Proof. exact functional_cyl_volume. Qed.
Print Assumptions C68_unique_cylinder.
Theorem C68_unique_ellipsoid : forall h,
  (forall x, In x h -> 0 <= x) -> functional (ell_volume h).
Proof. exact functional_ell_volume. Qed.
Print Assumptions C68_unique_ellipsoid.
Theorem C68_unique_surface : forall h,
  functional (ell_surface h).
Proof. exact functional_ell_surface. Qed.
Print Assumptions C68_unique_surface.
Theorem C68_unique_plate : forall x y,
  0 <= x -> functional (plate x y).
Proof. exact functional_plate. Qed.
Print Assumptions C68_unique_plate.
Theorem C68_unique_stretched : forall h D,
  functional D -> functional (stretch h D).
Proof. exact functional_stretch. Qed.
Print Assumptions C68_unique_stretched.
(** and so the parameters of a uniform body are determined *)
Theorem C68_parameters : forall D m Q c p p',
  functional D -> m <> 0 -> length (ip_com p) = 3%nat -> length (ip_com p') = 3%nat -> is_mat 3 3 (ip_H p) -> is_mat 3 3 (ip_H p') ->
  uniform_mass D m Q c p -> uniform_mass D m Q c p' -> ip_mass p = ip_mass p' /\ ip_com p = ip_com p' /\ ip_H p = ip_H p'.
Proof. exact uniform_determined. Qed.
Print Assumptions C68_parameters.
Example C68_example : exists b e c, box_init [1; 2; 3] (Some t0) (Some Q0) = Ok b /\ ell_init [1; 2; 3] (Some Q0) (Some t0) = Ok e /\ cyl_init 2 1 (Some Q0) (Some t0) = Ok c /\
  orthogonal 3 Q0 /\ b_volume b = 48 /\ e_volume e = 8 * PI /\ c_volume c = 2 * PI.
Proof. exact volumes_case. Qed.
