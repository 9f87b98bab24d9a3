(** Properties C28-C30: axis-aligned bounding boxes and the closed-form inscribed and bounding
    boxes and ellipsoids
    (src/rigeo/shape/box.py, shape/ellipsoid.py, shape/cylinder.py, shape/capsule.py, shape/poly.py). *)
From Verif Require Import Base.Vec Base.VecFacts Base.Ext Spec.Basic Spec.Shapes Spec.ShapeObjects Spec.DoubleDesc Spec.PolySpec Spec.Samples
  Model.Util Model.Constraint Model.Polydd Model.Poly Model.Ellipsoid Model.Box Model.Cylinder
  Proofs.Coord Proofs.Hull Proofs.BoxP Proofs.EllP Proofs.ShapesW Proofs.SamplesP Proofs.MustContain Proofs.CylP Proofs.TransformP
  Proofs.DDP Proofs.PolyP Proofs.AabbP Proofs.InscribedP Proofs.VolumeP Proofs.RefutedP.

(** * C28 *)
Theorem C28_points : forall P,
  rows_len 3 P -> P <> [] -> exists b, box_from_points_to_bound P = Ok b /\ tight_box (fun p => In p P) b.
Proof. exact bound_points. Qed.
Print Assumptions C28_points.
Theorem C28_polyhedron : forall p b,
  poly_ok 3 p -> poly_aabb p = Ok b -> tight_box (in_hull 3 (p_vertices p)) b.
Proof. exact poly_aabb_tight. Qed.
Print Assumptions C28_polyhedron.
Theorem C28_polyhedron_total : forall p,
  poly_ok 3 p -> exists b, poly_aabb p = Ok b.
Proof. exact poly_aabb_total. Qed.
Print Assumptions C28_polyhedron_total.
Theorem C28_ellipsoid : forall h r c e,
  ell_init h r c = Ok e -> length h = 3%nat -> exists b, ell_aabb e = Ok b /\
  tight_box (ell_set h (pose_rot 3 r) (pose_tr 3 c)) b.
Proof. exact ell_aabb_good. Qed.
Print Assumptions C28_ellipsoid.
Theorem C28_cylinder : forall L r ro co c b,
  cyl_init L r ro co = Ok c -> cyl_aabb c = Ok b ->
  tight_box (cyl_set L r (pose_rot 3 ro) (pose_tr 3 co)) b.
Proof. exact cyl_aabb_tight. Qed.
Print Assumptions C28_cylinder.
Theorem C28_cylinder_total : forall L r ro co c,
  cyl_init L r ro co = Ok c -> exists b, cyl_aabb c = Ok b.
Proof. exact cyl_aabb_total. Qed.
Print Assumptions C28_cylinder_total.
Theorem C28_capsule : forall L r ro co c k,
  cyl_init L r ro co = Ok c -> caps_init c = Ok k -> orthogonal 3 (pose_rot 3 ro) ->
  exists b a a', caps_aabb k = Ok b /\ cyl_endpoints c = [a; a'] /\ tight_box (caps_set a a' r) b.
Proof. exact caps_aabb_spec. Qed.
Print Assumptions C28_capsule.
(** what a tight box gives: it contains the set, and every axis-aligned box that does contains it *)
Theorem C28_contains : forall K b,
  tight_box K b -> forall p, K p -> length p = 3%nat -> box_set (b_half b) (b_rot b) (b_center b) p.
Proof. exact tight_box_set. Qed.
Print Assumptions C28_contains.
Theorem C28_least : forall K b h c,
  tight_box K b -> length h = 3%nat -> length c = 3%nat ->
  (forall p, K p -> length p = 3%nat -> box_set h (eye 3) c p) ->
  forall p, length p = 3%nat -> box_set (b_half b) (b_rot b) (b_center b) p -> box_set h (eye 3) c p.
Proof. exact tight_box_least. Qed.
Print Assumptions C28_least.
Example C28_example : (exists b, box_from_points_to_bound [[1; 2; 3]; [-1; 5; 3]] = Ok b /\ tight_box (fun p => In p [[1; 2; 3]; [-1; 5; 3]]) b) /\
  (exists c b, cyl_init 2 1 (Some Q0) (Some t0) = Ok c /\ cyl_aabb c = Ok b) /\
  (exists b, box_init [1; 2; 3] (Some t0) (Some Q0) = Ok b /\ poly_ok 3 (b_poly b)).
Proof.
  split; [|split].
  - apply bound_points; [|discriminate]. intros v [<-|[<-|[]]]; reflexivity.
  - destruct cyl_example as (c & Hc). destruct (cyl_aabb_total _ _ _ _ _ Hc) as (b & Hb). exists c, b. auto.
  - destruct box_example as (b & Hb). exists b. split; [exact Hb|]. exact (proj1 (box_agree _ _ _ _ Hb Q0_orth)).
Qed.

(** * C29 *)
Theorem C29_box_mie : forall h c r b e p,
  box_init h c r = Ok b -> box_mie b false = Ok e ->
  ell_set (e_half e) (e_rot e) (e_center e) p -> box_set h (pose_rot 3 r) (pose_tr 3 c) p.
Proof. exact box_mie_inside. Qed.
Print Assumptions C29_box_mie.
Theorem C29_box_mie_sphere : forall h c r b e p,
  box_init h c r = Ok b -> orthogonal 3 (pose_rot 3 r) -> box_mie b true = Ok e ->
  ell_set (e_half e) (e_rot e) (e_center e) p -> box_set h (pose_rot 3 r) (pose_tr 3 c) p.
Proof. exact box_mie_sphere_inside. Qed.
Print Assumptions C29_box_mie_sphere.
Theorem C29_box_mie_total : forall h c r b s,
  box_init h c r = Ok b -> exists e, box_mie b s = Ok e.
Proof. exact box_mie_total. Qed.
Print Assumptions C29_box_mie_total.
Theorem C29_box_mbe : forall h c r b e p,
  box_init h c r = Ok b -> box_mbe b false = Ok e ->
  box_set h (pose_rot 3 r) (pose_tr 3 c) p -> ell_set (e_half e) (e_rot e) (e_center e) p.
Proof. exact box_mbe_outside. Qed.
Print Assumptions C29_box_mbe.
Theorem C29_box_mbe_sphere : forall h c r b e p,
  box_init h c r = Ok b -> orthogonal 3 (pose_rot 3 r) -> box_mbe b true = Ok e ->
  box_set h (pose_rot 3 r) (pose_tr 3 c) p -> ell_set (e_half e) (e_rot e) (e_center e) p.
Proof. exact box_mbe_sphere_outside. Qed.
Print Assumptions C29_box_mbe_sphere.
Theorem C29_box_mbe_total : forall h c r b s,
  box_init h c r = Ok b -> exists e, box_mbe b s = Ok e.
Proof. exact box_mbe_total. Qed.
Print Assumptions C29_box_mbe_total.
Theorem C29_ellipsoid_mbb : forall h r c e b p,
  ell_init h r c = Ok e -> ell_mbb e = Ok b ->
  ell_set h (pose_rot 3 r) (pose_tr 3 c) p -> box_set (b_half b) (b_rot b) (b_center b) p.
Proof. exact ell_mbb_outside. Qed.
Print Assumptions C29_ellipsoid_mbb.
Theorem C29_ellipsoid_mib : forall h r c e b p,
  ell_init h r c = Ok e -> ell_mib e = Ok b ->
  box_set (b_half b) (b_rot b) (b_center b) p -> ell_set h (pose_rot 3 r) (pose_tr 3 c) p.
Proof. exact ell_mib_inside. Qed.
Print Assumptions C29_ellipsoid_mib.
Theorem C29_ellipsoid_mbe_sphere : forall h r c e e' p,
  ell_init h r c = Ok e -> length h = 3%nat -> orthogonal 3 (pose_rot 3 r) -> ell_mbe e true = Ok e' ->
  ell_set h (pose_rot 3 r) (pose_tr 3 c) p -> ell_set (e_half e') (e_rot e') (e_center e') p.
Proof. exact ell_mbe_sphere_outside. Qed.
Print Assumptions C29_ellipsoid_mbe_sphere.
Theorem C29_ellipsoid_total : forall h r c e,
  ell_init h r c = Ok e -> length h = 3%nat ->
  (exists b, ell_mbb e = Ok b) /\ (exists b, ell_mib e = Ok b) /\ (exists e', ell_mbe e true = Ok e').
Proof. exact ell_boxes_total. Qed.
Print Assumptions C29_ellipsoid_total.
Theorem C29_cylinder_mib : forall L r ro co c b p,
  cyl_init L r ro co = Ok c -> cyl_mib c = Ok b ->
  box_set (b_half b) (b_rot b) (b_center b) p -> cyl_set L r (pose_rot 3 ro) (pose_tr 3 co) p.
Proof. exact cyl_mib_inside. Qed.
Print Assumptions C29_cylinder_mib.
Theorem C29_cylinder_mbb : forall L r ro co c b p,
  cyl_init L r ro co = Ok c -> cyl_mbb c = Ok b ->
  cyl_set L r (pose_rot 3 ro) (pose_tr 3 co) p -> box_set (b_half b) (b_rot b) (b_center b) p.
Proof. exact cyl_mbb_outside. Qed.
Print Assumptions C29_cylinder_mbb.
Theorem C29_cylinder_mbe : forall L r ro co c e p,
  cyl_init L r ro co = Ok c -> cyl_mbe c false = Ok e ->
  cyl_set L r (pose_rot 3 ro) (pose_tr 3 co) p -> ell_set (e_half e) (e_rot e) (e_center e) p.
Proof. exact cyl_mbe_outside. Qed.
Print Assumptions C29_cylinder_mbe.
Theorem C29_cylinder_mbe_sphere : forall L r ro co c e p,
  cyl_init L r ro co = Ok c -> orthogonal 3 (pose_rot 3 ro) -> cyl_mbe c true = Ok e ->
  cyl_set L r (pose_rot 3 ro) (pose_tr 3 co) p -> ell_set (e_half e) (e_rot e) (e_center e) p.
Proof. exact cyl_mbe_sphere_outside. Qed.
Print Assumptions C29_cylinder_mbe_sphere.
Theorem C29_cylinder_total : forall L r ro co c,
  cyl_init L r ro co = Ok c ->
  (exists b, cyl_mib c = Ok b) /\ (exists b, cyl_mbb c = Ok b) /\ (forall s, exists e, cyl_mbe c s = Ok e).
Proof. exact cyl_boxes_total. Qed.
Print Assumptions C29_cylinder_total.
Theorem C29_capsule_mbb : forall L r ro co c k b p a a',
  cyl_init L r ro co = Ok c -> caps_init c = Ok k -> orthogonal 3 (pose_rot 3 ro) -> caps_mbb k = Ok b ->
  cyl_endpoints c = [a; a'] -> length p = 3%nat -> caps_set a a' r p -> box_set (b_half b) (b_rot b) (b_center b) p.
Proof. exact caps_mbb_outside. Qed.
Print Assumptions C29_capsule_mbb.
Theorem C29_capsule_total : forall L r ro co c k,
  cyl_init L r ro co = Ok c -> caps_init c = Ok k -> exists b, caps_mbb k = Ok b.
Proof. exact caps_mbb_total. Qed.
Print Assumptions C29_capsule_total.
Example C29_example : orthogonal 3 Q0 /\
  (exists b, box_init [1; 2; 3] (Some t0) (Some Q0) = Ok b) /\
  (exists e, ell_init [1; 2; 0] (Some Q0) (Some t0) = Ok e) /\
  (exists c k a a', cyl_init 2 1 (Some Q0) (Some t0) = Ok c /\ caps_init c = Ok k /\ cyl_endpoints c = [a; a']).
Proof.
  split; [exact Q0_orth|]. split; [exact box_example|]. split.
  - destruct ell_example as (e & He & _). exists e. exact He.
  - destruct caps_example as (c & k & Hc & Hk). destruct (caps_aabb_spec _ _ _ _ _ _ Hc Hk Q0_orth) as (_ & a & a' & _ & E & _).
    exists c, k, a, a'. auto.
Qed.

(** * C30 *)
Theorem C30_box_mie : forall h c r b e h' r' c' e',
  box_init h c r = Ok b -> orthogonal 3 (pose_rot 3 r) -> box_mie b false = Ok e ->
  ell_init h' r' c' = Ok e' -> length h' = 3%nat -> orthogonal 3 (pose_rot 3 r') ->
  (forall p, ell_set h' (pose_rot 3 r') (pose_tr 3 c') p -> box_set h (pose_rot 3 r) (pose_tr 3 c) p) ->
  e_volume e' <= e_volume e.
Proof. exact box_mie_maximal. Qed.
Print Assumptions C30_box_mie.
Theorem C30_box_mbe : forall h c r b e h' r' c' e',
  box_init h c r = Ok b -> orthogonal 3 (pose_rot 3 r) -> box_mbe b false = Ok e ->
  ell_init h' r' c' = Ok e' -> length h' = 3%nat -> orthogonal 3 (pose_rot 3 r') ->
  (forall p, box_set h (pose_rot 3 r) (pose_tr 3 c) p -> ell_set h' (pose_rot 3 r') (pose_tr 3 c') p) ->
  e_volume e <= e_volume e'.
Proof. exact box_mbe_minimal. Qed.
Print Assumptions C30_box_mbe.
Theorem C30_ellipsoid_mbb : forall h r c e b h' c' r' b',
  ell_init h r c = Ok e -> orthogonal 3 (pose_rot 3 r) -> ell_mbb e = Ok b ->
  box_init h' c' r' = Ok b' -> orthogonal 3 (pose_rot 3 r') ->
  (forall p, ell_set h (pose_rot 3 r) (pose_tr 3 c) p -> box_set h' (pose_rot 3 r') (pose_tr 3 c') p) ->
  b_volume b <= b_volume b'.
Proof. exact ell_mbb_minimal. Qed.
Print Assumptions C30_ellipsoid_mbb.
Theorem C30_ellipsoid_mib : forall h r c e b h' c' r' b',
  ell_init h r c = Ok e -> orthogonal 3 (pose_rot 3 r) -> ell_mib e = Ok b ->
  box_init h' c' r' = Ok b' -> orthogonal 3 (pose_rot 3 r') ->
  (forall p, box_set h' (pose_rot 3 r') (pose_tr 3 c') p -> ell_set h (pose_rot 3 r) (pose_tr 3 c) p) ->
  b_volume b' <= b_volume b.
Proof. exact ell_mib_maximal. Qed.
Print Assumptions C30_ellipsoid_mib.
Theorem C30_box_mie_sphere : forall h c r b e rad c' e',
  box_init h c r = Ok b -> orthogonal 3 (pose_rot 3 r) -> box_mie b true = Ok e ->
  0 <= rad -> length c' = 3%nat -> ell_sphere rad (Some c') = Ok e' ->
  (forall p, norm (vsub p c') <= rad -> length p = 3%nat -> box_set h (pose_rot 3 r) (pose_tr 3 c) p) ->
  e_volume e' <= e_volume e.
Proof. exact box_mie_sphere_maximal. Qed.
Print Assumptions C30_box_mie_sphere.
Theorem C30_cylinder_mbe : forall L r ro co c e h' r' c' e',
  cyl_init L r ro co = Ok c -> orthogonal 3 (pose_rot 3 ro) -> cyl_mbe c false = Ok e ->
  ell_init h' r' c' = Ok e' -> length h' = 3%nat -> orthogonal 3 (pose_rot 3 r') ->
  (forall p, cyl_set L r (pose_rot 3 ro) (pose_tr 3 co) p -> ell_set h' (pose_rot 3 r') (pose_tr 3 c') p) ->
  e_volume e <= e_volume e'.
Proof. exact cyl_mbe_minimal. Qed.
Print Assumptions C30_cylinder_mbe.
Theorem C30_cylinder_mib : forall L r ro co c b h' c' r' b',
  cyl_init L r ro co = Ok c -> orthogonal 3 (pose_rot 3 ro) -> cyl_mib c = Ok b ->
  box_init h' c' r' = Ok b' -> orthogonal 3 (pose_rot 3 r') ->
  (forall p, box_set h' (pose_rot 3 r') (pose_tr 3 c') p -> cyl_set L r (pose_rot 3 ro) (pose_tr 3 co) p) ->
  b_volume b' <= b_volume b.
Proof. exact cyl_mib_maximal. Qed.
Print Assumptions C30_cylinder_mib.
(** the bounding sphere is not the smallest unless the box is a cube: finding *)
Theorem C30_box_mbe_sphere_larger : forall h c r b e,
  box_init h c r = Ok b -> orthogonal 3 (pose_rot 3 r) -> box_mbe b true = Ok e ->
  ~ (nth 0 h 0 = nth 1 h 0 /\ nth 1 h 0 = nth 2 h 0) ->
  exists rad e', ell_sphere rad (Some (pose_tr 3 c)) = Ok e' /\
    (forall p, box_set h (pose_rot 3 r) (pose_tr 3 c) p -> ell_set (e_half e') (e_rot e') (e_center e') p) /\
    e_volume e' < e_volume e.
Proof. exact box_mbe_sphere_not_minimal. Qed.
Print Assumptions C30_box_mbe_sphere_larger.
Theorem C30_box_mbe_sphere_refuted : exists b e rad e', box_init [1; 2; 3] (Some t0) (Some Q0) = Ok b /\ orthogonal 3 Q0 /\ box_mbe b true = Ok e /\ ell_sphere rad (Some t0) = Ok e' /\
  (forall p, box_set [1; 2; 3] Q0 t0 p -> ell_set (e_half e') (e_rot e') (e_center e') p) /\ e_volume e' < e_volume e.
Proof. exact box_sphere_w. Qed.
Print Assumptions C30_box_mbe_sphere_refuted.
(** the hypotheses are met by the extremal shape itself *)
Example C30_example : exists b e, box_init [1; 2; 3] (Some t0) (Some Q0) = Ok b /\ box_mie b false = Ok e /\
  (forall p, ell_set [1; 2; 3] Q0 t0 p -> box_set [1; 2; 3] Q0 t0 p) /\
  ell_init [1; 2; 3] (Some Q0) (Some t0) = Ok e /\ orthogonal 3 Q0 /\ ~ (nth 0 [1; 2; 3] 0 = nth 1 [1; 2; 3] 0 /\ nth 1 [1; 2; 3] 0 = nth 2 [1; 2; 3] 0).
Proof.
  destruct box_example as (b & Hb). destruct (box_mie_total _ _ _ _ false Hb) as (e & He). exists b, e.
  split; [exact Hb|]. split; [exact He|]. split; [intro p; apply ell_in_box; lra|]. split; [|split; [exact Q0_orth|cbn; lra]].
  unfold box_mie in He. apply box_init_inv in Hb as (_ & _ & E1 & E2 & E3 & _). rewrite E1, E2, E3 in He. exact He.
Qed.
