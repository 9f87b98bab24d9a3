(** Properties C89-C91: which objects share memory, and what assigning to an array, appending to a
    list or changing an object does to the others (src/rigeo/inertial.py, spatial.py, polydd.py,
    util.py, shape/*.py, rigidbody.py, multibody.py, moment.py). *)
From Verif Require Import Base.Vec Model.Util Model.Polydd Model.Poly Model.Inertial Model.Spatial Model.Ellipsoid Model.Box Model.Cylinder
  Model.Moment Model.Realize Model.RigidBody Model.MultiBody Model.Store Model.StoreInertial Model.StoreShapes Model.StoreObjects
  Spec.Basic Spec.Shapes Spec.PolySpec Spec.Sharing Spec.SharingObjects
  Proofs.StoreP Proofs.StoreInertialP Proofs.StoreW Proofs.StoreShapesP Proofs.StoreShapesW Proofs.StoreFinal Proofs.StoreObjectsP Proofs.StoreMultiP
  Proofs.StoreMiscP Proofs.StoreExamples.
Import ListNotations.

(** * C89 *)
Theorem C89_init : forall mass h com H I tfc s,
  live_opt live1 s h -> live_opt live1 s com -> live_opt live2 s H -> live_opt live2 s I ->
  implements (ips_init mass h com H I tfc) s
    (ip_init mass (option_map (rd1 s) h) (option_map (rd1 s) com) (option_map (rd2 s) H) (option_map (rd2 s) I) tfc)
    (fun p s' q => ips_view s' p = q /\
       forall ws, caller_writes s ws ->
         ips_view (wrs s' ws) p =
         {| ip_mass := ip_mass q;
            ip_com := match com with Some c => rd1 (wrs s' ws) c | None => ip_com q end;
            ip_H := match H, tfc with Some A, false => rd2 (wrs s' ws) A | _, _ => ip_H q end |}).
Proof. exact ips_init_spec. Qed.
Print Assumptions C89_init.
Theorem C89_from_vec : forall v s,
  live1 s v -> implements (ips_from_vec v) s (ip_from_vec (rd1 s v))
  (fun p s' q => ips_view s' p = q /\ independent s s' (fun t => ips_view t p) [a1_buf (s_com p); a2_buf (s_H p)]).
Proof. exact f_from_vec. Qed.
Print Assumptions C89_from_vec.
Theorem C89_from_pim : forall J s,
  live2 s J -> implements (ips_from_pim J) s (ip_from_pim (rd2 s J))
  (fun p s' q => ips_view s' p = q /\ forall ws, caller_writes s ws ->
     ips_view (wrs s' ws) p = {| ip_mass := ip_mass q; ip_com := ip_com q; ip_H := sub_mat 3 3 (rd2 (wrs s' ws) J) |}).
Proof. exact ips_from_pim_spec. Qed.
Print Assumptions C89_from_pim.
Theorem C89_from_point_masses : forall m P s,
  live1 s m -> live2 s P -> implements (ips_from_point_masses m P) s (ip_from_point_masses (rd1 s m) (rd2 s P))
  (fun p s' q => ips_view s' p = q /\ independent s s' (fun t => ips_view t p) [a1_buf (s_com p); a2_buf (s_H p)]).
Proof. exact f_from_point_masses. Qed.
Print Assumptions C89_from_point_masses.
Theorem C89_transform : forall p R t s,
  live1 s (s_com p) -> live2 s (s_H p) -> live_opt live2 s R -> live_opt live1 s t ->
  implements (ips_transform p R t) s (ip_transform (ips_view s p) (option_map (rd2 s) R) (option_map (rd1 s) t))
  (fun p s' q => ips_view s' p = q /\ independent s s' (fun t => ips_view t p) [a1_buf (s_com p); a2_buf (s_H p)]).
Proof. exact f_transform. Qed.
Print Assumptions C89_transform.
Theorem C89_add : forall p q s,
  live1 s (s_com p) -> live2 s (s_H p) -> live1 s (s_com q) -> live2 s (s_H q) ->
  implements (ips_add p q) s (ip_add (ips_view s p) (ips_view s q))
  (fun p s' q => ips_view s' p = q /\ independent s s' (fun t => ips_view t p) [a1_buf (s_com p); a2_buf (s_H p)]).
Proof. exact f_add. Qed.
Print Assumptions C89_add.
Theorem C89_sum : forall (p : IPS) (l : list IPS) s,
  Forall (fun p => live1 s (s_com p) /\ live2 s (s_H p)) (p :: l) ->
  implements (ips_sum p l) s (py_sum (map (ips_view s) (p :: l)))
    (fun a s' q => q = Params (ips_view s' a) /\ (l = [] -> a = p) /\ (l <> [] -> independent s s' (fun t => ips_view t a) [a1_buf (s_com a); a2_buf (s_H a)])).
Proof. exact f_sum. Qed.
Print Assumptions C89_sum.
Theorem C89_zero : forall s,
  implements ips_zero s ip_zero
  (fun p s' q => ips_view s' p = q /\ independent s s' (fun t => ips_view t p) [a1_buf (s_com p); a2_buf (s_H p)]).
Proof. exact f_zero. Qed.
Print Assumptions C89_zero.
Theorem C89_h : forall p s,
  implements (ips_h p) s (Ok (ip_h (ips_view s p)))
  (fun a s' v => rd1 s' a = v /\ independent s s' (fun t => rd1 t a) [a1_buf a]).
Proof. exact ips_h_spec. Qed.
Print Assumptions C89_h.
Theorem C89_J : forall p s,
  implements (ips_J p) s (Ok (ip_J (ips_view s p)))
  (fun a s' M => rd2 s' a = M /\ independent s s' (fun t => rd2 t a) [a2_buf a]).
Proof. exact ips_J_spec. Qed.
Print Assumptions C89_J.
Theorem C89_spatial_init : forall lin ang s,
  implements (svs_init lin ang) s (sv_init (option_map (rd1 s) lin) (option_map (rd1 s) ang))
  (fun v s' q => svs_view s' v = q /\ independent s s' (fun t => svs_view t v) [a1_buf (ss_vec v)]).
Proof. exact svs_init_spec. Qed.
Print Assumptions C89_spatial_init.
Theorem C89_spatial_from_vec : forall v s,
  implements (svs_from_vec v) s (sv_from_vec (rd1 s v))
  (fun u s' q => svs_view s' u = q /\ independent s s' (fun t => svs_view t u) [a1_buf (ss_vec u)]).
Proof. exact svs_from_vec_spec. Qed.
Print Assumptions C89_spatial_from_vec.
Theorem C89_spatial_views : forall v t,
  length (rd1 t (ss_vec v)) = 6%nat -> rd1 t (svs_linear v) = sv_linear (svs_view t v) /\ rd1 t (svs_angular v) = sv_angular (svs_view t v).
Proof. exact svs_views. Qed.
Print Assumptions C89_spatial_views.
(** a consistent pseudo-inertia matrix is changed into another one and the parameters built from it
    become inconsistent: finding *)
Theorem C89_from_pim_refuted : exists J s p s' ws,
  live2 s J /\ PSD 4 (rd2 s J) /\ ips_from_pim J s = Ok (p, s') /\ ip_J (ips_view s' p) = rd2 s J /\
  caller_writes s ws /\ PSD 4 (rd2 (wrs s' ws) J) /\ ~ PSD 4 (ip_J (ips_view (wrs s' ws) p)).
Proof. exact from_pim_w. Qed.
Print Assumptions C89_from_pim_refuted.
Theorem C89_com_refuted : exists c H s p s' ws,
  live1 s c /\ live2 s H /\ ips_init 1 None (Some c) (Some H) None false s = Ok (p, s') /\ PSD 4 (ip_J (ips_view s' p)) /\
  caller_writes s ws /\ writes_to [a1_buf c] ws /\ ~ PSD 4 (ip_J (ips_view (wrs s' ws) p)).
Proof. exact com_w. Qed.
Print Assumptions C89_com_refuted.
Example C89_example : exists s v t p s1 q s2 r s3, live1 s v /\ live1 s t /\ ips_from_vec v s = Ok (p, s1) /\
  ips_transform p None (Some t) s1 = Ok (q, s2) /\ ips_add q q s2 = Ok (r, s3) /\ s_mass r = 6 /\ (List.length s < List.length s3)%nat.
Proof. exact ex_params. Qed.

(** * C90 *)
Theorem C90_ellipsoid : forall half rot cen s,
  live1 s half -> live_opt live2 s rot -> live_opt live1 s cen ->
  implements (els_init half rot cen) s (ell_init (rd1 s half) (option_map (rd2 s) rot) (option_map (rd1 s) cen))
  (fun e s' q => els_view s' e = q /\ independent s s' (fun t => els_view t e) (els_bufs e)).
Proof. exact f_ellipsoid. Qed.
Print Assumptions C90_ellipsoid.
Theorem C90_sphere : forall radius cen s,
  live_opt live1 s cen ->
  implements (els_sphere radius cen) s (ell_sphere radius (option_map (rd1 s) cen))
  (fun e s' q => els_view s' e = q /\ independent s s' (fun t => els_view t e) (els_bufs e)).
Proof. exact f_sphere. Qed.
Print Assumptions C90_sphere.
Theorem C90_ellipsoid_transform : forall e rot tr s,
  live1 s (els_half e) -> live2 s (els_rot e) -> live1 s (els_center e) -> live_opt live2 s rot -> live_opt live1 s tr ->
  implements (els_transform e rot tr) s (ell_transform (els_view s e) (option_map (rd2 s) rot) (option_map (rd1 s) tr))
  (fun e s' q => els_view s' e = q /\ independent s s' (fun t => els_view t e) (els_bufs e)).
Proof. exact f_ell_transform. Qed.
Print Assumptions C90_ellipsoid_transform.
Theorem C90_ellipsoid_rotate : forall e rot s,
  live1 s (els_half e) -> live2 s (els_rot e) -> live1 s (els_center e) -> live2 s rot ->
  implements (els_rotate_about_center e rot) s (ell_rotate_about_center (els_view s e) (rd2 s rot))
  (fun e s' q => els_view s' e = q /\ independent s s' (fun t => els_view t e) (els_bufs e)).
Proof. exact f_ell_rotate. Qed.
Print Assumptions C90_ellipsoid_rotate.
Theorem C90_from_vertices : forall dd V prune s,
  live2 s V -> implements (pls_from_vertices dd V prune) s (poly_from_vertices dd (rd2 s V) prune)
  (fun p s' q => pls_view s' p = q /\ pls_polys p = p_polys q /\ independent s s' (fun t => pls_view t p) (pls_bufs p)).
Proof. exact f_from_vertices. Qed.
Print Assumptions C90_from_vertices.
Theorem C90_from_halfspaces : forall dd A b s,
  live2 s A -> live1 s b -> implements (pls_from_halfspaces dd A b true) s (poly_from_halfspaces dd (rd2 s A) (rd1 s b) true)
  (fun p s' q => pls_view s' p = q /\ pls_polys p = p_polys q /\ independent s s' (fun t => pls_view t p) (pls_bufs p)).
Proof. exact f_from_halfspaces. Qed.
Print Assumptions C90_from_halfspaces.
Theorem C90_from_halfspaces_shared : forall dd A b s,
  live2 s A -> live1 s b ->
  implements (pls_from_halfspaces dd A b false) s (poly_from_halfspaces dd (rd2 s A) (rd1 s b) false)
    (fun p s' q => pls_view s' p = q /\ pls_polys p = p_polys q /\
       forall ws, caller_writes s ws -> pls_view (wrs s' ws) p =
         {| p_face := {| ff_A := rd2 (wrs s' ws) A; ff_b := rd1 (wrs s' ws) b |}; p_span := p_span q |}).
Proof. exact pls_from_halfspaces_shared. Qed.
Print Assumptions C90_from_halfspaces_shared.
Theorem C90_face_form_equalities : forall A b Ae be s,
  live2 s A -> live1 s b -> live2 s Ae -> live1 s be ->
  implements (ffs_init A b (Some Ae) (Some be)) s (face_form (rd2 s A) (rd1 s b) (Some (rd2 s Ae)) (Some (rd1 s be)))
    (fun f s' q => ffs_view s' f = q /\ independent s s' (fun t => ffs_view t f) (ffs_bufs f)).
Proof. exact ffs_eq_fresh. Qed.
Print Assumptions C90_face_form_equalities.
Theorem C90_face_form_shared : forall A b s s',
  exists f, ffs_init A b None None s = Ok (f, s) /\ ffs_view s' f = {| ff_A := rd2 s' A; ff_b := rd1 s' b |}.
Proof. exact ffs_shared. Qed.
Print Assumptions C90_face_form_shared.
Theorem C90_polyhedron_transform : forall dd p rot tr s,
  live_opt live2 s rot -> live_opt live1 s tr ->
  implements (pls_transform dd p rot tr) s (poly_transform dd (pls_view s p) (option_map (rd2 s) rot) (option_map (rd1 s) tr))
  (fun p s' q => pls_view s' p = q /\ pls_polys p = p_polys q /\ independent s s' (fun t => pls_view t p) (pls_bufs p)).
Proof. exact f_poly_transform. Qed.
Print Assumptions C90_polyhedron_transform.
Theorem C90_vertices : forall dd V prune s,
  live2 s V ->
  implements (pls_from_vertices dd V prune) s (poly_from_vertices dd (rd2 s V) prune)
    (fun p s' q => pls_polys p = p_polys q /\ forall a ws, pls_vertices p = Some a -> writes_to [a2_buf a] ws ->
       p_vertices (pls_view (wrs s' ws) p) = rd2 (wrs s' ws) a /\ p_face (pls_view (wrs s' ws) p) = p_face q).
Proof. exact pls_vertices_own. Qed.
Print Assumptions C90_vertices.
Theorem C90_convex_hull : forall canon P s,
  live2 s P ->
  implements (convex_hull_s canon P) s (convex_hull canon (rd2 s P))
    (fun o s' q => option_map (rd2 s') o = q /\
       ((length (rd2 s P) <= 1)%nat -> o = Some P) /\
       ((2 <= length (rd2 s P))%nat -> forall a, o = Some a -> independent s s' (fun t => rd2 t a) [a2_buf a])).
Proof. exact hull_spec. Qed.
Print Assumptions C90_convex_hull.
Theorem C90_box : forall dd half cen rot s,
  live1 s half -> live_opt live1 s cen -> live_opt live2 s rot ->
  implements (bxs_init dd half cen rot) s (box_init (rd1 s half) (option_map (rd1 s) cen) (option_map (rd2 s) rot))
  (fun b s' q => bxs_view s' b = q /\ pls_polys (bxs_poly b) = p_polys (b_poly q) /\ independent s s' (fun t => bxs_view t b) (bxs_bufs b)).
Proof. exact f_box. Qed.
Print Assumptions C90_box.
Theorem C90_box_transform : forall dd b rot tr s,
  live1 s (bxs_half b) -> live_opt live2 s rot -> live_opt live1 s tr ->
  implements (bxs_transform dd b rot tr) s (box_transform (bxs_view s b) (option_map (rd2 s) rot) (option_map (rd1 s) tr))
  (fun b s' q => bxs_view s' b = q /\ pls_polys (bxs_poly b) = p_polys (b_poly q) /\ independent s s' (fun t => bxs_view t b) (bxs_bufs b)).
Proof. exact f_box_transform. Qed.
Print Assumptions C90_box_transform.
Theorem C90_box_rotate : forall dd b rot s,
  live1 s (bxs_half b) -> live1 s (bxs_center b) -> live2 s rot ->
  implements (bxs_rotate_about_center dd b rot) s (box_rotate_about_center (bxs_view s b) (rd2 s rot))
  (fun b s' q => bxs_view s' b = q /\ pls_polys (bxs_poly b) = p_polys (b_poly q) /\ independent s s' (fun t => bxs_view t b) (bxs_bufs b)).
Proof. exact f_box_rotate. Qed.
Print Assumptions C90_box_rotate.
Theorem C90_box_mie : forall b sphere s,
  live1 s (bxs_half b) -> live1 s (bxs_center b) -> live2 s (bxs_rot b) ->
  implements (bxs_mie b sphere) s (box_mie (bxs_view s b) sphere)
  (fun e s' q => els_view s' e = q /\ independent s s' (fun t => els_view t e) (els_bufs e)).
Proof. exact f_box_mie. Qed.
Print Assumptions C90_box_mie.
Theorem C90_box_center : forall dd half cen rot s,
  live1 s half -> live_opt live1 s cen -> live_opt live2 s rot ->
  implements (bxs_init dd half cen rot) s (box_init (rd1 s half) (option_map (rd1 s) cen) (option_map (rd2 s) rot))
    (fun b s' q => forall ws, writes_to [a1_buf (bxs_center b)] ws ->
       bxs_view (wrs s' ws) b = {| b_half := b_half q; b_center := rd1 (wrs s' ws) (bxs_center b); b_rot := b_rot q; b_poly := b_poly q |}).
Proof. exact bxs_center_own. Qed.
Print Assumptions C90_box_center.
Theorem C90_cylinder : forall len radius rot cen s,
  live_opt live2 s rot -> live_opt live1 s cen ->
  implements (cys_init len radius rot cen) s (cyl_init len radius (option_map (rd2 s) rot) (option_map (rd1 s) cen))
  (fun c s' q => cys_view s' c = q /\ independent s s' (fun t => cys_view t c) (cys_bufs c)).
Proof. exact f_cylinder. Qed.
Print Assumptions C90_cylinder.
Theorem C90_cylinder_transform : forall c rot tr s,
  live_opt live2 s rot -> live_opt live1 s tr ->
  implements (cys_transform c rot tr) s (cyl_transform (cys_view s c) (option_map (rd2 s) rot) (option_map (rd1 s) tr))
  (fun c s' q => cys_view s' c = q /\ independent s s' (fun t => cys_view t c) (cys_bufs c)).
Proof. exact f_cyl_transform. Qed.
Print Assumptions C90_cylinder_transform.
Theorem C90_cylinder_center : forall len radius rot cen s,
  live_opt live2 s rot -> live_opt live1 s cen ->
  implements (cys_init len radius rot cen) s (cyl_init len radius (option_map (rd2 s) rot) (option_map (rd1 s) cen))
    (fun c s' q => forall ws, writes_to [a1_buf (cys_center c)] ws ->
       let q' := cys_view (wrs s' ws) c in
       q' = {| c_length := c_length q; c_radius := c_radius q; c_rot := c_rot q; c_center := rd1 (wrs s' ws) (cys_center c);
               c_ell1 := c_ell1 q; c_ell2 := c_ell2 q; c_disk0s := c_disk0s q; c_disks := c_disks q |} /\
       forall x tol, cyl_contains q' x tol = cyl_contains q x tol).
Proof. exact cys_center_own. Qed.
Print Assumptions C90_cylinder_center.
Theorem C90_capsule : forall c s,
  live2 s (cys_rot c) -> live1 s (cys_center c) ->
  (forall e, In e (cys_ell1 c :: cys_ell2 c :: cys_disk0s c ++ cys_disks c) -> live1 s (els_half e) /\ live2 s (els_rot e) /\ live1 s (els_center e)) ->
  implements (cps_init c) s (caps_init (cys_view s c))
    (fun k s' q => cps_view s' k = q /\ cps_cyl k = c /\
       forall ws, caller_writes s ws -> cps_view (wrs s' ws) k = {| k_cyl := cys_view (wrs s' ws) c; k_caps := k_caps q |}).
Proof. exact cps_spec. Qed.
Print Assumptions C90_capsule.
Theorem C90_capsule_transform : forall k rot tr s,
  live_opt live2 s rot -> live_opt live1 s tr ->
  implements (cps_transform k rot tr) s (caps_transform (cps_view s k) (option_map (rd2 s) rot) (option_map (rd1 s) tr))
  (fun k s' q => cps_view s' k = q /\ forall ws, caller_writes s ws -> cps_view (wrs s' ws) k = q).
Proof. exact f_caps_transform. Qed.
Print Assumptions C90_capsule_transform.
(** assigning to center moves a cylinder's centre out of the set it tests: finding *)
Theorem C90_cylinder_center_refuted : exists s c s' ws,
  cys_init 2 1 None None s = Ok (c, s') /\ writes_to [a1_buf (cys_center c)] ws /\
  cyl_contains (cys_view s' c) (c_center (cys_view s' c)) 0 = true /\
  cyl_contains (cys_view (wrs s' ws) c) (c_center (cys_view (wrs s' ws) c)) 0 = false.
Proof. exact cyl_center_w. Qed.
Print Assumptions C90_cylinder_center_refuted.
(** a polyhedron whose half spaces the caller changes no longer contains its own vertices: finding *)
Theorem C90_from_halfspaces_refuted : exists dd A b s p s' ws,
  live2 s A /\ live1 s b /\ pls_from_halfspaces dd A b false s = Ok (p, s') /\ poly_agree 1 (pls_view s' p) /\ caller_writes s ws /\
  exists v, In v (p_vertices (pls_view (wrs s' ws) p)) /\ poly_contains (pls_view s' p) v 0 = true /\
            poly_contains (pls_view (wrs s' ws) p) v 0 = false /\ pls_polys p <> p_polys (pls_view (wrs s' ws) p).
Proof. exact halfspaces_w. Qed.
Print Assumptions C90_from_halfspaces_refuted.
Example C90_example dd : exists s half cen rot b s', live1 s half /\ live1 s cen /\ live2 s rot /\ orthogonal 3 (rd2 s rot) /\
  bxs_init dd half (Some cen) (Some rot) s = Ok (b, s') /\ b_half (bxs_view s' b) = [1; 2; 3] /\ b_center (bxs_view s' b) = [4; 5; 6].
Proof. exact (ex_box dd). Qed.

(** * C91 *)
Theorem C91_body : forall l p h,
  live_list h l -> match p with Some p => (p < length (o_params h))%nat | None => True end ->
  has_outcome (bs_init (ListObj l) p h) (rb_init (ShapeList (map (shape_at h) (list_at h l))) (option_map (params_at h) p))
    (fun b h' q => bs_view h' b = q /\ heap_grows h h' /\
       forall ms, caller_changes h ms -> bs_view (changes h' ms) b =
         {| bd_shapes := map (shape_at (changes h' ms)) (list_at (changes h' ms) l);
            bd_params := match p with Some p => params_at (changes h' ms) p | None => bd_params q end |}).
Proof. exact bs_init_spec. Qed.
Print Assumptions C91_body.
Theorem C91_body_one : forall r p h,
  (r < length (o_shapes h))%nat -> (p < length (o_params h))%nat ->
  has_outcome (bs_init (OneObj r) (Some p) h) (rb_init (OneShape (shape_at h r)) (Some (params_at h p)))
    (fun b h' q => bs_view h' b = q /\ heap_grows h h' /\
       forall ms, caller_changes h ms -> bs_view (changes h' ms) b =
         {| bd_shapes := [shape_at (changes h' ms) r]; bd_params := params_at (changes h' ms) p |}).
Proof. exact bs_one_spec. Qed.
Print Assumptions C91_body_one.
Theorem C91_body_add : forall a b h,
  live_body h a -> live_body h b ->
  has_outcome (bs_add a b h) (rb_add (bs_view h a) (bs_view h b))
    (fun c h' q => bs_view h' c = q /\ heap_grows h h' /\
       (forall ms, caller_changes h ms -> bs_view (changes h' ms) c =
         {| bd_shapes := map (shape_at (changes h' ms)) (list_at h (bs_shapes a) ++ list_at h (bs_shapes b)); bd_params := bd_params q |}) /\
       (forall r q' d, live_body h d -> bs_view (changes h' [Append (bs_shapes c) r; SetParams (bs_params c) q']) d = bs_view h d)).
Proof. exact bs_add_spec. Qed.
Print Assumptions C91_body_add.
Theorem C91_body_sum_single : forall b h,
  bs_radd0 b h = Ok (b, h) /\ rb_radd (bs_view h b) BIntZero = Ok (bs_view h b).
Proof. exact bs_sum_single. Qed.
Print Assumptions C91_body_sum_single.
Theorem C91_body_mbes : forall mp me b sphere h,
  live_body h b ->
  has_outcome (bs_mbes mp me b sphere h) (rb_mbes mp me (bs_view h b) sphere)
    (fun c h' q => bs_view h' c = q /\ heap_grows h h' /\ bs_params c = bs_params b /\
       forall ms, caller_changes h ms -> bs_view (changes h' ms) c =
         {| bd_shapes := bd_shapes q; bd_params := params_at (changes h' ms) (bs_params b) |}).
Proof. exact bs_mbes_spec. Qed.
Print Assumptions C91_body_mbes.
Theorem C91_body_transform : forall dd b R t h,
  live_body h b ->
  has_outcome (bs_transform dd b R t h) (rb_transform dd (bs_view h b) R t)
    (fun c h' q => bs_view h' c = q /\ heap_grows h h' /\ forall ms, caller_changes h ms -> bs_view (changes h' ms) c = q).
Proof. exact bs_transform_spec. Qed.
Print Assumptions C91_body_transform.
Theorem C91_multibody : forall dd inertias l h,
  has_outcome (mbs_add_geoms dd inertias [] l h) (add_geoms dd inertias [] l)
    (fun d h' q => map (fun kb => (fst kb, bs_view h' (snd kb))) d = q /\ heap_grows h h' /\
       forall k b k' b' r, dget d k = Some b -> dget d k' = Some b' -> k <> k' -> bs_view (changes h' [Append (bs_shapes b) r]) b' = bs_view h' b').
Proof. exact mbs_spec. Qed.
Print Assumptions C91_multibody.
Theorem C91_torque_regressor : forall n m regressor_pin M q v a Y_pin s,
  live2 s Y_pin -> rd2 s Y_pin = regressor_pin q v a -> is_mat n m (regressor_pin q v a) ->
  implements (torque_regressor_s (pm_nv (mb_model M)) Y_pin) s (mb_torque_regressor regressor_pin M q v a)
    (fun Y s' Z => rd2 s' Y = Z /\ rd2 s' Y_pin = rd2 s Y_pin /\ independent s s' (fun t => rd2 t Y) [a2_buf Y]).
Proof. exact torque_regressor_model. Qed.
Print Assumptions C91_torque_regressor.
Theorem C91_polynomial_add : forall p q h,
  (p < length h)%nat -> (q < length h)%nat ->
  exists r h', pos_add p q h = (r, h') /\ extends h h' /\ (length h <= r)%nat /\ dict_at h' r = pol_add (dict_at h p) (dict_at h q).
Proof. exact pos_add_spec. Qed.
Print Assumptions C91_polynomial_add.
Theorem C91_localizing_matrix : forall (h : mheap) (s : MMS) (v : nat) (p : list (list nat * R)),
  (mms_indices s < length h)%nat -> all_indices h (mms_indices s) ->
  has_outcome (mms_localizing_matrix s v p h)
    (mm_localizing_matrix {| mm_n := mms_n s; mm_d := mms_d s; mm_r := mms_r s; mm_indices := index_matrix h (mms_indices s) |} v p)
    (fun M h' L => marr_at h' M = map (map CPol) L /\ extends h h' /\ (length h <= M)%nat).
Proof. exact localizing_spec. Qed.
Print Assumptions C91_localizing_matrix.
Example C91_example dd : exists inertias geoms bodies h', List.length geoms = 3%nat /\
  mbs_add_geoms dd inertias [] geoms {| o_shapes := []; o_lists := []; o_params := [] |} = Ok (bodies, h') /\
  exists b1 b2, dget bodies 1 = Some b1 /\ dget bodies 2 = Some b2 /\ list_at h' (bs_shapes b1) = [0; 2]%nat /\ list_at h' (bs_shapes b2) = [1]%nat /\
    live_body h' b1 /\ live_body h' b2 /\ bs_shapes b1 <> bs_shapes b2 /\
    exists b h'', bs_add b1 b2 h' = Ok (b, h'') /\ list_at h'' (bs_shapes b) = [0; 2; 1]%nat /\ ip_mass (bd_params (bs_view h'' b)) = 3.
Proof. exact (ex_arm dd). Qed.
Example C91_example_polynomial : exists h, dict_at (snd (pos_add 0 0 h)) (fst (pos_add 0 0 h)) = [([1; 0]%nat, 4); ([0; 2]%nat, 6)].
Proof. exact ex_poly. Qed.
Example C91_example_moment : exists h s p M h', (mms_indices s < List.length h)%nat /\ all_indices h (mms_indices s) /\
  index_matrix h (mms_indices s) = [[Index [0]; Index [1]]; [Index [1]; Index [2]]]%nat /\
  mms_localizing_matrix s 0 p h = Ok (M, h') /\ nth 1 (nth 1 (marr_at h' M) []) (CIdx PyZero) = CPol [([2]%nat, 1); ([3]%nat, -1)].
Proof. exact ex_moment. Qed.
