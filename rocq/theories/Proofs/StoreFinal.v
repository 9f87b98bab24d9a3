From Verif Require Import Base.Vec Base.Ext Model.Util Model.Polydd Model.Poly Model.Inertial Model.Ellipsoid Model.Box Model.Cylinder
  Model.Moment Model.Realize Model.Store Model.StoreInertial Model.StoreShapes Spec.Sharing Proofs.StoreP Proofs.StoreInertialP Proofs.StoreShapesP.

(** ** InertialParameters *)
Lemma f_from_vec v s : live1 s v -> implements (ips_from_vec v) s (ip_from_vec (rd1 s v))
  (fun p s' q => ips_view s' p = q /\ independent s s' (fun t => ips_view t p) [a1_buf (s_com p); a2_buf (s_H p)]).
Proof. intro L. apply fresh_final. now apply ips_from_vec_fresh. Qed.
Lemma f_from_point_masses m P s : live1 s m -> live2 s P -> implements (ips_from_point_masses m P) s (ip_from_point_masses (rd1 s m) (rd2 s P))
  (fun p s' q => ips_view s' p = q /\ independent s s' (fun t => ips_view t p) [a1_buf (s_com p); a2_buf (s_H p)]).
Proof. intros. apply fresh_final. now apply ips_from_point_masses_fresh. Qed.
Lemma f_transform p R t s : live1 s (s_com p) -> live2 s (s_H p) -> live_opt live2 s R -> live_opt live1 s t ->
  implements (ips_transform p R t) s (ip_transform (ips_view s p) (option_map (rd2 s) R) (option_map (rd1 s) t))
  (fun p s' q => ips_view s' p = q /\ independent s s' (fun t => ips_view t p) [a1_buf (s_com p); a2_buf (s_H p)]).
Proof. intros. apply fresh_final. now apply ips_transform_fresh. Qed.
Lemma f_add p q s : live1 s (s_com p) -> live2 s (s_H p) -> live1 s (s_com q) -> live2 s (s_H q) ->
  implements (ips_add p q) s (ip_add (ips_view s p) (ips_view s q))
  (fun p s' q => ips_view s' p = q /\ independent s s' (fun t => ips_view t p) [a1_buf (s_com p); a2_buf (s_H p)]).
Proof. intros. apply fresh_final. now apply ips_add_fresh. Qed.
Lemma f_zero s : implements ips_zero s ip_zero
  (fun p s' q => ips_view s' p = q /\ independent s s' (fun t => ips_view t p) [a1_buf (s_com p); a2_buf (s_H p)]).
Proof. apply fresh_final. apply ips_zero_fresh. Qed.

(** ** shapes *)
Lemma f_ellipsoid half rot cen s : live1 s half -> live_opt live2 s rot -> live_opt live1 s cen ->
  implements (els_init half rot cen) s (ell_init (rd1 s half) (option_map (rd2 s) rot) (option_map (rd1 s) cen))
  (fun e s' q => els_view s' e = q /\ independent s s' (fun t => els_view t e) (els_bufs e)).
Proof. intros. apply els_indep. now apply els_init_fresh. Qed.
Lemma f_sphere radius cen s : live_opt live1 s cen ->
  implements (els_sphere radius cen) s (ell_sphere radius (option_map (rd1 s) cen))
  (fun e s' q => els_view s' e = q /\ independent s s' (fun t => els_view t e) (els_bufs e)).
Proof. intros. apply els_indep. now apply els_sphere_fresh. Qed.
Lemma f_ell_transform e rot tr s : live1 s (els_half e) -> live2 s (els_rot e) -> live1 s (els_center e) -> live_opt live2 s rot -> live_opt live1 s tr ->
  implements (els_transform e rot tr) s (ell_transform (els_view s e) (option_map (rd2 s) rot) (option_map (rd1 s) tr))
  (fun e s' q => els_view s' e = q /\ independent s s' (fun t => els_view t e) (els_bufs e)).
Proof. intros. apply els_indep. now apply els_transform_fresh. Qed.
Lemma f_ell_rotate e rot s : live1 s (els_half e) -> live2 s (els_rot e) -> live1 s (els_center e) -> live2 s rot ->
  implements (els_rotate_about_center e rot) s (ell_rotate_about_center (els_view s e) (rd2 s rot))
  (fun e s' q => els_view s' e = q /\ independent s s' (fun t => els_view t e) (els_bufs e)).
Proof. intros. apply els_indep. now apply els_rotate_fresh. Qed.
Lemma f_from_vertices dd V prune s : live2 s V -> implements (pls_from_vertices dd V prune) s (poly_from_vertices dd (rd2 s V) prune)
  (fun p s' q => pls_view s' p = q /\ pls_polys p = p_polys q /\ independent s s' (fun t => pls_view t p) (pls_bufs p)).
Proof. intros. apply pls_indep. now apply pls_from_vertices_fresh. Qed.
Lemma f_from_halfspaces dd A b s : live2 s A -> live1 s b -> implements (pls_from_halfspaces dd A b true) s (poly_from_halfspaces dd (rd2 s A) (rd1 s b) true)
  (fun p s' q => pls_view s' p = q /\ pls_polys p = p_polys q /\ independent s s' (fun t => pls_view t p) (pls_bufs p)).
Proof. intros. apply pls_indep. now apply pls_from_halfspaces_fresh. Qed.
Lemma f_box dd half cen rot s : live1 s half -> live_opt live1 s cen -> live_opt live2 s rot ->
  implements (bxs_init dd half cen rot) s (box_init (rd1 s half) (option_map (rd1 s) cen) (option_map (rd2 s) rot))
  (fun b s' q => bxs_view s' b = q /\ pls_polys (bxs_poly b) = p_polys (b_poly q) /\ independent s s' (fun t => bxs_view t b) (bxs_bufs b)).
Proof. intros. apply bxs_indep. now apply bxs_init_fresh. Qed.
Lemma f_cylinder len radius rot cen s : live_opt live2 s rot -> live_opt live1 s cen ->
  implements (cys_init len radius rot cen) s (cyl_init len radius (option_map (rd2 s) rot) (option_map (rd1 s) cen))
  (fun c s' q => cys_view s' c = q /\ independent s s' (fun t => cys_view t c) (cys_bufs c)).
Proof. intros. apply cys_indep. now apply cys_init_fresh. Qed.

Lemma imp_box_mono s0 s (m : st BoxS) r : grows s0 s -> implements m s r (bxs_fresh s) -> implements m s r (bxs_fresh s0).
Proof.
  intros G. apply imp_mono. intros b s' q _ _ (V & P & B & D). split; [exact V|]. split; [exact P|]. split; [|exact D]. intros x Hx. apply B in Hx. apply grows_length in G. lia.
Qed.
Lemma imp_cyl_mono s0 s (m : st CylS) r : grows s0 s -> implements m s r (cys_fresh s) -> implements m s r (cys_fresh s0).
Proof.
  intros G. apply imp_mono. intros b s' q _ _ (V & P & B & D). split; [exact V|]. split; [exact P|]. split; [|exact D]. intros x Hx. apply B in Hx. apply grows_length in G. lia.
Qed.
Lemma bxs_transform_fresh dd b rot tr s : live1 s (bxs_half b) -> live_opt live2 s rot -> live_opt live1 s tr ->
  implements (bxs_transform dd b rot tr) s (box_transform (bxs_view s b) (option_map (rd2 s) rot) (option_map (rd1 s) tr)) (bxs_fresh s).
Proof.
  intros Lh Lr Lt. unfold bxs_transform, box_transform. eapply (imp_get (fun s => bxs_view s b)); [reflexivity|]. set (bv := bxs_view s b).
  eapply imp_bind'; [exact (clean_spec rot tr 3 s Lr Lt)|]. intros [r c] s1 [rv tv] G1 (R1 & R1' & L1 & L1' & B1 & B1' & _). cbn [fst snd] in *.
  eapply imp_get2; [exact R1|]. eapply imp_get1; [exact R1'|].
  apply imp_alloc2. intros r2 s2 G2 R2 L2 B2. apply imp_alloc1. intros c2 s3 G3 R3 L3 B3.
  assert (G : grows s s3) by (eapply grows_trans; [exact G1|eapply grows_trans; eauto]).
  eapply (imp_copy1 _ _ s3 _ _ (b_half bv)); [unfold bv, bxs_view; cbn [b_half]; apply (grows_rd1 s s3); auto|]. intros h s4 G4 R4 L4 B4. hop G3. hop G4.
  pose proof (bxs_init_fresh dd h (Some c2) (Some r2) s4 L4 L3 L2) as HI. cbn [option_map] in HI. rewrite R4, R2, R3 in HI.
  eapply imp_box_mono; [|exact HI]. eapply grows_trans; eauto.
Qed.
Lemma f_box_transform dd b rot tr s : live1 s (bxs_half b) -> live_opt live2 s rot -> live_opt live1 s tr ->
  implements (bxs_transform dd b rot tr) s (box_transform (bxs_view s b) (option_map (rd2 s) rot) (option_map (rd1 s) tr))
  (fun b s' q => bxs_view s' b = q /\ pls_polys (bxs_poly b) = p_polys (b_poly q) /\ independent s s' (fun t => bxs_view t b) (bxs_bufs b)).
Proof. intros. apply bxs_indep. now apply bxs_transform_fresh. Qed.
Lemma f_box_rotate dd b rot s : live1 s (bxs_half b) -> live1 s (bxs_center b) -> live2 s rot ->
  implements (bxs_rotate_about_center dd b rot) s (box_rotate_about_center (bxs_view s b) (rd2 s rot))
  (fun b s' q => bxs_view s' b = q /\ pls_polys (bxs_poly b) = p_polys (b_poly q) /\ independent s s' (fun t => bxs_view t b) (bxs_bufs b)).
Proof.
  intros Lh Lc Lr. apply bxs_indep. unfold bxs_rotate_about_center, box_rotate_about_center. eapply (imp_get (fun s => bxs_view s b)); [reflexivity|]. set (bv := bxs_view s b).
  eapply imp_get2; [reflexivity|]. apply imp_lift. intros _ _.
  apply imp_alloc2. intros r2 s2 G2 R2 L2 B2.
  eapply (imp_copy1 _ _ s2 _ _ (b_center bv)); [unfold bv, bxs_view; cbn [b_center]; apply (grows_rd1 s s2); auto|]. intros c s3 G3 R3 L3 B3.
  assert (G : grows s s3) by (eapply grows_trans; eauto).
  eapply (imp_copy1 _ _ s3 _ _ (b_half bv)); [unfold bv, bxs_view; cbn [b_half]; apply (grows_rd1 s s3); auto|]. intros h s4 G4 R4 L4 B4. hop G3. hop G4.
  pose proof (bxs_init_fresh dd h (Some c) (Some r2) s4 L4 L3 L2) as HI. cbn [option_map] in HI. rewrite R4, R2, R3 in HI.
  eapply imp_box_mono; [|exact HI]. eapply grows_trans; eauto.
Qed.
Lemma f_box_mie b sphere s : live1 s (bxs_half b) -> live1 s (bxs_center b) -> live2 s (bxs_rot b) ->
  implements (bxs_mie b sphere) s (box_mie (bxs_view s b) sphere)
  (fun e s' q => els_view s' e = q /\ independent s s' (fun t => els_view t e) (els_bufs e)).
Proof.
  intros Lh Lc Lr. apply els_indep. unfold bxs_mie, box_mie. destruct sphere.
  - eapply imp_get1; [reflexivity|]. apply (els_sphere_fresh _ (Some (bxs_center b)) s Lc).
  - apply (els_init_fresh (bxs_half b) (Some (bxs_rot b)) (Some (bxs_center b)) s Lh Lr Lc).
Qed.
Lemma f_poly_transform dd p rot tr s : live_opt live2 s rot -> live_opt live1 s tr ->
  implements (pls_transform dd p rot tr) s (poly_transform dd (pls_view s p) (option_map (rd2 s) rot) (option_map (rd1 s) tr))
  (fun p s' q => pls_view s' p = q /\ pls_polys p = p_polys q /\ independent s s' (fun t => pls_view t p) (pls_bufs p)).
Proof.
  intros Lr Lt. apply pls_indep. unfold pls_transform, poly_transform. eapply (imp_get (fun s => pls_view s p)); [reflexivity|]. set (pv := pls_view s p).
  eapply imp_bind'; [exact (clean_spec rot tr (p_dim pv) s Lr Lt)|]. intros [r c] s1 [rv tv] G1 (R1 & R1' & L1 & L1' & B1 & B1' & _). cbn [fst snd] in *.
  eapply imp_get2; [exact R1|]. eapply imp_get1; [exact R1'|]. cbv zeta. apply imp_alloc2. intros V s2 G2 R2 L2 B2.
  pose proof (pls_from_vertices_fresh dd V false s2 L2) as HI. rewrite R2 in HI. eapply imp_mono; [|exact HI]. intros q s' x _ _ (K1 & K2 & K3 & K4 & K5).
  split; [exact K1|]. split; [exact K2|]. split; [exact K3|]. split; [exact K4|]. intros y Hy. apply K5 in Hy. apply grows_length in G1, G2. lia.
Qed.
Lemma cys_transform_fresh c rot tr s : live_opt live2 s rot -> live_opt live1 s tr ->
  implements (cys_transform c rot tr) s (cyl_transform (cys_view s c) (option_map (rd2 s) rot) (option_map (rd1 s) tr)) (cys_fresh s).
Proof.
  intros Lr Lt. unfold cys_transform, cyl_transform. eapply (imp_get (fun s => cys_view s c)); [reflexivity|]. set (cv := cys_view s c).
  eapply imp_bind'; [exact (clean_spec rot tr 3 s Lr Lt)|]. intros [r x] s1 [rv tv] G1 (R1 & R1' & L1 & L1' & B1 & B1' & _). cbn [fst snd] in *.
  eapply imp_get2; [exact R1|]. eapply imp_get1; [exact R1'|].
  apply imp_alloc2. intros r2 s2 G2 R2 L2 B2. apply imp_alloc1. intros c2 s3 G3 R3 L3 B3. hop G3.
  pose proof (cys_init_fresh (cys_length c) (cys_radius c) (Some r2) (Some c2) s3 L2 L3) as HI. cbn [option_map] in HI. rewrite R2, R3 in HI.
  eapply imp_cyl_mono; [|exact HI]. eapply grows_trans; [exact G1|eapply grows_trans; eauto].
Qed.
Lemma f_cyl_transform c rot tr s : live_opt live2 s rot -> live_opt live1 s tr ->
  implements (cys_transform c rot tr) s (cyl_transform (cys_view s c) (option_map (rd2 s) rot) (option_map (rd1 s) tr))
  (fun c s' q => cys_view s' c = q /\ independent s s' (fun t => cys_view t c) (cys_bufs c)).
Proof. intros. apply cys_indep. now apply cys_transform_fresh. Qed.
Lemma f_caps_transform k rot tr s : live_opt live2 s rot -> live_opt live1 s tr ->
  implements (cps_transform k rot tr) s (caps_transform (cps_view s k) (option_map (rd2 s) rot) (option_map (rd1 s) tr))
  (fun k s' q => cps_view s' k = q /\ forall ws, caller_writes s ws -> cps_view (wrs s' ws) k = q).
Proof.
  intros Lr Lt. unfold cps_transform, caps_transform, cyl_capsule. cbn [cps_view k_cyl].
  eapply imp_bind'; [exact (cys_transform_fresh (cps_cyl k) rot tr s Lr Lt)|]. intros c s1 q G1 (V & (L1 & L2 & L3 & L4 & L5 & L6) & B & _).
  pose proof (cps_spec c s1 L1 L2) as HC. rewrite V in HC. eapply imp_mono; [|apply HC].
  - intros k' s' q' G' EQ (W & K & X). split; [exact W|]. intros ws Hw. rewrite (X ws) by (eapply caller_grows; eauto). rewrite (cys_caller s s' c ws Hw B).
    rewrite <- W. unfold cps_view. rewrite K. cbn [k_caps]. reflexivity.
  - rewrite Forall_forall in L5, L6. intros e [<-|[<-|He]]; [exact L3|exact L4|]. apply in_app_or in He. destruct He as [He|He]; [exact (L5 e He)|exact (L6 e He)].
Qed.
(** the vertices property hands out the array of the span form: assignments to it change the vertices
    but neither the inequalities nor the polynomials *)
Lemma pls_vertices_own dd V prune s : live2 s V ->
  implements (pls_from_vertices dd V prune) s (poly_from_vertices dd (rd2 s V) prune)
    (fun p s' q => pls_polys p = p_polys q /\ forall a ws, pls_vertices p = Some a -> writes_to [a2_buf a] ws ->
       p_vertices (pls_view (wrs s' ws) p) = rd2 (wrs s' ws) a /\ p_face (pls_view (wrs s' ws) p) = p_face q).
Proof.
  intro L. unfold pls_from_vertices, poly_from_vertices.
  assert (C : forall s2 f, sfs_live s2 f -> implements (pls_init dd None (Some f)) s2 (poly_init dd None (Some (sfs_view s2 f)))
     (fun p s' q => pls_polys p = p_polys q /\ forall a ws, pls_vertices p = Some a -> writes_to [a2_buf a] ws ->
       p_vertices (pls_view (wrs s' ws) p) = rd2 (wrs s' ws) a /\ p_face (pls_view (wrs s' ws) p) = p_face q)).
  { intros s2 f LF. pose proof (pls_init_parts dd None (Some f) s2 I LF) as HP. eapply imp_mono; [|exact HP].
    intros p s' q _ _ (V1 & P1 & _ & _ & K1 & K2). split; [exact P1|]. intros a ws E W. unfold pls_vertices in E. split.
    - unfold p_vertices, pls_view, sfs_view. cbn [p_span sf_vertices]. rewrite E. reflexivity.
    - rewrite <- V1. cbn [pls_view p_face]. apply other_ffs. intros w x Hw Hx. specialize (K1 x Hx). specialize (W w Hw). destruct W as [W|[]]. rewrite <- W.
      destruct LF as [LF _]. rewrite K2 in E. rewrite E in LF. cbn in LF. unfold live2 in LF. lia. }
  destruct (sfs_init_fresh (Some V) None None s L I I) as (f & s1 & E & G & F). eapply imp_step; [exact E|exact G|]. cbn [option_map] in F. cbv zeta. destruct F as (VF & LF & B1 & B2). rewrite <- VF. destruct prune.
  - eapply imp_bind'; [apply sfs_canonical_fresh|]. intros o s2 oq G2 HF. cbn beta in HF. destruct o as [g|], oq as [h|]; try easy.
    destruct HF as (HV & HL & HB & HB'). rewrite <- HV. now apply C.
  - now apply C.
Qed.
