(** C59: density parameters are consistent, realizable on their shape and move with it. *)
From Verif Require Import Base.Vec Base.VecFacts Spec.Basic Spec.Objects Spec.Shapes Spec.ShapeObjects Spec.Realizable Spec.Integrals
  Model.Util Model.Inertial Model.Polydd Model.Poly Model.Ellipsoid Model.Box Model.Cylinder Model.Realize
  Proofs.Coord Proofs.InertialP Proofs.InertialT Proofs.BoxP Proofs.EllP Proofs.CylP Proofs.CylCustom Proofs.TransformP Proofs.RealizeX Proofs.DensityP.

Definition corners8 (m a b c : R) : pms :=
  [(m / 8, [a; b; c]); (m / 8, [a; b; - c]); (m / 8, [a; - b; c]); (m / 8, [a; - b; - c]);
   (m / 8, [- a; b; c]); (m / 8, [- a; b; - c]); (m / 8, [- a; - b; c]); (m / 8, [- a; - b; - c])].
Lemma corners8_describes m a b c : 0 < m -> describes (dparams0 m (a * a) (b * b) (c * c)) (corners8 m a b c).
Proof.
  intro Hm. unfold describes, dparams0. cbn [ip_mass ip_com ip_H]. cbn. apply has_moments_coords.
  unfold pms_mass, pms_first, pms_second, corners8. cbn. repeat split; field; lra.
Qed.
Lemma dparams_sound (K : vec -> Prop) m a b c Q t : 0 < m -> is_mat 3 3 Q -> length t = 3%nat ->
  (forall u, In u [[a; b; c]; [a; b; - c]; [a; - b; c]; [a; - b; - c]; [- a; b; c]; [- a; b; - c]; [- a; - b; c]; [- a; - b; - c]] -> K (move Q t u)) ->
  sound_params K m t (dparams m (a * a) (b * b) (c * c) Q t).
Proof.
  intros Hm HQ Ht HK.
  assert (O0 : pms_ok (corners8 m a b c)) by (intros mp Hin; unfold corners8 in Hin; cbn in Hin; repeat destruct Hin as [<-|Hin]; try reflexivity; easy).
  destruct (transform_describes (dparams0 m (a * a) (b * b) (c * c)) (Some Q) (Some t) (corners8 m a b c)) as (q & E & Hd); auto; [now apply corners8_describes|cbn; lra|].
  rewrite dparams_transform in E by auto. injection E as <-. cbn [rot_of tr_of] in Hd. destruct (describes_ok _ _ Hd) as [Hok Hsym].
  assert (O1 : pms_ok (pms_move Q t (corners8 m a b c))).
  { intros mp Hin. apply in_map_iff in Hin as (mp0 & <- & Hin). cbn. now apply move_length. }
  assert (N1 : pms_nonneg (pms_move Q t (corners8 m a b c))).
  { intros mp Hin. apply in_map_iff in Hin as (mp0 & <- & Hin). unfold corners8 in Hin. cbn in Hin. repeat destruct Hin as [<-|Hin]; try easy; cbn; lra. }
  split; [exact Hok|]. split; [reflexivity|]. split; [reflexivity|]. split; [exact Hsym|]. split; [now apply (describes_PSD _ _ Hd)|].
  exists (pms_move Q t (corners8 m a b c)). split; [exact O1|]. split; [exact N1|]. split; [|exact Hd].
  intros mp Hin. apply in_map_iff in Hin as (mp0 & <- & Hin). cbn. apply HK. unfold corners8 in Hin. cbn in Hin |- *. repeat destruct Hin as [<-|Hin]; try easy; cbn; tauto.
Qed.
(** second moments k_i h_i^2 *)
Lemma dparams_sound_k (K : vec -> Prop) m x y z k1 k2 k3 Q t : 0 < m -> is_mat 3 3 Q -> length t = 3%nat -> 0 <= k1 -> 0 <= k2 -> 0 <= k3 ->
  (forall s1 s2 s3, s1 * s1 = k1 -> s2 * s2 = k2 -> s3 * s3 = k3 -> K (move Q t [x * s1; y * s2; z * s3])) ->
  sound_params K m t (dparams m (x * x * k1) (y * y * k2) (z * z * k3) Q t).
Proof.
  intros Hm HQ Ht H1 H2 H3 HK. pose proof (sqrt_sqrt _ H1) as S1. pose proof (sqrt_sqrt _ H2) as S2. pose proof (sqrt_sqrt _ H3) as S3.
  replace (x * x * k1) with (x * sqrt k1 * (x * sqrt k1)) by (rewrite <- S1 at 3; ring).
  replace (y * y * k2) with (y * sqrt k2 * (y * sqrt k2)) by (rewrite <- S2 at 3; ring).
  replace (z * z * k3) with (z * sqrt k3 * (z * sqrt k3)) by (rewrite <- S3 at 3; ring).
  apply dparams_sound; auto. intros u Hu. cbn in Hu.
  repeat destruct Hu as [<-|Hu]; try easy; rewrite ?Ropp_mult_distr_r; apply HK; rewrite ?Rmult_opp_opp; assumption.
Qed.
Lemma box_corner x y z s1 s2 s3 k1 k2 k3 Q t : 0 <= x -> 0 <= y -> 0 <= z -> k1 <= 1 -> k2 <= 1 -> k3 <= 1 ->
  s1 * s1 = k1 -> s2 * s2 = k2 -> s3 * s3 = k3 -> box_set [x; y; z] Q t (move Q t [x * s1; y * s2; z * s3]).
Proof.
  intros Hx Hy Hz K1 K2 K3 <- <- <-. exists [x * s1; y * s2; z * s3]. split; [|reflexivity]. split; [reflexivity|].
  assert (B : forall h s, 0 <= h -> s * s <= 1 -> Rabs (h * s) <= h). { intros h s Hh Hs. apply Rabs_le. assert (-1 <= s <= 1) by (split; nra). split; nra. }
  intros i Hi. cbn in Hi. destruct i as [|[|[|i]]]; try lia; cbn; auto.
Qed.
Lemma ell_corner x y z s1 s2 s3 k1 k2 k3 Q t : k1 + k2 + k3 <= 1 ->
  s1 * s1 = k1 -> s2 * s2 = k2 -> s3 * s3 = k3 -> ell_set [x; y; z] Q t (move Q t [x * s1; y * s2; z * s3]).
Proof. intros K1 <- <- <-. exists [s1; s2; s3]. split; [reflexivity|]. split; [cbn; lra|]. reflexivity. Qed.

Lemma div_le_1 a b : 0 < b -> a <= b -> a / b <= 1.
Proof. intros Hb H. apply (Rmult_le_reg_r b); [exact Hb|]. unfold Rdiv. rewrite Rmult_assoc, Rinv_l by lra. lra. Qed.
Lemma div_nonneg a b : 0 < b -> 0 <= a -> 0 <= a / b.
Proof. intros Hb H. apply Rmult_le_pos; [exact H|]. left. now apply Rinv_0_lt_compat. Qed.

Lemma box_uniform_sound h c r b m : box_init h c r = Ok b -> 0 < m ->
  exists p, box_uniform_density_params b m = Ok p /\ sound_params (box_set h (pose_rot 3 r) (pose_tr 3 c)) m (pose_tr 3 c) p.
Proof.
  intros Hb Hm. eexists. split; [now apply (box_uniform_ok h c r)|]. apply box_init_inv in Hb as (L3 & P3 & E1 & E2 & E3 & MQ & LC & _). rewrite E2, E3 in *.
  destruct (len3_inv _ L3) as (x & y & z & ->). destruct (nonneg3 _ _ _ P3) as (Px & Py & Pz). cbn [nth].
  apply (dparams_sound_k _ _ x y z (/ 3) (/ 3) (/ 3)); auto; try lra. intros. eapply box_corner; eauto; lra.
Qed.
Lemma box_hollow_sound h c r b m : box_init h c r = Ok b -> 0 < nth 0 h 0 * nth 1 h 0 + nth 0 h 0 * nth 2 h 0 + nth 1 h 0 * nth 2 h 0 -> 0 < m ->
  exists p, box_hollow_density_params b m = Ok p /\ sound_params (box_set h (pose_rot 3 r) (pose_tr 3 c)) m (pose_tr 3 c) p.
Proof.
  intros Hb Hp Hm. pose proof (box_init_inv _ _ _ _ Hb) as (L3 & P3 & E1 & E2 & E3 & MQ & LC & _). rewrite E2, E3 in *.
  destruct (len3_inv _ L3) as (x & y & z & ->). destruct (nonneg3 _ _ _ P3) as (Px & Py & Pz). cbn [nth] in Hp. eexists. split; [now apply (box_hollow_ok _ _ _ _ _ x y z Hb)|].
  assert (0 <= x * y) by nra. assert (0 <= x * z) by nra. assert (0 <= y * z) by nra. unfold Rdiv. rewrite !(Rmult_assoc (_ * _) (_ + _)).
  apply dparams_sound_k; auto; try (apply div_nonneg; lra). intros. eapply box_corner; eauto; apply div_le_1; lra.
Qed.
Lemma box_wireframe_sound h c r b m : box_init h c r = Ok b -> 0 < nth 0 h 0 + nth 1 h 0 + nth 2 h 0 -> 0 < m ->
  exists p, box_wireframe_density_params b m = Ok p /\ sound_params (box_set h (pose_rot 3 r) (pose_tr 3 c)) m (pose_tr 3 c) p.
Proof.
  intros Hb Hp Hm. pose proof (box_init_inv _ _ _ _ Hb) as (L3 & P3 & E1 & E2 & E3 & MQ & LC & _). rewrite E2, E3 in *.
  destruct (len3_inv _ L3) as (x & y & z & ->). destruct (nonneg3 _ _ _ P3) as (Px & Py & Pz). cbn [nth] in Hp. eexists. split; [now apply (box_wireframe_ok _ _ _ _ _ x y z Hb)|].
  unfold Rdiv at 1 3 5. rewrite !(Rmult_assoc (_ * _) (_ + _)).
  apply dparams_sound_k; auto; try (apply div_nonneg; lra). intros. eapply box_corner; eauto; apply div_le_1; lra.
Qed.
Lemma ell_uniform_sound h r c e m : ell_init h r c = Ok e -> length h = 3%nat -> 0 < m ->
  exists p, ell_uniform_density_params e m = Ok p /\ sound_params (ell_set h (pose_rot 3 r) (pose_tr 3 c)) m (pose_tr 3 c) p.
Proof.
  intros He L3 Hm. eexists. split; [now apply (ell_uniform_ok h r c)|]. apply ell_init_inv in He as (P3 & E1 & E2 & E3 & MQ & LC). rewrite L3 in *. rewrite E2, E3 in *.
  destruct (len3_inv _ L3) as (x & y & z & ->). cbn [nth].
  apply (dparams_sound_k _ _ x y z (/ 5) (/ 5) (/ 5)); auto; try lra. intros. eapply ell_corner; eauto; lra.
Qed.
Lemma ell_hollow_sound h r c e m : ell_init h r c = Ok e -> length h = 3%nat ->
  0 < nth 0 h 0 * nth 1 h 0 + nth 0 h 0 * nth 2 h 0 + nth 1 h 0 * nth 2 h 0 -> 0 < m ->
  exists p, ell_hollow_density_params e m = Ok p /\ sound_params (ell_set h (pose_rot 3 r) (pose_tr 3 c)) m (pose_tr 3 c) p.
Proof.
  intros He L3 Hp Hm. pose proof (ell_init_inv _ _ _ _ He) as (P3 & E1 & E2 & E3 & MQ & LC). rewrite L3 in *. rewrite E2, E3 in *.
  destruct (len3_inv _ L3) as (x & y & z & ->). destruct (nonneg3 _ _ _ P3) as (Px & Py & Pz). cbn [nth] in Hp. eexists. split; [now apply (ell_hollow_ok _ _ _ _ _ x y z He)|].
  assert (0 <= x * y) by nra. assert (0 <= x * z) by nra. assert (0 <= y * z) by nra. unfold Rdiv. rewrite !(Rmult_assoc (_ * _) (_ + _)).
  apply dparams_sound_k; auto; try (apply div_nonneg; lra). intros. eapply ell_corner; eauto. right. field. lra.
Qed.
Lemma cyl_uniform_sound L R r c x m : cyl_init L R r c = Ok x -> 0 < m ->
  exists p, cyl_uniform_density_params x m = Ok p /\ sound_params (cyl_set L R (pose_rot 3 r) (pose_tr 3 c)) m (pose_tr 3 c) p.
Proof.
  intros Hx Hm. eexists. split; [now apply (cyl_uniform_ok L R r c)|]. apply cyl_init_inv in Hx as (HL & HR & MQ & LC & _).
  apply (dparams_sound_k _ _ R R L (/ 4) (/ 4) (/ 12)); auto; try lra. intros s1 s2 s3 F1 F2 F3. exists (R * s1), (R * s2), (L * s3). split; [nra|]. split; [|reflexivity].
  apply Rabs_le. assert (- (1 / 2) <= s3 <= 1 / 2) by (split; nra). split; nra.
Qed.

(** the ellipsoid's own test *)
Lemma ell_uniform_accepted h r c e m eigvals : ell_init h r c = Ok e -> length h = 3%nat -> orthogonal 3 (pose_rot 3 r) -> proper_half h -> 0 < m ->
  exists p, ell_uniform_density_params e m = Ok p /\
    (eigvals_spec 4 (ip_J p) (eigvals (ip_J p)) -> ell_can_realize eigvals e p 0 = Ok true).
Proof.
  intros He L3 HQ Hpr Hm. destruct (ell_uniform_sound h r c e m He L3 Hm) as (p & E & (S1 & S2 & S3 & S4 & S5 & S6)). exists p. split; [exact E|]. intro Hei.
  now apply (ell_x_test_degenerate0 h r c).
Qed.
Lemma ell_hollow_accepted h r c e m eigvals : ell_init h r c = Ok e -> length h = 3%nat -> orthogonal 3 (pose_rot 3 r) -> proper_half h ->
  0 < nth 0 h 0 * nth 1 h 0 + nth 0 h 0 * nth 2 h 0 + nth 1 h 0 * nth 2 h 0 -> 0 < m ->
  exists p, ell_hollow_density_params e m = Ok p /\
    (eigvals_spec 4 (ip_J p) (eigvals (ip_J p)) -> ell_can_realize eigvals e p 0 = Ok true).
Proof.
  intros He L3 HQ Hpr Hd Hm. destruct (ell_hollow_sound h r c e m He L3 Hd Hm) as (p & E & (S1 & S2 & S3 & S4 & S5 & S6)). exists p. split; [exact E|]. intro Hei.
  now apply (ell_x_test_degenerate0 h r c).
Qed.

(** ** rigid transforms *)
Lemma ip_transform_pose p ro tr : ip_transform p ro tr = ip_transform p (Some (pose_rot 3 ro)) (Some (pose_tr 3 tr)).
Proof. destruct ro, tr; reflexivity. Qed.
Lemma dparams_moves m s1 s2 s3 Q c ro tr : 0 < m -> is_mat 3 3 Q -> length c = 3%nat -> is_mat 3 3 (pose_rot 3 ro) -> length (pose_tr 3 tr) = 3%nat ->
  ip_transform (dparams m s1 s2 s3 Q c) ro tr = Ok (dparams m s1 s2 s3 (mat_mul (pose_rot 3 ro) Q) (vadd (mat_vec (pose_rot 3 ro) c) (pose_tr 3 tr))).
Proof.
  intros Hm HQ Hc HR HT.
  destruct (ip_transform_compose (dparams0 m s1 s2 s3) Q c (pose_rot 3 ro) (pose_tr 3 tr)) as (q & E & F); auto; [|cbn; lra|].
  { split; [reflexivity|]. apply is_mat33. }
  rewrite dparams_transform in E by auto. injection E as <-. rewrite ip_transform_pose, F. apply dparams_transform; auto.
  - eapply (is_mat_mul 3 3 3); eauto.
  - apply move_length; auto.
Qed.
Lemma box_uniform_moves h c r b ro tr b' m : box_init h c r = Ok b -> box_transform b ro tr = Ok b' -> 0 < m ->
  exists p q, box_uniform_density_params b m = Ok p /\ ip_transform p ro tr = Ok q /\ box_uniform_density_params b' m = Ok q.
Proof.
  intros Hb Ht Hm. destruct (box_transform_eq _ _ _ _ _ _ _ Hb Ht) as (MR & LT & Hb'). do 2 eexists. split; [now apply (box_uniform_ok h c r)|].
  split; [|now apply (box_uniform_ok _ _ _ _ _ Hb')]. apply box_init_inv in Hb as (L3 & _ & E1 & E2 & E3 & MQ & LC & _). rewrite E2, E3 in *. now apply dparams_moves.
Qed.
Lemma box_hollow_moves h c r b ro tr b' m : box_init h c r = Ok b -> box_transform b ro tr = Ok b' ->
  0 < nth 0 h 0 * nth 1 h 0 + nth 0 h 0 * nth 2 h 0 + nth 1 h 0 * nth 2 h 0 -> 0 < m ->
  exists p q, box_hollow_density_params b m = Ok p /\ ip_transform p ro tr = Ok q /\ box_hollow_density_params b' m = Ok q.
Proof.
  intros Hb Ht Hd Hm. destruct (box_transform_eq _ _ _ _ _ _ _ Hb Ht) as (MR & LT & Hb').
  pose proof (box_init_inv _ _ _ _ Hb) as (L3 & _ & E1 & E2 & E3 & MQ & LC & _). rewrite E2, E3 in *. destruct (len3_inv _ L3) as (x & y & z & ->). cbn [nth] in Hd.
  do 2 eexists. split; [now apply (box_hollow_ok [x; y; z] c r _ _ x y z)|]. split; [|now apply (box_hollow_ok _ _ _ _ _ x y z Hb')]. now apply dparams_moves.
Qed.
Lemma box_wireframe_moves h c r b ro tr b' m : box_init h c r = Ok b -> box_transform b ro tr = Ok b' ->
  0 < nth 0 h 0 + nth 1 h 0 + nth 2 h 0 -> 0 < m ->
  exists p q, box_wireframe_density_params b m = Ok p /\ ip_transform p ro tr = Ok q /\ box_wireframe_density_params b' m = Ok q.
Proof.
  intros Hb Ht Hd Hm. destruct (box_transform_eq _ _ _ _ _ _ _ Hb Ht) as (MR & LT & Hb').
  pose proof (box_init_inv _ _ _ _ Hb) as (L3 & _ & E1 & E2 & E3 & MQ & LC & _). rewrite E2, E3 in *. destruct (len3_inv _ L3) as (x & y & z & ->). cbn [nth] in Hd.
  do 2 eexists. split; [now apply (box_wireframe_ok [x; y; z] c r _ _ x y z)|]. split; [|now apply (box_wireframe_ok _ _ _ _ _ x y z Hb')]. now apply dparams_moves.
Qed.
Lemma ell_uniform_moves h r c e ro tr e' m : ell_init h r c = Ok e -> length h = 3%nat -> ell_transform e ro tr = Ok e' -> 0 < m ->
  exists p q, ell_uniform_density_params e m = Ok p /\ ip_transform p ro tr = Ok q /\ ell_uniform_density_params e' m = Ok q.
Proof.
  intros He L3 Ht Hm. destruct (ell_transform_eq _ _ _ _ _ _ _ He Ht) as (MR & LT & He'). rewrite L3 in *. do 2 eexists. split; [now apply (ell_uniform_ok h r c)|].
  split; [|now apply (ell_uniform_ok _ _ _ _ _ He')]. apply ell_init_inv in He as (_ & E1 & E2 & E3 & MQ & LC). rewrite L3 in *. rewrite E2, E3 in *. now apply dparams_moves.
Qed.
Lemma ell_hollow_moves h r c e ro tr e' m : ell_init h r c = Ok e -> length h = 3%nat -> ell_transform e ro tr = Ok e' ->
  0 < nth 0 h 0 * nth 1 h 0 + nth 0 h 0 * nth 2 h 0 + nth 1 h 0 * nth 2 h 0 -> 0 < m ->
  exists p q, ell_hollow_density_params e m = Ok p /\ ip_transform p ro tr = Ok q /\ ell_hollow_density_params e' m = Ok q.
Proof.
  intros He L3 Ht Hd Hm. destruct (ell_transform_eq _ _ _ _ _ _ _ He Ht) as (MR & LT & He'). rewrite L3 in *.
  pose proof (ell_init_inv _ _ _ _ He) as (_ & E1 & E2 & E3 & MQ & LC). rewrite L3 in *. rewrite E2, E3 in *. destruct (len3_inv _ L3) as (x & y & z & ->). cbn [nth] in Hd.
  do 2 eexists. split; [now apply (ell_hollow_ok [x; y; z] r c _ _ x y z)|]. split; [|now apply (ell_hollow_ok _ _ _ _ _ x y z He')]. now apply dparams_moves.
Qed.
Lemma cyl_uniform_moves L R r c x ro tr x' m : cyl_init L R r c = Ok x -> cyl_transform x ro tr = Ok x' -> 0 < m ->
  exists p q, cyl_uniform_density_params x m = Ok p /\ ip_transform p ro tr = Ok q /\ cyl_uniform_density_params x' m = Ok q.
Proof.
  intros Hx Ht Hm. destruct (cyl_transform_eq _ _ _ _ _ _ _ _ Hx Ht) as (MR & LT & Hx').
  pose proof (cyl_init_inv _ _ _ _ _ Hx) as (HL & HR & MQ & LC & _).
  assert (Hx2 : cyl_init L R (Some (mat_mul (pose_rot 3 ro) (pose_rot 3 r))) (Some (vadd (mat_vec (pose_rot 3 ro) (pose_tr 3 c)) (pose_tr 3 tr))) = Ok x').
  { rewrite Hx'. apply cyl_init_good; auto; cbn [pose_rot pose_tr]; [apply (is_mat_mul 3 3 3); auto|apply move_length; auto]. }
  do 2 eexists. split; [now apply (cyl_uniform_ok L R r c)|]. split; [|now apply (cyl_uniform_ok _ _ _ _ _ _ Hx2)]. now apply dparams_moves.
Qed.

(** ** point masses at the vertices of a polyhedron *)
Lemma p_nv_len p : p_nv p = length (p_vertices p).
Proof. unfold p_nv, sf_nv, p_vertices. now destruct (sf_vertices (p_span p)). Qed.
Lemma vertex_params_array p ms : (forall v, In v (p_vertices p) -> length v = 3%nat) -> length ms = length (p_vertices p) -> (forall a, In a ms -> 0 <= a) -> 0 < lsum ms ->
  exists q, poly_vertex_point_mass_params p (MassArray ms) = Ok q /\ describes q (system ms (p_vertices p)) /\ PSD 4 (ip_J q) /\
    in_hull 3 (p_vertices p) (ip_com q).
Proof.
  intros HV HL HN HM. unfold poly_vertex_point_mass_params.
  replace (Nat.eqb (length ms) (p_nv p)) with true by (symmetry; apply Nat.eqb_eq; rewrite p_nv_len; exact HL).
  replace (forallb (Rleb 0) ms) with true by (symmetry; apply forallb_forall; intros a Ha; apply Rleb_true, HN, Ha). cbn [assert_ bind].
  assert (FV : Forall (fun v => length v = 3%nat) (p_vertices p)) by now apply Forall_forall.
  destruct (from_point_masses_describes ms (p_vertices p) HL FV HM) as (q & E & Hd). exists q. split; [exact E|]. split; [exact Hd|].
  pose proof (system_ok ms _ FV) as Ok1.
  assert (Nn : pms_nonneg (system ms (p_vertices p))). { intros [a v] Hin. apply HN. unfold system in Hin. now apply in_combine_l in Hin. }
  split; [now apply (describes_PSD _ _ Hd)|].
  assert (Em : pms_mass (system ms (p_vertices p)) = lsum ms).
  { unfold pms_mass, system. clear - HL. revert HL. generalize (p_vertices p). induction ms as [|m ms IH]; intros [|v ps] HL; try discriminate; auto. cbn. f_equal. apply IH. cbn in HL; lia. }
  assert (Es : map snd (system ms (p_vertices p)) = p_vertices p).
  { unfold system. clear - HL. revert HL. generalize (p_vertices p). induction ms as [|m ms IH]; intros [|v ps] HL; try discriminate; auto. cbn. f_equal. apply IH. cbn in HL; lia. }
  rewrite <- Es at 1. apply describes_com_hull; auto. destruct Hd as (E1 & _). rewrite E1, Em. exact HM.
Qed.
Lemma vertex_params_scalar p m : (forall v, In v (p_vertices p) -> length v = 3%nat) -> p_vertices p <> [] -> 0 < m ->
  exists q, poly_vertex_point_mass_params p (MassScalar m) = Ok q /\ ip_mass q = m /\
    describes q (map (fun v => (m / INR (length (p_vertices p)), v)) (p_vertices p)) /\ PSD 4 (ip_J q) /\ in_hull 3 (p_vertices p) (ip_com q).
Proof.
  intros HV Hn Hm. set (V := p_vertices p) in *. set (n := length V).
  assert (E : poly_vertex_point_mass_params p (MassScalar m) = poly_vertex_point_mass_params p (MassArray (repeat (m / INR n) n))).
  { unfold poly_vertex_point_mass_params. rewrite p_nv_len. fold V. fold n. replace (map (fun a => m * a / INR n) (ones n)) with (repeat (m / INR n) n); [reflexivity|].
    unfold ones. generalize (INR n). intro k. induction n as [|n' IH]; [reflexivity|]. cbn. rewrite IH. f_equal. unfold Rdiv. ring. }
  assert (Hp : 0 < INR n) by (apply lt_0_INR; unfold n; destruct V; [congruence|cbn; lia]).
  assert (Hq : 0 < m / INR n) by (apply Rdiv_lt_0_compat; auto).
  assert (S : lsum (repeat (m / INR n) n) = m).
  { assert (G : forall k a, lsum (repeat a k) = INR k * a). { induction k as [|k IH]; intro a; [change (0 = 0 * a); ring|]. rewrite S_INR. cbn [repeat]. change (lsum (a :: repeat a k)) with (a + lsum (repeat a k)). rewrite IH. ring. }
    rewrite G. field. lra. }
  destruct (vertex_params_array p (repeat (m / INR n) n)) as (q & Eq & Hd & HP & HH); auto.
  - now rewrite repeat_length.
  - intros a Ha. apply repeat_spec in Ha as ->. lra.
  - rewrite S. exact Hm.
  - assert (Es : system (repeat (m / INR n) n) V = map (fun v => (m / INR n, v)) V).
    { unfold system, n. generalize (m / INR (length V)). intro k. clear. induction V as [|v V IH]; [reflexivity|]. cbn. now rewrite IH. }
    fold V in Hd, HH. rewrite Es in Hd. exists q. rewrite E. split; [exact Eq|]. split; [|split; [exact Hd|split; [exact HP|exact HH]]].
    destruct Hd as (E1 & _). rewrite E1. unfold pms_mass. rewrite map_map. cbn [fst]. transitivity (lsum (repeat (m / INR n) n)); [|exact S]. f_equal. unfold n. generalize (m / INR (length V)). intro k. clear. induction V as [|v V IH]; [reflexivity|]. cbn. now rewrite IH.
Qed.

(** ** no mass *)
Lemma density_errors : 
  (forall h c r b m, box_init h c r = Ok b -> m < 0 -> box_uniform_density_params b m = Raise AssertionError /\ box_hollow_density_params b m = Raise AssertionError /\ box_wireframe_density_params b m = Raise AssertionError) /\
  (forall e m, m < 0 -> ell_uniform_density_params e m = Raise AssertionError /\ ell_hollow_density_params e m = Raise AssertionError) /\
  (forall x m, m < 0 -> cyl_uniform_density_params x m = Raise AssertionError).
Proof.
  assert (F : forall m, m < 0 -> Rleb 0 m = false). { intros m Hm. destruct (Rleb 0 m) eqn:E; auto. apply Rleb_iff in E. lra. }
  split; [|split]; intros; unfold box_uniform_density_params, box_hollow_density_params, box_wireframe_density_params, ell_uniform_density_params, ell_hollow_density_params, cyl_uniform_density_params; rewrite F by assumption; auto.
Qed.
Lemma density_massless_all : 
  (forall b, box_uniform_density_params b 0 = NonFinite) /\
  (forall h c r b, box_init h c r = Ok b -> box_hollow_density_params b 0 = NonFinite /\ box_wireframe_density_params b 0 = NonFinite) /\
  (forall e, ell_uniform_density_params e 0 = NonFinite) /\ (forall h r c e, ell_init h r c = Ok e -> length h = 3%nat -> ell_hollow_density_params e 0 = NonFinite) /\
  (forall x, cyl_uniform_density_params x 0 = NonFinite).
Proof.
  assert (F : Rleb 0 0 = true) by (apply Rleb_true; lra).
  repeat split; intros; unfold box_uniform_density_params, box_hollow_density_params, box_wireframe_density_params, ell_uniform_density_params, ell_hollow_density_params, cyl_uniform_density_params; rewrite F; cbn [assert_ bind]; try apply density_massless.
  - apply box_init_inv in H as (L3 & _ & E1 & _). rewrite E1. destruct (len3_inv _ L3) as (x & y & z & ->). cbv zeta. destruct Reqb; auto. apply density_massless.
  - apply box_init_inv in H as (L3 & _ & E1 & _). rewrite E1. destruct (len3_inv _ L3) as (x & y & z & ->). cbv zeta. destruct Reqb; auto. apply density_massless.
  - apply ell_init_inv in H as (_ & E1 & _). rewrite E1. destruct (len3_inv _ H0) as (x & y & z & ->). cbv zeta. destruct Reqb; auto. apply density_massless.
Qed.

Definition quarter : mat := [[0; -1; 0]; [1; 0; 0]; [0; 0; 1]].
Lemma quarter_orthogonal : orthogonal 3 quarter.
Proof. split; [apply is_mat33|]. split; cbn; list_eq; ring. Qed.
Lemma density_case : exists b e x p q s, orthogonal 3 quarter /\ quarter <> eye 3 /\
  box_init [1; 2; 3] (Some [1; 0; 0]) (Some quarter) = Ok b /\ box_uniform_density_params b 6 = Ok p /\ ip_H p = [[14; 0; 0]; [0; 2; 0]; [0; 0; 18]] /\
  ell_init [1; 2; 3] (Some quarter) (Some [1; 0; 0]) = Ok e /\ ell_uniform_density_params e 10 = Ok q /\ ip_H q = [[18; 0; 0]; [0; 2; 0]; [0; 0; 18]] /\
  proper_half [1; 2; 3] /\
  cyl_init 6 2 (Some quarter) (Some [1; 0; 0]) = Ok x /\ cyl_uniform_density_params x 4 = Ok s /\ ip_H s = [[8; 0; 0]; [0; 4; 0]; [0; 0; 12]].
Proof.
  assert (MQ : is_mat 3 3 quarter) by apply is_mat33.
  assert (P : forall i, (i < 3)%nat -> 0 <= nth i [1; 2; 3] 0) by (intros [|[|[|i]]] Hi; cbn; try lra; lia).
  destruct (box_init_good [1; 2; 3] (Some [1; 0; 0]) (Some quarter)) as (b & Hb); auto.
  pose proof (ell_init_good [1; 2; 3] (Some quarter) (Some [1; 0; 0]) P MQ eq_refl) as He.
  pose proof (cyl_init_good 6 2 (Some quarter) (Some [1; 0; 0]) ltac:(lra) ltac:(lra) MQ eq_refl) as Hx.
  do 6 eexists. split; [apply quarter_orthogonal|]. split; [intro E; injection E; intros; lra|]. split; [exact Hb|].
  split; [apply (box_uniform_ok _ _ _ _ _ Hb); lra|]. split; [cbn; list_eq; field|].
  split; [exact He|]. split; [apply (ell_uniform_ok _ _ _ _ _ He); [reflexivity|lra]|]. split; [cbn; list_eq; field|].
  split. { intros i Hi. cbn in Hi. right. destruct i as [|[|[|i]]]; try lia; cbn; lra. }
  split; [exact Hx|]. split; [apply (cyl_uniform_ok _ _ _ _ _ _ Hx); lra|]. cbn; list_eq; field.
Qed.
Lemma hollow_case : exists b e p q, box_init [1; 2; 3] (Some [1; 0; 0]) (Some quarter) = Ok b /\ box_hollow_density_params b 33 = Ok p /\ entry (ip_H p) 0 0 = 33 + 68 /\
  ell_init [20; 20; 1] None None = Ok e /\ 1 <= 20 / 20 /\ ell_hollow_density_params e 11 = Ok q /\ entry (ip_H q) 2 2 = 31 / 5.
Proof.
  assert (MQ : is_mat 3 3 quarter) by apply is_mat33.
  assert (P : forall i, (i < 3)%nat -> 0 <= nth i [1; 2; 3] 0) by (intros [|[|[|i]]] Hi; cbn; try lra; lia).
  assert (P2 : forall i, (i < 3)%nat -> 0 <= nth i [20; 20; 1] 0) by (intros [|[|[|i]]] Hi; cbn; try lra; lia).
  destruct (box_init_good [1; 2; 3] (Some [1; 0; 0]) (Some quarter)) as (b & Hb); auto.
  pose proof (ell_init_good [20; 20; 1] None None P2 (is_mat_eye 3) eq_refl) as He.
  do 4 eexists. split; [exact Hb|]. split; [apply (box_hollow_ok _ _ _ _ _ 1 2 3 Hb); auto; lra|]. split; [unfold entry; cbn; field|].
  split; [exact He|]. split; [lra|]. split; [apply (ell_hollow_ok _ _ _ _ _ 20 20 1 He); auto; lra|]. unfold entry. cbn. field.
Qed.
