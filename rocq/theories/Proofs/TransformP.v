(** Rigid transforms of shapes (C27). *)
From Verif Require Import Base.Vec Base.Ext Base.VecFacts Spec.Basic Spec.Shapes Spec.ShapeObjects Spec.Samples
  Model.Util Model.Inertial Model.Polydd Model.Poly Model.Ellipsoid Model.Box Model.Constraint Model.Cylinder
  Proofs.Coord Proofs.Hull Proofs.BoxP Proofs.EllP Proofs.InertialT Proofs.EllForms Proofs.SamplesP Proofs.ShapesW Proofs.MustContain Proofs.CylP.

(** coordinates in the moved frame of a moved point are the old ones *)
Lemma vsub_move n M t p c : is_mat n n M -> length t = n -> length p = n -> length c = n ->
  vsub (move M t p) (vadd (mat_vec M c) t) = mat_vec M (vsub p c).
Proof.
  intros HM Ht Hp Hc. rewrite mat_vec_vsub by congruence. unfold move.
  assert (LQ : forall w, length (mat_vec M w) = n) by (intro w; rewrite mat_vec_length; apply HM).
  pose proof (LQ p). pose proof (LQ c). revert H H0. generalize (mat_vec M p) (mat_vec M c). intros. vring n.
Qed.
Lemma local_move n M t Q c p : orthogonal n M -> is_mat n n Q -> length t = n -> length p = n -> length c = n -> (0 < n)%nat ->
  mat_vec (transpose (mat_mul M Q)) (vsub (move M t p) (vadd (mat_vec M c) t)) = mat_vec (transpose Q) (vsub p c).
Proof.
  intros HM HQ Ht Hp Hc Hn. assert (MM : is_mat n n M) by apply HM. rewrite (vsub_move n) by auto.
  rewrite (transpose_mat_mul n n n) by auto.
  assert (L : length (vsub p c) = n) by (rewrite vsub_length; congruence).
  rewrite (mat_vec_mat_mul n n n); auto; try (apply is_mat_transpose; auto); [|rewrite mat_vec_length; apply MM].
  rewrite <- (mat_vec_mat_mul n n n (transpose M) M); auto; [|apply is_mat_transpose; auto].
  destruct HM as (_ & HM2 & _). f_equal. rewrite HM2. apply mat_vec_eye. exact L.
Qed.
Lemma center_move_len n M t c : is_mat n n M -> length t = n -> length (vadd (mat_vec M c) t) = n.
Proof. intros HM Ht. rewrite vadd_length; rewrite mat_vec_length; destruct HM; congruence. Qed.
(** composing two rigid motions *)
Lemma center_compose n M2 t2 M1 t1 c : is_mat n n M1 -> is_mat n n M2 -> length t1 = n -> length t2 = n -> length c = n -> (0 < n)%nat ->
  vadd (mat_vec M2 (vadd (mat_vec M1 c) t1)) t2 = vadd (mat_vec (mat_mul M2 M1) c) (vadd (mat_vec M2 t1) t2).
Proof.
  intros H1 H2 L1 L2 Hc Hn. rewrite mat_vec_vadd by (rewrite mat_vec_length; destruct H1; congruence).
  rewrite (mat_vec_mat_mul n n n) by auto. assert (LQ : forall w, length (mat_vec M2 w) = n) by (intro w; rewrite mat_vec_length; apply H2).
  pose proof (LQ (mat_vec M1 c)). pose proof (LQ t1). revert H H0. generalize (mat_vec M2 (mat_vec M1 c)) (mat_vec M2 t1). intros. vring n.
Qed.
Lemma center_id n c : length c = n -> vadd (mat_vec (eye n) c) (zeros n) = c.
Proof. intro H. rewrite mat_vec_eye by auto. apply vadd_zeros_r. auto. Qed.

(** ** boxes *)
Lemma box_init_some h c r : is_mat 3 3 (pose_rot 3 r) -> length (pose_tr 3 c) = 3%nat ->
  box_init h c r = box_init h (Some (pose_tr 3 c)) (Some (pose_rot 3 r)).
Proof. intros H1 H2. unfold box_init. rewrite !clean_transform_good; auto. Qed.
Lemma box_transform_eq h c r b ro tr b' : box_init h c r = Ok b -> box_transform b ro tr = Ok b' ->
  is_mat 3 3 (pose_rot 3 ro) /\ length (pose_tr 3 tr) = 3%nat /\
  box_init h (Some (vadd (mat_vec (pose_rot 3 ro) (pose_tr 3 c)) (pose_tr 3 tr)))
           (Some (mat_mul (pose_rot 3 ro) (pose_rot 3 r))) = Ok b'.
Proof.
  intros H1 H2. apply box_init_inv in H1 as (_ & _ & <- & <- & <- & _). unfold box_transform in H2.
  apply bind_inv in H2 as (rt & E & H). apply clean_transform_inv in E as (E1 & E2 & E3 & E4). rewrite E1, E2 in *. auto.
Qed.
Lemma box_transform_contains h c r b ro tr b' p tol : box_init h c r = Ok b -> box_transform b ro tr = Ok b' ->
  orthogonal 3 (pose_rot 3 ro) -> length p = 3%nat ->
  box_contains b' (move (pose_rot 3 ro) (pose_tr 3 tr) p) tol = box_contains b p tol.
Proof.
  intros H1 H2 HR Hp. pose proof (box_transform_eq _ _ _ _ _ _ _ H1 H2) as (MR & LT & H3).
  pose proof (box_args _ _ _ _ H1) as (I1 & E1 & E2 & E3). pose proof (box_args _ _ _ _ H3) as (I2 & F1 & F2 & F3).
  pose proof (box_init_inv _ _ _ _ H1) as (_ & _ & _ & _ & _ & MQ & LC & _). rewrite E2 in MQ. rewrite E3 in LC.
  cbn [pose_rot pose_tr] in F2, F3. apply Bool.eq_iff_eq_true.
  rewrite !box_contains_local by (auto; apply (move_len 3); auto). rewrite E1, E2, E3, F1, F2, F3.
  rewrite (local_move 3) by (auto; lia). reflexivity.
Qed.
Lemma box_transform_good h c r b ro tr : box_init h c r = Ok b -> is_mat 3 3 (pose_rot 3 ro) -> length (pose_tr 3 tr) = 3%nat ->
  exists b', box_transform b ro tr = Ok b'.
Proof.
  intros H1 HR HT. pose proof (box_init_inv _ _ _ _ H1) as (L3 & P3 & E1 & E2 & E3 & MQ & LC & _). unfold box_transform.
  rewrite clean_transform_good by auto. cbn [bind fst snd]. rewrite E1. apply box_init_good; auto.
  - apply (is_mat_mul 3 3 3); auto.
  - apply center_move_len; auto.
Qed.
Lemma box_transform_compose h c r b ro tr b1 ro' tr' b2 : box_init h c r = Ok b ->
  box_transform b ro tr = Ok b1 -> box_transform b1 ro' tr' = Ok b2 ->
  box_transform b (Some (mat_mul (pose_rot 3 ro') (pose_rot 3 ro)))
    (Some (vadd (mat_vec (pose_rot 3 ro') (pose_tr 3 tr)) (pose_tr 3 tr'))) = Ok b2.
Proof.
  intros H H1 H2. pose proof (box_transform_eq _ _ _ _ _ _ _ H H1) as (MR & LT & H3).
  pose proof (box_transform_eq _ _ _ _ _ _ _ H3 H2) as (MR' & LT' & H4).
  pose proof (box_init_inv _ _ _ _ H) as (_ & _ & E1 & E2 & E3 & MQ & LC & _). rewrite E3 in MQ. rewrite E2 in LC.
  unfold box_transform. rewrite clean_transform_good; cbn [pose_rot pose_tr].
  2:{ apply (is_mat_mul 3 3 3); auto. } 2:{ apply center_move_len; auto. }
  cbn [bind fst snd]. rewrite E1, E2, E3. rewrite <- H4. cbn [pose_rot pose_tr]. f_equal; f_equal.
  - symmetry. apply (center_compose 3); auto; lia.
  - apply (mat_mul_assoc 3 3 3 3); auto; lia.
Qed.
Lemma box_transform_id h c r b : box_init h c r = Ok b -> box_transform b None None = Ok b.
Proof.
  intros H. pose proof (box_init_inv _ _ _ _ H) as (_ & _ & E1 & E2 & E3 & MQ & LC & _).
  unfold box_transform. rewrite clean_transform_good; [|apply is_mat_eye|reflexivity]. cbn [bind fst snd pose_rot pose_tr].
  rewrite center_id by auto. rewrite (mat_mul_eye_l 3 3) by auto. rewrite E1, E2, E3 in *.
  rewrite <- box_init_some by auto. exact H.
Qed.
(** rotating about the centre is moving to the origin, rotating and moving back *)
Lemma box_rotate_center h c r b M b' p tol : box_init h c r = Ok b -> box_rotate_about_center b M = Ok b' -> orthogonal 3 M ->
  length p = 3%nat -> let c0 := pose_tr 3 c in
  box_contains b' (vadd (mat_vec M (vsub p c0)) c0) tol = box_contains b p tol.
Proof.
  intros H1 H2 HM Hp c0. pose proof (box_args _ _ _ _ H1) as (I1 & E1 & E2 & E3). 
  pose proof (box_init_inv _ _ _ _ H1) as (_ & _ & _ & _ & _ & MQ & LC & _).
  unfold box_rotate_about_center in H2. apply bind_inv in H2 as (? & A & H2). clear A.
  pose proof (box_args _ _ _ _ H2) as (I2 & F1 & F2 & F3). cbn [pose_rot pose_tr] in F2, F3.
  assert (MM : is_mat 3 3 M) by apply HM. fold c0 in E3. assert (L0 : length c0 = 3%nat) by (rewrite <- E3; auto).
  assert (LV : length (vsub p c0) = 3%nat) by (rewrite vsub_length; congruence).
  apply Bool.eq_iff_eq_true. rewrite !box_contains_local; auto.
  2:{ apply center_move_len; auto. }
  rewrite F1, F2, F3, E3. rewrite vsub_vadd by (rewrite mat_vec_length; destruct MM; congruence).
  rewrite (transpose_mat_mul 3 3 3) by (auto; lia).
  rewrite (mat_vec_mat_mul 3 3 3); auto; try (apply is_mat_transpose; auto; lia); try lia; [|rewrite mat_vec_length; apply MM].
  rewrite <- (mat_vec_mat_mul 3 3 3 (transpose M) M); auto; try lia; [|apply is_mat_transpose; auto; lia].
  destruct HM as (_ & -> & _). rewrite mat_vec_eye by auto. reflexivity.
Qed.

(** ** ellipsoids, any dimension *)
Lemma ell_contains_frame e e' p p' tol : e_half e' = e_half e ->
  vec_mat (vsub p' (e_center e')) (e_rot e') = vec_mat (vsub p (e_center e)) (e_rot e) ->
  ell_contains e' p' tol = ell_contains e p tol.
Proof. intros E1 E2. unfold ell_contains, e_z, e_half_inv. rewrite E1, E2. reflexivity. Qed.
Lemma ell_transform_eq h r c e ro tr e' : ell_init h r c = Ok e -> ell_transform e ro tr = Ok e' ->
  is_mat (length h) (length h) (pose_rot (length h) ro) /\ length (pose_tr (length h) tr) = length h /\
  ell_init h (Some (mat_mul (pose_rot (length h) ro) (pose_rot (length h) r)))
    (Some (vadd (mat_vec (pose_rot (length h) ro) (pose_tr (length h) c)) (pose_tr (length h) tr))) = Ok e'.
Proof.
  intros H1 H2. apply ell_args in H1 as (_ & E1 & E2 & E3 & D). unfold ell_transform in H2.
  apply bind_inv in H2 as (rt & E & H). rewrite D in E. apply clean_transform_inv in E as (F1 & F2 & F3 & F4).
  rewrite F1, F2, E1, E2, E3 in *. auto.
Qed.
Lemma ell_transform_contains h r c e ro tr e' p tol : ell_init h r c = Ok e -> ell_transform e ro tr = Ok e' -> h <> [] ->
  orthogonal (length h) (pose_rot (length h) ro) -> length p = length h ->
  ell_contains e' (move (pose_rot (length h) ro) (pose_tr (length h) tr) p) tol = ell_contains e p tol.
Proof.
  intros H1 H2 Hn HR Hp. pose proof (ell_transform_eq _ _ _ _ _ _ _ H1 H2) as (MR & LT & H3).
  pose proof (ell_init_inv _ _ _ _ H1) as (_ & E1 & E2 & E3 & MQ & LC). pose proof (ell_init_inv _ _ _ _ H3) as (_ & F1 & F2 & F3 & _).
  cbn [pose_rot pose_tr] in F2, F3. assert (N : (0 < length h)%nat) by (destruct h; [congruence|cbn; lia]).
  apply ell_contains_frame; [congruence|]. rewrite F2, F3, !vec_mat_mat_vec. rewrite <- E2, <- E3 in *. 
  apply (local_move (length h)); auto.
Qed.
Lemma ell_transform_good h r c e ro tr : ell_init h r c = Ok e -> h <> [] -> is_mat (length h) (length h) (pose_rot (length h) ro) ->
  length (pose_tr (length h) tr) = length h -> exists e', ell_transform e ro tr = Ok e'.
Proof.
  intros H1 Hn HR HT. pose proof (ell_init_inv _ _ _ _ H1) as (P & E1 & E2 & E3 & MQ & LC). unfold ell_transform, e_dim.
  rewrite E1, clean_transform_good by auto. cbn [bind fst snd].
  assert (N : (0 < length h)%nat) by (destruct h; [congruence|cbn; lia]).
  rewrite ell_init_good; auto.
  - eexists; reflexivity.
  - cbn [pose_rot]. apply (is_mat_mul (length h) (length h) (length h)); auto.
  - cbn [pose_tr]. apply center_move_len; auto.
Qed.
Lemma ell_transform_compose h r c e ro tr e1 ro' tr' e2 : ell_init h r c = Ok e -> h <> [] ->
  ell_transform e ro tr = Ok e1 -> ell_transform e1 ro' tr' = Ok e2 -> let n := length h in
  ell_transform e (Some (mat_mul (pose_rot n ro') (pose_rot n ro)))
    (Some (vadd (mat_vec (pose_rot n ro') (pose_tr n tr)) (pose_tr n tr'))) = Ok e2.
Proof.
  intros H Hn H1 H2 n. pose proof (ell_transform_eq _ _ _ _ _ _ _ H H1) as (MR & LT & H3).
  pose proof (ell_transform_eq _ _ _ _ _ _ _ H3 H2) as (MR' & LT' & H4). cbn [pose_rot pose_tr] in H4.
  pose proof (ell_init_inv _ _ _ _ H) as (P & E1 & E2 & E3 & MQ & LC). rewrite E2 in MQ. rewrite E3 in LC.
  assert (N : (0 < n)%nat) by (subst n; destruct h; [congruence|cbn; lia]).
  unfold ell_transform, e_dim. rewrite E1. change (length h) with n in MR, LT, H3, MR', LT', H4, MQ, LC, E2, E3 |- *. clearbody n. rewrite clean_transform_good; cbn [pose_rot pose_tr].
  2:{ apply (is_mat_mul n n n); auto. } 2:{ apply center_move_len; auto. }
  cbn [bind fst snd]. rewrite E2, E3. rewrite <- H4. f_equal; f_equal.
  - apply (mat_mul_assoc n n n n); auto.
  - symmetry. apply (center_compose n); auto.
Qed.
Lemma ell_transform_id h r c e : ell_init h r c = Ok e -> h <> [] -> ell_transform e None None = Ok e.
Proof.
  intros H Hn. pose proof (ell_init_inv _ _ _ _ H) as (P & E1 & E2 & E3 & MQ & LC).
  assert (N : (0 < length h)%nat) by (destruct h; [congruence|cbn; lia]).
  unfold ell_transform, e_dim. rewrite E1, clean_transform_good; [|apply is_mat_eye|cbn; apply zeros_length]. cbn [bind fst snd pose_rot pose_tr].
  rewrite center_id by auto. rewrite (mat_mul_eye_l (length h) (length h)) by auto.
  rewrite ell_init_good; cbn [pose_rot pose_tr]; auto. destruct e; cbn in *. subst. reflexivity.
Qed.

(** ** cylinders *)
Lemma cyl_transform_eq L r ro co c ro' tr' c' : cyl_init L r ro co = Ok c -> cyl_transform c ro' tr' = Ok c' ->
  is_mat 3 3 (pose_rot 3 ro') /\ length (pose_tr 3 tr') = 3%nat /\
  c' = cyl_of L r (mat_mul (pose_rot 3 ro') (pose_rot 3 ro)) (vadd (mat_vec (pose_rot 3 ro') (pose_tr 3 co)) (pose_tr 3 tr')).
Proof.
  intros H1 H2. apply cyl_init_inv in H1 as (HL & Hr & MQ & LC & ->). unfold cyl_transform in H2.
  apply bind_inv in H2 as (rt & E & H). apply clean_transform_inv in E as (F1 & F2 & F3 & F4). rewrite F1, F2 in *.
  cbn [c_length c_radius c_rot c_center cyl_of] in H. rewrite cyl_init_good in H; cbn [pose_rot pose_tr] in *; auto.
  - injection H as <-. auto.
  - apply (is_mat_mul 3 3 3); auto.
  - apply center_move_len; auto.
Qed.
Lemma cyl_transform_contains L r ro co c ro' tr' c' p tol : cyl_init L r ro co = Ok c -> cyl_transform c ro' tr' = Ok c' ->
  orthogonal 3 (pose_rot 3 ro') -> length p = 3%nat ->
  cyl_contains c' (move (pose_rot 3 ro') (pose_tr 3 tr') p) tol = cyl_contains c p tol.
Proof.
  intros H1 H2 HR Hp. pose proof (cyl_transform_eq _ _ _ _ _ _ _ _ H1 H2) as (MR & LT & ->).
  apply cyl_init_inv in H1 as (HL & Hr & MQ & LC & ->).
  assert (L3 : length (mat_vec (transpose (pose_rot 3 ro)) (vsub p (pose_tr 3 co))) = 3%nat)
    by (rewrite mat_vec_length; apply (is_mat_transpose 3 3); auto).
  destruct (len3_inv _ L3) as (x & y & z & E).
  apply Bool.eq_iff_eq_true. rewrite (cyl_contains_local L r _ _ p tol x y z) by auto.
  rewrite (cyl_contains_local L r _ _ _ tol x y z); auto.
  - reflexivity.
  - apply (is_mat_mul 3 3 3); auto.
  - apply center_move_len; auto.
  - apply (move_len 3); auto.
  - rewrite (local_move 3) by (auto; lia). exact E.
Qed.
Lemma cyl_transform_good L r ro co c ro' tr' : cyl_init L r ro co = Ok c -> is_mat 3 3 (pose_rot 3 ro') ->
  length (pose_tr 3 tr') = 3%nat -> exists c', cyl_transform c ro' tr' = Ok c'.
Proof.
  intros H1 HR HT. apply cyl_init_inv in H1 as (HL & Hr & MQ & LC & ->). unfold cyl_transform.
  rewrite clean_transform_good by auto. cbn [bind fst snd]. cbn [c_length c_radius c_rot c_center cyl_of].
  rewrite cyl_init_good; cbn [pose_rot pose_tr]; eauto.
  - apply (is_mat_mul 3 3 3); auto.
  - apply center_move_len; auto.
Qed.
Lemma cyl_transform_compose L r ro co c ro1 tr1 c1 ro2 tr2 c2 : cyl_init L r ro co = Ok c ->
  cyl_transform c ro1 tr1 = Ok c1 -> cyl_transform c1 ro2 tr2 = Ok c2 ->
  cyl_transform c (Some (mat_mul (pose_rot 3 ro2) (pose_rot 3 ro1)))
    (Some (vadd (mat_vec (pose_rot 3 ro2) (pose_tr 3 tr1)) (pose_tr 3 tr2))) = Ok c2.
Proof.
  intros H H1 H2. pose proof (cyl_transform_eq _ _ _ _ _ _ _ _ H H1) as (MR & LT & E1).
  pose proof (cyl_init_inv _ _ _ _ _ H) as (HL & Hr & MQ & LC & EC).
  assert (I1 : cyl_init L r (Some (mat_mul (pose_rot 3 ro1) (pose_rot 3 ro))) (Some (vadd (mat_vec (pose_rot 3 ro1) (pose_tr 3 co)) (pose_tr 3 tr1))) = Ok c1).
  { rewrite cyl_init_good; cbn [pose_rot pose_tr]; auto; [congruence|apply (is_mat_mul 3 3 3); auto|apply center_move_len; auto]. }
  pose proof (cyl_transform_eq _ _ _ _ _ _ _ _ I1 H2) as (MR' & LT' & E2). cbn [pose_rot pose_tr] in E2.
  unfold cyl_transform. rewrite clean_transform_good; cbn [pose_rot pose_tr].
  2:{ apply (is_mat_mul 3 3 3); auto. } 2:{ apply center_move_len; auto. }
  cbn [bind fst snd]. rewrite EC. cbn [c_length c_radius c_rot c_center cyl_of].
  rewrite (mat_mul_assoc 3 3 3 3) by (auto; lia). rewrite <- (center_compose 3) by (auto; lia).
  rewrite cyl_init_good; cbn [pose_rot pose_tr]; auto.
  - congruence.
  - apply (is_mat_mul 3 3 3); auto. apply (is_mat_mul 3 3 3); auto.
  - apply center_move_len; auto.
Qed.
Lemma cyl_transform_id L r ro co c : cyl_init L r ro co = Ok c -> cyl_transform c None None = Ok c.
Proof.
  intro H. apply cyl_init_inv in H as (HL & Hr & MQ & LC & ->). unfold cyl_transform.
  rewrite clean_transform_good; [|apply is_mat_eye|reflexivity]. cbn [bind fst snd pose_rot pose_tr]. cbn [c_length c_radius c_rot c_center cyl_of].
  rewrite center_id by auto. rewrite (mat_mul_eye_l 3 3) by auto.
  rewrite cyl_init_good; cbn [pose_rot pose_tr]; auto.
Qed.

(** ** capsules *)
Lemma caps_transform_eq L r ro co c k ro' tr' k' : cyl_init L r ro co = Ok c -> caps_init c = Ok k -> caps_transform k ro' tr' = Ok k' ->
  is_mat 3 3 (pose_rot 3 ro') /\ length (pose_tr 3 tr') = 3%nat /\
  cyl_transform c ro' tr' = Ok (k_cyl k') /\ caps_init (k_cyl k') = Ok k' /\
  k' = caps_of L r (mat_mul (pose_rot 3 ro') (pose_rot 3 ro)) (vadd (mat_vec (pose_rot 3 ro') (pose_tr 3 co)) (pose_tr 3 tr')).
Proof.
  intros H1 H2 H3. pose proof (caps_inv _ _ _ _ _ _ H1 H2) as (HL & Hr & MQ & LC & ->).
  pose proof (cyl_init_inv _ _ _ _ _ H1) as (_ & _ & _ & _ & EC).
  unfold caps_transform, cyl_capsule in H3. cbn [k_cyl caps_of] in H3. rewrite <- EC in H3. apply bind_inv in H3 as (c' & E & H).
  pose proof (cyl_transform_eq _ _ _ _ _ _ _ _ H1 E) as (MR & LT & EC'). split; [auto|]. split; [auto|].
  assert (K : k' = caps_of L r (mat_mul (pose_rot 3 ro') (pose_rot 3 ro)) (vadd (mat_vec (pose_rot 3 ro') (pose_tr 3 co)) (pose_tr 3 tr'))).
  { rewrite EC', caps_init_good in H; auto; [congruence|apply (is_mat_mul 3 3 3); auto|apply center_move_len; auto]. }
  assert (KC : k_cyl k' = c') by (rewrite K, EC'; reflexivity). rewrite KC. auto.
Qed.
Lemma caps_transform_contains L r ro co c k ro' tr' k' p tol : cyl_init L r ro co = Ok c -> caps_init c = Ok k ->
  caps_transform k ro' tr' = Ok k' -> orthogonal 3 (pose_rot 3 ro') -> length p = 3%nat -> 0 <= tol ->
  / 100000000 < r \/ tol = 0 ->
  caps_contains k' (move (pose_rot 3 ro') (pose_tr 3 tr') p) tol = caps_contains k p tol.
Proof.
  intros H1 H2 H3 HR Hp Ht Hrt. pose proof (caps_transform_eq _ _ _ _ _ _ _ _ _ H1 H2 H3) as (MR & LT & T & I & K).
  pose proof (cyl_transform_contains _ _ _ _ _ _ _ _ p tol H1 T HR Hp) as CC.
  pose proof (cyl_init_inv _ _ _ _ _ H1) as (HL & Hr & MQ & LC & EC).
  pose proof (caps_inv _ _ _ _ _ _ H1 H2) as (_ & _ & _ & _ & EK).
  assert (EP : forall z, move (mat_mul (pose_rot 3 ro') (pose_rot 3 ro)) (vadd (mat_vec (pose_rot 3 ro') (pose_tr 3 co)) (pose_tr 3 tr')) [0; 0; z]
    = move (pose_rot 3 ro') (pose_tr 3 tr') (move (pose_rot 3 ro) (pose_tr 3 co) [0; 0; z]))
    by (intro z; symmetry; apply (move_compose 3); auto; lia).
  assert (CAP : forall z, ell_contains (cap_at r (move (mat_mul (pose_rot 3 ro') (pose_rot 3 ro)) (vadd (mat_vec (pose_rot 3 ro') (pose_tr 3 co)) (pose_tr 3 tr')) [0; 0; z]))
      (move (pose_rot 3 ro') (pose_tr 3 tr') p) tol = ell_contains (cap_at r (move (pose_rot 3 ro) (pose_tr 3 co) [0; 0; z])) p tol).
  { intro z. rewrite EP. apply Bool.eq_iff_eq_true. set (a := move (pose_rot 3 ro) (pose_tr 3 co) [0; 0; z]).
    assert (La : length a = 3%nat) by (apply (move_len 3); auto).
    rewrite !cap_contains by (auto; apply (move_len 3); auto). rewrite dist_move by auto. unfold within.
    destruct Hrt as [Hrt|Hrt].
    - split; intros [_ W]; (split; [lra|exact W]).
    - subst tol. assert (Z : forall v, length v = 3%nat -> ((forall x, In x v -> Rabs x <= 0) <-> dot v v = 0)).
      { intros v Lv. split.
        - intro H. destruct (len3_inv _ Lv) as (v0 & v1 & v2 & ->). unfold dot. cbn.
          assert (Y : forall y, Rabs y <= 0 -> y = 0) by (intros y Hy; apply abs_le_inv in Hy; lra).
          rewrite (Y v0), (Y v1), (Y v2); [ring|apply H; cbn; auto..].
        - intros H x Hx. apply dot_self_zero in H. rewrite H in Hx. apply repeat_spec in Hx. subst. rewrite Rabs_R0. lra. }
      assert (LV : forall u v, length u = 3%nat -> length v = 3%nat -> length (vsub u v) = 3%nat) by (intros; rewrite vsub_length; congruence).
      assert (Lm : forall w, length (move (pose_rot 3 ro') (pose_tr 3 tr') w) = 3%nat) by (intro; apply (move_len 3); auto).
      pose proof (Z _ (LV _ _ (Lm p) (Lm a))) as Z1. pose proof (Z _ (LV _ _ Hp La)) as Z2. rewrite dist_move in Z1 by auto.
      split; intros [W1 W2]; (split; [|exact W2]); intro A; [apply Z2, Z1, W1|apply Z1, Z2, W1]; exact A. }
  unfold caps_contains. rewrite CC. rewrite K, EK. cbn [k_caps k_cyl caps_of map]. unfold end1, end2.
  rewrite !CAP. rewrite <- EC. reflexivity.
Qed.
Lemma caps_transform_good L r ro co c k ro' tr' : cyl_init L r ro co = Ok c -> caps_init c = Ok k -> is_mat 3 3 (pose_rot 3 ro') ->
  length (pose_tr 3 tr') = 3%nat -> exists k', caps_transform k ro' tr' = Ok k'.
Proof.
  intros H1 H2 HR HT. pose proof (caps_inv _ _ _ _ _ _ H1 H2) as (HL & Hr & MQ & LC & ->).
  pose proof (cyl_init_inv _ _ _ _ _ H1) as (_ & _ & _ & _ & EC).
  destruct (cyl_transform_good _ _ _ _ _ ro' tr' H1 HR HT) as [c' Hc']. unfold caps_transform, cyl_capsule. cbn [k_cyl caps_of].
  rewrite <- EC, Hc'. cbn [bind]. pose proof (cyl_transform_eq _ _ _ _ _ _ _ _ H1 Hc') as (_ & _ & ->).
  rewrite caps_init_good; eauto; [apply (is_mat_mul 3 3 3); auto|apply center_move_len; auto].
Qed.
Lemma caps_transform_compose L r ro co c k ro1 tr1 k1 ro2 tr2 k2 : cyl_init L r ro co = Ok c -> caps_init c = Ok k ->
  caps_transform k ro1 tr1 = Ok k1 -> caps_transform k1 ro2 tr2 = Ok k2 ->
  caps_transform k (Some (mat_mul (pose_rot 3 ro2) (pose_rot 3 ro1)))
    (Some (vadd (mat_vec (pose_rot 3 ro2) (pose_tr 3 tr1)) (pose_tr 3 tr2))) = Ok k2.
Proof.
  intros H1 H2 H3 H4. pose proof (caps_transform_eq _ _ _ _ _ _ _ _ _ H1 H2 H3) as (MR & LT & T & I & K).
  pose proof (caps_inv _ _ _ _ _ _ H1 H2) as (HL & Hr & MQ & LC & EK).
  pose proof (cyl_init_inv _ _ _ _ _ H1) as (_ & _ & _ & _ & EC).
  unfold caps_transform in H4. apply bind_inv in H4 as (c2 & E & H).
  pose proof (cyl_transform_compose _ _ _ _ _ _ _ _ _ _ _ H1 T E) as CT.
  unfold caps_transform. rewrite EK. cbn [k_cyl caps_of]. rewrite <- EC, CT. cbn [bind]. exact H.
Qed.
Lemma caps_transform_id L r ro co c k : cyl_init L r ro co = Ok c -> caps_init c = Ok k -> caps_transform k None None = Ok k.
Proof.
  intros H1 H2. pose proof (caps_inv _ _ _ _ _ _ H1 H2) as (HL & Hr & MQ & LC & EK).
  pose proof (cyl_init_inv _ _ _ _ _ H1) as (_ & _ & _ & _ & EC).
  unfold caps_transform. rewrite EK at 1. cbn [k_cyl caps_of]. rewrite <- EC, (cyl_transform_id _ _ _ _ _ H1). cbn [bind]. exact H2.
Qed.
(** the caps of a capsule of zero radius are tested along the coordinate axes, whatever the pose:
    with a positive tolerance membership does not move with the capsule *)
Lemma rot345_orth : orthogonal 3 rot345.
Proof. split; [split; [reflexivity|repeat constructor]|]. split; cbn; unfold dot; cbn; list_eq; lra. Qed.
Lemma caps_transform_zero_radius : exists c k k' p, cyl_init 0 0 None None = Ok c /\ caps_init c = Ok k /\
  caps_transform k (Some rot345) None = Ok k' /\ orthogonal 3 rot345 /\ length p = 3%nat /\
  caps_contains k p 1 = true /\ caps_contains k' (move rot345 (zeros 3) p) 1 = false.
Proof.
  pose proof (cyl_init_good 0 0 None None ltac:(lra) ltac:(lra) (is_mat_eye 3) eq_refl) as I1.
  pose proof (caps_init_good 0 0 (eye 3) (zeros 3) ltac:(lra) (is_mat_eye 3) eq_refl) as I2.
  destruct (caps_transform_good _ _ _ _ _ _ (Some rot345) None I1 I2 (proj1 rot345_orth) eq_refl) as [k' Hk].
  exists (cyl_of 0 0 (eye 3) (zeros 3)), (caps_of 0 0 (eye 3) (zeros 3)), k', [1; 1; 0].
  split; [exact I1|]. split; [exact I2|]. split; [exact Hk|]. split; [exact rot345_orth|]. split; [reflexivity|].
  pose proof (caps_transform_eq _ _ _ _ _ _ _ _ _ I1 I2 Hk) as (_ & _ & _ & _ & ->). cbn [pose_rot pose_tr].
  assert (MR : is_mat 3 3 rot345) by apply rot345_orth.
  split.
  - apply caps_contains_or. left. apply cap_contains; try lra; [reflexivity|reflexivity|].
    assert (E : vsub [1; 1; 0] (end1 0 (eye 3) (zeros 3)) = [1; 1; 0]).
    { unfold end1, move. rewrite mat_vec_eye by reflexivity. cbn. list_eq; lra. }
    rewrite E. split; [|lra]. intros _ v [<-|[<-|[<-|[]]]]; rewrite ?Rabs_R0, ?Rabs_R1; lra.
  - apply Bool.not_true_is_false. intro H. apply caps_contains_or in H.
    assert (EM : mat_mul rot345 (eye 3) = rot345) by (apply (mat_mul_eye_r 3 3); auto; lia). rewrite EM in H.
    assert (EC : vadd (mat_vec rot345 (zeros 3)) (zeros 3) = zeros 3) by (cbn; unfold dot; cbn; list_eq; lra). rewrite EC in H.
    assert (EP : move rot345 (zeros 3) [1; 1; 0] = [- (1 / 5); 7 / 5; 0]) by (cbn; unfold dot; cbn; list_eq; lra). rewrite EP in H.
    assert (EE : forall s, s = 0 -> move rot345 (zeros 3) [0; 0; s] = [0; 0; 0]) by (intros s ->; cbn; unfold dot; cbn; list_eq; lra).
    unfold end1, end2 in H. rewrite (EE (0 / 2)), (EE (- (0 / 2))) in H by lra.
    assert (NC : ell_contains (cap_at 0 [0; 0; 0]) [- (1 / 5); 7 / 5; 0] 1 = true -> False).
    { intro A. apply cap_contains in A; try lra; try reflexivity. destruct A as [A _]. cbn in A.
      specialize (A ltac:(lra) (7 / 5 - 0) ltac:(auto)). rewrite Rabs_pos_eq in A by lra. lra. }
    destruct H as [H|[H|H]]; [auto|auto|].
    apply (cyl_contains_local 0 0 rot345 (zeros 3) _ 1 1 1 0) in H; try lra; auto.
    + destruct H as [_ [H _]]. specialize (H ltac:(lra) 1 ltac:(left; reflexivity)). unfold default_tol in H. rewrite Rabs_R1 in H. lra.
    + cbn. unfold dot. cbn. list_eq; lra.
Qed.

(** ** face forms *)
Lemma ff_transform_contains n f M t f' p p' x tol : is_mat (length (ff_A f)) n (ff_A f) -> length (ff_A f) = length (ff_b f) ->
  (0 < length (ff_A f))%nat -> (0 < n)%nat -> ff_transform f M t = Ok f' -> orthogonal n (pose_rot n M) -> length (pose_tr n t) = n ->
  length x = n -> p_face p = f -> p_face p' = f' ->
  poly_contains p' (move (pose_rot n M) (pose_tr n t) x) tol = poly_contains p x tol.
Proof.
  intros HA HL N1 N HT HM Lt Lx Ep Ep'.
  assert (D : ff_dim f = n) by (unfold ff_dim; apply (is_mat_ncols (length (ff_A f)) n); auto).
  unfold ff_transform in HT. rewrite D in HT. fold (pose_rot n M) in HT. fold (pose_tr n t) in HT. cbn in HT. injection HT as <-.
  set (Q := pose_rot n M) in *. set (tr := pose_tr n t) in *. assert (MQ : is_mat n n Q) by apply HM.
  unfold poly_contains, p_A, p_b. rewrite Ep, Ep'. cbn [ff_A ff_b].
  set (A := ff_A f) in *. set (b := ff_b f) in *.
  assert (MAT : is_mat (length A) n (mat_mul A (transpose Q))) by (apply (is_mat_mul (length A) n n); auto; apply is_mat_transpose; auto).
  assert (E : mat_vec (mat_mul A (transpose Q)) (move Q tr x) = vadd (mat_vec A x) (mat_vec (mat_mul A (transpose Q)) tr)).
  { unfold move. rewrite mat_vec_vadd by (rewrite mat_vec_length; destruct MQ; congruence). f_equal.
    rewrite <- (mat_vec_mat_mul (length A) n n) by auto.
    rewrite (mat_mul_assoc (length A) n n n) by (auto; apply is_mat_transpose; auto). destruct HM as (_ & -> & _).
    rewrite (mat_mul_eye_r (length A) n) by auto. reflexivity. }
  rewrite E. set (w := mat_vec (mat_mul A (transpose Q)) tr). assert (Lw : length w = length b).
  { unfold w. rewrite mat_vec_length. destruct MAT. congruence. }
  assert (L1 : length (mat_vec A x) = length b) by (rewrite mat_vec_length; auto).
  revert L1 Lw. generalize (mat_vec A x) w b. clear. intros u w b. revert u w.
  induction b as [|b0 b IH]; intros [|u0 u] [|w0 w] L1 L2; cbn in L1, L2; try discriminate; [reflexivity|].
  unfold all_le, add_tol. cbn. f_equal; [|apply IH; lia].
  apply Bool.eq_iff_eq_true. rewrite !Rleb_iff. split; lra.
Qed.
