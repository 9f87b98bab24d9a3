(** C68: the volumes are the integrals of 1; integrals are unique. *)
From Verif Require Import Base.Vec Base.VecFacts Spec.Basic Spec.Shapes Spec.Objects Spec.ShapeObjects Spec.Integrals
  Model.Util Model.Polydd Model.Poly Model.Inertial Model.Ellipsoid Model.Box Model.Cylinder
  Proofs.Coord Proofs.Hull Proofs.BoxP Proofs.EllP Proofs.CylP Proofs.InscribedP Proofs.UtilP Proofs.DensityS Proofs.IntegralP Proofs.DensityP Proofs.UniformP.

(** ** uniqueness *)
Lemma integral_unique_on f g a b I I' : a <= b -> (forall x, a <= x <= b -> f x = g x) -> integral f a b I -> integral g a b I' -> I = I'.
Proof.
  intros Hab E H1 H2. apply (integral_unique g a b); auto. apply (integral_ext f); auto. intros x. rewrite Rmin_left, Rmax_right by auto. intros. apply E. lra.
Qed.
Lemma integral2_unique a b lo hi f I I' : a <= b -> integral2 a b lo hi f I -> integral2 a b lo hi f I' -> I = I'.
Proof.
  intros Hab (F & H1 & H2) (F' & H1' & H2'). apply (integral_unique_on F F' a b); auto. intros x Hx. eapply integral_unique; eauto.
Qed.
Lemma integral3_unique a b lo hi lo' hi' f I I' : a <= b -> (forall x, a <= x <= b -> lo x <= hi x) ->
  integral3 a b lo hi lo' hi' f I -> integral3 a b lo hi lo' hi' f I' -> I = I'.
Proof.
  intros Hab Hl (F & H1 & H2) (F' & H1' & H2'). apply (integral_unique_on F F' a b); auto. intros x Hx. eapply integral2_unique; [apply Hl; exact Hx|apply H1; exact Hx|apply H1'; exact Hx].
Qed.
Lemma sum_of_unique (l : list (R -> Prop)) I I' : (forall P, In P l -> forall J J', P J -> P J' -> J = J') -> sum_of l I -> sum_of l I' -> I = I'.
Proof.
  revert I I'. induction l as [|P l IH]; intros I I' H; cbn [sum_of]; [congruence|]. intros (I1 & I2 & A1 & A2 & ->) (J1 & J2 & B1 & B2 & ->).
  f_equal; [apply (H P); auto; now left|]. apply IH; auto. intros Q HQ. apply H. now right.
Qed.
Lemma functional_box_volume h : (forall x, In x h -> 0 <= x) -> functional (box_volume h).
Proof.
  intros H f I I'. unfold box_volume. destruct h as [|x [|y [|z [|]]]]; try easy.
  assert (Hx : 0 <= x) by (apply H; cbn; auto). assert (Hy : 0 <= y) by (apply H; cbn; auto). apply integral3_unique; intros; lra.
Qed.
Lemma functional_box_shell h : (forall x, In x h -> 0 <= x) -> functional (box_shell h).
Proof.
  intros H f I I'. unfold box_shell. destruct h as [|x [|y [|z [|]]]]; try easy.
  assert (Hx : 0 <= x) by (apply H; cbn; auto). assert (Hy : 0 <= y) by (apply H; cbn; auto). assert (Hz : 0 <= z) by (apply H; cbn; auto).
  apply sum_of_unique. cbn [In]. intros P HP J J'. repeat (destruct HP as [<-|HP]; [apply integral2_unique; lra|]). easy.
Qed.
Lemma functional_box_frame h : functional (box_frame h).
Proof.
  intros f I I'. unfold box_frame. destruct h as [|x [|y [|z [|]]]]; try easy.
  apply sum_of_unique. cbn [In]. intros P HP J J'. repeat (destruct HP as [<-|HP]; [apply integral_unique|]). easy.
Qed.
Lemma functional_cyl_volume L r : 0 <= L -> 0 <= r -> functional (cyl_volume L r).
Proof. intros HL Hr f I I'. unfold cyl_volume. apply integral3_unique; intros; lra. Qed.
Lemma functional_ell_volume h : (forall x, In x h -> 0 <= x) -> functional (ell_volume h).
Proof.
  intros H f I I'. unfold ell_volume. destruct h as [|x [|y [|z [|]]]]; try easy.
  assert (Hx : 0 <= x) by (apply H; cbn; auto). assert (Hy : 0 <= y) by (apply H; cbn; auto). apply integral3_unique; intros; [lra|].
  assert (0 <= y * sqrt (1 - (x0 / x) ^ 2)) by (apply Rmult_le_pos; [auto|apply sqrt_pos]). lra.
Qed.
Lemma functional_ell_surface h : functional (ell_surface h).
Proof. intros f I I'. unfold ell_surface. apply integral2_unique; lra. Qed.
Lemma functional_plate x y : 0 <= x -> functional (plate x y).
Proof. intros H f I I'. unfold plate. apply integral2_unique; lra. Qed.
Lemma functional_stretch h D : functional D -> functional (stretch h D).
Proof. intros H f I I'. apply H. Qed.
(** the parameters of a uniform body are determined *)
Lemma uniform_determined D m Q c p p' : functional D -> m <> 0 -> length (ip_com p) = 3%nat -> length (ip_com p') = 3%nat -> is_mat 3 3 (ip_H p) -> is_mat 3 3 (ip_H p') ->
  uniform_mass D m Q c p -> uniform_mass D m Q c p' -> ip_mass p = ip_mass p' /\ ip_com p = ip_com p' /\ ip_H p = ip_H p'.
Proof.
  intros HF Hm L L' M M' (E & V & PV & HV & H1 & H2) (E' & V' & PV' & HV' & H1' & H2'). assert (V' = V) as -> by (eapply HF; eauto). split; [congruence|]. split.
  - apply (vec_ext 3); auto. intros i Hi. destruct (H1 i Hi) as (X & D1 & K1). destruct (H1' i Hi) as (X' & D1' & K1'). assert (X' = X) as -> by (eapply HF; eauto).
    rewrite nth_vscale in K1, K1'. rewrite E in K1. rewrite E' in K1'. apply (Rmult_eq_reg_l m); [lra|auto].
  - apply (mat_ext 3 3); auto. intros i j Hi Hj. destruct (H2 i j Hi Hj) as (X & D1 & K1). destruct (H2' i j Hi Hj) as (X' & D1' & K1'). assert (X' = X) as -> by (eapply HF; eauto). congruence.
Qed.

(** ** volumes *)
Lemma box_volume_integral h c r b V : box_init h c r = Ok b -> (box_volume h (fun _ => 1) V <-> V = b_volume b).
Proof.
  intros Hb. apply box_init_inv in Hb as (Lh & Ph & Eh & _). assert (HP : forall x, In x h -> 0 <= x).
  { intros x I. apply (In_nth _ _ 0) in I as (i & Hi & <-). apply Ph. lia. }
  destruct h as [|x [|y [|z [|]]]]; try discriminate Lh.
  assert (E : b_volume b = 8 * x * y * z) by (unfold b_volume, b_side_lengths, vprod; rewrite Eh; cbn; ring).
  pose proof (whole_of _ _ _ _ _ (dom3_box_volume _) (box_volume_moments x y z)) as K. rewrite E. split; [|now intros ->].
  intros H. eapply functional_box_volume; eauto.
Qed.
Lemma cyl_volume_integral L r ro co c V : cyl_init L r ro co = Ok c -> (cyl_volume L r (fun _ => 1) V <-> V = c_volume c).
Proof.
  intros Hc. pose proof (cyl_init_inv _ _ _ _ _ Hc) as G. destruct G as (HL & Hr & G).
  assert (E : c_volume c = PI * (r * r) * L). { unfold c_volume. destruct G as (_ & _ & ->). unfold cyl_of. cbn. ring. }
  pose proof (whole_of _ _ _ _ _ (dom3_cyl_volume _ _) (cyl_volume_moments L r Hr)) as K. rewrite E. split; [|now intros ->].
  intros H. apply (functional_cyl_volume L r HL Hr (fun _ => 1)); auto.
Qed.
Lemma ell_volume_integral h r c e V : ell_init h r c = Ok e -> length h = 3%nat -> (forall x, In x h -> 0 < x) -> (ell_volume h (fun _ => 1) V <-> V = e_volume e).
Proof.
  intros He Lh HP. apply ell_init_inv in He as (_ & E & _). destruct h as [|x [|y [|z [|]]]]; try discriminate Lh.
  assert (EV : e_volume e = 4 / 3 * PI * x * y * z) by (unfold e_volume, vprod; rewrite E; cbn; field).
  pose proof (whole_of _ _ _ _ _ (dom3_ell_volume _) (ell_volume_moments x y z ltac:(apply HP; cbn; auto) ltac:(apply HP; cbn; auto) ltac:(apply HP; cbn; auto))) as K. rewrite EV. split; [|now intros ->].
  intros H. apply (functional_ell_volume [x; y; z] (fun a I => Rlt_le _ _ (HP a I)) (fun _ => 1)); auto.
Qed.
(** a flat ellipsoid has volume 0 *)
Lemma ell_volume_flat h r c e : ell_init h r c = Ok e -> In 0 h -> e_volume e = 0.
Proof.
  intros He I. apply ell_init_inv in He as (_ & E & _). unfold e_volume. rewrite E. assert (vprod h = 0) as ->; [|field].
  clear E. induction h as [|x h IH]; [easy|]. cbn. destruct I as [->|I]; [ring|]. unfold vprod in IH. rewrite IH by auto. ring.
Qed.
(** the ellipse *)
Lemma plate_area x y : 0 < x -> 0 < y -> plate x y (fun _ => 1) (PI * x * y).
Proof.
  intros Hx Hy. pose proof (plate_moments x y Hx Hy) as K. apply (whole_of _ _ _ _ _ (dom3_plate _ _)) in K. exact K.
Qed.
Lemma ell_volume_ellipse : exists e A, ell_init [3; 2] None None = Ok e /\ plate 3 2 (fun _ => 1) A /\ e_volume e <> A.
Proof.
  pose proof (ell_init_good [3; 2] None None) as He. rewrite He; [clear He|intros [|[|i]] Hi; cbn in *; try lra; lia|apply is_mat_eye|reflexivity].
  eexists _, (PI * 3 * 2). split; [reflexivity|]. split; [apply plate_area; lra|]. unfold e_volume, vprod. cbn. pose proof PI_RGT_0. lra.
Qed.
(** ** the diagonal *)
Lemma cube_norm h u : in_cube h u -> norm u <= norm h.
Proof.
  intros [Lu Hu]. apply norm_le_iff; [apply norm_nonneg|]. rewrite norm_sqr. rewrite (dot_rsum (length h)), (dot_rsum (length h) h) by auto. apply rsum_le. intros i Hi.
  specialize (Hu i Hi). apply abs_le_inv in Hu. nra.
Qed.
Lemma box_diag h c r b p q : box_init h c r = Ok b -> orthogonal 3 (pose_rot 3 r) ->
  box_set h (pose_rot 3 r) (pose_tr 3 c) p -> box_set h (pose_rot 3 r) (pose_tr 3 c) q -> norm (vsub p q) <= b_diaglen b.
Proof.
  intros Hb HQ (u & Hu & ->) (v & Hv & ->). apply box_init_inv in Hb as (Lh & Ph & Eh & Ec & _ & _ & Lc & _). rewrite Ec in Lc.
  set (Q := pose_rot 3 r) in *. set (t := pose_tr 3 c) in *. assert (Lu : length u = 3%nat) by (destruct Hu; congruence). assert (Lv : length v = 3%nat) by (destruct Hv; congruence).
  pose proof (cube_norm _ _ Hu) as Nu. pose proof (cube_norm _ _ Hv) as Nv. unfold b_diaglen. rewrite Eh.
  assert (MQ : is_mat 3 3 Q) by apply HQ.
  assert (L1 : length (move Q t u) = 3%nat) by (apply (move_len 3); auto). assert (L2 : length (move Q t v) = 3%nat) by (apply (move_len 3); auto).
  replace (vsub (move Q t u) (move Q t v)) with (vadd (vsub (move Q t u) t) (vscale (-1) (vsub (move Q t v) t))).
  - eapply Rle_trans; [apply norm_triangle; len|]. rewrite norm_vscale, !move_norm by auto. replace (Rabs (-1)) with 1 by (rewrite Rabs_left; lra). lra.
  - apply (vec_ext 3); [len|len|]. intros i Hi. rewrite nth_vadd, nth_vscale, !nth_vsub by len. ring.
Qed.
Lemma box_diag_attained h c r b : box_init h c r = Ok b -> orthogonal 3 (pose_rot 3 r) -> exists p q, In p (b_vertices b) /\ In q (b_vertices b) /\
  box_set h (pose_rot 3 r) (pose_tr 3 c) p /\ box_set h (pose_rot 3 r) (pose_tr 3 c) q /\ norm (vsub p q) = b_diaglen b.
Proof.
  intros Hb HQ. apply box_init_inv in Hb as (Lh & Ph & Eh & Ec & Er & MQ & Lc & _ & _ & EV & _). rewrite Ec in Lc. rewrite Er in MQ.
  set (Q := pose_rot 3 r) in *. set (t := pose_tr 3 c) in *.
  assert (C1 : is_corner h h) by (split; [auto|]; intros; now left).
  assert (C2 : is_corner h (vneg h)) by (split; [len|]; intros; right; apply nth_vneg).
  assert (B : forall u, is_corner h u -> box_set h Q t (move Q t u)).
  { intros u [Lu Hu]. exists u. split; [|reflexivity]. split; [auto|]. intros i Hi. specialize (Ph i ltac:(lia)). destruct (Hu i Hi) as [->| ->]; rewrite ?Rabs_Ropp, Rabs_pos_eq; lra. }
  exists (move Q t h), (move Q t (vneg h)). rewrite EV, Er, Ec. fold Q t.
  split; [apply in_map, in_box_vertices; auto|]. split; [apply in_map, in_box_vertices; auto|]. split; [auto|]. split; [auto|].
  unfold b_diaglen. rewrite Eh. replace (vsub (move Q t h) (move Q t (vneg h))) with (vscale 2 (vsub (move Q t h) t)).
  - rewrite norm_vscale, move_norm by auto. rewrite Rabs_pos_eq; lra.
  - clearbody Q t. clear -MQ Lc Lh. destruct (mat33_inv _ MQ) as (q11 & q12 & q13 & q21 & q22 & q23 & q31 & q32 & q33 & ->). destruct (len3_inv _ Lc) as (t1 & t2 & t3 & ->). destruct (len3_inv _ Lh) as (x & y & z & ->).
    unfold move. cbn. list_eq; unfold dot; cbn; ring.
Qed.
