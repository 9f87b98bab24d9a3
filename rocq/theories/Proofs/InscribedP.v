(** C29: closed-form inscribed and bounding shapes. *)
From Verif Require Import Base.Vec Base.VecFacts Spec.Basic Spec.Shapes Spec.ShapeObjects Spec.PolySpec
  Model.Util Model.Inertial Model.Polydd Model.Poly Model.Ellipsoid Model.Box Model.Cylinder
  Proofs.Coord Proofs.Hull Proofs.BoxP Proofs.EllP Proofs.CylP Proofs.ConsistentP Proofs.AabbP.

Lemma sqrt3_pos : 0 < sqrt 3. Proof. apply sqrt_lt_R0. lra. Qed.
Lemma sqrt3_sqr : sqrt 3 * sqrt 3 = 3. Proof. apply sqrt_sqrt. lra. Qed.
Lemma sqrt2_pos : 0 < sqrt 2. Proof. apply sqrt_lt_R0. lra. Qed.
Lemma sqrt2_sqr : sqrt 2 * sqrt 2 = 2. Proof. apply sqrt_sqrt. lra. Qed.
Lemma ge0_lt0 h : (forall i, (i < 3)%nat -> 0 <= nth i h 0) -> length h = 3%nat -> exists x y z, h = [x; y; z] /\ 0 <= x /\ 0 <= y /\ 0 <= z.
Proof.
  intros H L. destruct (len3_inv _ L) as (x & y & z & ->). exists x, y, z. split; [auto|].
  pose proof (H 0%nat ltac:(lia)). pose proof (H 1%nat ltac:(lia)). pose proof (H 2%nat ltac:(lia)). auto.
Qed.
Lemma nonneg3 x y z : 0 <= x -> 0 <= y -> 0 <= z -> forall i, (i < 3)%nat -> 0 <= nth i [x; y; z] 0.
Proof. intros Hx Hy Hz i Hi. destruct i as [|[|[|i]]]; cbn; auto; lia. Qed.
(** local descriptions *)
Lemma box_set3 x y z Q c p : box_set [x; y; z] Q c p <-> exists a b d, Rabs a <= x /\ Rabs b <= y /\ Rabs d <= z /\ p = move Q c [a; b; d].
Proof.
  split.
  - intros (u & [Lu Hu] & ->). destruct (len3_inv _ Lu) as (a & b & d & ->). exists a, b, d.
    split; [apply (Hu 0%nat); cbn; lia|]. split; [apply (Hu 1%nat); cbn; lia|]. split; [apply (Hu 2%nat); cbn; lia|reflexivity].
  - intros (a & b & d & Ha & Hb & Hd & ->). exists [a; b; d]. split; [|reflexivity]. split; [reflexivity|].
    intros i Hi. cbn in Hi. destruct i as [|[|[|i]]]; cbn; auto; lia.
Qed.
Lemma ell_set3 x y z Q c p : ell_set [x; y; z] Q c p <-> exists a b d, a * a + b * b + d * d <= 1 /\ p = move Q c [x * a; y * b; z * d].
Proof.
  split.
  - intros (u & Lu & Hu & ->). destruct (len3_inv _ Lu) as (a & b & d & ->). exists a, b, d. split; [cbn in Hu; lra|reflexivity].
  - intros (a & b & d & H & ->). exists [a; b; d]. split; [reflexivity|]. split; [cbn; lra|reflexivity].
Qed.
Lemma sqr_le_1 a b : a * a + b <= 1 -> 0 <= b -> Rabs a <= 1.
Proof. intros H Hb. apply sqr_le_abs; lra. Qed.
Lemma abs_scale x a : 0 <= x -> Rabs a <= 1 -> Rabs (x * a) <= x.
Proof. intros Hx Ha. rewrite Rabs_mult, (Rabs_pos_eq x) by auto. rewrite <- (Rmult_1_r x) at 2. apply Rmult_le_compat_l; auto. Qed.
(** u = x a with a = u / x (0 when x = 0) *)
Lemma unscale x u k : 0 <= x -> Rabs u <= k * x -> exists a, u = x * a /\ (0 <= k -> Rabs a <= k).
Proof.
  intros Hx Hu. destruct (Req_EM_T x 0) as [->|N].
  - exists 0. split; [rewrite Rmult_0_r in Hu; apply abs_le_inv in Hu; lra|]. intro. rewrite Rabs_R0. auto.
  - assert (0 < x) by lra. exists (u / x). split; [field; auto|]. intro Hk. unfold Rdiv. rewrite Rabs_mult, (Rabs_pos_eq (/ x)) by (left; apply Rinv_0_lt_compat; auto).
    apply div_le_iff; auto.
Qed.
Lemma ell_in_box x y z Q c p : 0 <= x -> 0 <= y -> 0 <= z -> ell_set [x; y; z] Q c p -> box_set [x; y; z] Q c p.
Proof.
  intros Hx Hy Hz H. apply ell_set3 in H as (a & b & d & H & ->). apply box_set3. exists (x * a), (y * b), (z * d).
  pose proof (sqr_nonneg a). pose proof (sqr_nonneg b). pose proof (sqr_nonneg d).
  split; [|split; [|split]]; [| | |reflexivity]; (apply abs_scale; [auto|]).
  - apply (sqr_le_1 a (b * b + d * d)); lra.
  - apply (sqr_le_1 b (a * a + d * d)); lra.
  - apply (sqr_le_1 d (b * b + a * a)); lra.
Qed.
(** a box whose half extents are 1/sqrt 3 of the ellipsoid's lies in the ellipsoid *)
Lemma box_in_ell x y z k Q c p : 0 <= x -> 0 <= y -> 0 <= z -> k * k * 3 <= 1 -> 0 <= k -> box_set [k * x; k * y; k * z] Q c p -> ell_set [x; y; z] Q c p.
Proof.
  intros Hx Hy Hz Hk K0 H. apply box_set3 in H as (u & v & w & Hu & Hv & Hw & ->).
  destruct (unscale x u k Hx Hu) as (a & -> & Ha). destruct (unscale y v k Hy Hv) as (b & -> & Hb). destruct (unscale z w k Hz Hw) as (d & -> & Hd).
  apply ell_set3. exists a, b, d. split; [|reflexivity]. specialize (Ha K0). specialize (Hb K0). specialize (Hd K0). apply sqr_abs_le in Ha, Hb, Hd. lra.
Qed.
Lemma move_norm Q c u : orthogonal 3 Q -> length c = 3%nat -> length u = 3%nat -> norm (vsub (move Q c u) c) = norm u.
Proof.
  intros HQ Hc Hu. assert (M : is_mat 3 3 Q) by apply HQ. unfold move. rewrite vsub_vadd by (rewrite mat_vec_length; rewrite Hc; apply M).
  unfold norm. f_equal. apply (orthogonal_dot 3); auto.
Qed.
Lemma sphere_set r c e p : 0 <= r -> length c = 3%nat -> length p = 3%nat -> ell_sphere r (Some c) = Ok e ->
  (ell_set (e_half e) (e_rot e) (e_center e) p <-> norm (vsub p c) <= r).
Proof.
  intros Hr Lc Lp H. rewrite sphere_good in H by auto. injection H as <-. cbn [e_half e_rot e_center cap_at].
  change (ell_set (repeat r 3) (eye 3) c p <-> norm (vsub p c) <= r). rewrite ball_set, norm_le_iff by auto. reflexivity.
Qed.
Lemma ell_set_len3 h Q c p : length h = 3%nat -> is_mat 3 3 Q -> length c = 3%nat -> ell_set h Q c p -> length p = 3%nat.
Proof. intros Lh M Lc (u & Lu & _ & ->). apply (move_len 3); auto. Qed.
Lemma lmin_nonneg h : (forall i, (i < length h)%nat -> 0 <= nth i h 0) -> 0 <= lmin h.
Proof.
  intros H. destruct h as [|x h]; [cbn; lra|]. assert (I : In (lmin (x :: h)) (x :: h)) by (apply lmin_in; discriminate).
  apply (In_nth _ _ 0) in I as (i & Hi & <-). auto.
Qed.
Lemma lmax_nonneg h : (forall i, (i < length h)%nat -> 0 <= nth i h 0) -> 0 <= lmax h.
Proof.
  intros H. destruct h as [|x h]; [cbn; lra|]. assert (I : In (lmax (x :: h)) (x :: h)) by (apply lmax_in; discriminate).
  apply (In_nth _ _ 0) in I as (i & Hi & <-). auto.
Qed.

(** ** boxes *)
Lemma box_mie_inside h c r b e p : box_init h c r = Ok b -> box_mie b false = Ok e ->
  ell_set (e_half e) (e_rot e) (e_center e) p -> box_set h (pose_rot 3 r) (pose_tr 3 c) p.
Proof.
  intros H He Hp. apply box_init_inv in H as (L & NN & E1 & E2 & E3 & M & LC & _). unfold box_mie in He.
  apply ell_init_inv in He as (_ & F1 & F2 & F3 & _). rewrite E1 in *. rewrite F1, F2, F3 in Hp. cbn [pose_rot pose_tr] in Hp. rewrite E2, E3 in Hp.
  destruct (ge0_lt0 h NN L) as (x & y & z & -> & Hx & Hy & Hz). apply ell_in_box; auto.
Qed.
Lemma box_mbe_outside h c r b e p : box_init h c r = Ok b -> box_mbe b false = Ok e ->
  box_set h (pose_rot 3 r) (pose_tr 3 c) p -> ell_set (e_half e) (e_rot e) (e_center e) p.
Proof.
  intros H He Hp. apply box_init_inv in H as (L & NN & E1 & E2 & E3 & M & LC & _). unfold box_mbe in He.
  apply ell_init_inv in He as (_ & F1 & F2 & F3 & _). rewrite E1 in *. rewrite F1, F2, F3. cbn [pose_rot pose_tr]. rewrite E2, E3.
  destruct (ge0_lt0 h NN L) as (x & y & z & -> & Hx & Hy & Hz). cbn [map]. pose proof sqrt3_pos as S3. pose proof sqrt3_sqr as S3'.
  assert (I0 : 0 < / sqrt 3) by (apply Rinv_0_lt_compat; auto).
  apply (box_in_ell _ _ _ (/ sqrt 3)); try (apply Rmult_le_pos; lra); try lra.
  - replace (/ sqrt 3 * / sqrt 3 * 3) with (/ sqrt 3 * / sqrt 3 * (sqrt 3 * sqrt 3)) by (rewrite S3'; reflexivity).
    right. field. lra.
  - replace [/ sqrt 3 * (x * sqrt 3); / sqrt 3 * (y * sqrt 3); / sqrt 3 * (z * sqrt 3)] with [x; y; z] by (list_eq; field; lra). auto.
Qed.
Lemma box_mie_sphere_inside h c r b e p : box_init h c r = Ok b -> orthogonal 3 (pose_rot 3 r) -> box_mie b true = Ok e ->
  ell_set (e_half e) (e_rot e) (e_center e) p -> box_set h (pose_rot 3 r) (pose_tr 3 c) p.
Proof.
  intros H HQ He Hp. apply box_init_inv in H as (L & NN & E1 & E2 & E3 & M & LC & _). unfold box_mie in He. rewrite E1, E2 in He. rewrite E2 in LC.
  assert (N0 : 0 <= lmin h) by (apply lmin_nonneg; rewrite L; auto).
  assert (Lp : length p = 3%nat).
  { pose proof He as He'. rewrite sphere_good in He' by auto. injection He' as <-. apply (ell_set_len3 (repeat (lmin h) 3) (eye 3) (pose_tr 3 c)); auto. apply is_mat_eye. }
  apply (sphere_set _ _ _ _ N0 LC Lp He) in Hp.
  destruct (move3 _ _ p HQ LC Lp) as (u & v & w & -> & _). rewrite move_norm in Hp by auto. apply norm_le_iff in Hp; [|auto]. unfold dot in Hp. cbn in Hp.
  exists [u; v; w]. split; [|reflexivity]. split; [rewrite L; reflexivity|]. rewrite L. intros i Hi.
  assert (lmin h <= nth i h 0) by (apply lmin_le, nth_In; lia). eapply Rle_trans; [|eassumption].
  pose proof (sqr_nonneg u). pose proof (sqr_nonneg v). pose proof (sqr_nonneg w).
  destruct i as [|[|[|i]]]; [| | |lia]; cbn [nth]; apply sqr_le_abs; lra.
Qed.
Lemma box_mbe_sphere_outside h c r b e p : box_init h c r = Ok b -> orthogonal 3 (pose_rot 3 r) -> box_mbe b true = Ok e ->
  box_set h (pose_rot 3 r) (pose_tr 3 c) p -> ell_set (e_half e) (e_rot e) (e_center e) p.
Proof.
  intros H HQ He Hp. apply box_init_inv in H as (L & NN & E1 & E2 & E3 & M & LC & _). unfold box_mbe in He. rewrite E1, E2 in He. rewrite E2 in LC. rewrite E3 in M.
  destruct (ge0_lt0 h NN L) as (x & y & z & -> & Hx & Hy & Hz). pose proof sqrt3_pos as S3. pose proof sqrt3_sqr as S3'.
  apply box_set3 in Hp as (u & v & w & Hu & Hv & Hw & ->). cbn [map] in He.
  set (m := lmax [x * sqrt 3; y * sqrt 3; z * sqrt 3]) in *.
  assert (X : x * sqrt 3 <= m) by (apply lmax_ge; cbn; auto). assert (Y : y * sqrt 3 <= m) by (apply lmax_ge; cbn; auto). assert (Z : z * sqrt 3 <= m) by (apply lmax_ge; cbn; auto).
  assert (N0 : 0 <= m) by (eapply Rle_trans; [|exact X]; apply Rmult_le_pos; lra).
  assert (Lp : length (move (pose_rot 3 r) (pose_tr 3 c) [u; v; w]) = 3%nat) by (apply (move_len 3); auto).
  apply (sphere_set _ _ _ _ N0 LC Lp He). rewrite move_norm by auto. clearbody m. apply norm_le_iff; [auto|]. unfold dot; cbn.
  apply sqr_abs_le in Hu, Hv, Hw.
  assert (T : forall a, 0 <= a -> a * sqrt 3 <= m -> a * a * 3 <= m * m).
  { intros a Ha Hm. replace (a * a * 3) with ((a * sqrt 3) * (a * sqrt 3)) by (replace (a * a * 3) with (a * a * (sqrt 3 * sqrt 3)) by (rewrite S3'; reflexivity); ring).
    apply Rmult_le_compat; auto; apply Rmult_le_pos; lra. }
  specialize (T x Hx X) as TX. specialize (T y Hy Y) as TY. specialize (T z Hz Z) as TZ. lra.
Qed.
Lemma box_mie_total h c r b s : box_init h c r = Ok b -> exists e, box_mie b s = Ok e.
Proof.
  intros H. apply box_init_inv in H as (L & NN & E1 & E2 & E3 & M & LC & _). unfold box_mie. destruct s.
  - eexists. apply sphere_good; auto. apply lmin_nonneg. rewrite E1, L; auto.
  - eexists. apply ell_init_good; rewrite E1, L; auto.
Qed.
Lemma map_sqrt3_nonneg h : length h = 3%nat -> (forall i, (i < 3)%nat -> 0 <= nth i h 0) -> forall i, (i < 3)%nat -> 0 <= nth i (map (fun h => h * sqrt 3) h) 0.
Proof.
  intros L NN i Hi. rewrite (nth_map_0 (fun h => h * sqrt 3) _ _ 0) by lia. pose proof sqrt3_pos. apply Rmult_le_pos; [auto|lra].
Qed.
Lemma box_mbe_total h c r b s : box_init h c r = Ok b -> exists e, box_mbe b s = Ok e.
Proof.
  intros H. apply box_init_inv in H as (L & NN & E1 & E2 & E3 & M & LC & _). unfold box_mbe. rewrite E1. pose proof (map_sqrt3_nonneg h L NN) as N3. destruct s.
  - eexists. apply sphere_good; auto. apply lmax_nonneg. rewrite map_length, L; auto.
  - eexists. apply ell_init_good; rewrite map_length, L; auto.
Qed.

(** ** ellipsoids *)
Lemma ell_mbb_outside h r c e b p : ell_init h r c = Ok e -> ell_mbb e = Ok b ->
  ell_set h (pose_rot 3 r) (pose_tr 3 c) p -> box_set (b_half b) (b_rot b) (b_center b) p.
Proof.
  intros H Hb Hp. apply box_init_inv in Hb as (L & NN & E1 & E2 & E3 & M & LC & _). apply ell_init_inv in H as (_ & F1 & F2 & F3 & _).
  rewrite E1, E2, E3. cbn [pose_rot pose_tr]. rewrite F1 in L, NN. rewrite L in F2, F3. rewrite F1, F2, F3.
  destruct (ge0_lt0 h NN L) as (x & y & z & -> & Hx & Hy & Hz). apply ell_in_box; auto.
Qed.
Lemma ell_mib_inside h r c e b p : ell_init h r c = Ok e -> ell_mib e = Ok b ->
  box_set (b_half b) (b_rot b) (b_center b) p -> ell_set h (pose_rot 3 r) (pose_tr 3 c) p.
Proof.
  intros H Hb Hp. apply box_init_inv in Hb as (L & NN & E1 & E2 & E3 & M & LC & _). apply ell_init_inv in H as (N1 & F1 & F2 & F3 & _).
  rewrite vdivs_length in L. rewrite F1 in L. rewrite L in N1. rewrite E1, E2, E3 in Hp. cbn [pose_rot pose_tr] in Hp. rewrite L in F2, F3. rewrite F1, F2, F3 in Hp.
  destruct (ge0_lt0 h N1 L) as (x & y & z & -> & Hx & Hy & Hz). pose proof sqrt3_pos as S3. pose proof sqrt3_sqr as S3'.
  assert (I0 : 0 < / sqrt 3) by (apply Rinv_0_lt_compat; auto).
  apply (box_in_ell _ _ _ (/ sqrt 3)); auto; try lra.
  - replace (/ sqrt 3 * / sqrt 3 * 3) with (/ sqrt 3 * / sqrt 3 * (sqrt 3 * sqrt 3)) by (rewrite S3'; reflexivity). right. field. lra.
  - replace [/ sqrt 3 * x; / sqrt 3 * y; / sqrt 3 * z] with (vdivs [x; y; z] (sqrt 3)) by (cbn; list_eq; field; lra). auto.
Qed.
Lemma ell_mbe_sphere_outside h r c e e' p : ell_init h r c = Ok e -> length h = 3%nat -> orthogonal 3 (pose_rot 3 r) -> ell_mbe e true = Ok e' ->
  ell_set h (pose_rot 3 r) (pose_tr 3 c) p -> ell_set (e_half e') (e_rot e') (e_center e') p.
Proof.
  intros H L HQ He Hp. apply ell_init_inv in H as (NN & F1 & F2 & F3 & M & LC). rewrite L in *. unfold ell_mbe in He. cbn [negb] in He. rewrite F1, F3 in He. rewrite F3 in LC. rewrite F2 in M.
  destruct (ge0_lt0 h NN L) as (x & y & z & -> & Hx & Hy & Hz). apply ell_set3 in Hp as (u & v & w & H & ->).
  set (m := lmax [x; y; z]) in *. assert (X : x <= m) by (apply lmax_ge; cbn; auto). assert (Y : y <= m) by (apply lmax_ge; cbn; auto). assert (Z : z <= m) by (apply lmax_ge; cbn; auto).
  assert (N0 : 0 <= m) by lra. assert (Lp : length (move (pose_rot 3 r) (pose_tr 3 c) [x * u; y * v; z * w]) = 3%nat) by (apply (move_len 3); auto).
  apply (sphere_set _ _ _ _ N0 LC Lp He). rewrite move_norm by auto. clearbody m. apply norm_le_iff; [auto|]. unfold dot; cbn.
  assert (T : forall a q, 0 <= a -> a <= m -> a * q * (a * q) <= m * m * (q * q)).
  { intros a q Ha Hm. replace (a * q * (a * q)) with (a * a * (q * q)) by ring. apply Rmult_le_compat_r; [apply sqr_nonneg|]. apply Rmult_le_compat; auto. }
  pose proof (T x u Hx X). pose proof (T y v Hy Y). pose proof (T z w Hz Z).
  assert (m * m * (u * u + v * v + w * w) <= m * m * 1) by (apply Rmult_le_compat_l; [apply sqr_nonneg|lra]). lra.
Qed.
Lemma ell_mbe_self e : ell_mbe e false = Ok e. Proof. reflexivity. Qed.
Lemma ell_boxes_total h r c e : ell_init h r c = Ok e -> length h = 3%nat ->
  (exists b, ell_mbb e = Ok b) /\ (exists b, ell_mib e = Ok b) /\ (exists e', ell_mbe e true = Ok e').
Proof.
  intros H L. apply ell_init_inv in H as (NN & F1 & F2 & F3 & M & LC). rewrite L in *. split; [|split].
  - apply box_init_good; rewrite ?F1; auto.
  - apply box_init_good; rewrite ?vdivs_length, ?F1; auto. intros i Hi. rewrite nth_vdivs. apply Rmult_le_pos; [auto|]. left. apply Rinv_0_lt_compat, sqrt3_pos.
  - eexists. apply sphere_good; [|auto]. apply lmax_nonneg. rewrite F1, L. auto.
Qed.

(** ** cylinders and capsules *)
Lemma cyl_mib_inside L r ro co c b p : cyl_init L r ro co = Ok c -> cyl_mib c = Ok b ->
  box_set (b_half b) (b_rot b) (b_center b) p -> cyl_set L r (pose_rot 3 ro) (pose_tr 3 co) p.
Proof.
  intros H Hb Hp. apply cyl_init_inv in H as (HL & Hr & M & LC & ->). unfold cyl_mib in Hb. cbn [c_radius c_length c_center c_rot cyl_of] in Hb.
  apply box_init_inv in Hb as (_ & _ & E1 & E2 & E3 & _). cbn [pose_rot pose_tr] in E2, E3. rewrite E1, E2, E3 in Hp.
  apply box_set3 in Hp as (u & v & w & Hu & Hv & Hw & ->). exists u, v, w. split; [|auto]. apply sqr_abs_le in Hu, Hv.
  pose proof sqrt2_pos as S2. pose proof sqrt2_sqr as S2'.
  assert (E : r / sqrt 2 * (r / sqrt 2) = r * r / (sqrt 2 * sqrt 2)) by (field; lra). rewrite S2' in E. lra.
Qed.
Lemma cyl_mbb_outside L r ro co c b p : cyl_init L r ro co = Ok c -> cyl_mbb c = Ok b ->
  cyl_set L r (pose_rot 3 ro) (pose_tr 3 co) p -> box_set (b_half b) (b_rot b) (b_center b) p.
Proof.
  intros H Hb Hp. apply cyl_init_inv in H as (HL & Hr & M & LC & ->). unfold cyl_mbb in Hb. cbn [c_radius c_length c_center c_rot cyl_of] in Hb.
  apply box_init_inv in Hb as (_ & _ & E1 & E2 & E3 & _). cbn [pose_rot pose_tr] in E2, E3. rewrite E1, E2, E3.
  destruct Hp as (u & v & w & Huv & Hw & ->). apply box_set3. exists u, v, w. pose proof (sqr_nonneg u). pose proof (sqr_nonneg v).
  split; [apply sqr_le_abs; lra|]. split; [apply sqr_le_abs; lra|]. split; auto.
Qed.
Lemma cyl_in_ell L r Q c p : 0 <= L -> 0 <= r -> cyl_set L r Q c p ->
  ell_set [r / sqrt 2 * sqrt 3; r / sqrt 2 * sqrt 3; L / 2 * sqrt 3] Q c p.
Proof.
  intros HL Hr (u & v & w & Huv & Hw & ->). pose proof sqrt2_pos as S2. pose proof sqrt2_sqr as S2'. pose proof sqrt3_pos as S3. pose proof sqrt3_sqr as S3'.
  set (s := r / sqrt 2 * sqrt 3). set (t := L / 2 * sqrt 3).
  assert (HS : 0 <= s) by (apply Rmult_le_pos; [apply Rmult_le_pos; [auto|left; apply Rinv_0_lt_compat; auto]|lra]).
  assert (HT : 0 <= t) by (apply Rmult_le_pos; lra).
  assert (SS : s * s = r * r * (sqrt 3 * sqrt 3) / (sqrt 2 * sqrt 2)) by (unfold s; field; lra). rewrite S2', S3' in SS.
  assert (I3 : 0 < / sqrt 3) by (apply Rinv_0_lt_compat; auto).
  assert (EW : exists d, w = t * d /\ d * d <= 1 / 3).
  { destruct (unscale t w (/ sqrt 3) HT) as (d & Ed & Hd).
    - replace (/ sqrt 3 * t) with (L / 2) by (unfold t; field; lra). auto.
    - exists d. split; [auto|]. specialize (Hd ltac:(lra)). apply sqr_abs_le in Hd. replace (/ sqrt 3 * / sqrt 3) with (1 / (sqrt 3 * sqrt 3)) in Hd by (field; lra). rewrite S3' in Hd. auto. }
  destruct EW as (d & -> & Hd).
  assert (EU : exists a b, u = s * a /\ v = s * b /\ a * a + b * b <= 2 / 3).
  { destruct (Req_EM_T r 0) as [R0|R0].
    - exists 0, 0. pose proof (sqr_nonneg u). pose proof (sqr_nonneg v). rewrite R0 in Huv.
      split; [rewrite Rmult_0_r; apply Rsqr_0_uniq; unfold Rsqr; lra|]. split; [rewrite Rmult_0_r; apply Rsqr_0_uniq; unfold Rsqr; lra|lra].
    - assert (0 < r * r) by (assert (0 < r) by lra; apply Rmult_lt_0_compat; auto).
      assert (NS : s <> 0) by (intro E; rewrite E in SS; lra).
      exists (u / s), (v / s). split; [field; auto|]. split; [field; auto|].
      replace (u / s * (u / s) + v / s * (v / s)) with ((u * u + v * v) / (s * s)) by (field; auto). apply div_le_iff; lra. }
  destruct EU as (a & b & -> & -> & Hab). apply ell_set3. exists a, b, d. split; [lra|reflexivity].
Qed.
Lemma cyl_mbe_outside L r ro co c e p : cyl_init L r ro co = Ok c -> cyl_mbe c false = Ok e ->
  cyl_set L r (pose_rot 3 ro) (pose_tr 3 co) p -> ell_set (e_half e) (e_rot e) (e_center e) p.
Proof.
  intros H He Hp. apply cyl_init_inv in H as (HL & Hr & M & LC & ->). unfold cyl_mbe in He. apply bind_inv in He as (b & Hb & He).
  unfold cyl_mib in Hb. cbn [c_radius c_length c_center c_rot cyl_of] in Hb. apply box_init_inv in Hb as (_ & _ & E1 & E2 & E3 & _). cbn [pose_rot pose_tr] in E2, E3.
  unfold box_mbe in He. rewrite E1, E2, E3 in He. apply ell_init_inv in He as (_ & F1 & F2 & F3 & _). cbn [pose_rot pose_tr] in F2, F3. rewrite F1, F2, F3.
  cbn [map]. apply cyl_in_ell; auto.
Qed.
Lemma cyl_mbe_sphere_outside L r ro co c e p : cyl_init L r ro co = Ok c -> orthogonal 3 (pose_rot 3 ro) -> cyl_mbe c true = Ok e ->
  cyl_set L r (pose_rot 3 ro) (pose_tr 3 co) p -> ell_set (e_half e) (e_rot e) (e_center e) p.
Proof.
  intros H HQ He Hp. apply cyl_init_inv in H as (HL & Hr & M & LC & ->). unfold cyl_mbe in He. apply bind_inv in He as (b & Hb & He).
  unfold cyl_mib in Hb. cbn [c_radius c_length c_center c_rot cyl_of] in Hb. apply box_init_inv in Hb as (_ & NN & E1 & E2 & E3 & _). cbn [pose_rot pose_tr] in E2, E3.
  unfold box_mbe in He. rewrite E1, E2 in He. apply cyl_in_ell in Hp; auto. cbn [map] in He.
  set (s := r / sqrt 2 * sqrt 3) in *. set (t := L / 2 * sqrt 3) in *.
  pose proof sqrt3_pos as S3.
  assert (HS : 0 <= s) by (unfold s; apply Rmult_le_pos; [apply (NN 0%nat); lia|lra]). assert (HT : 0 <= t) by (unfold t; apply Rmult_le_pos; lra).
  assert (HE : ell_init [s; s; t] (Some (pose_rot 3 ro)) (Some (pose_tr 3 co)) = Ok {| e_half := [s; s; t]; e_rot := pose_rot 3 ro; e_center := pose_tr 3 co |}).
  { apply (ell_init_good [s; s; t] (Some (pose_rot 3 ro)) (Some (pose_tr 3 co))); auto. intros i Hi. apply nonneg3; auto. }
  apply (ell_mbe_sphere_outside [s; s; t] (Some (pose_rot 3 ro)) (Some (pose_tr 3 co)) _ e p HE); auto.
Qed.
Lemma cyl_boxes_total L r ro co c : cyl_init L r ro co = Ok c ->
  (exists b, cyl_mib c = Ok b) /\ (exists b, cyl_mbb c = Ok b) /\ (forall s, exists e, cyl_mbe c s = Ok e).
Proof.
  intros H. apply cyl_init_inv in H as (HL & Hr & M & LC & ->). pose proof sqrt2_pos as S2.
  assert (R2 : 0 <= r / sqrt 2) by (apply Rmult_le_pos; [auto|left; apply Rinv_0_lt_compat; auto]).
  assert (B : exists b, cyl_mib (cyl_of L r (pose_rot 3 ro) (pose_tr 3 co)) = Ok b).
  { apply box_init_good; auto. apply nonneg3; auto. cbn. lra. }
  split; [auto|]. split.
  - apply box_init_good; auto. apply nonneg3; auto. cbn. lra.
  - intro s. destruct B as (b & Hb). unfold cyl_mbe. rewrite Hb. cbn [bind]. exact (box_mbe_total _ _ _ _ s Hb).
Qed.
Lemma caps_mbb_outside L r ro co c k b p a a' : cyl_init L r ro co = Ok c -> caps_init c = Ok k -> orthogonal 3 (pose_rot 3 ro) -> caps_mbb k = Ok b ->
  cyl_endpoints c = [a; a'] -> length p = 3%nat -> caps_set a a' r p -> box_set (b_half b) (b_rot b) (b_center b) p.
Proof.
  intros H Hk HQ Hb He Lp Hp. pose proof (caps_inv _ _ _ _ _ _ H Hk) as (HL & Hr & M & LC & ->).
  apply cyl_init_inv in H as (_ & _ & _ & _ & ->). rewrite endpoints_eq in He by auto. injection He as <- <-.
  unfold caps_mbb, k_full_length in Hb. cbn [k_cyl caps_of c_radius c_length c_center c_rot cyl_of] in Hb. apply box_init_inv in Hb as (_ & _ & E1 & E2 & E3 & _).
  cbn [pose_rot pose_tr] in E2, E3. rewrite E1, E2, E3.
  destruct (move3 _ _ p HQ LC Lp) as (x & y & z & -> & _). apply caps_local in Hp as (z0 & Hz & Hp); auto.
  apply box_set3. exists x, y, z. pose proof (sqr_nonneg x). pose proof (sqr_nonneg y). pose proof (sqr_nonneg (z - z0)).
  split; [apply sqr_le_abs; lra|]. split; [apply sqr_le_abs; lra|]. split; [|reflexivity].
  assert (Rabs (z - z0) <= r) by (apply sqr_le_abs; lra). apply abs_le_inv in Hz. apply Rabs_le. apply abs_le_inv in H2. lra.
Qed.
Lemma caps_mbb_total L r ro co c k : cyl_init L r ro co = Ok c -> caps_init c = Ok k -> exists b, caps_mbb k = Ok b.
Proof.
  intros H Hk. pose proof (caps_inv _ _ _ _ _ _ H Hk) as (HL & Hr & M & LC & ->).
  apply box_init_good; auto. apply nonneg3; auto. unfold k_full_length. cbn. lra.
Qed.
