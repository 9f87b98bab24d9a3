(** C67: volume optimality of the bounding boxes of cylinders and capsules, and of bounding spheres. *)
From Verif Require Import Base.Vec Base.VecFacts Spec.Basic Spec.Shapes Spec.ShapeObjects Spec.PolySpec
  Model.Util Model.Inertial Model.Polydd Model.Poly Model.Ellipsoid Model.Box Model.Cylinder
  Proofs.Coord Proofs.Hull Proofs.BoxP Proofs.EllP Proofs.CylP Proofs.ConsistentP Proofs.AabbP Proofs.InscribedP Proofs.VolumeP.

(** ** real inequalities: c_i are the absolute values of the entries of a unit vector *)
Lemma sqrt_complement a b c : a * a + b * b + c * c = 1 -> c <= sqrt (1 - a * a) * sqrt (1 - b * b).
Proof.
  intros E. pose proof (sqr_nonneg a). pose proof (sqr_nonneg b). pose proof (sqr_nonneg c). rewrite <- sqrt_mult by lra.
  apply sqr_le; [apply sqrt_pos|]. rewrite sqrt_sqrt by (apply Rmult_le_pos; lra).
  pose proof (sqr_nonneg (a * b)). replace ((1 - a * a) * (1 - b * b)) with (1 - a * a - b * b + a * b * (a * b)) by ring. lra.
Qed.
Lemma cyl_box_product r l a b c x y z : 0 <= r -> 0 <= l -> 0 <= a -> 0 <= b -> 0 <= c -> a * a + b * b + c * c = 1 ->
  r * sqrt (1 - a * a) + l * a <= x -> r * sqrt (1 - b * b) + l * b <= y -> r * sqrt (1 - c * c) + l * c <= z -> r * r * l <= x * y * z.
Proof.
  intros Hr Hl Ha Hb Hc E X Y Z.
  pose proof (sqrt_complement a b c E) as C1. pose proof (sqrt_complement b c a ltac:(lra)) as C2. pose proof (sqrt_complement a c b ltac:(lra)) as C3.
  pose proof (sqrt_pos (1 - a * a)) as P1. pose proof (sqrt_pos (1 - b * b)) as P2. pose proof (sqrt_pos (1 - c * c)) as P3.
  set (s := sqrt (1 - a * a)) in *. set (t := sqrt (1 - b * b)) in *. set (u := sqrt (1 - c * c)) in *. clearbody s t u.
  assert (M : (r * s + l * a) * (r * t + l * b) * (r * u + l * c) <= x * y * z).
  { apply prod3_le; auto; apply Rplus_le_le_0_compat; apply Rmult_le_pos; auto. }
  assert (D1 : c * c <= s * t * c) by (apply Rmult_le_compat_r; auto).
  assert (D2 : a * a <= t * u * a) by (apply Rmult_le_compat_r; auto).
  assert (D3 : b * b <= s * u * b) by (apply Rmult_le_compat_r; auto).
  assert (R0 : 0 <= r * r * l) by (apply Rmult_le_pos; auto; apply Rmult_le_pos; auto).
  assert (G : r * r * l * 1 <= r * r * l * (s * t * c + t * u * a + s * u * b)) by (apply Rmult_le_compat_l; lra).
  assert (Q : forall p q v, 0 <= p -> 0 <= q -> 0 <= v -> 0 <= p * q * v) by (intros; apply Rmult_le_pos; auto; apply Rmult_le_pos; auto).
  assert (Z0 : 0 <= r * r * r * (s * t * u)) by (apply Rmult_le_pos; apply Q; auto).
  assert (Z1 : 0 <= l * l * l * (a * b * c)) by (apply Rmult_le_pos; apply Q; auto).
  assert (Z2 : 0 <= r * l * l * (s * b * c)) by (apply Rmult_le_pos; apply Q; auto).
  assert (Z3 : 0 <= r * l * l * (a * t * c)) by (apply Rmult_le_pos; apply Q; auto).
  assert (Z4 : 0 <= r * l * l * (a * b * u)) by (apply Rmult_le_pos; apply Q; auto).
  replace ((r * s + l * a) * (r * t + l * b) * (r * u + l * c)) with
    (r * r * l * (s * t * c + t * u * a + s * u * b) + (r * r * r * (s * t * u) + l * l * l * (a * b * c) + r * l * l * (s * b * c) + r * l * l * (a * t * c) + r * l * l * (a * b * u))) in M by ring.
  lra.
Qed.
Lemma caps_box_product r l a b c x y z : 0 <= r -> 0 <= l -> 0 <= a -> 0 <= b -> 0 <= c -> a * a + b * b + c * c = 1 ->
  r + l * a <= x -> r + l * b <= y -> r + l * c <= z -> r * r * (l + r) <= x * y * z.
Proof.
  intros Hr Hl Ha Hb Hc E X Y Z.
  assert (M : (r + l * a) * (r + l * b) * (r + l * c) <= x * y * z).
  { apply prod3_le; auto; apply Rplus_le_le_0_compat; auto; apply Rmult_le_pos; auto. }
  pose proof (sqr_nonneg a). pose proof (sqr_nonneg b). pose proof (sqr_nonneg c).
  assert (U : forall w, 0 <= w -> w * w <= 1 -> w * w <= w) by (intros w W0 W1; assert (w <= 1) by (apply sqr_le; lra); rewrite <- (Rmult_1_r w) at 3; apply Rmult_le_compat_l; auto).
  pose proof (U a Ha ltac:(lra)). pose proof (U b Hb ltac:(lra)). pose proof (U c Hc ltac:(lra)).
  assert (G : r * r * l * 1 <= r * r * l * (a + b + c)) by (apply Rmult_le_compat_l; [apply Rmult_le_pos; auto; apply Rmult_le_pos; auto|lra]).
  assert (Q : forall p q v, 0 <= p -> 0 <= q -> 0 <= v -> 0 <= p * q * v) by (intros; apply Rmult_le_pos; auto; apply Rmult_le_pos; auto).
  assert (Z1 : 0 <= r * l * l * (a * b + b * c + a * c)).
  { apply Rmult_le_pos; [apply Q; auto|]. pose proof (Rmult_le_pos a b Ha Hb). pose proof (Rmult_le_pos b c Hb Hc). pose proof (Rmult_le_pos a c Ha Hc). lra. }
  assert (Z2 : 0 <= l * l * l * (a * b * c)) by (apply Rmult_le_pos; apply Q; auto).
  replace ((r + l * a) * (r + l * b) * (r + l * c)) with (r * r * r + r * r * l * (a + b + c) + r * l * l * (a * b + b * c + a * c) + l * l * l * (a * b * c)) in M by ring.
  lra.
Qed.

(** ** the support of a symmetric set inside a box *)
Lemma box_support K h Q c Q' c' : orthogonal 3 Q -> length c = 3%nat -> length h = 3%nat -> orthogonal 3 Q' -> length c' = 3%nat ->
  (forall v, length v = 3%nat -> K v -> box_set h Q' c' (move Q c v)) ->
  forall i v, (i < 3)%nat -> length v = 3%nat -> K v -> K (vneg v) -> Rabs (dot (nth i (mat_mul (transpose Q') Q) []) v) <= nth i h 0.
Proof.
  intros HQ Lc Lh HQ' Lc' S i v Hi Lv Kv Kn. assert (M : is_mat 3 3 Q) by apply HQ. assert (M' : is_mat 3 3 Q') by apply HQ'.
  assert (IN : forall v, length v = 3%nat -> K v -> Rabs (nth i (move (mat_mul (transpose Q') Q) (mat_vec (transpose Q') (vsub c c')) v) 0) <= nth i h 0).
  { intros w Lw Kw. destruct (S w Lw Kw) as (u & [Lu Hu] & E). rewrite <- rel_move by auto. rewrite E, rel_self by (auto; congruence). apply Hu. lia. }
  assert (Ln : length (vneg v) = 3%nat) by (destruct_vecs; reflexivity).
  pose proof (IN v Lv Kv) as I1. pose proof (IN (vneg v) Ln Kn) as I2. clear IN S Kv Kn.
  assert (MN : is_mat 3 3 (mat_mul (transpose Q') Q)) by (apply (orthogonal_mul 3); auto; apply orthogonal_transpose; auto; lia).
  assert (Ld : length (mat_vec (transpose Q') (vsub c c')) = 3%nat) by (rewrite mat_vec_length, transpose_length; apply (is_mat_ncols 3 3); auto; lia).
  set (N := mat_mul (transpose Q') Q) in *. set (d := mat_vec (transpose Q') (vsub c c')) in *. clearbody N d.
  destruct (mat33_inv N MN) as (n1 & n2 & n3 & n4 & n5 & n6 & n7 & n8 & n9 & ->). destruct (len3_inv _ Ld) as (d1 & d2 & d3 & ->). destruct (len3_inv _ Lv) as (v1 & v2 & v3 & ->). destruct (len3_inv _ Lh) as (h1 & h2 & h3 & ->).
  apply abs_le_inv in I1, I2.
  destruct i as [|[|[|i]]]; [| | |lia]; cbn in I1, I2 |- *; unfold dot in *; cbn in I1, I2 |- *; apply Rabs_le; lra.
Qed.
Lemma unit_cols a b c d e f g h i : orthogonal 3 [[a; b; c]; [d; e; f]; [g; h; i]] ->
  c * c + f * f + i * i = 1 /\ a * a + b * b = 1 - c * c /\ d * d + e * e = 1 - f * f /\ g * g + h * h = 1 - i * i.
Proof.
  intros (_ & H1 & H2). cbn in H1, H2. unfold dot in H1, H2. cbn in H1, H2. injection H1 as A1 A2 A3 A4 A5 A6 A7 A8 A9. injection H2 as B1 B2 B3 B4 B5 B6 B7 B8 B9.
  repeat split; lra.
Qed.
(** the point of the cylinder farthest in direction (a, b, g) *)
Lemma cyl_support r l a b g h : 0 <= r -> 0 <= l ->
  (forall x y z, x * x + y * y <= r * r -> Rabs z <= l -> Rabs (a * x + b * y + g * z) <= h) ->
  r * sqrt (a * a + b * b) + l * Rabs g <= h.
Proof.
  intros Hr Hl S. pose proof (sqr_nonneg a). pose proof (sqr_nonneg b). set (s := sqrt (a * a + b * b)).
  assert (SS : s * s = a * a + b * b) by (apply sqrt_sqrt; lra). assert (S0 : 0 <= s) by apply sqrt_pos.
  assert (exists z, Rabs z <= l /\ g * z = l * Rabs g) as (z & Hz & Ez).
  { destruct (Rle_dec 0 g); [exists l|exists (- l)]; [rewrite !Rabs_pos_eq by auto|rewrite Rabs_Ropp, (Rabs_pos_eq l), (Rabs_left g) by lra]; lra. }
  destruct (Req_EM_T s 0) as [Z|NZ].
  - assert (a = 0 /\ b = 0) as [-> ->] by (rewrite Z in SS; split; apply Rsqr_0_uniq; unfold Rsqr; lra).
    specialize (S 0 0 z ltac:(assert (0 <= r * r) by apply sqr_nonneg; lra) Hz). pose proof (Rle_abs (0 * 0 + 0 * 0 + g * z)). rewrite Z. lra.
  - specialize (S (r * (a / s)) (r * (b / s)) z).
    assert (E1 : r * (a / s) * (r * (a / s)) + r * (b / s) * (r * (b / s)) = r * r).
    { replace (r * (a / s) * (r * (a / s)) + r * (b / s) * (r * (b / s))) with (r * r * ((a * a + b * b) / (s * s))) by (field; auto). rewrite <- SS. field; auto. }
    specialize (S ltac:(lra) Hz).
    assert (E2 : a * (r * (a / s)) + b * (r * (b / s)) = r * s).
    { replace (a * (r * (a / s)) + b * (r * (b / s))) with (r * ((a * a + b * b) / s)) by (field; auto). rewrite <- SS. field; auto. }
    rewrite E2, Ez in S. pose proof (Rle_abs (r * s + l * Rabs g)). lra.
Qed.
Lemma abs_sqr a : Rabs a * Rabs a = a * a.
Proof. symmetry. apply (Rsqr_abs a). Qed.

Lemma cyl_mbb_minimal L r ro co c b h' c' r' b' : cyl_init L r ro co = Ok c -> orthogonal 3 (pose_rot 3 ro) -> cyl_mbb c = Ok b ->
  box_init h' c' r' = Ok b' -> orthogonal 3 (pose_rot 3 r') ->
  (forall p, cyl_set L r (pose_rot 3 ro) (pose_tr 3 co) p -> box_set h' (pose_rot 3 r') (pose_tr 3 c') p) ->
  b_volume b <= b_volume b'.
Proof.
  intros H HQ Hb Hb' HQ' S. apply cyl_init_inv in H as (HL & Hr & M & LC & ->). unfold cyl_mbb in Hb. cbn [c_radius c_length c_center c_rot cyl_of] in Hb.
  rewrite (b_volume_eq _ _ _ _ Hb), (b_volume_eq _ _ _ _ Hb'). apply box_init_inv in Hb' as (L' & NN' & E1' & E2' & E3' & M' & LC' & _). rewrite E2' in LC'.
  set (K := fun v => exists x y z, x * x + y * y <= r * r /\ Rabs z <= L / 2 /\ v = [x; y; z]).
  assert (X : forall i v, (i < 3)%nat -> length v = 3%nat -> K v -> K (vneg v) -> Rabs (dot (nth i (mat_mul (transpose (pose_rot 3 r')) (pose_rot 3 ro)) []) v) <= nth i h' 0).
  { apply (box_support K h' (pose_rot 3 ro) (pose_tr 3 co) (pose_rot 3 r') (pose_tr 3 c')); auto.
    intros v Lv (x & y & z & H1 & H2 & ->). apply S. exists x, y, z. auto. }
  assert (HN : orthogonal 3 (mat_mul (transpose (pose_rot 3 r')) (pose_rot 3 ro))) by (apply (orthogonal_mul 3); auto; apply orthogonal_transpose; auto; lia).
  set (N := mat_mul (transpose (pose_rot 3 r')) (pose_rot 3 ro)) in *. clearbody N. clear S.
  destruct (mat33_inv N ltac:(apply HN)) as (n1 & n2 & n3 & n4 & n5 & n6 & n7 & n8 & n9 & ->). destruct (ge0_lt0 h' NN' L') as (x & y & z & -> & Hx & Hy & Hz).
  destruct (unit_cols _ _ _ _ _ _ _ _ _ HN) as (U & U1 & U2 & U3).
  assert (Y : forall i a b g, (i < 3)%nat -> nth i [[n1; n2; n3]; [n4; n5; n6]; [n7; n8; n9]] [] = [a; b; g] -> r * sqrt (a * a + b * b) + L / 2 * Rabs g <= nth i [x; y; z] 0).
  { intros i a d g Hi E. apply cyl_support; [auto|lra|]. intros p q s H1 H2. specialize (X i [p; q; s] Hi eq_refl). rewrite E in X. unfold dot in X. cbn in X.
    replace (a * p + d * q + g * s) with (a * p + (d * q + (g * s + 0))) by ring. apply X; [exists p, q, s; auto|]. exists (- p), (- q), (- s). split; [lra|]. split; [rewrite Rabs_Ropp; auto|reflexivity]. }
  pose proof (Y 0%nat n1 n2 n3 ltac:(lia) eq_refl) as Y0. pose proof (Y 1%nat n4 n5 n6 ltac:(lia) eq_refl) as Y1. pose proof (Y 2%nat n7 n8 n9 ltac:(lia) eq_refl) as Y2. cbn [nth] in Y0, Y1, Y2.
  rewrite U1, <- abs_sqr in Y0. rewrite U2, <- abs_sqr in Y1. rewrite U3, <- abs_sqr in Y2.
  assert (P : r * r * (L / 2) <= x * y * z).
  { apply (cyl_box_product r (L / 2) (Rabs n3) (Rabs n6) (Rabs n9)); auto; try lra; try apply Rabs_pos. rewrite !abs_sqr. exact U. }
  cbn [vprod fold_right]. rewrite !Rmult_1_r, <- !Rmult_assoc. lra.
Qed.
Lemma caps_mbb_minimal L r ro co c k b a a' h' c' r' b' : cyl_init L r ro co = Ok c -> caps_init c = Ok k -> orthogonal 3 (pose_rot 3 ro) -> caps_mbb k = Ok b ->
  cyl_endpoints c = [a; a'] -> box_init h' c' r' = Ok b' -> orthogonal 3 (pose_rot 3 r') ->
  (forall p, length p = 3%nat -> caps_set a a' r p -> box_set h' (pose_rot 3 r') (pose_tr 3 c') p) ->
  b_volume b <= b_volume b'.
Proof.
  intros H Hk HQ Hb He Hb' HQ' S. pose proof (caps_inv _ _ _ _ _ _ H Hk) as (HL & Hr & M & LC & ->).
  apply cyl_init_inv in H as (_ & _ & _ & _ & ->). rewrite endpoints_eq in He by auto. injection He as <- <-.
  unfold caps_mbb in Hb. cbn [k_cyl c_radius c_length c_center c_rot cyl_of caps_of] in Hb.
  rewrite (b_volume_eq _ _ _ _ Hb), (b_volume_eq _ _ _ _ Hb'). clear Hb. apply box_init_inv in Hb' as (L' & NN' & E1' & E2' & E3' & M' & LC' & _). rewrite E2' in LC'.
  set (K := fun v => exists x y z s, x * x + y * y + z * z <= r * r /\ Rabs s <= L / 2 /\ v = [x; y; z + s]).
  assert (X : forall i v, (i < 3)%nat -> length v = 3%nat -> K v -> K (vneg v) -> Rabs (dot (nth i (mat_mul (transpose (pose_rot 3 r')) (pose_rot 3 ro)) []) v) <= nth i h' 0).
  { apply (box_support K h' (pose_rot 3 ro) (pose_tr 3 co) (pose_rot 3 r') (pose_tr 3 c')); auto.
    intros v Lv (x & y & z & s & H1 & H2 & ->). apply S; [apply (move_len 3); auto|]. exists (move (pose_rot 3 ro) (pose_tr 3 co) [0; 0; s]). split.
    - apply (proj2 (segment_local L (pose_rot 3 ro) (pose_tr 3 co) _ HL M LC)). eauto.
    - apply norm_le_iff; [auto|].
      replace (vsub (move (pose_rot 3 ro) (pose_tr 3 co) [x; y; z + s]) (move (pose_rot 3 ro) (pose_tr 3 co) [0; 0; s])) with (mat_vec (pose_rot 3 ro) [x; y; z])
        by (clear - M LC; unfold move; set (Q := pose_rot 3 ro) in *; set (t := pose_tr 3 co) in *; clearbody Q t; destruct_vecs; cbn; unfold dot; cbn; list_eq; ring).
      rewrite (orthogonal_dot 3) by auto. unfold dot; cbn. lra. }
  assert (HN : orthogonal 3 (mat_mul (transpose (pose_rot 3 r')) (pose_rot 3 ro))) by (apply (orthogonal_mul 3); auto; apply orthogonal_transpose; auto; lia).
  set (N := mat_mul (transpose (pose_rot 3 r')) (pose_rot 3 ro)) in *. clearbody N. clear S.
  destruct (mat33_inv N ltac:(apply HN)) as (n1 & n2 & n3 & n4 & n5 & n6 & n7 & n8 & n9 & ->). destruct (ge0_lt0 h' NN' L') as (x & y & z & -> & Hx & Hy & Hz).
  destruct (unit_cols _ _ _ _ _ _ _ _ _ HN) as (U & U1 & U2 & U3).
  assert (Y : forall i a b g, (i < 3)%nat -> nth i [[n1; n2; n3]; [n4; n5; n6]; [n7; n8; n9]] [] = [a; b; g] -> a * a + b * b = 1 - g * g -> r + L / 2 * Rabs g <= nth i [x; y; z] 0).
  { intros i a d g Hi E V. assert (exists s, Rabs s <= L / 2 /\ g * s = L / 2 * Rabs g) as (s & Hs & Es).
    { destruct (Rle_dec 0 g); [exists (L / 2)|exists (- (L / 2))]; [rewrite !Rabs_pos_eq by lra|rewrite Rabs_Ropp, (Rabs_pos_eq (L / 2)), (Rabs_left g) by lra]; lra. }
    specialize (X i [r * a; r * d; r * g + s] Hi eq_refl).
    assert (E1 : r * a * (r * a) + r * d * (r * d) + r * g * (r * g) = r * r) by (replace (r * a * (r * a) + r * d * (r * d) + r * g * (r * g)) with (r * r * (a * a + d * d + g * g)) by ring; rewrite V; ring).
    rewrite E in X. unfold dot in X. cbn in X.
    assert (X' : Rabs (a * (r * a) + (d * (r * d) + (g * (r * g + s) + 0))) <= nth i [x; y; z] 0).
    { apply X; [exists (r * a), (r * d), (r * g), s; split; [lra|auto]|]. exists (- (r * a)), (- (r * d)), (- (r * g)), (- s). split; [lra|]. split; [rewrite Rabs_Ropp; auto|]. cbn. list_eq; ring. }
    replace (a * (r * a) + (d * (r * d) + (g * (r * g + s) + 0))) with (r * (a * a + d * d + g * g) + g * s) in X' by ring. rewrite V, Es in X'. pose proof (Rle_abs (r * (1 - g * g + g * g) + L / 2 * Rabs g)). lra. }
  pose proof (Y 0%nat n1 n2 n3 ltac:(lia) eq_refl U1) as Y0. pose proof (Y 1%nat n4 n5 n6 ltac:(lia) eq_refl U2) as Y1. pose proof (Y 2%nat n7 n8 n9 ltac:(lia) eq_refl U3) as Y2. cbn [nth] in Y0, Y1, Y2.
  assert (P : r * r * (L / 2 + r) <= x * y * z).
  { apply (caps_box_product r (L / 2) (Rabs n3) (Rabs n6) (Rabs n9)); auto; try lra; try apply Rabs_pos. rewrite !abs_sqr. exact U. }
  cbn [vprod fold_right]. unfold k_full_length. cbn [k_cyl c_radius c_length cyl_of caps_of]. rewrite !Rmult_1_r, <- !Rmult_assoc.
  replace (8 * r * r * ((L + 2 * r) / 2)) with (8 * (r * r * (L / 2 + r))) by field. replace (8 * x * y * z) with (8 * (x * y * z)) by ring. apply Rmult_le_compat_l; [lra|exact P].
Qed.

(** ** bounding spheres *)
Lemma ell_mbe_sphere_minimal h r c e e' rad c' s : ell_init h r c = Ok e -> length h = 3%nat -> orthogonal 3 (pose_rot 3 r) -> ell_mbe e true = Ok e' ->
  0 <= rad -> length c' = 3%nat -> ell_sphere rad (Some c') = Ok s ->
  (forall p, ell_set h (pose_rot 3 r) (pose_tr 3 c) p -> norm (vsub p c') <= rad) -> e_volume e' <= e_volume s.
Proof.
  intros H L HQ He Hr Lc' Hs S. apply ell_init_inv in H as (NN & F1 & F2 & F3 & M & LC). rewrite L in *. unfold ell_mbe in He. cbn [negb] in He. rewrite F1, F3 in He. rewrite F3 in LC. rewrite F2 in M.
  destruct (ge0_lt0 h NN L) as (x & y & z & -> & Hx & Hy & Hz).
  assert (IM : In (lmax [x; y; z]) [x; y; z]) by (apply lmax_in; discriminate). set (m := lmax [x; y; z]) in *. clearbody m.
  assert (B : forall u, length u = 3%nat -> dot u u <= 1 -> norm (vmul [x; y; z] u) <= rad).
  { intros u Lu Hu. assert (Ln : length (vneg u) = 3%nat) by (destruct_vecs; reflexivity).
    assert (Hn : dot (vneg u) (vneg u) <= 1) by (replace (dot (vneg u) (vneg u)) with (dot u u); [auto|clear - Lu; destruct_vecs; unfold dot; cbn; ring]).
    pose proof (S _ (ex_intro _ u (conj Lu (conj Hu eq_refl)))) as S1. pose proof (S _ (ex_intro _ (vneg u) (conj Ln (conj Hn eq_refl)))) as S2.
    apply norm_le_iff in S1, S2; auto. apply norm_le_iff; auto.
    set (d := vsub (pose_tr 3 c) c').
    assert (Ld : length d = 3%nat) by (unfold d; rewrite vsub_length; congruence).
    set (w := mat_vec (pose_rot 3 r) (vmul [x; y; z] u)).
    assert (Lw : length w = 3%nat) by (unfold w; rewrite mat_vec_length; apply M).
    assert (E1 : vsub (move (pose_rot 3 r) (pose_tr 3 c) (vmul [x; y; z] u)) c' = vadd d w).
    { unfold d, w. clear - M LC Lc' Lu. unfold move. set (Q := pose_rot 3 r) in *. set (t := pose_tr 3 c) in *. clearbody Q t. destruct_vecs. cbn. unfold dot. cbn. list_eq; ring. }
    assert (E2 : vsub (move (pose_rot 3 r) (pose_tr 3 c) (vmul [x; y; z] (vneg u))) c' = vsub d w).
    { unfold d, w. clear - M LC Lc' Lu. unfold move. set (Q := pose_rot 3 r) in *. set (t := pose_tr 3 c) in *. clearbody Q t. destruct_vecs. cbn. unfold dot. cbn. list_eq; ring. }
    rewrite E1 in S1. rewrite E2 in S2.
    assert (EW : dot w w = dot (vmul [x; y; z] u) (vmul [x; y; z] u)) by (unfold w; apply (orthogonal_dot 3); auto; rewrite vmul_length; auto; congruence).
    rewrite <- EW. clear - S1 S2 Ld Lw. clearbody d w. destruct_vecs. unfold dot in *. cbn in *.
    match goal with H1 : ?A <= ?r, H2 : ?B <= ?r |- ?C <= ?r => assert (A + B - 2 * C >= 0); [ring_simplify; nra|lra] end. }
  assert (MR : m <= rad).
  { assert (BB : forall u q, length u = 3%nat -> dot u u <= 1 -> 0 <= q -> dot (vmul [x; y; z] u) (vmul [x; y; z] u) = q * q -> q <= rad).
    { intros u q Lu Hu Hq E. pose proof (B u Lu Hu) as X. apply norm_le_iff in X; auto. rewrite E in X. apply sqr_le; auto. }
    destruct IM as [<-|[<-|[<-|[]]]]; [apply (BB [1; 0; 0])|apply (BB [0; 1; 0])|apply (BB [0; 0; 1])]; auto; unfold dot; cbn; lra. }
  assert (M0 : 0 <= m) by (destruct IM as [<-|[<-|[<-|[]]]]; auto).
  rewrite sphere_good in He by auto. injection He as <-. rewrite sphere_good in Hs by auto. injection Hs as <-.
  apply e_volume_le. cbn [e_half cap_at]. cbn. rewrite !Rmult_1_r, <- !Rmult_assoc. apply prod3_le; auto.
Qed.
Lemma cyl_mbe_sphere_not_minimal L r ro co c e : cyl_init L r ro co = Ok c -> orthogonal 3 (pose_rot 3 ro) -> cyl_mbe c true = Ok e ->
  L * L <> 2 * (r * r) ->
  exists rad e', ell_sphere rad (Some (pose_tr 3 co)) = Ok e' /\
    (forall p, cyl_set L r (pose_rot 3 ro) (pose_tr 3 co) p -> ell_set (e_half e') (e_rot e') (e_center e') p) /\
    e_volume e' < e_volume e.
Proof.
  intros H HQ He NE. apply cyl_init_inv in H as (HL & Hr & M & LC & ->). unfold cyl_mbe in He. apply bind_inv in He as (b & Hb & He). unfold cyl_mib in Hb. cbn [c_radius c_length c_center c_rot cyl_of] in Hb.
  apply box_init_inv in Hb as (_ & NN & E1 & E2 & E3 & _). unfold box_mbe in He. rewrite E1, E2 in He. cbn [pose_tr map] in He. pose proof sqrt3_pos as S3. pose proof sqrt3_sqr as S3'.
  set (s := r / sqrt 2) in *. assert (HS : 0 <= s) by (apply (NN 0%nat); lia).
  assert (S2 : s * s = r * r / 2).
  { unfold s. assert (Q2 : 0 < sqrt 2) by (apply sqrt_lt_R0; lra). replace (r / sqrt 2 * (r / sqrt 2)) with (r * r / (sqrt 2 * sqrt 2)) by (field; lra). rewrite sqrt_sqrt by lra. reflexivity. }
  set (m := lmax [s * sqrt 3; s * sqrt 3; L / 2 * sqrt 3]) in *.
  assert (X : s * sqrt 3 <= m) by (apply lmax_ge; cbn; auto). assert (Z : L / 2 * sqrt 3 <= m) by (apply lmax_ge; cbn; auto). clearbody m.
  assert (X0 : 0 <= s * sqrt 3) by (apply Rmult_le_pos; lra). assert (Z0 : 0 <= L / 2 * sqrt 3) by (apply Rmult_le_pos; lra).
  assert (N0 : 0 <= m) by lra.
  assert (M1 : 3 * (s * s) <= m * m) by (replace (3 * (s * s)) with (s * sqrt 3 * (s * sqrt 3)) by (replace (s * sqrt 3 * (s * sqrt 3)) with (s * s * (sqrt 3 * sqrt 3)) by ring; rewrite S3'; ring); apply Rmult_le_compat; auto).
  assert (M2 : 3 * (L / 2 * (L / 2)) <= m * m) by (replace (3 * (L / 2 * (L / 2))) with (L / 2 * sqrt 3 * (L / 2 * sqrt 3)) by (replace (L / 2 * sqrt 3 * (L / 2 * sqrt 3)) with (L / 2 * (L / 2) * (sqrt 3 * sqrt 3)) by ring; rewrite S3'; ring); apply Rmult_le_compat; auto).
  set (t := norm [r; 0; L / 2]). assert (T0 : 0 <= t) by apply norm_nonneg. assert (TT : t * t = r * r + L / 2 * (L / 2)) by (unfold t; rewrite norm_sqr; unfold dot; cbn; ring).
  assert (TM : t < m) by (apply Rsqr_incrst_0; auto; unfold Rsqr; lra).
  exists t, (cap_at t (pose_tr 3 co)). assert (SG : ell_sphere t (Some (pose_tr 3 co)) = Ok (cap_at t (pose_tr 3 co))) by (apply sphere_good; auto).
  split; [exact SG|]. split.
  - intros p (x & y & z & H1 & H2 & ->). apply (sphere_set t (pose_tr 3 co) _ _ T0 LC); auto; [apply (move_len 3); auto|].
    rewrite move_norm by auto. apply norm_le_iff; [auto|]. rewrite TT. unfold dot; cbn. apply sqr_abs_le in H2. lra.
  - rewrite sphere_good in He by auto. injection He as <-.
    unfold e_volume. cbn [e_half cap_at]. cbn. rewrite !Rmult_1_r. pose proof PI_RGT_0.
    assert (C : t * (t * t) < m * (m * m)) by (apply Rmult_le_0_lt_compat; auto; [apply Rmult_le_pos; auto|apply Rmult_le_0_lt_compat; auto]).
    assert (4 * PI * (t * (t * t)) < 4 * PI * (m * (m * m))) by (apply Rmult_lt_compat_l; lra). lra.
Qed.
