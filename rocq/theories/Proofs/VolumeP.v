(** C30: volume optimality of the closed-form inscribed and bounding shapes. *)
From Verif Require Import Base.Vec Base.VecFacts Spec.Basic Spec.Shapes Spec.ShapeObjects Spec.PolySpec
  Model.Util Model.Inertial Model.Polydd Model.Poly Model.Ellipsoid Model.Box Model.Cylinder
  Proofs.Coord Proofs.Hull Proofs.BoxP Proofs.EllP Proofs.CylP Proofs.ConsistentP Proofs.AabbP Proofs.InscribedP.

(** ** real inequalities *)
Lemma amgm3 x y z : 0 <= x -> 0 <= y -> 0 <= z -> 27 * (x * y * z) <= (x + y + z) * (x + y + z) * (x + y + z).
Proof.
  intros Hx Hy Hz.
  assert (E : (x + y + z) * (x + y + z) * (x + y + z) - 27 * (x * y * z) =
    (x + y + z) / 2 * ((x - y) * (x - y) + (y - z) * (y - z) + (x - z) * (x - z)) +
    3 * (x * ((y - z) * (y - z)) + y * ((x - z) * (x - z)) + z * ((x - y) * (x - y)))) by field.
  pose proof (sqr_nonneg (x - y)). pose proof (sqr_nonneg (y - z)). pose proof (sqr_nonneg (x - z)).
  assert (0 <= (x + y + z) / 2 * ((x - y) * (x - y) + (y - z) * (y - z) + (x - z) * (x - z))) by (apply Rmult_le_pos; lra).
  assert (0 <= x * ((y - z) * (y - z))) by (apply Rmult_le_pos; auto).
  assert (0 <= y * ((x - z) * (x - z))) by (apply Rmult_le_pos; auto).
  assert (0 <= z * ((x - y) * (x - y))) by (apply Rmult_le_pos; auto). lra.
Qed.
Definition det9 (a b c d e f g h i : R) : R := a * (e * i - f * h) - b * (d * i - f * g) + c * (d * h - e * g).
Lemma hadamard a b c d e f g h i :
  det9 a b c d e f g h i * det9 a b c d e f g h i <=
  (a * a + b * b + c * c) * (d * d + e * e + f * f) * (g * g + h * h + i * i).
Proof.
  unfold det9. set (p := e * i - f * h). set (q := d * i - f * g). set (r := d * h - e * g).
  assert (L : p * p + q * q + r * r + (d * g + e * h + f * i) * (d * g + e * h + f * i) = (d * d + e * e + f * f) * (g * g + h * h + i * i)) by (unfold p, q, r; ring).
  assert (C : (a * p - b * q + c * r) * (a * p - b * q + c * r) + (a * q + b * p) * (a * q + b * p) + (a * r - c * p) * (a * r - c * p) + (b * r + c * q) * (b * r + c * q)
     = (a * a + b * b + c * c) * (p * p + q * q + r * r)) by ring.
  pose proof (sqr_nonneg (a * q + b * p)). pose proof (sqr_nonneg (a * r - c * p)). pose proof (sqr_nonneg (b * r + c * q)). pose proof (sqr_nonneg (d * g + e * h + f * i)).
  assert ((a * a + b * b + c * c) * (p * p + q * q + r * r) <= (a * a + b * b + c * c) * ((d * d + e * e + f * f) * (g * g + h * h + i * i))).
  { apply Rmult_le_compat_l; [|lra]. pose proof (sqr_nonneg a). pose proof (sqr_nonneg b). pose proof (sqr_nonneg c). lra. }
  lra.
Qed.
Lemma det_orth a b c d e f g h i : orthogonal 3 [[a; b; c]; [d; e; f]; [g; h; i]] -> det9 a b c d e f g h i * det9 a b c d e f g h i = 1.
Proof.
  intros (_ & _ & H). cbn in H. unfold dot in H. cbn in H. injection H as A1 A2 A3 B1 B2 B3 C1 C2 C3.
  assert (E : det9 a b c d e f g h i * det9 a b c d e f g h i =
    det9 (a * a + (b * b + (c * c + 0))) (a * d + (b * e + (c * f + 0))) (a * g + (b * h + (c * i + 0)))
         (d * a + (e * b + (f * c + 0))) (d * d + (e * e + (f * f + 0))) (d * g + (e * h + (f * i + 0)))
         (g * a + (h * b + (i * c + 0))) (g * d + (h * e + (i * f + 0))) (g * g + (h * h + (i * i + 0)))) by (unfold det9; ring).
  rewrite E, A1, A2, A3, B1, B2, B3, C1, C2, C3. unfold det9. ring.
Qed.
Lemma prod3_le x y z a b c : 0 <= x -> 0 <= y -> 0 <= z -> x <= a -> y <= b -> z <= c -> x * y * z <= a * b * c.
Proof. intros. apply Rmult_le_compat; auto; [apply Rmult_le_pos; auto|]. apply Rmult_le_compat; auto. Qed.

(** ** changing to the frame of the other shape *)
Lemma rel_move Q c Q' c' v : orthogonal 3 Q' -> is_mat 3 3 Q -> length c = 3%nat -> length c' = 3%nat -> length v = 3%nat ->
  mat_vec (transpose Q') (vsub (move Q c v) c') = move (mat_mul (transpose Q') Q) (mat_vec (transpose Q') (vsub c c')) v.
Proof.
  intros HQ' M Lc Lc' Lv. assert (M' : is_mat 3 3 Q') by apply HQ'. clear HQ'. destruct_vecs. unfold move. cbn. unfold dot. cbn. list_eq; ring.
Qed.
Lemma rel_self Q c v : orthogonal 3 Q -> length c = 3%nat -> length v = 3%nat -> mat_vec (transpose Q) (vsub (move Q c v) c) = v.
Proof.
  intros HQ Lc Lv. symmetry. apply (move_inv 3); auto. apply (move_len 3); auto. apply HQ.
Qed.

(** ** an ellipsoid inside a box *)
Lemma ell_in_box_extent h Q c h' Q' c' : length h = 3%nat -> orthogonal 3 Q -> length c = 3%nat ->
  length h' = 3%nat -> orthogonal 3 Q' -> length c' = 3%nat ->
  (forall p, ell_set h' Q' c' p -> box_set h Q c p) ->
  forall i, (i < 3)%nat -> norm (vmul h' (nth i (mat_mul (transpose Q) Q') [])) <= nth i h 0.
Proof.
  intros Lh HQ Lc Lh' HQ' Lc' S i Hi. assert (L3 : (0 < 3)%nat) by lia. assert (M : is_mat 3 3 Q) by apply HQ. assert (M' : is_mat 3 3 Q') by apply HQ'.
  set (N := mat_mul (transpose Q) Q'). set (d := mat_vec (transpose Q) (vsub c' c)).
  assert (MN : is_mat 3 3 N) by (apply (orthogonal_mul 3); auto; apply orthogonal_transpose; auto).
  assert (Ld : length d = 3%nat) by (unfold d; rewrite mat_vec_length, transpose_length; apply (is_mat_ncols 3 3); auto).
  assert (IN : forall q, ell_set h' N d q -> length q = 3%nat -> Rabs (nth i q 0) <= nth i h 0).
  { intros q (u & Lu & Hu & ->) Lq. destruct (S (move Q' c' (vmul h' u))) as (v & [Lv Hv] & E); [exists u; auto|].
    assert (Lw : length (vmul h' u) = 3%nat) by (rewrite vmul_length; congruence).
    assert (EV : mat_vec (transpose Q) (vsub (move Q' c' (vmul h' u)) c) = v) by (rewrite E; apply rel_self; congruence).
    rewrite rel_move in EV by auto. fold N d in EV. rewrite EV. apply Hv. lia. }
  destruct (ell_extent h' N d i 1 Lh' MN Ld Hi ltac:(auto)) as [_ (p & Hp & Lp & Ep)].
  destruct (ell_extent h' N d i (-1) Lh' MN Ld Hi ltac:(auto)) as [_ (q & Hq & Lq & Eq)].
  pose proof (IN p Hp Lp) as I1. pose proof (IN q Hq Lq) as I2. rewrite Ep in I1. rewrite Eq in I2. apply abs_le_inv in I1, I2. lra.
Qed.
Lemma vol_ell_in_box h Q c h' Q' c' : length h = 3%nat -> (forall i, (i < 3)%nat -> 0 <= nth i h 0) -> orthogonal 3 Q -> length c = 3%nat ->
  length h' = 3%nat -> (forall i, (i < 3)%nat -> 0 <= nth i h' 0) -> orthogonal 3 Q' -> length c' = 3%nat ->
  (forall p, ell_set h' Q' c' p -> box_set h Q c p) -> vprod h' <= vprod h.
Proof.
  intros Lh NN HQ Lc Lh' NN' HQ' Lc' S. pose proof (ell_in_box_extent h Q c h' Q' c' Lh HQ Lc Lh' HQ' Lc' S) as X.
  assert (HN : orthogonal 3 (mat_mul (transpose Q) Q')) by (apply (orthogonal_mul 3); auto; apply orthogonal_transpose; auto; lia).
  set (N := mat_mul (transpose Q) Q') in *. clearbody N.
  destruct (ge0_lt0 h NN Lh) as (x & y & z & -> & Hx & Hy & Hz). destruct (ge0_lt0 h' NN' Lh') as (x' & y' & z' & -> & Hx' & Hy' & Hz').
  destruct (mat33_inv N ltac:(apply HN)) as (a & b & d & e & f & g & i & j & k & ->).
  pose proof (X 0%nat ltac:(lia)) as X0. pose proof (X 1%nat ltac:(lia)) as X1. pose proof (X 2%nat ltac:(lia)) as X2. cbn [nth] in X0, X1, X2.
  apply norm_le_iff in X0, X1, X2; auto. cbn in X0, X1, X2. unfold dot in X0, X1, X2. cbn in X0, X1, X2. clear X S.
  pose proof (det_orth _ _ _ _ _ _ _ _ _ HN) as D1.
  pose proof (hadamard (x' * a) (y' * b) (z' * d) (x' * e) (y' * f) (z' * g) (x' * i) (y' * j) (z' * k)) as HD.
  assert (DE : det9 (x' * a) (y' * b) (z' * d) (x' * e) (y' * f) (z' * g) (x' * i) (y' * j) (z' * k) = x' * y' * z' * det9 a b d e f g i j k) by (unfold det9; ring).
  rewrite DE in HD. replace (x' * y' * z' * det9 a b d e f g i j k * (x' * y' * z' * det9 a b d e f g i j k)) with ((x' * y' * z') * (x' * y' * z') * (det9 a b d e f g i j k * det9 a b d e f g i j k)) in HD by ring.
  rewrite D1, Rmult_1_r in HD. cbn [vprod fold_right]. rewrite !Rmult_1_r, <- !Rmult_assoc.
  assert (B : (x' * a * (x' * a) + y' * b * (y' * b) + z' * d * (z' * d)) * (x' * e * (x' * e) + y' * f * (y' * f) + z' * g * (z' * g)) * (x' * i * (x' * i) + y' * j * (y' * j) + z' * k * (z' * k)) <= (x * x) * (y * y) * (z * z)).
  { apply prod3_le; try lra; match goal with |- 0 <= ?a + ?b + ?c => assert (0 <= a) by apply sqr_nonneg; assert (0 <= b) by apply sqr_nonneg; assert (0 <= c) by apply sqr_nonneg; lra end. }
  apply sqr_le; [apply Rmult_le_pos; [apply Rmult_le_pos; auto|auto]|]. replace (x * y * z * (x * y * z)) with (x * x * (y * y) * (z * z)) by ring. lra.
Qed.

(** ** a box inside an ellipsoid *)
Lemma vertex_in_ell Q c h' Q' c' v : orthogonal 3 Q -> length c = 3%nat -> length h' = 3%nat ->
  orthogonal 3 Q' -> length c' = 3%nat -> length v = 3%nat -> ell_set h' Q' c' (move Q c v) ->
  exists u, length u = 3%nat /\ dot u u <= 1 /\ move (mat_mul (transpose Q') Q) (mat_vec (transpose Q') (vsub c c')) v = vmul h' u.
Proof.
  intros HQ Lc Lh' HQ' Lc' Lv (u & Lu & Hu & E). exists u. split; [congruence|]. split; [auto|].
  rewrite <- rel_move by (auto; apply HQ). rewrite E. apply rel_self; auto. rewrite vmul_length; congruence.
Qed.
Lemma vol_box_in_ell h Q c h' Q' c' : length h = 3%nat -> (forall i, (i < 3)%nat -> 0 <= nth i h 0) -> orthogonal 3 Q -> length c = 3%nat ->
  length h' = 3%nat -> (forall i, (i < 3)%nat -> 0 <= nth i h' 0) -> orthogonal 3 Q' -> length c' = 3%nat ->
  (forall p, box_set h Q c p -> ell_set h' Q' c' p) -> 3 * sqrt 3 * vprod h <= vprod h'.
Proof.
  intros Lh NN HQ Lc Lh' NN' HQ' Lc' S.
  destruct (ge0_lt0 h NN Lh) as (x & y & z & -> & Hx & Hy & Hz). destruct (ge0_lt0 h' NN' Lh') as (x' & y' & z' & -> & Hx' & Hy' & Hz').
  assert (V : forall v, length v = 3%nat -> in_cube [x; y; z] v -> exists u, length u = 3%nat /\ dot u u <= 1 /\
     move (mat_mul (transpose Q') Q) (mat_vec (transpose Q') (vsub c c')) v = vmul [x'; y'; z'] u).
  { intros v Lv Hv. apply (vertex_in_ell Q c); auto. apply S. exists v. auto. }
  assert (HN : orthogonal 3 (mat_mul (transpose Q') Q)) by (apply (orthogonal_mul 3); auto; apply orthogonal_transpose; auto; lia).
  assert (Ld : length (mat_vec (transpose Q') (vsub c c')) = 3%nat) by (rewrite mat_vec_length, transpose_length; apply (is_mat_ncols 3 3); auto; apply HQ').
  set (N := mat_mul (transpose Q') Q) in *. set (d := mat_vec (transpose Q') (vsub c c')) in *. clearbody N d.
  destruct (mat33_inv N ltac:(apply HN)) as (a & b & m & e & f & g & i & j & k & ->). destruct (len3_inv _ Ld) as (d1 & d2 & d3 & ->).
  assert (CU : forall s1 s2 s3, (s1 = 1 \/ s1 = -1) -> (s2 = 1 \/ s2 = -1) -> (s3 = 1 \/ s3 = -1) -> in_cube [x; y; z] [s1 * x; s2 * y; s3 * z]).
  { intros s1 s2 s3 H1 H2 H3. split; [reflexivity|]. intros [|[|[|q]]] Hq; cbn in Hq |- *; [| | |lia]; apply Rabs_le; [destruct H1|destruct H2|destruct H3]; subst; lra. }
  destruct (V [1 * x; 1 * y; 1 * z] eq_refl ltac:(apply CU; auto)) as (u1 & L1 & U1 & E1).
  destruct (V [1 * x; -1 * y; -1 * z] eq_refl ltac:(apply CU; auto)) as (u2 & L2 & U2 & E2).
  destruct (V [-1 * x; 1 * y; -1 * z] eq_refl ltac:(apply CU; auto)) as (u3 & L3 & U3 & E3).
  destruct (V [-1 * x; -1 * y; 1 * z] eq_refl ltac:(apply CU; auto)) as (u4 & L4 & U4 & E4). clear V CU S.
  destruct (len3_inv _ L1) as (p1 & q1 & r1 & ->). destruct (len3_inv _ L2) as (p2 & q2 & r2 & ->).
  destruct (len3_inv _ L3) as (p3 & q3 & r3 & ->). destruct (len3_inv _ L4) as (p4 & q4 & r4 & ->).
  unfold move in E1, E2, E3, E4. cbn in E1, E2, E3, E4, U1, U2, U3, U4. unfold dot in E1, E2, E3, E4, U1, U2, U3, U4. cbn in E1, E2, E3, E4, U1, U2, U3, U4.
  injection E1 as E11 E12 E13. injection E2 as E21 E22 E23. injection E3 as E31 E32 E33. injection E4 as E41 E42 E43.
  (* columns of W *)
  set (wx1 := (p1 + p2 - p3 - p4) / 4). set (wy1 := (q1 + q2 - q3 - q4) / 4). set (wz1 := (r1 + r2 - r3 - r4) / 4).
  set (wx2 := (p1 - p2 + p3 - p4) / 4). set (wy2 := (q1 - q2 + q3 - q4) / 4). set (wz2 := (r1 - r2 + r3 - r4) / 4).
  set (wx3 := (p1 - p2 - p3 + p4) / 4). set (wy3 := (q1 - q2 - q3 + q4) / 4). set (wz3 := (r1 - r2 - r3 + r4) / 4).
  assert (X1 : x' * wx1 = x * a) by (unfold wx1; lra). assert (X2 : x' * wx2 = y * b) by (unfold wx2; lra). assert (X3 : x' * wx3 = z * m) by (unfold wx3; lra).
  assert (Y1 : y' * wy1 = x * e) by (unfold wy1; lra). assert (Y2 : y' * wy2 = y * f) by (unfold wy2; lra). assert (Y3 : y' * wy3 = z * g) by (unfold wy3; lra).
  assert (Z1 : z' * wz1 = x * i) by (unfold wz1; lra). assert (Z2 : z' * wz2 = y * j) by (unfold wz2; lra). assert (Z3 : z' * wz3 = z * k) by (unfold wz3; lra).
  set (n1 := wx1 * wx1 + wy1 * wy1 + wz1 * wz1). set (n2 := wx2 * wx2 + wy2 * wy2 + wz2 * wz2). set (n3 := wx3 * wx3 + wy3 * wy3 + wz3 * wz3).
  assert (BES : n1 + n2 + n3 <= 1).
  { set (o1 := (p1 + p2 + p3 + p4) / 4). set (o2 := (q1 + q2 + q3 + q4) / 4). set (o3 := (r1 + r2 + r3 + r4) / 4).
    assert (EQ : n1 + n2 + n3 + (o1 * o1 + o2 * o2 + o3 * o3) = ((p1 * p1 + q1 * q1 + r1 * r1) + (p2 * p2 + q2 * q2 + r2 * r2) + (p3 * p3 + q3 * q3 + r3 * r3) + (p4 * p4 + q4 * q4 + r4 * r4)) / 4).
    { unfold n1, n2, n3, o1, o2, o3, wx1, wx2, wx3, wy1, wy2, wy3, wz1, wz2, wz3. field. }
    pose proof (sqr_nonneg o1). pose proof (sqr_nonneg o2). pose proof (sqr_nonneg o3). lra. }
  assert (NN1 : 0 <= n1) by (unfold n1; pose proof (sqr_nonneg wx1); pose proof (sqr_nonneg wy1); pose proof (sqr_nonneg wz1); lra).
  assert (NN2 : 0 <= n2) by (unfold n2; pose proof (sqr_nonneg wx2); pose proof (sqr_nonneg wy2); pose proof (sqr_nonneg wz2); lra).
  assert (NN3 : 0 <= n3) by (unfold n3; pose proof (sqr_nonneg wx3); pose proof (sqr_nonneg wy3); pose proof (sqr_nonneg wz3); lra).
  pose proof (hadamard wx1 wy1 wz1 wx2 wy2 wz2 wx3 wy3 wz3) as HD. fold n1 n2 n3 in HD. set (dw := det9 wx1 wy1 wz1 wx2 wy2 wz2 wx3 wy3 wz3) in *.
  pose proof (amgm3 n1 n2 n3 NN1 NN2 NN3) as AG.
  assert (CB : (n1 + n2 + n3) * (n1 + n2 + n3) * (n1 + n2 + n3) <= 1 * 1 * 1) by (apply prod3_le; lra).
  assert (DW : 27 * (dw * dw) <= 1) by lra.
  assert (DE : x' * y' * z' * dw = x * y * z * det9 a e i b f j m g k).
  { transitivity (det9 (x' * wx1) (y' * wy1) (z' * wz1) (x' * wx2) (y' * wy2) (z' * wz2) (x' * wx3) (y' * wy3) (z' * wz3)); [unfold dw, det9; ring|].
    rewrite X1, X2, X3, Y1, Y2, Y3, Z1, Z2, Z3. unfold det9. ring. }
  assert (D1 : det9 a e i b f j m g k * det9 a e i b f j m g k = 1).
  { rewrite <- (det_orth a b m e f g i j k HN). unfold det9. ring. }
  set (P := x * y * z) in *. set (P' := x' * y' * z') in *. set (dn := det9 a e i b f j m g k) in *.
  assert (SQ : P' * P' * (dw * dw) = P * P).
  { replace (P' * P' * (dw * dw)) with ((P' * dw) * (P' * dw)) by ring. rewrite DE. replace (P * dn * (P * dn)) with (P * P * (dn * dn)) by ring. rewrite D1. ring. }
  assert (SQ2 : 27 * (P * P) <= P' * P').
  { rewrite <- SQ. replace (27 * (P' * P' * (dw * dw))) with (P' * P' * (27 * (dw * dw))) by ring. rewrite <- (Rmult_1_r (P' * P')) at 2. apply Rmult_le_compat_l; [apply sqr_nonneg|auto]. }
  cbn [vprod fold_right]. rewrite !Rmult_1_r. replace (x * (y * z)) with P by (unfold P; ring). replace (x' * (y' * z')) with P' by (unfold P'; ring).
  apply sqr_le; [unfold P'; apply Rmult_le_pos; [apply Rmult_le_pos; auto|auto]|].
  replace (3 * sqrt 3 * P * (3 * sqrt 3 * P)) with (9 * (sqrt 3 * sqrt 3) * (P * P)) by ring. rewrite sqrt3_sqr. lra.
Qed.

(** ** the theorems *)
Lemma e_volume_le e e' : vprod (e_half e) <= vprod (e_half e') -> e_volume e <= e_volume e'.
Proof. intro H. unfold e_volume. pose proof PI_RGT_0. assert (4 * PI * vprod (e_half e) <= 4 * PI * vprod (e_half e')) by (apply Rmult_le_compat_l; lra). lra. Qed.
Lemma b_volume_eq h c r b : box_init h c r = Ok b -> b_volume b = 8 * vprod h.
Proof.
  intro H. apply box_init_inv in H as (L & _ & E & _). unfold b_volume, b_side_lengths. rewrite E. destruct (len3_inv _ L) as (x & y & z & ->). cbn. ring.
Qed.
Lemma box_mie_maximal h c r b e h' r' c' e' : box_init h c r = Ok b -> orthogonal 3 (pose_rot 3 r) -> box_mie b false = Ok e ->
  ell_init h' r' c' = Ok e' -> length h' = 3%nat -> orthogonal 3 (pose_rot 3 r') ->
  (forall p, ell_set h' (pose_rot 3 r') (pose_tr 3 c') p -> box_set h (pose_rot 3 r) (pose_tr 3 c) p) ->
  e_volume e' <= e_volume e.
Proof.
  intros H HQ He He' Lh' HQ' S. apply box_init_inv in H as (L & NN & E1 & E2 & E3 & M & LC & _). unfold box_mie in He. apply ell_init_inv in He as (_ & F1 & _).
  apply ell_init_inv in He' as (NN' & F1' & F2' & F3' & M' & LC'). rewrite Lh' in *. rewrite F3' in LC'. rewrite E2 in LC. apply e_volume_le. rewrite F1, F1', E1.
  apply (vol_ell_in_box h (pose_rot 3 r) (pose_tr 3 c) h' (pose_rot 3 r') (pose_tr 3 c')); auto.
Qed.
Lemma box_mbe_minimal h c r b e h' r' c' e' : box_init h c r = Ok b -> orthogonal 3 (pose_rot 3 r) -> box_mbe b false = Ok e ->
  ell_init h' r' c' = Ok e' -> length h' = 3%nat -> orthogonal 3 (pose_rot 3 r') ->
  (forall p, box_set h (pose_rot 3 r) (pose_tr 3 c) p -> ell_set h' (pose_rot 3 r') (pose_tr 3 c') p) ->
  e_volume e <= e_volume e'.
Proof.
  intros H HQ He He' Lh' HQ' S. apply box_init_inv in H as (L & NN & E1 & E2 & E3 & M & LC & _). unfold box_mbe in He. apply ell_init_inv in He as (_ & F1 & _).
  apply ell_init_inv in He' as (NN' & F1' & F2' & F3' & M' & LC'). rewrite Lh' in *. rewrite F3' in LC'. rewrite E2 in LC. apply e_volume_le. rewrite F1, F1', E1.
  pose proof (vol_box_in_ell h (pose_rot 3 r) (pose_tr 3 c) h' (pose_rot 3 r') (pose_tr 3 c') L NN HQ LC Lh' NN' HQ' LC' S) as V.
  replace (vprod (map (fun h => h * sqrt 3) h)) with (3 * sqrt 3 * vprod h); [auto|].
  destruct (len3_inv _ L) as (x & y & z & ->). cbn. replace (x * sqrt 3 * (y * sqrt 3 * (z * sqrt 3 * 1))) with (sqrt 3 * sqrt 3 * sqrt 3 * (x * y * z)) by ring. rewrite sqrt3_sqr. ring.
Qed.
Lemma ell_mbb_minimal h r c e b h' c' r' b' : ell_init h r c = Ok e -> orthogonal 3 (pose_rot 3 r) -> ell_mbb e = Ok b ->
  box_init h' c' r' = Ok b' -> orthogonal 3 (pose_rot 3 r') ->
  (forall p, ell_set h (pose_rot 3 r) (pose_tr 3 c) p -> box_set h' (pose_rot 3 r') (pose_tr 3 c') p) ->
  b_volume b <= b_volume b'.
Proof.
  intros H HQ Hb Hb' HQ' S. pose proof (b_volume_eq _ _ _ _ Hb) as V. pose proof (b_volume_eq _ _ _ _ Hb') as V'. rewrite V, V'.
  apply box_init_inv in Hb as (L & NN & E1 & E2 & E3 & M & LC & _). apply box_init_inv in Hb' as (L' & NN' & E1' & E2' & E3' & M' & LC' & _).
  apply ell_init_inv in H as (_ & F1 & F2 & F3 & _ & LC2). rewrite F1 in *. rewrite L in *. rewrite F3 in LC2. rewrite E2' in LC'.
  pose proof (vol_ell_in_box h' (pose_rot 3 r') (pose_tr 3 c') h (pose_rot 3 r) (pose_tr 3 c) L' NN' HQ' LC' L NN HQ LC2 S). lra.
Qed.
Lemma ell_mib_maximal h r c e b h' c' r' b' : ell_init h r c = Ok e -> orthogonal 3 (pose_rot 3 r) -> ell_mib e = Ok b ->
  box_init h' c' r' = Ok b' -> orthogonal 3 (pose_rot 3 r') ->
  (forall p, box_set h' (pose_rot 3 r') (pose_tr 3 c') p -> ell_set h (pose_rot 3 r) (pose_tr 3 c) p) ->
  b_volume b' <= b_volume b.
Proof.
  intros H HQ Hb Hb' HQ' S. pose proof (b_volume_eq _ _ _ _ Hb) as V. pose proof (b_volume_eq _ _ _ _ Hb') as V'. rewrite V, V'.
  apply box_init_inv in Hb as (L & _ & E1 & E2 & E3 & M & LC & _). apply box_init_inv in Hb' as (L' & NN' & E1' & E2' & E3' & M' & LC' & _).
  apply ell_init_inv in H as (NN & F1 & F2 & F3 & _ & LC2). rewrite vdivs_length in L. rewrite F1 in *. rewrite L in *. rewrite F3 in LC2. rewrite E2' in LC'.
  pose proof (vol_box_in_ell h' (pose_rot 3 r') (pose_tr 3 c') h (pose_rot 3 r) (pose_tr 3 c) L' NN' HQ' LC' L NN HQ LC2 S) as X.
  pose proof sqrt3_pos as S3. pose proof sqrt3_sqr as S3'.
  assert (E : vprod (vdivs h (sqrt 3)) = vprod h / (sqrt 3 * sqrt 3 * sqrt 3)).
  { destruct (len3_inv _ L) as (x & y & z & ->). cbn. field. lra. }
  rewrite E, S3'. apply Rmult_le_compat_l; [lra|]. apply Rmult_le_reg_r with (3 * sqrt 3); [lra|]. unfold Rdiv. rewrite Rmult_assoc, Rinv_l by lra. lra.
Qed.
(** spheres *)
Lemma box_mie_sphere_maximal h c r b e rad c' e' : box_init h c r = Ok b -> orthogonal 3 (pose_rot 3 r) -> box_mie b true = Ok e ->
  0 <= rad -> length c' = 3%nat -> ell_sphere rad (Some c') = Ok e' ->
  (forall p, norm (vsub p c') <= rad -> length p = 3%nat -> box_set h (pose_rot 3 r) (pose_tr 3 c) p) ->
  e_volume e' <= e_volume e.
Proof.
  intros H HQ He Hr Lc' He' S. apply box_init_inv in H as (L & NN & E1 & E2 & E3 & M & LC & _). unfold box_mie in He. rewrite E1, E2 in *.
  assert (N0 : 0 <= lmin h) by (apply lmin_nonneg; rewrite L; auto). rewrite sphere_good in He, He' by auto. injection He as <-. injection He' as <-.
  assert (RL : rad <= lmin h).
  { assert (I : In (lmin h) h) by (apply lmin_in; intros ->; discriminate). apply (In_nth _ _ 0) in I as (i & Hi & <-). rewrite L in Hi.
    assert (X : norm (vmul (repeat rad 3) (nth i (mat_mul (transpose (pose_rot 3 r)) (eye 3)) [])) <= nth i h 0).
    { apply (ell_in_box_extent h (pose_rot 3 r) (pose_tr 3 c) (repeat rad 3) (eye 3) c'); auto; [apply orthogonal_eye; lia|].
      intros p Hp. assert (Lp : length p = 3%nat) by (apply (ell_set_len3 (repeat rad 3) (eye 3) c'); auto; apply is_mat_eye).
      apply ball_set in Hp; auto. apply S; auto. apply norm_le_iff; auto. }
    assert (MT : is_mat 3 3 (transpose (pose_rot 3 r))) by (apply is_mat_transpose; [apply HQ|lia]). rewrite (mat_mul_eye_r 3 3) in X by (auto; lia).
    assert (Lq : length (nth i (transpose (pose_rot 3 r)) []) = 3%nat) by (apply (is_mat_row 3 3); auto).
    assert (EQ : vmul (repeat rad 3) (nth i (transpose (pose_rot 3 r)) []) = vscale rad (nth i (transpose (pose_rot 3 r)) [])) by (destruct (len3_inv _ Lq) as (? & ? & ? & ->); reflexivity).
    rewrite EQ, norm_vscale, Rabs_pos_eq in X by auto.
    assert (NQ : norm (nth i (transpose (pose_rot 3 r)) []) = 1).
    { assert (D : dot (nth i (transpose (pose_rot 3 r)) []) (nth i (transpose (pose_rot 3 r)) []) = 1).
      { destruct HQ as (MQ & HT & _). assert (E : entry (mat_mul (transpose (pose_rot 3 r)) (pose_rot 3 r)) i i = 1) by (rewrite HT, entry_eye by auto; rewrite Nat.eqb_refl; auto).
        rewrite entry_mat_mul in E by (rewrite ?transpose_length, ?(is_mat_ncols 3 3) by (auto; lia); auto).
        rewrite <- nth_transpose in E by (rewrite (is_mat_ncols 3 3) by (auto; lia); auto). exact E. }
      unfold norm. rewrite D. apply sqrt_1. }
    rewrite NQ in X. lra. }
  apply e_volume_le. cbn [e_half cap_at]. cbn. rewrite !Rmult_1_r, <- !Rmult_assoc. apply prod3_le; auto.
Qed.
Lemma box_mbe_sphere_not_minimal h c r b e : box_init h c r = Ok b -> orthogonal 3 (pose_rot 3 r) -> box_mbe b true = Ok e ->
  ~ (nth 0 h 0 = nth 1 h 0 /\ nth 1 h 0 = nth 2 h 0) ->
  exists rad e', ell_sphere rad (Some (pose_tr 3 c)) = Ok e' /\
    (forall p, box_set h (pose_rot 3 r) (pose_tr 3 c) p -> ell_set (e_half e') (e_rot e') (e_center e') p) /\
    e_volume e' < e_volume e.
Proof.
  intros H HQ He NC. apply box_init_inv in H as (L & NN & E1 & E2 & E3 & M & LC & _). unfold box_mbe in He. rewrite E1, E2 in *. rewrite E3 in M.
  destruct (ge0_lt0 h NN L) as (x & y & z & -> & Hx & Hy & Hz). cbn [nth] in NC. cbn [map] in He. pose proof sqrt3_pos as S3. pose proof sqrt3_sqr as S3'.
  set (m := lmax [x * sqrt 3; y * sqrt 3; z * sqrt 3]) in *.
  assert (X : x * sqrt 3 <= m) by (apply lmax_ge; cbn; auto). assert (Y : y * sqrt 3 <= m) by (apply lmax_ge; cbn; auto). assert (Z : z * sqrt 3 <= m) by (apply lmax_ge; cbn; auto).
  assert (IM : In m [x * sqrt 3; y * sqrt 3; z * sqrt 3]) by (apply lmax_in; discriminate). clearbody m.
  assert (N0 : 0 <= m) by (eapply Rle_trans; [|exact X]; apply Rmult_le_pos; lra).
  set (t := norm [x; y; z]). assert (T0 : 0 <= t) by apply norm_nonneg. assert (TT : t * t = x * x + y * y + z * z) by (unfold t; rewrite norm_sqr; unfold dot; cbn; ring).
  exists t, (cap_at t (pose_tr 3 c)). assert (SG : ell_sphere t (Some (pose_tr 3 c)) = Ok (cap_at t (pose_tr 3 c))) by (apply sphere_good; auto).
  split; [exact SG|]. split.
  - intros p Hp. apply box_set3 in Hp as (u & v & w & Hu & Hv & Hw & ->). apply (sphere_set t (pose_tr 3 c) _ _ T0 LC); auto; [apply (move_len 3); auto|].
    rewrite move_norm by auto. apply norm_le_iff; [auto|]. rewrite TT. unfold dot; cbn. apply sqr_abs_le in Hu, Hv, Hw. lra.
  - rewrite sphere_good in He by auto. injection He as <-.
    assert (TM : t < m).
    { assert (MM : exists q, (q = x \/ q = y \/ q = z) /\ m = q * sqrt 3) by (destruct IM as [I|[I|[I|[]]]]; eauto 6).
      destruct MM as (q & Hq & Em). assert (X' : x <= q) by (apply Rmult_le_reg_r with (sqrt 3); lra). assert (Y' : y <= q) by (apply Rmult_le_reg_r with (sqrt 3); lra). assert (Z' : z <= q) by (apply Rmult_le_reg_r with (sqrt 3); lra).
      assert (MM : m * m = 3 * (q * q)) by (rewrite Em; replace (q * sqrt 3 * (q * sqrt 3)) with (q * q * (sqrt 3 * sqrt 3)) by ring; rewrite S3'; ring).
      assert (ST : x * x + y * y + z * z < 3 * (q * q)).
      { assert (SX : x * x <= q * q) by (apply Rmult_le_compat; auto). assert (SY : y * y <= q * q) by (apply Rmult_le_compat; auto). assert (SZ : z * z <= q * q) by (apply Rmult_le_compat; auto).
        assert (ONE : x < q \/ y < q \/ z < q) by (destruct (Req_EM_T x q); [destruct (Req_EM_T y q); [destruct (Req_EM_T z q); [exfalso; apply NC; lra|]|]|]; lra).
        assert (SL : forall a, 0 <= a -> a < q -> a * a < q * q) by (intros a Ha Hlt; apply Rmult_le_0_lt_compat; auto).
        destruct ONE as [O|[O|O]]; [pose proof (SL x Hx O)|pose proof (SL y Hy O)|pose proof (SL z Hz O)]; lra. }
      apply Rsqr_incrst_0; auto. unfold Rsqr. lra. }
    unfold e_volume. cbn [e_half cap_at]. cbn. rewrite !Rmult_1_r. pose proof PI_RGT_0.
    assert (C : t * (t * t) < m * (m * m)) by (apply Rmult_le_0_lt_compat; auto; [apply Rmult_le_pos; auto|apply Rmult_le_0_lt_compat; auto]).
    assert (4 * PI * (t * (t * t)) < 4 * PI * (m * (m * m))) by (apply Rmult_lt_compat_l; lra). lra.
Qed.
(** cylinders *)
Lemma cyl_mbe_minimal L r ro co c e h' r' c' e' : cyl_init L r ro co = Ok c -> orthogonal 3 (pose_rot 3 ro) -> cyl_mbe c false = Ok e ->
  ell_init h' r' c' = Ok e' -> length h' = 3%nat -> orthogonal 3 (pose_rot 3 r') ->
  (forall p, cyl_set L r (pose_rot 3 ro) (pose_tr 3 co) p -> ell_set h' (pose_rot 3 r') (pose_tr 3 c') p) ->
  e_volume e <= e_volume e'.
Proof.
  intros H HQ He He' Lh' HQ' S. pose proof H as H0. apply cyl_init_inv in H as (HL & Hr & M & LC & EC). unfold cyl_mbe in He. apply bind_inv in He as (b & Hb & He).
  pose proof Hb as Hb0. rewrite EC in Hb. unfold cyl_mib in Hb. cbn [c_radius c_length c_center c_rot cyl_of] in Hb.
  apply (box_mbe_minimal _ _ _ _ e h' r' c' e' Hb); auto. cbn [pose_rot pose_tr]. intros p Hp. apply S. apply (cyl_mib_inside L r ro co c b p H0 Hb0).
  apply box_init_inv in Hb as (_ & _ & E1 & E2 & E3 & _). rewrite E1, E2, E3. exact Hp.
Qed.
Lemma cyl_mib_maximal L r ro co c b h' c' r' b' : cyl_init L r ro co = Ok c -> orthogonal 3 (pose_rot 3 ro) -> cyl_mib c = Ok b ->
  box_init h' c' r' = Ok b' -> orthogonal 3 (pose_rot 3 r') ->
  (forall p, box_set h' (pose_rot 3 r') (pose_tr 3 c') p -> cyl_set L r (pose_rot 3 ro) (pose_tr 3 co) p) ->
  b_volume b' <= b_volume b.
Proof.
  intros H HQ Hb Hb' HQ' S. apply cyl_init_inv in H as (HL & Hr & M & LC & ->). unfold cyl_mib in Hb. cbn [c_radius c_length c_center c_rot cyl_of] in Hb.
  rewrite (b_volume_eq _ _ _ _ Hb), (b_volume_eq _ _ _ _ Hb'). apply box_init_inv in Hb as (_ & NN & _). apply box_init_inv in Hb' as (L' & NN' & E1' & E2' & E3' & M' & LC' & _). rewrite E2' in LC'.
  pose proof sqrt3_pos as S3. pose proof sqrt3_sqr as S3'.
  set (s := r / sqrt 2) in *.
  pose proof (vol_box_in_ell h' (pose_rot 3 r') (pose_tr 3 c') [s * sqrt 3; s * sqrt 3; L / 2 * sqrt 3] (pose_rot 3 ro) (pose_tr 3 co) L' NN' HQ' LC' eq_refl) as X.
  assert (HS : 0 <= s) by (apply (NN 0%nat); lia).
  specialize (X ltac:(apply nonneg3; apply Rmult_le_pos; lra) HQ LC). 
  assert (Y : 3 * sqrt 3 * vprod h' <= vprod [s * sqrt 3; s * sqrt 3; L / 2 * sqrt 3]).
  { apply X. intros p Hp. apply cyl_in_ell; auto. }
  cbn [vprod fold_right] in Y |- *. fold (vprod h') in Y |- *. rewrite !Rmult_1_r in *.
  replace (s * sqrt 3 * (s * sqrt 3 * (L / 2 * sqrt 3))) with (sqrt 3 * sqrt 3 * sqrt 3 * (s * (s * (L / 2)))) in Y by ring. rewrite S3' in Y.
  apply Rmult_le_compat_l; [lra|]. apply Rmult_le_reg_l with (3 * sqrt 3); [lra|]. exact Y.
Qed.
