(** C72: the probabilities used by the samplers. *)
From Coq Require Import FunctionalExtensionality Permutation.
From Verif Require Import Base.Vec Base.VecFacts Spec.Basic Spec.Shapes Spec.ShapeObjects Spec.Integrals Spec.RandomSpec Spec.Uniform
  Model.Util Model.Polydd Model.Poly Model.Inertial Model.Ellipsoid Model.Box Model.Cylinder Model.Random
  Proofs.Coord Proofs.Hull Proofs.BoxP Proofs.EllP Proofs.CylP Proofs.IntegralP Proofs.DensityP Proofs.RandomP Proofs.RandomS.

(** ** measures *)
Lemma whole_of D V s1 s2 s3 : dom3 D -> moments_of D V s1 s2 s3 -> D (fun _ => 1) V.
Proof.
  intros HD K. specialize (K 1 0 0 0 1 0 0 0). replace (V * (1 * 1 + 0 * 0 * s1 + 0 * 0 * s2 + 0 * 0 * s3)) with V in K by ring.
  apply (HD (fun u => affine 1 0 0 0 u * affine 1 0 0 0 u)); [|exact K]. intros. unfold affine. cbn. ring.
Qed.
Lemma rectangle_area w w' : integral2 (- w) w (fun _ => - w') (fun _ => w') (fun _ _ => 1) (4 * w * w').
Proof.
  pose proof (face_integral' (fun _ _ => 1) 1 0 0 1 0 0 w w' ltac:(intros; cbv beta; ring)) as H.
  match type of H with integral2 _ _ _ _ _ ?I => replace (4 * w * w') with I by field end. exact H.
Qed.
Lemma segment_length w : integral (fun _ => 1) (- w) w (2 * w).
Proof.
  pose proof (edge_integral (fun _ => 1) 1 0 1 0 w ltac:(intros; cbv beta; ring)) as H.
  match type of H with integral _ _ _ ?I => replace (2 * w) with I by field end. exact H.
Qed.
Lemma in_vdivs v s x : 0 < s -> (forall a, In a v -> 0 <= a) -> In x (vdivs v s) -> 0 <= x.
Proof. intros Hs H I. unfold vdivs in I. apply in_map_iff in I as (a & <- & I). apply Rmult_le_pos; auto. left. now apply Rinv_0_lt_compat. Qed.
Lemma box_face_shares h c r b : box_init h c r = Ok b -> 0 < nth 1 h 0 * nth 2 h 0 + nth 0 h 0 * nth 2 h 0 + nth 0 h 0 * nth 1 h 0 ->
  shares 6 (face_area h) (box_shell h (fun _ => 1)) (box_face_pvals b).
Proof.
  intros Hb HA. apply box_init_inv in Hb as (Lh & Ph & Eh & _). destruct h as [|x [|y [|z [|]]]]; try discriminate Lh.
  pose proof (Ph 0 ltac:(lia))%nat as Hx. pose proof (Ph 1 ltac:(lia))%nat as Hy. pose proof (Ph 2 ltac:(lia))%nat as Hz. cbn in Hx, Hy, Hz, HA. clear Ph.
  unfold box_face_pvals. rewrite Eh. cbv zeta. set (A := 2 * (4 * y * z + 4 * x * z + 4 * x * y)). assert (PA : 0 < A) by (unfold A; lra).
  split; [reflexivity|]. split.
  { intros a I. apply in_vdivs in I; auto. intros a' [<-|[<-|[<-|[<-|[<-|[<-|[]]]]]]]; nra. }
  split; [unfold vdivs, lsum; cbn; unfold A; field; unfold A in PA; lra|].
  exists (8 * (x * y + x * z + y * z)). split; [lra|]. split; [eapply whole_of; [apply dom3_box_shell|apply box_shell_moments; lra]|].
  intros k Hk. replace (8 * (x * y + x * z + y * z)) with A by (unfold A; ring).
  destruct k as [|[|[|[|[|[|k]]]]]]; try lia; cbn [face_area Nat.div Nat.divmod fst]; eexists; (split; [apply rectangle_area|]); reflexivity.
Qed.
Lemma box_edge_shares h c r b : box_init h c r = Ok b -> 0 < lsum h ->
  shares 12 (edge_length h) (box_frame h (fun _ => 1)) (box_edge_pvals b).
Proof.
  intros Hb HA. apply box_init_inv in Hb as (Lh & Ph & Eh & _). destruct h as [|x [|y [|z [|]]]]; try discriminate Lh.
  pose proof (Ph 0 ltac:(lia))%nat as Hx. pose proof (Ph 1 ltac:(lia))%nat as Hy. pose proof (Ph 2 ltac:(lia))%nat as Hz. unfold lsum in HA. cbn in Hx, Hy, Hz, HA. clear Ph.
  unfold box_edge_pvals. rewrite Eh. cbv zeta. set (A := 4 * (x + y + z)). assert (PA : 0 < A) by (unfold A; lra).
  split; [reflexivity|]. split.
  { intros a I. apply in_vdivs in I; auto. intros a' I'. cbn in I'. repeat (destruct I' as [<-|I']; [lra|]). easy. }
  split; [unfold vdivs, lsum; cbn; unfold A; field; unfold A in PA; lra|].
  exists (8 * (x + y + z)). split; [lra|]. split; [eapply whole_of; [apply dom3_box_frame|apply box_frame_moments; lra]|].
  intros k Hk. 
  do 12 (destruct k as [|k]; [unfold edge_length; cbn [Nat.div Nat.divmod fst nth]; eexists; (split; [apply segment_length|]); cbn; unfold A; field; unfold A in PA; lra|]). lia.
Qed.

(** ** the faces and the edges *)
Lemma box_surface_kinds h c r b n U counts sh : box_init h c r = Ok b -> pose_rot 3 r = eye 3 -> pose_tr 3 c = zeros 3 ->
  0 < nth 1 h 0 * nth 2 h 0 + nth 0 h 0 * nth 2 h 0 + nth 0 h 0 * nth 1 h 0 -> n <> 1%nat ->
  rows_of n 3 (uniform_draw (-1) 1) U -> multinomial_draw n 6 counts -> shuffles sh ->
  exists P0, box_random_points_on_surface b n U counts sh = Ok (sh P0) /\ length P0 = n /\
    forall k j, (k < 6)%nat -> of_kind counts k j -> face_points h k (nth j P0 []).
Proof.
  intros Hb ER EC HA Hn HU [L6 Sn] HS. destruct (box_random_in _ _ _ _ _ _ Hb HU) as [LB HB]. rewrite ER, EC in HB.
  destruct (box_surface_good h c r b n U counts sh Hb ER EC HA Hn HU (conj L6 Sn) HS) as (P1 & E1 & _ & IN1). revert E1.
  apply box_init_inv in Hb as (Lh & Ph & Eh & Ec & Er & MQ & Lc & _). rewrite ER in Er. rewrite EC in Ec.
  assert (ID : forall u, length u = 3%nat -> move (eye 3) (zeros 3) u = u).
  { intros u Lu. unfold move. rewrite mat_vec_eye by auto. destruct u as [|? [|? [|? [|]]]]; try discriminate Lu. cbn. list_eq; ring. }
  destruct h as [|x [|y [|z [|]]]]; try discriminate Lh. pose proof (Ph 0 ltac:(lia))%nat as Hx. pose proof (Ph 1 ltac:(lia))%nat as Hy. pose proof (Ph 2 ltac:(lia))%nat as Hz. cbn in Hx, Hy, Hz. clear Ph. cbn [nth] in HA.
  unfold box_random_points_on_surface. rewrite Eh. rewrite Reqb_false by lra. rewrite (proj2 (Nat.eqb_neq n 1) Hn). intros E1. injection E1 as E1.
  set (B := box_random_points b U) in *. clearbody B.
  destruct counts as [|c0 [|c1 [|c2 [|c3 [|c4 [|c5 [|]]]]]]]; try discriminate L6. clear L6. cbn [fold_right] in Sn. cbn [cumsum cumsum_from nth Nat.add] in *.
  match type of E1 with rows_move _ _ (sh ?X) = _ => set (P := X) in * end.
  assert (LP : length P = n) by (unfold P; rewrite !set_rows_length; exact LB).
  assert (K : forall k j, (k < 6)%nat -> of_kind [c0; c1; c2; c3; c4; c5] k j -> face_points [x; y; z] k (nth j P [])).
  { intros kk k Hkk HK. assert (Hk : (k < n)%nat). { destruct HK as [_ HK]. cbn in HK. do 6 (destruct kk as [|kk]; [cbn in HK; lia|]). lia. }
    unfold P. clear P LP E1 IN1.
    destruct (HB (nth k B [])) as [_ (u & (Lu & Bu) & Eu)]; [apply nth_In; lia|]. rewrite ID in Eu by exact Lu.
    pose proof (Bu 0%nat ltac:(cbn; lia)) as B0. pose proof (Bu 1%nat ltac:(cbn; lia)) as B1. pose proof (Bu 2%nat ltac:(cbn; lia)) as B2. destruct u as [|u0 [|u1 [|u2 [|]]]]; try discriminate Lu. cbn in B0, B1, B2.
    assert (Ax : Rabs x <= x /\ Rabs (- x) <= x) by (rewrite Rabs_Ropp, Rabs_pos_eq; lra). assert (Ay : Rabs y <= y /\ Rabs (- y) <= y) by (rewrite Rabs_Ropp, Rabs_pos_eq; lra).
    assert (Az : Rabs z <= z /\ Rabs (- z) <= z) by (rewrite Rabs_Ropp, Rabs_pos_eq; lra).
    remember (c0 + c1)%nat as i2. remember (i2 + c2)%nat as i3. remember (i3 + c3)%nat as i4. remember (i4 + c4)%nat as i5.
    unfold of_kind in HK.
    do 6 (destruct kk as [|kk]; [cbn [firstn fold_right] in HK; segs LB; rewrite Eu; cbn [set_coord firstn skipn app]; split;
      [split; [reflexivity|]; intros [|[|[|j]]] Hj; cbn in Hj |- *; try lia; tauto | cbn; ring]|]). lia. }
  assert (K0 : forall j, (j < length P)%nat -> length (nth j P []) = 3%nat).
  { rewrite LP. intros j Hj. assert (Q : exists k, (k < 6)%nat /\ of_kind [c0; c1; c2; c3; c4; c5] k j).
    { unfold of_kind. assert (C : (j < c0 \/ c0 <= j < c0 + c1 \/ c0 + c1 <= j < c0 + c1 + c2 \/ c0 + c1 + c2 <= j < c0 + c1 + c2 + c3 \/ c0 + c1 + c2 + c3 <= j < c0 + c1 + c2 + c3 + c4 \/ c0 + c1 + c2 + c3 + c4 <= j < n)%nat) by lia.
      destruct C as [C|[C|[C|[C|[C|C]]]]]; [exists 0%nat|exists 1%nat|exists 2%nat|exists 3%nat|exists 4%nat|exists 5%nat]; cbn; lia. }
    destruct Q as (k & Hk & Q). apply (K k j Hk) in Q as [[Lq _] _]. exact Lq. }
  destruct (shuffled_rows sh P (fun v => length v = 3%nat) HS K0) as [L' K'].
  assert (RL : rows_len 3 (sh P)) by (apply rows_len_of; exact K').
  exists P. split; [|split; [exact LP|exact K]]. f_equal. rewrite (rows_move_eq 3) by (auto; lia). rewrite Er, Ec. rewrite <- (map_id (sh P)) at 2. apply map_ext_in. intros u I. apply ID. auto.
Qed.
Lemma box_edges_kinds h c r b n counts tx ty tz sh : box_init h c r = Ok b -> 0 < lsum h -> multinomial_draw n 12 counts ->
  (forall x, In x tx \/ In x ty \/ In x tz -> uniform_draw (-1) 1 x) -> shuffles sh ->
  exists P0, box_random_points_on_edges b n counts tx ty tz sh = Ok (map (move (pose_rot 3 r) (pose_tr 3 c)) (sh P0)) /\ length P0 = n /\
    forall k j, (k < 12)%nat -> of_kind counts k j -> edge_points h k (nth j P0 []).
Proof.
  intros Hb Hs [L12 Sn] HT HS. apply box_init_inv in Hb as (Lh & Ph & Eh & Ec & Er & MQ & Lc & _).
  destruct h as [|x [|y [|z [|]]]]; try discriminate Lh. pose proof (Ph 0 ltac:(lia))%nat as Hx. pose proof (Ph 1 ltac:(lia))%nat as Hy. pose proof (Ph 2 ltac:(lia))%nat as Hz. cbn in Hx, Hy, Hz. clear Ph.
  unfold box_random_points_on_edges. rewrite Eh. unfold lsum in Hs. cbn in Hs. rewrite Reqb_false by lra.
  destruct counts as [|c0 [|c1 [|c2 [|c3 [|c4 [|c5 [|c6 [|c7 [|c8 [|c9 [|c10 [|c11 [|]]]]]]]]]]]]]; try discriminate L12. clear L12. cbn [fold_right] in Sn. cbn [cumsum cumsum_from nth Nat.add].
  match goal with |- exists _, Ok (rows_move _ _ (sh ?X)) = _ /\ _ => set (P := X) end.
  assert (LP : length P = n). { unfold P. rewrite !set_rows_length. unfold zeros2. apply repeat_length. }
  assert (K : forall k j, (k < 12)%nat -> of_kind [c0; c1; c2; c3; c4; c5; c6; c7; c8; c9; c10; c11] k j -> edge_points [x; y; z] k (nth j P [])).
  { intros kk k Hkk HK. unfold of_kind in HK. assert (Hk : (k < n)%nat). { destruct HK as [_ HK]. do 12 (destruct kk as [|kk]; [cbn in HK; lia|]). lia. }
    unfold P. clear P LP. assert (L0 : length (zeros2 n 3) = n) by (unfold zeros2; apply repeat_length).
    pose proof (nth_zeros2 n 3 k Hk) as Z. cbn [zeros repeat] in Z.
    pose proof (fun k => draw_bound x tx k (fun a I => HT a (or_introl I)) Hx) as Bx. pose proof (fun k => draw_bound y ty k (fun a I => HT a (or_intror (or_introl I))) Hy) as By.
    pose proof (fun k => draw_bound z tz k (fun a I => HT a (or_intror (or_intror I))) Hz) as Bz. clear HT HS Ec Er MQ Lc Eh Hs.
    remember (c0 + c1)%nat as i2. remember (i2 + c2)%nat as i3. remember (i3 + c3)%nat as i4. remember (i4 + c4)%nat as i5. remember (i5 + c5)%nat as i6. remember (i6 + c6)%nat as i7.
    remember (i7 + c7)%nat as i8. remember (i8 + c8)%nat as i9. remember (i9 + c9)%nat as i10. remember (i10 + c10)%nat as i11. remember (i11 + c11)%nat as i12.
    do 12 (destruct kk as [|kk]; [cbn [firstn fold_right] in HK; segs L0; rewrite Z; cbn [set_coord firstn skipn app]; cbn -[Rabs Rmult]; eexists; (split; [|list_eq; [..|]; try reflexivity; ring]); auto|]). lia. }
  assert (K0 : forall j, (j < length P)%nat -> length (nth j P []) = 3%nat).
  { rewrite LP. intros j Hj. assert (Q : exists k, (k < 12)%nat /\ of_kind [c0; c1; c2; c3; c4; c5; c6; c7; c8; c9; c10; c11] k j).
    { unfold of_kind. clear -Sn Hj.
      remember (c0 + c1)%nat as i2. remember (i2 + c2)%nat as i3. remember (i3 + c3)%nat as i4. remember (i4 + c4)%nat as i5. remember (i5 + c5)%nat as i6. remember (i6 + c6)%nat as i7.
      remember (i7 + c7)%nat as i8. remember (i8 + c8)%nat as i9. remember (i9 + c9)%nat as i10. remember (i10 + c10)%nat as i11.
      assert (C : (j < c0 \/ c0 <= j < i2 \/ i2 <= j < i3 \/ i3 <= j < i4 \/ i4 <= j < i5 \/ i5 <= j < i6 \/ i6 <= j < i7 \/ i7 <= j < i8 \/ i8 <= j < i9 \/ i9 <= j < i10 \/ i10 <= j < i11 \/ i11 <= j < n)%nat) by lia.
      destruct C as [C|[C|[C|[C|[C|[C|[C|[C|[C|[C|[C|C]]]]]]]]]]]; [exists 0%nat|exists 1%nat|exists 2%nat|exists 3%nat|exists 4%nat|exists 5%nat|exists 6%nat|exists 7%nat|exists 8%nat|exists 9%nat|exists 10%nat|exists 11%nat]; cbn; lia. }
    destruct Q as (k & Hk & Q). apply (K k j Hk) in Q. cbn [edge_points] in Q. destruct Q as (t & _ & ->). destruct (k / 4)%nat as [|[|]]; reflexivity. }
  destruct (shuffled_rows sh P (fun v => length v = 3%nat) HS K0) as [L' K'].
  assert (RL : rows_len 3 (sh P)) by (apply rows_len_of; exact K').
  exists P. split; [|split; [exact LP|exact K]]. f_equal. rewrite (rows_move_eq 3) by (auto; lia). now rewrite Er, Ec.
Qed.
Lemma surface_law mult h c r b n U sh : box_init h c r = Ok b -> pose_rot 3 r = eye 3 -> pose_tr 3 c = zeros 3 ->
  0 < nth 1 h 0 * nth 2 h 0 + nth 0 h 0 * nth 2 h 0 + nth 0 h 0 * nth 1 h 0 -> n <> 1%nat ->
  rows_of n 3 (uniform_draw (-1) 1) U -> (forall pv, length pv = 6%nat -> multinomial_draw n 6 (mult n pv)) -> shuffles sh ->
  exists pv P0, shares 6 (face_area h) (box_shell h (fun _ => 1)) pv /\
    box_sample_surface mult b n U sh = Ok (sh P0) /\ length P0 = n /\
    forall k j, (k < 6)%nat -> of_kind (mult n pv) k j -> face_points h k (nth j P0 []).
Proof.
  intros Hb ER EC HA Hn HU HM HS. pose proof (box_face_shares _ _ _ _ Hb HA) as SH. exists (box_face_pvals b).
  destruct (box_surface_kinds h c r b n U (mult n (box_face_pvals b)) sh) as (P0 & E & L & K); auto; [apply HM, SH|]. exists P0. auto.
Qed.
Lemma edges_law mult h c r b n tx ty tz sh : box_init h c r = Ok b -> 0 < lsum h ->
  (forall x, In x tx \/ In x ty \/ In x tz -> uniform_draw (-1) 1 x) -> (forall pv, length pv = 12%nat -> multinomial_draw n 12 (mult n pv)) -> shuffles sh ->
  exists pv P0, shares 12 (edge_length h) (box_frame h (fun _ => 1)) pv /\
    box_sample_edges mult b n tx ty tz sh = Ok (map (move (pose_rot 3 r) (pose_tr 3 c)) (sh P0)) /\ length P0 = n /\
    forall k j, (k < 12)%nat -> of_kind (mult n pv) k j -> edge_points h k (nth j P0 []).
Proof.
  intros Hb HA HU HM HS. pose proof (box_edge_shares _ _ _ _ Hb HA) as SH. exists (box_edge_pvals b).
  destruct (box_edges_kinds h c r b n (mult n (box_edge_pvals b)) tx ty tz sh) as (P0 & E & L & K); auto; [apply HM, SH|]. exists P0. auto.
Qed.

(** ** the ball *)
Lemma rpow_le c rho dim : (0 < dim)%nat -> 0 <= c -> 0 <= rho -> rpow c (1 / INR dim) <= rho <-> c <= rho ^ dim.
Proof.
  intros Hd Hc Hr. assert (M : forall a b, 0 <= a -> a <= b -> rpow a (1 / INR dim) <= rpow b (1 / INR dim)).
  { intros a b Ha Hab. pose proof (lt_0_INR _ Hd). unfold rpow, Reqb. destruct (Req_EM_T a 0); destruct (Req_EM_T b 0); try lra.
    - left. apply exp_pos.
    - apply Rle_Rpower_l; [apply Rlt_le, Rdiv_lt_0_compat; lra|lra]. }
  assert (P : (rpow c (1 / INR dim)) ^ dim = c).
  { pose proof (lt_0_INR _ Hd). unfold rpow, Reqb. destruct (Req_EM_T c 0) as [->|]; [now apply pow_i|].
    rewrite <- Rpower_pow by apply exp_pos. rewrite Rpower_mult. replace (1 / INR dim * INR dim) with 1 by (field; lra). apply Rpower_1. lra. }
  assert (N : 0 <= rpow c (1 / INR dim)). { unfold rpow, Reqb. destruct (Req_EM_T c 0); [lra|]. left. apply exp_pos. }
  split; intros H.
  - rewrite <- P. apply pow_incr. auto.
  - rewrite <- (rpow_root rho dim) by auto. apply M; auto.
Qed.
Lemma ball_law dim x c : (2 <= dim)%nat -> length x = dim -> x <> zeros dim -> unit_draw c ->
  exists p, random_points_in_ball dim [x] [c] = Ok [p] /\ p = vscale (norm p) (vscale (/ norm x) x) /\
    forall rho, 0 <= rho -> (norm p <= rho <-> c <= rho ^ dim).
Proof.
  intros Hd Lx Nx [Hc _]. unfold random_points_in_ball, random_points_on_hypersphere. rewrite (proj2 (Nat.leb_le 1 dim)), (proj2 (Nat.leb_le 1 (dim - 1))) by lia. cbn [assert_ bind mapM].
  destruct (normalize_good x) as [-> N1]; [congruence|]. cbn [bind map2].
  assert (N : 0 <= rpow c (1 / INR dim)). { unfold rpow, Reqb. destruct (Req_EM_T c 0); [lra|]. left. apply exp_pos. }
  eexists. split; [reflexivity|]. rewrite norm_vscale, N1, Rmult_1_r, Rabs_pos_eq by auto. split; [reflexivity|]. intros. apply rpow_le; auto. lia.
Qed.

(** ** the surface of the ellipsoid *)
Lemma sphere_row u phi : -1 <= u <= 1 -> norm (ell_point [1; 1; 1] u phi) = 1.
Proof.
  intros H. assert (E : dot (ell_point [1; 1; 1] u phi) (ell_point [1; 1; 1] u phi) = 1).
  { unfold ell_point. cbn. pose proof (sin2_cos2 phi) as T. unfold Rsqr in T. assert (S : sqrt (1 - u * u) * sqrt (1 - u * u) = 1 - u * u) by (apply sqrt_sqrt; nra).
    set (s := sqrt (1 - u * u)) in *. transitivity (s * s * (sin phi * sin phi + cos phi * cos phi) + u * u); [ring|]. rewrite T, S. ring. }
  unfold norm. rewrite E. apply sqrt_1.
Qed.
Lemma ell_area_pos h u phi x y z : h = [x; y; z] -> 0 < x -> 0 < y -> 0 < z -> -1 <= u <= 1 ->
  0 < ell_area h u phi <= x * y * z / lmin h.
Proof.
  intros -> Hx Hy Hz Hu. cbn [ell_area].
  pose proof (sin2_cos2 phi) as T. unfold Rsqr in T. set (m := lmin [x; y; z]).
  assert (Hm : 0 < m /\ m <= x /\ m <= y /\ m <= z) by (unfold m; cbn; unfold Rmin; repeat destruct Rle_dec; lra). destruct Hm as (Hm & Mx & My & Mz).
  set (C := (1 - u * u) * cos phi ^ 2). set (S := (1 - u * u) * sin phi ^ 2). set (V := u ^ 2).
  assert (PC : 0 <= C) by (unfold C; apply Rmult_le_pos; [nra|apply pow2_ge_0]). assert (PS : 0 <= S) by (unfold S; apply Rmult_le_pos; [nra|apply pow2_ge_0]). assert (PV : 0 <= V) by apply pow2_ge_0.
  assert (SUM : C + S + V = 1). { unfold C, S, V. transitivity ((1 - u * u) * (sin phi * sin phi + cos phi * cos phi) + u * u); [ring|]. rewrite T. ring. }
  assert (A : 0 < (y * z) ^ 2) by (apply pow_lt; nra). assert (B : 0 < (x * z) ^ 2) by (apply pow_lt; nra). assert (D : 0 < (x * y) ^ 2) by (apply pow_lt; nra).
  split.
  - apply sqrt_lt_R0. destruct (Rle_lt_dec C 0); [destruct (Rle_lt_dec S 0)|]; nra.
  - assert (E : x * y * z / m = sqrt ((x * y * z / m) ^ 2)). { rewrite sqrt_pow2; auto. apply Rlt_le, Rdiv_lt_0_compat; [|lra]. apply Rmult_lt_0_compat; nra. }
    rewrite E. apply sqrt_le_1_alt. 
    assert (G : forall a b, 0 < a -> 0 < b -> m <= b -> a ^ 2 <= (a * b / m) ^ 2).
    { intros a b Pa Pb Mb. apply pow_incr. split; [lra|]. apply Rmult_le_reg_r with m; [auto|]. unfold Rdiv. rewrite Rmult_assoc, Rinv_l by lra. nra. }
    pose proof (G (y * z) x ltac:(nra) Hx Mx) as G1. pose proof (G (x * z) y ltac:(nra) Hy My) as G2. pose proof (G (x * y) z ltac:(nra) Hz Mz) as G3.
    replace (y * z * x) with (x * y * z) in G1 by ring. replace (x * z * y) with (x * y * z) in G2 by ring. set (W := (x * y * z / m) ^ 2) in *. nra.
Qed.
Lemma ell_accept_eq h u phi x y z v : h = [x; y; z] -> 0 < x -> 0 < y -> 0 < z -> -1 <= u <= 1 ->
  surface_accept h [ell_point [1; 1; 1] u phi] [v] = if Rleb v (lmin h / (x * y * z) * ell_area h u phi) then [ell_point h u phi] else [].
Proof.
  intros -> Hx Hy Hz Hu. unfold surface_accept. cbn [map map2 combine filter snd].
  assert (S : 0 <= 1 - u * u) by nra. pose proof (sqrt_sqrt _ S) as SS.
  assert (E : surface_g (lmin [x; y; z]) [1 / x ^ 4; 1 / y ^ 4; 1 / z ^ 4] (vmul (ell_point [1; 1; 1] u phi) [x; y; z]) = lmin [x; y; z] / (x * y * z) * ell_area [x; y; z] u phi).
  { unfold surface_g. unfold Rdiv at 4. rewrite Rmult_assoc. f_equal. cbn [ell_area].
    assert (PX : 0 < x * y * z) by (apply Rmult_lt_0_compat; nra).
    replace (/ (x * y * z)) with (sqrt ((/ (x * y * z)) ^ 2)) by (apply sqrt_pow2, Rlt_le, Rinv_0_lt_compat; auto).
    rewrite <- sqrt_mult_alt by apply pow2_ge_0. f_equal. unfold ell_point, lsum. cbn [vmul map2 map fold_right]. set (s := sqrt (1 - u * u)) in *. rewrite <- SS. field. repeat split; lra. }
  rewrite E. destruct (Rleb v _); cbn; [|reflexivity]. f_equal. unfold ell_point. cbn. list_eq; ring.
Qed.
Lemma ell_law h e u phi v draw : ell_init h None None = Ok e -> (forall a, In a h -> 0 < a) -> length h = 3%nat -> -1 <= u <= 1 ->
  draw 0%nat 1%nat = ([ell_point [1; 1; 1] u phi], [v]) ->
  exists K, 0 < K /\ (forall u phi, -1 <= u <= 1 -> 0 < K * ell_area h u phi <= 1) /\
    ell_random_points_on_surface e 1 draw 1 = if Rle_dec v (K * ell_area h u phi) then Some (Ok [ell_point h u phi]) else None.
Proof.
  intros HE HP Lh Hu HD. destruct h as [|x [|y [|z [|]]]]; try discriminate Lh.
  assert (Hx : 0 < x) by (apply HP; cbn; auto). assert (Hy : 0 < y) by (apply HP; cbn; auto). assert (Hz : 0 < z) by (apply HP; cbn; auto).
  assert (PX : 0 < x * y * z) by (apply Rmult_lt_0_compat; nra).
  assert (Hm : 0 < lmin [x; y; z]) by (cbn; unfold Rmin; repeat destruct Rle_dec; lra).
  exists (lmin [x; y; z] / (x * y * z)). split; [now apply Rdiv_lt_0_compat|]. split.
  { intros u' phi' Hu'. destruct (ell_area_pos [x; y; z] u' phi' x y z eq_refl Hx Hy Hz Hu') as [A1 A2]. set (A := ell_area _ _ _) in *. set (m := lmin _) in *. split.
    - apply Rmult_lt_0_compat; auto. now apply Rdiv_lt_0_compat.
    - apply Rmult_le_reg_r with (x * y * z / m); [now apply Rdiv_lt_0_compat|]. replace (m / (x * y * z) * A * (x * y * z / m)) with A by (field; repeat split; lra). lra. }
  apply ell_init_inv in HE as (_ & E1 & E2 & E3 & _ & _). unfold pose_rot, pose_tr in E2, E3. unfold ell_random_points_on_surface. rewrite E1, E2, E3.
  assert (F : forallb (Rltb 0) [x; y; z] = true). { apply forallb_forall. intros a I. apply Rltb_iff. auto. }
  rewrite F. cbn [ell_surface_loop Nat.ltb Nat.leb Nat.sub length]. rewrite HD.
  pose proof (sphere_row u phi Hu) as N1. set (p := ell_point [1; 1; 1] u phi) in *.
  assert (H1 : random_points_on_hypersphere 2 [p] = Ok [p]).
  { unfold random_points_on_hypersphere. cbn [Nat.leb assert_ bind mapM]. unfold normalize_row. rewrite N1, Reqb_false by lra. cbn [bind]. do 2 f_equal. unfold vdivs. rewrite <- (map_id p) at 2. apply map_ext. intros. field. }
  rewrite H1. unfold p. rewrite (ell_accept_eq [x; y; z] u phi x y z v eq_refl Hx Hy Hz Hu). unfold Rleb. destruct (Rle_dec v _) as [V|V].
  - unfold ell_point. cbn -[sqrt cos sin]. do 3 f_equal. list_eq; ring.
  - reflexivity.
Qed.
