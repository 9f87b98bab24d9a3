(** The extremal ellipsoids computed do not depend on the external routines or on the list of points. *)
From Coq Require Import Classical.
From Verif Require Import Base.Vec Base.VecFacts Base.Ext Spec.Basic Spec.Shapes Spec.ShapeObjects Spec.DoubleDesc Spec.PolySpec Spec.ExtremalSpec Spec.Geodesic Spec.John Model.Util Model.Polydd Model.Constraint Model.Ellipsoid Model.Poly Model.Extremal
  Proofs.LinAlg Proofs.BoxP Proofs.MatAlg Proofs.Coord Proofs.Hull Proofs.DDP Proofs.PolyP Proofs.EllP Proofs.EllForms Proofs.EllSame Proofs.EllMore Proofs.MustContain Proofs.ExtremalP Proofs.ExtremalOpt Proofs.LogDet Proofs.JohnU Proofs.JohnE Proofs.JohnX.

(** * The ellipsoid returned, as a set *)
Lemma mbe_of_points_set d k points orth null_space eigh lstsq solver r A b w V :
  (0 < d)%nat -> (0 < k <= d)%nat -> (forall x, In x points -> length x = d) -> hd_error points = Some r ->
  let D := map (fun p => vsub p r) points in let R := orth (transpose D) in
  orth_spec d k D R ->
  solver (mbe_points_constraints k (mat_mul D R) false) = (A, b) -> mbe_points_constraints k (mat_mul D R) false A b -> pos_def k A ->
  eigh A = (w, V) -> eigh_spec k A (w, V) -> lstsq_spec A (vneg b) (lstsq A (vneg b)) ->
  null_spec d k (transpose (mat_mul R V)) (null_space (transpose (mat_mul R V))) ->
  exists e, mbe_of_points orth null_space eigh lstsq solver points = Ok e /\ e_dim e = d /\
    forall x, ell_set (e_half e) (e_rot e) (e_center e) x <-> exists y, length y = k /\ x = move R r y /\ ball_preimage A b y.
Proof.
  intros Hd Hk HP Hr D R HO HS HC HPD HE HES HL HN. pose proof HO as (HR & _). pose proof HR as (MR & ER). pose proof HC as ((MA & TA & PA) & Lb & _). pose proof HES as (Lw & HV & _). cbn in Lw, HV. pose proof HV as (MV & _).
  destruct (mbe_of_points_contains d k points orth null_space eigh lstsq solver r A b w V) as (e & E1 & E2 & E3 & E4 & _); auto.
  exists e. split; [exact E1|]. split; [exact E2|].
  assert (Lr : length r = d) by (apply HP; destruct points; [discriminate|]; injection Hr as ->; now left). assert (LR : length R = d) by apply MR.
  assert (NR : ncols R = k) by (apply (is_mat_ncols d k); auto). set (c0 := lstsq A (vneg b)) in *.
  assert (EE : e_rot e = hstack (mat_mul R V) (null_space (transpose (mat_mul R V))) /\ e_center e = vadd (mat_vec R c0) r).
  { destruct points as [|r' points']; [discriminate|]. injection Hr as ->. unfold mbe_of_points in E1. fold D R in E1. cbv zeta in E1. rewrite NR, HS, HE in E1. apply ell_init_inv in E1. cbn in E1. destruct E1 as (_ & _ & X & Y & _). auto. }
  destruct EE as (-> & ->). rewrite E4. set (N := null_space (transpose (mat_mul R V))) in *. destruct HN as ((MN & _) & _).
  assert (WP : forall i, (i < k)%nat -> 0 < nth i w 0) by (intros i Hi; apply (eig_pos k A w V i); try lia; assumption). assert (Lwi : length (map Rinv w) = k) by (rewrite map_length; auto).
  assert (NA : ncols A = k) by (apply (is_mat_ncols k k); auto; lia). destruct HL as (Lc0 & HL). rewrite NA in Lc0, HL. assert (LA : length A = k) by apply MA. assert (LV : length V = k) by apply MV.
  assert (CW : forall z, length z = k -> vmul w (vmul (map Rinv w) z) = z /\ vmul (map Rinv w) (vmul w z) = z).
  { intros z Lz. split; (apply (vec_ext k); [rewrite !vmul_length; rewrite ?vmul_length; congruence|auto|]; intros i Hi; rewrite !nth_vmul by (rewrite ?vmul_length; congruence); rewrite nth_rinv by lia; specialize (WP i Hi); field; lra). }
  assert (Ac0 : mat_vec A c0 = vneg b).
  { apply HL. set (z := mat_vec (transpose V) (vneg b)). assert (Lz : length z = k) by (unfold z; rewrite mat_vec_length, transpose_length; apply (is_mat_ncols k k); auto; lia).
    exists (mat_vec V (vmul (map Rinv w) z)). split; [rewrite mat_vec_length; apply MV|]. rewrite (eigh_apply k) with (w := w) by (auto; try lia; rewrite vmul_length; congruence).
    rewrite (proj1 (CW z Lz)). unfold z. apply (orthogonal_back k); auto; len; lia. }
  assert (MRV : is_mat d k (mat_mul R V)) by (apply (is_mat_mul d k k); auto; lia).
  assert (MV2 : forall u1 u2, length u1 = k -> length u2 = (d - k)%nat -> move (hstack (mat_mul R V) N) (vadd (mat_vec R c0) r) (vmul (map Rinv w ++ zeros (d - k)) (u1 ++ u2)) = move R r (vadd (mat_vec V (vmul (map Rinv w) u1)) c0)).
  { intros u1 u2 L1 L2. rewrite vmul_app by congruence. rewrite vmul_zeros_l by len. assert (Lm : length (vmul (map Rinv w) u1) = k) by (rewrite vmul_length; congruence).
    unfold move. rewrite (mat_vec_hstack d k (d - k)) by (auto; len). rewrite mat_vec_zeros, (is_mat_length _ _ _ MN). rewrite (mat_vec_mat_mul d k k) by auto. rewrite mat_vec_vadd by len.
    assert (length (mat_vec R (mat_vec V (vmul (map Rinv w) u1))) = d) by len. assert (length (mat_vec R c0) = d) by len. vring d. }
  assert (NV : forall u1, length u1 = k -> vadd (mat_vec A (vadd (mat_vec V (vmul (map Rinv w) u1)) c0)) b = mat_vec V u1).
  { intros u1 L1. assert (Lm : length (vmul (map Rinv w) u1) = k) by (rewrite vmul_length; congruence). rewrite mat_vec_vadd by len. rewrite (eigh_apply k) with (w := w) by (auto; lia). rewrite (proj1 (CW u1 L1)), Ac0. assert (length (mat_vec V u1) = k) by len. vring k. }
  intros x. split.
  - intros (u & Lu & Hu & ->). rewrite app_length, Lwi, zeros_length in Lu.
    assert (EU : u = firstn k u ++ skipn k u) by (symmetry; apply firstn_skipn). set (u1 := firstn k u) in *. set (u2 := skipn k u) in *.
    assert (L1 : length u1 = k) by (unfold u1; rewrite firstn_length; lia). assert (L2' : length u2 = (d - k)%nat) by (unfold u2; rewrite skipn_length; lia). clearbody u1 u2. subst u.
    rewrite dot_app in Hu by auto. pose proof (dot_self_nonneg u2) as P2. assert (Lm : length (vmul (map Rinv w) u1) = k) by (rewrite vmul_length; congruence).
    exists (vadd (mat_vec V (vmul (map Rinv w) u1)) c0). split; [len|]. split; [now apply MV2|]. unfold ball_preimage. rewrite NV by auto. apply (norm_le_iff _ 1); [lra|].
    rewrite (orthonormal_dot k k) by (auto using orthogonal_orthonormal; lia). lra.
  - intros (y & Ly & -> & Hy). set (u1 := mat_vec (transpose V) (vadd (mat_vec A y) b)). assert (TV : is_mat k k (transpose V)) by (apply is_mat_transpose; auto; lia). assert (L1 : length u1 = k) by (unfold u1; rewrite mat_vec_length; apply TV).
    assert (EV : mat_vec V u1 = vadd (mat_vec A y) b) by (apply (orthogonal_back k); auto; [lia|len]).
    assert (Lm : length (vmul (map Rinv w) u1) = k) by (rewrite vmul_length; congruence).
    assert (EY : vadd (mat_vec V (vmul (map Rinv w) u1)) c0 = y).
    { set (z := vsub y c0). assert (Lz : length z = k) by (unfold z; len). assert (EZ : mat_vec A z = mat_vec V u1) by (unfold z; rewrite mat_vec_vsub, Ac0, EV by congruence; assert (length (mat_vec A y) = k) by len; vring k).
      set (q := mat_vec (transpose V) z). assert (Lq : length q = k) by (unfold q; rewrite mat_vec_length; apply TV). assert (EQ : mat_vec V q = z) by (apply (orthogonal_back k); auto; lia).
      rewrite <- EQ, (eigh_apply k) with (w := w) in EZ by (auto; lia). assert (Lwq : length (vmul w q) = k) by (rewrite vmul_length; congruence).
      assert (X : vmul w q = u1) by (rewrite <- (orthonormal_apply k k V (vmul w q)), <- (orthonormal_apply k k V u1), EZ by (auto using orthogonal_orthonormal; lia); reflexivity).
      rewrite <- X, (proj2 (CW q Lq)), EQ. unfold z. vring k. }
    exists (u1 ++ zeros (d - k)). split; [rewrite !app_length; lia|]. split; [|rewrite MV2 by len; now rewrite EY].
    rewrite dot_app by auto. rewrite dot_zeros_l, Rplus_0_r. rewrite <- (orthonormal_dot k k V) by (auto using orthogonal_orthonormal; lia). rewrite EV. apply (norm_le_iff _ 1) in Hy; lra.
Qed.

(** * Two charts of the same affine set *)
Lemma orth_square k1 k2 W : (0 < k1)%nat -> (0 < k2)%nat -> is_mat k1 k2 W -> mat_mul (transpose W) W = eye k2 -> mat_mul W (transpose W) = eye k1 -> k1 = k2.
Proof.
  intros H1 H2 MW E1 E2. pose proof (is_mat_transpose _ _ _ MW H1) as TW.
  assert (N1 : INR k1 = rsum k1 (fun i => rsum k2 (fun j => entry W i j * entry W i j))).
  { rewrite (rsum_ext k1 _ (fun _ => 1)); [rewrite rsum_const; ring|]. intros i Hi.
    assert (X : entry (mat_mul W (transpose W)) i i = 1) by (rewrite E2, entry_eye, Nat.eqb_refl by auto; reflexivity). rewrite (Decomp.entry_mul_rsum k1 k2 k1) in X by auto. rewrite <- X. apply rsum_ext. intros j Hj.
    rewrite entry_transpose by (rewrite (is_mat_ncols k1 k2); auto). reflexivity. }
  assert (N2 : INR k2 = rsum k1 (fun i => rsum k2 (fun j => entry W i j * entry W i j))).
  { rewrite rsum_swap. rewrite (rsum_ext k2 _ (fun _ => 1)); [rewrite rsum_const; ring|]. intros j Hj.
    assert (X : entry (mat_mul (transpose W) W) j j = 1) by (rewrite E1, entry_eye, Nat.eqb_refl by auto; reflexivity). rewrite (Decomp.entry_mul_rsum k2 k1 k2) in X by auto. rewrite <- X. apply rsum_ext. intros i Hi.
    rewrite entry_transpose by (rewrite (is_mat_ncols k1 k2); auto). reflexivity. }
  apply INR_eq. congruence.
Qed.
Section Charts.
Context (d : nat) (Hd : (0 < d)%nat) (H : vec -> Prop) (HH : forall x, H x -> length x = d).
(** H lies in the range of the chart, and in no smaller affine set *)
Definition chart (k : nat) (R : mat) (r : vec) : Prop := (0 < k)%nat /\ orthonormal d k R /\ length r = d /\
  (forall x, H x -> mat_vec R (mat_vec (transpose R) (vsub x r)) = vsub x r) /\
  (forall y, length y = k -> (forall x x', H x -> H x' -> dot (mat_vec R y) x = dot (mat_vec R y) x') -> y = zeros k) /\ H r.
Lemma chart_span k1 R1 r1 k2 R2 r2 u : chart k1 R1 r1 -> chart k2 R2 r2 -> length u = k2 -> mat_vec R1 (mat_vec (transpose R1) (mat_vec R2 u)) = mat_vec R2 u.
Proof.
  intros (P1 & O1 & L1 & C1 & S1 & _) (P2 & O2 & L2 & C2 & S2 & Hr2) Lu. pose proof O1 as (M1 & _). pose proof O2 as (M2 & _).
  pose proof (is_mat_transpose _ _ _ M1 Hd) as T1. pose proof (is_mat_transpose _ _ _ M2 Hd) as T2. assert (LR1 : length R1 = d) by apply M1. assert (LR2 : length R2 = d) by apply M2.
  assert (LT1 : length (transpose R1) = k1) by apply T1. assert (LT2 : length (transpose R2) = k2) by apply T2.
  set (v := mat_vec R2 u). assert (Lv : length v = d) by (unfold v; len). set (pv := mat_vec R1 (mat_vec (transpose R1) v)). assert (Lpv : length pv = d) by (unfold pv; len). set (z := vsub v pv). assert (Lz : length z = d) by (unfold z; len).
  assert (Z1 : forall y, length y = k1 -> dot z (mat_vec R1 y) = 0).
  { intros y Ly. unfold z. rewrite dot_vsub_l by len. unfold pv. rewrite (orthonormal_dot d k1) by (auto; len). rewrite (dot_mat_vec_t d k1 R1 y v) by auto. ring. }
  assert (Z2 : mat_vec (transpose R2) z = zeros k2).
  { apply S2; [len|]. intros x x' Hx Hx'. pose proof (HH x Hx) as Lx. pose proof (HH x' Hx') as Lx'.
    assert (G : forall x, H x -> dot (mat_vec R2 (mat_vec (transpose R2) z)) x = dot (mat_vec R2 (mat_vec (transpose R2) z)) r2).
    { intros y Hy. pose proof (HH y Hy) as Ly. assert (X : dot (mat_vec R2 (mat_vec (transpose R2) z)) (vsub y r2) = 0).
      - rewrite <- (C2 y Hy). rewrite (orthonormal_dot d k2) by (auto; len). rewrite <- (dot_mat_vec_t d k2 R2) by (auto; len).  rewrite C2 by auto.
        assert (E : vsub y r2 = mat_vec R1 (vsub (mat_vec (transpose R1) (vsub y r1)) (mat_vec (transpose R1) (vsub r2 r1)))) by (rewrite mat_vec_vsub, !C1 by (auto; len); vring d).
        rewrite E. apply Z1. len.
      - rewrite dot_vsub_r in X by len. lra. }
    rewrite (G x Hx), (G x' Hx'). reflexivity. }
  assert (D0 : dot z z = 0).
  { unfold z at 2. rewrite dot_vsub_r by len. unfold pv. rewrite Z1 by len. unfold v. rewrite (dot_mat_vec_t d k2 R2 u z) by auto. rewrite Z2, dot_zeros_l. ring. }
  symmetry. apply (vsub_zero d); auto.
Qed.
End Charts.
Section Charts2.
Context (d : nat) (Hd : (0 < d)%nat) (H : vec -> Prop) (HH : forall x, H x -> length x = d).
Context (k1 k2 : nat) (R1 R2 : mat) (r1 r2 : vec) (HC1 : chart d H k1 R1 r1) (HC2 : chart d H k2 R2 r2).
Local Notation W := (mat_mul (transpose R1) R2).
Lemma chart_W : k1 = k2 /\ orthogonal k1 W /\ (forall u, length u = k2 -> mat_vec R1 (mat_vec W u) = mat_vec R2 u) /\ (forall u, length u = k1 -> mat_vec R2 (mat_vec (transpose W) u) = mat_vec R1 u).
Proof.
  pose proof HC1 as (P1 & O1 & L1 & C1 & S1 & _). pose proof HC2 as (P2 & O2 & L2 & C2 & S2 & Hr2). pose proof O1 as (M1 & _). pose proof O2 as (M2 & _).
  pose proof (is_mat_transpose _ _ _ M1 Hd) as T1. pose proof (is_mat_transpose _ _ _ M2 Hd) as T2. assert (LR1 : length R1 = d) by apply M1. assert (LR2 : length R2 = d) by apply M2.
  assert (LT1 : length (transpose R1) = k1) by apply T1. assert (LT2 : length (transpose R2) = k2) by apply T2.
  assert (MW : is_mat k1 k2 W) by (apply (is_mat_mul k1 d k2); auto). pose proof (is_mat_transpose _ _ _ MW P1) as TW.
  assert (EW : transpose W = mat_mul (transpose R2) R1) by (rewrite (transpose_mat_mul k1 d k2), (transpose_involutive d k1) by auto; reflexivity).
  assert (A1 : forall u, length u = k2 -> mat_vec R1 (mat_vec W u) = mat_vec R2 u) by (intros u Lu; rewrite (mat_vec_mat_mul k1 d k2) by auto; now apply (chart_span d Hd H HH k1 R1 r1 k2 R2 r2)).
  assert (A2 : forall u, length u = k1 -> mat_vec R2 (mat_vec (transpose W) u) = mat_vec R1 u) by (intros u Lu; rewrite EW, (mat_vec_mat_mul k2 d k1) by auto; now apply (chart_span d Hd H HH k2 R2 r2 k1 R1 r1)).
  assert (E1 : mat_mul (transpose W) W = eye k2).
  { apply (mat_eq_by_vec k2 k2); [apply (is_mat_mul k2 k1 k2); auto|apply is_mat_eye|]. intros x Lx. assert (LWx : length (mat_vec W x) = k1) by (rewrite mat_vec_length; apply MW). rewrite (mat_vec_mat_mul k2 k1 k2), mat_vec_eye by auto.
    rewrite EW at 1. rewrite (mat_vec_mat_mul k2 d k1), A1 by auto. now apply (orthonormal_apply d k2). }
  assert (E2 : mat_mul W (transpose W) = eye k1).
  { apply (mat_eq_by_vec k1 k1); [apply (is_mat_mul k1 k2 k1); auto|apply is_mat_eye|]. intros x Lx. assert (LWx : length (mat_vec (transpose W) x) = k2) by (rewrite mat_vec_length; apply TW). rewrite (mat_vec_mat_mul k1 k2 k1), mat_vec_eye by auto.
    rewrite (mat_vec_mat_mul k1 d k2), A2 by auto. now apply (orthonormal_apply d k1). }
  pose proof (orth_square k1 k2 W P1 P2 MW E1 E2) as EK. split; [exact EK|]. split; [|auto]. rewrite <- EK in *. split; auto.
Qed.
Local Notation s := (mat_vec (transpose R2) (vsub r1 r2)).
Lemma chart_change : (forall x, H x -> mat_vec (transpose R2) (vsub x r2) = vadd (mat_vec (transpose W) (mat_vec (transpose R1) (vsub x r1))) s) /\
  (forall y, length y = k1 -> move R2 r2 (vadd (mat_vec (transpose W) y) s) = move R1 r1 y).
Proof.
  destruct chart_W as (EK & OW & A1 & A2).
  pose proof HC1 as (P1 & O1 & L1 & C1 & S1 & Hr1). pose proof HC2 as (P2 & O2 & L2 & C2 & S2 & Hr2). pose proof O1 as (M1 & _). pose proof O2 as (M2 & _).
  pose proof (is_mat_transpose _ _ _ M1 Hd) as T1. pose proof (is_mat_transpose _ _ _ M2 Hd) as T2. assert (LR1 : length R1 = d) by apply M1. assert (LR2 : length R2 = d) by apply M2.
  assert (LT1 : length (transpose R1) = k1) by apply T1. assert (LT2 : length (transpose R2) = k2) by apply T2.
  assert (MW : is_mat k1 k2 W) by (apply (is_mat_mul k1 d k2); auto). pose proof (is_mat_transpose _ _ _ MW P1) as TW. assert (LTW : length (transpose W) = k2) by apply TW.
  assert (EW : transpose W = mat_mul (transpose R2) R1) by (rewrite (transpose_mat_mul k1 d k2), (transpose_involutive d k1) by auto; reflexivity). split.
  - intros x Hx. pose proof (HH x Hx) as Lx. rewrite EW, (mat_vec_mat_mul k2 d k1), C1 by (auto; len). rewrite <- mat_vec_vadd by len. f_equal. vring d.
  - intros y Ly. unfold move. rewrite mat_vec_vadd by len. rewrite A2 by auto. rewrite C2 by auto. assert (length (mat_vec R1 y) = d) by len. vring d.
Qed.
End Charts2.
(** congruence with an orthogonal matrix *)
Lemma congruence_facts n W A : (0 < n)%nat -> orthogonal n W -> SPD n A -> SPD n (congruence W A) /\
  (forall x, length x = n -> mat_vec (congruence W A) x = mat_vec W (mat_vec A (mat_vec (transpose W) x))) /\
  forall log_det log_det', log_det_spec n log_det -> log_det_spec n log_det' -> log_det (congruence W A) = log_det' A.
Proof.
  intros Hn HW HA. pose proof HW as (MW & W1 & W2). pose proof (is_mat_transpose _ _ _ MW Hn) as TW. pose proof HA as (MA & SA & PA).
  assert (E : forall x, length x = n -> mat_vec (congruence W A) x = mat_vec W (mat_vec A (mat_vec (transpose W) x))).
  { intros x Lx. assert (LT : length (mat_vec (transpose W) x) = n) by (rewrite mat_vec_length; apply TW). unfold congruence. rewrite !(mat_vec_mat_mul n n n) by (auto; apply (is_mat_mul n n n); auto). reflexivity. }
  destruct (SPD_diag n Hn A HA) as (V & w & HV & Lw & Pw & EA). pose proof HV as (MV & _).
  assert (EC : congruence W A = congruent (mat_mul W V) w).
  { rewrite EA. unfold congruence, congruent. pose proof (dg_ok n Hn w Lw) as MD. pose proof (mm_assoc n Hn) as AS. pose proof (mm_ok n Hn) as OK. pose proof (tr_ok n Hn) as OT. rewrite (tr_mm n Hn) by auto. rewrite !AS by auto 8. reflexivity. }
  assert (OWV : orthogonal n (mat_mul W V)) by (apply orthogonal_mul; auto). split; [|split; [exact E|]].
  - rewrite EC. destruct (congd_psd n _ w Hn OWV Lw Pw) as (C1 & C2 & _). split; [exact C1|]. split; [now apply transpose_symmetric|]. now apply (congd_pos_def n).
  - intros ld ld' HL HL'. rewrite EC, EA. unfold congruent. rewrite HL, HL' by auto. reflexivity.
Qed.

(** * mbe_of_points is a function of the convex hull *)
Lemma hull_chart_convex d k R r A b : (0 < d)%nat -> orthonormal d k R -> length r = d -> is_mat k k A -> length b = k ->
  convex (fun x => length x = d /\ norm (vadd (mat_vec A (mat_vec (transpose R) (vsub x r))) b) <= 1).
Proof.
  intros Hd (MR & _) Lr MA Lb p q t _ (Lp & Hp) (Lq & Hq) Ht. pose proof (is_mat_transpose _ _ _ MR Hd) as TR. assert (LT : length (transpose R) = k) by apply TR. assert (LA : length A = k) by apply MA.
  split; [len|]. set (f := fun x => vadd (mat_vec A (mat_vec (transpose R) (vsub x r))) b) in *.
  assert (E : f (vadd (vscale (1 - t) p) (vscale t q)) = vadd (vscale (1 - t) (f p)) (vscale t (f q))).
  { unfold f. replace (vsub (vadd (vscale (1 - t) p) (vscale t q)) r) with (vadd (vscale (1 - t) (vsub p r)) (vscale t (vsub q r))) by (vring d).
    rewrite mat_vec_vadd, !mat_vec_vscale by len. rewrite mat_vec_vadd, !mat_vec_vscale by len.
    assert (L1 : length (mat_vec A (mat_vec (transpose R) (vsub p r))) = k) by len. assert (L2 : length (mat_vec A (mat_vec (transpose R) (vsub q r))) = k) by len. vring k. }
  change (norm (f (vadd (vscale (1 - t) p) (vscale t q))) <= 1). rewrite E. assert (Lf : forall x, length (f x) = k) by (intros; unfold f; len).
  pose proof (norm_triangle (vscale (1 - t) (f p)) (vscale t (f q)) ltac:(rewrite !vscale_length, !Lf; reflexivity)) as T. rewrite !norm_vscale, !Rabs_pos_eq in T by lra.
  change (norm (f p) <= 1) in Hp. change (norm (f q) <= 1) in Hq. pose proof (norm_nonneg (f p)). pose proof (norm_nonneg (f q)). nra.
Qed.
Lemma chart_range_convex d k R r : (0 < d)%nat -> orthonormal d k R -> length r = d ->
  convex (fun x => length x = d /\ mat_vec R (mat_vec (transpose R) (vsub x r)) = vsub x r).
Proof.
  intros Hd (MR & _) Lr p q t _ (Lp & Hp) (Lq & Hq) Ht. pose proof (is_mat_transpose _ _ _ MR Hd) as TR. assert (LT : length (transpose R) = k) by apply TR. assert (LR : length R = d) by apply MR.
  split; [len|]. replace (vsub (vadd (vscale (1 - t) p) (vscale t q)) r) with (vadd (vscale (1 - t) (vsub p r)) (vscale t (vsub q r))) by (vring d).
  rewrite mat_vec_vadd, !mat_vec_vscale by len. rewrite mat_vec_vadd, !mat_vec_vscale by len. now rewrite Hp, Hq.
Qed.
Section Hulls.
Context (d : nat) (Hd : (0 < d)%nat) (points : mat) (HP : forall x, In x points -> length x = d) (r : vec) (Hr : In r points) (k : nat) (Hk : (0 < k)%nat) (R : mat)
  (HO : orth_spec d k (map (fun p => vsub p r) points) R).
Local Notation D := (map (fun p => vsub p r) points).
Lemma chart_rows x : In x (mat_mul D R) <-> exists p, In p points /\ x = mat_vec (transpose R) (vsub p r).
Proof.
  unfold mat_mul. rewrite map_map. rewrite in_map_iff. split; intros (p & E & Hp); exists p; [|split; auto].
  - split; [auto|]. rewrite <- E. apply vec_mat_mat_vec.
  - subst x. apply vec_mat_mat_vec.
Qed.
Lemma hull_range x : in_hull d points x -> length x = d /\ mat_vec R (mat_vec (transpose R) (vsub x r)) = vsub x r.
Proof.
  intros Hx. destruct HO as (OR & HD). apply (hull_in_convex d (fun x => length x = d /\ mat_vec R (mat_vec (transpose R) (vsub x r)) = vsub x r) points); auto.
  - apply (chart_range_convex d k); auto.
  - intros p Hp. split; [auto|]. apply HD. apply in_map_iff. eauto.
Qed.
Lemma constraints_hull A b : is_mat k k A -> length b = k ->
  (forall x, In x (mat_mul D R) -> norm (vadd (mat_vec A x) b) <= 1) <-> forall x, in_hull d points x -> norm (vadd (mat_vec A (mat_vec (transpose R) (vsub x r))) b) <= 1.
Proof.
  intros MA Lb. destruct HO as (OR & HD). split.
  - intros C x Hx. apply (hull_in_convex d (fun x => length x = d /\ norm (vadd (mat_vec A (mat_vec (transpose R) (vsub x r))) b) <= 1) points); auto; [apply (hull_chart_convex d k); auto|].
    intros p Hp. split; [auto|]. apply C. apply chart_rows. eauto.
  - intros C x Hx. apply chart_rows in Hx as (p & Hp & ->). apply C. now apply hull_vertex.
Qed.
Lemma hull_chart : spans k (mat_mul D R) -> chart d (in_hull d points) k R r.
Proof.
  intros HS. destruct HO as (OR & HD). pose proof OR as (MR & _). pose proof (is_mat_transpose _ _ _ MR Hd) as TR. split; [exact Hk|]. split; [exact OR|]. split; [auto|]. split; [intros x Hx; now apply hull_range|].
  split; [|now apply hull_vertex]. intros y Ly HY. apply HS; auto. intros p q Hp Hq. apply chart_rows in Hp as (x & Hx & ->). apply chart_rows in Hq as (x' & Hx' & ->).
  specialize (HY x x' (hull_vertex _ _ _ HP Hx) (hull_vertex _ _ _ HP Hx')). pose proof (HP x Hx) as Lx. pose proof (HP x' Hx') as Lx'. pose proof (HP r Hr) as Lr.
  rewrite !(dot_comm y). rewrite <- !(dot_mat_vec_t d k R y) by (auto; len). rewrite !dot_vsub_l by len. rewrite (dot_comm x), (dot_comm x'). lra.
Qed.
End Hulls.
Lemma mbe_of_points_function d points1 points2 k1 orth1 null1 eigh1 lstsq1 solver1 k2 orth2 null2 eigh2 lstsq2 solver2 :
  (0 < d)%nat -> (forall x, In x points1 -> length x = d) -> (forall x, In x points2 -> length x = d) -> same_hull d points1 points2 ->
  mbe_oracles d k1 orth1 null1 eigh1 lstsq1 solver1 points1 -> mbe_oracles d k2 orth2 null2 eigh2 lstsq2 solver2 points2 ->
  exists e1 e2, mbe_of_points orth1 null1 eigh1 lstsq1 solver1 points1 = Ok e1 /\ mbe_of_points orth2 null2 eigh2 lstsq2 solver2 points2 = Ok e2 /\
    e_dim e1 = d /\ e_dim e2 = d /\
    forall x, ell_set (e_half e1) (e_rot e1) (e_center e1) x <-> ell_set (e_half e2) (e_rot e2) (e_center e2) x.
Proof.
  intros Hd HP1 HP2 HS (r1 & Hr1 & Q1) (r2 & Hr2 & Q2). cbv zeta in Q1, Q2. destruct Q1 as (K1 & O1 & (ld1 & HL1 & OP1) & E1 & T1 & N1). destruct Q2 as (K2 & O2 & (ld2 & HL2 & OP2) & E2 & T2 & N2).
  set (D1 := map (fun p => vsub p r1) points1) in *. set (D2 := map (fun p => vsub p r2) points2) in *. set (R1 := orth1 (transpose D1)) in *. set (R2 := orth2 (transpose D2)) in *.
  destruct (solver1 _) as [A1 b1] eqn:S1. destruct (solver2 _) as [A2 b2] eqn:S2. cbn [fst snd] in *. pose proof OP1 as (F1 & D1' & M1). pose proof OP2 as (F2 & D2' & M2).
  destruct (eigh1 A1) as [w1 V1] eqn:G1. destruct (eigh2 A2) as [w2 V2] eqn:G2. cbn [fst snd] in *.
  destruct (mbe_of_points_set d k1 points1 orth1 null1 eigh1 lstsq1 solver1 r1 A1 b1 w1 V1) as (e1 & X1 & Y1 & Z1); auto.
  destruct (mbe_of_points_set d k2 points2 orth2 null2 eigh2 lstsq2 solver2 r2 A2 b2 w2 V2) as (e2 & X2 & Y2 & Z2); auto.
  exists e1, e2. repeat (split; [assumption|]).
  assert (I1 : In r1 points1) by (destruct points1; [discriminate|]; injection Hr1 as ->; now left). assert (I2 : In r2 points2) by (destruct points2; [discriminate|]; injection Hr2 as ->; now left).
  assert (RW1 : forall x, In x (mat_mul D1 R1) -> length x = k1).
  { intros x Hx. apply (chart_rows points1) in Hx as (p & Hp & ->). rewrite mat_vec_length. destruct O1 as ((MR & _) & _). apply (is_mat_transpose _ _ _ MR Hd). }
  assert (RW2 : forall x, In x (mat_mul D2 R2) -> length x = k2).
  { intros x Hx. apply (chart_rows points2) in Hx as (p & Hp & ->). rewrite mat_vec_length. destruct O2 as ((MR & _) & _). apply (is_mat_transpose _ _ _ MR Hd). }
  assert (C1 : chart d (in_hull d points1) k1 R1 r1). { apply hull_chart; auto; [lia|]. apply (mbe_needs_width k1 ltac:(lia) ld1 HL1 (mat_mul D1 R1) false A1 b1); auto. }
  assert (C2 : chart d (in_hull d points1) k2 R2 r2).
  { assert (C2 : chart d (in_hull d points2) k2 R2 r2). { apply hull_chart; auto; [lia|]. apply (mbe_needs_width k2 ltac:(lia) ld2 HL2 (mat_mul D2 R2) false A2 b2); auto. }
    destruct C2 as (c1 & c2 & c3 & c4 & c5 & c6). split; auto. split; auto. split; auto. split; [intros x Hx; apply c4; now apply HS|]. split; [|now apply HS].
    intros y Ly Hy. apply c5; auto. intros x x' Hx Hx'. apply Hy; now apply HS. }
  assert (HH : forall x, in_hull d points1 x -> length x = d) by (intros x Hx; now apply (hull_range d Hd points1 HP1 r1 I1 k1 R1 O1)).
  destruct (chart_W d Hd (in_hull d points1) HH k1 k2 R1 R2 r1 r2 C1 C2) as (EK & OW & B1 & B2). subst k2.
  destruct (chart_change d Hd (in_hull d points1) HH k1 k1 R1 R2 r1 r2 C1 C2) as (CH1 & CH2). set (W := mat_mul (transpose R1) R2) in *. set (s := mat_vec (transpose R2) (vsub r1 r2)) in *.
  set (n := k1) in *. assert (Hn : (0 < n)%nat) by lia. pose proof OW as (MW & _). pose proof (is_mat_transpose _ _ _ MW Hn) as TW. assert (LTW : length (transpose W) = n) by apply TW. assert (LW : length W = n) by apply MW.
  pose proof C1 as (_ & OR1 & Lr1 & _). pose proof C2 as (_ & OR2 & Lr2 & _). pose proof OR1 as (MR1 & _). pose proof OR2 as (MR2 & _).
  pose proof (is_mat_transpose _ _ _ MR1 Hd) as TR1. pose proof (is_mat_transpose _ _ _ MR2 Hd) as TR2. assert (LTR1 : length (transpose R1) = n) by apply TR1. assert (LTR2 : length (transpose R2) = n) by apply TR2.
  assert (Ls : length s = n) by (unfold s; len).
  assert (WW : forall x, length x = n -> mat_vec W (mat_vec (transpose W) x) = x) by (intros x Lx; now apply (orthogonal_back n)).
  assert (WWt : forall x, length x = n -> mat_vec (transpose W) (mat_vec W x) = x) by (intros x Lx; apply (orthonormal_apply n n); auto using orthogonal_orthonormal).
  assert (NW : forall x, length x = n -> norm (mat_vec W x) = norm x) by (intros x Lx; unfold norm; now rewrite (orthonormal_dot n n) by (auto using orthogonal_orthonormal)).
  assert (NWt : forall x, length x = n -> norm (mat_vec (transpose W) x) = norm x) by (intros x Lx; unfold norm; now rewrite (orthonormal_dot n n) by (auto using orthogonal_orthonormal, orthogonal_transpose)).
  (* from the second program to the first *)
  assert (FW : forall A b, mbe_points_constraints n (mat_mul D2 R2) false A b -> pos_def n A -> mbe_points_constraints n (mat_mul D1 R1) false (congruence W A) (mat_vec W (vadd (mat_vec A s) b)) /\ pos_def n (congruence W A)).
  { intros A b (VA & Lb & CA & _) DA. pose proof (psd_var_SPD n Hn A VA DA) as PA. destruct (congruence_facts n W A Hn OW PA) as (PC & EC & _). destruct (SPD_psd_var n _ PC) as (VC & DC). split; [|exact DC].
    assert (LA : length A = n) by apply PA. assert (LB : length (vadd (mat_vec A s) b) = n) by len.
    split; [exact VC|]. split; [len|]. split; [|discriminate]. apply (constraints_hull d Hd points1 HP1 r1 I1 n R1 O1); [apply PC|len|]. intros x Hx. pose proof (HH x Hx) as Lx. rewrite EC by len. set (y := mat_vec (transpose R1) (vsub x r1)).
    assert (Ly : length y = n) by (unfold y; len). rewrite <- mat_vec_vadd by len. rewrite NW by len.
    pose proof (proj1 (constraints_hull d Hd points2 HP2 r2 I2 n R2 O2 A b (proj1 VA) Lb) CA x (proj1 (HS x) Hx)) as NX. rewrite CH1 in NX by auto. fold y in NX.
    rewrite mat_vec_vadd in NX by len. assert (L1 : length (mat_vec A (mat_vec (transpose W) y)) = n) by len. assert (L2 : length (mat_vec A s) = n) by len.
    replace (vadd (mat_vec A (mat_vec (transpose W) y)) (vadd (mat_vec A s) b)) with (vadd (vadd (mat_vec A (mat_vec (transpose W) y)) (mat_vec A s)) b) by vring n. exact NX. }
  (* and back *)
  assert (BW : forall A b, mbe_points_constraints n (mat_mul D1 R1) false A b -> pos_def n A -> exists A' b', mbe_points_constraints n (mat_mul D2 R2) false A' b' /\ pos_def n A' /\ ld1 A = ld2 A').
  { intros A b (VA & Lb & CA & _) DA. pose proof (psd_var_SPD n Hn A VA DA) as PA. pose proof (orthogonal_transpose n W Hn OW) as OWt. destruct (congruence_facts n (transpose W) A Hn OWt PA) as (PC & EC & LC). destruct (SPD_psd_var n _ PC) as (VC & DC).
    rewrite (transpose_involutive n n) in EC by auto. assert (LA : length A = n) by apply PA. set (C := congruence (transpose W) A) in *. assert (LCn : length C = n) by apply PC.
    exists C, (vsub (mat_vec (transpose W) b) (mat_vec C s)). assert (Lb' : length (vsub (mat_vec (transpose W) b) (mat_vec C s)) = n) by len. split; [|split; [exact DC|symmetry; now apply LC]].
    split; [exact VC|]. split; [len|]. split; [|discriminate]. apply (constraints_hull d Hd points2 HP2 r2 I2 n R2 O2); [apply PC|len|]. intros x Hx. apply HS in Hx. pose proof (HH x Hx) as Lx. rewrite CH1 by auto. set (y := mat_vec (transpose R1) (vsub x r1)).
    assert (Ly : length y = n) by (unfold y; len). rewrite mat_vec_vadd by len. rewrite (EC (mat_vec (transpose W) y)) by len. rewrite WW by auto.
    assert (L1 : length (mat_vec (transpose W) (mat_vec A y)) = n) by len. assert (L2 : length (mat_vec C s) = n) by len. assert (L3 : length (mat_vec (transpose W) b) = n) by len.
    replace (vadd (vadd (mat_vec (transpose W) (mat_vec A y)) (mat_vec C s)) (vsub (mat_vec (transpose W) b) (mat_vec C s))) with (vadd (mat_vec (transpose W) (mat_vec A y)) (mat_vec (transpose W) b)) by vring n.
    rewrite <- mat_vec_vadd by len. rewrite NWt by len. exact (proj1 (constraints_hull d Hd points1 HP1 r1 I1 n R1 O1 A b (proj1 VA) Lb) CA x Hx). }
  pose proof F1 as (VA1 & Lb1 & _). pose proof F2 as (VA2 & Lb2 & _). pose proof (psd_var_SPD n Hn A2 VA2 D2') as PA2. destruct (congruence_facts n W A2 Hn OW PA2) as (PC & EC & LC). destruct (FW A2 b2 F2 D2') as (FC & DC).
  assert (LA2 : length A2 = n) by apply PA2.
  destruct (mbe_optimal_unique n Hn ld1 HL1 (mat_mul D1 R1) false A1 b1 (congruence W A2) (mat_vec W (vadd (mat_vec A2 s) b2)) RW1 OP1) as (EA & Eb).
  { split; [exact FC|]. split; [exact DC|]. intros A' b' F' D'. destruct (BW A' b' F' D') as (A'' & b'' & F'' & D'' & EL). rewrite EL, (LC ld1 ld2) by auto. eauto. }
  assert (ST : forall y, length y = n -> (ball_preimage A1 b1 y <-> ball_preimage A2 b2 (vadd (mat_vec (transpose W) y) s))).
  { intros y Ly. unfold ball_preimage. rewrite EA, Eb, EC by auto. rewrite <- mat_vec_vadd by len. rewrite NW by len. rewrite (mat_vec_vadd A2) by len.
    assert (L1 : length (mat_vec A2 (mat_vec (transpose W) y)) = n) by len. assert (L2 : length (mat_vec A2 s) = n) by len.
    replace (vadd (mat_vec A2 (mat_vec (transpose W) y)) (vadd (mat_vec A2 s) b2)) with (vadd (vadd (mat_vec A2 (mat_vec (transpose W) y)) (mat_vec A2 s)) b2) by vring n. reflexivity. }
  intros x. rewrite Z1, Z2. split.
  - intros (y & Ly & -> & Hy). exists (vadd (mat_vec (transpose W) y) s). split; [len|]. split; [symmetry; now apply CH2|now apply ST].
  - intros (y & Ly & -> & Hy). assert (Ly' : length (vsub y s) = n) by len. exists (mat_vec W (vsub y s)). assert (LWy : length (mat_vec W (vsub y s)) = n) by len.
    assert (E : vadd (mat_vec (transpose W) (mat_vec W (vsub y s))) s = y) by (rewrite WWt by auto; vring n). split; [auto|]. split; [rewrite <- CH2 by auto; now rewrite E|]. apply ST; [auto|]. now rewrite E.
Qed.
