(** C99: limits, comparisons and counterexamples for the extreme value problems. *)
From Coq Require Import Classical.
From Verif Require Import Base.Vec Base.VecFacts Spec.Basic Spec.Objects Spec.Realizable Spec.Moments Spec.Shapes Spec.ShapeObjects Spec.PolySpec Spec.Bodies Spec.Quadratic Spec.Cone Spec.Extreme
  Model.Util Model.Constraint Model.Inertial Model.Moment Model.Polydd Model.Poly Model.Ellipsoid Model.Box Model.Cylinder Model.Realize Model.RigidBody Model.Drip
  Proofs.Coord Proofs.LinAlg Proofs.MatAlg Proofs.UtilP Proofs.InertialP Proofs.BoxP Proofs.CylP Proofs.PimP Proofs.Hull Proofs.PolynomialP Proofs.BasisP Proofs.SdpP Proofs.MomentP Proofs.VertexP Proofs.SdpSound Proofs.SdpGap Proofs.SdpGapW Proofs.SdpLimit Proofs.SdpLimitB Proofs.SdpLimitW Proofs.SdpClosed Proofs.DualBox Proofs.DualPoly Proofs.CylCustom Proofs.Compact Proofs.ClosestE Proofs.Exist Proofs.ExistB Proofs.Decomp Proofs.InertialT Proofs.RealizeE Proofs.RealizeX Proofs.RealizeW Proofs.CylExact Proofs.ClosestP Proofs.Cone Proofs.ShapesW Proofs.DripCut Proofs.Drip Proofs.DripV.

(** ** the limit of the orders *)
Lemma INR_big x : exists n, x < INR n.
Proof.
  exists (Z.to_nat (up x)). destruct (archimed x) as (H & _). destruct (Z_le_gt_dec 0 (up x)) as [C|C].
  - rewrite INR_IZR_INZ, Z2Nat.id by auto. lra.
  - pose proof (pos_INR (Z.to_nat (up x))). assert (IZR (up x) <= 0) by (apply IZR_le; lia). lra.
Qed.
Lemma above_value mass cs D v w : drip_value (setup_drip_problem mass cs) D v -> w < v -> exists J, PSD 4 J /\ entry J 3 3 = mass /\ accepts (cs (PVmat J)) /\ w < qint D J.
Proof.
  intros (_ & H) L. apply NNPP. intro X. assert (v <= w); [|lra]. apply H. intros u Hu. apply reached_iff in Hu as (J & H1 & H2 & H3 & <-). apply Rnot_lt_le. intro C. apply X. eauto.
Qed.
Lemma order_limit mass (cs : nat -> param_var -> res Prop) K D q : is_mat 4 4 D -> 0 <= mass -> largest_on K D q ->
  (exists B, 0 <= B /\ forall d J, (2 <= d)%nat -> PSD 4 J -> accepts (cs d (PVmat J)) -> forall i, (i < 3)%nat -> entry J i i <= B * entry J 3 3) ->
  (forall J, is_mat 4 4 J -> symmetric 4 J -> seq_accepts (fun J' d => cs d (PVmat J')) J -> realizable_J K J) ->
  forall e, 0 < e -> exists d0, forall d v, (d0 <= d)%nat -> drip_value (setup_drip_problem mass (cs d)) D v -> v <= mass * q + e.
Proof.
  intros HD Hm Hq (B & B0 & HB) HL e He. apply NNPP. intro X.
  assert (Get : forall d0, exists d J, (d0 <= d)%nat /\ PSD 4 J /\ entry J 3 3 = mass /\ accepts (cs d (PVmat J)) /\ mass * q + e < qint D J).
  { intro d0. apply NNPP. intro Y. apply X. exists d0. intros d v Hd Hv. apply Rnot_lt_le. intro C. apply Y. destruct (above_value _ _ _ _ _ Hv C) as (J & H1 & H2 & H3 & H4). exists d, J. auto. }
  clear X. set (F := fun (u : R) (z : vec) => length z = 10%nat /\ PSD 4 (Jof z) /\ entry (Jof z) 3 3 = mass /\ mass * q + e < qint D (Jof z) /\ exists d, (2 <= d)%nat /\ / u <= INR d /\ accepts (cs d (PVmat (Jof z)))).
  destruct (pickn F 10 ((3 * B + 1) * mass)) as (a & La & Ha).
  - intros u u' z Hu (H1 & H2 & H3 & H4 & d & H5 & H6 & H7). split; [auto|]. split; [auto|]. split; [auto|]. split; [auto|]. exists d. split; [auto|]. split; [|auto]. eapply Rle_trans; [|exact H6]. apply Rinv_le_contravar; lra.
  - intros u Hu. destruct (INR_big (/ u)) as (n & Hn). destruct (Get (n + 2)%nat) as (d & J & H1 & H2 & H3 & H4 & H5). exists (thof J). unfold F. rewrite Jof_thof by apply H2. split; [reflexivity|]. split; [auto|]. split; [auto|]. split; [auto|].
    exists d. split; [lia|]. split; [|auto]. pose proof (le_INR n d ltac:(lia)). lra.
  - intros u z i Hu (H1 & H2 & H3 & _ & d & H5 & _ & H7) Hi. eapply Rle_trans; [now apply theta_bound|]. rewrite trace4 by apply H2.
    pose proof (HB _ _ H5 H2 H7 0%nat ltac:(lia)). pose proof (HB _ _ H5 H2 H7 1%nat ltac:(lia)). pose proof (HB _ _ H5 H2 H7 2%nat ltac:(lia)). rewrite H3 in *. lra.
  - destruct (Jof_ok a La) as (_ & MA & SA). assert (HR : realizable_J K (Jof a)).
    { apply HL; auto. intros u D0 Hu. assert (HI : 0 < INR D0 + 1) by (pose proof (pos_INR D0); lra). set (w := Rmin (u / 2) (/ (INR D0 + 1))). assert (W : 0 < w) by (apply Rmin_glb_lt; [lra|now apply Rinv_0_lt_compat]).
      destruct (Ha w W) as (z & (H1 & H2 & _ & _ & d & H5 & H6 & P & EP & HP) & N). exists d, (Jof z), P. pose proof (Rmin_l (u / 2) (/ (INR D0 + 1))) as W1. pose proof (Rmin_r (u / 2) (/ (INR D0 + 1))) as W2. fold w in W1, W2.
      split. { apply INR_le. assert (INR D0 + 1 <= / w); [|lra]. rewrite <- (Rinv_inv (INR D0 + 1)). apply Rinv_le_contravar; auto. }
      split; [lia|]. split; [apply H2|]. split; [apply H2|]. split; [|auto]. intros i j Hi Hj. pose proof (near_closeJ _ _ _ H1 La N i j Hi Hj). lra. }
    assert (EM : entry (Jof a) 3 3 = mass) by (apply entry_lim; auto; intros u Hu; destruct (Ha u Hu) as (z & (H1 & _ & H3 & _) & N); eauto).
    pose proof (exact_upper K D q (Jof a) HD Hq HR) as U. rewrite EM in U. assert (G : mass * q + e <= qint D (Jof a)); [|lra].
    apply (le_slack _ _ (2 * rsum 4 (fun i => rsum 4 (fun j => Rabs (entry D i j))))); [assert (0 <= rsum 4 (fun i => rsum 4 (fun j => Rabs (entry D i j)))) by (do 2 (apply rsum_nonneg; intros); apply Rabs_pos); lra|].
    intros u Hu. destruct (Ha u Hu) as (z & (H1 & H2 & _ & H4 & _) & N). pose proof (qint_near D _ _ _ HD (proj1 H2) (proj1 (proj2 H2)) MA SA (near_closeJ _ _ _ H1 La N)) as C. apply abs_le_inv in C. lra.
Qed.
Lemma box_order_limit h c r b mass D q : box_init h c r = Ok b -> orthogonal 3 (pose_rot 3 r) -> 0 <= mass -> is_mat 4 4 D -> largest_on (box_set h (pose_rot 3 r) (pose_tr 3 c)) D q ->
  forall e, 0 < e -> exists d0, forall d v, (d0 <= d)%nat -> drip_value (box_drip_moment b mass d) D v -> v <= mass * q + e.
Proof.
  intros Hb HQ Hm HD Hq. apply (order_limit mass (fun d v => poly_moment_sdp_constraints (b_poly b) v 0 d) _ D q HD Hm Hq).
  - exact (box_moment_bound h c r b Hb HQ).
  - intros J MJ SJ HS. exact (box_limit h c r b J 0 Hb HQ MJ SJ (Rle_refl 0) HS).
Qed.
Lemma cyl_order_limit L R0 ro co c mass D q : cyl_init L R0 ro co = Ok c -> orthogonal 3 (pose_rot 3 ro) -> 0 <= mass -> is_mat 4 4 D -> largest_on (cyl_set L R0 (pose_rot 3 ro) (pose_tr 3 co)) D q ->
  forall e, 0 < e -> exists d0, forall d v, (d0 <= d)%nat -> drip_value (cyl_drip_moment c mass d) D v -> v <= mass * q + e.
Proof.
  intros Hc HQ Hm HD Hq. apply (order_limit mass (fun d v => cyl_moment_sdp_constraints c v 0 d) _ D q HD Hm Hq).
  - exact (cyl_moment_bound L R0 ro co c Hc HQ).
  - intros J MJ SJ HS. exact (cyl_limit L R0 ro co c J 0 Hc HQ MJ SJ (Rle_refl 0) HS).
Qed.
(** ** comparison of the two kinds of constraints *)
Lemma cyl_tighter L R0 ro co c ut mass D d v w : cyl_init L R0 ro co = Ok c -> orthogonal 3 (pose_rot 3 ro) -> (R0 = 0 \/ / 100000000 < R0) -> 0 <= mass -> is_mat 4 4 D -> (0 < d)%nat ->
  drip_value (cyl_drip_custom ut c mass) D v -> drip_value (cyl_drip_moment c mass d) D w -> v <= w.
Proof.
  intros Hc HQ HR Hm HD Hd Hv Hw. destruct (largest_exists _ _ D (shape_is_cyl L R0 ro co c Hc HQ) HD) as (q & Hq). destruct (cyl_custom_value L R0 ro co c ut mass D q Hc HQ HR Hm HD Hq) as (HV & _). rewrite (value_unique _ _ _ _ Hv HV).
  apply (value_lower _ _ _ _ Hw). apply (reached_lower _ _ D q mass HD Hm Hq). intros J HP HRJ. now apply (cyl_moment_in L R0 ro co c).
Qed.
Lemma box_looser h c r b mass : box_init h c r = Ok b -> orthogonal 3 (pose_rot 3 r) -> (forall i, (i < 3)%nat -> 0 < nth i h 0) -> 0 < mass ->
  exists D, is_mat 4 4 D /\ symmetric 4 D /\ forall d v w, (2 <= d)%nat -> drip_value (box_drip_custom b mass) D v -> drip_value (box_drip_moment b mass d) D w -> w + 45 * mass <= v.
Proof.
  intros Hb HQ Ph Hm. pose proof (box_init_inv _ _ _ _ Hb) as (Lh & _ & _ & E2 & E3 & MQ & Lc & _). rewrite E3 in MQ. rewrite E2 in Lc. pose proof (ucoord_mat h _ _ MQ Lc) as MU.
  assert (MD : is_mat 4 4 D_cut) by (split; [reflexivity|repeat constructor]). assert (SD : symmetric 4 D_cut) by (intros i j Hi Hj; destruct i as [|[|[|[|i]]]]; try lia; destruct j as [|[|[|[|j]]]]; try lia; reflexivity).
  exists (congm (ucoord h (pose_rot 3 r) (pose_tr 3 c)) D_cut). split; [now apply congm_mat|]. split; [now apply congm_sym|]. intros d v w Hd Hv Hw.
  assert (W : w <= 0).
  { apply Hw. intros u Hu. apply reached_iff in Hu as (J & HP & EM & (P & E & HPP) & <-). destruct (box_mono h c r b (PVmat J) J 0 Hb HQ eq_refl (proj1 HP) ltac:(lra) 2%nat d P ltac:(lia) E HPP) as (P2 & F2 & H2).
    apply (order2_cut h c r b J P2); auto; apply HP. }
  destruct (star_accepted h c r b mass Hb HQ Ph ltac:(lra)) as (S1 & S2 & S3 & S4). pose proof (value_lower _ _ _ _ Hv (proj2 (reached_iff _ _ _ _) (ex_intro _ _ (conj S1 (conj S2 (conj S3 S4)))))). lra.
Qed.
(** ** a direction in which order two is not exact: - (1 - x) (1 - z) *)
Definition D_gap : mat := [[0; 0; -1/2; 1/2]; [0; 0; 0; 0]; [-1/2; 0; 0; 1/2]; [1/2; 0; 1/2; -1]].
Lemma D_gap_ok : is_mat 4 4 D_gap /\ symmetric 4 D_gap.
Proof. split; [split; [reflexivity|repeat constructor]|]. intros i j Hi Hj; destruct i as [|[|[|[|i]]]]; try lia; destruct j as [|[|[|[|j]]]]; try lia; reflexivity. Qed.
Lemma J_gap_psd : PSD 4 J_gap.
Proof.
  destruct J_gap_ok as (M & S). split; [exact M|]. split; [exact S|]. intros z Lz. destruct (len4_inv _ Lz) as (a & b & c & d & ->). unfold quad, J_gap. cbn.
  pose proof (Rle_0_sqr (31 * a + 21 * d)). pose proof (Rle_0_sqr (33 * c + 23 * d)). pose proof (Rle_0_sqr d). unfold Rsqr in *. lra.
Qed.
Lemma gap_reached mass cs : 0 < mass -> conic cs -> accepts (cs (PVmat J_gap) 0) -> reached (setup_drip_problem mass (fun v => cs v 0)) D_gap (mass / 43).
Proof.
  intros Hm HC HA. pose proof J_gap_psd as (MJ & SJ & PJ). assert (W : 0 <= mass / 43) by lra. apply reached_iff. exists (mix (mass / 43) 0 J_gap J_gap). split; [|split; [|split]].
  - split; [now apply mix_ok|]. split; [intros i j Hi Hj; rewrite !(entry_mix 4 4) by auto; now rewrite SJ|]. intros z Lz. rewrite (quad_mix 4) by auto. specialize (PJ z Lz). nra.
  - rewrite (entry_mix 4 4) by auto. unfold entry, J_gap. cbn. field.
  - replace 0 with (mass / 43 * 0 + 0 * 0) at 2 by ring. apply (HC _ _ (PVmat J_gap) (PVmat J_gap) _ J_gap J_gap); auto; try lra; reflexivity.
  - rewrite qint_mix by (auto; apply D_gap_ok). unfold qint, D_gap, J_gap. cbn. field.
Qed.
Lemma gap_largest (K : vec -> Prop) : (forall p, length p = 3%nat -> K p -> nth 0 p 0 <= 1 /\ nth 2 p 0 <= 1) -> K [1; 0; 0] -> largest_on K D_gap 0.
Proof.
  intros HK H1. assert (V : forall x, length x = 3%nat -> qval D_gap x = - ((1 - nth 0 x 0) * (1 - nth 2 x 0))) by (intros x Lx; destruct (len3_inv x Lx) as (x0 & x1 & x2 & ->); unfold qval, quad, D_gap; cbn; field).
  split; [exists [1; 0; 0]; split; [reflexivity|]; split; [auto|]; rewrite V by reflexivity; cbn; ring|]. intros x Lx Kx. rewrite V by auto. destruct (HK x Lx Kx). assert (0 <= (1 - nth 0 x 0) * (1 - nth 2 x 0)) by (apply Rmult_le_pos; lra). lra.
Qed.
Lemma box_gap_value b mass : box_init [1; 1; 1] None None = Ok b -> 0 < mass -> drip_max (box_drip_custom b mass) D_gap 0 /\ forall w, drip_value (box_drip_moment b mass 2) D_gap w -> mass / 43 <= w.
Proof.
  intros Hb Hm. assert (HQ : orthogonal 3 (pose_rot 3 None)) by (apply orthogonal_eye; lia). split.
  - assert (HL : largest_on (box_set [1; 1; 1] (pose_rot 3 None) (pose_tr 3 None)) D_gap 0).
    { apply gap_largest; [intros p Lp Hp; pose proof (cube_bounds p Lp Hp); lra|]. exists [1; 0; 0]. split; [|cbn [pose_rot pose_tr]; rewrite move_eye3 by reflexivity; cbn; list_eq; ring].
      split; [reflexivity|]. intros k Hk. cbn in Hk. destruct k as [|[|[|k]]]; try lia; cbn; rewrite ?Rabs_R0, ?Rabs_R1; lra. }
    destruct (box_custom_value [1; 1; 1] None None b mass D_gap 0 Hb HQ ltac:(lra) (proj1 D_gap_ok) HL) as (v & HV & _ & HE). replace 0 with v; [exact HV|]. rewrite HE; [ring|].
    intros i Hi. destruct i as [|[|[|i]]]; try lia; unfold qdir, quad, D_gap; cbn; lra.
  - intros w Hw. apply (value_lower _ _ _ _ Hw). destruct (SdpP.box_faces _ _ _ b Hb HQ) as (Hd & LA & HF & HL). apply (gap_reached mass (fun v eps => poly_moment_sdp_constraints (b_poly b) v eps 2) Hm); [apply poly_sdp_conic; auto|apply box_gap; auto; lra].
Qed.
Lemma cyl_gap_value c ut mass : cyl_init 2 1 None None = Ok c -> 0 < mass -> drip_max (cyl_drip_custom ut c mass) D_gap 0 /\ forall w, drip_value (cyl_drip_moment c mass 2) D_gap w -> mass / 43 <= w.
Proof.
  intros Hc Hm. assert (HQ : orthogonal 3 (pose_rot 3 None)) by (apply orthogonal_eye; lia). split.
  - replace 0 with (mass * 0) by ring. apply (cyl_custom_value 2 1 None None c ut mass D_gap 0 Hc HQ); [right; lra|lra|apply D_gap_ok|]. apply gap_largest; [exact cyl_bounds|]. exists 1, 0, 0. split; [lra|]. split; [rewrite Rabs_R0; lra|]. cbn [pose_rot pose_tr]. rewrite move_eye3 by reflexivity; cbn; list_eq; ring.
  - intros w Hw. apply (value_lower _ _ _ _ Hw). apply (gap_reached mass (fun v eps => cyl_moment_sdp_constraints c v eps 2) Hm); [apply (cyl_sdp_conic 2 1 None None); auto|apply cyl_gap; auto; lra].
Qed.
