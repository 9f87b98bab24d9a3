(** C99: the values of the extreme value problems. *)
From Coq Require Import Classical.
From Verif Require Import Base.Vec Base.VecFacts Spec.Basic Spec.Objects Spec.Realizable Spec.Moments Spec.Shapes Spec.ShapeObjects Spec.PolySpec Spec.Bodies Spec.Quadratic Spec.Cone Spec.Extreme
  Model.Util Model.Constraint Model.Inertial Model.Moment Model.Polydd Model.Poly Model.Ellipsoid Model.Box Model.Cylinder Model.Realize Model.RigidBody Model.Drip
  Proofs.Coord Proofs.LinAlg Proofs.MatAlg Proofs.UtilP Proofs.InertialP Proofs.BoxP Proofs.CylP Proofs.PimP Proofs.Hull Proofs.PolynomialP Proofs.BasisP Proofs.SdpP Proofs.MomentP Proofs.VertexP Proofs.SdpSound Proofs.SdpGap Proofs.SdpGapW Proofs.SdpLimit Proofs.SdpLimitB Proofs.SdpLimitW Proofs.SdpClosed Proofs.DualBox Proofs.DualPoly Proofs.CylCustom Proofs.Compact Proofs.ClosestE Proofs.Exist Proofs.ExistB Proofs.Decomp Proofs.InertialT Proofs.RealizeE Proofs.RealizeX Proofs.RealizeW Proofs.CylExact Proofs.DripCut Proofs.Drip.

Lemma reached_lower cs K D q mass : is_mat 4 4 D -> 0 <= mass -> largest_on K D q -> (forall J, PSD 4 J -> realizable_J K J -> accepts (cs (PVmat J))) -> reached (setup_drip_problem mass cs) D (mass * q).
Proof.
  intros HD Hm ((x & Lx & Kx & E) & _) HC. destruct (exact_point K D x mass HD Lx Kx Hm) as (J & HP & EM & HR & EQ). apply reached_iff. exists J. rewrite EQ, E. auto.
Qed.
Lemma value_lower p D v w : drip_value p D v -> reached p D w -> w <= v.
Proof. intros (H & _). apply H. Qed.
Lemma value_unique p D v w : drip_value p D v -> drip_value p D w -> v = w.
Proof. intros (A1 & A2) (B1 & B2). apply Rle_antisym; [now apply A2|now apply B2]. Qed.
Lemma value_le p p' D v v' : drip_value p D v -> drip_value p' D v' -> (forall w, reached p D w -> reached p' D w) -> v <= v'.
Proof. intros (_ & A) (B & _) H. apply A. intros w Hw. now apply B, H. Qed.
(** ** closed constraints *)
Lemma qint_limit S J : is_mat 4 4 S -> is_mat 4 4 J -> symmetric 4 J -> (forall e, 0 < e -> exists J', closeJ e J' J /\ is_mat 4 4 J' /\ symmetric 4 J' /\ qint S J' <= 0) -> qint S J <= 0.
Proof.
  intros HS HJ SJ H. apply (le_slack _ 0 (rsum 4 (fun i => rsum 4 (fun j => Rabs (entry S i j))))); [do 2 (apply rsum_nonneg; intros); apply Rabs_pos|].
  intros e He. destruct (H e He) as (J' & C & M' & S' & Q'). pose proof (qint_near S J' J e HS M' S' HJ SJ C) as N. apply abs_le_inv in N. lra.
Qed.
Lemma psd_limit J : is_mat 4 4 J -> symmetric 4 J -> (forall e, 0 < e -> exists J', closeJ e J' J /\ PSD 4 J') -> PSD 4 J.
Proof.
  intros HJ SJ H. split; [exact HJ|]. split; [exact SJ|]. intros z Lz. destruct (outer_ok z Lz) as (MO & SO). assert (Q : qint (mscale (-1) (outer z z)) J <= 0).
  - apply qint_limit; auto using is_mat_mscale. intros e He. destruct (H e He) as (J' & C & (M' & S' & P')). exists J'. split; [auto|]. split; [auto|]. split; [auto|]. unfold qint. rewrite trace_comm4 by auto using is_mat_mscale. fold (qint J' (mscale (-1) (outer z z))). rewrite qint_outer_neg by auto. specialize (P' z Lz). lra.
  - unfold qint in Q. rewrite trace_comm4 in Q by auto using is_mat_mscale. fold (qint J (mscale (-1) (outer z z))) in Q. rewrite qint_outer_neg in Q by auto. lra.
Qed.
(** ** the vertex constraints of a box *)
Definition sq_test (i : nat) (B : R) : mat := map (fun a => map (fun b => if Nat.eqb a 3 then (if Nat.eqb b 3 then - (B * B) else 0) else if Nat.eqb a i then (if Nat.eqb b i then 1 else 0) else 0) (seq 0 4)) (seq 0 4).
Lemma sq_test_ok i B : (i < 3)%nat -> is_mat 4 4 (sq_test i B) /\ symmetric 4 (sq_test i B) /\ (forall u, length u = 3%nat -> qdir (sq_test i B) u = nth i u 0 * nth i u 0) /\
  (forall x, length x = 3%nat -> qval (sq_test i B) x = nth i x 0 * nth i x 0 - B * B) /\ (forall J, is_mat 4 4 J -> qint (sq_test i B) J = entry J i i - B * B * entry J 3 3).
Proof.
  intro Hi. split; [split; [reflexivity|repeat constructor]|]. split; [intros a b Ha Hb; destruct i as [|[|[|i]]]; try lia; destruct a as [|[|[|[|a]]]]; try lia; destruct b as [|[|[|[|b]]]]; try lia; reflexivity|].
  split; [|split]; [intros u Lu|intros u Lu|intros J HJ]; destruct_vecs; destruct i as [|[|[|i]]]; try lia; unfold qdir, qval, qint, quad, sq_test, entry; cbn; ring.
Qed.
Lemma box_custom_bounded h c r b : box_init h c r = Ok b -> orthogonal 3 (pose_rot 3 r) -> bounded_cs (fun v => box_moment_custom_vertex_constraints b v 0).
Proof.
  intros Hb HQ. pose proof (box_init_inv _ _ _ _ Hb) as (Lh & Ph0 & _ & E2 & E3 & MQ & Lc & _). rewrite E3 in MQ. rewrite E2 in Lc. destruct (box_set_bounded h (pose_rot 3 r) (pose_tr 3 c) MQ Lc Lh) as (B & HB).
  exists (B * B). split; [nra|]. intros J HP (P & E & HPP) i Hi. destruct (box_tests_exact h c r b (PVmat J) J 0 Hb HQ eq_refl (proj1 HP) ltac:(lra)) as (P' & E' & I). rewrite E in E'. apply Ok_eq in E'. subst P'. apply I in HPP as (_ & HT).
  destruct (sq_test_ok i B Hi) as (MS & SS & DS & VS & IS). specialize (HT (sq_test i B) MS SS). rewrite IS in HT by apply HP. assert (Z : entry J i i - B * B * entry J 3 3 <= 0); [|lra]. apply HT.
  - intros k Hk. rewrite DS by now apply col_length3. nra.
  - intros x Lx Hx. rewrite VS by auto. specialize (HB x i Lx Hx). apply abs_le_inv in HB. nra.
Qed.
Lemma box_custom_closed h c r b : box_init h c r = Ok b -> orthogonal 3 (pose_rot 3 r) -> closed_cs (fun v => box_moment_custom_vertex_constraints b v 0).
Proof.
  intros Hb HQ J MJ SJ H. assert (G : forall J P, is_mat 4 4 J -> box_moment_custom_vertex_constraints b (PVmat J) 0 = Ok P -> P -> forall S, is_mat 4 4 S -> symmetric 4 S -> (forall i, (i < 3)%nat -> 0 <= qdir S (col i (pose_rot 3 r))) ->
      (forall x, length x = 3%nat -> box_set h (pose_rot 3 r) (pose_tr 3 c) x -> qval S x <= 0) -> qint S J <= 0).
  { intros J' P M' E HP. destruct (box_tests_exact h c r b (PVmat J') J' 0 Hb HQ eq_refl M' ltac:(lra)) as (P' & E' & I). rewrite E in E'. apply Ok_eq in E'. subst P'. now apply I. }
  destruct (box_tests_exact h c r b (PVmat J) J 0 Hb HQ eq_refl MJ ltac:(lra)) as (P & E & I). exists P. split; [exact E|]. apply I. rewrite msub_zero by auto. split.
  - apply psd_limit; auto. intros e He. destruct (H e He) as (J' & C & P' & _). eauto.
  - intros S MS SS HD Hq. apply qint_limit; auto. intros e He. destruct (H e He) as (J' & C & P' & (PP & EP & HPP)). exists J'. split; [auto|]. split; [apply P'|]. split; [apply P'|]. now apply (G J' PP (proj1 P') EP HPP).
Qed.
Lemma box_custom_in h c r b J : box_init h c r = Ok b -> orthogonal 3 (pose_rot 3 r) -> PSD 4 J -> realizable_J (box_set h (pose_rot 3 r) (pose_tr 3 c)) J -> accepts (box_moment_custom_vertex_constraints b (PVmat J) 0).
Proof.
  intros Hb HQ HP HR. destruct (box_custom h c r b (PVmat J) J 0 Hb HQ eq_refl (proj1 HP) ltac:(lra)) as (P & E & _ & I & _). exists P. split; [exact E|]. apply I; [exact HR|]. rewrite msub_zero by apply HP. exact HP.
Qed.
Definition shifted (D : mat) (q : R) : mat := map (fun a => map (fun b => (entry D a b + entry D b a) / 2 - (if Nat.eqb a 3 then if Nat.eqb b 3 then q else 0 else 0)) (seq 0 4)) (seq 0 4).
Lemma shifted_ok D q : is_mat 4 4 D -> is_mat 4 4 (shifted D q) /\ symmetric 4 (shifted D q) /\ (forall u, length u = 3%nat -> qdir (shifted D q) u = qdir D u) /\
  (forall x, length x = 3%nat -> qval (shifted D q) x = qval D x - q) /\ (forall J, is_mat 4 4 J -> symmetric 4 J -> qint (shifted D q) J = qint D J - q * entry J 3 3).
Proof.
  intro HD. split; [split; [reflexivity|repeat constructor]|]. split; [intros a b Ha Hb; destruct a as [|[|[|[|a]]]]; try lia; destruct b as [|[|[|[|b]]]]; try lia; unfold shifted, entry; cbn; lra|].
  split; [|split]; [intros u Lu|intros u Lu|intros J HJ SJ].
  1, 2: destruct_vecs; unfold qdir, qval, quad, shifted, entry; cbn; field.
  pose proof (SJ 0%nat 1%nat ltac:(lia) ltac:(lia)) as S1. pose proof (SJ 0%nat 2%nat ltac:(lia) ltac:(lia)) as S2. pose proof (SJ 0%nat 3%nat ltac:(lia) ltac:(lia)) as S3.
  pose proof (SJ 1%nat 2%nat ltac:(lia) ltac:(lia)) as S4. pose proof (SJ 1%nat 3%nat ltac:(lia) ltac:(lia)) as S5. pose proof (SJ 2%nat 3%nat ltac:(lia) ltac:(lia)) as S6. clear SJ.
  destruct_vecs. unfold qint, shifted, entry in *. cbn in *. subst. field.
Qed.
Lemma box_custom_value h c r b mass D q : box_init h c r = Ok b -> orthogonal 3 (pose_rot 3 r) -> 0 <= mass -> is_mat 4 4 D -> largest_on (box_set h (pose_rot 3 r) (pose_tr 3 c)) D q ->
  exists v, drip_max (box_drip_custom b mass) D v /\ mass * q <= v /\ ((forall i, (i < 3)%nat -> 0 <= qdir D (col i (pose_rot 3 r))) -> v = mass * q).
Proof.
  intros Hb HQ Hm HD Hq. pose proof (reached_lower (fun v => box_moment_custom_vertex_constraints b v 0) _ D q mass HD Hm Hq (fun J HP HR => box_custom_in h c r b J Hb HQ HP HR)) as HL.
  destruct (max_exists mass (fun v => box_moment_custom_vertex_constraints b v 0) D HD Hm (box_custom_bounded h c r b Hb HQ) (box_custom_closed h c r b Hb HQ) ltac:(eauto)) as (v & HV & HR). exists v. split; [split; assumption|].
  pose proof (value_lower _ _ _ _ HV HL) as HB. split; [exact HB|]. intro HC. apply Rle_antisym; [|exact HB]. apply reached_iff in HR as (J & HP & EM & (P & E & HPP) & <-).
  destruct (box_tests_exact h c r b (PVmat J) J 0 Hb HQ eq_refl (proj1 HP) ltac:(lra)) as (P' & E' & I). rewrite E in E'. apply Ok_eq in E'. subst P'. apply I in HPP as (_ & HT). pose proof (box_init_inv _ _ _ _ Hb) as (_ & _ & _ & _ & E3 & MQ & _). rewrite E3 in MQ.
  destruct (shifted_ok D q HD) as (MS & SS & DS & VS & IS). specialize (HT _ MS SS). rewrite IS in HT by apply HP. rewrite EM in HT. assert (Z : qint D J - q * mass <= 0); [|lra]. apply HT.
  - intros i Hi. rewrite DS by now apply col_length3. now apply HC.
  - intros x Lx Hx. rewrite VS by auto. destruct Hq as (_ & Hq). specialize (Hq x Lx Hx). lra.
Qed.
(** ** the constraints of a cylinder through its discs *)
Lemma cyl_custom_value L R0 ro co c ut mass D q : cyl_init L R0 ro co = Ok c -> orthogonal 3 (pose_rot 3 ro) -> (R0 = 0 \/ / 100000000 < R0) -> 0 <= mass -> is_mat 4 4 D ->
  largest_on (cyl_set L R0 (pose_rot 3 ro) (pose_tr 3 co)) D q -> drip_max (cyl_drip_custom ut c mass) D (mass * q).
Proof.
  intros Hc HQ HR Hm HD Hq. assert (HL : reached (cyl_drip_custom ut c mass) D (mass * q)).
  { apply (reached_lower _ _ D q mass HD Hm Hq). intros J HP HRJ. destruct (cyl_custom_exact L R0 ro co c ut (PVmat J) J Hc HQ HR eq_refl (proj1 HP)) as (P & E & I). exists P. split; [exact E|]. now apply I. }
  split; [|exact HL]. split; [|intros u Hu; now apply Hu]. intros v Hv. apply reached_iff in Hv as (J & HP & EM & (P & E & HPP) & <-).
  destruct (cyl_custom_exact L R0 ro co c ut (PVmat J) J Hc HQ HR eq_refl (proj1 HP)) as (P' & E' & I). rewrite E in E'. apply Ok_eq in E'. subst P'. apply I in HPP. rewrite <- EM. now apply (exact_upper (cyl_set L R0 (pose_rot 3 ro) (pose_tr 3 co))).
Qed.
(** ** the moment problems *)
Lemma box_moment_in h c r b d J : box_init h c r = Ok b -> orthogonal 3 (pose_rot 3 r) -> (0 < d)%nat -> PSD 4 J -> realizable_J (box_set h (pose_rot 3 r) (pose_tr 3 c)) J -> accepts (poly_moment_sdp_constraints (b_poly b) (PVmat J) 0 d).
Proof. intros Hb HQ Hd HP HR. destruct (box_sdp h c r b (PVmat J) J 0 d Hb HQ eq_refl (proj1 HP) ltac:(lra) Hd) as (P & E & I). exists P. split; [exact E|]. now apply I. Qed.
Lemma cyl_moment_in L R0 ro co c d J : cyl_init L R0 ro co = Ok c -> orthogonal 3 (pose_rot 3 ro) -> (0 < d)%nat -> PSD 4 J -> realizable_J (cyl_set L R0 (pose_rot 3 ro) (pose_tr 3 co)) J -> accepts (cyl_moment_sdp_constraints c (PVmat J) 0 d).
Proof. intros Hc HQ Hd HP HR. destruct (cyl_sdp L R0 ro co c (PVmat J) J 0 d Hc HQ eq_refl (proj1 HP) ltac:(lra) Hd) as (P & E & I). exists P. split; [exact E|]. now apply I. Qed.
Lemma box_moment_value h c r b mass D q d : box_init h c r = Ok b -> orthogonal 3 (pose_rot 3 r) -> 0 <= mass -> is_mat 4 4 D -> largest_on (box_set h (pose_rot 3 r) (pose_tr 3 c)) D q -> (2 <= d)%nat ->
  exists v, drip_value (box_drip_moment b mass d) D v /\ mass * q <= v.
Proof.
  intros Hb HQ Hm HD Hq Hd. assert (HL : reached (box_drip_moment b mass d) D (mass * q)) by (apply (reached_lower _ _ D q mass HD Hm Hq); intros J HP HR; apply (box_moment_in h c r b); auto; lia).
  destruct (value_exists mass (fun v => poly_moment_sdp_constraints (b_poly b) v 0 d) D HD Hm) as (v & Hv); [|eauto|].
  - destruct (box_moment_bound h c r b Hb HQ) as (B & B0 & HB). exists B. split; [exact B0|]. intros J HP HA. now apply (HB d).
  - exists v. split; [exact Hv|]. exact (value_lower _ _ _ _ Hv HL).
Qed.
Lemma box_order_two h c r b mass D : box_init h c r = Ok b -> orthogonal 3 (pose_rot 3 r) -> 0 <= mass -> is_mat 4 4 D -> exists v, drip_max (box_drip_moment b mass 2) D v.
Proof.
  intros Hb HQ Hm HD. destruct (largest_exists _ _ D (shape_is_box h c r b Hb HQ) HD) as (q & Hq). apply max_exists; auto.
  - destruct (box_moment_bound h c r b Hb HQ) as (B & B0 & HB). exists B. split; [exact B0|]. intros J HP HA. now apply (HB 2%nat).
  - intros J MJ SJ H. apply (shape_closed true (SBox b) _ J (shape_is_box h c r b Hb HQ) I I MJ SJ). intros e He. destruct (H e He) as (J' & C & (M' & S' & _) & HA). exists J'. auto.
  - exists (mass * q). apply (reached_lower _ _ D q mass HD Hm Hq). intros J HP HR. apply (box_moment_in h c r b); auto.
Qed.
Lemma cyl_moment_value L R0 ro co c mass D q d : cyl_init L R0 ro co = Ok c -> orthogonal 3 (pose_rot 3 ro) -> 0 <= mass -> is_mat 4 4 D -> largest_on (cyl_set L R0 (pose_rot 3 ro) (pose_tr 3 co)) D q -> (2 <= d)%nat ->
  exists v, drip_value (cyl_drip_moment c mass d) D v /\ mass * q <= v.
Proof.
  intros Hc HQ Hm HD Hq Hd. assert (HL : reached (cyl_drip_moment c mass d) D (mass * q)) by (apply (reached_lower _ _ D q mass HD Hm Hq); intros J HP HR; apply (cyl_moment_in L R0 ro co c); auto; lia).
  destruct (value_exists mass (fun v => cyl_moment_sdp_constraints c v 0 d) D HD Hm) as (v & Hv); [|eauto|].
  - destruct (cyl_moment_bound L R0 ro co c Hc HQ) as (B & B0 & HB). exists B. split; [exact B0|]. intros J HP HA. now apply (HB d).
  - exists v. split; [exact Hv|]. exact (value_lower _ _ _ _ Hv HL).
Qed.
Lemma box_moment_mono h c r b mass D d d' v v' : box_init h c r = Ok b -> orthogonal 3 (pose_rot 3 r) -> (0 < d <= d')%nat ->
  drip_value (box_drip_moment b mass d) D v -> drip_value (box_drip_moment b mass d') D v' -> v' <= v.
Proof.
  intros Hb HQ Hd Hv Hv'. apply (value_le _ _ D v' v Hv' Hv). intros w Hw. apply reached_iff in Hw as (J & HP & EM & (P & E & HPP) & <-). apply reached_iff. exists J. split; [auto|]. split; [auto|]. split; [|auto].
  exact (box_mono h c r b (PVmat J) J 0 Hb HQ eq_refl (proj1 HP) ltac:(lra) d d' P Hd E HPP).
Qed.
Lemma cyl_moment_mono c mass D d d' v v' : (0 < d <= d')%nat -> drip_value (cyl_drip_moment c mass d) D v -> drip_value (cyl_drip_moment c mass d') D v' -> v' <= v.
Proof.
  intros Hd Hv Hv'. apply (value_le _ _ D v' v Hv' Hv). intros w Hw. apply reached_iff in Hw as (J & HP & EM & (P & E & HPP) & <-). apply reached_iff. exists J. split; [auto|]. split; [auto|]. split; [|auto].
  exact (cyl_mono c (PVmat J) J 0 eq_refl (proj1 HP) ltac:(lra) d d' P Hd E HPP).
Qed.
