(** C87: monotonicity of the moment relaxations in the order, and the limit as an equivalence. *)
From Verif Require Import Base.Vec Base.VecFacts Spec.Basic Spec.Objects Spec.Realizable Spec.Moments Spec.Shapes Spec.ShapeObjects Spec.PolySpec Spec.Bodies
  Model.Util Model.Constraint Model.Inertial Model.Moment Model.Polydd Model.Poly Model.Box Model.Cylinder Model.Ellipsoid Model.Realize Model.RigidBody
  Proofs.Coord Proofs.LinAlg Proofs.MatAlg Proofs.UtilP Proofs.InertialP Proofs.Hull Proofs.BoxP Proofs.CylP Proofs.EllP Proofs.PolynomialP Proofs.BasisP Proofs.MomentP
  Proofs.Decomp Proofs.PimP Proofs.SdpP Proofs.SdpSound Proofs.SdpGap Proofs.VertexP Proofs.CylCustom Proofs.CylExact Proofs.PolyP Proofs.Compact Proofs.ClosestE Proofs.RealizeX Proofs.RigidP
  Proofs.QModule Proofs.QMeasure Proofs.QConc Proofs.Carath Proofs.SdpLimit Proofs.SdpLimitB Proofs.RealizeW Proofs.SdpGapW.
From Coq Require Import Classical.

(** ** smaller orders *)
Definition asP (B : list idx) (x : vec) : PP := combine (map tomon B) x.
Lemma asP_in B x uc : In uc (asP B x) -> (forall b, In b B -> length b = 3%nat) -> In (toidx (fst uc)) B.
Proof. destruct uc as [u c]. intros H HB. apply in_combine_l in H. apply in_map_iff in H as (b & <- & Hb). cbn [fst]. now rewrite toidx_tomon by auto. Qed.
Lemma asP_out B x b : length x = length B -> (forall b, In b B -> length b = 3%nat) -> ~ In b B -> lin (fun u => if idx_eqb (toidx u) b then 1 else 0) (asP B x) = 0.
Proof.
  revert x b. induction B as [|b' B IH]; intros [|a x] b L H N; try discriminate; [reflexivity|]. change (asP (b' :: B) (a :: x)) with ((tomon b', a) :: asP B x). rewrite lin_cons, IH; [|cbn in L; lia|intros; apply H; now right|intro; apply N; now right].
  rewrite toidx_tomon by (apply H; now left). rewrite idx_eqb_neq by (intros ->; apply N; now left). ring.
Qed.
Lemma coefs_asP B x : NoDup B -> (forall b, In b B -> length b = 3%nat) -> length x = length B -> coefs (asP B x) B = x.
Proof.
  revert x. unfold coefs. induction B as [|b B IH]; intros [|a x] ND HB Lx; try discriminate; [reflexivity|]. apply NoDup_cons_iff in ND as (Nb & ND). cbn [map]. change (asP (b :: B) (a :: x)) with ((tomon b, a) :: asP B x). f_equal.
  - rewrite lin_cons, toidx_tomon by (apply HB; now left). rewrite idx_eqb_refl, asP_out; [ring|cbn in Lx; lia|intros; apply HB; now right|exact Nb].
  - etransitivity; [|apply (IH x ND); [intros; apply HB; now right|cbn in Lx; lia]]. apply map_ext_in. intros b' Hb'. rewrite lin_cons, toidx_tomon by (apply HB; now left). rewrite idx_eqb_neq by (intros ->; contradiction). ring.
Qed.
Lemma psd_sub (f : idx -> idx -> R) B B' : NoDup B -> NoDup B' -> (forall b, In b B -> length b = 3%nat) -> (forall b, In b B -> In b B') -> (forall a b, f a b = f b a) ->
  PSD (length B') (map (fun a => map (fun b => f a b) B') B') -> PSD (length B) (map (fun a => map (fun b => f a b) B) B).
Proof.
  intros ND ND' HB Sub Sf (_ & _ & HP). split; [apply is_mat_square|]. split; [intros i j Hi Hj; rewrite !entry_square by auto; apply Sf|].
  intros x Lx. rewrite <- (coefs_asP B x ND HB Lx). rewrite (quad_coefs _ B f ND) by (intros uc H; now apply (asP_in B x)).
  rewrite <- (quad_coefs _ B' f ND') by (intros uc H; apply Sub; now apply (asP_in B x)). apply HP. apply map_length.
Qed.
Lemma basis_sub d d' b : (d <= d')%nat -> In b (basis_list 3 d) -> In b (basis_list 3 d').
Proof. intros Hd H. apply basis_in in H as (L & D). apply basis_in. split; [exact L|lia]. Qed.
Lemma feasible_mono ell polys d d' : (d <= d')%nat -> feasible_ell ell polys d' -> feasible_ell ell polys d.
Proof.
  intros Hd (H1 & H2). split.
  - apply (psd_sub (fun a b => ell (iadd a b)) _ (basis_list 3 d')); [apply basis_nodup|apply basis_nodup|intros b Hb; now apply basis_in in Hb|intros b; now apply basis_sub|intros; now rewrite iadd_comm|exact H1].
  - intros p deg Hp E. apply (psd_sub (fun a b => functional (fun u => ell (iadd u (iadd a b))) p) _ (basis_list 3 (d' - half_up deg)));
      [apply basis_nodup|apply basis_nodup|intros b Hb; now apply basis_in in Hb|intros b; apply basis_sub; lia|intros a b; now rewrite (iadd_comm a)|exact (H2 p deg Hp E)].
Qed.
Lemma match_mono ell J d d' : (0 < d)%nat -> (0 < d')%nat -> moments_match J (hmat ell (basis_list 3 d')) -> moments_match J (hmat ell (basis_list 3 d)).
Proof.
  intros Hd Hd' (M1 & M2 & M3). pose proof (basis_four d Hd). pose proof (basis_four d' Hd'). destruct (bidx_first d Hd) as (B0 & B1). destruct (bidx_first d' Hd') as (B0' & B1').
  assert (HH : forall e i j, (0 < e)%nat -> (i < 4)%nat -> (j < 4)%nat -> entry (hmat ell (basis_list 3 e)) i j = ell (iadd (bidx 3 e i) (bidx 3 e j))) by (intros e i j He Hi Hj; pose proof (basis_four e He); unfold hmat; rewrite entry_square by lia; reflexivity).
  split; [|split].
  - rewrite M1, !HH by lia. now rewrite B0, B0'.
  - intros i Hi. rewrite M2, !HH by lia. now rewrite B0, B0', B1, B1' by lia.
  - intros i j Hi Hj. rewrite M3, !HH by lia. now rewrite !B1, !B1' by lia.
Qed.
Lemma sdp_for_mono J polys d d' P : (0 < d <= d')%nat -> (forall p, In p polys -> poly_small d p) -> sdp_for J polys d' = Ok P -> P -> exists P', sdp_for J polys d = Ok P' /\ P'.
Proof.
  intros Hd Hp E HP. destruct (sdp_for_inv J polys d' P) as (ell & Hf & Hm); [lia| |exact E|exact HP|].
  - intros p Hin. destruct (Hp p Hin) as (H1 & deg & H2 & H3). split; [exact H1|]. exists deg. split; [exact H2|lia].
  - pose proof (feasible_mono ell polys d d' ltac:(lia) Hf) as (F1 & F2). apply (sdp_functional J polys d ell); auto; [lia|]. apply (match_mono ell J d d'); auto; lia.
Qed.
Definition stricter (F : nat -> res Prop) : Prop := forall d d' P, (0 < d <= d')%nat -> F d' = Ok P -> P -> exists P', F d = Ok P' /\ P'.
Lemma poly_mono p v J eps : (forall a, In a (p_A p) -> length a = 3%nat) -> faces_ok (p_A p) (p_b p) -> pv_value v J -> is_mat 4 4 J -> 0 <= eps ->
  forall d d' P, (0 < d <= d')%nat -> poly_moment_sdp_constraints p v eps d' = Ok P -> P -> exists P', poly_moment_sdp_constraints p v eps d = Ok P' /\ P'.
Proof.
  intros HA HF Hv HJ Heps d d' P Hd E HP. unfold poly_moment_sdp_constraints in *. apply bind_inv in E as (u & -> & E). rewrite (pv_ok v J eps Hv HJ Heps) in *. cbn [bind fst] in *.
  apply (sdp_for_mono J (p_polys p) d d' P); auto. intros q Hq. unfold p_polys in Hq. apply (in_map2 _ _ _ _ [] 0) in Hq as (i & H1 & H2 & ->).
  destruct (affine_small (nth i (p_A p) []) (nth i (p_b p) 0)) as (O & deg & E1 & E2); [apply HA, nth_In, H1|apply HF, H1|]. split; [exact O|]. exists deg. split; [exact E1|lia].
Qed.
Lemma box_mono h c r b v J eps : box_init h c r = Ok b -> orthogonal 3 (pose_rot 3 r) -> pv_value v J -> is_mat 4 4 J -> 0 <= eps ->
  forall d d' P, (0 < d <= d')%nat -> poly_moment_sdp_constraints (b_poly b) v eps d' = Ok P -> P -> exists P', poly_moment_sdp_constraints (b_poly b) v eps d = Ok P' /\ P'.
Proof. intros Hb HQ. destruct (box_faces h c r b Hb HQ) as (_ & H2 & H3 & _). now apply poly_mono. Qed.
Lemma cyl_mono c v J eps : pv_value v J -> is_mat 4 4 J -> 0 <= eps ->
  forall d d' P, (0 < d <= d')%nat -> cyl_moment_sdp_constraints c v eps d' = Ok P -> P -> exists P', cyl_moment_sdp_constraints c v eps d = Ok P' /\ P'.
Proof.
  intros Hv HJ Heps d d' P Hd E HP. unfold cyl_moment_sdp_constraints in *. rewrite (pv_ok v J eps Hv HJ Heps) in *. cbn [bind fst] in *. apply bind_inv in E as (T & -> & E). cbn [bind].
  eapply sdp_for_mono; eauto. apply cyl_polys_small. lia.
Qed.
Lemma shape_mono ut s K v J eps : shape_is s K -> shape_proper s -> pv_value v J -> is_mat 4 4 J -> 0 <= eps ->
  forall d d' P, (0 < d <= d')%nat -> rb_shape_constraints ut s v eps d' = Ok P -> P -> exists P', rb_shape_constraints ut s v eps d = Ok P' /\ P'.
Proof.
  intros HS HP Hv HJ Heps. destruct HS as [h c r x Hb HQ|p Hp|h r c e He Lh HQ|L R r c x Hx HQ|L R r c x k Hx Hk HQ]; cbn [rb_shape_constraints shape_proper] in *.
  - eapply box_mono; eauto.
  - apply poly_mono with (J := J); auto. destruct Hp as ((_ & _ & HA & _) & _). intros a Ha. apply (proj1 (Forall_forall _ _) (proj2 HA) a Ha).
  - intros d d' P _ E HPP. exists P. auto.
  - now apply cyl_mono with (J := J).
  - destruct HP.
Qed.
Lemma body_mono ut b Ks v J eps : Forall2 shape_is (bd_shapes b) Ks -> (forall s, In s (bd_shapes b) -> shape_proper s) ->
  pv_value v J -> is_mat 4 4 J -> 0 <= eps ->
  forall d d' P, (0 < d <= d')%nat -> rb_moment_sdp_constraints ut b v eps d' = Ok P -> P -> exists P', rb_moment_sdp_constraints ut b v eps d = Ok P' /\ P'.
Proof.
  intros HF HP Hv HJ Heps d d' P Hd E HPP. destruct (body_cases ut b v eps d') as [(s & Es & E')|(NL & E')].
  - rewrite Es in HF. inversion HF as [|s' K l Ks' HK HF']; subst. unfold rb_moment_sdp_constraints in *. rewrite Es in *. eapply shape_mono; eauto. apply HP. now left.
  - destruct (body_cases ut b v eps d) as [(s & Es & _)|(_ & E2)]; [rewrite Es in NL; cbn in NL; lia|]. rewrite E2. rewrite E' in E. clear E' E2.
    destruct (multi_sdp ut (bd_shapes b) Ks v J eps d HF HP Hv HJ Heps ltac:(lia)) as (P' & EP' & _). exists P'. split; [exact EP'|].
    unfold body_multi in E, EP'. rewrite (pv_ok v J eps Hv HJ Heps) in E, EP'. cbn [bind] in E, EP'. apply bind_inv in E as (P0 & _ & E). injection E as <-. apply bind_inv in EP' as (P0' & _ & E). injection E as <-.
    destruct HPP as (Js & Lj & FJ & (P & EP & HPP) & EJ & HE). exists Js. split; [exact Lj|]. split; [exact FJ|]. split; [|auto]. clear - HF HP Hd Lj FJ EP HPP. revert Js Lj FJ P EP HPP.
    induction HF as [|s K l Ks HK HF IH]; intros [|J' Js] Lj FJ P EP HPP; try discriminate.
    + exists True. split; [reflexivity|exact I].
    + cbn [all_constraints] in *. apply bind_inv in EP as (P1 & E1 & EP). apply bind_inv in EP as (P2 & E2 & EP). injection EP as <-. destruct HPP as (HP1 & HP2). apply Forall_cons_iff in FJ as ((M' & _) & FJ').
      destruct (shape_mono ut s K (PVmat J') J' 0 HK (HP s (or_introl eq_refl)) eq_refl M' (Rle_refl 0) d d' P1 Hd E1 HP1) as (Q1 & -> & HQ1).
      destruct (IH (fun x Hx => HP x (or_intror Hx)) Js ltac:(cbn in Lj; lia) FJ' P2 E2 HP2) as (Q2 & -> & HQ2). cbn [bind]. eexists. split; [reflexivity|]. split; assumption.
Qed.
(** ** all orders *)
Lemma pvmat_poly p v J eps d : pv_value v J -> is_mat 4 4 J -> 0 <= eps -> poly_moment_sdp_constraints p v eps d = poly_moment_sdp_constraints p (PVmat J) eps d.
Proof. intros Hv HJ Heps. unfold poly_moment_sdp_constraints. now rewrite (pv_ok v J eps Hv HJ Heps), (pv_ok (PVmat J) J eps eq_refl HJ Heps). Qed.
Lemma pvmat_cyl c v J eps d : pv_value v J -> is_mat 4 4 J -> 0 <= eps -> cyl_moment_sdp_constraints c v eps d = cyl_moment_sdp_constraints c (PVmat J) eps d.
Proof. intros Hv HJ Heps. unfold cyl_moment_sdp_constraints. now rewrite (pv_ok v J eps Hv HJ Heps), (pv_ok (PVmat J) J eps eq_refl HJ Heps). Qed.
Lemma closeJ_refl e J : 0 < e -> closeJ e J J.
Proof. intros He i j _ _. rewrite Rminus_diag_eq, Rabs_R0 by reflexivity. lra. Qed.
Lemma often_seq (F : mat -> nat -> res Prop) J : is_mat 4 4 J -> symmetric 4 J -> (forall D, exists d P, (D <= d)%nat /\ (0 < d)%nat /\ F J d = Ok P /\ P) -> seq_accepts F J.
Proof. intros HJ SJ H e D He. destruct (H D) as (d & P & H1 & H2 & H3 & H4). exists d, J, P. pose proof (closeJ_refl e J He). auto 8. Qed.
Lemma rejects_from (F : nat -> res Prop) (Q : Prop) : ((forall D, exists d P, (D <= d)%nat /\ (0 < d)%nat /\ F d = Ok P /\ P) -> Q) -> ~ Q ->
  exists D, forall d P, (D <= d)%nat -> (0 < d)%nat -> F d = Ok P -> ~ P.
Proof.
  intros H NQ. apply NNPP. intro HX. apply NQ, H. intro D. apply NNPP. intro HY. apply HX. exists D. intros d P H1 H2 H3 H4. apply HY. exists d, P. auto.
Qed.
Lemma box_often h c r b v J eps : box_init h c r = Ok b -> orthogonal 3 (pose_rot 3 r) -> pv_value v J -> is_mat 4 4 J -> symmetric 4 J -> 0 <= eps ->
  (forall D, exists d P, (D <= d)%nat /\ (0 < d)%nat /\ poly_moment_sdp_constraints (b_poly b) v eps d = Ok P /\ P) -> realizable_J (box_set h (pose_rot 3 r) (pose_tr 3 c)) J.
Proof.
  intros Hb HQ Hv HJ SJ Heps HA. apply (box_limit h c r b J eps); auto. apply often_seq; auto. intro D. destruct (HA D) as (d & P & H1 & H2 & H3 & H4). exists d, P. rewrite <- (pvmat_poly _ v) by auto. auto.
Qed.
Lemma poly_often p v J eps : poly_agree 3 p -> faces_ok (p_A p) (p_b p) -> pv_value v J -> is_mat 4 4 J -> symmetric 4 J -> 0 <= eps ->
  (forall D, exists d P, (D <= d)%nat /\ (0 < d)%nat /\ poly_moment_sdp_constraints p v eps d = Ok P /\ P) -> realizable_J (halfspaces (p_A p) (p_b p)) J.
Proof.
  intros Hp HF Hv HJ SJ Heps HA. apply (poly_limit p J eps); auto. apply often_seq; auto. intro D. destruct (HA D) as (d & P & H1 & H2 & H3 & H4). exists d, P. rewrite <- (pvmat_poly _ v) by auto. auto.
Qed.
Lemma cyl_often L R ro co c v J eps : cyl_init L R ro co = Ok c -> orthogonal 3 (pose_rot 3 ro) -> pv_value v J -> is_mat 4 4 J -> symmetric 4 J -> 0 <= eps ->
  (forall D, exists d P, (D <= d)%nat /\ (0 < d)%nat /\ cyl_moment_sdp_constraints c v eps d = Ok P /\ P) -> realizable_J (cyl_set L R (pose_rot 3 ro) (pose_tr 3 co)) J.
Proof.
  intros Hc HQ Hv HJ SJ Heps HA. apply (cyl_limit L R ro co c J eps); auto. apply often_seq; auto. intro D. destruct (HA D) as (d & P & H1 & H2 & H3 & H4). exists d, P. rewrite <- (pvmat_cyl _ v) by auto. auto.
Qed.
Lemma all_often (F : nat -> res Prop) : (forall d, (0 < d)%nat -> exists P, F d = Ok P /\ P) -> forall D, exists d P, (D <= d)%nat /\ (0 < d)%nat /\ F d = Ok P /\ P.
Proof. intros H D. destruct (H (S D) ltac:(lia)) as (P & H1 & H2). exists (S D), P. split; [lia|]. split; [lia|]. auto. Qed.
Lemma box_all h c r b v J eps : box_init h c r = Ok b -> orthogonal 3 (pose_rot 3 r) -> pv_value v J -> is_mat 4 4 J -> symmetric 4 J -> 0 <= eps ->
  ((forall d, (0 < d)%nat -> exists P, poly_moment_sdp_constraints (b_poly b) v eps d = Ok P /\ P) <-> realizable_J (box_set h (pose_rot 3 r) (pose_tr 3 c)) J).
Proof.
  intros Hb HQ Hv HJ SJ Heps. split; [intro H; eapply box_often; eauto; now apply all_often|]. intros HR d Hd. destruct (box_sdp h c r b v J eps d Hb HQ Hv HJ Heps Hd) as (P & E & H). eauto.
Qed.
Lemma poly_all p v J eps : poly_agree 3 p -> faces_ok (p_A p) (p_b p) -> pv_value v J -> is_mat 4 4 J -> symmetric 4 J -> 0 <= eps ->
  ((forall d, (0 < d)%nat -> exists P, poly_moment_sdp_constraints p v eps d = Ok P /\ P) <-> realizable_J (halfspaces (p_A p) (p_b p)) J).
Proof.
  intros Hp HF Hv HJ SJ Heps. split; [intro H; eapply poly_often; eauto; now apply all_often|]. intros HR d Hd. pose proof Hp as ((_ & _ & HA & Lb & V & EV & NV & LV) & _).
  destruct (poly_sdp p v J eps d) as (P & E & H); auto.
  - unfold p_dim, sf_dim. rewrite EV. destruct V as [|w V]; [easy|]. cbn. apply LV. now left.
  - intros a Ha. apply (proj1 (Forall_forall _ _) (proj2 HA) a Ha).
  - eauto.
Qed.
Lemma cyl_all L R ro co c v J eps : cyl_init L R ro co = Ok c -> orthogonal 3 (pose_rot 3 ro) -> pv_value v J -> is_mat 4 4 J -> symmetric 4 J -> 0 <= eps ->
  ((forall d, (0 < d)%nat -> exists P, cyl_moment_sdp_constraints c v eps d = Ok P /\ P) <-> realizable_J (cyl_set L R (pose_rot 3 ro) (pose_tr 3 co)) J).
Proof.
  intros Hc HQ Hv HJ SJ Heps. split; [intro H; eapply cyl_often; eauto; now apply all_often|]. intros HR d Hd. destruct (cyl_sdp L R ro co c v J eps d Hc HQ Hv HJ Heps Hd) as (P & E & H). eauto.
Qed.
Lemma body_all ut b Ks v J : Forall2 shape_is (bd_shapes b) Ks -> (forall s, In s (bd_shapes b) -> shape_proper s) -> pv_value v J -> is_mat 4 4 J -> symmetric 4 J ->
  ((forall d, (0 < d)%nat -> exists P, rb_moment_sdp_constraints ut b v 0 d = Ok P /\ P) <-> realizable_J (union_of Ks) J).
Proof.
  intros HF HP Hv HJ SJ. split; [intro H; eapply (body_limit ut b Ks v J 0); eauto; [lra|now apply all_often]|]. intros HR d Hd. destruct (body_sdp ut b Ks v J 0 d HF HP Hv HJ (Rle_refl 0) Hd) as (P & E & H). exists P. split; [exact E|].
  apply H; [exact HR|]. apply psd_shift0. eapply realizable_psd; eauto.
Qed.
Lemma box_detects h c r b v J eps : box_init h c r = Ok b -> orthogonal 3 (pose_rot 3 r) -> pv_value v J -> is_mat 4 4 J -> symmetric 4 J -> 0 <= eps ->
  ~ realizable_J (box_set h (pose_rot 3 r) (pose_tr 3 c)) J -> exists D, forall d P, (D <= d)%nat -> (0 < d)%nat -> poly_moment_sdp_constraints (b_poly b) v eps d = Ok P -> ~ P.
Proof. intros Hb HQ Hv HJ SJ Heps. apply rejects_from. eapply box_often; eauto. Qed.
Lemma cyl_detects L R ro co c v J eps : cyl_init L R ro co = Ok c -> orthogonal 3 (pose_rot 3 ro) -> pv_value v J -> is_mat 4 4 J -> symmetric 4 J -> 0 <= eps ->
  ~ realizable_J (cyl_set L R (pose_rot 3 ro) (pose_tr 3 co)) J -> exists D, forall d P, (D <= d)%nat -> (0 < d)%nat -> cyl_moment_sdp_constraints c v eps d = Ok P -> ~ P.
Proof. intros Hc HQ Hv HJ SJ Heps. apply rejects_from. eapply cyl_often; eauto. Qed.
Lemma body_detects ut b Ks v J eps : Forall2 shape_is (bd_shapes b) Ks -> (forall s, In s (bd_shapes b) -> shape_proper s) -> pv_value v J -> is_mat 4 4 J -> symmetric 4 J -> 0 <= eps ->
  ~ realizable_J (union_of Ks) J -> exists D, forall d P, (D <= d)%nat -> (0 < d)%nat -> rb_moment_sdp_constraints ut b v eps d = Ok P -> ~ P.
Proof. intros HF HP Hv HJ SJ Heps. apply rejects_from. eapply body_limit; eauto. Qed.
(** accumulation points of parameters accepted at growing orders *)
Lemma body_seq ut b Ks J eps : Forall2 shape_is (bd_shapes b) Ks -> (forall s, In s (bd_shapes b) -> shape_proper s) -> is_mat 4 4 J -> symmetric 4 J -> 0 <= eps ->
  (forall e D, 0 < e -> exists d J' P, (D <= d)%nat /\ (0 < d)%nat /\ is_mat 4 4 J' /\ symmetric 4 J' /\
     (forall i j, (i < 4)%nat -> (j < 4)%nat -> Rabs (entry J' i j - entry J i j) <= e) /\ rb_moment_sdp_constraints ut b (PVmat J') eps d = Ok P /\ P) ->
  realizable_J (union_of Ks) J.
Proof.
  intros HF HP HJ SJ Heps HX. destruct (HX 1 0%nat Rlt_0_1) as (d0 & J0 & _). destruct (body_cases ut b (PVmat J0) eps d0) as [(s & Es & _)|(NL & _)].
  - rewrite Es in *. inversion HF as [|s' K l Ks' HK HF']; subst. inversion HF'; subst. apply (realizable_mono K); [intros x _ Hx; exists K; split; [now left|exact Hx]|].
    apply (shape_limit ut s K J eps HK (HP s (or_introl eq_refl)) HJ SJ Heps). intros e D He. destruct (HX e D He) as (d & J' & P & H1 & H2 & H3 & H4 & H5 & H6 & H7).
    unfold rb_moment_sdp_constraints in H6. rewrite Es in H6. exists d, J', P. auto 8.
  - apply (multi_limit ut (bd_shapes b) Ks HF HP J HJ SJ). intros e D He. destruct (HX e D He) as (d & J' & P & H1 & H2 & M' & S' & HC & H3 & H4). destruct (body_cases ut b (PVmat J') eps d) as [(s & Es & _)|(_ & E')]; [rewrite Es in NL; cbn in NL; lia|].
    rewrite E' in H3. unfold body_multi in H3. rewrite (pv_ok (PVmat J') J' eps eq_refl M' Heps) in H3. cbn [bind] in H3. apply bind_inv in H3 as (P0 & _ & E). injection E as <-.
    destruct H4 as (Js & Lj & FJ & (P & EP & HPP) & EJ & _). exists d, Js, P. do 6 (split; [assumption|]). rewrite <- EJ. exact HC.
Qed.
(** ** a concrete case: accepted at order 2, rejected from some order on *)
Lemma order_matters : exists b J D, box_init [1; 1; 1] None None = Ok b /\ orthogonal 3 (pose_rot 3 None) /\ is_mat 4 4 J /\ symmetric 4 J /\ (2 < D)%nat /\
  (forall d, (0 < d <= 2)%nat -> exists P, poly_moment_sdp_constraints (b_poly b) (PVmat J) 0 d = Ok P /\ P) /\
  (forall d, (D <= d)%nat -> exists P, poly_moment_sdp_constraints (b_poly b) (PVmat J) 0 d = Ok P /\ ~ P).
Proof.
  destruct s6_shapes as (HO & (b & Hb) & _). assert (HQ : orthogonal 3 (pose_rot 3 None)) by exact HO. assert (N : ~ realizable_J (box_set [1; 1; 1] (pose_rot 3 None) (pose_tr 3 None)) J_gap).
  { apply gap_not_realizable. intros p Lp Hp. pose proof (cube_bounds p Lp Hp). lra. }
  destruct (box_detects [1; 1; 1] None None b (PVmat J_gap) J_gap 0 Hb HQ eq_refl (proj1 J_gap_ok) (proj2 J_gap_ok) (Rle_refl 0) N) as (D & HD).
  assert (A2 : exists P, poly_moment_sdp_constraints (b_poly b) (PVmat J_gap) 0 2 = Ok P /\ P) by (apply box_gap; auto; lra). destruct A2 as (P2 & E2 & H2).
  exists b, J_gap, (S (S (S D))). split; [exact Hb|]. split; [exact HQ|]. split; [apply J_gap_ok|]. split; [apply J_gap_ok|]. split; [lia|]. split.
  - intros d Hd. eapply (box_mono [1; 1; 1] None None b (PVmat J_gap) J_gap 0); eauto; [reflexivity|apply J_gap_ok|lra].
  - intros d Hd. destruct (box_sdp [1; 1; 1] None None b (PVmat J_gap) J_gap 0 d Hb HQ eq_refl (proj1 J_gap_ok) (Rle_refl 0) ltac:(lia)) as (P & E & _). exists P. split; [exact E|]. apply (HD d P); [lia|lia|exact E].
Qed.
Lemma limit_poly_case : exists p J, poly_agree 3 p /\ faces_ok (p_A p) (p_b p) /\ is_mat 4 4 J /\ symmetric 4 J /\ realizable_J (halfspaces (p_A p) (p_b p)) J /\ entry J 3 3 = 1.
Proof.
  destruct s6_shapes as (HO & (b & Hb) & _). assert (HQ : orthogonal 3 (pose_rot 3 None)) by exact HO. exists (b_poly b), J6. destruct (box_faces _ _ _ _ Hb HQ) as (_ & _ & HF & _).
  split; [apply (box_agree _ _ _ _ Hb HQ)|]. split; [exact HF|]. split; [exact J6_mat|]. split; [intros i j Hi Hj; destruct i as [|[|[|[|]]]], j as [|[|[|[|]]]]; try lia; reflexivity|].
  split; [|reflexivity]. eapply realizable_mono; [|exact s6_box]. intros x Lx Hx. now apply (halfspaces_box _ _ _ _ x Hb HQ Lx).
Qed.
