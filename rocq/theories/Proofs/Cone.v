(** C93: the constraints are closed under combinations with non-negative weights. *)
From Verif Require Import Base.Vec Base.VecFacts Spec.Basic Spec.Objects Spec.Realizable Spec.Moments Spec.Shapes Spec.ShapeObjects Spec.PolySpec Spec.Bodies Spec.Quadratic Spec.Cone
  Model.Util Model.Constraint Model.Inertial Model.Moment Model.Polydd Model.Poly Model.Box Model.Cylinder Model.Ellipsoid Model.Realize Model.RigidBody
  Proofs.Coord Proofs.LinAlg Proofs.MatAlg Proofs.UtilP Proofs.InertialP Proofs.Hull Proofs.BoxP Proofs.CylP Proofs.EllP Proofs.PolynomialP Proofs.BasisP Proofs.MomentP
  Proofs.Decomp Proofs.PimP Proofs.SdpP Proofs.SdpSound Proofs.SdpGap Proofs.VertexP Proofs.CylCustom Proofs.CylExact Proofs.PolyP Proofs.RealizeX Proofs.RigidP
  Proofs.SdpLimit Proofs.SdpLimitB Proofs.RealizeW Proofs.SdpLimitW Proofs.DualBox Proofs.DualPoly Proofs.IdentifyP.

(** ** mixtures *)
Lemma mix_ok n m a b A B : is_mat n m A -> is_mat n m B -> is_mat n m (mix a b A B).
Proof. intros. apply is_mat_madd; now apply is_mat_mscale. Qed.
Lemma entry_mix n m a b A B i j : is_mat n m A -> is_mat n m B -> (i < n)%nat -> entry (mix a b A B) i j = a * entry A i j + b * entry B i j.
Proof. intros HA HB Hi. unfold mix. now rewrite (entry_madd _ _ n m), !entry_mscale by (auto; now apply is_mat_mscale). Qed.
Lemma mix_sym n a b A B : is_mat n n A -> is_mat n n B -> symmetric n A -> symmetric n B -> symmetric n (mix a b A B).
Proof. intros HA HB SA SB i j Hi Hj. rewrite !(entry_mix n n) by auto. now rewrite SA, SB. Qed.
Lemma quad_mix n a b A B x : is_mat n n A -> is_mat n n B -> length x = n -> quad (mix a b A B) x = a * quad A x + b * quad B x.
Proof. intros HA HB Hx. unfold mix. now rewrite (quad_madd n n), !quad_mscale by (auto; now apply is_mat_mscale). Qed.
Lemma PSD_mix n a b A B : 0 <= a -> 0 <= b -> PSD n A -> PSD n B -> PSD n (mix a b A B).
Proof.
  intros Ha Hb (A1 & A2 & A3) (B1 & B2 & B3). split; [now apply mix_ok|]. split; [now apply mix_sym|]. intros x Lx. rewrite (quad_mix n) by auto.
  pose proof (Rmult_le_pos _ _ Ha (A3 x Lx)). pose proof (Rmult_le_pos _ _ Hb (B3 x Lx)). lra.
Qed.
Lemma mix_shift a b J1 J2 e1 e2 : is_mat 4 4 J1 -> is_mat 4 4 J2 ->
  msub (mix a b J1 J2) (mscale (a * e1 + b * e2) (eye 4)) = mix a b (msub J1 (mscale e1 (eye 4))) (msub J2 (mscale e2 (eye 4))).
Proof.
  intros H1 H2. assert (E : forall e, is_mat 4 4 (mscale e (eye 4))) by (intro; apply is_mat_mscale, is_mat_eye).
  apply (mat_ext 4 4); [apply is_mat_msub; auto; now apply mix_ok|apply mix_ok; now apply is_mat_msub|]. intros i j Hi Hj.
  rewrite (entry_msub _ _ 4 4), !(entry_mix 4 4), !(entry_msub _ _ 4 4), !entry_mscale by (auto; try apply is_mat_msub; auto; now apply mix_ok). ring.
Qed.
Lemma margin_mix a b J1 J2 e1 e2 : 0 <= a -> 0 <= b -> is_mat 4 4 J1 -> is_mat 4 4 J2 -> PSD 4 (msub J1 (mscale e1 (eye 4))) -> PSD 4 (msub J2 (mscale e2 (eye 4))) ->
  PSD 4 (msub (mix a b J1 J2) (mscale (a * e1 + b * e2) (eye 4))).
Proof. intros Ha Hb H1 H2 P1 P2. rewrite mix_shift by auto. now apply PSD_mix. Qed.
Lemma mix_nonneg a b x y : 0 <= a -> 0 <= b -> 0 <= x -> 0 <= y -> 0 <= a * x + b * y.
Proof. intros. pose proof (Rmult_le_pos a x). pose proof (Rmult_le_pos b y). lra. Qed.
Lemma realizable_mix K a b J1 J2 : 0 <= a -> 0 <= b -> realizable_J K J1 -> realizable_J K J2 -> realizable_J K (mix a b J1 J2).
Proof.
  intros Ha Hb H1 H2. apply (realizable_mono (fun x => K x \/ K x)); [tauto|]. apply realizable_add; now apply realizable_scale.
Qed.
Lemma congr_mix T a b A B : is_mat 4 4 T -> is_mat 4 4 A -> is_mat 4 4 B ->
  mat_mul (mat_mul T (mix a b A B)) (transpose T) = mix a b (mat_mul (mat_mul T A) (transpose T)) (mat_mul (mat_mul T B) (transpose T)).
Proof. intros HT HA HB. unfold mix. destruct_vecs. cbn. list_eq; ring. Qed.
(** ** the moment relaxations *)
Lemma functional_mix a b f g p : functional (fun u => a * f u + b * g u) p = a * functional f p + b * functional g p.
Proof. unfold functional. induction p as [|kv p IH]; cbn [map]; unfold lsum in *; cbn [fold_right]; [ring|]. rewrite IH. ring. Qed.
Lemma square_mix {X} (f g : X -> X -> R) a b (B : list X) : map (fun x => map (fun y => a * f x y + b * g x y) B) B = mix a b (map (fun x => map (f x) B) B) (map (fun x => map (g x) B) B).
Proof.
  unfold mix, madd, mscale. generalize B at 2 4 6. intro C. induction C as [|c C IH]; [reflexivity|]. cbn [map map2]. f_equal; [|exact IH].
  clear. induction B as [|y B IH]; [reflexivity|]. cbn [map]. unfold vadd, vscale in *. cbn [map map2]. f_equal. exact IH.
Qed.
Lemma sdp_for_mix J1 J2 a b polys d : 0 <= a -> 0 <= b -> is_mat 4 4 J1 -> is_mat 4 4 J2 -> (0 < d)%nat -> (forall p, In p polys -> poly_small d p) ->
  accepts (sdp_for J1 polys d) -> accepts (sdp_for J2 polys d) -> accepts (sdp_for (mix a b J1 J2) polys d).
Proof.
  intros Ha Hb M1 M2 Hd Hp (P1 & E1 & H1) (P2 & E2 & H2). destruct (sdp_for_inv J1 polys d P1 Hd Hp E1 H1) as (l1 & (F1 & G1) & N1). destruct (sdp_for_inv J2 polys d P2 Hd Hp E2 H2) as (l2 & (F2 & G2) & N2).
  set (l := fun u => a * l1 u + b * l2 u). assert (EH : hmat l (basis_list 3 d) = mix a b (hmat l1 (basis_list 3 d)) (hmat l2 (basis_list 3 d))) by (unfold hmat, l; apply square_mix).
  apply (sdp_functional _ _ _ l); auto.
  - rewrite EH. now apply PSD_mix.
  - rewrite EH. pose proof (basis_four d Hd) as B4. destruct N1 as (A1 & A2 & A3), N2 as (A1' & A2' & A3'). destruct F1 as (S1 & _), F2 as (S2 & _).
    split; [|split].
    + rewrite (entry_mix 4 4), (entry_mix (length (basis_list 3 d)) (length (basis_list 3 d))) by (auto; lia). now rewrite A1, A1'.
    + intros i Hi. rewrite (entry_mix 4 4), (entry_mix (length (basis_list 3 d)) (length (basis_list 3 d))) by (auto; lia). now rewrite A2, A2'.
    + intros i j Hi Hj. rewrite (entry_mix 4 4), (entry_mix (length (basis_list 3 d)) (length (basis_list 3 d))) by (auto; lia). now rewrite A3, A3'.
  - intros p deg Hin E. replace (lmat l p (basis_list 3 (d - half_up deg))) with (mix a b (lmat l1 p (basis_list 3 (d - half_up deg))) (lmat l2 p (basis_list 3 (d - half_up deg)))).
    + apply PSD_mix; eauto.
    + unfold lmat. rewrite <- square_mix. unfold l. apply map_ext. intro x. apply map_ext. intro y. now rewrite functional_mix.
Qed.
Lemma ell_conic h r c e ut : ell_init h r c = Ok e -> length h = 3%nat -> orthogonal 3 (pose_rot 3 r) -> proper_half h -> conic (ell_moment_constraints ut e).
Proof.
  intros He Lh HQ HP a b v1 v2 v J1 J2 e1 e2 Ha Hb He1 He2 M1 M2 V1 V2 V (P1 & E1 & H1) (P2 & E2 & H2).
  destruct (ell_x_constraints _ _ _ _ ut v1 J1 e1 He Lh HQ HP V1 M1 He1) as (P1' & E1' & I1). destruct (ell_x_constraints _ _ _ _ ut v2 J2 e2 He Lh HQ HP V2 M2 He2) as (P2' & E2' & I2).
  rewrite E1 in E1'. apply Ok_eq in E1'. subst P1'. rewrite E2 in E2'. apply Ok_eq in E2'. subst P2'. apply I1 in H1 as (A1 & B1). apply I2 in H2 as (A2 & B2).
  destruct (ell_x_constraints _ _ _ _ ut v (mix a b J1 J2) (a * e1 + b * e2) He Lh HQ HP V (mix_ok 4 4 a b _ _ M1 M2) (mix_nonneg a b e1 e2 Ha Hb He1 He2)) as (P & E & I).
  exists P. split; [exact E|]. apply I. split; [now apply margin_mix|now apply realizable_mix].
Qed.
Lemma psd_sym_margin J eps : is_mat 4 4 J -> PSD 4 (msub J (mscale eps (eye 4))) -> symmetric 4 J.
Proof. intros HJ H. apply (psd_shift J eps HJ) in H as (H & _). apply transpose_symmetric; auto. Qed.
Lemma qint_mix S a b A B : is_mat 4 4 S -> is_mat 4 4 A -> symmetric 4 A -> is_mat 4 4 B -> symmetric 4 B -> qint S (mix a b A B) = a * qint S A + b * qint S B.
Proof.
  intros HS HA SA HB SB. unfold mix. rewrite qint_add, !qint_scale; auto; try now apply is_mat_mscale.
  - intros i j Hi Hj. rewrite !entry_mscale. now rewrite SA.
  - intros i j Hi Hj. rewrite !entry_mscale. now rewrite SB.
Qed.
Lemma mix_nonpos a b x y : 0 <= a -> 0 <= b -> x <= 0 -> y <= 0 -> a * x + b * y <= 0.
Proof. intros. pose proof (Rmult_le_pos a (- x)). pose proof (Rmult_le_pos b (- y)). lra. Qed.
Lemma vertex_conic p : poly_ok 3 p -> conic (poly_moment_vertex_constraints p).
Proof.
  intros Hp a b v1 v2 v J1 J2 e1 e2 Ha Hb He1 He2 M1 M2 V1 V2 V (P1 & E1 & H1) (P2 & E2 & H2).
  destruct (poly_tests_exact p v1 J1 e1 Hp V1 M1 He1) as (P1' & E1' & I1). destruct (poly_tests_exact p v2 J2 e2 Hp V2 M2 He2) as (P2' & E2' & I2).
  rewrite E1 in E1'. apply Ok_eq in E1'. subst P1'. rewrite E2 in E2'. apply Ok_eq in E2'. subst P2'. apply I1 in H1 as (A1 & B1). apply I2 in H2 as (A2 & B2).
  destruct (poly_tests_exact p v (mix a b J1 J2) (a * e1 + b * e2) Hp V (mix_ok 4 4 a b _ _ M1 M2) (mix_nonneg a b e1 e2 Ha Hb He1 He2)) as (P & E & I).
  exists P. split; [exact E|]. apply I. split; [now apply margin_mix|]. intros S MS SS S1 S2. rewrite qint_mix by (eauto using psd_sym_margin). apply mix_nonpos; auto.
Qed.
Lemma box_custom_conic h c r x : box_init h c r = Ok x -> orthogonal 3 (pose_rot 3 r) -> conic (box_moment_custom_vertex_constraints x).
Proof.
  intros Hx HQ a b v1 v2 v J1 J2 e1 e2 Ha Hb He1 He2 M1 M2 V1 V2 V (P1 & E1 & H1) (P2 & E2 & H2).
  destruct (box_tests_exact h c r x v1 J1 e1 Hx HQ V1 M1 He1) as (P1' & E1' & I1). destruct (box_tests_exact h c r x v2 J2 e2 Hx HQ V2 M2 He2) as (P2' & E2' & I2).
  rewrite E1 in E1'. apply Ok_eq in E1'. subst P1'. rewrite E2 in E2'. apply Ok_eq in E2'. subst P2'. apply I1 in H1 as (A1 & B1). apply I2 in H2 as (A2 & B2).
  destruct (box_tests_exact h c r x v (mix a b J1 J2) (a * e1 + b * e2) Hx HQ V (mix_ok 4 4 a b _ _ M1 M2) (mix_nonneg a b e1 e2 Ha Hb He1 He2)) as (P & E & I).
  exists P. split; [exact E|]. apply I. split; [now apply margin_mix|]. intros S MS SS S1 S2. rewrite qint_mix by (eauto using psd_sym_margin). apply mix_nonpos; auto.
Qed.
Lemma cyl_custom_conic L R ro co c ut : cyl_init L R ro co = Ok c -> orthogonal 3 (pose_rot 3 ro) -> (R = 0 \/ / 100000000 < R) -> conic (cyl_moment_custom_vertex_constraints ut c).
Proof.
  intros Hc HQ HR a b v1 v2 v J1 J2 e1 e2 Ha Hb He1 He2 M1 M2 V1 V2 V (P1 & E1 & H1) (P2 & E2 & H2).
  destruct (cyl_custom_ok L R ro co c ut v1 J1 e1 Hc HR V1 M1 He1) as (P1' & E1' & _ & Z1). rewrite E1 in E1'. apply Ok_eq in E1'. subst P1'. specialize (Z1 H1). subst e1.
  destruct (cyl_custom_ok L R ro co c ut v2 J2 e2 Hc HR V2 M2 He2) as (P2' & E2' & _ & Z2). rewrite E2 in E2'. apply Ok_eq in E2'. subst P2'. specialize (Z2 H2). subst e2.
  destruct (cyl_custom_exact L R ro co c ut v1 J1 Hc HQ HR V1 M1) as (P1' & E1' & I1). rewrite E1 in E1'. apply Ok_eq in E1'. subst P1'.
  destruct (cyl_custom_exact L R ro co c ut v2 J2 Hc HQ HR V2 M2) as (P2' & E2' & I2). rewrite E2 in E2'. apply Ok_eq in E2'. subst P2'.
  destruct (cyl_custom_exact L R ro co c ut v (mix a b J1 J2) Hc HQ HR V (mix_ok 4 4 a b _ _ M1 M2)) as (P & E & I).
  replace (a * 0 + b * 0) with 0 by ring. exists P. split; [exact E|]. apply I, realizable_mix; auto; [now apply I1|now apply I2].
Qed.
Lemma poly_sdp_conic p d : p_dim p = 3%nat -> (forall a, In a (p_A p) -> length a = 3%nat) -> faces_ok (p_A p) (p_b p) -> (0 < d)%nat ->
  conic (fun v eps => poly_moment_sdp_constraints p v eps d).
Proof.
  intros ED HA HF Hd a b v1 v2 v J1 J2 e1 e2 Ha Hb He1 He2 M1 M2 V1 V2 V. unfold poly_moment_sdp_constraints. rewrite ED, Nat.eqb_refl. cbn [assert_ bind].
  rewrite (pv_ok v1 J1 e1), (pv_ok v2 J2 e2), (pv_ok v (mix a b J1 J2) (a * e1 + b * e2)) by (auto using mix_nonneg; now apply mix_ok). cbn [bind fst].
  apply sdp_for_mix; auto. intros q Hq. unfold p_polys in Hq. apply (SdpP.in_map2 _ _ _ _ [] 0) in Hq as (i & H1 & H2 & ->).
  destruct (affine_small (nth i (p_A p) []) (nth i (p_b p) 0)) as (O & deg & E1 & E2); [apply HA, nth_In, H1|apply HF, H1|]. split; [exact O|]. exists deg. split; [exact E1|lia].
Qed.
Lemma cyl_sdp_conic L R ro co c d : cyl_init L R ro co = Ok c -> (0 < d)%nat -> conic (fun v eps => cyl_moment_sdp_constraints c v eps d).
Proof.
  intros Hc Hd a b v1 v2 v J1 J2 e1 e2 Ha Hb He1 He2 M1 M2 V1 V2 V. apply cyl_init_inv in Hc as (_ & _ & MQ & Lc & ->). unfold cyl_moment_sdp_constraints.
  rewrite (pv_ok v1 J1 e1), (pv_ok v2 J2 e2), (pv_ok v (mix a b J1 J2) (a * e1 + b * e2)) by (auto using mix_nonneg; now apply mix_ok). cbn [bind fst c_rot c_center cyl_of].
  destruct (transform_inv_ok _ _ MQ Lc) as (ET & MT). rewrite ET. cbn [bind]. rewrite congr_mix by auto.
  assert (TT : is_mat 4 4 (transpose (inv_T (pose_rot 3 ro) (pose_tr 3 co)))) by (apply is_mat_transpose; auto; lia).
  apply sdp_for_mix; auto; try (apply (mm_ok 4); [lia| |exact TT]; apply (mm_ok 4); auto; lia). now apply cyl_polys_small.
Qed.
Lemma shape_conic ut s K d : shape_is s K -> shape_proper s -> (0 < d)%nat -> conic (fun v eps => rb_shape_constraints ut s v eps d).
Proof.
  intros HS HP Hd. destruct HS as [h c r x Hb HQ|p Hp|h r c e He Lh HQ|L R r c x Hx HQ|L R r c x k Hx Hk HQ]; cbn [rb_shape_constraints shape_proper] in *.
  - destruct (box_faces h c r x Hb HQ) as (H1 & H2 & H3 & _). now apply poly_sdp_conic.
  - destruct Hp as (OK & _). destruct (poly_ok_vertices _ _ OK) as (_ & _ & ED). destruct OK as (_ & _ & HA & _). apply poly_sdp_conic; auto. intros a Ha. apply (proj1 (Forall_forall _ _) (proj2 HA) a Ha).
  - pose proof (ell_init_inv _ _ _ _ He) as (_ & Eh & _). rewrite Eh in HP. eapply ell_conic; eauto.
  - eapply cyl_sdp_conic; eauto.
  - destruct HP.
Qed.
(** ** bodies: J is a sum of one part for each shape *)
Definition parts (ut : bool) (shapes : list shp) (d : nat) (Js : list mat) : Prop :=
  Forall2 (fun s J => cp_psd_var 4 J /\ accepts (rb_shape_constraints ut s (PVmat J) 0 d)) shapes Js.
Lemma parts_iff ut shapes d Js : parts ut shapes d Js <-> length Js = length shapes /\ Forall (cp_psd_var 4) Js /\
  exists P, all_constraints (fun s J => rb_shape_constraints ut s (PVmat J) 0 d) shapes Js = Ok P /\ P.
Proof.
  split.
  - induction 1 as [|s J l Js (H1 & P1 & E1 & HP1) H (L & F & P & E & HP)]; [split; [reflexivity|]; split; [constructor|]; exists True; split; [reflexivity|exact I]|].
    split; [cbn; congruence|]. split; [now constructor|]. cbn [all_constraints]. rewrite E1. cbn [bind]. rewrite E. cbn [bind]. eexists. split; [reflexivity|]. now split.
  - intros (L & F & P & E & HP). revert Js L F P E HP. induction shapes as [|s l IH]; intros [|J Js] L F P E HP; try discriminate; [constructor|].
    apply Forall_cons_iff in F as (F1 & F). cbn [all_constraints] in E. apply bind_inv in E as (P1 & E1 & E). apply bind_inv in E as (P2 & E2 & E). apply Ok_eq in E. subst P. destruct HP as (HP1 & HP2).
    constructor; [split; [exact F1|]; exists P1; auto|]. apply (IH Js) with (P := P2); auto.
Qed.
Lemma parts_mats ut shapes d Js : parts ut shapes d Js -> forall B, In B Js -> is_mat 4 4 B.
Proof. induction 1 as [|s J l Js ((H1 & _) & _) H IH]; intros B HB; [destruct HB|]. destruct HB as [<-|HB]; auto. Qed.
Lemma shapes_called ut shapes Ks d : Forall2 shape_is shapes Ks -> (forall s, In s shapes -> shape_proper s) -> (0 < d)%nat ->
  exists P, all_constraints (fun s J => rb_shape_constraints ut s (PVmat J) 0 d) shapes (map (fun _ => zeros2 4 4) shapes) = Ok P.
Proof.
  intros HF HP Hd. apply all_constraints_ok; [now rewrite map_length|]. intros s J' Hs HJ'. apply in_map_iff in HJ' as (x & <- & _).
  assert (HK : exists K, shape_is s K) by (clear - HF Hs; induction HF as [|s' K l Ks H HF IH]; [destruct Hs|destruct Hs as [->|Hs]; eauto]).
  destruct HK as (K & HK). destruct (shape_constraints_ok ut s K (PVmat (zeros2 4 4)) (zeros2 4 4) 0 d HK (HP s Hs) eq_refl (is_mat_zeros2 4 4) (Rle_refl 0) Hd) as (P & E & _). eauto.
Qed.
Lemma multi_iff ut shapes Ks v J eps d : Forall2 shape_is shapes Ks -> (forall s, In s shapes -> shape_proper s) -> pv_value v J -> is_mat 4 4 J -> 0 <= eps -> (0 < d)%nat ->
  accepts (body_multi ut shapes v eps d) <-> (exists Js, parts ut shapes d Js /\ J = msum 4 4 Js) /\ PSD 4 (msub J (mscale eps (eye 4))).
Proof.
  intros HF HP Hv HJ Heps Hd. unfold accepts, body_multi. rewrite (pv_ok v J eps Hv HJ Heps). cbn [bind]. destruct (shapes_called ut shapes Ks d HF HP Hd) as (P0 & ->). cbn [bind]. split.
  - intros (P & E & H). apply Ok_eq in E. subst P. destruct H as (Js & L & F & H & EJ & HS). split; [|now apply psd_shift]. exists Js. split; [|exact EJ]. apply parts_iff. auto.
  - intros ((Js & H & EJ) & HS). eexists. split; [reflexivity|]. apply parts_iff in H as (L & F & H). exists Js. apply psd_shift in HS; auto.
Qed.
Lemma mix_msum a b Js Js' : length Js = length Js' -> (forall B, In B Js -> is_mat 4 4 B) -> (forall B, In B Js' -> is_mat 4 4 B) ->
  mix a b (msum 4 4 Js) (msum 4 4 Js') = msum 4 4 (map2 (mix a b) Js Js').
Proof.
  intros L H1 H2. assert (MM : forall B, In B (map2 (mix a b) Js Js') -> is_mat 4 4 B) by (intros B HB; apply IdentifyP.in_map2 in HB as (A1 & A2 & I1 & I2 & ->); apply mix_ok; auto).
  apply (mat_ext 4 4); [apply mix_ok; now apply msum_is_mat|now apply msum_is_mat|]. intros i j Hi Hj. rewrite (entry_mix 4 4), !msum_entry by (auto; now apply msum_is_mat). clear MM.
  revert Js' L H1 H2. induction Js as [|J Js IH]; intros [|J' Js'] L H1 H2; try discriminate; [cbn; ring|]. cbn [map map2]. unfold lsum in *. cbn [fold_right]. rewrite (entry_mix 4 4) by (first [apply H1; now left|apply H2; now left|exact Hi]).
  rewrite <- IH; [ring|cbn in L; lia|intros; apply H1; now right|intros; apply H2; now right].
Qed.
Lemma psd_var_mix n a b A B : (0 < n)%nat -> 0 <= a -> 0 <= b -> cp_psd_var n A -> cp_psd_var n B -> cp_psd_var n (mix a b A B).
Proof.
  intros Hn Ha Hb (A1 & A2 & A3) (B1 & B2 & B3). apply PSD_var; auto. apply PSD_mix; auto; (split; [assumption|]; split; [now apply transpose_symmetric|assumption]).
Qed.
Lemma parts_mix ut shapes Ks d a b Js Js' : Forall2 shape_is shapes Ks -> (forall s, In s shapes -> shape_proper s) -> (0 < d)%nat -> 0 <= a -> 0 <= b ->
  parts ut shapes d Js -> parts ut shapes d Js' -> parts ut shapes d (map2 (mix a b) Js Js').
Proof.
  intros HF HP Hd Ha Hb H. revert Ks Js' HF HP. induction H as [|s J l Js (P1 & A1) H IH]; intros Ks Js' HF HP H'; inversion H' as [|s' J' l' Js'' (P1' & A1') H'']; subst; [constructor|].
  inversion HF as [|s' K l' Ks' HK HF']; subst. constructor; [|eapply IH; eauto; intros; apply HP; now right]. split; [apply psd_var_mix; auto; lia|].
  assert (E0 : a * 0 + b * 0 = 0) by ring. pose proof (shape_conic ut s K d HK (HP s (or_introl eq_refl)) Hd a b (PVmat J) (PVmat J') (PVmat (mix a b J J')) J J' 0 0 Ha Hb (Rle_refl 0) (Rle_refl 0) (proj1 P1) (proj1 P1') eq_refl eq_refl eq_refl A1 A1') as X. cbn beta in X. rewrite E0 in X. exact X.
Qed.
Lemma body_conic ut b Ks d : Forall2 shape_is (bd_shapes b) Ks -> (forall s, In s (bd_shapes b) -> shape_proper s) -> (0 < d)%nat ->
  conic (fun v eps => rb_moment_sdp_constraints ut b v eps d).
Proof.
  intros HF HP Hd. destruct (body_cases ut b (PVmat []) 0 d) as [(s & Es & _)|(NL & _)].
  - rewrite Es in HF. inversion HF as [|s' K l Ks' HK HF']; subst. unfold rb_moment_sdp_constraints. rewrite Es. eapply shape_conic; eauto. apply HP. rewrite Es. now left.
  - assert (E : forall v eps, rb_moment_sdp_constraints ut b v eps d = body_multi ut (bd_shapes b) v eps d) by (intros v eps; destruct (body_cases ut b v eps d) as [(s & Es & _)|(_ & E)]; [rewrite Es in NL; cbn in NL; lia|exact E]).
    intros a b' v1 v2 v J1 J2 e1 e2 Ha Hb He1 He2 M1 M2 V1 V2 V. rewrite !E. intros H1 H2. apply (multi_iff _ _ Ks v1 J1) in H1 as ((Js & H1 & EJ) & S1); auto. apply (multi_iff _ _ Ks v2 J2) in H2 as ((Js' & H2 & EJ') & S2); auto.
    apply (multi_iff _ _ Ks v (mix a b' J1 J2)); auto; [now apply mix_ok|now apply mix_nonneg|]. split; [|now apply margin_mix]. exists (map2 (mix a b') Js Js'). split; [eapply parts_mix; eauto|].
    rewrite EJ, EJ'. apply mix_msum; [rewrite <- (RigidP.Forall2_len _ _ _ H1); exact (RigidP.Forall2_len _ _ _ H2)|eapply parts_mats; eauto|eapply parts_mats; eauto].
Qed.
(** ** composite bodies accept exactly the sums *)
Lemma msum_one J : is_mat 4 4 J -> msum 4 4 [J] = J.
Proof.
  intro HJ. apply (mat_ext 4 4); auto; [apply msum_is_mat; intros B [<-|[]]; auto|]. intros i j Hi Hj. rewrite msum_entry by (auto; intros B [<-|[]]; auto). cbn. ring.
Qed.
Lemma parts_psd ut shapes d Js : parts ut shapes d Js -> PSD 4 (msum 4 4 Js).
Proof.
  intro H. pose proof (parts_mats _ _ _ _ H) as HM. split; [now apply msum_is_mat|]. assert (E : forall x, length x = 4%nat -> quad (msum 4 4 Js) x = lsum (map (fun B => quad B x) Js)).
  { intros x Lx. clear H. assert (G : forall l A, is_mat 4 4 A -> (forall B, In B l -> is_mat 4 4 B) -> quad (fold_left madd l A) x = quad A x + lsum (map (fun B => quad B x) l)).
    { induction l as [|B l IH]; intros A HA Hl; [cbn; ring|]. cbn [fold_left map]. rewrite IH; [|apply is_mat_madd; auto; apply Hl; now left|intros; apply Hl; now right]. rewrite (quad_madd 4 4) by (auto; apply Hl; now left). unfold lsum. cbn [fold_right]. ring. }
    unfold msum. rewrite G; auto; [|apply is_mat_zeros2]. replace (zeros2 4 4) with (mscale 0 (zeros2 4 4)) by (cbn; list_eq; ring). rewrite quad_mscale. ring. }
  split.
  - intros i j Hi Hj. rewrite !msum_entry by auto. f_equal. apply map_ext_in. intros B HB. clear - H HB Hi Hj. induction H as [|s J l Js ((H1 & H2 & _) & _) H IH]; [destruct HB|]. destruct HB as [<-|HB]; [|auto]. exact (transpose_symmetric 4 J H1 H2 i j Hi Hj).
  - intros x Lx. rewrite E by auto. clear - H Lx. induction H as [|s J l Js ((H1 & H2 & H3) & _) H IH]; [cbn; lra|]. cbn [map]. unfold lsum in *. cbn [fold_right]. specialize (H3 x Lx). lra.
Qed.
Lemma body_parts ut b Ks v J d : Forall2 shape_is (bd_shapes b) Ks -> (forall s, In s (bd_shapes b) -> shape_proper s) -> pv_value v J -> is_mat 4 4 J -> symmetric 4 J -> (0 < d)%nat ->
  accepts (rb_moment_sdp_constraints ut b v 0 d) <-> exists Js, parts ut (bd_shapes b) d Js /\ J = msum 4 4 Js.
Proof.
  intros HF HP Hv HJ SJ Hd. destruct (body_cases ut b v 0 d) as [(s & Es & ->)|(NL & ->)].
  - rewrite Es in *. inversion HF as [|s' K l Ks' HK HF']; subst. assert (EV : rb_shape_constraints ut s v 0 d = rb_shape_constraints ut s (PVmat J) 0 d).
    { destruct s as [x|p|e|c|k]; cbn [rb_shape_constraints]; [apply (pvmat_poly _ v)|apply (pvmat_poly _ v)| |apply (pvmat_cyl _ v)|reflexivity]; auto; try lra.
      unfold ell_moment_constraints. now rewrite (pv_ok v J 0 Hv HJ (Rle_refl 0)), (pv_ok (PVmat J) J 0 eq_refl HJ (Rle_refl 0)). }
    rewrite EV. split.
    + intros (P & E & H). exists [J]. split; [|now rewrite msum_one]. constructor; [|constructor]. split; [|exists P; auto].
      destruct (shape_sdp_sound ut s K (PVmat J) J 0 d P HK (HP s (or_introl eq_refl)) eq_refl HJ SJ (Rle_refl 0) Hd E H) as (H' & _). apply PSD_var; [lia|exact H'].
    + intros (Js & H & EJ). inversion H as [|s1 J1 l1 Js1 (P1 & A1) H1]; subst. inversion H1; subst. rewrite msum_one by apply P1. exact A1.
  - rewrite (multi_iff ut _ Ks v J 0 d) by (auto; lra). split; [tauto|]. intros (Js & H & EJ). split; [eauto|]. rewrite EJ. apply psd_shift0. eapply parts_psd; eauto.
Qed.
Lemma msum_app Js Js' : (forall B, In B Js -> is_mat 4 4 B) -> (forall B, In B Js' -> is_mat 4 4 B) -> msum 4 4 (Js ++ Js') = madd (msum 4 4 Js) (msum 4 4 Js').
Proof.
  intros H1 H2. assert (HA : forall B, In B (Js ++ Js') -> is_mat 4 4 B) by (intros B HB; apply in_app_or in HB as []; auto).
  apply (mat_ext 4 4); [now apply msum_is_mat|apply is_mat_madd; now apply msum_is_mat|]. intros i j Hi Hj. rewrite (entry_madd _ _ 4 4), !msum_entry by (auto; now apply msum_is_mat). now rewrite map_app, IdentifyP.lsum_app'.
Qed.
Lemma rb_add_shapes b1 b2 b : rb_add b1 b2 = Ok b -> bd_shapes b = bd_shapes b1 ++ bd_shapes b2.
Proof. unfold rb_add, rb_init. intro E. apply bind_inv in E as (p & _ & E). cbn [bind] in E. now injection E as <-. Qed.
Lemma body_sum ut b1 b2 b Ks1 Ks2 d J : rb_add b1 b2 = Ok b -> Forall2 shape_is (bd_shapes b1) Ks1 -> Forall2 shape_is (bd_shapes b2) Ks2 ->
  (forall s, In s (bd_shapes b1 ++ bd_shapes b2) -> shape_proper s) -> (0 < d)%nat -> is_mat 4 4 J -> symmetric 4 J ->
  accepts (rb_moment_sdp_constraints ut b (PVmat J) 0 d) <->
  exists J1 J2, J = madd J1 J2 /\ PSD 4 J1 /\ PSD 4 J2 /\ accepts (rb_moment_sdp_constraints ut b1 (PVmat J1) 0 d) /\ accepts (rb_moment_sdp_constraints ut b2 (PVmat J2) 0 d).
Proof.
  intros E HF1 HF2 HP Hd HJ SJ. apply rb_add_shapes in E. assert (P1 : forall s, In s (bd_shapes b1) -> shape_proper s) by (intros; apply HP, in_or_app; auto). assert (P2 : forall s, In s (bd_shapes b2) -> shape_proper s) by (intros; apply HP, in_or_app; auto).
  assert (HF : Forall2 shape_is (bd_shapes b) (Ks1 ++ Ks2)) by (rewrite E; now apply Forall2_app). rewrite (body_parts ut b (Ks1 ++ Ks2) (PVmat J) J d) by (first [assumption|reflexivity|now rewrite E]). rewrite E. split.
  - intros (Js & H & EJ). apply Forall2_app_inv_l in H as (A1 & A2 & H1 & H2 & ->). exists (msum 4 4 A1), (msum 4 4 A2). pose proof (parts_mats _ _ _ _ H1). pose proof (parts_mats _ _ _ _ H2).
    pose proof (parts_psd _ _ _ _ H1) as (Q1 & Q2 & Q3). pose proof (parts_psd _ _ _ _ H2) as (Q1' & Q2' & Q3'). split; [now rewrite EJ, msum_app|]. split; [now split|]. split; [now split|]. split.
    + apply (body_parts ut b1 Ks1 _ (msum 4 4 A1)); auto; try reflexivity. eauto.
    + apply (body_parts ut b2 Ks2 _ (msum 4 4 A2)); auto; try reflexivity. eauto.
  - intros (J1 & J2 & EJ & (Q1 & Q2 & _) & (Q1' & Q2' & _) & H1 & H2). apply (body_parts ut b1 Ks1 _ J1) in H1 as (A1 & H1 & E1); auto; try reflexivity. apply (body_parts ut b2 Ks2 _ J2) in H2 as (A2 & H2 & E2); auto; try reflexivity.
    exists (A1 ++ A2). split; [now apply Forall2_app|]. rewrite msum_app; [now rewrite <- E1, <- E2|eapply parts_mats; eauto|eapply parts_mats; eauto].
Qed.
