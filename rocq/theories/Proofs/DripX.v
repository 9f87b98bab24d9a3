(** C99: at order one the extreme value problems are unbounded; examples. *)
From Coq Require Import Classical.
From Verif Require Import Base.Vec Base.VecFacts Spec.Basic Spec.Objects Spec.Realizable Spec.Moments Spec.Shapes Spec.ShapeObjects Spec.PolySpec Spec.Bodies Spec.Quadratic Spec.Cone Spec.Extreme
  Model.Util Model.Constraint Model.Inertial Model.Moment Model.Polydd Model.Poly Model.Ellipsoid Model.Box Model.Cylinder Model.Realize Model.RigidBody Model.Drip
  Proofs.Coord Proofs.LinAlg Proofs.MatAlg Proofs.UtilP Proofs.InertialP Proofs.BoxP Proofs.CylP Proofs.PimP Proofs.Hull Proofs.PolynomialP Proofs.BasisP Proofs.SdpP Proofs.MomentP Proofs.VertexP Proofs.SdpSound Proofs.SdpGap Proofs.SdpGapW Proofs.SdpLimit Proofs.SdpLimitB Proofs.SdpLimitW Proofs.SdpClosed Proofs.DualBox Proofs.DualPoly Proofs.CylCustom Proofs.Compact Proofs.ClosestE Proofs.Exist Proofs.ExistB Proofs.Decomp Proofs.InertialT Proofs.RealizeE Proofs.RealizeX Proofs.RealizeW Proofs.CylExact Proofs.ClosestP Proofs.Cone Proofs.ShapesW Proofs.DripCut Proofs.Drip Proofs.DripV Proofs.DripW.

Definition ell1 (J : mat) (u : idx) : R := TJ J (tomon u).
Lemma order_one J polys : PSD 4 J -> (forall p, In p polys -> poly_small 1 p) ->
  (forall p deg, In p polys -> pol_degree p = Ok deg -> half_up deg = 1%nat /\ 0 <= functional (ell1 J) p) -> accepts (sdp_for J polys 1).
Proof.
  intros (MJ & SJ & PJ) Hp HF. apply (sdp_functional J polys 1 (ell1 J)); auto.
  - split; [apply (is_mat_square (fun a b => ell1 J (iadd a b)))|]. split; [apply hmat_sym|]. intros z Lz. change (length (basis_list 3 1)) with 4%nat in Lz. destruct (len4_inv _ Lz) as (a & b & c & d & ->).
    specialize (PJ [b; c; d; a] eq_refl). revert PJ.
    pose proof (SJ 0%nat 1%nat ltac:(lia) ltac:(lia)) as S1. pose proof (SJ 0%nat 2%nat ltac:(lia) ltac:(lia)) as S2. pose proof (SJ 0%nat 3%nat ltac:(lia) ltac:(lia)) as S3.
    pose proof (SJ 1%nat 2%nat ltac:(lia) ltac:(lia)) as S4. pose proof (SJ 1%nat 3%nat ltac:(lia) ltac:(lia)) as S5. pose proof (SJ 2%nat 3%nat ltac:(lia) ltac:(lia)) as S6. clear - MJ S1 S2 S3 S4 S5 S6.
    unfold hmat. rewrite basis_31. destruct_vecs. unfold quad, ell1, tomon, TJ, entry, dot in *. cbn in *. subst. lra.
  - rewrite basis_31. split; [reflexivity|]. split.
    + intros i Hi. destruct i as [|[|[|i]]]; try lia; reflexivity.
    + intros i j Hi Hj. destruct i as [|[|[|i]]], j as [|[|[|j]]]; try lia; try reflexivity; apply SJ; lia.
  - intros p deg Hin E. destruct (HF p deg Hin E) as (-> & H). change (1 - 1)%nat with 0%nat. assert (EB : basis_list 3 0 = [[0; 0; 0]%nat]) by reflexivity. rewrite EB.
    assert (El : lmat (ell1 J) p [[0; 0; 0]%nat] = [[functional (ell1 J) p]]).
    { unfold lmat. cbn [map]. do 2 f_equal. unfold functional. f_equal. apply map_ext_in. intros kv Hk. f_equal. destruct (Hp p Hin) as ((_ & Ok3) & _). assert (L3 : length (fst kv) = 3%nat) by (apply Ok3; exact Hk).
      destruct (fst kv) as [|x [|y [|w [|]]]]; try discriminate. unfold ell1, tomon. cbn. now rewrite !Nat.add_0_r. }
    rewrite El. split; [split; [reflexivity|repeat constructor]|]. split; [intros i j Hi Hj; cbn in Hi, Hj; destruct i, j; try lia; reflexivity|].
    intros z Lz. cbn in Lz. destruct z as [|x [|]]; try discriminate. unfold quad. cbn. pose proof (Rle_0_sqr x). unfold Rsqr in *. nra.
Qed.
(** the mass at x and a spread t along the vector e: the second moment is not limited at order one *)
Definition spread (m t : R) (e x : vec) : mat := madd (mscale m (outer (x ++ [1]) (x ++ [1]))) (mscale (m * t) (outer (e ++ [0]) (e ++ [0]))).
Lemma spread_ok m t e x : 0 <= m -> 0 <= t -> length e = 3%nat -> length x = 3%nat -> PSD 4 (spread m t e x) /\ entry (spread m t e x) 3 3 = m /\ (forall i, (i < 3)%nat -> entry (spread m t e x) i 3 = m * nth i x 0).
Proof.
  intros Hm Ht Le Lx. destruct (len3_inv e Le) as (e0 & e1 & e2 & ->). destruct (len3_inv x Lx) as (x0 & x1 & x2 & ->). split; [|split].
  - split; [split; [reflexivity|repeat constructor]|]. split; [intros i j Hi Hj; destruct i as [|[|[|[|i]]]]; try lia; destruct j as [|[|[|[|j]]]]; try lia; unfold spread, entry, outer; cbn; ring|].
    intros z Lz. destruct (len4_inv _ Lz) as (a & b & c & d & ->). pose proof (Rle_0_sqr (x0 * a + x1 * b + x2 * c + d)) as S1. pose proof (Rle_0_sqr (e0 * a + e1 * b + e2 * c)) as S2. unfold Rsqr in *.
    replace (quad (spread m t [e0; e1; e2] [x0; x1; x2]) [a; b; c; d]) with (m * ((x0 * a + x1 * b + x2 * c + d) * (x0 * a + x1 * b + x2 * c + d)) + m * t * ((e0 * a + e1 * b + e2 * c) * (e0 * a + e1 * b + e2 * c))) by (unfold quad, spread, outer; cbn; ring).
    pose proof (Rmult_le_pos m t Hm Ht). apply Rplus_le_le_0_compat; apply Rmult_le_pos; auto.
  - unfold spread, entry, outer; cbn; ring.
  - intros i Hi. destruct i as [|[|[|i]]]; try lia; unfold spread, entry, outer; cbn; ring.
Qed.
Lemma box_normal_nonzero h c r b i : box_init h c r = Ok b -> orthogonal 3 (pose_rot 3 r) -> (i < length (b_A b))%nat -> exists j, (j < 3)%nat /\ nth j (nth i (b_A b) []) 0 <> 0.
Proof.
  intros Hb HQ Hi. apply box_init_inv in Hb as (_ & _ & _ & _ & E3 & MQ & _ & E8 & _). rewrite E8, E3 in *. clear E8 E3. destruct HQ as (_ & Q1 & _). revert Q1 MQ Hi. generalize (pose_rot 3 r). intros Q Q1 MQ Hi.
  apply NNPP. intro X. assert (Z : forall j, (j < 3)%nat -> nth j (nth i (mat_mul box_normals (transpose Q)) []) 0 = 0) by (intros j Hj; apply NNPP; intro N; apply X; eauto). clear X.
  pose proof (Z 0%nat ltac:(lia)) as Z0. pose proof (Z 1%nat ltac:(lia)) as Z1. pose proof (Z 2%nat ltac:(lia)) as Z2. clear Z. destruct_vecs. cbn in Q1. injection Q1 as ? ? ? ? ? ? ? ? ?. cbn in Hi.
  destruct i as [|[|[|[|[|[|i]]]]]]; try lia; cbn in Z0, Z1, Z2; nra.
Qed.
Lemma box_order_one h c r b mass : box_init h c r = Ok b -> orthogonal 3 (pose_rot 3 r) -> 0 < mass ->
  forall D e, is_mat 4 4 D -> length e = 3%nat -> 0 < qdir D e -> forall w, exists v, w <= v /\ reached (box_drip_moment b mass 1) D v.
Proof.
  intros Hb HQ Hm D e HD Le He w. destruct (box_centre h c r b Hb HQ) as (Lc & Bc). set (x := pose_tr 3 c) in *. set (t := Rmax 0 ((w / mass - qval D x) / qdir D e)).
  assert (Ht : 0 <= t) by apply Rmax_l. destruct (spread_ok mass t e x ltac:(lra) Ht Le Lc) as (P1 & P2 & P3). exists (qint D (spread mass t e x)).
  assert (EQ : qint D (spread mass t e x) = mass * (qval D x + t * qdir D e)).
  { clearbody t. clearbody x. clear - HD Le Lc. destruct (len3_inv e Le) as (e0 & e1 & e2 & ->). destruct (len3_inv x Lc) as (x0 & x1 & x2 & ->). destruct_vecs. unfold qint, qval, qdir, quad, spread, outer. cbn. ring. }
  split.
  - rewrite EQ. assert (T : (w / mass - qval D x) / qdir D e <= t) by apply Rmax_r. apply (Rmult_le_compat_r (qdir D e)) in T; [|lra]. replace ((w / mass - qval D x) / qdir D e * qdir D e) with (w / mass - qval D x) in T by (field; lra).
    replace w with (mass * (w / mass)) by (field; lra). apply Rmult_le_compat_l; lra.
  - apply reached_iff. exists (spread mass t e x). split; [auto|]. split; [auto|]. split; [|auto]. destruct (SdpP.box_faces h c r b Hb HQ) as (Hd & LA & HF & HL). rewrite poly_constraints_J by (auto; apply P1).
    apply (proj2 (halfspaces_box h c r b x Hb HQ Lc)) in Bc. apply order_one; auto.
    + intros p Hp. apply p_polys_in in Hp as (i & Hi & ->); [|auto]. destruct (affine_small (nth i (p_A (b_poly b)) []) (nth i (p_b (b_poly b)) 0)) as (O & deg & F1 & F2); [apply LA, nth_In, Hi|apply HF, Hi|]. split; [exact O|]. exists deg. split; [exact F1|lia].
    + intros p deg Hp E. apply p_polys_in in Hp as (i & Hi & ->); [|auto]. assert (La : length (nth i (p_A (b_poly b)) []) = 3%nat) by (apply LA, nth_In, Hi). split.
      * eapply affine_half; [exact La| |exact E]. exact (box_normal_nonzero h c r b i Hb HQ Hi).
      * rewrite functional_affine by auto. unfold ell1, tomon. cbn [nth TJ]. rewrite P2, !P3 by lia. specialize (Bc i Hi). revert Bc La. generalize (nth i (p_A (b_poly b)) []), (nth i (p_b (b_poly b)) 0). intros a s Bc La.
        assert (EX : dot a x = nth 0 a 0 * nth 0 x 0 + nth 1 a 0 * nth 1 x 0 + nth 2 a 0 * nth 2 x 0) by (clear - La Lc; revert Lc; generalize x; intros y Ly; destruct (len3_inv a La) as (a0 & a1 & a2 & ->); destruct (len3_inv y Ly) as (y0 & y1 & y2 & ->); unfold dot; cbn; ring).
        rewrite EX in Bc. assert (0 <= mass * (s - (nth 0 a 0 * nth 0 x 0 + nth 1 a 0 * nth 1 x 0 + nth 2 a 0 * nth 2 x 0))) by (apply Rmult_le_pos; lra). lra.
Qed.
Lemma cyl_order_one L R0 ro co c mass : cyl_init L R0 ro co = Ok c -> orthogonal 3 (pose_rot 3 ro) -> 0 < mass ->
  forall D, is_mat 4 4 D -> 0 < qdir D (col 2 (pose_rot 3 ro)) -> forall w, exists v, w <= v /\ reached (cyl_drip_moment c mass 1) D v.
Proof.
  intros Hc HQ Hm D HD He w. pose proof (cyl_init_inv _ _ _ _ _ Hc) as (HL & HR & MQ & Lc & Ec). set (Q := pose_rot 3 ro) in *. set (x := pose_tr 3 co) in *. set (e := col 2 Q) in *. assert (Le : length e = 3%nat) by now apply col_length3.
  set (t := Rmax 0 ((w / mass - qval D x) / qdir D e)). assert (Ht : 0 <= t) by apply Rmax_l. destruct (spread_ok mass t e x ltac:(lra) Ht Le Lc) as (P1 & P2 & P3). exists (qint D (spread mass t e x)).
  assert (EQ : qint D (spread mass t e x) = mass * (qval D x + t * qdir D e)).
  { clearbody t. clearbody x. clearbody e. clear - HD Le Lc. destruct (len3_inv e Le) as (e0 & e1 & e2 & ->). destruct (len3_inv x Lc) as (x0 & x1 & x2 & ->). destruct_vecs. unfold qint, qval, qdir, quad, spread, outer. cbn. ring. }
  split.
  - rewrite EQ. assert (T : (w / mass - qval D x) / qdir D e <= t) by apply Rmax_r. apply (Rmult_le_compat_r (qdir D e)) in T; [|lra]. replace ((w / mass - qval D x) / qdir D e * qdir D e) with (w / mass - qval D x) in T by (field; lra).
    replace w with (mass * (w / mass)) by (field; lra). apply Rmult_le_compat_l; lra.
  - apply reached_iff. exists (spread mass t e x). split; [auto|]. split; [auto|]. split; [|auto]. unfold cyl_moment_sdp_constraints. rewrite (pv_ok (PVmat (spread mass t e x)) (spread mass t e x) 0 eq_refl (proj1 P1) (Rle_refl 0)). cbn [bind fst]. assert (Er : c_rot c = Q) by (rewrite Ec; reflexivity). assert (Et : c_center c = x) by (rewrite Ec; reflexivity). rewrite Er, Et.
    rewrite (proj1 (transform_inv_ok Q x MQ Lc)). cbn [bind]. fold (local_J Q x (spread mass t e x)). pose proof (local_J_psd' Q x _ MQ Lc P1) as P0.
    assert (EJ : local_J Q x (spread mass t e x) = [[0; 0; 0; 0]; [0; 0; 0; 0]; [0; 0; mass * t; 0]; [0; 0; 0; mass]]).
    { clearbody t. subst e. clearbody x. clear - HQ Lc. destruct HQ as (MQ & Q1 & _). assert (ET : mat_vec (mat_mul (transpose Q) Q) [0; 0; 1] = [0; 0; 1]) by (rewrite Q1; cbn; list_eq; ring).
      clearbody Q. clear Q1.
      assert (G : local_J Q x (spread mass t (col 2 Q) x) = madd (mscale mass (outer [0; 0; 0; 1] [0; 0; 0; 1])) (mscale (mass * t) (outer (mat_vec (mat_mul (transpose Q) Q) [0; 0; 1] ++ [0]) (mat_vec (mat_mul (transpose Q) Q) [0; 0; 1] ++ [0])))).
      { clear ET. destruct_vecs. unfold local_J, inv_T, spread, outer, col. cbn. list_eq; ring. }
      rewrite G, ET. unfold outer. cbn. list_eq; ring. }
    rewrite EJ in *. clear EJ. assert (ND2 : NoDup [[0; 0; 1]%nat; [0; 0; 0]%nat]) by (repeat constructor; cbn; intuition discriminate).
    assert (ND3 : NoDup [[2; 0; 0]%nat; [0; 2; 0]%nat; [0; 0; 0]%nat]) by (repeat constructor; cbn; intuition discriminate). apply order_one; auto; [apply cyl_polys_small; lia|].
    assert (H1 : forall tbl k v deg, In (k, v) tbl -> v <> 0 -> (0 < degree_of k)%nat -> NoDup (map fst tbl) -> (forall kv, In kv tbl -> (degree_of (fst kv) <= 2)%nat) -> pol_degree (pol_init tbl 0) = Ok deg -> half_up deg = 1%nat).
    { intros tbl k v deg Hin Nv Dk ND Hbd E. apply (small_degree (pol_init tbl 0)); [| |exact E].
      - exists (k, v). split; [|exact Dk]. rewrite pol_init_filter by exact ND. apply filter_In. split; [exact Hin|]. cbn [snd]. destruct (isclose 0 0 v 0) eqn:Ei; [apply isclose_zero in Ei; contradiction|reflexivity].
      - intros kv Hk. rewrite pol_init_filter in Hk by exact ND. apply filter_In in Hk as (Hk & _). auto. }
    intros p deg Hp E. unfold cyl_poly0s in Hp. assert (El : c_length c = L) by (rewrite Ec; reflexivity). assert (Erad : c_radius c = R0) by (rewrite Ec; reflexivity). rewrite El, Erad in Hp. assert (0 <= 1 / 2 * L * mass) by (apply Rmult_le_pos; lra). pose proof (pow2_ge_0 R0). assert (0 <= R0 ^ 2 * mass) by (apply Rmult_le_pos; lra).
    destruct Hp as [<-|[<-|[<-|[]]]].
    + split; [refine (H1 _ [0; 0; 1]%nat 1 deg _ _ _ _ _ E); [now left|lra|cbn; lia|exact ND2|]; intros kv [<-|[<-|[]]]; cbn; lia|]. rewrite functional_init by exact ND2. unfold functional, ell1, tomon, TJ, entry. cbn. cbn in *. lra.
    + split; [refine (H1 _ [0; 0; 1]%nat (-1) deg _ _ _ _ _ E); [now left|lra|cbn; lia|exact ND2|]; intros kv [<-|[<-|[]]]; cbn; lia|]. rewrite functional_init by exact ND2. unfold functional, ell1, tomon, TJ, entry. cbn. cbn in *. lra.
    + split; [refine (H1 _ [2; 0; 0]%nat (-1) deg _ _ _ _ _ E); [now left|lra|cbn; lia|exact ND3|]; intros kv [<-|[<-|[<-|[]]]]; cbn; lia|]. rewrite functional_init by exact ND3. unfold functional, ell1, tomon, TJ, entry. cbn. cbn in *. lra.
Qed.
(** ** the shapes of the script *)
Definition D_xx : mat := [[1; 0; 0; 0]; [0; 0; 0; 0]; [0; 0; 1; 0]; [0; 0; 0; 0]].
Lemma D_xx_ok : is_mat 4 4 D_xx /\ symmetric 4 D_xx.
Proof. split; [split; [reflexivity|repeat constructor]|]. intros i j Hi Hj; destruct i as [|[|[|[|i]]]]; try lia; destruct j as [|[|[|[|j]]]]; try lia; reflexivity. Qed.
Lemma D_xx_val x : length x = 3%nat -> qval D_xx x = nth 0 x 0 * nth 0 x 0 + nth 2 x 0 * nth 2 x 0.
Proof. intro L. destruct (len3_inv x L) as (a & b & c & ->). unfold qval, quad, D_xx. cbn. ring. Qed.
Lemma drip_example : forall ut, exists b c D, box_init [1 / 2; 1; 3 / 2] None None = Ok b /\ cyl_init 1 (1 / 2) None None = Ok c /\ orthogonal 3 (pose_rot 3 None) /\ (1 / 2 = 0 \/ / 100000000 < 1 / 2) /\ is_mat 4 4 D /\ symmetric 4 D /\
  largest_on (box_set [1 / 2; 1; 3 / 2] (pose_rot 3 None) (pose_tr 3 None)) D (5 / 2) /\ (forall i, (i < 3)%nat -> 0 <= qdir D (col i (pose_rot 3 None))) /\ drip_max (box_drip_custom b 1) D (5 / 2) /\
  largest_on (cyl_set 1 (1 / 2) (pose_rot 3 None) (pose_tr 3 None)) D (1 / 2) /\ drip_max (cyl_drip_custom ut c 1) D (1 / 2) /\ 0 < qdir D (col 2 (pose_rot 3 None)) /\
  (exists v, drip_value (box_drip_moment b 1 2) D v) /\ (exists v, drip_value (cyl_drip_moment c 1 3) D v).
Proof.
  intro ut. assert (HQ : orthogonal 3 (pose_rot 3 None)) by (apply orthogonal_eye; lia). assert (MQ : is_mat 3 3 (pose_rot 3 None)) by apply HQ.
  destruct (box_w_total [1 / 2; 1; 3 / 2] None None eq_refl) as (b & Hb); [intros [|[|[|i]]] Hi; try lia; cbn; lra|exact MQ|reflexivity|].
  destruct (cyl_w_total 1 (1 / 2) None None) as (c & Hc); [lra|lra|exact MQ|reflexivity|]. destruct D_xx_ok as (MD & SD).
  assert (HLb : largest_on (box_set [1 / 2; 1; 3 / 2] (pose_rot 3 None) (pose_tr 3 None)) D_xx (5 / 2)).
  { split.
    - exists [1 / 2; 0; 3 / 2]. split; [reflexivity|]. split; [|rewrite D_xx_val by reflexivity; cbn; field]. exists [1 / 2; 0; 3 / 2]. split; [|cbn [pose_rot pose_tr]; rewrite move_eye3 by reflexivity; cbn; list_eq; ring].
      split; [reflexivity|]. intros k Hk. cbn in Hk. destruct k as [|[|[|k]]]; try lia; cbn; apply Rabs_le; lra.
    - intros x Lx (u & (Lu & Hu) & ->). cbn [pose_rot pose_tr] in *. cbn in Lu. rewrite move_eye3 in * by (reflexivity || auto). rewrite D_xx_val by auto. destruct (len3_inv u Lu) as (a & b' & c' & ->).
      pose proof (Hu 0%nat ltac:(cbn; lia)) as U0. pose proof (Hu 2%nat ltac:(cbn; lia)) as U2. cbn in U0, U2. apply abs_le_inv in U0, U2. cbn. nra. }
  assert (HLc : largest_on (cyl_set 1 (1 / 2) (pose_rot 3 None) (pose_tr 3 None)) D_xx (1 / 2)).
  { split.
    - exists [1 / 2; 0; 1 / 2]. split; [reflexivity|]. split; [|rewrite D_xx_val by reflexivity; cbn; field]. exists (1 / 2), 0, (1 / 2). split; [lra|]. split; [apply Rabs_le; lra|]. cbn [pose_rot pose_tr]. rewrite move_eye3 by reflexivity. cbn. list_eq; ring.
    - intros p Lp (x & y & z & H & Hz & ->). cbn [pose_rot pose_tr] in *. rewrite move_eye3 in * by reflexivity. rewrite D_xx_val by auto. apply abs_le_inv in Hz. cbn. nra. }
  assert (CV : forall i, (i < 3)%nat -> 0 <= qdir D_xx (col i (pose_rot 3 None))) by (intros i Hi; destruct i as [|[|[|i]]]; try lia; unfold qdir, quad, D_xx; cbn; lra).
  exists b, c, D_xx. split; [exact Hb|]. split; [exact Hc|]. split; [exact HQ|]. split; [right; lra|]. split; [exact MD|]. split; [exact SD|]. split; [exact HLb|]. split; [exact CV|]. split; [|split; [exact HLc|split; [|split; [|split]]]].
  - destruct (box_custom_value _ None None b 1 D_xx _ Hb HQ ltac:(lra) MD HLb) as (v & HV & _ & HE). rewrite (HE CV), Rmult_1_l in HV. exact HV.
  - replace (1 / 2) with (1 * (1 / 2)) by ring. apply (cyl_custom_value 1 (1 / 2) None None c ut 1 D_xx); auto; [right; lra|lra].
  - unfold qdir, quad, D_xx; cbn; lra.
  - destruct (box_moment_value _ None None b 1 D_xx _ 2 Hb HQ ltac:(lra) MD HLb ltac:(lia)) as (v & HV & _). eauto.
  - destruct (cyl_moment_value _ _ None None c 1 D_xx _ 3 Hc HQ ltac:(lra) MD HLc ltac:(lia)) as (v & HV & _). eauto.
Qed.
Lemma tighter_refuted : exists b D v w2 w3, box_init [1 / 2; 1; 3 / 2] None None = Ok b /\ is_mat 4 4 D /\ symmetric 4 D /\
  drip_value (box_drip_custom b 1) D v /\ drip_value (box_drip_moment b 1 2) D w2 /\ drip_value (box_drip_moment b 1 3) D w3 /\ w2 < v /\ w3 < v.
Proof.
  assert (HQ : orthogonal 3 (pose_rot 3 None)) by (apply orthogonal_eye; lia). destruct (drip_example true) as (b & _ & _ & Hb & _). assert (Ph : forall i, (i < 3)%nat -> 0 < nth i [1 / 2; 1; 3 / 2] 0) by (intros [|[|[|i]]] Hi; try lia; cbn; lra).
  destruct (box_looser _ None None b 1 Hb HQ Ph ltac:(lra)) as (D & MD & SD & HL). destruct (largest_exists _ _ D (shape_is_box _ None None b Hb HQ) MD) as (q & Hq).
  destruct (box_custom_value _ None None b 1 D q Hb HQ ltac:(lra) MD Hq) as (v & (HV & _) & _). destruct (box_moment_value _ None None b 1 D q 2 Hb HQ ltac:(lra) MD Hq ltac:(lia)) as (w2 & H2 & _).
  destruct (box_moment_value _ None None b 1 D q 3 Hb HQ ltac:(lra) MD Hq ltac:(lia)) as (w3 & H3 & _). exists b, D, v, w2, w3. pose proof (HL 2%nat v w2 ltac:(lia) HV H2). pose proof (HL 3%nat v w3 ltac:(lia) HV H3). repeat split; auto; try apply MD; try apply HV; try apply H2; try apply H3; lra.
Qed.
Lemma incomparable_refuted : exists b c D, box_init [1; 1; 1] None None = Ok b /\ cyl_init 2 1 None None = Ok c /\ is_mat 4 4 D /\ symmetric 4 D /\ forall ut mass, 0 < mass ->
  drip_max (box_drip_custom b mass) D 0 /\ (exists w, drip_max (box_drip_moment b mass 2) D w /\ 0 < w) /\ drip_max (cyl_drip_custom ut c mass) D 0 /\ (exists w, drip_value (cyl_drip_moment c mass 2) D w /\ 0 < w).
Proof.
  assert (HQ : orthogonal 3 (pose_rot 3 None)) by (apply orthogonal_eye; lia). destruct s6_shapes as (_ & (b & Hb) & (c & Hc) & _). exists b, c, D_gap. destruct D_gap_ok as (MD & SD). split; [auto|]. split; [auto|]. split; [auto|]. split; [auto|]. intros ut mass Hm.
  destruct (box_gap_value b mass Hb Hm) as (B1 & B2). destruct (cyl_gap_value c ut mass Hc Hm) as (C1 & C2). split; [auto|]. split; [|split; [auto|]].
  - destruct (box_order_two _ None None b mass D_gap Hb HQ ltac:(lra) MD) as (w & HW). exists w. split; [auto|]. specialize (B2 w (proj1 HW)). lra.
  - destruct (largest_exists _ _ D_gap (shape_is_cyl 2 1 None None c Hc HQ) MD) as (q & Hq). destruct (cyl_moment_value _ _ None None c mass D_gap q 2 Hc HQ ltac:(lra) MD Hq ltac:(lia)) as (w & HW & _). exists w. split; [auto|]. specialize (C2 w HW). lra.
Qed.
