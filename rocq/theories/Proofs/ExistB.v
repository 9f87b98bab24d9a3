(** C95: limits of matrices accepted for the shapes of a body are accepted. *)
From Coq Require Import Classical.
From Verif Require Import Base.Vec Base.VecFacts Spec.Basic Spec.Objects Spec.Realizable Spec.Moments Spec.Shapes Spec.ShapeObjects Spec.PolySpec Spec.Bodies Spec.ExtremalSpec Spec.Geodesic Spec.Identify Spec.Cone
  Model.Util Model.Constraint Model.Inertial Model.Moment Model.Polydd Model.Poly Model.Box Model.Cylinder Model.Ellipsoid Model.Realize Model.RigidBody Model.Identify
  Proofs.Coord Proofs.LinAlg Proofs.MatAlg Proofs.UtilP Proofs.InertialP Proofs.BoxP Proofs.CylP Proofs.EllP Proofs.PolyP Proofs.PimP Proofs.VertexP Proofs.RealizeX Proofs.Hull Proofs.SdpP Proofs.MomentP Proofs.IdentifyP Proofs.Cone Proofs.ConeId
  Proofs.Compact Proofs.ClosestE Proofs.SdpLimit Proofs.SdpLimitB Proofs.SdpLimitW Proofs.SdpClosed Proofs.Exist.

(** ** one shape *)
Lemma poly_constraints_J p J d : p_dim p = 3%nat -> is_mat 4 4 J -> poly_moment_sdp_constraints p (PVmat J) 0 d = sdp_for J (p_polys p) d.
Proof. intros ED HJ. unfold poly_moment_sdp_constraints. rewrite ED, Nat.eqb_refl. cbn [assert_ bind]. rewrite (pv_ok (PVmat J) J 0 eq_refl HJ (Rle_refl 0)). reflexivity. Qed.
Definition not_cyl (s : shp) : Prop := match s with SCyl _ => False | _ => True end.
Lemma shape_closed ut s K J : shape_is s K -> shape_proper s -> not_cyl s -> is_mat 4 4 J -> symmetric 4 J ->
  (forall e, 0 < e -> exists J', closeJ e J' J /\ is_mat 4 4 J' /\ symmetric 4 J' /\ accepts (rb_shape_constraints ut s (PVmat J') 0 2)) -> accepts (rb_shape_constraints ut s (PVmat J) 0 2).
Proof.
  intros HS HP HC HJ SJ H. pose proof (shape_compact s K HS) as HK. destruct HS as [h c r b Hb HQ|p Hp|h r c e He Lh HQ|L R r c x Hx HQ|L R r c x k Hx Hk HQ]; cbn [rb_shape_constraints shape_proper not_cyl] in *; try tauto.
  - destruct (SdpP.box_faces h c r b Hb HQ) as (Hd & LA & HF & HL). pose proof (box_init_inv _ _ _ _ Hb) as (Lh & Ph & E1 & E2 & E3 & MQ & Lc & _). rewrite E3 in MQ. rewrite E2 in Lc.
    destruct (box_set_bounded h (pose_rot 3 r) (pose_tr 3 c) MQ Lc Lh) as (B & HB). rewrite poly_constraints_J by auto.
    apply (faces_closed (p_A (b_poly b)) (p_b (b_poly b)) B J); auto.
    + exists (pose_tr 3 c). split; [exact Lc|]. apply (halfspaces_box h c r b); auto. exists (zeros 3). split.
      * clear - Lh Ph. split; [now rewrite Lh|]. intros i Hi. rewrite nth_zeros, Rabs_R0. apply Ph. lia.
      * revert MQ Lc. clear. generalize (pose_rot 3 r), (pose_tr 3 c). intros Q t MQ Lc. destruct_vecs. unfold move. cbn. list_eq; ring.
    + intros x i Lx Hx. apply HB; [exact Lx|]. now apply (halfspaces_box h c r b).
    + intros e He. destruct (H e He) as (J' & C' & M' & S' & A'). exists J'. split; [exact C'|]. rewrite poly_constraints_J in A' by auto. exact A'.
  - destruct Hp as (OK & Hag). destruct (poly_ok_vertices _ _ OK) as (_ & _ & ED). destruct OK as (_ & _ & HA & Lb & V & EV & NV & LV).
    assert (LA : forall a, In a (p_A p) -> length a = 3%nat) by (intros a Ha; apply (proj1 (Forall_forall _ _) (proj2 HA) a Ha)).
    assert (PV : p_vertices p = V) by (unfold p_vertices, sf_vertices; now rewrite EV). destruct (hull_bounded 3 V LV) as (B & HB). rewrite poly_constraints_J by auto.
    apply (faces_closed (p_A p) (p_b p) B J); auto.
    + destruct V as [|v V']; [easy|]. exists v. assert (Lv : length v = 3%nat) by (apply LV; now left). split; [exact Lv|]. apply Hag; [exact Lv|]. rewrite PV. apply hull_vertex; [exact LV|now left].
    + intros x i Lx Hx. apply HB. rewrite <- PV. now apply Hag.
    + intros e He. destruct (H e He) as (J' & C' & M' & S' & A'). exists J'. split; [exact C'|]. rewrite poly_constraints_J in A' by auto. exact A'.
  - pose proof (ell_init_inv _ _ _ _ He) as (_ & Eh & _). rewrite Eh in HP. destruct (ell_x_constraints0 h r c e ut (PVmat J) J He Lh HQ HP eq_refl HJ) as (P & E & I). exists P. split; [exact E|]. apply I.
    apply realizable_closed; auto. intros d Hd. destruct (H d Hd) as (J' & C' & M' & S' & P' & E' & A'). exists J'. split; [exact C'|].
    destruct (ell_x_constraints0 h r c e ut (PVmat J') J' He Lh HQ HP eq_refl M') as (P2 & E2 & I2). rewrite E' in E2. injection E2 as <-. now apply I2.
Qed.
(** ** several shapes *)
Definition thof (J : mat) : vec := [entry J 3 3; entry J 0 3; entry J 1 3; entry J 2 3;
  entry J 1 1 + entry J 2 2; - entry J 0 1; - entry J 0 2; entry J 0 0 + entry J 2 2; - entry J 1 2; entry J 0 0 + entry J 1 1].
Lemma Jof_thof J : is_mat 4 4 J -> symmetric 4 J -> Jof (thof J) = J.
Proof.
  intros HJ SJ. pose proof (SJ 0%nat 1%nat ltac:(lia) ltac:(lia)) as S1. pose proof (SJ 0%nat 2%nat ltac:(lia) ltac:(lia)) as S2. pose proof (SJ 0%nat 3%nat ltac:(lia) ltac:(lia)) as S3.
  pose proof (SJ 1%nat 2%nat ltac:(lia) ltac:(lia)) as S4. pose proof (SJ 1%nat 3%nat ltac:(lia) ltac:(lia)) as S5. pose proof (SJ 2%nat 3%nat ltac:(lia) ltac:(lia)) as S6. clear SJ.
  destruct_vecs. unfold entry in *. cbn in *. subst. list_eq; field.
Qed.
Lemma zero_if_small x : (forall e, 0 < e -> Rabs x <= e) -> x = 0.
Proof. intro H. destruct (Req_dec x 0) as [|N]; [auto|]. pose proof (Rabs_pos_lt x N) as P. specialize (H (Rabs x / 2) ltac:(lra)). lra. Qed.
Lemma part_bound Js J i t : (forall B, In B Js -> PSD 4 B) -> J = msum 4 4 Js -> In t (map thof Js) -> (i < 10)%nat -> Rabs (nth i t 0) <= trace J.
Proof.
  intros HP -> Ht Hi. apply in_map_iff in Ht as (B & <- & HB). destruct (HP B HB) as (MB & SB & PB).
  eapply Rle_trans; [apply theta_bound; auto; rewrite Jof_thof by auto; now apply HP|]. rewrite Jof_thof by auto.
  assert (HM : forall B, In B Js -> is_mat 4 4 B) by (intros B' HB'; now apply HP).
  assert (TR : forall M, is_mat 4 4 M -> trace M = entry M 0 0 + entry M 1 1 + entry M 2 2 + entry M 3 3) by (intros M HM'; destruct_vecs; unfold trace, entry; cbn; ring).
  assert (MS : is_mat 4 4 (msum 4 4 Js)) by now apply msum_is_mat. rewrite !TR by auto. rewrite !msum_entry by (auto; lia).
  assert (D : forall k, (k < 4)%nat -> entry B k k <= lsum (map (fun B => entry B k k) Js)).
  { intros k Hk. clear - HB HP Hk. assert (P : forall B, In B Js -> 0 <= entry B k k).
    { intros B' HB'. destruct (HP B' HB') as (MB & _ & Q). clear - MB Q Hk. pose proof (Q [1;0;0;0] eq_refl) as Q0. pose proof (Q [0;1;0;0] eq_refl) as Q1. pose proof (Q [0;0;1;0] eq_refl) as Q2. pose proof (Q [0;0;0;1] eq_refl) as Q3. clear Q.
      destruct_vecs. unfold entry. cbn in *. destruct k as [|[|[|[|k]]]]; try lia; cbn; lra. }
    clear HP. induction Js as [|B' Js IH]; [destruct HB|]. cbn [map]. rewrite lsum_c. assert (N : 0 <= lsum (map (fun B => entry B k k) Js)).
    { clear - P. induction Js as [|C Js IH]; [cbn; lra|]. cbn [map]. rewrite lsum_c. pose proof (P C ltac:(right; now left)). specialize (IH ltac:(intros B [<-|HB]; apply P; [now left|right; now right])). lra. }
    pose proof (P B' ltac:(now left)). destruct HB as [->|HB]; [lra|]. specialize (IH HB ltac:(intros; apply P; now right)). lra. }
  pose proof (D 0%nat ltac:(lia)). pose proof (D 1%nat ltac:(lia)). pose proof (D 2%nat ltac:(lia)). pose proof (D 3%nat ltac:(lia)). lra.
Qed.
Lemma body_closed ut b Ks J : Forall2 shape_is (bd_shapes b) Ks -> (forall s, In s (bd_shapes b) -> shape_proper s /\ not_cyl s) -> is_mat 4 4 J -> symmetric 4 J ->
  (forall e, 0 < e -> exists J', closeJ e J' J /\ is_mat 4 4 J' /\ symmetric 4 J' /\ accepts (rb_moment_sdp_constraints ut b (PVmat J') 0 2)) -> accepts (rb_moment_sdp_constraints ut b (PVmat J) 0 2).
Proof.
  intros HF HPN HJ SJ H. assert (HP : forall s, In s (bd_shapes b) -> shape_proper s) by (intros; now apply HPN). apply (body_parts ut b Ks (PVmat J) J 2 HF HP eq_refl HJ SJ ltac:(lia)).
  set (shapes := bd_shapes b) in *. set (n := length shapes).
  assert (PP : forall Js, parts ut shapes 2 Js -> length Js = n /\ forall B, In B Js -> PSD 4 B).
  { intros Js HJs. split; [symmetry; unfold n; eapply IdentifyP.Forall2_len; eauto|]. intros B HB. clear - HJs HB. induction HJs as [|s J l Js (H1 & _) HJs IH]; [destruct HB|]. destruct HB as [<-|HB]; [|auto]. apply (psd_var_mat [J] J); [now constructor|now left]. }
  assert (TR : forall M, is_mat 4 4 M -> trace M = entry M 0 0 + entry M 1 1 + entry M 2 2 + entry M 3 3) by (intros M HM'; destruct_vecs; unfold trace, entry; cbn; ring).
  destruct (pickn (fun e z => exists Js J', parts ut shapes 2 Js /\ J' = msum 4 4 Js /\ is_mat 4 4 J' /\ closeJ (Rmin e 1) J' J /\ z = concat (map thof Js)) (10 * n) (trace J + 4)) as (z & Lz & Hz).
  - intros e e' z He (Js & J' & H1 & H2 & H3 & H4 & H5). exists Js, J'. do 3 (split; [auto|]). split; [|auto]. intros i j Hi Hj. eapply Rle_trans; [now apply H4|]. apply Rle_min_compat_r. lra.
  - intros e He. destruct (H (Rmin e 1) ltac:(apply Rmin_pos; lra)) as (J' & C' & M' & S' & A'). apply (body_parts ut b Ks (PVmat J') J' 2 HF HP eq_refl M' S' ltac:(lia)) in A' as (Js & HJs & EJ). exists (concat (map thof Js)), Js, J'. auto.
  - intros e z i He (Js & J' & H1 & H2 & H3 & H4 & ->) Hi. destruct (PP Js H1) as (L & P). assert (HT : trace J' <= trace J + 4).
    { rewrite !TR by auto. pose proof (Rmin_r e 1). pose proof (abs_le_inv _ _ (H4 0%nat 0%nat ltac:(lia) ltac:(lia))). pose proof (abs_le_inv _ _ (H4 1%nat 1%nat ltac:(lia) ltac:(lia))). pose proof (abs_le_inv _ _ (H4 2%nat 2%nat ltac:(lia) ltac:(lia))). pose proof (abs_le_inv _ _ (H4 3%nat 3%nat ltac:(lia) ltac:(lia))). lra. }
    eapply Rle_trans; [|exact HT]. pose proof (part_bound Js J') as PB.
    assert (T0 : 0 <= trace J') by (destruct (Nat.eq_dec n 0) as [N0|N0]; [lia|]; destruct Js as [|B Js]; [cbn in L; lia|]; eapply Rle_trans; [apply Rabs_pos|]; apply (PB 0%nat (thof B) P H2); [now left|lia]).
    assert (IC : forall l : list vec, (forall t x, In t l -> In x t -> Rabs x <= trace J') -> Rabs (nth i (concat l) 0) <= trace J').
    { intros l Hl. destruct (Nat.lt_ge_cases i (length (concat l))) as [C|C]; [|rewrite nth_overflow by auto; rewrite Rabs_R0; auto]. pose proof (nth_In (concat l) 0 C) as I. apply in_concat in I as (t & Ht & Hx). eauto. }
    apply IC. intros t x Ht Hx. apply (In_nth _ _ 0) in Hx as (k & Hk & <-). assert (Lt : length t = 10%nat) by (apply in_map_iff in Ht as (? & <- & _); reflexivity). apply (PB k t P H2 Ht). lia.
  - destruct (split10 n z Lz) as (a & La & Ta & <-).
    assert (HN : forall e, 0 < e -> exists Js J', parts ut shapes 2 Js /\ J' = msum 4 4 Js /\ is_mat 4 4 J' /\ closeJ e J' J /\ Forall2 (near 10 e) (map thof Js) a).
    { intros e He. destruct (Hz e He) as (z' & (Js & J' & H1 & H2 & H3 & H4 & ->) & Nz). exists Js, J'. do 3 (split; [auto|]). split; [intros i j Hi Hj; eapply Rle_trans; [now apply H4|apply Rmin_l]|].
      destruct (PP Js H1) as (L & _). apply near_concat; [apply Forall_forall; intros t Ht; now apply in_map_iff in Ht as (? & <- & _)|auto|rewrite map_length; congruence|]. now rewrite map_length, L. }
    assert (CL : forall e Js, 0 < e -> parts ut shapes 2 Js -> Forall2 (near 10 e) (map thof Js) a -> Forall2 (fun B t => closeJ (2 * e) B (Jof t)) Js a).
    { intros e Js He H1 H2. destruct (PP Js H1) as (_ & P). clear - H2 P Ta. revert a Ta H2. induction Js as [|B Js IH]; intros a Ta H2; inversion H2 as [|? t ? a' N N']; subst; constructor.
      - apply Forall_cons_iff in Ta as (Lt & _). destruct (P B ltac:(now left)) as (MB & SB & _). rewrite <- (Jof_thof B MB SB). now apply near_closeJ.
      - apply Forall_cons_iff in Ta as (_ & Ta). apply IH; auto. intros; apply P; now right. }
    exists (map Jof a). split.
    + assert (G : forall i ds dt, (i < n)%nat -> cp_psd_var 4 (Jof (nth i a dt)) /\ accepts (rb_shape_constraints ut (nth i shapes ds) (PVmat (Jof (nth i a dt))) 0 2)).
      { intros i ds dt Hi. assert (Lt : length (nth i a dt) = 10%nat) by (rewrite Forall_forall in Ta; apply Ta, nth_In; lia). destruct (Jof_ok _ Lt) as (_ & MA & SA).
        assert (HI : forall e, 0 < e -> exists B, closeJ e B (Jof (nth i a dt)) /\ PSD 4 B /\ accepts (rb_shape_constraints ut (nth i shapes ds) (PVmat B) 0 2)).
        { intros e He. destruct (HN (e / 2) ltac:(lra)) as (Js & J' & H1 & H2 & H3 & H4 & H5). pose proof (CL (e / 2) Js ltac:(lra) H1 H5) as C2. destruct (PP Js H1) as (L & P). exists (nth i Js []). split; [|split].
          - pose proof (F2_nth _ [] dt _ _ i C2 ltac:(lia)) as Q. cbv beta in Q. replace (2 * (e / 2)) with e in Q by field. exact Q.
          - apply P, nth_In. lia.
          - exact (proj2 (F2_nth _ ds [] _ _ i H1 Hi)). }
        split.
        - apply PSD_var; [lia|]. split; [auto|]. split; [auto|]. intros y Ly. assert (Q : 0 * dot y y <= quad (Jof (nth i a dt)) y); [|lra]. apply psd_closed; auto. intros e He.
          destruct (HN e He) as (Js & J' & H1 & H2 & H3 & H4 & H5). destruct (PP Js H1) as (L & P). destruct (P (nth i Js []) ltac:(apply nth_In; lia)) as (MB & SB & QB). exists (thof (nth i Js [])). split; [reflexivity|]. split.
          + pose proof (F2_nth _ (thof []) dt _ _ i H5 ltac:(rewrite map_length; lia)) as Q. now rewrite map_nth in Q.
          + intros x Lx. rewrite Jof_thof by auto. specialize (QB x Lx). lra.
        - assert (HK : exists K, shape_is (nth i shapes ds) K) by (exists (nth i Ks (fun _ => True)); exact (F2_nth _ ds _ _ _ i HF Hi)). destruct HK as (K & HK). destruct (HPN (nth i shapes ds) ltac:(apply nth_In; lia)) as (HP1 & HP2).
          apply (shape_closed ut _ K); auto. intros e He. destruct (HI e He) as (B & HB1 & (MB & SB & _) & HB2). exists B. auto. }
      clear - G La. unfold n in *. clear n. revert a La G. generalize shapes. clear. intro l. induction l as [|s l IH]; intros [|t a] La G; try discriminate; cbn [map]; constructor.
      * exact (G 0%nat s t ltac:(cbn; lia)).
      * apply IH; [cbn in La; lia|]. intros i ds dt Hi. exact (G (S i) ds dt ltac:(cbn; lia)).
    + assert (MA : forall B, In B (map Jof a) -> is_mat 4 4 B) by (intros B HB; apply in_map_iff in HB as (t & <- & Ht); rewrite Forall_forall in Ta; now apply Jof_ok, Ta).
      apply (mat_ext 4 4); [exact HJ|now apply msum_is_mat|]. intros i j Hi Hj. apply Rminus_diag_uniq, zero_if_small. intros e He.
      set (k := 1 + 2 * INR n). assert (Hk : 1 <= k) by (unfold k; pose proof (pos_INR n); lra). destruct (HN (e / k) ltac:(apply Rdiv_lt_0_compat; lra)) as (Js & J' & H1 & H2 & H3 & H4 & H5).
      pose proof (CL (e / k) Js ltac:(apply Rdiv_lt_0_compat; lra) H1 H5) as C2. destruct (PP Js H1) as (L & P). specialize (H4 i j Hi Hj). rewrite msum_entry by auto. rewrite map_map.
      assert (EJ : entry J' i j = lsum (map (fun B => entry B i j) Js)) by (rewrite H2; apply msum_entry; auto; intros B HB; now apply P).
      assert (NS : Rabs (lsum (map (fun B => entry B i j) Js) - lsum (map (fun t => entry (Jof t) i j) a)) <= INR n * (2 * (e / k))).
      { clear - C2 L Hi Hj. rewrite <- L. clear L. induction C2 as [|B t Js a C C2 IH]; [rewrite Rminus_diag_eq, Rabs_R0 by reflexivity; change (INR (@length mat [])) with 0; lra|]. cbn [map length]. rewrite !lsum_c, S_INR. specialize (C i j Hi Hj).
        replace (entry B i j + lsum (map (fun B => entry B i j) Js) - (entry (Jof t) i j + lsum (map (fun t => entry (Jof t) i j) a))) with ((entry B i j - entry (Jof t) i j) + (lsum (map (fun B => entry B i j) Js) - lsum (map (fun t => entry (Jof t) i j) a))) by ring.
        eapply Rle_trans; [apply Rabs_triang|]. lra. }
      rewrite <- EJ in NS. replace (entry J i j - lsum (map (fun x => entry (Jof x) i j) a)) with (- (entry J' i j - entry J i j) + (entry J' i j - lsum (map (fun x => entry (Jof x) i j) a))) by ring.
      eapply Rle_trans; [apply Rabs_triang|]. rewrite Rabs_Ropp. assert (EK : e / k * k = e) by (field; lra). unfold k in EK at 2. lra.
Qed.
