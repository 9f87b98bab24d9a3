(** C87: the limit of the moment relaxations of every shape and of rigid bodies. *)
From Verif Require Import Base.Vec Base.VecFacts Spec.Basic Spec.Objects Spec.Realizable Spec.Moments Spec.Shapes Spec.ShapeObjects Spec.PolySpec Spec.Bodies
  Model.Util Model.Constraint Model.Inertial Model.Moment Model.Polydd Model.Poly Model.Box Model.Cylinder Model.Ellipsoid Model.Realize Model.RigidBody
  Proofs.Coord Proofs.LinAlg Proofs.MatAlg Proofs.UtilP Proofs.InertialP Proofs.Hull Proofs.BoxP Proofs.CylP Proofs.EllP Proofs.PolynomialP Proofs.BasisP Proofs.MomentP
  Proofs.Decomp Proofs.PimP Proofs.SdpP Proofs.SdpSound Proofs.SdpGap Proofs.VertexP Proofs.CylCustom Proofs.CylExact Proofs.PolyP Proofs.Compact Proofs.ClosestE Proofs.RealizeX Proofs.RigidP
  Proofs.QModule Proofs.QMeasure Proofs.QConc Proofs.Carath Proofs.SdpLimit.
From Coq Require Import Classical.

(** ** realizability is closed *)
Lemma compact_bounded K i : compact 3 K -> exists B, 0 < B /\ forall x, length x = 3%nat -> K x -> (i < 3)%nat -> Rabs (nth i x 0) <= B.
Proof.
  intro HK. apply NNPP. intro HX. destruct (HK (fun e z => (i < 3)%nat /\ / e <= Rabs (nth i z 0))) as (a & La & _ & Ha).
  - intros e e' z He (Hi & Hz). split; [exact Hi|]. eapply Rle_trans; [|exact Hz]. apply Rinv_le_contravar; lra.
  - intros e He. apply NNPP. intro HY. apply HX. exists (/ e). split; [now apply Rinv_0_lt_compat|]. intros x Lx Kx Hi. destruct (Rle_lt_dec (Rabs (nth i x 0)) (/ e)) as [|L]; [auto|].
    exfalso. apply HY. exists x. split; [exact Lx|]. split; [exact Kx|]. split; [exact Hi|lra].
  - pose proof (Rabs_pos (nth i a 0)) as P0. set (A := Rabs (nth i a 0)) in *. assert (He : 0 < / (A + 2)) by (apply Rinv_0_lt_compat; lra). destruct (Ha _ He) as (z & _ & _ & (Hi & Hz) & Nz).
    specialize (Nz i Hi). rewrite Rinv_inv in Hz. pose proof (Rabs_triang (nth i z 0 - nth i a 0) (nth i a 0)) as T. replace (nth i z 0 - nth i a 0 + nth i a 0) with (nth i z 0) in T by ring. fold A in T.
    assert (/ (A + 2) <= 1) by (rewrite <- Rinv_1; apply Rinv_le_contravar; lra). lra.
Qed.
Lemma compact_cube_bound K : compact 3 K -> exists r, 0 < r /\ forall x, length x = 3%nat -> K x -> QMeasure.in_cube r (vf x).
Proof.
  intro HK. destruct (compact_bounded K 0 HK) as (B0 & P0 & H0). destruct (compact_bounded K 1 HK) as (B1 & P1 & H1). destruct (compact_bounded K 2 HK) as (B2 & P2 & H2).
  exists (B0 + B1 + B2). split; [lra|]. intros x Lx Kx i Hi. unfold vf. destruct i as [|[|[|i]]]; try lia; [specialize (H0 x Lx Kx Hi)|specialize (H1 x Lx Kx Hi)|specialize (H2 x Lx Kx Hi)]; lra.
Qed.
Lemma closes_compact K : compact 3 K -> closes (fun _ x => K x) K.
Proof.
  intro HK. split; [intros e e' x _ H; exact H|]. intros a La H. destruct (HK (fun e z => near 3 e z a)) as (a' & La' & Ka' & Ha').
  - intros e e' z He Hz. apply (near_le _ e); [lra|exact Hz].
  - intros e He. destruct (H e He) as (x & Lx & Nx & Kx). exists x. auto.
  - replace a with a'; [exact Ka'|]. apply (nth_ext _ _ 0 0); [congruence|]. intros i Hi. rewrite La' in Hi. destruct (Req_EM_T (nth i a' 0) (nth i a 0)) as [|NE]; [auto|exfalso].
    set (q := Rabs (nth i a' 0 - nth i a 0)). assert (Q : 0 < q) by (apply Rabs_pos_lt; lra). destruct (Ha' (q / 3) ltac:(lra)) as (z & _ & _ & N1 & N2). specialize (N1 i Hi). specialize (N2 i Hi).
    apply abs_le_inv in N1, N2. assert (q <= 2 * (q / 3)) by (unfold q at 1; apply Rabs_le; lra). lra.
Qed.
Lemma pim_TJ s J u : pms_ok s -> pim_of s J -> In u mons2 -> integral s (fun x => evv x (pM u)) = TJ J u.
Proof.
  intros Ho (_ & HE) Hu. assert (G : forall i j v, (i < 4)%nat -> (j < 4)%nat -> (forall x : vec, length x = 3%nat -> mev (vf x) v = nth i (x ++ [1]) 0 * nth j (x ++ [1]) 0) -> integral s (fun x => evv x (pM v)) = entry J i j).
  { intros i j v Hi Hj E. rewrite HE by auto. unfold integral. f_equal. apply map_ext_in. intros wx Hwx. unfold evv, ev. rewrite lin_pM, E by (now apply Ho). ring. }
  unfold mons2 in Hu. cbn [In] in Hu. repeat (destruct Hu as [<-|Hu]; [apply G; [lia|lia|]; intros x Lx; destruct (len3_inv _ Lx) as (a & b & c & ->); cbn; ring|]). destruct Hu.
Qed.
Lemma realizable_closed K J : compact 3 K -> is_mat 4 4 J -> symmetric 4 J -> (forall e, 0 < e -> exists J', closeJ e J' J /\ realizable_J K J') -> realizable_J K J.
Proof.
  intros HK HJ SJ HX. destruct (compact_cube_bound K HK) as (r & Hr & Hb). assert (I0 : In (0, 0, 0)%nat mons2) by now left.
  assert (M0 : 0 <= entry J 3 3).
  { destruct (Rle_lt_dec 0 (entry J 3 3)) as [|L]; [auto|exfalso]. destruct (HX (- entry J 3 3 / 2) ltac:(lra)) as (J' & HC & HR). apply realizable_psd in HR.
    pose proof (fpsd_diag 4 (entry J') 3 (fpsd_of_PSD 4 J' HR) ltac:(lia)) as Q. specialize (HC 3%nat 3%nat ltac:(lia) ltac:(lia)). apply abs_le_inv in HC. lra. }
  destruct (limit_measure_gen _ _ r (map pM mons2) (lin (TJ J)) (entry J 3 3) (closes_compact K HK) Hr M0) as (nu & N1 & N2 & N3).
  - left. reflexivity.
  - rewrite lin_C. cbn [TJ]. ring.
  - intros d Hd. destruct (HX d Hd) as (J' & HC & (s & Ho & Hn & Hin & HP)). exists s. split; [intros wx Hwx; split; [now apply Hn|]; split; [now apply Ho|]; apply Hb; [now apply Ho|now apply Hin]|].
    split; [exact Hin|]. intros h Hh. apply in_map_iff in Hh as (u & <- & Hu). rewrite lin_pM, (pim_TJ s J' u Ho HP Hu), <- Rabs_Ropp. replace (- (TJ J u - TJ J' u)) with (TJ J' u - TJ J u) by ring. now apply TJ_close.
  - exists nu. split; [intros wx Hwx; apply N1; exact Hwx|]. split; [intros wx Hwx; apply N1; exact Hwx|]. split; [exact N2|].
    apply TJ_pim; auto. intros u Hu. rewrite N3 by (now apply in_map). apply lin_pM.
Qed.
(** ** polyhedra, boxes, cylinders *)
Lemma affine_small a b : length a = 3%nat -> (exists j, (j < 3)%nat /\ nth j a 0 <> 0) \/ b <> 0 -> pol_ok 3 (pol_affine a b 0) /\ exists deg, pol_degree (pol_affine a b 0) = Ok deg /\ (deg <= 2)%nat.
Proof.
  intros La H. split; [rewrite <- La; apply affine_ok|]. destruct (degree_bound (pol_affine a b 0) 1) as (deg & E & B).
  - apply affine_nonempty. now rewrite La.
  - intros kv Hk. eapply affine_in; eauto.
  - exists deg. split; [exact E|lia].
Qed.
Definition seq_accepts (F : mat -> nat -> res Prop) (J : mat) : Prop :=
  forall e D, 0 < e -> exists d J' P, (D <= d)%nat /\ (0 < d)%nat /\ is_mat 4 4 J' /\ symmetric 4 J' /\ closeJ e J' J /\ F J' d = Ok P /\ P.
Lemma faces_limit A b B J : (forall a, In a A -> length a = 3%nat) -> length b = length A -> faces_ok A b -> (exists x, length x = 3%nat /\ halfspaces A b x) ->
  (forall x i, length x = 3%nat -> halfspaces A b x -> Rabs (nth i x 0) <= B) -> is_mat 4 4 J -> symmetric 4 J ->
  seq_accepts (fun J' d => sdp_for J' (map2 (fun a b => pol_affine a b 0) A b) d) J -> realizable_J (halfspaces A b) J.
Proof.
  intros HA HL HF HX HB HJ SJ HS. destruct (faces_arch A b B HA HL HX HB) as (r & Ha). apply (realizable_mono (fun x => forall p, In p (map2 (fun a b => pol_affine a b 0) A b) -> 0 <= peval p x)).
  - intros x Lx H i Hi. assert (Hin : In (pol_affine (nth i A []) (nth i b 0) 0) (map2 (fun a b => pol_affine a b 0) A b)) by (apply p_polys_in; eauto). specialize (H _ Hin).
    rewrite affine_peval in H by (rewrite Lx; symmetry; apply HA; now apply nth_In). lra.
  - apply (sdp_limit_seq J _ r); auto.
    + intros p Hp. apply p_polys_in in Hp as (i & Hi & ->); [|exact HL]. apply affine_small; [apply HA, nth_In, Hi|apply HF, Hi].
    + intros e D He. destruct (HS e D He) as (d & J' & P & H1 & H2 & _ & _ & H3 & H4 & H5). exists d, J', P. auto.
Qed.
Lemma poly_limit p J eps : poly_agree 3 p -> faces_ok (p_A p) (p_b p) -> is_mat 4 4 J -> symmetric 4 J -> 0 <= eps ->
  seq_accepts (fun J' d => poly_moment_sdp_constraints p (PVmat J') eps d) J -> realizable_J (halfspaces (p_A p) (p_b p)) J.
Proof.
  intros (OK & Hag) HF HJ SJ Heps HS. destruct OK as (_ & _ & HA & Lb & V & EV & NV & LV).
  assert (LA : forall a, In a (p_A p) -> length a = 3%nat) by (intros a Ha; apply (proj1 (Forall_forall _ _) (proj2 HA) a Ha)).
  assert (PV : p_vertices p = V) by (unfold p_vertices, sf_vertices; now rewrite EV). destruct (hull_bounded 3 V LV) as (B & HB).
  apply (faces_limit _ _ B J); auto.
  - destruct V as [|v V']; [easy|]. exists v. assert (Lv : length v = 3%nat) by (apply LV; now left). split; [exact Lv|]. apply Hag; [exact Lv|]. rewrite PV. apply hull_vertex; [exact LV|now left].
  - intros x i Lx Hx. apply HB. rewrite <- PV. now apply Hag.
  - intros e D He. destruct (HS e D He) as (d & J' & P & H1 & H2 & M' & S' & H3 & H4 & H5). exists d, J', P. do 5 (split; [assumption|]). split; [|exact H5].
    unfold poly_moment_sdp_constraints in H4. apply bind_inv in H4 as (u & _ & H4). rewrite (pv_ok (PVmat J') J' eps eq_refl M' Heps) in H4. exact H4.
Qed.
Lemma box_set_bounded h Q c : is_mat 3 3 Q -> length c = 3%nat -> length h = 3%nat -> exists B, forall x i, length x = 3%nat -> box_set h Q c x -> Rabs (nth i x 0) <= B.
Proof.
  intros HQ Hc Hh. destruct (compact_cube_bound _ (compact_box h Q c HQ Hc Hh)) as (r & Hr & H). exists r. intros x i Lx Hx. destruct (lt_dec i 3) as [L|L]; [exact (H x Lx Hx i L)|].
  rewrite nth_overflow by lia. rewrite Rabs_R0. lra.
Qed.
Lemma box_limit h c r b J eps : box_init h c r = Ok b -> orthogonal 3 (pose_rot 3 r) -> is_mat 4 4 J -> symmetric 4 J -> 0 <= eps ->
  seq_accepts (fun J' d => poly_moment_sdp_constraints (b_poly b) (PVmat J') eps d) J -> realizable_J (box_set h (pose_rot 3 r) (pose_tr 3 c)) J.
Proof.
  intros Hb HQ HJ SJ Heps HS. destruct (box_faces h c r b Hb HQ) as (Hd & LA & HF & HL). pose proof (box_init_inv _ _ _ _ Hb) as (Lh & Ph & E1 & E2 & E3 & MQ & Lc & _). rewrite E3 in MQ. rewrite E2 in Lc.
  destruct (box_set_bounded h (pose_rot 3 r) (pose_tr 3 c) MQ Lc Lh) as (B & HB).
  apply (realizable_mono (halfspaces (p_A (b_poly b)) (p_b (b_poly b)))); [intros x Lx Hx; now apply (halfspaces_box h c r b)|].
  apply (faces_limit _ _ B J); auto.
  - exists (pose_tr 3 c). split; [exact Lc|]. apply (halfspaces_box h c r b); auto. exists (zeros 3). split.
    + clear - Lh Ph. split; [now rewrite Lh|]. intros i Hi. rewrite nth_zeros, Rabs_R0. apply Ph. lia.
    + revert MQ Lc. clear. generalize (pose_rot 3 r), (pose_tr 3 c). intros Q t MQ Lc. destruct_vecs. unfold move. cbn. list_eq; ring.
  - intros x i Lx Hx. apply HB; [exact Lx|]. now apply (halfspaces_box h c r b).
  - intros e D He. destruct (HS e D He) as (d & J' & P & H1 & H2 & M' & S' & H3 & H4 & H5). exists d, J', P. do 5 (split; [assumption|]). split; [|exact H5].
    unfold poly_moment_sdp_constraints in H4. apply bind_inv in H4 as (u & _ & H4). rewrite (pv_ok (PVmat J') J' eps eq_refl M' Heps) in H4. exact H4.
Qed.
Lemma cyl_toP c : exists p1 p2 p3, cyl_poly0s c = [p1; p2; p3] /\ toP p1 == (C (1 / 2 * c_length c) + pX 2)%P /\ toP p2 == (C (1 / 2 * c_length c) - pX 2)%P /\
  toP p3 == (C (c_radius c ^ 2) - pX 0 * pX 0 - pX 1 * pX 1)%P.
Proof.
  unfold cyl_poly0s. do 3 eexists. split; [reflexivity|].
  assert (ND2 : NoDup [[0; 0; 1]%nat; [0; 0; 0]%nat]) by (repeat constructor; cbn; intuition discriminate).
  assert (ND3 : NoDup [[2; 0; 0]%nat; [0; 2; 0]%nat; [0; 0; 0]%nat]) by (repeat constructor; cbn; intuition discriminate).
  split; [|split]; intro f; rewrite lin_toP, functional_init by assumption; unfold functional; cbn [map fst snd].
  - rewrite lin_add, lin_C, lin_pX. unfold lsum, tomon, xv. cbn [fold_right nth]. ring.
  - rewrite lin_sub, lin_C, lin_pX. unfold lsum, tomon, xv. cbn [fold_right nth]. ring.
  - rewrite !lin_sub, lin_C, !lin_mul, !lin_pX. unfold lsum, tomon, xv, mplus. cbn [fold_right nth Nat.add]. ring.
Qed.
Lemma qm_generator G g : In g G -> qm G g.
Proof. intro H. apply (qm_eq G (C 1 * C 1 * g)%P); [|now apply qm_gen]. rewrite <- C_mul. intro f. rewrite lin_Cmul. ring. Qed.
Lemma cyl_arch c : 0 <= c_length c -> 0 <= c_radius c -> exists r, arch (map toP (cyl_poly0s c)) r.
Proof.
  intros HL HR. destruct (cyl_toP c) as (p1 & p2 & p3 & -> & E1 & E2 & E3). set (G := map toP [p1; p2; p3]). set (h := 1 / 2 * c_length c) in *. set (R0 := c_radius c) in *.
  assert (G1 : qm G (C h + pX 2)%P) by (apply (qm_eq G (toP p1)); [exact E1|apply qm_generator; now left]).
  assert (G2 : qm G (C h - pX 2)%P) by (apply (qm_eq G (toP p2)); [exact E2|apply qm_generator; right; now left]).
  assert (G3 : qm G (C (R0 ^ 2) - pX 0 * pX 0 - pX 1 * pX 1)%P) by (apply (qm_eq G (toP p3)); [exact E3|apply qm_generator; do 2 right; now left]).
  assert (Hh : 0 <= h) by (unfold h; lra). exists (h + R0 + 1). split; [lra|]. intros i Hi.
  destruct i as [|[|[|i]]]; try lia.
  - apply (qm_eq G ((C (R0 ^ 2) - pX 0 * pX 0 - pX 1 * pX 1) + pX 1 * pX 1 + C ((h + R0 + 1) * (h + R0 + 1) - R0 ^ 2))%P).
    + rewrite C_sub. ring.
    + apply qm_add; [apply qm_add; [exact G3|apply qm_sq]|apply qm_const; nra].
  - apply (qm_eq G ((C (R0 ^ 2) - pX 0 * pX 0 - pX 1 * pX 1) + pX 0 * pX 0 + C ((h + R0 + 1) * (h + R0 + 1) - R0 ^ 2))%P).
    + rewrite C_sub. ring.
    + apply qm_add; [apply qm_add; [exact G3|apply qm_sq]|apply qm_const; nra].
  - apply qm_pm; [lra| |].
    + apply (qm_eq G ((C h - pX 2) + C (R0 + 1))%P); [|apply qm_add; [exact G2|apply qm_const; lra]]. replace (h + R0 + 1) with (h + (R0 + 1)) by ring. rewrite (C_add h). ring.
    + apply (qm_eq G ((C h + pX 2) + C (R0 + 1))%P); [|apply qm_add; [exact G1|apply qm_const; lra]]. replace (h + R0 + 1) with (h + (R0 + 1)) by ring. rewrite (C_add h). ring.
Qed.
Lemma cyl_polys2 c p : In p (cyl_poly0s c) -> pol_ok 3 p /\ exists deg, pol_degree p = Ok deg /\ (deg <= 2)%nat.
Proof. intro H. destruct (cyl_polys_small c 1 ltac:(lia) p H) as (H1 & deg & H2 & H3). split; [exact H1|]. exists deg. split; [exact H2|lia]. Qed.
Lemma cyl_polys_set c u : 0 <= c_radius c -> length u = 3%nat -> (forall p, In p (cyl_poly0s c) -> 0 <= peval p u) ->
  exists x y z, x * x + y * y <= c_radius c * c_radius c /\ Rabs z <= c_length c / 2 /\ u = [x; y; z].
Proof.
  intros HR Lu H. destruct (len3_inv _ Lu) as (x & y & z & ->). exists x, y, z. unfold cyl_poly0s in H.
  assert (ND2 : NoDup [[0; 0; 1]%nat; [0; 0; 0]%nat]) by (repeat constructor; cbn; intuition discriminate).
  assert (ND3 : NoDup [[2; 0; 0]%nat; [0; 2; 0]%nat; [0; 0; 0]%nat]) by (repeat constructor; cbn; intuition discriminate).
  pose proof (H _ (or_introl eq_refl)) as A1. pose proof (H _ (or_intror (or_introl eq_refl))) as A2. pose proof (H _ (or_intror (or_intror (or_introl eq_refl)))) as A3.
  rewrite pol_init_peval in A1, A2, A3 by assumption. unfold peval in A1, A2, A3. cbn in A1, A2, A3. split; [nra|]. split; [apply Rabs_le; lra|reflexivity].
Qed.
Lemma rsum_abs n f : Rabs (rsum n f) <= rsum n (fun i => Rabs (f i)).
Proof. induction n as [|n IH]; cbn [rsum]; [rewrite Rabs_R0; lra|]. eapply Rle_trans; [apply Rabs_triang|]. lra. Qed.
Lemma local_J_entry Q c J i j : is_mat 3 3 Q -> length c = 3%nat -> is_mat 4 4 J -> (i < 4)%nat -> (j < 4)%nat ->
  entry (local_J Q c J) i j = rsum 4 (fun b => rsum 4 (fun a => entry (inv_T Q c) i a * entry J a b) * entry (inv_T Q c) j b).
Proof.
  intros HQ Hc HJ Hi Hj. destruct (transform_inv_ok Q c HQ Hc) as (_ & MT). unfold local_J. assert (M1 : is_mat 4 4 (mat_mul (inv_T Q c) J)) by (apply (is_mat_mul 4 4 4); auto; lia).
  rewrite (entry_mm 4) by (auto; apply is_mat_transpose; auto; lia). apply rsum_ext. intros b Hb. rewrite (entry_mm 4) by auto. rewrite entry_transpose; [reflexivity|rewrite (is_mat_ncols 4 4); auto; lia].
Qed.
Lemma local_J_close Q c : is_mat 3 3 Q -> length c = 3%nat -> exists k, 0 < k /\ forall e J J', is_mat 4 4 J -> is_mat 4 4 J' -> closeJ e J' J -> closeJ (k * e) (local_J Q c J') (local_J Q c J).
Proof.
  intros HQ Hc. set (T := inv_T Q c).
  set (S := rsum 4 (fun a => rsum 4 (fun b => Rabs (entry T a b)))). assert (S0 : 0 <= S) by (unfold S; do 2 (apply rsum_nonneg; intros); apply Rabs_pos).
  assert (TS : forall a b, (a < 4)%nat -> (b < 4)%nat -> Rabs (entry T a b) <= S).
  { intros a b Ha Hb. unfold S. eapply Rle_trans; [|apply (rsum_term_le 4 (fun a => rsum 4 (fun b => Rabs (entry T a b))) a); [intros; apply rsum_nonneg; intros; apply Rabs_pos|exact Ha]].
    apply (rsum_term_le 4 (fun b => Rabs (entry T a b)) b); [intros; apply Rabs_pos|exact Hb]. }
  exists (16 * (S * S) + 1). split; [nra|]. intros e J J' HJ HJ' HC i j Hi Hj. rewrite !local_J_entry by auto. fold T. rewrite <- rsum_minus.
  assert (E0 : 0 <= e) by (eapply Rle_trans; [apply Rabs_pos|exact (HC 0%nat 0%nat ltac:(lia) ltac:(lia))]).
  eapply Rle_trans; [apply rsum_abs|]. apply Rle_trans with (rsum 4 (fun _ => 4 * (S * S * e))); [|rewrite rsum_const; change (INR 4) with (1 + 1 + 1 + 1); nra].
  apply rsum_le. intros b Hb. rewrite <- Rmult_minus_distr_r, <- rsum_minus, Rabs_mult. apply Rle_trans with ((4 * (S * e)) * S); [|nra].
  apply Rmult_le_compat; [apply Rabs_pos|apply Rabs_pos| |now apply TS]. eapply Rle_trans; [apply rsum_abs|]. apply Rle_trans with (rsum 4 (fun _ => S * e)); [|rewrite rsum_const; change (INR 4) with (1 + 1 + 1 + 1); nra].
  apply rsum_le. intros a Ha. rewrite <- Rmult_minus_distr_l, Rabs_mult. apply Rmult_le_compat; [apply Rabs_pos|apply Rabs_pos|now apply TS|now apply HC].
Qed.
Lemma cyl_limit L R0 ro co c J eps : cyl_init L R0 ro co = Ok c -> orthogonal 3 (pose_rot 3 ro) -> is_mat 4 4 J -> symmetric 4 J -> 0 <= eps ->
  seq_accepts (fun J' d => cyl_moment_sdp_constraints c (PVmat J') eps d) J -> realizable_J (cyl_set L R0 (pose_rot 3 ro) (pose_tr 3 co)) J.
Proof.
  intros Hc HQ HJ SJ Heps HS. pose proof (cyl_init_inv _ _ _ _ _ Hc) as (HL & HR & MQ & Lc & Ec). set (Q := pose_rot 3 ro) in *. set (t := pose_tr 3 co) in *.
  assert (EL : c_length c = L) by (rewrite Ec; reflexivity). assert (ER : c_radius c = R0) by (rewrite Ec; reflexivity).
  apply (realizable_unlocal _ (fun u => forall p, In p (cyl_poly0s c) -> 0 <= peval p u) Q t J HQ Lc HJ).
  { intros u Lu Hu. destruct (cyl_polys_set c u) as (x & y & z & H1 & H2 & ->); [lra|exact Lu|exact Hu|]. rewrite EL, ER in *. exists x, y, z. auto. }
  destruct (cyl_arch c) as (r & Ha); [lra|lra|]. apply (sdp_limit_seq _ _ r); auto.
  - now apply local_J_mat. - now apply local_J_sym. - intros p Hp. now apply (cyl_polys2 c).
  - intros e D He. destruct (local_J_close Q t MQ Lc) as (k & Hk & Hcl). destruct (HS (e / k) D ltac:(now apply Rdiv_lt_0_compat)) as (d & J' & P & H1 & H2 & M' & S' & H3 & H4 & H5).
    exists d, (local_J Q t J'), P. split; [exact H1|]. split; [exact H2|]. split.
    + replace e with (k * (e / k)) by (field; lra). now apply Hcl.
    + split; [|exact H5]. unfold cyl_moment_sdp_constraints in H4. rewrite (pv_ok (PVmat J') J' eps eq_refl M' Heps) in H4. cbn [bind fst] in H4.
      assert (Er : c_rot c = Q) by (rewrite Ec; reflexivity). assert (Et : c_center c = t) by (rewrite Ec; reflexivity). rewrite Er, Et in H4.
      rewrite (proj1 (transform_inv_ok Q t MQ Lc)) in H4. exact H4.
Qed.
(** ** any shape *)
Lemma shape_limit ut s K J eps : shape_is s K -> shape_proper s -> is_mat 4 4 J -> symmetric 4 J -> 0 <= eps ->
  seq_accepts (fun J' d => rb_shape_constraints ut s (PVmat J') eps d) J -> realizable_J K J.
Proof.
  intros HS HP HJ SJ Heps HA. pose proof (shape_compact s K HS) as HC. destruct HS as [h c r x Hb HQ|p Hp|h r c e He Lh HQ|L R r c x Hx HQ|L R r c x k Hx Hk HQ]; cbn [rb_shape_constraints shape_proper] in *.
  - eapply box_limit; eauto.
  - eapply poly_limit; eauto.
  - apply realizable_closed; auto. intros e0 He0. destruct (HA e0 0%nat He0) as (d & J' & P & _ & _ & M' & _ & H3 & H4 & H5). exists J'. split; [exact H3|].
    pose proof (ell_init_inv _ _ _ _ He) as (_ & Eh & _). rewrite Eh in HP. destruct (ell_x_constraints _ _ _ _ ut (PVmat J') J' eps He Lh HQ HP eq_refl M' Heps) as (P' & E' & H). rewrite H4 in E'. injection E' as <-. now apply H.
  - eapply cyl_limit; eauto.
  - destruct HP.
Qed.

(** ** rigid bodies made of several shapes *)
Lemma realizable_add K1 K2 A B : realizable_J K1 A -> realizable_J K2 B -> realizable_J (fun x => K1 x \/ K2 x) (madd A B).
Proof.
  intros (s & Ho & Hn & Hi & (MA & HA)) (s' & Ho' & Hn' & Hi' & (MB & HB)). exists (s ++ s'). split; [|split; [|split; [|split]]].
  - intros mp Hm. apply in_app_or in Hm as []; auto. - intros mp Hm. apply in_app_or in Hm as []; auto. - intros mp Hm. apply in_app_or in Hm as []; [left|right]; auto.
  - now apply is_mat_madd.
  - intros i j Hii Hj. rewrite (entry_madd _ _ 4 4), HA, HB by auto. rewrite map_app, lsum_app'. reflexivity.
Qed.
Lemma psd_entry_bound J i j : PSD 4 J -> (i < 4)%nat -> (j < 4)%nat -> Rabs (entry J i j) <= entry J 0 0 + entry J 1 1 + entry J 2 2 + entry J 3 3.
Proof.
  intros HP Hi Hj. destruct (decomp_exists 4 J HP) as (zs & _ & _ & HE). assert (D : forall k, (k < 4)%nat -> 0 <= entry J k k) by (intros; apply (fpsd_diag 4 (entry J)); [now apply fpsd_of_PSD|auto]).
  assert (B : Rabs (entry J i j) <= (entry J i i + entry J j j) / 2).
  { rewrite !HE by auto. clear. induction zs as [|z zs IH]; [cbn; rewrite Rabs_R0; lra|]. cbn [map]. rewrite !lsum_c. eapply Rle_trans; [apply Rabs_triang|].
    assert (Q : Rabs (nth i z 0 * nth j z 0) <= (nth i z 0 * nth i z 0 + nth j z 0 * nth j z 0) / 2) by (pose proof (Rle_0_sqr (nth i z 0 - nth j z 0)) as Q1; pose proof (Rle_0_sqr (nth i z 0 + nth j z 0)) as Q2; unfold Rsqr in Q1, Q2; apply Rabs_le; lra). lra. }
  pose proof (D 0%nat ltac:(lia)). pose proof (D 1%nat ltac:(lia)). pose proof (D 2%nat ltac:(lia)). pose proof (D 3%nat ltac:(lia)).
  destruct i as [|[|[|[|i]]]]; try lia; destruct j as [|[|[|[|j]]]]; try lia; lra.
Qed.
Definition vec16 (J : mat) : vec := map (fun k => entry J (k / 4) (k mod 4)) (seq 0 16).
Definition mat16 (a : vec) : mat := map (fun i => map (fun j => nth (4 * i + j) a 0) (seq 0 4)) (seq 0 4).
Lemma nth_vec16 J i j : (i < 4)%nat -> (j < 4)%nat -> nth (4 * i + j) (vec16 J) 0 = entry J i j.
Proof. intros Hi Hj. destruct i as [|[|[|[|i]]]]; try lia; destruct j as [|[|[|[|j]]]]; try lia; reflexivity. Qed.
Lemma entry_mat16 a i j : (i < 4)%nat -> (j < 4)%nat -> entry (mat16 a) i j = nth (4 * i + j) a 0.
Proof. intros Hi Hj. destruct i as [|[|[|[|i]]]]; try lia; destruct j as [|[|[|[|j]]]]; try lia; reflexivity. Qed.
Lemma inr_above e D : 0 < e -> exists e', 0 < e' <= e /\ forall d, / e' <= INR d -> (D <= d)%nat.
Proof.
  intro He. exists (Rmin e (/ (INR D + 1))). pose proof (pos_INR D). assert (P : 0 < / (INR D + 1)) by (apply Rinv_0_lt_compat; lra).
  split; [split; [now apply Rmin_pos|apply Rmin_l]|]. intros d Hd. apply INR_le. assert (INR D + 1 <= / Rmin e (/ (INR D + 1))); [|lra].
  rewrite <- (Rinv_inv (INR D + 1)) at 1. apply Rinv_le_contravar; [now apply Rmin_pos|apply Rmin_r].
Qed.
Definition multi_accepts (ut : bool) (shapes : list shp) (J : mat) : Prop :=
  forall e D, 0 < e -> exists d Js P, (D <= d)%nat /\ (0 < d)%nat /\ length Js = length shapes /\ Forall (cp_psd_var 4) Js /\
    all_constraints (fun s J => rb_shape_constraints ut s (PVmat J) 0 d) shapes Js = Ok P /\ P /\ closeJ e (msum 4 4 Js) J.
Lemma psd_var_mat Js B : Forall (cp_psd_var 4) Js -> In B Js -> is_mat 4 4 B /\ PSD 4 B.
Proof. intros HF HB. apply (proj1 (Forall_forall _ _) HF) in HB as (H1 & H2 & H3). split; [exact H1|]. split; [exact H1|]. split; [now apply transpose_symmetric|exact H3]. Qed.
Lemma multi_limit ut shapes Ks : Forall2 shape_is shapes Ks -> (forall s, In s shapes -> shape_proper s) ->
  forall J, is_mat 4 4 J -> symmetric 4 J -> multi_accepts ut shapes J -> realizable_J (union_of Ks) J.
Proof.
  induction 1 as [|s K l Ks HK HF IH]; intros HP J HJ SJ HA.
  - exists []. split; [intros ? []|]. split; [intros ? []|]. split; [intros ? []|]. split; [exact HJ|]. intros i j Hi Hj. cbn [map lsum fold_right].
    destruct (Req_EM_T (entry J i j) 0) as [|NE]; [auto|exfalso]. assert (Q : 0 < Rabs (entry J i j)) by now apply Rabs_pos_lt.
    destruct (HA (Rabs (entry J i j) / 2) 0%nat ltac:(lra)) as (d & Js & P & _ & _ & LJ & _ & _ & _ & HC). destruct Js; [|discriminate]. specialize (HC i j Hi Hj).
    unfold msum in HC. cbn [fold_left] in HC. rewrite entry_zeros2 in HC. replace (0 - entry J i j) with (- entry J i j) in HC by ring. rewrite Rabs_Ropp in HC. lra.
  - set (F := fun e z => exists d J1 Js P1 P2, / e <= INR d /\ (0 < d)%nat /\ length Js = length l /\ cp_psd_var 4 J1 /\ Forall (cp_psd_var 4) Js /\
      rb_shape_constraints ut s (PVmat J1) 0 d = Ok P1 /\ P1 /\ all_constraints (fun s J => rb_shape_constraints ut s (PVmat J) 0 d) l Js = Ok P2 /\ P2 /\
      closeJ (Rmin e 1) (msum 4 4 (J1 :: Js)) J /\ z = vec16 J1).
    set (tr := entry J 0 0 + entry J 1 1 + entry J 2 2 + entry J 3 3).
    destruct (pickn F 16 (tr + 4)) as (a & La & Ha).
    + intros e e' z He (d & J1 & Js & P1 & P2 & H1 & H2 & H3 & H4 & H5 & H6 & H7 & H8 & H9 & H10 & H11). exists d, J1, Js, P1, P2.
      split; [eapply Rle_trans; [apply Rinv_le_contravar; [|apply He]; lra|exact H1]|]. do 8 (split; [assumption|]). split; [|exact H11]. intros i j Hi Hj. eapply Rle_trans; [now apply H10|].
      apply Rle_min_compat_r. lra.
    + intros e He. destruct (archimed_cor1 e He) as (D & HD & D0). assert (De : / e <= INR D) by (apply lt_0_INR in D0; rewrite <- (Rinv_inv (INR D)); apply Rinv_le_contravar; [now apply Rinv_0_lt_compat|lra]).
      destruct (HA (Rmin e 1) D ltac:(apply Rmin_pos; lra)) as (d & Js & P & H1 & H2 & H3 & H4 & H5 & H6 & H7). destruct Js as [|J1 Js]; [discriminate|]. cbn [length] in H3. injection H3 as H3.
      apply Forall_cons_iff in H4 as (H4 & H4'). cbn [all_constraints] in H5. apply bind_inv in H5 as (P1 & E1 & H5). apply bind_inv in H5 as (P2 & E2 & H5). injection H5 as <-. destruct H6 as (HP1 & HP2).
      exists (vec16 J1), d, J1, Js, P1, P2. split; [eapply Rle_trans; [exact De|now apply le_INR]|]. auto 10.
    + intros e z k He (d & J1 & Js & P1 & P2 & H1 & H2 & H3 & H4 & H5 & H6 & H7 & H8 & H9 & H10 & ->) Hk.
      assert (HJs : Forall (cp_psd_var 4) (J1 :: Js)) by now constructor. destruct (psd_var_mat _ J1 HJs (or_introl eq_refl)) as (M1 & PS1).
      assert (Ek : nth k (vec16 J1) 0 = entry J1 (k / 4) (k mod 4)).
      { rewrite (Nat.div_mod k 4) at 1 by lia. apply nth_vec16; [apply Nat.div_lt_upper_bound; lia|apply Nat.mod_upper_bound; lia]. }
      rewrite Ek. eapply Rle_trans; [apply psd_entry_bound; [exact PS1|apply Nat.div_lt_upper_bound; lia|apply Nat.mod_upper_bound; lia]|].
      assert (Dg : forall i, (i < 4)%nat -> entry J1 i i <= entry J i i + 1).
      { intros i Hi. specialize (H10 i i Hi Hi). rewrite msum_entry in H10; [|intros B HB; now apply (psd_var_mat (J1 :: Js))|auto|auto]. cbn [map] in H10. rewrite lsum_c in H10.
        assert (N : 0 <= lsum (map (fun B => entry B i i) Js)).
        { apply lsum_nonneg. intros x Hx. apply in_map_iff in Hx as (B & <- & HB). apply (fpsd_diag 4 (entry B)); [|exact Hi]. apply fpsd_of_PSD. now apply (psd_var_mat Js). }
        pose proof (Rmin_r e 1). apply abs_le_inv in H10. lra. }
      pose proof (Dg 0%nat ltac:(lia)). pose proof (Dg 1%nat ltac:(lia)). pose proof (Dg 2%nat ltac:(lia)). pose proof (Dg 3%nat ltac:(lia)). unfold tr. lra.
    + set (J1 := mat16 a). assert (M1 : is_mat 4 4 J1) by (split; [reflexivity|repeat constructor]).
      assert (Near : forall z B, near 16 z (vec16 B) a -> closeJ z B J1).
      { intros z B HN i j Hi Hj. unfold J1. rewrite entry_mat16, <- nth_vec16 by auto. apply HN. lia. }
      assert (S1 : symmetric 4 J1).
      { intros i j Hi Hj. destruct (Req_EM_T (entry J1 i j) (entry J1 j i)) as [|NE]; [auto|exfalso]. set (q := Rabs (entry J1 i j - entry J1 j i)). assert (Q : 0 < q) by (apply Rabs_pos_lt; lra).
        destruct (Ha (q / 3) ltac:(lra)) as (z & (d & B & Js & P1 & P2 & _ & _ & _ & HB & _ & _ & _ & _ & _ & _ & ->) & Nz). apply Near in Nz. assert (TB : symmetric 4 B) by (apply transpose_symmetric; apply HB).
        pose proof (Nz i j Hi Hj) as N1. pose proof (Nz j i Hj Hi) as N2. rewrite (TB i j Hi Hj) in N1. apply abs_le_inv in N1, N2. assert (q <= 2 * (q / 3)) by (unfold q at 1; apply Rabs_le; lra). lra. }
      assert (R1 : realizable_J K J1).
      { apply (shape_limit ut s K J1 0 HK (HP s (or_introl eq_refl)) M1 S1 ltac:(lra)). intros e D He. destruct (inr_above e D He) as (e' & He' & HD).
        destruct (Ha e' ltac:(lra)) as (z & (d & B & Js & P1 & P2 & H1 & H2 & H3 & H4 & H5 & H6 & H7 & H8 & H9 & H10 & ->) & Nz). exists d, B, P1.
        split; [now apply HD|]. split; [exact H2|]. split; [apply H4|]. split; [apply transpose_symmetric; apply H4|]. split; [|split; [exact H6|exact H7]]. apply Near. apply (near_le _ e'); [lra|exact Nz]. }
      set (J2 := msub J J1). assert (M2 : is_mat 4 4 J2) by now apply is_mat_msub.
      assert (S2 : symmetric 4 J2) by (intros i j Hi Hj; unfold J2; rewrite !(entry_msub _ _ 4 4) by auto; rewrite (SJ i j), (S1 i j) by auto; reflexivity).
      assert (R2 : realizable_J (union_of Ks) J2).
      { apply IH; auto; [intros; apply HP; now right|]. intros e D He. destruct (inr_above (e / 2) D ltac:(lra)) as (e' & He' & HD).
        destruct (Ha e' ltac:(lra)) as (z & (d & B & Js & P1 & P2 & H1 & H2 & H3 & H4 & H5 & H6 & H7 & H8 & H9 & H10 & ->) & Nz). exists d, Js, P2. split; [now apply HD|]. do 5 (split; [assumption|]).
        apply Near in Nz. intros i j Hi Hj. specialize (Nz i j Hi Hj). specialize (H10 i j Hi Hj). assert (HJs : Forall (cp_psd_var 4) (B :: Js)) by now constructor.
        rewrite msum_entry by (auto; intros X HX; now apply (psd_var_mat Js)). rewrite msum_entry in H10 by (auto; intros X HX; now apply (psd_var_mat (B :: Js))). cbn [map] in H10. rewrite lsum_c in H10. unfold J2. rewrite (entry_msub _ _ 4 4) by auto.
        pose proof (Rmin_l e' 1). apply abs_le_inv in H10, Nz. apply Rabs_le. lra. }
      replace J with (madd J1 J2).
      * apply (realizable_mono (fun x => K x \/ union_of Ks x)); [|now apply realizable_add]. intros x _ [Hx|(K' & HK' & Hx)]; [exists K; split; [now left|exact Hx]|exists K'; split; [now right|exact Hx]].
      * apply (mat_ext 4 4); [now apply is_mat_madd|exact HJ|]. intros i j Hi Hj. rewrite (entry_madd _ _ 4 4) by auto. unfold J2. rewrite (entry_msub _ _ 4 4) by auto. ring.
Qed.

Lemma body_limit ut b Ks v J eps : Forall2 shape_is (bd_shapes b) Ks -> (forall s, In s (bd_shapes b) -> shape_proper s) ->
  pv_value v J -> is_mat 4 4 J -> symmetric 4 J -> 0 <= eps ->
  (forall D, exists d P, (D <= d)%nat /\ (0 < d)%nat /\ rb_moment_sdp_constraints ut b v eps d = Ok P /\ P) ->
  realizable_J (union_of Ks) J.
Proof.
  intros HF HP Hv HJ SJ Heps HX. assert (Z : closeJ 0 J J) by (intros i j _ _; rewrite Rminus_diag_eq, Rabs_R0 by reflexivity; lra).
  assert (CL : forall e, 0 < e -> closeJ e J J) by (intros e He i j Hi Hj; specialize (Z i j Hi Hj); lra).
  destruct (HX 0%nat) as (d0 & _). destruct (body_cases ut b v eps d0) as [(s & Es & _)|(NL & _)].
  - rewrite Es in *. inversion HF as [|s' K l Ks' HK HF']; subst. inversion HF'; subst. apply (realizable_mono K); [intros x _ Hx; exists K; split; [now left|exact Hx]|].
    apply (shape_limit ut s K J eps HK (HP s (or_introl eq_refl)) HJ SJ Heps). intros e D He. destruct (HX D) as (d & P & H1 & H2 & H3 & H4).
    unfold rb_moment_sdp_constraints in H3. rewrite Es in H3. exists d, J, P. split; [exact H1|]. split; [exact H2|]. do 2 (split; [assumption|]). split; [now apply CL|]. split; [|exact H4].
    rewrite <- H3. clear - Hv HJ Heps. destruct s; cbn [rb_shape_constraints]; try reflexivity;
    unfold ell_moment_constraints, poly_moment_sdp_constraints, cyl_moment_sdp_constraints; rewrite (pv_ok v J eps Hv HJ Heps), (pv_ok (PVmat J) J eps eq_refl HJ Heps); reflexivity.
  - apply (multi_limit ut (bd_shapes b) Ks HF HP J HJ SJ). intros e D He. destruct (HX D) as (d & P & H1 & H2 & H3 & H4). destruct (body_cases ut b v eps d) as [(s & Es & _)|(_ & E')]; [rewrite Es in NL; cbn in NL; lia|].
    rewrite E' in H3. unfold body_multi in H3. rewrite (pv_ok v J eps Hv HJ Heps) in H3. cbn [bind] in H3. apply bind_inv in H3 as (P0 & _ & E). injection E as <-.
    destruct H4 as (Js & Lj & FJ & (P & EP & HPP) & EJ & _). exists d, Js, P. do 6 (split; [assumption|]). rewrite <- EJ. now apply CL.
Qed.
