(** Schur complements and the [must_contain] constraints of ellipsoids and polyhedra (C31, C63). *)
From Verif Require Import Base.Vec Base.Ext Base.VecFacts Spec.Basic Spec.Shapes Spec.ShapeObjects
  Model.Util Model.Polydd Model.Poly Model.Ellipsoid Model.Box Model.Constraint Model.Cylinder
  Proofs.Coord Proofs.Hull Proofs.BoxP Proofs.EllP Proofs.InertialT Proofs.EllForms Proofs.ShapesW.

Lemma schur_border A b c : schur A b c = border A b b c.
Proof. unfold schur, block, hstack, column, border. rewrite map2_map_r. reflexivity. Qed.
Lemma schur_quad n A b c x s : is_mat n n A -> length b = n -> length x = n ->
  quad (schur A b c) (x ++ [s]) = quad A x + 2 * s * dot b x + c * s * s.
Proof. intros. rewrite schur_border, (border_quad n) by auto. ring. Qed.
Lemma schur_shape n A b c : is_mat n n A -> length b = n ->
  is_mat (S n) (S n) (schur A b c) /\
  (forall i j, (i < n)%nat -> (j < n)%nat -> entry (schur A b c) i j = entry A i j) /\
  (forall i, (i < n)%nat -> entry (schur A b c) i n = nth i b 0 /\ entry (schur A b c) n i = nth i b 0) /\
  entry (schur A b c) n n = c.
Proof.
  intros HA Hb. rewrite schur_border. split; [apply border_is_mat; auto|].
  assert (LA : length A = n) by apply HA.
  assert (R1 : forall i, (i < n)%nat -> nth i (border A b b c) [] = nth i A [] ++ [nth i b 0]).
  { intros i Hi. unfold border. rewrite app_nth1 by (rewrite map2_length; lia).
    rewrite (nth_indep _ [] ([] ++ [0])) by (rewrite map2_length; lia).
    rewrite (nth_map2 _ _ _ [] 0 ([] ++ [0])) by (auto; lia). reflexivity. }
  assert (R2 : nth n (border A b b c) [] = b ++ [c]).
  { unfold border. rewrite app_nth2 by (rewrite map2_length; lia).
    rewrite map2_length, LA, Hb, Nat.min_id, Nat.sub_diag. reflexivity. }
  unfold entry. split; [|split].
  - intros i j Hi Hj. rewrite R1 by auto. rewrite app_nth1; [reflexivity|]. rewrite (is_mat_row n n); auto.
  - intros i Hi. rewrite R1, R2 by auto. split.
    + rewrite app_nth2 by (rewrite (is_mat_row n n); auto). rewrite (is_mat_row n n), Nat.sub_diag by auto. reflexivity.
    + rewrite app_nth1 by lia. reflexivity.
  - rewrite R2, app_nth2 by lia. rewrite Hb, Nat.sub_diag. reflexivity.
Qed.
Lemma schur_pos n A b c : is_mat n n A -> length b = n -> 0 < c ->
  ((forall z, length z = S n -> 0 <= quad (schur A b c) z) <->
   (forall x, length x = n -> 0 <= quad (msub A (mscale (/ c) (outer b b))) x)).
Proof.
  intros HA Hb Hc.
  assert (MO : is_mat n n (mscale (/ c) (outer b b))) by (apply is_mat_mscale; rewrite <- Hb; apply is_mat_outer).
  assert (Q : forall x, length x = n -> quad (msub A (mscale (/ c) (outer b b))) x = quad A x - / c * (dot b x * dot b x)).
  { intros x Hx. rewrite (quad_msub n n) by auto. rewrite quad_mscale, quad_outer. reflexivity. }
  split.
  - intros H x Hx. rewrite Q by auto. specialize (H (x ++ [- (/ c * dot b x)])).
    rewrite app_length, Hx in H. cbn in H. rewrite (schur_quad n) in H by auto.
    specialize (H ltac:(lia)).
    replace (quad A x - / c * (dot b x * dot b x)) with
      (quad A x + 2 * - (/ c * dot b x) * dot b x + c * - (/ c * dot b x) * - (/ c * dot b x)) by (field; lra). exact H.
  - intros H z Hz. destruct (border_split n z Hz) as (x & s & -> & Hx). rewrite (schur_quad n) by auto.
    specialize (H x Hx). rewrite Q in H by auto.
    replace (quad A x + 2 * s * dot b x + c * s * s) with
      (quad A x - / c * (dot b x * dot b x) + c * ((s + / c * dot b x) * (s + / c * dot b x))) by (field; lra).
    pose proof (sqr_nonneg (s + / c * dot b x)). apply Rplus_le_le_0_compat; [exact H|]. apply Rmult_le_pos; lra.
Qed.
Lemma schur_zero n A b : is_mat n n A -> length b = n ->
  ((forall z, length z = S n -> 0 <= quad (schur A b 0) z) <->
   ((forall x, length x = n -> 0 <= quad A x) /\ b = zeros n)).
Proof.
  intros HA Hb. split.
  - intro H. assert (H1 : forall x, length x = n -> 0 <= quad A x).
    { intros x Hx. specialize (H (x ++ [0])). rewrite app_length, Hx in H. cbn in H.
      rewrite (schur_quad n) in H by auto. specialize (H ltac:(lia)). lra. }
    split; [exact H1|]. rewrite <- Hb. apply dot_self_zero.
    pose proof (dot_self_nonneg b) as P. destruct (Req_dec (dot b b) 0) as [E|E]; [exact E|exfalso].
    specialize (H (b ++ [- (quad A b + 1) / (2 * dot b b)])). rewrite app_length, Hb in H. cbn in H.
    rewrite (schur_quad n) in H by auto. specialize (H ltac:(lia)).
    replace (2 * (- (quad A b + 1) / (2 * dot b b)) * dot b b) with (- (quad A b + 1)) in H by (field; lra). lra.
  - intros [H ->] z Hz. destruct (border_split n z Hz) as (x & s & -> & Hx).
    rewrite (schur_quad n) by auto. rewrite dot_zeros_l. specialize (H x Hx). lra.
Qed.
Lemma schur_neg n A b c : is_mat n n A -> length b = n -> c < 0 ->
  ~ (forall z, length z = S n -> 0 <= quad (schur A b c) z).
Proof.
  intros HA Hb Hc H. specialize (H (zeros n ++ [1])). rewrite app_length, zeros_length in H. cbn in H.
  rewrite (schur_quad n) in H by (auto using zeros_length). specialize (H ltac:(lia)).
  unfold quad in H. rewrite dot_zeros_l, dot_zeros_r in H. lra.
Qed.

(** ** the dual description of h o (unit ball) *)
Definition hz (h z : vec) : R := lsum (map2 (fun h z => (h * z) * (h * z)) h z).
Lemma hz_dot h z : hz h z = dot (vmul h z) (vmul h z).
Proof. unfold hz, dot, vmul. revert z; induction h as [|a h IH]; intros [|x z]; cbn; auto. f_equal. apply IH. Qed.
Definition unh (h r : vec) : vec := map2 (fun h r => if Req_EM_T h 0 then 0 else r / h) h r.
Lemma dual_ball h r : length r = length h ->
  ((forall z, length z = length h -> dot r z * dot r z <= hz h z) <->
   exists u, length u = length h /\ dot u u <= 1 /\ r = vmul h u).
Proof.
  intro L. split.
  - intro H.
    assert (Z : forall i, (i < length h)%nat -> nth i h 0 = 0 -> nth i r 0 = 0).
    { intros i Hi Hh. set (z := map (fun j => if Nat.eqb i j then 1 else 0) (seq 0 (length h))).
      assert (Lz : length z = length h) by (unfold z; rewrite map_length, seq_length; reflexivity).
      assert (Nz : forall j, (j < length h)%nat -> nth j z 0 = if Nat.eqb i j then 1 else 0)
        by (intros j Hj; unfold z; rewrite nth_map_seq; auto).
      specialize (H z Lz). rewrite hz_dot in H.
      assert (E0 : vmul h z = zeros (length h)).
      { apply (vec_ext (length h)); [rewrite vmul_length; auto|apply zeros_length|]. intros j Hj.
        rewrite nth_vmul, nth_zeros, Nz by auto. destruct (Nat.eqb_spec i j); [subst; rewrite Hh; ring|ring]. }
      rewrite E0, dot_zeros_l in H. rewrite (dot_rsum (length h)) in H by auto.
      rewrite (rsum_ext _ _ (fun j => if Nat.eqb j i then nth j r 0 else 0)) in H.
      2:{ intros j Hj. rewrite Nz by auto. rewrite (Nat.eqb_sym j i). destruct (Nat.eqb_spec i j); ring. }
      rewrite rsum_delta in H by auto. pose proof (sqr_nonneg (nth i r 0)).
      destruct (Req_dec (nth i r 0) 0) as [E|E]; [exact E|]. assert (0 < nth i r 0 * nth i r 0); [|lra].
      apply Rsqr_pos_lt in E. exact E. }
    assert (Lu : length (unh h r) = length h) by (unfold unh; rewrite map2_length; lia).
    assert (Nu : forall i, (i < length h)%nat -> nth i (unh h r) 0 = if Req_EM_T (nth i h 0) 0 then 0 else nth i r 0 / nth i h 0).
    { intros i Hi. unfold unh. rewrite (nth_map2 _ _ _ 0 0); [reflexivity|congruence|]. destruct (Req_EM_T 0 0); [reflexivity|congruence]. }
    exists (unh h r). split; [exact Lu|]. split.
    2:{ apply (vec_ext (length h)); [auto|rewrite vmul_length; auto|]. intros i Hi.
        rewrite nth_vmul by auto. rewrite Nu by auto. destruct (Req_EM_T (nth i h 0) 0) as [E|E].
        - rewrite (Z i Hi E). ring.
        - field. exact E. }
    set (u := unh h r) in *. set (z := unh h u).
    assert (Lz : length z = length h) by (unfold z, unh; rewrite map2_length; lia).
    assert (Nz : forall i, (i < length h)%nat -> nth i z 0 = if Req_EM_T (nth i h 0) 0 then 0 else nth i u 0 / nth i h 0).
    { intros i Hi. unfold z, unh. rewrite (nth_map2 _ _ _ 0 0); [reflexivity|congruence|]. destruct (Req_EM_T 0 0); [reflexivity|congruence]. }
    specialize (H z Lz). rewrite hz_dot in H.
    assert (E1 : vmul h z = u).
    { apply (vec_ext (length h)); [rewrite vmul_length; auto|auto|]. intros i Hi. rewrite nth_vmul by auto.
      rewrite Nz, Nu by auto. destruct (Req_EM_T (nth i h 0) 0) as [E|E]; [ring|field; auto]. }
    rewrite E1 in H.
    assert (E2 : dot r z = dot u u).
    { rewrite !(dot_rsum (length h)) by auto. apply rsum_ext. intros i Hi. rewrite Nz, Nu by auto.
      destruct (Req_EM_T (nth i h 0) 0) as [E|E]; [ring|field; auto]. }
    rewrite E2 in H. pose proof (dot_self_nonneg u). nra.
  - intros (u & Lu & Hu & ->) z Lz. rewrite hz_dot.
    assert (E : dot (vmul h u) z = dot u (vmul h z)).
    { rewrite !(dot_rsum (length h)) by (auto; rewrite vmul_length; auto). apply rsum_ext. intros i Hi.
      rewrite !nth_vmul by auto. ring. }
    rewrite E. pose proof (cauchy_schwarz u (vmul h z)). pose proof (dot_self_nonneg (vmul h z)).
    assert (dot u u * dot (vmul h z) (vmul h z) <= 1 * dot (vmul h z) (vmul h z)); [|lra].
    apply Rmult_le_compat_r; auto.
Qed.
Lemma quad_diag_hz s h z : length z = length h -> quad (mscale s (diag (vsq h))) z = s * hz h z.
Proof.
  intro L. rewrite quad_mscale. f_equal. unfold quad. rewrite mat_vec_diag by (rewrite vsq_length; auto).
  unfold dot, vmul, vsq, hz. revert z L; induction h as [|a h IH]; intros [|x z] L; cbn in L; try discriminate; cbn; auto.
  f_equal; [ring|]. apply IH. lia.
Qed.

(** ** ellipsoids *)
Section EllMC.
Variables (h : vec) (r : option mat) (c : option vec) (e : Ell).
Hypothesis He : ell_init h r c = Ok e.
Hypothesis Hh : h <> [].
Hypothesis HQ : orthogonal (length h) (pose_rot (length h) r).
Variable p : vec.
Hypothesis Hp : length p = length h.
Lemma emc_facts : e_half e = h /\ e_rot e = pose_rot (length h) r /\ e_center e = pose_tr (length h) c /\
  e_dim e = length h /\ length (e_center e) = length h /\ (0 < length h)%nat.
Proof.
  pose proof (ell_args _ _ _ _ He) as (_ & E1 & E2 & E3 & E4). pose proof (ell_init_inv _ _ _ _ He) as (_ & _ & _ & _ & _ & H6).
  repeat split; auto. destruct h; [congruence|cbn; lia].
Qed.
Lemma emc_pos s : 0 < s -> (ell_must_contain e p s <->
  ell_set h (pose_rot (length h) r) (pose_tr (length h) c) (vscale (/ s) p)).
Proof.
  intro Hs. destruct emc_facts as (E1 & E2 & E3 & E4 & E5 & Hn). unfold ell_must_contain, cp_psd.
  rewrite E1, E4, <- E3. rewrite E2. set (Q := pose_rot (length h) r) in *.
  set (q := mat_vec (transpose Q) (vsub p (vscale s (e_center e)))).
  assert (MQ : is_mat (length h) (length h) Q) by apply HQ.
  pose proof (is_mat_transpose _ _ _ MQ Hn) as MT.
  assert (Lq : length q = length h) by (unfold q; rewrite mat_vec_length; apply MT).
  assert (MD : is_mat (length h) (length h) (mscale s (diag (vsq h)))).
  { apply is_mat_mscale. rewrite <- (vsq_length h) at 1 2. apply is_mat_diag. }
  rewrite Nat.add_1_r, (schur_pos (length h)) by auto.
  assert (D : (forall x, length x = length h ->
     0 <= quad (msub (mscale s (diag (vsq h))) (mscale (/ s) (outer q q))) x) <->
    (forall z, length z = length h -> dot (vscale (/ s) q) z * dot (vscale (/ s) q) z <= hz h z)).
  { split; intros H z Hz; specialize (H z Hz);
    (assert (QE : quad (msub (mscale s (diag (vsq h))) (mscale (/ s) (outer q q))) z = s * (hz h z - dot (vscale (/ s) q) z * dot (vscale (/ s) q) z)) by
      (rewrite (quad_msub (length h) (length h)) by (auto; apply is_mat_mscale; rewrite <- Lq; apply is_mat_outer);
       rewrite quad_diag_hz, quad_mscale, quad_outer, dot_vscale_l by auto; field; lra)).
    - rewrite QE in H. assert (0 <= / s * (s * (hz h z - dot (vscale (/ s) q) z * dot (vscale (/ s) q) z))).
      { apply Rmult_le_pos; [left; apply Rinv_0_lt_compat; lra|exact H]. }
      rewrite <- Rmult_assoc, Rinv_l, Rmult_1_l in H0 by lra. lra.
    - rewrite QE. apply Rmult_le_pos; lra. }
  rewrite D, dual_ball by (rewrite vscale_length; auto). unfold ell_set.
  assert (EQ : vscale (/ s) q = mat_vec (transpose Q) (vsub (vscale (/ s) p) (e_center e))).
  { unfold q. rewrite <- mat_vec_vscale. f_equal. rewrite vscale_vsub by (rewrite vscale_length; congruence).
    rewrite vscale_vscale, Rinv_l, vscale_1 by lra. reflexivity. }
  split; intros (u & Lu & Hu & E); exists u; (split; [exact Lu|]); (split; [exact Hu|]).
  - apply (move_inv (length h)); auto; rewrite ?vmul_length, ?vscale_length; auto. congruence.
  - apply (move_inv (length h)) in E; auto; rewrite ?vmul_length, ?vscale_length; auto. congruence.
Qed.
Lemma emc_zero : ell_must_contain e p 0 <-> p = zeros (length h).
Proof.
  destruct emc_facts as (E1 & E2 & E3 & E4 & E5 & Hn). unfold ell_must_contain, cp_psd.
  rewrite E1, E4. rewrite E2. set (Q := pose_rot (length h) r) in *.
  assert (MQ : is_mat (length h) (length h) Q) by apply HQ.
  pose proof (is_mat_transpose _ _ _ MQ Hn) as MT.
  assert (MD : is_mat (length h) (length h) (mscale 0 (diag (vsq h)))).
  { apply is_mat_mscale. rewrite <- (vsq_length h) at 1 2. apply is_mat_diag. }
  rewrite vscale_0, E5, vsub_zeros_r by auto.
  rewrite Nat.add_1_r, (schur_zero (length h)) by (auto; rewrite mat_vec_length; apply MT).
  split.
  - intros [_ H]. transitivity (move Q (zeros (length h)) (mat_vec (transpose Q) p)).
    + apply (move_inv (length h)); auto using zeros_length; [rewrite mat_vec_length; apply MT|].
      rewrite vsub_zeros_r by auto. reflexivity.
    + rewrite H. unfold move. rewrite mat_vec_zeros.
      replace (length Q) with (length h) by (symmetry; apply MQ). apply vadd_zeros_r, zeros_length.
  - intros ->. split; [intros x Hx; rewrite quad_mscale; lra|]. rewrite mat_vec_zeros.
    replace (length (transpose Q)) with (length h) by (symmetry; apply MT). reflexivity.
Qed.
Lemma emc_neg s : s < 0 -> ~ ell_must_contain e p s.
Proof.
  intros Hs. destruct emc_facts as (E1 & E2 & E3 & E4 & E5 & Hn). unfold ell_must_contain, cp_psd.
  rewrite E1, E4. rewrite E2. set (Q := pose_rot (length h) r) in *.
  assert (MQ : is_mat (length h) (length h) Q) by apply HQ.
  pose proof (is_mat_transpose _ _ _ MQ Hn) as MT. rewrite Nat.add_1_r.
  apply schur_neg; auto; [|rewrite mat_vec_length; apply MT].
  apply is_mat_mscale. rewrite <- (vsq_length h) at 1 2. apply is_mat_diag.
Qed.
End EllMC.
Lemma ell_must_contain_iff h r c e p s : ell_init h r c = Ok e -> h <> [] ->
  orthogonal (length h) (pose_rot (length h) r) -> length p = length h ->
  (ell_must_contain e p s <->
   (0 < s /\ ell_set h (pose_rot (length h) r) (pose_tr (length h) c) (vscale (/ s) p)) \/ (s = 0 /\ p = zeros (length h))).
Proof.
  intros He Hh HQ Hp. destruct (Rtotal_order s 0) as [Hs|[->|Hs]].
  - split; [intro H; exfalso; eapply (emc_neg h r c e); eauto|]. intros [[H _]|[H _]]; lra.
  - rewrite (emc_zero h r c e) by auto. split; [auto|]. intros [[H _]|[_ H]]; [lra|auto].
  - rewrite (emc_pos h r c e) by auto. split; [auto|]. intros [[_ H]|[H _]]; [auto|lra].
Qed.

(** ** polyhedra *)
Lemma poly_must_contain_iff p x s : length (p_A p) = length (p_b p) -> 0 < s ->
  (poly_must_contain p x s <-> halfspaces (p_A p) (p_b p) (vscale (/ s) x)).
Proof.
  intros L Hs. unfold poly_must_contain, halfspaces. generalize dependent (p_b p). generalize (p_A p). intro A0. clear p.
  induction A0 as [|a A IH]; intros [|b bs] L; cbn in L; try discriminate.
  - cbn. split; [intros _ i Hi; lia|constructor].
  - cbn [mat_vec map vscale length]. split.
    + intros H i Hi. inversion H; subst. destruct i as [|i]; cbn [nth].
      * rewrite dot_vscale_r. apply Rmult_le_reg_l with s; auto. rewrite <- Rmult_assoc, Rinv_r, Rmult_1_l by lra. exact H3.
      * apply (proj1 (IH bs ltac:(lia))); auto. lia.
    + intro H. constructor.
      * specialize (H 0%nat ltac:(lia)). cbn [nth] in H. rewrite dot_vscale_r in H.
        apply Rmult_le_compat_l with (r := s) in H; [|lra]. rewrite <- Rmult_assoc, Rinv_r, Rmult_1_l in H by lra. exact H.
      * apply IH; [lia|]. intros i Hi. apply (H (S i)). lia.
Qed.
Lemma hull_sup n V a : length a = n -> rows_len n V -> exists M, forall q, in_hull n V q -> dot a q <= M.
Proof.
  intros Ha HV. exists (lsum (map (fun v => Rabs (dot a v)) V)). intros q (w & Lw & [Hw Sw] & ->).
  rewrite dot_combine_rows by auto.
  assert (W1 : forall x, In x w -> x <= 1) by (intros; eapply weights_le_1; eauto; split; auto).
  clear Sw. revert w Lw Hw W1. induction V as [|v V IH]; intros [|c w] Lw Hw W1; cbn in Lw; try discriminate; [cbn; lra|].
  cbn [map2 map lsum fold_right]. change (fold_right Rplus 0) with lsum.
  specialize (IH (fun x Hx => HV x (or_intror Hx)) w ltac:(lia) (fun x Hx => Hw x (or_intror Hx)) (fun x Hx => W1 x (or_intror Hx))).
  assert (c * dot a v <= Rabs (dot a v)).
  { pose proof (Hw c (or_introl eq_refl)). pose proof (W1 c (or_introl eq_refl)).
    pose proof (Rle_abs (dot a v)). pose proof (Rabs_pos (dot a v)). 
    apply Rle_trans with (c * Rabs (dot a v)); [apply Rmult_le_compat_l; auto|]. rewrite <- (Rmult_1_l (Rabs (dot a v))) at 2.
    apply Rmult_le_compat_r; auto. }
  lra.
Qed.
Lemma poly_must_contain_zero p x n : length (p_A p) = length (p_b p) -> length x = n ->
  rows_len n (p_vertices p) -> p_vertices p <> [] ->
  (forall y, length y = n -> (halfspaces (p_A p) (p_b p) y <-> in_hull n (p_vertices p) y)) ->
  (poly_must_contain p x 0 <-> x = zeros n).
Proof.
  intros L Hx RV NV HF.
  assert (E : poly_must_contain p x 0 <-> forall i, (i < length (p_A p))%nat -> dot (nth i (p_A p) []) x <= 0).
  { unfold poly_must_contain. clear HF RV NV Hx. generalize dependent (p_b p). generalize (p_A p). intro A0. clear p.
    induction A0 as [|a A IH]; intros [|b bs] L; cbn in L; try discriminate.
    - cbn. split; [intros _ i Hi; lia|constructor].
    - cbn [mat_vec map vscale length]. split.
      + intros H i Hi. inversion H; subst. destruct i as [|i]; cbn [nth]; [lra|].
        apply (proj1 (IH bs ltac:(lia))); auto. lia.
      + intro H. constructor; [specialize (H 0%nat ltac:(lia)); cbn [nth] in H; lra|].
        apply IH; [lia|]. intros i Hi. apply (H (S i)). lia. }
  rewrite E. split.
  - intro H. rewrite <- Hx. apply dot_self_zero.
    destruct (p_vertices p) as [|v V] eqn:EV; [congruence|]. rewrite <- EV in *.
    assert (Lv : length v = n) by (apply RV; rewrite EV; now left).
    destruct (hull_sup n (p_vertices p) x Hx RV) as [M HM].
    pose proof (dot_self_nonneg x) as P. destruct (Req_dec (dot x x) 0) as [Z|Z]; [exact Z|exfalso].
    assert (B : forall k, 0 <= k -> dot x v + k * dot x x <= M).
    { intros k Hk. rewrite <- dot_vscale_r, <- dot_vadd_r by (rewrite vscale_length; congruence). apply HM, HF.
      - rewrite vadd_length; rewrite ?vscale_length; congruence.
      - intros i Hi. rewrite dot_vadd_r, dot_vscale_r by (rewrite vscale_length; congruence).
        assert (Hv : halfspaces (p_A p) (p_b p) v).
        { apply HF; auto. apply hull_vertex; auto. rewrite EV. now left. }
        specialize (Hv i Hi). specialize (H i Hi). pose proof (Rmult_le_compat_l k _ _ Hk H). lra. }
    pose proof (B 0 ltac:(lra)) as B0.
    pose proof (B ((M - dot x v + 1) / dot x x)) as B1.
    assert (0 <= (M - dot x v + 1) / dot x x) by (apply Rmult_le_pos; [lra|left; apply Rinv_0_lt_compat; lra]).
    specialize (B1 H0). replace ((M - dot x v + 1) / dot x x * dot x x) with (M - dot x v + 1) in B1 by (field; lra). lra.
  - intros -> i Hi. rewrite dot_zeros_r. lra.
Qed.
