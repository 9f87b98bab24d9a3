(** Ellipsoid containment and bounding ellipsoids of ellipsoids. *)
From Verif Require Import Proofs.Coord Proofs.Hull Base.Ext Model.Util Model.Polydd Model.Constraint Model.Ellipsoid Model.Poly Model.Extremal
  Spec.Basic Spec.Shapes Spec.ShapeObjects Spec.ExtremalSpec Proofs.LinAlg Proofs.EllP Proofs.EllForms Proofs.EllSame Proofs.MustContain Proofs.BoxP Proofs.CylP Proofs.CylCustom Proofs.ExtremalP.

(** * The finite forms *)
Lemma to_R_fin2 A : map (map to_R) (fin2 A) = A.
Proof. unfold fin2. rewrite map_map. rewrite <- (map_id A) at 2. apply map_ext. intro r. apply map_to_R_fin. Qed.
Lemma finite_mat_fin A : finite_mat (fin2 A) = Ok A.
Proof. unfold finite_mat. rewrite all_fin_fin2. now rewrite to_R_fin2. Qed.
Lemma finite_vec_fin v : finite_vec (fin1 v) = Ok v.
Proof.
  unfold finite_vec. rewrite map_to_R_fin. replace (forallb is_fin (fin1 v)) with true; [reflexivity|]. symmetry. apply forallb_forall. intros x Hx.
  unfold fin1 in Hx. apply in_map_iff in Hx as (a & <- & _). reflexivity.
Qed.
Lemma contains_ellipsoid_fat s o : is_ell s -> is_ell o -> (0 < e_dim s)%nat -> e_dim o = e_dim s -> fat (e_half s) -> fat (e_half o) ->
  contains_ellipsoid s o =
    Ok (exists t, 0 <= t /\ cp_nsd (e_dim s + 1) (schur (msub (rS s) (mscale t (rA o))) (vsub (mat_vec (rA s) (rb s)) (vscale t (rb s)))
                 (dot (rb s) (rb s) - 1 - t * (dot (rb o) (rb o) - 1)))).
Proof.
  intros Hs Ho Hn E Fs Fo. unfold contains_ellipsoid. rewrite !e_S_fin, !e_A_fin, !e_b_fin by (auto; lia).
  rewrite !finite_mat_fin, !finite_vec_fin. cbn [bind]. rewrite E, Nat.eqb_refl. reflexivity.
Qed.
Lemma rb_length e : is_ell e -> (0 < e_dim e)%nat -> length (rb e) = e_dim e.
Proof. intros He Hn. unfold rb. rewrite mat_vec_length. unfold mneg. rewrite map_length. apply (rA_is_mat e He Hn). Qed.
(** the ellipsoid is the quadric of S, A b and b.b - 1 *)
Lemma ell_quadric e x : is_ell e -> (0 < e_dim e)%nat -> orthogonal (e_dim e) (e_rot e) -> fat (e_half e) -> length x = e_dim e ->
  (ell_set (e_half e) (e_rot e) (e_center e) x <-> quadric (rS e) (mat_vec (rA e) (rb e)) (dot (rb e) (rb e) - 1) x).
Proof.
  intros He Hn Ho Hf Lx. rewrite ell_set_local by auto. rewrite <- affine_form by auto. rewrite norm_sqr.
  pose proof (rA_is_mat e He Hn) as MA. assert (LA : length (rA e) = e_dim e) by apply MA. pose proof (rb_length e He Hn) as Lb.
  assert (TA : transpose (rA e) = rA e) by (apply (symmetric_transpose (e_dim e)); [exact MA|apply rA_sym; auto]).
  unfold quadric. set (n := e_dim e) in *. assert (LAx : length (mat_vec (rA e) x) = n) by len.
  assert (E : quad (rS e) x = dot (mat_vec (rA e) x) (mat_vec (rA e) x)).
  { unfold quad. rewrite <- rA_mul by auto. fold n. rewrite (mat_vec_mat_mul n n n) by auto. now apply (sym_dot n). }
  rewrite E. rewrite <- (sym_dot n (rA e) (rb e) x) by auto.
  rewrite !dot_vadd_l, !dot_vadd_r by (auto; len; congruence). rewrite (dot_comm (mat_vec (rA e) x) (rb e)).
  split; lra.
Qed.
(** the S-procedure *)
Lemma s_procedure n A1 b1 c1 A2 b2 c2 t : is_mat n n A1 -> is_mat n n A2 -> length b1 = n -> length b2 = n -> 0 <= t ->
  cp_nsd (n + 1) (schur (msub A1 (mscale t A2)) (vsub b1 (vscale t b2)) (c1 - t * c2)) ->
  forall x, length x = n -> quadric A2 b2 c2 x -> quadric A1 b1 c1 x.
Proof.
  intros M1 M2 L1 L2 Ht H x Lx Hq. specialize (H (x ++ [1])). rewrite app_length in H. cbn in H. specialize (H ltac:(lia)).
  assert (M2t : is_mat n n (mscale t A2)) by now apply is_mat_mscale.
  rewrite (schur_quad n) in H by (auto using is_mat_msub; len). rewrite (quad_msub n n), quad_mscale in H by auto.
  rewrite dot_vsub_l, dot_vscale_l in H by len. unfold quadric in *. nra.
Qed.
Lemma s_procedure_contains s o t : is_ell s -> is_ell o -> (0 < e_dim s)%nat -> e_dim o = e_dim s ->
  orthogonal (e_dim s) (e_rot s) -> orthogonal (e_dim s) (e_rot o) -> fat (e_half s) -> fat (e_half o) -> 0 <= t ->
  cp_nsd (e_dim s + 1) (schur (msub (rS s) (mscale t (rS o))) (vsub (mat_vec (rA s) (rb s)) (vscale t (mat_vec (rA o) (rb o))))
                 (dot (rb s) (rb s) - 1 - t * (dot (rb o) (rb o) - 1))) ->
  forall x, ell_set (e_half o) (e_rot o) (e_center o) x -> ell_set (e_half s) (e_rot s) (e_center s) x.
Proof.
  intros Hs Ho Hn E Os Oo Fs Fo Ht H x Hx. assert (Lx : length x = e_dim s).
  { destruct Hx as (u & _ & _ & ->). destruct (form_facts o Ho) as (M1 & L2 & L3). unfold move. rewrite vadd_length; rewrite mat_vec_length; rewrite (is_mat_length _ _ _ M1); congruence. }
  apply ell_quadric; auto. apply (ell_quadric o x) in Hx; rewrite ?E; auto.
  assert (MS : is_mat (e_dim s) (e_dim s) (rS o)) by (rewrite <- E; apply rS_is_mat; auto; lia).
  assert (L1 : length (mat_vec (rA s) (rb s)) = e_dim s) by (rewrite mat_vec_length; apply rA_is_mat; auto).
  assert (L2 : length (mat_vec (rA o) (rb o)) = e_dim s) by (rewrite mat_vec_length, <- E; apply rA_is_mat; auto; lia).
  exact (s_procedure (e_dim s) _ _ _ _ _ _ t (rS_is_mat s Hs Hn) MS L1 L2 Ht H x Lx Hx).
Qed.

(** * Spheres *)
Lemma vscale_ones_repeat r n : vscale r (ones n) = repeat r n.
Proof. unfold vscale, ones. induction n; cbn; [reflexivity|]. f_equal; [ring|auto]. Qed.
Lemma congd_const n Q a : orthogonal n Q -> (0 < n)%nat -> congd Q (repeat a n) = mscale a (eye n).
Proof.
  intros HQ Hn. pose proof HQ as (MQ & _). apply (mat_eq_by_vec n n); [apply congd_is_mat; auto; apply repeat_length|apply is_mat_mscale, is_mat_eye|].
  intros x Hx. rewrite (congd_mat_vec n) by (auto; apply repeat_length). rewrite mat_vec_mscale, mat_vec_eye by auto.
  assert (LT : length (mat_vec (transpose Q) x) = n) by (rewrite mat_vec_length; apply (is_mat_transpose n n); auto).
  replace (vmul (repeat a n) (mat_vec (transpose Q) x)) with (vscale a (mat_vec (transpose Q) x)).
  - rewrite mat_vec_vscale. f_equal. apply (orthogonal_back n); auto.
  - rewrite <- LT. clear. induction (mat_vec (transpose Q) x); cbn; [reflexivity|]. now f_equal.
Qed.
Lemma sphere_ok r c e : 0 <= r -> ell_sphere r (Some c) = Ok e ->
  is_ell e /\ e_dim e = length c /\ e_half e = repeat r (length c) /\ e_rot e = eye (length c) /\ e_center e = c.
Proof.
  intros Hr H. unfold ell_sphere in H. pose proof H as H0. apply ell_init_inv in H as (H1 & H2 & H3 & H4 & H5 & H6).
  rewrite vscale_ones_repeat in *. rewrite repeat_length in *. cbn [pose_rot pose_tr] in *. repeat split; auto.
  - eexists _, _, _. exact H0.
  - unfold e_dim. rewrite H2. apply repeat_length.
Qed.
Lemma sphere_init r c : 0 <= r -> exists e, ell_sphere r (Some c) = Ok e.
Proof.
  intro Hr. unfold ell_sphere. rewrite ell_init_good; [eexists; reflexivity| | |].
  - rewrite vscale_ones_repeat. intros i Hi. rewrite repeat_length in Hi. rewrite (nth_indep _ 0 r) by (rewrite repeat_length; auto). rewrite nth_repeat. exact Hr.
  - cbn. apply is_mat_eye.
  - cbn. rewrite vscale_ones_repeat. now rewrite repeat_length.
Qed.
Lemma fat_repeat r n : / 100000000 < r -> fat (repeat r n).
Proof. intros Hr i Hi. rewrite repeat_length in Hi. rewrite (nth_indep _ 0 r) by (rewrite repeat_length; auto). rewrite nth_repeat. exact Hr. Qed.
Lemma map_repeat_eq {A B} (f : A -> B) a n : map f (repeat a n) = repeat (f a) n.
Proof. induction n; cbn; [reflexivity|]. now f_equal. Qed.
Lemma sphere_forms r c e : / 100000000 < r -> (0 < length c)%nat -> ell_sphere r (Some c) = Ok e ->
  is_ell e /\ e_dim e = length c /\ orthogonal (length c) (e_rot e) /\ fat (e_half e) /\
  rS e = mscale (/ r * / r) (eye (length c)) /\ rA e = mscale (/ r) (eye (length c)) /\ rb e = vscale (- / r) c /\
  (forall x, length x = length c -> (ell_set (e_half e) (e_rot e) (e_center e) x <-> ball c r x)).
Proof.
  intros Hr Hc H. assert (P : 0 < r) by lra. apply sphere_ok in H as (H1 & H2 & H3 & H4 & H5); [|lra]. set (n := length c) in *.
  assert (HO : orthogonal n (e_rot e)) by (rewrite H4; now apply orthogonal_eye). assert (HF : fat (e_half e)) by (rewrite H3; now apply fat_repeat).
  assert (ES : rS e = mscale (/ r * / r) (eye n)). { unfold rS. rewrite H3. unfold vsq, vinv. rewrite !map_repeat_eq. now apply congd_const. }
  assert (EA : rA e = mscale (/ r) (eye n)). { unfold rA. rewrite H3. unfold vinv. rewrite !map_repeat_eq. now apply congd_const. }
  repeat (split; [assumption|]). split.
  - unfold rb. rewrite EA, mat_vec_mneg, mat_vec_mscale, H5, mat_vec_eye by auto. vring n.
  - intros x Lx. rewrite ell_set_local by (rewrite ?H2; auto). rewrite ES, H5, quad_mscale. rewrite (quad_eye n) by len. unfold ball.
    rewrite (norm_le_iff _ r) by lra. assert (I : 0 < / r) by now apply Rinv_0_lt_compat.
    assert (E : / r * / r * (r * r) = 1) by (field; lra). assert (0 < / r * / r) by nra. assert (0 < r * r) by nra.
    set (q := dot (vsub x c) (vsub x c)) in *. split; intro K.
    + apply (Rmult_le_reg_l (/ r * / r)); lra.
    + rewrite <- E. apply Rmult_le_compat_l; lra.
Qed.

(** * contains_ellipsoid *)
(** what the code's condition implies: the quadric of the mixed coefficients is contained *)
Lemma contains_code_quadric s o P : is_ell s -> is_ell o -> (0 < e_dim s)%nat -> e_dim o = e_dim s ->
  orthogonal (e_dim s) (e_rot s) -> fat (e_half s) -> fat (e_half o) ->
  contains_ellipsoid s o = Ok P -> P -> forall x, length x = e_dim s ->
  quadric (rA o) (rb s) (dot (rb o) (rb o) - 1) x -> ell_set (e_half s) (e_rot s) (e_center s) x.
Proof.
  intros Hs Ho Hn E Os Fs Fo H HP x Lx Hx. rewrite contains_ellipsoid_fat in H by auto. apply Ok_eq in H. subst P. destruct HP as (t & Ht & HN).
  apply ell_quadric; auto.
  assert (MS : is_mat (e_dim s) (e_dim s) (rA o)) by (rewrite <- E; apply rA_is_mat; auto; lia).
  assert (L1 : length (mat_vec (rA s) (rb s)) = e_dim s) by (rewrite mat_vec_length; apply rA_is_mat; auto).
  exact (s_procedure (e_dim s) _ _ _ _ _ _ t (rS_is_mat s Hs Hn) MS L1 (rb_length s Hs Hn) Ht HN x Lx Hx).
Qed.
Lemma unit_sphere_quadric c x : length x = length c -> (quadric (mscale (/ 1) (eye (length c))) (vscale (- / 1) c) (dot (vscale (- / 1) c) (vscale (- / 1) c) - 1) x <-> ball c 1 x).
Proof.
  intro Lx. unfold quadric, ball. rewrite (norm_le_iff _ 1) by lra. rewrite quad_mscale, (quad_eye (length c)) by auto.
  rewrite !dot_vscale_l, !dot_vscale_r, !dot_vsub_l, !dot_vsub_r by len. rewrite (dot_comm x c). rewrite Rinv_1. split; lra.
Qed.
Lemma contains_unit_sphere_sound s c o P : is_ell s -> (0 < e_dim s)%nat -> length c = e_dim s -> orthogonal (e_dim s) (e_rot s) -> fat (e_half s) ->
  ell_sphere 1 (Some c) = Ok o -> e_b s = e_b o -> contains_ellipsoid s o = Ok P -> P ->
  forall x, length x = e_dim s -> ball c 1 x -> ell_set (e_half s) (e_rot s) (e_center s) x.
Proof.
  intros Hs Hn Lc Os Fs Ho Eb H HP x Lx Hx. destruct (sphere_forms 1 c o ltac:(lra) ltac:(lia) Ho) as (O1 & O2 & O3 & O4 & O5 & O6 & O7 & O8).
  rewrite e_b_fin in Eb by auto. rewrite e_b_fin in Eb by (auto; lia). assert (EB : rb s = rb o) by (rewrite <- (map_to_R_fin (rb s)), Eb; apply map_to_R_fin).
  apply (contains_code_quadric s o P); auto; [congruence|]. rewrite EB, O6, O7. apply unit_sphere_quadric; [congruence|auto].
Qed.
Lemma contains_unit_ball_iff s o P : is_ell s -> (0 < e_dim s)%nat -> orthogonal (e_dim s) (e_rot s) -> fat (e_half s) -> e_center s = zeros (e_dim s) ->
  ell_sphere 1 (Some (zeros (e_dim s))) = Ok o -> contains_ellipsoid s o = Ok P ->
  (P <-> forall x, length x = e_dim s -> norm x <= 1 -> ell_set (e_half s) (e_rot s) (e_center s) x).
Proof.
  intros Hs Hn Os Fs Ec Ho H. set (n := e_dim s) in *. assert (Lz : length (zeros n) = n) by len.
  destruct (sphere_forms 1 (zeros n) o ltac:(lra) ltac:(lia) Ho) as (O1 & O2 & O3 & O4 & O5 & O6 & O7 & O8). rewrite Lz in *.
  pose proof (rA_is_mat s Hs Hn) as MA. pose proof (rS_is_mat s Hs Hn) as MS. fold n in MA, MS.
  assert (Bs : rb s = zeros n) by (unfold rb; rewrite mat_vec_mneg, Ec, mat_vec_zeros, (is_mat_length _ _ _ MA); vring n).
  assert (Bo : rb o = zeros n) by (rewrite O7; vring n).
  split.
  - intros HP x Lx Hx. apply (contains_unit_sphere_sound s (zeros n) o P); auto.
    + rewrite !e_b_fin by (auto; lia). now rewrite Bs, Bo.
    + unfold ball. replace (vsub x (zeros n)) with x by vring n. exact Hx.
  - intro K. rewrite contains_ellipsoid_fat in H by (auto; congruence). apply Ok_eq in H. subst P. exists 1. split; [lra|].
    fold n. rewrite Bs, Bo. rewrite mat_vec_zeros, (is_mat_length _ _ _ MA). rewrite dot_zeros_l, O6.
    replace (vsub (zeros n) (vscale 1 (zeros n))) with (zeros n) by vring n.
    intros z Lz'. rewrite Nat.add_1_r in Lz'. apply border_split in Lz' as (x & a & -> & Lx).
    assert (M1 : is_mat n n (mscale 1 (mscale (/ 1) (eye n)))) by auto using is_mat_mscale, is_mat_eye.
    rewrite (schur_quad n) by (auto using is_mat_msub; len). rewrite (quad_msub n n), !quad_mscale, (quad_eye n) by auto. rewrite dot_zeros_l.
    assert (Q : quad (rS s) x <= dot x x).
    { destruct (Rle_lt_dec (norm x) 0) as [N0|N0].
      - assert (Z : x = zeros n). { assert (NX : norm x = 0) by (pose proof (norm_nonneg x); lra). assert (D : dot x x = 0) by (rewrite <- norm_sqr, NX; ring). apply dot_self_zero in D. now rewrite Lx in D. }
        rewrite Z. unfold quad. rewrite dot_zeros_l, dot_zeros_l. lra.
      - specialize (K (vscale (/ norm x) x) ltac:(len)). rewrite norm_vscale, Rabs_pos_eq in K by (apply Rlt_le, Rinv_0_lt_compat; lra).
        specialize (K ltac:(rewrite Rinv_l; lra)). apply ell_set_local in K; auto; [|fold n; len]. rewrite Ec in K. fold n in K.
        replace (vsub (vscale (/ norm x) x) (zeros n)) with (vscale (/ norm x) x) in K by vring n.
        rewrite quad_vscale in K. rewrite <- norm_sqr. assert (I : 0 < / norm x) by now apply Rinv_0_lt_compat.
        apply (Rmult_le_reg_l (/ norm x * / norm x)); [nra|]. replace (/ norm x * / norm x * (norm x * norm x)) with 1 by (field; lra). lra. }
    rewrite Rinv_1. nra.
Qed.
(** concentric spheres: the answer is r2 <= r1^2 instead of r2 <= r1 *)
Lemma contains_spheres n r1 r2 s o P : (0 < n)%nat -> / 100000000 < r1 -> / 100000000 < r2 ->
  ell_sphere r1 (Some (zeros n)) = Ok s -> ell_sphere r2 (Some (zeros n)) = Ok o -> contains_ellipsoid s o = Ok P -> (P <-> r2 <= r1 * r1).
Proof.
  intros Hn Hr1 Hr2 Hs Ho H. assert (Lz : length (zeros n) = n) by len.
  destruct (sphere_forms r1 (zeros n) s ltac:(lra) ltac:(lia) Hs) as (S1 & S2 & S3 & S4 & S5 & S6 & S7 & S8).
  destruct (sphere_forms r2 (zeros n) o ltac:(lra) ltac:(lia) Ho) as (O1 & O2 & O3 & O4 & O5 & O6 & O7 & O8). rewrite Lz in *.
  rewrite contains_ellipsoid_fat in H by (auto; congruence). apply Ok_eq in H. subst P. rewrite S2.
  replace (rb s) with (zeros n) by (rewrite S7; vring n). replace (rb o) with (zeros n) by (rewrite O7; vring n). rewrite S5, S6, O6.
  rewrite dot_zeros_l, mat_vec_zeros. assert (LM : forall a, length (mscale a (eye n)) = n) by (intro; unfold mscale; rewrite map_length; apply is_mat_eye). rewrite LM.
  assert (P1 : 0 < / r1) by (apply Rinv_0_lt_compat; lra). assert (P2 : 0 < / r2) by (apply Rinv_0_lt_compat; lra).
  assert (F : / r1 * / r1 <= / r2 <-> r2 <= r1 * r1).
  { rewrite <- Rinv_mult. split; intro K.
    - apply Rinv_le_contravar in K; [|apply Rinv_0_lt_compat; nra]. rewrite !Rinv_inv in K. exact K.
    - apply Rinv_le_contravar; lra. }
  rewrite <- F. assert (FM : forall t, is_mat n n (mscale t (mscale (/ r2) (eye n)))) by (intro; auto using is_mat_mscale, is_mat_eye).
  assert (FM1 : is_mat n n (mscale (/ r1 * / r1) (eye n))) by auto using is_mat_mscale, is_mat_eye.
  assert (Q : forall t x a, length x = n -> quad (schur (msub (mscale (/ r1 * / r1) (eye n)) (mscale t (mscale (/ r2) (eye n)))) (vsub (zeros n) (vscale t (zeros n))) (0 - 1 - t * (0 - 1))) (x ++ [a])
     = (/ r1 * / r1 - t * / r2) * dot x x + (t - 1) * a * a).
  { intros t x a Lx. rewrite (schur_quad n) by (auto using is_mat_msub; len). rewrite (quad_msub n n), !quad_mscale, (quad_eye n) by auto.
    rewrite dot_vsub_l, dot_vscale_l, dot_zeros_l by len. ring. }
  split.
  - intros (t & Ht & K). pose proof (K (zeros n ++ [1])) as K1. rewrite app_length in K1. specialize (K1 ltac:(cbn; len; lia)). rewrite Q, dot_zeros_l in K1 by len.
    pose proof (K (unit_vec n 0 ++ [0])) as K2. rewrite app_length, unit_vec_length in K2. specialize (K2 eq_refl). rewrite Q in K2 by apply unit_vec_length.
    rewrite dot_unit_vec in K2 by (auto using unit_vec_length). unfold unit_vec in K2. rewrite nth_map_seq in K2 by auto. cbn in K2. nra.
  - intro K. exists 1. split; [lra|]. intros z Lz'. rewrite Nat.add_1_r in Lz'. apply border_split in Lz' as (x & a & -> & Lx). rewrite Q by auto. pose proof (dot_self_nonneg x). nra.
Qed.
(** a unit sphere at the origin is said to contain every unit sphere *)
Lemma contains_anywhere c s o P : (0 < length c)%nat -> ell_sphere 1 (Some (zeros (length c))) = Ok s -> ell_sphere 1 (Some c) = Ok o -> contains_ellipsoid s o = Ok P -> P.
Proof.
  intros Hn Hs Ho H. set (n := length c) in *. assert (Lz : length (zeros n) = n) by len.
  destruct (sphere_forms 1 (zeros n) s ltac:(lra) ltac:(lia) Hs) as (S1 & S2 & S3 & S4 & S5 & S6 & S7 & S8).
  destruct (sphere_forms 1 c o ltac:(lra) Hn Ho) as (O1 & O2 & O3 & O4 & O5 & O6 & O7 & O8). rewrite Lz in *. fold n in O2, O5, O6.
  rewrite contains_ellipsoid_fat in H by (auto; congruence). apply Ok_eq in H. subst P. rewrite S2.
  replace (rb s) with (zeros n) by (rewrite S7; vring n). rewrite S5, S6, O6, O7, Rinv_1, Rmult_1_l.
  rewrite dot_zeros_l, mat_vec_zeros. assert (LM : forall a, length (mscale a (eye n)) = n) by (intro; unfold mscale; rewrite map_length; apply is_mat_eye). rewrite LM.
  exists 1. split; [lra|]. intros z Lz'. rewrite Nat.add_1_r in Lz'. apply border_split in Lz' as (x & a & -> & Lx).
  assert (FM : is_mat n n (mscale 1 (mscale 1 (eye n)))) by auto using is_mat_mscale, is_mat_eye. assert (FM1 : is_mat n n (mscale 1 (eye n))) by auto using is_mat_mscale, is_mat_eye.
  rewrite (schur_quad n) by (auto using is_mat_msub; len). rewrite (quad_msub n n), !quad_mscale, (quad_eye n) by auto.
  rewrite dot_vsub_l, dot_vscale_l, !dot_zeros_l by len. rewrite dot_vscale_l, dot_vscale_r. pose proof (dot_self_nonneg c). nra.
Qed.

(** * mbe_of_ellipsoids *)
Lemma column_is_mat n v : length v = n -> is_mat n 1 (column v).
Proof. intro L. unfold column. split; [now rewrite map_length|]. apply Forall_forall. intros r Hr. apply in_map_iff in Hr as (a & <- & _). reflexivity. Qed.
Lemma mat_vec_column v a : mat_vec (column v) [a] = vscale a v.
Proof. unfold mat_vec, column, vscale. rewrite map_map. apply map_ext. intro b. cbn. ring. Qed.
Lemma append_column M v : map2 (fun r x => r ++ [x]) M v = hstack M (column v).
Proof. unfold hstack, column. now rewrite map2_map_r. Qed.
Lemma mat_vec_zeros2 n m x : mat_vec (zeros2 n m) x = zeros n.
Proof. unfold mat_vec, zeros2. rewrite map_repeat_eq. rewrite dot_zeros_l. reflexivity. Qed.
Lemma is_mat_zeros2 n m : is_mat n m (zeros2 n m).
Proof. unfold zeros2. split; [apply repeat_length|]. apply Forall_forall. intros r Hr. apply repeat_spec in Hr as ->. apply zeros_length. Qed.
Lemma mbee_quad n S d A b t x a y : is_mat n n S -> is_mat n n A -> length d = n -> length b = n -> length x = n -> length y = n ->
  quad (mbee_con_mat S d A b t) (x ++ [a] ++ y) =
    quad S x - t * quad A x + 2 * a * (dot d x - t * dot b x) + (-1 - t * (dot b b - 1)) * a * a + 2 * a * dot d y - quad S y.
Proof.
  intros MS MA Ld Lb Lx Ly. assert (LS : length S = n) by apply MS. unfold mbee_con_mat. rewrite LS. cbv zeta. set (e := vsub d (vscale t b)). assert (Le : length e = n) by (unfold e; len).
  set (f := -1 - t * (dot b b - 1)). rewrite !append_column.
  change (map2 (fun r x => r ++ x)) with hstack.
  assert (MX : is_mat n n (msub S (mscale t A))) by auto using is_mat_msub, is_mat_mscale.
  assert (MZ := is_mat_zeros2 n n). assert (MN : is_mat n n (mneg S)) by now apply is_mat_mneg.
  pose proof (column_is_mat n e Le) as Me. pose proof (column_is_mat n d Ld) as Md.
  pose proof (is_mat_hstack n n 1 _ _ MX Me) as H1. pose proof (is_mat_hstack n n 1 _ _ MZ Md) as H2.
  unfold quad. unfold mat_vec at 1. rewrite !map_app. change (map (fun r => dot r (x ++ [a] ++ y))) with (fun M => mat_vec M (x ++ [a] ++ y)). cbv beta.
  rewrite (app_assoc x [a] y). assert (Lxa : length (x ++ [a]) = (n + 1)%nat) by (rewrite app_length; cbn; lia).
  rewrite (mat_vec_hstack n (n + 1) n _ _ (x ++ [a]) y) by auto. rewrite (mat_vec_hstack n (n + 1) n (hstack (zeros2 n n) (column d)) (mneg S) (x ++ [a]) y) by auto.
  rewrite !(mat_vec_hstack n n 1) by auto. rewrite !mat_vec_column, !mat_vec_zeros2.
  change (mat_vec [e ++ [f] ++ d] ((x ++ [a]) ++ y)) with [dot (e ++ [f] ++ d) ((x ++ [a]) ++ y)].
  rewrite <- !app_assoc. assert (LMx : length (mat_vec (msub S (mscale t A)) x) = n) by (rewrite mat_vec_length; apply MX).
  assert (LNy : length (mat_vec (mneg S) y) = n) by (rewrite mat_vec_length; apply MN).
  rewrite dot_app by (len; congruence). rewrite (dot_app [a] y [_]) by reflexivity. rewrite (dot_app e _ x), (dot_app [f] _ [a]) by (auto; congruence).
  rewrite !dot_vadd_r by len. rewrite !dot_zeros_r, !dot_vscale_r.
  rewrite mat_vec_mneg, dot_vneg_r. rewrite (mat_vec_msub n n), mat_vec_mscale by auto using is_mat_mscale. 
  rewrite dot_vsub_r, dot_vscale_r by (rewrite ?vscale_length, !mat_vec_length, LS; symmetry; apply MA).
  unfold e. rewrite !dot_vsub_l, !dot_vscale_l, !dot_vsub_r, !dot_vscale_r by len.
  rewrite (dot_comm x d), (dot_comm x b), (dot_comm y d). unfold f, quad. cbn. ring.
Qed.
Lemma mbee_sound n ABs sphere S d ts c : mbee_constraints n ABs sphere S d ts -> length c = n -> mat_vec S c = vneg d ->
  (forall AB, In AB ABs -> is_mat n n (fst AB) /\ length (snd AB) = n) ->
  forall AB x, In AB ABs -> length x = n -> quadric (fst AB) (snd AB) (dot (snd AB) (snd AB) - 1) x -> quad S (vsub x c) <= 1.
Proof.
  intros ((MS & TS & PS) & Ld & Lts & Ht & HF & _) Lc HSc HAB AB x HIn Lx Hq. assert (LS : length S = n) by apply MS.
  assert (K : exists t, In t ts /\ cp_nsd (2 * n + 1) (mbee_con_mat S d (fst AB) (snd AB) t)).
  { clear -HF HIn. induction HF as [|u t us ts' H HF IH]; [destruct HIn|]. destruct HIn as [->|HIn]; [exists t; split; [now left|auto]|].
    destruct (IH HIn) as (t' & I & K). exists t'. split; [now right|auto]. }
  destruct K as (t & It & K). specialize (Ht t It). destruct (HAB AB HIn) as (MA & Lb).
  specialize (K (x ++ [1] ++ vneg c)). rewrite !app_length in K. specialize (K ltac:(cbn; len; lia)). rewrite (mbee_quad n) in K by (auto; len).
  unfold quadric in Hq. set (q := quad (fst AB) x + 2 * dot (snd AB) x + (dot (snd AB) (snd AB) - 1)) in *.
  assert (Q1 : quad S (vneg c) = quad S c). { unfold quad. rewrite mat_vec_vneg, dot_vneg_l, dot_vneg_r. ring. }
  assert (Q2 : quad S c = - dot d c). { unfold quad. rewrite HSc, dot_vneg_r. now rewrite dot_comm. }
  assert (Q3 : quad S (vsub x c) = quad S x + 2 * dot d x + quad S c).
  { unfold quad at 1. rewrite mat_vec_vsub by congruence. rewrite HSc. assert (length (mat_vec S x) = n) by len.
    rewrite !dot_vsub_l, !dot_vsub_r, !dot_vneg_r by len. rewrite (sym_dot n S c x), HSc, dot_vneg_l by auto. rewrite (dot_comm x d), (dot_comm c d). unfold quad at 1. rewrite Q2. ring. }
  rewrite Q3. rewrite Q1, dot_vneg_r in K. rewrite Q2 in *. assert (t * q <= 0) by nra. unfold q in *. lra.
Qed.
Lemma mapM_forms ells ABs : Forall2 (fun E AB => e_A E = fin2 (fst AB) /\ e_b E = fin1 (snd AB)) ells ABs ->
  mapM (fun E => let* A := finite_mat (e_A E) in let* b := finite_vec (e_b E) in Ok (A, b)) ells = Ok ABs.
Proof.
  induction 1 as [|E [A b] ells ABs (H1 & H2) HF IH]; cbn [mapM]; [reflexivity|]. cbn in H1, H2. rewrite H1, H2, finite_mat_fin, finite_vec_fin. cbn [bind].
  rewrite IH. reflexivity.
Qed.
Lemma mbee_result n eigh linsolve solver ells sphere ABs Sv d ts w V :
  (0 < n)%nat -> ells <> [] -> (forall E, In E ells -> e_dim E = n) ->
  Forall2 (fun E AB => e_A E = fin2 (fst AB) /\ e_b E = fin1 (snd AB)) ells ABs ->
  (forall AB, In AB ABs -> is_mat n n (fst AB) /\ length (snd AB) = n) ->
  solver (fun S d => exists ts, mbee_constraints n ABs sphere S d ts) = (Sv, d) -> mbee_constraints n ABs sphere Sv d ts ->
  length (linsolve Sv (vneg d)) = n -> mat_vec Sv (linsolve Sv (vneg d)) = vneg d ->
  eigh Sv = (w, V) -> eigh_spec n Sv (w, V) -> (forall a, In a w -> np_atol * np_atol < a < / (np_atol * np_atol)) ->
  exists e, mbe_of_ellipsoids eigh linsolve solver ells sphere = Ok e /\ is_ell e /\ e_dim e = n /\ orthogonal n (e_rot e) /\
    (forall x, length x = n -> (ell_set (e_half e) (e_rot e) (e_center e) x <-> quad Sv (vsub x (linsolve Sv (vneg d))) <= 1)) /\
    forall AB x, In AB ABs -> length x = n -> quadric (fst AB) (snd AB) (dot (snd AB) (snd AB) - 1) x -> ell_set (e_half e) (e_rot e) (e_center e) x.
Proof.
  intros Hn NE HD HF HAB HS HC Lc Hc HE HES Hw. pose proof HES as (Lw & HV & _). cbn in Lw, HV. pose proof HC as ((MS & _) & _).
  destruct (from_shape_matrix_good eigh n Sv (linsolve Sv (vneg d)) w V) as (e & F1 & F2 & F3 & F4 & F5 & F6 & F7); auto; [now apply (eigh_congd n)|].
  exists e. assert (EQ : forall x, length x = n -> (ell_set (e_half e) (e_rot e) (e_center e) x <-> quad Sv (vsub x (linsolve Sv (vneg d))) <= 1)).
  { intros x Lx. rewrite ell_set_local by (rewrite ?F3; auto). rewrite F7, F4. reflexivity. }
  split.
  - unfold mbe_of_ellipsoids. destruct ells as [|E0 ells']; [congruence|]. rewrite (HD E0) by now left. rewrite (mapM_forms _ _ HF). cbn [bind].
    replace (forallb (fun E => Nat.eqb (e_dim E) n) (E0 :: ells')) with true; [now rewrite HS|]. symmetry. apply forallb_forall. intros E HE'. apply Nat.eqb_eq. auto.
  - repeat (split; [assumption|]). intros AB x HI Lx Hq. apply EQ; auto. apply (mbee_sound n ABs sphere Sv d ts) with (AB := AB); auto.
Qed.
Lemma mscale_1_eye n : mscale (/ 1) (eye n) = eye n.
Proof. apply (mat_eq_by_vec n n); [apply is_mat_mscale, is_mat_eye|apply is_mat_eye|]. intros x Lx. rewrite mat_vec_mscale, mat_vec_eye, Rinv_1 by auto. apply vscale_1. Qed.
Lemma mbee_unit_spheres n eigh linsolve solver centers ells sphere Sv d ts w V :
  (0 < n)%nat -> centers <> [] -> (forall c, In c centers -> length c = n) -> mapM (fun c => ell_sphere 1 (Some c)) centers = Ok ells ->
  let ABs := map (fun c => (eye n, vneg c)) centers in
  solver (fun S d => exists ts, mbee_constraints n ABs sphere S d ts) = (Sv, d) -> mbee_constraints n ABs sphere Sv d ts ->
  length (linsolve Sv (vneg d)) = n -> mat_vec Sv (linsolve Sv (vneg d)) = vneg d ->
  eigh Sv = (w, V) -> eigh_spec n Sv (w, V) -> (forall a, In a w -> np_atol * np_atol < a < / (np_atol * np_atol)) ->
  exists e, mbe_of_ellipsoids eigh linsolve solver ells sphere = Ok e /\ e_dim e = n /\ orthogonal n (e_rot e) /\
    forall c x, In c centers -> length x = n -> ball c 1 x -> ell_set (e_half e) (e_rot e) (e_center e) x.
Proof.
  intros Hn NC HR HM ABs HS HC Lc Hc HE HES Hw.
  assert (K : Forall2 (fun E AB => e_A E = fin2 (fst AB) /\ e_b E = fin1 (snd AB)) ells ABs /\ (forall E, In E ells -> e_dim E = n) /\ (centers <> [] -> ells <> [])).
  { unfold ABs. clear -Hn HR HM. revert ells HM. induction centers as [|c cs IH]; intros ells HM; cbn [mapM] in HM.
    - apply Ok_eq in HM. subst. split; [constructor|]. split; [intros E []|congruence].
    - apply bind_inv in HM as (E & HE & HM). apply bind_inv in HM as (Es & HEs & HM). apply Ok_eq in HM. subst ells.
      apply rows_len_cons in HR as (Lc & HR). destruct (IH HR Es HEs) as (I1 & I2 & _).
      destruct (sphere_forms 1 c E ltac:(lra) ltac:(lia) HE) as (O1 & O2 & O3 & O4 & O5 & O6 & O7 & O8). rewrite Lc in *. split; [|split; [|discriminate]].
      + cbn [map]. constructor; [|exact I1]. cbn [fst snd]. rewrite e_A_fin, e_b_fin by (auto; lia). rewrite O6, O7, mscale_1_eye. split; [reflexivity|]. rewrite Rinv_1. f_equal. vring n.
      + intros E' [<-|H]; auto. }
  destruct K as (K1 & K2 & K3).
  destruct (mbee_result n eigh linsolve solver ells sphere ABs Sv d ts w V) as (e & R1 & R2 & R3 & R4 & _ & R5); auto.
  { intros AB H. unfold ABs in H. apply in_map_iff in H as (c & <- & Hc'). cbn. split; [apply is_mat_eye|]. specialize (HR c Hc'). len. }
  exists e. repeat (split; [assumption|]). intros c x HI Lx Hb. assert (Lc' : length c = n) by now apply HR.
  apply (R5 (eye n, vneg c)); auto; [unfold ABs; now apply (in_map (fun c => (eye n, vneg c)))|].
  cbn [fst snd]. apply (unit_sphere_quadric c x) in Hb; [|congruence]. rewrite Lc', mscale_1_eye in Hb. rewrite Rinv_1 in Hb. replace (vscale (- (1)) c) with (vneg c) in Hb by vring n. exact Hb.
Qed.
(** one sphere of radius r at the origin *)
Lemma mbee_sphere_best n r S d ts : (0 < n)%nat -> 0 < r ->
  mbee_constraints n [(mscale (/ r) (eye n), zeros n)] false S d ts -> forall x, length x = n -> quad S x <= / r * dot x x.
Proof.
  intros Hn Hr ((MS & _) & Ld & Lts & Ht & HF & _) x Lx. assert (I : 0 < / r) by now apply Rinv_0_lt_compat.
  inversion HF as [|AB t l ts' HK HN E1 E2]. rewrite <- E2 in Ht. clear E1 E2. specialize (Ht t (or_introl eq_refl)). cbn [fst snd] in HK.
  assert (MA : is_mat n n (mscale (/ r) (eye n))) by auto using is_mat_mscale, is_mat_eye.
  pose proof (HK (zeros n ++ [1] ++ zeros n)) as K1. rewrite !app_length in K1. specialize (K1 ltac:(cbn; len; lia)).
  rewrite (mbee_quad n) in K1 by (auto; len). rewrite !dot_zeros_r in K1. unfold quad in K1. rewrite !dot_zeros_l in K1.
  pose proof (HK (x ++ [0] ++ zeros n)) as K2. rewrite !app_length in K2. specialize (K2 ltac:(cbn; len; lia)).
  rewrite (mbee_quad n) in K2 by (auto; len). rewrite quad_mscale, (quad_eye n) in K2 by auto. replace (quad S (zeros n)) with 0 in K2 by (unfold quad; now rewrite dot_zeros_l).
  pose proof (dot_self_nonneg x). assert (0 <= / r * dot x x) by nra. nra.
Qed.
Lemma skipn_cons_nth (z : vec) n : (n < length z)%nat -> skipn n z = [nth n z 0] ++ skipn (S n) z.
Proof. revert n. induction z as [|a z IH]; intros [|n] H; cbn in *; try lia; [reflexivity|]. apply IH. lia. Qed.
Lemma mbee_sphere_feasible n r : 0 < r -> mbee_constraints n [(mscale (/ r) (eye n), zeros n)] false (mscale (/ r) (eye n)) (zeros n) [1].
Proof.
  intro Hr. assert (I : 0 < / r) by now apply Rinv_0_lt_compat. assert (MA : is_mat n n (mscale (/ r) (eye n))) by auto using is_mat_mscale, is_mat_eye.
  assert (Sy : transpose (mscale (/ r) (eye n)) = mscale (/ r) (eye n)).
  { apply (symmetric_transpose n); auto. intros i j Hi Hj. rewrite !entry_mscale. rewrite !entry_eye by auto. rewrite Nat.eqb_sym. reflexivity. }
  split; [|split; [len|split; [reflexivity|split; [|split; [|discriminate]]]]].
  - split; [exact MA|]. split; [exact Sy|]. intros x Lx. rewrite quad_mscale, (quad_eye n) by auto. pose proof (dot_self_nonneg x). nra.
  - intros t [<-|[]]. lra.
  - constructor; [|constructor]. cbn [fst snd]. intros z Lz.
    assert (EZ : exists x a y, z = x ++ [a] ++ y /\ length x = n /\ length y = n).
    { exists (firstn n z), (nth n z 0), (skipn (S n) z). split; [|split; [rewrite firstn_length; lia|rewrite skipn_length; lia]].
      rewrite <- (firstn_skipn n z) at 1. f_equal. apply skipn_cons_nth. lia. }
    destruct EZ as (x & a & y & -> & Lx & Ly). rewrite (mbee_quad n) by (auto; len). rewrite !dot_zeros_l, !quad_mscale, !(quad_eye n) by auto.
    pose proof (dot_self_nonneg y). assert (0 <= / r * dot y y) by nra. lra.
Qed.
Lemma eig_const n a w V i : (0 < n)%nat -> eigh_spec n (mscale a (eye n)) (w, V) -> (i < n)%nat -> nth i w 0 = a.
Proof.
  intros Hn HE Hi. pose proof HE as (Lw & HV & _). cbn in Lw, HV. pose proof HV as (MV & _). assert (Le : length (unit_vec n i) = n) by apply unit_vec_length.
  assert (MA : is_mat n n (mscale a (eye n))) by auto using is_mat_mscale, is_mat_eye.
  pose proof (eigh_apply n _ w V (unit_vec n i) Hn MA HE Le) as H. rewrite mat_vec_mscale, mat_vec_eye in H by (rewrite mat_vec_length; apply MV).
  assert (K : dot (mat_vec V (unit_vec n i)) (vscale a (mat_vec V (unit_vec n i))) = dot (mat_vec V (unit_vec n i)) (mat_vec V (vmul w (unit_vec n i)))) by now rewrite H.
  rewrite dot_vscale_r in K. rewrite !(orthonormal_dot n n) in K by (auto using orthogonal_orthonormal; rewrite vmul_length; congruence).
  rewrite !dot_unit_vec in K by (auto; rewrite vmul_length; congruence). rewrite nth_vmul in K by congruence. unfold unit_vec in K. rewrite !nth_map_seq, !Nat.eqb_refl in K by auto. lra.
Qed.
Lemma mbee_sphere_result n r eigh linsolve solver E sphere w V :
  (0 < n)%nat -> / 100000000 < r < 100000000 -> ell_sphere r (Some (zeros n)) = Ok E ->
  let Sv := mscale (/ r) (eye n) in
  solver (fun S d => exists ts, mbee_constraints n [(mscale (/ r) (eye n), zeros n)] sphere S d ts) = (Sv, zeros n) ->
  length (linsolve Sv (vneg (zeros n))) = n -> mat_vec Sv (linsolve Sv (vneg (zeros n))) = vneg (zeros n) ->
  eigh Sv = (w, V) -> eigh_spec n Sv (w, V) ->
  exists e, mbe_of_ellipsoids eigh linsolve solver [E] sphere = Ok e /\ e_dim e = n /\
    forall x, length x = n -> (ell_set (e_half e) (e_rot e) (e_center e) x <-> ball (zeros n) (sqrt r) x).
Proof.
  intros Hn Hr HE Sv HS Lc Hc Hg HES. assert (I : 0 < / r) by (apply Rinv_0_lt_compat; lra). assert (Lz : length (zeros n) = n) by len.
  destruct (sphere_forms r (zeros n) E ltac:(lra) ltac:(lia) HE) as (O1 & O2 & O3 & O4 & O5 & O6 & O7 & O8). rewrite Lz in *.
  assert (Z : linsolve Sv (vneg (zeros n)) = zeros n).
  { set (y := linsolve Sv (vneg (zeros n))) in *. clearbody y. unfold Sv in Hc. rewrite mat_vec_mscale, mat_vec_eye in Hc by auto.
    apply (vec_ext n); auto. intros i Hi. assert (X : nth i (vscale (/ r) y) 0 = nth i (vneg (zeros n)) 0) by now rewrite Hc.
    rewrite nth_vscale, nth_vneg, nth_zeros in X. rewrite nth_zeros. nra. }
  destruct (mbee_sphere_feasible n r ltac:(lra)) as (F1 & F2 & F3 & F4 & F5 & _).
  destruct (mbee_result n eigh linsolve solver [E] sphere [(mscale (/ r) (eye n), zeros n)] Sv (zeros n) [1] w V) as (e & R1 & R2 & R3 & R4 & R5 & _); auto; try discriminate.
  - intros E' [<-|[]]. exact O2.
  - constructor; [|constructor]. cbn [fst snd]. rewrite e_A_fin, e_b_fin by (auto; lia). rewrite O6, O7. split; [reflexivity|]. f_equal. vring n.
  - intros AB [<-|[]]. cbn. split; [auto using is_mat_mscale, is_mat_eye|len].
  - split; [exact F1|]. split; [exact F2|]. split; [exact F3|]. split; [exact F4|]. split; [exact F5|]. intros _. exists (/ r). reflexivity.
  - intros a Ha. destruct HES as (Lw & HES). cbn in Lw. destruct (In_nth w a 0 Ha) as (i & Hi & <-). rewrite (eig_const n (/ r) w V i) by (auto; try split; auto; lia).
    unfold np_atol. assert (X : / r < 100000000). { rewrite <- (Rinv_inv 100000000). apply Rinv_lt_contravar; lra. }
    assert (Y : / 100000000 < / r) by (apply Rinv_lt_contravar; lra). rewrite Rinv_mult, !Rinv_inv. lra.
  - exists e. split; [exact R1|]. split; [exact R3|]. intros x Lx. rewrite R5 by auto. rewrite Z. unfold ball. rewrite norm_le_iff by apply sqrt_pos. rewrite sqrt_sqrt by lra.
    unfold Sv. rewrite quad_mscale, (quad_eye n) by len. set (q := dot (vsub x (zeros n)) (vsub x (zeros n))).
    split; intro K; [apply (Rmult_le_reg_l (/ r)); [lra|]; rewrite Rinv_l; lra|]. apply (Rmult_le_compat_l (/ r)) in K; [|lra]. rewrite Rinv_l in K; lra.
Qed.
