(** C50, C51: realizability on ellipsoids. *)
From Verif Require Import Base.Vec Base.VecFacts Base.Ext Spec.Basic Spec.Objects Spec.Realizable Spec.Shapes Spec.ShapeObjects
  Model.Util Model.Polydd Model.Constraint Model.Inertial Model.Ellipsoid Model.Realize
  Proofs.Coord Proofs.LinAlg Proofs.UtilP Proofs.InertialP Proofs.ConsistentP Proofs.BoxP Proofs.EllP Proofs.EllForms Proofs.Decomp Proofs.PimP.

(** ** the quadratic form of an ellipsoid in homogeneous coordinates *)
Definition qmat (Q : mat) (c d : vec) (k : R) : mat :=
  border (mneg (congd Q d)) (mat_vec (congd Q d) c) (mat_vec (congd Q d) c) (k - quad (congd Q d) c).
Definition wsum (d y : vec) : R := lsum (map2 (fun a b => a * b * b) d y).
Section QMat.
Variables (Q : mat) (c d : vec) (k : R).
Hypothesis HQ : is_mat 3 3 Q.
Hypothesis Hc : length c = 3%nat.
Hypothesis Hd : length d = 3%nat.
Lemma qmat_is_mat : is_mat 4 4 (qmat Q c d k).
Proof.
  pose proof (congd_is_mat 3 Q d HQ Hd ltac:(lia)) as HS. unfold qmat.
  apply border_is_mat; [now apply is_mat_mneg| |]; rewrite mat_vec_length; apply HS.
Qed.
Lemma qmat_quad x w : length x = 3%nat -> quad (qmat Q c d k) (x ++ [w]) = k * w * w - wsum d (mat_vec (transpose Q) (vsub x (vscale w c))).
Proof.
  intro Hx. pose proof (congd_is_mat 3 Q d HQ Hd ltac:(lia)) as HS. pose proof (congd_sym 3 Q d HQ Hd ltac:(lia)) as Sy. unfold wsum.
  assert (Lv : length (vsub x (vscale w c)) = 3%nat) by (rewrite vsub_length; rewrite ?vscale_length; congruence).
  rewrite <- (congd_quad 3) by (auto; lia). unfold qmat. set (S := congd Q d) in *. clearbody S.
  assert (LS : forall v, length (mat_vec S v) = 3%nat) by (intro v; rewrite mat_vec_length; apply HS).
  rewrite (border_quad 3) by (auto; apply is_mat_mneg; auto). rewrite (mneg_quad 3) by auto.
  unfold quad at 3. rewrite mat_vec_vsub by (rewrite ?vscale_length; congruence). rewrite mat_vec_vscale.
  rewrite dot_vsub_l, !dot_vsub_r by (rewrite ?vscale_length, ?LS; congruence). rewrite !dot_vscale_l, !dot_vscale_r. unfold quad.
  rewrite (dot_comm (mat_vec S c) x).
  assert (E : dot c (mat_vec S x) = dot x (mat_vec S c)).
  { rewrite (dot_mat_vec_t 3 3) by auto. rewrite (symmetric_transpose 3) by auto. apply dot_comm. }
  rewrite E. ring.
Qed.
Lemma qmat_sym : symmetric 4 (qmat Q c d k).
Proof.
  pose proof (congd_is_mat 3 Q d HQ Hd ltac:(lia)) as HS. pose proof (congd_sym 3 Q d HQ Hd ltac:(lia)) as Sy. unfold qmat.
  set (S := congd Q d) in *. clearbody S. generalize (k - quad S c). intro k'.
  assert (LS : length (mat_vec S c) = 3%nat) by (rewrite mat_vec_length; apply HS). set (v := mat_vec S c) in *. clearbody v.
  destruct_vecs. pose proof (sym33 _ _ _ _ _ _ _ _ _ Sy) as (-> & -> & ->). apply sym44_intro.
Qed.
End QMat.

Definition dnz (h : vec) : vec := map (fun a => if tiny a then 0 else / a * / a) h.
Definition dz (h : vec) : vec := map (fun a => if tiny a then 1 else 0) h.
Lemma dnz_length h : length (dnz h) = length h. Proof. apply map_length. Qed.
Lemma dz_length h : length (dz h) = length h. Proof. apply map_length. Qed.
Lemma wsum_dnz h y : wsum (dnz h) y = lsum (map2 zq h y).
Proof. unfold wsum, dnz. rewrite map2_map_l. f_equal. apply map2_ext_in. intros a b _ _. unfold zq. destruct (tiny a); ring. Qed.
Lemma wsum_dz_nonneg h y : 0 <= wsum (dz h) y.
Proof.
  unfold wsum, dz. rewrite map2_map_l. revert y; induction h as [|a h IH]; intros [|b y]; cbn; try lra.
  change (fold_right Rplus 0) with lsum. specialize (IH y). pose proof (sqr_nonneg b). destruct (tiny a); lra.
Qed.
Lemma wsum_dz_zero h y : length y = length h ->
  (wsum (dz h) y = 0 <-> forall i, (i < length h)%nat -> tiny (nth i h 0) = true -> nth i y 0 = 0).
Proof.
  unfold wsum, dz. rewrite map2_map_l. revert y; induction h as [|a h IH]; intros [|b y] L; cbn in L; try discriminate.
  - split; [intros _ i Hi; cbn in Hi; lia|reflexivity].
  - cbn [map2 lsum fold_right]. change (fold_right Rplus 0) with lsum. injection L as L. specialize (IH y L).
    pose proof (wsum_dz_nonneg h y) as N. unfold wsum, dz in N. rewrite map2_map_l in N. pose proof (sqr_nonneg b) as Nb. split.
    + intros E [|i] Hi Ht; cbn [nth] in *.
      * rewrite Ht in E. apply Rsqr_0_uniq. unfold Rsqr. lra.
      * apply IH; [destruct (tiny a); lra|cbn in Hi; lia|exact Ht].
    + intro H. rewrite (proj2 IH) by (intros i Hi Ht; apply (H (S i)); [cbn; lia|exact Ht]).
      destruct (tiny a) eqn:Ea; [|ring]. assert (b = 0) as -> by (apply (H 0%nat); [cbn; lia|exact Ea]). ring.
Qed.

(** ** which homogeneous points are points of the ellipsoid *)
Definition flat_ok (h y : vec) : Prop := forall i, (i < length h)%nat -> tiny (nth i h 0) = true -> nth i y 0 = 0.
Lemma ell_out h Q c p : orthogonal 3 Q -> length c = 3%nat -> length h = 3%nat -> proper_half h -> ell_set h Q c p ->
  length p = 3%nat /\ flat_ok h (mat_vec (transpose Q) (vsub p c)) /\ lsum (map2 zq h (mat_vec (transpose Q) (vsub p c))) <= 1.
Proof.
  intros HQ Hc Hh Hpr (u & Lu & Hu & E).
  assert (Lp : length p = 3%nat) by (rewrite E; apply move_len; auto; apply HQ). split; [exact Lp|].
  apply (move_inv 3) in E; auto; [|rewrite vmul_length; auto; congruence]. rewrite <- E. split.
  - intros i Hi Ht. rewrite nth_vmul by auto. apply tiny_proper in Ht; [|apply Hpr, Hi]. rewrite Ht. ring.
  - pose proof (dot_lsum_zq h u Hpr Lu). lra.
Qed.
Lemma zq_scale h y s : lsum (map2 zq h (vscale s y)) = s * s * lsum (map2 zq h y).
Proof.
  revert y; induction h as [|a h IH]; intros [|b y]; try (cbn; ring). cbn [vscale map map2 lsum fold_right]. change (fold_right Rplus 0) with lsum. fold (vscale s y). rewrite IH.
  unfold zq. destruct (tiny a); ring.
Qed.
Lemma ell_in h Q c x w : orthogonal 3 Q -> length c = 3%nat -> length h = 3%nat -> length x = 3%nat -> w <> 0 ->
  flat_ok h (mat_vec (transpose Q) (vsub x (vscale w c))) ->
  lsum (map2 zq h (mat_vec (transpose Q) (vsub x (vscale w c)))) <= w * w -> ell_set h Q c (vscale (/ w) x).
Proof.
  intros HQ Hc Hh Hx Hw. set (y := mat_vec (transpose Q) (vsub x (vscale w c))). intros Hz Hs.
  assert (Ly : length y = 3%nat) by (unfold y; rewrite mat_vec_length; apply (is_mat_transpose 3 3); [apply HQ|lia]).
  assert (Ey : mat_vec (transpose Q) (vsub (vscale (/ w) x) c) = vscale (/ w) y).
  { unfold y. rewrite <- mat_vec_vscale. f_equal. apply (vec_ext 3); [rewrite vsub_length; rewrite ?vscale_length; congruence|rewrite vscale_length, vsub_length; rewrite ?vscale_length; congruence|].
    intros i Hi. rewrite nth_vsub, !nth_vscale, nth_vsub, nth_vscale by (rewrite ?vscale_length; congruence). field. exact Hw. }
  exists (unscale h (vscale (/ w) y)). rewrite unscale_length by (rewrite vscale_length; congruence). split; [reflexivity|]. split.
  - rewrite unscale_spec by (rewrite vscale_length; congruence). rewrite zq_scale.
    pose proof (Rsqr_pos_lt w Hw) as Pw. unfold Rsqr in Pw. apply Rmult_le_reg_l with (w * w); auto.
    replace (w * w * (/ w * / w * lsum (map2 zq h y))) with (lsum (map2 zq h y)) by (field; auto). lra.
  - apply (move_inv 3); auto.
    + rewrite vmul_length; rewrite ?unscale_length; rewrite ?vscale_length; congruence.
    + rewrite vscale_length; auto.
    + rewrite Ey. apply vmul_unscale; [rewrite vscale_length; congruence|]. intros i Hi Ht. rewrite nth_vscale, Hz by auto. ring.
Qed.
Lemma lsum_zq_nonneg h y : 0 <= lsum (map2 zq h y).
Proof.
  revert y; induction h as [|a h IH]; intros [|b y]; cbn; try lra. change (fold_right Rplus 0) with lsum.
  specialize (IH y). pose proof (zq_nonneg a b). lra.
Qed.
Lemma zq_zero h y : length y = length h -> flat_ok h y -> lsum (map2 zq h y) <= 0 -> y = zeros (length h).
Proof.
  revert y; induction h as [|a h IH]; intros [|b y] L Hz Hs; cbn in L; try discriminate; [reflexivity|].
  cbn [map2 lsum fold_right] in Hs. change (fold_right Rplus 0) with lsum in Hs.
  pose proof (lsum_zq_nonneg h y). pose proof (zq_nonneg a b). cbn [length zeros repeat]. f_equal.
  - destruct (tiny a) eqn:Ea; [apply (Hz 0%nat); cbn; auto; lia|].
    assert (E : zq a b = 0) by lra. unfold zq in E. rewrite Ea in E. pose proof (tiny_nz a Ea).
    assert (F : (/ a * b) * (/ a * b) = 0) by lra. apply Rsqr_0_uniq in F.
    apply Rmult_integral in F as [F|F]; [|exact F]. exfalso. now apply (Rinv_neq_0_compat a).
  - apply IH; [lia| |lra]. intros i Hi Ht. apply (Hz (S i)); [cbn; lia|exact Ht].
Qed.
Lemma ell_point_zero h Q c x w : orthogonal 3 Q -> length c = 3%nat -> length h = 3%nat -> length x = 3%nat -> w = 0 ->
  flat_ok h (mat_vec (transpose Q) (vsub x (vscale w c))) ->
  lsum (map2 zq h (mat_vec (transpose Q) (vsub x (vscale w c)))) <= w * w -> x = zeros 3.
Proof.
  intros HQ Hc Hh Hx -> Hz Hs.
  assert (Lv : length (vsub x (vscale 0 c)) = 3%nat) by (rewrite vsub_length; rewrite ?vscale_length; congruence).
  apply zq_zero in Hz as E; [|rewrite mat_vec_length; rewrite Hh; apply (is_mat_transpose 3 3); [apply HQ|lia]|lra].
  assert (E2 : vsub x (vscale 0 c) = zeros 3).
  { rewrite Hh in E. destruct HQ as (MQ & Q1 & Q2).
    transitivity (mat_vec (mat_mul Q (transpose Q)) (vsub x (vscale 0 c))); [rewrite Q2, mat_vec_eye by auto; reflexivity|].
    rewrite (mat_vec_mat_mul 3 3 3) by (auto; apply is_mat_transpose; auto; lia). rewrite E.
    apply (vec_ext 3); [rewrite mat_vec_length; apply MQ|reflexivity|]. intros i Hi. destruct_vecs. destruct i as [|[|[|i]]]; cbn; try lia; ring. }
  destruct_vecs. injection E2 as E1 E2 E3. cbn. f_equal; [lra|]. f_equal; [lra|]. f_equal. lra.
Qed.
Lemma center_in h Q c : length c = 3%nat -> is_mat 3 3 Q -> length h = 3%nat -> ell_set h Q c c.
Proof.
  intros Hc HQ Hh. exists (zeros 3). split; [auto|]. split; [cbn; lra|]. destruct_vecs. cbn. list_eq; ring.
Qed.

(** ** non-negative trace and zero trace characterise realizability *)
Section Core.
Variables (h : vec) (Q : mat) (c : vec).
Hypothesis HQ : orthogonal 3 Q.
Hypothesis Hc : length c = 3%nat.
Hypothesis Hh : length h = 3%nat.
Hypothesis Hpr : proper_half h.
Let Qnz := qmat Q c (dnz h) 1.
Let Qz := qmat Q c (dz h) 0.
Lemma core_mats : is_mat 4 4 Qnz /\ is_mat 4 4 Qz /\ symmetric 4 Qnz.
Proof.
  pose proof HQ as (MQ & _). split; [|split]; [apply qmat_is_mat|apply qmat_is_mat|apply qmat_sym]; auto; rewrite ?dnz_length, ?dz_length; auto.
Qed.
Lemma Qnz_quad x w : length x = 3%nat -> quad Qnz (x ++ [w]) = w * w - lsum (map2 zq h (mat_vec (transpose Q) (vsub x (vscale w c)))).
Proof.
  intro Hx. pose proof HQ as (MQ & _). unfold Qnz. rewrite qmat_quad by (auto; rewrite dnz_length; auto). rewrite wsum_dnz. ring.
Qed.
Lemma Qz_quad x w : length x = 3%nat -> quad Qz (x ++ [w]) = - wsum (dz h) (mat_vec (transpose Q) (vsub x (vscale w c))).
Proof. intro Hx. pose proof HQ as (MQ & _). unfold Qz. rewrite qmat_quad by (auto; rewrite dz_length; auto). ring. Qed.
Lemma local_length v : length (mat_vec (transpose Q) v) = 3%nat.
Proof. rewrite mat_vec_length. apply (is_mat_transpose 3 3); [apply HQ|lia]. Qed.

Lemma core_forward J : realizable_J (ell_set h Q c) J -> 0 <= trace (mat_mul Qnz J) /\ trace (mat_mul Qz J) = 0.
Proof.
  intros (s & Ho & Hn & Hin & HJ). destruct core_mats as (M1 & M2 & _). rewrite !(trace_pim _ s J) by auto. 
  assert (V1 : forall p : vec, vsub p (vscale 1 c) = vsub p c) by (intro p; f_equal; apply vscale_1).
  split.
  - apply lsum_nonneg. intros x Hx. apply in_map_iff in Hx as (mp & <- & Hm). apply Rmult_le_pos; [auto|].
    destruct (ell_out h Q c (snd mp) HQ Hc Hh Hpr (Hin mp Hm)) as (Lp & _ & Hs). rewrite Qnz_quad, V1 by auto. lra.
  - apply lsum_map_zero. intros mp Hm. destruct (ell_out h Q c (snd mp) HQ Hc Hh Hpr (Hin mp Hm)) as (Lp & Hz & _).
    rewrite Qz_quad, V1 by auto. rewrite (proj2 (wsum_dz_zero h _ ltac:(rewrite local_length; auto)) Hz). ring.
Qed.
Lemma core_backward J : PSD 4 J -> 0 <= trace (mat_mul Qnz J) -> trace (mat_mul Qz J) = 0 -> realizable_J (ell_set h Q c) J.
Proof.
  intros HJ Tnz Tz. destruct core_mats as (M1 & M2 & S1). destruct (decomp_exists 4 J HJ) as (zs & Hd).
  rewrite (trace_decomp 4 _ zs) in Tnz by (auto; lia).
  destruct (split_nonneg 4 Qnz M1 S1 zs) as (zs' & Hz' & HE'); [apply Hd|exact Tnz|].
  assert (Hd' : decomp 4 zs' J).
  { destruct Hd as (MJ & Lz & HE). split; [exact MJ|]. split; [intros z Hz; apply Hz', Hz|]. intros i j Hi Hj. rewrite HE by auto. apply HE'. }
  rewrite (trace_decomp 4 _ zs') in Tz by (auto; lia).
  assert (Neg : forall z, In z zs' -> quad Qz z <= 0).
  { intros z Hz. destruct (border_split 3 z (proj1 (Hz' z Hz))) as (x & w & -> & Lx). rewrite Qz_quad by auto.
    pose proof (wsum_dz_nonneg h (mat_vec (transpose Q) (vsub x (vscale w c)))). lra. }
  assert (Zero : forall z, In z zs' -> quad Qz z = 0).
  { intros z Hz. assert (Z : lsum (map (fun z => - quad Qz z) zs') = 0).
    { rewrite (lsum_map_ext _ (fun z => (-1) * quad Qz z)) by (intros; ring). rewrite lsum_map_scal. rewrite Tz. ring. }
    pose proof (lsum_nonneg_zero (map (fun z => - quad Qz z) zs')) as N. specialize (N ltac:(intros t Ht; apply in_map_iff in Ht as (z' & <- & Hz''); specialize (Neg z' Hz''); lra) Z (- quad Qz z) ltac:(apply in_map_iff; exists z; auto)). lra. }
  apply (realizable_of_decomp _ c zs'); auto; [apply center_in; auto; apply HQ|].
  intros x w Hin Lx. destruct (Hz' _ Hin) as (_ & N). specialize (Zero _ Hin). rewrite Qnz_quad in N by auto. rewrite Qz_quad in Zero by auto.
  assert (F : flat_ok h (mat_vec (transpose Q) (vsub x (vscale w c)))) by (refine (proj1 (wsum_dz_zero h _ _) _); [rewrite local_length; auto|lra]).
  split; intro W; [apply (ell_point_zero h Q c x w); auto; lra|]. apply ell_in; auto. lra.
Qed.
Lemma core_iff J : PSD 4 J -> (realizable_J (ell_set h Q c) J <-> 0 <= trace (mat_mul Qnz J) /\ trace (mat_mul Qz J) = 0).
Proof. intro HJ. split; [apply core_forward|]. intros (H1 & H2). now apply core_backward. Qed.
Lemma core_fat J : fat h -> PSD 4 J -> (realizable_J (ell_set h Q c) J <-> 0 <= trace (mat_mul Qnz J)).
Proof.
  intros Hf HJ. rewrite core_iff by auto. split; [tauto|]. intro H. split; [exact H|].
  destruct core_mats as (_ & M2 & _). destruct (decomp_exists 4 J HJ) as (zs & Hd). rewrite (trace_decomp 4 _ zs) by (auto; lia).
  apply lsum_map_zero. intros z Hz. destruct (border_split 3 z (proj1 (proj2 Hd) z Hz)) as (x & w & -> & Lx).
  rewrite Qz_quad by auto. rewrite (proj2 (wsum_dz_zero h _ ltac:(rewrite local_length; auto))); [ring|].
  intros i Hi Ht. rewrite tiny_proper_pos in Ht; [discriminate|auto].
Qed.
End Core.

(** ** the matrices that the code computes *)
Lemma all_fin_fin2 A : all_fin (fin2 A) = true.
Proof. unfold all_fin, fin2. rewrite forallb_forall. intros r Hr. apply in_map_iff in Hr as (v & <- & _). rewrite forallb_forall. intros a Ha. apply in_map_iff in Ha as (x & <- & _). reflexivity. Qed.
Lemma to_R_fin2 A : map (map to_R) (fin2 A) = A.
Proof. unfold fin2. rewrite map_map. rewrite <- (map_id A) at 2. apply map_ext. intro r. apply map_to_R_fin. Qed.
Lemma trace_mul_fin Q J : trace_mul (fin2 Q) J = Ok (trace (mat_mul Q J)).
Proof. unfold trace_mul. now rewrite all_fin_fin2, to_R_fin2. Qed.

Lemma e_Q_qmat e : is_ell e -> e_dim e = 3%nat -> fat (e_half e) -> e_Q e = fin2 (qmat (e_rot e) (e_center e) (dnz (e_half e)) 1).
Proof.
  intros He Hd Hf. rewrite e_Q_fin by (auto; lia). unfold rQ, qmat, rS.
  assert (E : vsq (vinv (e_half e)) = dnz (e_half e)).
  { unfold vsq, vinv, dnz. rewrite map_map. apply map_ext_in. intros a Ha. rewrite tiny_proper_pos; [reflexivity|]. eapply fat_in; eauto. }
  now rewrite E.
Qed.
Lemma proper_tiny h i : proper_half h -> (i < length h)%nat -> (tiny (nth i h 0) = true <-> nth i h 0 = 0).
Proof. intros Hp Hi. split; [intro Ht; apply tiny_proper in Ht; auto; apply Hp, Hi|intros ->; apply tiny_0]. Qed.
Lemma Q_degenerate_qmat e : is_ell e -> e_dim e = 3%nat ->
  Q_degenerate e = (fin2 (qmat (e_rot e) (e_center e) (dnz (e_half e)) 1), fin2 (qmat (e_rot e) (e_center e) (dz (e_half e)) 0)).
Proof.
  intros He Hd. destruct (ell_facts e He) as (_ & HQ & Hc). pose proof He as He'. unfold Q_degenerate.
  rewrite Hd in *. assert (Lh : length (e_half e) = 3%nat) by exact Hd.
  assert (E1 : eself_outer (map (fun r => map2 emul (select (map negb (e_z e)) (e_half_inv e)) (fin1 r)) (select_cols (map negb (e_z e)) (e_rot e)))
               = fin2 (congd (e_rot e) (dnz (e_half e)))).
  { rewrite e_z_tiny, half_inv_tiny. generalize (e_half e) (e_rot e) HQ Lh. intros h Q MQ L. destruct_vecs.
    unfold dnz. cbn [map]. repeat (match goal with |- context [tiny ?a] => destruct (tiny a) end); cbn; unfold fin2, fin1; cbn; list_eq; f_equal; ring. }
  assert (E2 : eself_outer (fin2 (select_cols (e_z e) (e_rot e))) = fin2 (congd (e_rot e) (dz (e_half e)))).
  { rewrite e_z_tiny. generalize (e_half e) (e_rot e) HQ Lh. intros h Q MQ L. destruct_vecs.
    unfold dz. cbn [map]. repeat (match goal with |- context [tiny ?a] => destruct (tiny a) end); cbn; unfold fin2, fin1; cbn; list_eq; f_equal; ring. }
  rewrite E1, E2. rewrite !(Q_matrix_fin e) by (auto; rewrite ?Hd; auto; try lia; first [apply congd_is_mat|apply congd_sym]; auto; rewrite ?dnz_length, ?dz_length; auto; lia).
  reflexivity.
Qed.
Lemma rank_count e : e_dim e = 3%nat -> proper_half (e_half e) -> e_rank e = length (filter negb (map tiny (e_half e))).
Proof.
  unfold e_dim, e_rank. intros _ Hp. assert (H : forall a, In a (e_half e) -> negb (Reqb a 0) = negb (tiny a)).
  { intros a Ha. apply In_nth with (d := 0) in Ha as (i & Hi & <-). f_equal. pose proof (proper_tiny _ i Hp Hi) as P.
    destruct (tiny (nth i (e_half e) 0)) eqn:Et; [apply Reqb_iff; now apply P|]. destruct (Reqb (nth i (e_half e) 0) 0) eqn:E; auto.
    apply Reqb_iff in E. apply P in E. congruence. }
  clear Hp. induction (e_half e) as [|a l IH]; [reflexivity|]. cbn. rewrite H by (cbn; auto).
  destruct (tiny a); cbn; rewrite IH by (intros; apply H; cbn; auto); reflexivity.
Qed.
