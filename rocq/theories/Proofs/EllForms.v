From Verif Require Import Base.Vec Base.Ext Base.VecFacts Spec.Basic Spec.Shapes Spec.ShapeObjects
  Model.Util Model.Polydd Model.Ellipsoid Model.Constraint Proofs.Coord Proofs.Hull Proofs.BoxP Proofs.EllP
  Proofs.InertialT.

Lemma map2_ext_in {A B C} (f g : A -> B -> C) l1 l2 :
  (forall a b, In a l1 -> In b l2 -> f a b = g a b) -> map2 f l1 l2 = map2 g l1 l2.
Proof.
  revert l2; induction l1 as [|a l1 IH]; intros [|b l2] H; cbn; auto. f_equal; [apply H; cbn; auto|].
  apply IH. intros; apply H; cbn; auto.
Qed.
(** ** bordered matrices *)
Definition border (M : mat) (v w : vec) (k : R) : mat := map2 (fun r x => r ++ [x]) M v ++ [w ++ [k]].
Lemma border_is_mat n M v w k : is_mat n n M -> length v = n -> length w = n -> is_mat (S n) (S n) (border M v w k).
Proof.
  intros HM Hv Hw. unfold border. apply is_mat_intro.
  - rewrite app_length, map2_length, (is_mat_length n n M HM), Hv, Nat.min_id. cbn. lia.
  - intros i Hi. destruct (Nat.lt_ge_cases i n) as [Hlt|Hge].
    + assert (LM : length M = n) by apply HM.
      rewrite app_nth1 by (rewrite map2_length; lia).
      rewrite (nth_indep _ [] ([] ++ [0])) by (rewrite map2_length; lia).
      rewrite (nth_map2 _ _ _ [] 0 ([] ++ [0])) by (auto; lia). rewrite app_length. cbn.
      rewrite (is_mat_row n n) by auto. lia.
    + assert (i = n) as -> by lia. assert (LM : length M = n) by apply HM.
      rewrite app_nth2 by (rewrite map2_length; lia).
      rewrite map2_length, LM, Hv, Nat.min_id, Nat.sub_diag. cbn.
      rewrite app_length. cbn. lia.
Qed.
Lemma border_mat_vec n M v w k x s : is_mat n n M -> length v = n -> length w = n -> length x = n ->
  mat_vec (border M v w k) (x ++ [s]) = vadd (mat_vec M x) (vscale s v) ++ [dot w x + k * s].
Proof.
  intros HM Hv Hw Hx. unfold border, mat_vec. rewrite map_app. f_equal.
  - destruct HM as [HL HM]. assert (L : length M = length v) by congruence.
    clear HL Hv. revert v L; induction M as [|r M IH]; intros [|a v] L; cbn in L; try discriminate; [reflexivity|].
    inversion_clear HM. unfold vadd, vscale. cbn [map2 map]. f_equal.
    + rewrite dot_app by congruence. rewrite dot_cons, dot_nil_l. ring.
    + apply IH; auto.
  - cbn [map]. rewrite dot_app by congruence. rewrite dot_cons, dot_nil_l. f_equal. ring.
Qed.
Lemma border_quad n M v w k x s : is_mat n n M -> length v = n -> length w = n -> length x = n ->
  quad (border M v w k) (x ++ [s]) = quad M x + s * dot v x + s * dot w x + k * s * s.
Proof.
  intros HM Hv Hw Hx. unfold quad. rewrite (border_mat_vec n) by auto.
  assert (L : length (mat_vec M x) = n) by (rewrite mat_vec_length; apply HM).
  rewrite dot_app by (rewrite vadd_length; rewrite ?vscale_length; congruence).
  rewrite dot_vadd_r by (rewrite vscale_length; congruence). rewrite dot_vscale_r, dot_cons, dot_nil_l.
  rewrite (dot_comm x v). ring.
Qed.
Lemma border_split n (z : vec) : length z = S n -> exists x s, z = x ++ [s] /\ length x = n.
Proof.
  intro H. exists (removelast z), (last z 0). split.
  - apply app_removelast_last. intros ->. discriminate.
  - rewrite (app_removelast_last 0) in H by (intros ->; discriminate). rewrite app_length in H. cbn in H. lia.
Qed.

(** ** Q diag(d) Q^T *)
Definition congd (Q : mat) (d : vec) : mat := mat_mul (mat_mul Q (diag d)) (transpose Q).
Lemma congd_is_mat n Q d : is_mat n n Q -> length d = n -> (0 < n)%nat -> is_mat n n (congd Q d).
Proof.
  intros HQ Hd Hn. unfold congd. assert (is_mat n n (diag d)) by (rewrite <- Hd; apply is_mat_diag).
  eapply is_mat_mul; [eapply is_mat_mul; eauto| |assumption]. apply is_mat_transpose; auto.
Qed.
Lemma congd_mat_vec n Q d x : is_mat n n Q -> length d = n -> length x = n -> (0 < n)%nat ->
  mat_vec (congd Q d) x = mat_vec Q (vmul d (mat_vec (transpose Q) x)).
Proof.
  intros HQ Hd Hx Hn. assert (HD : is_mat n n (diag d)) by (rewrite <- Hd; apply is_mat_diag).
  pose proof (is_mat_transpose _ _ _ HQ Hn) as HT. unfold congd.
  assert (LT : length (mat_vec (transpose Q) x) = n) by (rewrite mat_vec_length; apply HT).
  rewrite (mat_vec_mat_mul n n n) by (auto; eapply is_mat_mul; eauto).
  rewrite (mat_vec_mat_mul n n n) by auto. rewrite mat_vec_diag by congruence. reflexivity.
Qed.
Lemma congd_quad n Q d x : is_mat n n Q -> length d = n -> length x = n -> (0 < n)%nat ->
  quad (congd Q d) x = lsum (map2 (fun a b => a * b * b) d (mat_vec (transpose Q) x)).
Proof.
  intros HQ Hd Hx Hn. unfold quad. rewrite (congd_mat_vec n) by auto.
  assert (LT : length (mat_vec (transpose Q) x) = n) by (rewrite mat_vec_length; apply (is_mat_transpose n n); auto).
  rewrite (dot_mat_vec_t n n) by (auto; rewrite vmul_length; congruence).
  set (y := mat_vec (transpose Q) x) in *. clearbody y. unfold dot.
  f_equal. assert (L : length d = length y) by congruence. clear -L. revert y L.
  induction d as [|a d IH]; intros [|b y] L; cbn in L; try discriminate; cbn; [reflexivity|].
  f_equal; [ring|]. apply IH. lia.
Qed.
Lemma congd_sym n Q d : is_mat n n Q -> length d = n -> (0 < n)%nat -> symmetric n (congd Q d).
Proof.
  intros HQ Hd Hn. apply transpose_symmetric; [apply congd_is_mat; auto|].
  assert (HD : is_mat n n (diag d)) by (rewrite <- Hd; apply is_mat_diag).
  pose proof (is_mat_transpose _ _ _ HQ Hn) as HT. unfold congd.
  rewrite (transpose_mat_mul n n n) by (auto; eapply is_mat_mul; eauto).
  rewrite (transpose_mat_mul n n n) by auto. rewrite (transpose_involutive n n) by auto.
  rewrite (mat_mul_assoc n n n n) by auto. f_equal. f_equal.
  apply (symmetric_transpose n); [exact HD|]. intros i j Hi Hj. rewrite !entry_diag by lia.
  rewrite (Nat.eqb_sym j i). destruct (Nat.eqb_spec i j); congruence.
Qed.
Lemma congd_mul n Q d1 d2 : orthogonal n Q -> length d1 = n -> length d2 = n -> (0 < n)%nat ->
  mat_mul (congd Q d1) (congd Q d2) = congd Q (vmul d1 d2).
Proof.
  intros HQ H1 H2 Hn. pose proof HQ as (MQ & Q1 & Q2). pose proof (is_mat_transpose _ _ _ MQ Hn) as HT.
  assert (L12 : length (vmul d1 d2) = n) by (rewrite vmul_length; congruence).
  apply (mat_eq_by_vec n n).
  - eapply is_mat_mul; eauto using congd_is_mat.
  - apply congd_is_mat; auto.
  - intros x Hx. rewrite (mat_vec_mat_mul n n n) by auto using congd_is_mat.
    assert (LT : length (mat_vec (transpose Q) x) = n) by (rewrite mat_vec_length; apply HT).
    assert (L2 : length (vmul d2 (mat_vec (transpose Q) x)) = n) by (rewrite vmul_length; congruence).
    rewrite (congd_mat_vec n Q d2 x) by auto.
    rewrite (congd_mat_vec n) by (auto; rewrite mat_vec_length; apply MQ).
    rewrite <- (mat_vec_mat_mul n n n) by auto. rewrite Q1, mat_vec_eye by auto.
    rewrite (congd_mat_vec n) by auto. f_equal. generalize (mat_vec (transpose Q) x). intro y.
    clear. unfold vmul. revert d2 y; induction d1 as [|a d1 IH]; intros [|b d2] [|c y]; cbn; auto.
    f_equal; [ring|apply IH].
Qed.
Lemma congd_ones n Q : orthogonal n Q -> (0 < n)%nat -> congd Q (ones n) = eye n.
Proof.
  intros HQ Hn. pose proof HQ as (MQ & Q1 & Q2).
  apply (mat_eq_by_vec n n); [apply congd_is_mat; auto using ones_length|apply is_mat_eye|].
  intros x Hx. rewrite (congd_mat_vec n) by auto using ones_length. rewrite mat_vec_eye by auto.
  replace (vmul (ones n) (mat_vec (transpose Q) x)) with (mat_vec (transpose Q) x).
  - rewrite <- (mat_vec_mat_mul n n n); auto using is_mat_transpose. rewrite Q2. apply mat_vec_eye; auto.
  - assert (LT : length (mat_vec (transpose Q) x) = n) by (rewrite mat_vec_length; apply (is_mat_transpose n n); auto).
    apply (vec_ext n); [auto|rewrite vmul_length; rewrite ?ones_length; congruence|]. intros i Hi.
    rewrite nth_vmul by (rewrite ones_length; auto). rewrite nth_ones by auto. ring.
Qed.

(** ** finite forms of a non-degenerate ellipsoid *)
Lemma fat_proper h : fat h -> proper_half h.
Proof. intros H i Hi. right. auto. Qed.
Lemma fat_in h a : fat h -> In a h -> np_atol < a.
Proof. intros H Ha. apply In_nth with (d := 0) in Ha as (i & Hi & <-). auto. Qed.
Definition vinv (h : vec) : vec := map Rinv h.
Lemma half_inv_fat e : fat (e_half e) -> e_half_inv e = fin1 (vinv (e_half e)).
Proof.
  intro H. rewrite half_inv_tiny. unfold fin1, vinv. rewrite map_map. apply map_ext_in. intros a Ha.
  rewrite tiny_proper_pos; [reflexivity|]. eapply fat_in; eauto.
Qed.
Definition rS (e : Ell) : mat := congd (e_rot e) (vsq (vinv (e_half e))).
Definition rA (e : Ell) : mat := congd (e_rot e) (vinv (e_half e)).
Lemma vsq_length v : length (vsq v) = length v. Proof. apply map_length. Qed.
Lemma vinv_length v : length (vinv v) = length v. Proof. apply map_length. Qed.

Section Forms.
Variable e : Ell.
Hypothesis He : is_ell e.
Hypothesis Hn : (0 < e_dim e)%nat.
Hypothesis Hf : fat (e_half e).
Let n := e_dim e.

Lemma form_facts : is_mat n n (e_rot e) /\ length (e_center e) = n /\ length (e_half e) = n.
Proof. destruct (ell_facts e He) as (H1 & H2 & H3). auto. Qed.

Lemma ext_congd d : length d = n ->
  emat_mul (emat_mul (fin2 (e_rot e)) (ediag (fin1 d))) (fin2 (transpose (e_rot e))) = fin2 (congd (e_rot e) d).
Proof.
  intro Hd. destruct form_facts as (H1 & H2 & H3).
  rewrite ediag_fin. rewrite (emat_mul_fin n n) by (auto; rewrite <- Hd; apply is_mat_diag).
  rewrite (emat_mul_fin n n); [reflexivity| |assumption]. apply is_mat_transpose; auto.
Qed.
Lemma e_S_fin : e_S e = fin2 (rS e).
Proof.
  unfold e_S, rS. rewrite half_inv_fat, esq_fin by exact Hf. apply ext_congd. rewrite vsq_length, vinv_length. apply form_facts.
Qed.
Lemma e_A_fin : e_A e = fin2 (rA e).
Proof. unfold e_A, rA. rewrite half_inv_fat by exact Hf. apply ext_congd. rewrite vinv_length. apply form_facts. Qed.
Lemma eneg2_fin A : eneg2 (fin2 A) = fin2 (mneg A).
Proof. unfold eneg2, fin2, fin1, mneg, vneg. rewrite !map_map. apply map_ext. intro r. rewrite !map_map. reflexivity. Qed.
Definition rb : vec := mat_vec (mneg (rA e)) (e_center e).
Lemma e_b_fin : e_b e = fin1 rb.
Proof. unfold e_b. rewrite e_A_fin, eneg2_fin, emat_vec_fin. reflexivity. Qed.
Definition rQ : mat :=
  border (mneg (rS e)) (mat_vec (rS e) (e_center e)) (mat_vec (rS e) (e_center e)) (1 - quad (rS e) (e_center e)).

Lemma rS_is_mat : is_mat n n (rS e).
Proof. destruct form_facts as (H1 & H2 & H3). apply congd_is_mat; auto. rewrite vsq_length, vinv_length; auto. Qed.
Lemma rA_is_mat : is_mat n n (rA e).
Proof. destruct form_facts as (H1 & H2 & H3). apply congd_is_mat; auto. rewrite vinv_length; auto. Qed.
Lemma rS_sym : symmetric n (rS e).
Proof. destruct form_facts as (H1 & H2 & H3). apply congd_sym; auto. rewrite vsq_length, vinv_length; auto. Qed.
Lemma rA_sym : symmetric n (rA e).
Proof. destruct form_facts as (H1 & H2 & H3). apply congd_sym; auto. rewrite vinv_length; auto. Qed.

Lemma Q_matrix_fin S c k : is_mat n n S -> symmetric n S -> length c = n ->
  Q_matrix (fin2 S) c k = fin2 (border (mneg S) (mat_vec S c) (mat_vec S c) (k - quad S c)).
Proof.
  intros HS Sy Hc. unfold Q_matrix, border. rewrite emat_vec_fin.
  rewrite (evec_mat_fin n n) by auto. rewrite edot_fin. cbn [esub eneg eadd].
  unfold fin2 at 2. rewrite map_app. f_equal.
  - assert (L : length S = length (mat_vec S c)) by (rewrite mat_vec_length; reflexivity).
    revert L. generalize (mat_vec S c). clear. induction S as [|r S IH]; intros [|x v] L; cbn in L; try discriminate; [reflexivity|].
    cbn. f_equal; [|apply IH; lia]. unfold fin1, vneg. rewrite map_app, !map_map. reflexivity.
  - cbn. unfold fin1 at 2. rewrite map_app. cbn. do 2 f_equal. f_equal.
    assert (E : vec_mat c S = mat_vec S c).
    { rewrite vec_mat_mat_vec. f_equal. apply (symmetric_transpose n); auto. }
    rewrite E. unfold quad, Rminus. do 3 f_equal. apply dot_comm.
Qed.
Lemma e_Q_fin : e_Q e = fin2 rQ.
Proof.
  unfold e_Q. rewrite e_S_fin. destruct form_facts as (H1 & H2 & H3).
  rewrite Q_matrix_fin; [reflexivity|apply rS_is_mat|apply rS_sym|assumption].
Qed.

Hypothesis HQ : orthogonal n (e_rot e).

Lemma rS_quad x : length x = n -> quad (rS e) x = lsum (map2 zq (e_half e) (mat_vec (transpose (e_rot e)) x)).
Proof.
  intro Hx. destruct form_facts as (H1 & H2 & H3). unfold rS.
  rewrite (congd_quad n) by (auto; rewrite vsq_length, vinv_length; auto).
  f_equal. unfold vsq, vinv. rewrite map_map, map2_map_l. apply map2_ext_in.
  intros a b Ha _. unfold zq. rewrite tiny_proper_pos; [unfold Rdiv; ring|]. eapply fat_in; eauto.
Qed.
Lemma ell_set_local x : length x = n ->
  (ell_set (e_half e) (e_rot e) (e_center e) x <-> quad (rS e) (vsub x (e_center e)) <= 1).
Proof.
  intro Hx. destruct form_facts as (H1 & H2 & H3).
  rewrite <- ell_contains_iff by (auto; apply fat_proper; auto).
  rewrite ell_contains_local by (apply vec_mat_len; auto).
  rewrite rS_quad by (rewrite vsub_length; congruence). rewrite vec_mat_mat_vec.
  split; [intros [_ H]; lra|]. intro H. split; [|lra]. intros i Hi Ht.
  rewrite tiny_proper_pos in Ht; [discriminate|]. auto.
Qed.
Lemma rA_mul : mat_mul (rA e) (rA e) = rS e.
Proof.
  destruct form_facts as (H1 & H2 & H3). unfold rA. rewrite (congd_mul n) by (auto; rewrite vinv_length; auto).
  unfold rS. f_equal. unfold vsq, vmul. generalize (vinv (e_half e)). clear. induction l; cbn; auto. f_equal; auto.
Qed.
Lemma affine_form x : length x = n ->
  norm (vadd (mat_vec (rA e) x) rb) * norm (vadd (mat_vec (rA e) x) rb) = quad (rS e) (vsub x (e_center e)).
Proof.
  intro Hx. destruct form_facts as (H1 & H2 & H3). rewrite norm_sqr. unfold rb.
  pose proof rA_is_mat as HA. assert (LA : length (rA e) = n) by apply HA.
  assert (E : vadd (mat_vec (rA e) x) (mat_vec (mneg (rA e)) (e_center e)) = mat_vec (rA e) (vsub x (e_center e))).
  { rewrite mat_vec_vsub by congruence. rewrite mat_vec_mneg.
    apply (vec_ext n); [rewrite vadd_length; rewrite ?vneg_length, ?mat_vec_length; auto|rewrite vsub_length; rewrite ?mat_vec_length; auto|].
    intros i Hi. rewrite nth_vadd, nth_vsub, nth_vneg by (rewrite ?vneg_length, ?mat_vec_length; auto). ring. }
  rewrite E. set (y := vsub x (e_center e)). assert (Hy : length y = n) by (unfold y; rewrite vsub_length; congruence).
  rewrite (dot_mat_vec_t n n) by (auto; rewrite mat_vec_length; auto).
  rewrite (symmetric_transpose n) by (auto using rA_sym).
  rewrite <- (mat_vec_mat_mul n n n) by auto. rewrite rA_mul. unfold quad. apply dot_comm.
Qed.
Lemma mneg_quad n' M x : is_mat n' n' M -> length x = n' -> quad (mneg M) x = - quad M x.
Proof. intros. unfold quad. rewrite mat_vec_mneg, dot_vneg_r. reflexivity. Qed.
Lemma rQ_quad x : length x = n -> quad rQ (x ++ [1]) = 1 - quad (rS e) (vsub x (e_center e)).
Proof.
  intro Hx. destruct form_facts as (H1 & H2 & H3). pose proof rS_is_mat as HS. pose proof rS_sym as Sy.
  assert (LS : length (mat_vec (rS e) (e_center e)) = n) by (rewrite mat_vec_length; apply HS).
  unfold rQ. rewrite (border_quad n) by (auto; apply is_mat_mneg; auto).
  rewrite (mneg_quad n) by auto. unfold quad at 3. rewrite mat_vec_vsub by congruence.
  assert (LX : length (mat_vec (rS e) x) = n) by (rewrite mat_vec_length; apply HS).
  rewrite dot_vsub_l, !dot_vsub_r by congruence. unfold quad.
  rewrite (dot_comm (mat_vec (rS e) (e_center e)) x).
  assert (E : dot (e_center e) (mat_vec (rS e) x) = dot x (mat_vec (rS e) (e_center e))).
  { rewrite (dot_mat_vec_t n n) by auto. rewrite (symmetric_transpose n) by auto. apply dot_comm. }
  rewrite E. ring.
Qed.
Lemma E_inverse : mat_mul (e_E e) (rS e) = eye n /\ mat_mul (rS e) (e_E e) = eye n.
Proof.
  destruct form_facts as (H1 & H2 & H3). unfold e_E. fold (congd (e_rot e) (vsq (e_half e))). unfold rS.
  assert (A : vmul (vsq (e_half e)) (vsq (vinv (e_half e))) = ones n).
  { apply (vec_ext n); [rewrite vmul_length; rewrite ?vsq_length, ?vinv_length; auto|apply ones_length|].
    intros i Hi. rewrite nth_vmul by (rewrite !vsq_length, vinv_length; auto). rewrite nth_ones by auto.
    unfold vsq, vinv. rewrite map_map. rewrite !(nth_map_0 _ _ _ 0) by lia. specialize (Hf i ltac:(lia)).
    pose proof np_atol_pos. field. lra. }
  assert (B : vmul (vsq (vinv (e_half e))) (vsq (e_half e)) = ones n).
  { rewrite <- A. unfold vmul. generalize (vsq (e_half e)) (vsq (vinv (e_half e))). clear.
    induction l as [|a l IH]; intros [|b l']; cbn; auto. f_equal; [ring|apply IH]. }
  rewrite !(congd_mul n) by (auto; rewrite !vsq_length, ?vinv_length; auto). rewrite A, B.
  split; apply congd_ones; auto.
Qed.
End Forms.
