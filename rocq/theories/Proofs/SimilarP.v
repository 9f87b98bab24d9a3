(** Extremal ellipsoids of moved and scaled points. *)
From Verif Require Import Base.Vec Base.VecFacts Base.Ext Spec.Basic Spec.Shapes Spec.ShapeObjects Spec.DoubleDesc Spec.PolySpec Spec.ExtremalSpec Spec.Geodesic Spec.John Model.Util Model.Polydd Model.Constraint Model.Ellipsoid Model.Poly Model.Extremal
  Proofs.LinAlg Proofs.Hull Proofs.EllP Proofs.ConstructP Proofs.MatAlg Proofs.Coord Proofs.Spectral Proofs.GeodesicP Proofs.ExtremalP Proofs.ExtremalOpt Proofs.LogDet Proofs.JohnU Proofs.JohnE Proofs.JohnX Proofs.JohnR Proofs.JohnM Proofs.JohnEx Proofs.OracleP.

(** * log_det of a moved and scaled matrix *)
Section D.
Context (n : nat) (Hn : (0 < n)%nat).
Lemma congruence_vec Q X x : is_mat n n Q -> is_mat n n X -> length x = n -> mat_vec (congruence Q X) x = mat_vec Q (mat_vec X (mat_vec (transpose Q) x)).
Proof.
  intros HQ HX Lx. pose proof (is_mat_transpose _ _ _ HQ Hn) as HT. assert (length (mat_vec (transpose Q) x) = n) by (rewrite mat_vec_length; apply HT).
  unfold congruence. rewrite (mat_vec_mat_mul n n n), (mat_vec_mat_mul n n n); auto. apply (is_mat_mat_mul _ _ _ _ n); auto. now apply (is_mat_ncols n).
Qed.
Lemma congruence_ok Q X : is_mat n n Q -> is_mat n n X -> is_mat n n (congruence Q X).
Proof.
  intros HQ HX. pose proof (is_mat_transpose _ _ _ HQ Hn) as HT. unfold congruence. apply (is_mat_mat_mul _ _ _ _ n); [|now apply (is_mat_ncols n)]. apply (is_mat_mat_mul _ _ _ _ n); auto. now apply (is_mat_ncols n).
Qed.
Lemma sim_diag c Q V w : orthogonal n Q -> orthogonal n V -> length w = n -> mscale c (congruence Q (congruent V w)) = congruent (mat_mul Q V) (vscale c w).
Proof.
  intros HQ HV Hw. pose proof (proj1 HQ) as MQ. pose proof (proj1 HV) as MV. pose proof (is_mat_transpose _ _ _ MQ Hn) as TQ. pose proof (is_mat_transpose _ _ _ MV Hn) as TV.
  assert (MC : is_mat n n (congruent V w)) by now apply congr_ok. assert (QV : is_mat n n (mat_mul Q V)) by (apply (is_mat_mat_mul _ _ _ _ n); auto; now apply (is_mat_ncols n)).
  assert (Lc : length (vscale c w) = n) by now rewrite vscale_length. apply (mat_eq_by_vec n n); [apply is_mat_mscale; now apply congruence_ok|now apply congr_ok|]. intros x Lx.
  rewrite mat_vec_mscale, congruence_vec by auto. set (z := mat_vec (transpose Q) x). assert (Lz : length z = n) by (unfold z; rewrite mat_vec_length; apply TQ).
  assert (Lu : length (mat_vec (transpose V) z) = n) by (rewrite mat_vec_length; apply TV).
  change (congruent V w) with (congruence V (diag w)). change (congruent (mat_mul Q V) (vscale c w)) with (congruence (mat_mul Q V) (diag (vscale c w))).
  assert (DW : forall u, length u = n -> is_mat n n (diag u)) by (intros; now apply dg_ok). rewrite !congruence_vec by auto.
  rewrite (transpose_mat_mul n n n) by auto. rewrite (mat_vec_mat_mul n n n (transpose V)) by auto. fold z.
  rewrite !mat_vec_diag by congruence. assert (Lm : length (vmul w (mat_vec (transpose V) z)) = n) by (rewrite vmul_length; congruence).
  replace (vmul (vscale c w) (mat_vec (transpose V) z)) with (vscale c (vmul w (mat_vec (transpose V) z))).
  - rewrite !mat_vec_vscale. rewrite (mat_vec_mat_mul n n n) by auto. reflexivity.
  - apply (vec_ext n); [now rewrite vscale_length|rewrite vmul_length; congruence|]. intros i Hi. rewrite nth_vscale, !nth_vmul, nth_vscale by congruence. ring.
Qed.
Lemma sim_SPD c Q X : 0 < c -> orthogonal n Q -> SPD n X -> SPD n (mscale c (congruence Q X)).
Proof.
  intros Hc HQ HX. destruct (SPD_diag n Hn X HX) as (V & w & HV & Hw & HP & ->). rewrite sim_diag by auto.
  assert (HO : orthogonal n (mat_mul Q V)) by (apply ExtremalOpt.orthogonal_mul; auto). apply (congruent_SPD n Hn _ (transpose (mat_mul Q V))).
  - now apply inv_orth.
  - now rewrite vscale_length.
  - intros a Ha. apply in_map_iff in Ha as (b & <- & Hb). specialize (HP b Hb). nra.
Qed.
Lemma sim_log_det log_det c Q X : log_det_spec n log_det -> 0 < c -> orthogonal n Q -> SPD n X -> log_det (mscale c (congruence Q X)) = log_det X + INR n * ln c.
Proof.
  intros HL Hc HQ HX. destruct (SPD_diag n Hn X HX) as (V & w & HV & Hw & HP & ->). rewrite sim_diag by auto. unfold congruent. rewrite HL, HL; auto.
  - rewrite <- Hw. clear - HP Hc. induction w as [|a w IH]; [change (0 = 0 + 0 * ln c); ring|]. change (vscale c (a :: w)) with (c * a :: vscale c w). cbn [map length]. change (lsum (ln (c * a) :: map ln (vscale c w))) with (ln (c * a) + lsum (map ln (vscale c w))).
    change (lsum (ln a :: map ln w)) with (ln a + lsum (map ln w)). rewrite IH by (intros x Hx; apply HP; now right). rewrite ln_mult, S_INR; [ring|auto|apply HP; now left].
  - apply ExtremalOpt.orthogonal_mul; auto.
  - now rewrite vscale_length.
  - intros a Ha. apply in_map_iff in Ha as (b & <- & Hb). specialize (HP b Hb). nra.
Qed.
Lemma congruence_eye X : is_mat n n X -> congruence (eye n) X = X.
Proof. intros HX. unfold congruence. rewrite transpose_eye, mm_eye_l, mm_eye_r; auto. Qed.
Lemma eye_orthogonal : orthogonal n (eye n).
Proof. split; [apply is_mat_eye|]. rewrite transpose_eye. split; (apply mm_eye_l; [auto|apply is_mat_eye]) || (apply mm_eye_l; apply is_mat_eye). Qed.
End D.

(** * Points *)
Section P.
Context (d : nat) (Hd : (0 < d)%nat) (s : R) (Hs : 0 < s) (Q : mat) (HQ : orthogonal d Q) (t : vec) (Lt : length t = d).
Let sm (p : vec) : vec := move Q t (vscale s p).
Lemma sm_len p : length p = d -> length (sm p) = d.
Proof. intros Lp. unfold sm, move. destruct HQ as (MQ & _). rewrite vadd_length; rewrite mat_vec_length; [apply MQ|rewrite Lt; apply MQ]. Qed.
Lemma sm_sub p r : length p = d -> length r = d -> vsub (sm p) (sm r) = vscale s (mat_vec Q (vsub p r)).
Proof.
  intros Lp Lr. destruct HQ as (MQ & _). pose proof (is_mat_length _ _ _ MQ) as LQ. rewrite mat_vec_vsub by congruence. unfold sm, move. rewrite !mat_vec_vscale.
  assert (L1 : length (mat_vec Q p) = d) by (rewrite mat_vec_length; auto). assert (L2 : length (mat_vec Q r) = d) by (rewrite mat_vec_length; auto). vring d.
Qed.
Lemma Q_back u : length u = d -> mat_vec (transpose Q) (mat_vec Q u) = u.
Proof. intros Lu. apply (orthonormal_apply d d); auto. now apply orthogonal_orthonormal. Qed.
Lemma orthonormal_left k W : orthonormal d k W -> (0 < k)%nat -> orthonormal d k (mat_mul Q W).
Proof.
  intros (MW & EW) Hk. destruct HQ as (MQ & EQ & _). assert (MM : is_mat d k (mat_mul Q W)) by (apply (is_mat_mat_mul _ _ _ _ d); auto; now apply (is_mat_ncols d)). split; auto.
  pose proof (is_mat_transpose _ _ _ MW Hd) as TW. pose proof (is_mat_transpose _ _ _ MM Hd) as TM. pose proof (is_mat_transpose _ _ _ MQ Hd) as TQ.
  assert (NC : ncols (mat_mul Q W) = k) by now apply (is_mat_ncols d).
  apply (mat_eq_by_vec k k); [apply (is_mat_mat_mul _ _ _ _ d); auto|apply is_mat_eye|]. intros x Lx.
  rewrite (mat_vec_mat_mul k d k), (mat_vec_mat_mul d d k) by auto. rewrite (transpose_mat_mul d d k) by auto. assert (LW : length (mat_vec W x) = d) by (rewrite mat_vec_length; apply MW).
  rewrite (mat_vec_mat_mul k d d) by (auto; rewrite mat_vec_length; apply MQ). rewrite Q_back by auto. rewrite mat_vec_eye by auto. apply (orthonormal_apply d k); auto. split; auto.
Qed.
Lemma similar_run k orth null_space eigh lstsq solver points : (forall x, In x points -> length x = d) -> mbe_oracles d k orth null_space eigh lstsq solver points ->
  exists orth' null' eigh' lstsq' solver' e e', mbe_oracles d k orth' null' eigh' lstsq' solver' (map sm points) /\
    mbe_of_points orth null_space eigh lstsq solver points = Ok e /\ mbe_of_points orth' null' eigh' lstsq' solver' (map sm points) = Ok e' /\
    forall x, length x = d -> (ell_set (e_half e') (e_rot e') (e_center e') (sm x) <-> ell_set (e_half e) (e_rot e) (e_center e) x).
Proof.
  intros HP (r & Er & H). cbv zeta in H. destruct H as (Hk & HO & (ld & HL & OP) & HE & HLS & HN). set (D := map (fun p => vsub p r) points) in *. set (W := orth (transpose D)) in *.
  destruct (solver _) as [A b] eqn:ES. cbn [fst snd] in *. destruct (eigh A) as [w V] eqn:EE. cbn [fst snd] in *. pose proof OP as (HF & HPD & HMAX). pose proof HF as (HV & Lb & HB & _).
  assert (K0 : (0 < k)%nat) by lia. pose proof (psd_var_SPD k K0 A HV HPD) as HSPD. pose proof (proj1 HSPD) as MA.
  assert (Lr : length r = d) by (apply HP; destruct points; [discriminate|]; injection Er as ->; now left).
  destruct (mbe_of_points_set d k points orth null_space eigh lstsq solver r A b w V) as (e & X1 & X2 & X3); auto.
  pose proof HO as (HW & HF2). pose proof (proj1 HW) as MW. assert (NCW : ncols W = k) by now apply (is_mat_ncols d).
  set (W' := mat_mul Q W). pose proof (orthonormal_left k W HW K0) as HW'. fold W' in HW'. pose proof (proj1 HW') as MW'. assert (NCW' : ncols W' = k) by now apply (is_mat_ncols d).
  destruct HQ as (MQ & EQ & _). pose proof (is_mat_transpose _ _ _ MQ Hd) as TQ. pose proof (is_mat_transpose _ _ _ MW Hd) as TW. pose proof (is_mat_length _ _ _ MQ) as LQ. pose proof (is_mat_length _ _ _ MW) as LW.
  set (points' := map sm points). set (r' := sm r). set (D' := map (fun p => vsub p r') points').
  assert (HD : forall z, In z D -> length z = d) by (intros z Hz; apply in_map_iff in Hz as (p & <- & Hp); rewrite vsub_length; rewrite (HP p Hp); auto).
  assert (ED : D' = map (fun z => vscale s (mat_vec Q z)) D).
  { unfold D', points', D. rewrite !map_map. apply map_ext_in. intros p Hp. apply sm_sub; auto. }
  assert (WT : forall z, length z = d -> mat_vec (transpose W') (mat_vec Q z) = mat_vec (transpose W) z).
  { intros z Lz. unfold W'. rewrite (transpose_mat_mul d d k) by auto. rewrite (mat_vec_mat_mul k d d) by (auto; rewrite mat_vec_length; auto). now rewrite Q_back. }
  assert (EP : mat_mul D' W' = map (vscale s) (mat_mul D W)).
  { rewrite ED. unfold mat_mul at 1 2. rewrite !map_map. apply map_ext_in. intros z Hz. rewrite !vec_mat_mat_vec, mat_vec_vscale. now rewrite WT by auto. }
  assert (HO' : orth_spec d k D' W').
  { split; auto. intros p Hp. rewrite ED in Hp. apply in_map_iff in Hp as (z & <- & Hz). rewrite mat_vec_vscale, WT by auto. rewrite mat_vec_vscale. f_equal. unfold W'. rewrite (mat_vec_mat_mul d d k); auto; [|rewrite mat_vec_length; apply TW]. now rewrite HF2. }
  set (A' := mscale (/ s) A). assert (Hs' : 0 < / s) by now apply Rinv_0_lt_compat. assert (EA' : A' = mscale (/ s) (congruence (eye k) A)) by (now rewrite congruence_eye).
  assert (HSPD' : SPD k A') by (rewrite EA'; apply sim_SPD; auto using eye_orthogonal).
  assert (CANC : forall c x, c <> 0 -> vscale (/ c) (vscale c x) = x). { intros c x N. unfold vscale. rewrite map_map. transitivity (map (fun a : R => a) x); [|apply map_id]. apply map_ext. intros a. field. exact N. }
  assert (PR : forall B x, mat_vec (mscale (/ s) B) (vscale s x) = mat_vec B x) by (intros B x; rewrite mat_vec_mscale, mat_vec_vscale; apply CANC; lra).
  assert (PR2 : forall B x, mat_vec (mscale s B) x = mat_vec B (vscale s x)) by (intros B x; now rewrite mat_vec_mscale, mat_vec_vscale).
  destruct (SPD_psd_var k A' HSPD') as (HV' & HPD').
  assert (HF' : mbe_points_constraints k (mat_mul D' W') false A' b).
  { split; auto. split; auto. split; [|discriminate]. intros x Hx. rewrite EP in Hx. apply in_map_iff in Hx as (z & <- & Hz). unfold A'. rewrite PR. now apply HB. }
  assert (OP' : log_det_optimal k ld (mbe_points_constraints k (mat_mul D' W') false) A' b).
  { split; auto. split; auto. intros A2 b2 (HV2 & Lb2 & HB2 & _) HPD2. pose proof (psd_var_SPD k K0 A2 HV2 HPD2) as HS2. pose proof (proj1 HS2) as MA2.
    assert (HS3 : SPD k (mscale s A2)) by (rewrite <- (congruence_eye k K0 A2) by auto; apply sim_SPD; auto using eye_orthogonal). destruct (SPD_psd_var k _ HS3) as (HV3 & HPD3).
    assert (G : ld (mscale s A2) <= ld A).
    { apply (HMAX _ b2); auto. split; auto. split; auto. split; [|discriminate]. intros x Hx. rewrite PR2. apply HB2. rewrite EP. apply in_map_iff. eauto. }
    rewrite <- (congruence_eye k K0 A2) in G by auto. rewrite (sim_log_det k K0 ld s (eye k) A2) in G by (auto using eye_orthogonal). rewrite EA', (sim_log_det k K0 ld (/ s) (eye k) A) by (auto using eye_orthogonal). rewrite ln_Rinv by auto. lra. }
  destruct (spectral k A' K0 (proj1 HSPD') (proj1 (proj2 HSPD'))) as (wV & HE'). destruct (lstsq_exists A' (vneg b)) as (c & Hc).
  assert (HWV : orthonormal d k (mat_mul W' (snd wV))) by (apply orthonormal_mul; auto; apply HE'). destruct (null_exists d Hd k _ ltac:(lia) HWV) as (N & HN').
  destruct wV as [w' V']. cbn [fst snd] in *.
  assert (ER' : hd_error points' = Some r') by (unfold points'; destruct points; [discriminate|]; injection Er as ->; reflexivity).
  assert (HP' : forall x, In x points' -> length x = d) by (intros x Hx; apply in_map_iff in Hx as (p & <- & Hp); apply sm_len; auto).
  destruct (mbe_of_points_set d k points' (fun _ => W') (fun _ => N) (fun _ => (w', V')) (fun _ _ => c) (fun _ => (A', b)) r' A' b w' V') as (e' & Y1 & Y2 & Y3); auto.
  exists (fun _ => W'), (fun _ => N), (fun _ => (w', V')), (fun _ _ => c), (fun _ => (A', b)), e, e'. split.
  { exists r'. split; auto. cbv zeta. cbn [fst snd]. split; [lia|]. split; auto. split; [exists ld; auto|]. auto. }
  split; auto. split; auto. intros x Lx. rewrite Y3, X3.
  assert (MV : forall y, length y = k -> move W' r' (vscale s y) = sm (move W r y)).
  { intros y Ly. assert (L1 : length (mat_vec W y) = d) by (rewrite mat_vec_length; auto). assert (L2 : length (mat_vec Q (mat_vec W y)) = d) by (rewrite mat_vec_length; auto). assert (L3 : length (mat_vec Q r) = d) by (rewrite mat_vec_length; auto).
    unfold r', sm, move, W'. rewrite (mat_vec_mat_mul d d k) by (auto; now rewrite vscale_length). rewrite !mat_vec_vscale, mat_vec_vadd by congruence. vring d. }
  assert (INJ : forall u v, length u = d -> length v = d -> sm u = sm v -> u = v).
  { intros u v Lu Lv E. pose proof (sm_sub u v Lu Lv) as F. rewrite E in F. assert (Z : vscale s (mat_vec Q (vsub u v)) = zeros d).
    { rewrite <- F. pose proof (sm_len v Lv). vring d. }
    assert (L0 : length (vsub u v) = d) by (rewrite vsub_length; congruence). pose proof (Q_back _ L0) as G.
    assert (Z2 : mat_vec Q (vsub u v) = zeros d). { rewrite <- (CANC s (mat_vec Q (vsub u v))) by lra. rewrite Z. vring d. }
    rewrite Z2, mat_vec_zeros in G. apply (vec_ext d); auto. intros i Hi. pose proof (f_equal (fun z => nth i z 0) G) as K. cbn in K. rewrite nth_zeros, nth_vsub in K by congruence. lra. }
  assert (ML : forall y, length (move W r y) = d) by (intros y; unfold move; rewrite vadd_length; rewrite mat_vec_length; congruence).
  split.
  - intros (y & Ly & E & HB'). exists (vscale (/ s) y). split; [now rewrite vscale_length|]. assert (EY : y = vscale s (vscale (/ s) y)) by (rewrite <- (CANC (/ s) y) at 1 by (apply Rgt_not_eq; auto); now rewrite Rinv_inv).
    split.
    + apply INJ; auto. rewrite E. rewrite EY at 1. apply MV. now rewrite vscale_length.
    + unfold ball_preimage in *. rewrite EY in HB'. unfold A' in HB'. now rewrite PR in HB'.
  - intros (y & Ly & E & HB'). exists (vscale s y). split; [now rewrite vscale_length|]. split; [rewrite MV by auto; now rewrite E|]. unfold ball_preimage in *. unfold A'. now rewrite PR.
Qed.
Lemma mbe_similar points k1 orth1 null1 eigh1 lstsq1 solver1 k2 orth2 null2 eigh2 lstsq2 solver2 : (forall x, In x points -> length x = d) ->
  mbe_oracles d k1 orth1 null1 eigh1 lstsq1 solver1 points -> mbe_oracles d k2 orth2 null2 eigh2 lstsq2 solver2 (map sm points) ->
  exists e1 e2, mbe_of_points orth1 null1 eigh1 lstsq1 solver1 points = Ok e1 /\ mbe_of_points orth2 null2 eigh2 lstsq2 solver2 (map sm points) = Ok e2 /\
    forall x, length x = d -> (ell_set (e_half e2) (e_rot e2) (e_center e2) (sm x) <-> ell_set (e_half e1) (e_rot e1) (e_center e1) x).
Proof.
  intros HP H1 H2. destruct (similar_run k1 orth1 null1 eigh1 lstsq1 solver1 points HP H1) as (orth & null & eigh & lstsq & solver & e & e' & H' & E1 & E2 & E3).
  assert (HP' : forall x, In x (map sm points) -> length x = d) by (intros x Hx; apply in_map_iff in Hx as (p & <- & Hp); apply sm_len; auto).
  destruct (mbe_of_points_function d (map sm points) (map sm points) k1 orth null eigh lstsq solver k2 orth2 null2 eigh2 lstsq2 solver2) as (f & f' & F1 & F2 & _ & _ & F3); auto; [intros x; tauto|].
  rewrite E2 in F1. injection F1 as <-. exists e, f'. split; auto. split; auto. intros x Lx. rewrite <- F3. now apply E3.
Qed.
End P.

(** * Halfspaces *)
Definition simm (s : R) (Q B : mat) : mat := mscale s (congruence Q B).
Definition smv (s : R) (Q : mat) (t p : vec) : vec := move Q t (vscale s p).
Lemma orthogonal_tr n Q : (0 < n)%nat -> orthogonal n Q -> orthogonal n (transpose Q).
Proof. intros Hn (MQ & E1 & E2). split; [now apply is_mat_transpose|]. rewrite (transpose_involutive n n) by auto. auto. Qed.
Lemma scale_cancel c (x : vec) : c <> 0 -> vscale (/ c) (vscale c x) = x.
Proof. intros N. unfold vscale. rewrite map_map. transitivity (map (fun a : R => a) x); [|apply map_id]. apply map_ext. intros a. field. exact N. Qed.
Section H.
Context (n : nat) (Hn : (0 < n)%nat).
Lemma simm_vec s Q B u : orthogonal n Q -> is_mat n n B -> length u = n -> mat_vec (simm s Q B) u = vscale s (mat_vec Q (mat_vec B (mat_vec (transpose Q) u))).
Proof. intros HQ HB Lu. unfold simm. rewrite mat_vec_mscale, (congruence_vec n Hn) by (auto; apply HQ). reflexivity. Qed.
Lemma ball_image_sim s Q t B c x : orthogonal n Q -> length t = n -> is_mat n n B -> length c = n ->
  (ball_image n (simm s Q B) (smv s Q t c) x <-> exists y, ball_image n B c y /\ x = smv s Q t y).
Proof.
  intros HQ Lt MB Lc. pose proof HQ as (MQ & E1 & E2). pose proof (is_mat_transpose _ _ _ MQ Hn) as TQ. pose proof (is_mat_length _ _ _ MQ) as LQ. pose proof (is_mat_length _ _ _ TQ) as LT. pose proof (is_mat_length _ _ _ MB) as LB.
  assert (EQ : forall v, length v = n -> vadd (vscale s (mat_vec Q (mat_vec B v))) (smv s Q t c) = smv s Q t (vadd (mat_vec B v) c)).
  { intros v Lv. unfold smv, move. rewrite !mat_vec_vscale. rewrite mat_vec_vadd by (rewrite mat_vec_length; congruence). assert (length (mat_vec Q (mat_vec B v)) = n) by (rewrite mat_vec_length; auto). assert (length (mat_vec Q c) = n) by (rewrite mat_vec_length; auto). vring n. }
  assert (NT : forall P v, orthogonal n P -> length v = n -> norm (mat_vec P v) = norm v). { intros P v HP Lv. unfold norm. rewrite (orthonormal_dot n n) by (auto using orthogonal_orthonormal). reflexivity. }
  split.
  - intros (u & Lu & Nu & ->). rewrite simm_vec by auto. set (v := mat_vec (transpose Q) u). assert (Lv : length v = n) by (unfold v; rewrite mat_vec_length; auto). rewrite EQ by auto.
    exists (vadd (mat_vec B v) c). split; [|reflexivity]. exists v. split; auto. split; auto. unfold v. rewrite NT; auto using orthogonal_tr.
  - intros (y & (u & Lu & Nu & ->) & ->). exists (mat_vec Q u). split; [rewrite mat_vec_length; auto|]. split; [rewrite NT; auto|]. rewrite simm_vec by (auto; rewrite mat_vec_length; auto).
    replace (mat_vec (transpose Q) (mat_vec Q u)) with u; [symmetry; now apply EQ|]. symmetry. apply (orthonormal_apply n n); auto using orthogonal_orthonormal.
Qed.
Lemma simm_eye s Q r : orthogonal n Q -> simm s Q (mscale r (eye n)) = mscale (s * r) (eye n).
Proof.
  intros HQ. pose proof HQ as (MQ & E1 & E2). pose proof (is_mat_transpose _ _ _ MQ Hn) as TQ. assert (ME : is_mat n n (mscale r (eye n))) by (apply is_mat_mscale, is_mat_eye).
  apply (mat_eq_by_vec n n); [apply is_mat_mscale; apply congruence_ok; auto|apply is_mat_mscale, is_mat_eye|]. intros x Lx. rewrite simm_vec by auto.
  assert (LT : length (mat_vec (transpose Q) x) = n) by (rewrite mat_vec_length; apply TQ). rewrite !mat_vec_mscale, !mat_vec_eye by auto. rewrite mat_vec_vscale, <- (mat_vec_mat_mul n n n) by auto. rewrite E2, mat_vec_eye by auto. vring n.
Qed.
Lemma feas s Q t A1 b1 A2 b2 sphere B c : 0 < s -> orthogonal n Q -> length t = n -> is_mat (length b1) n A1 -> is_mat (length b2) n A2 -> SPD n B ->
  (forall x, length x = n -> halfspaces A1 b1 x -> halfspaces A2 b2 (smv s Q t x)) -> mie_constraints n A1 b1 sphere B c -> mie_constraints n A2 b2 sphere (simm s Q B) (smv s Q t c).
Proof.
  intros Hs HQ Lt M1 M2 HB HE (VB & Lc & C & S). pose proof (proj1 HB) as MB. pose proof (is_mat_length _ _ _ MB) as LB.
  assert (F0 : mie_constraints n A1 b1 false B c) by (split; auto; split; auto; split; auto; discriminate). destruct (proj1 (mie_feasible n A1 b1 B c M1) F0) as (PB & _ & IN).
  pose proof (sim_SPD n Hn s Q B Hs HQ HB) as HB2. assert (LS : length (smv s Q t c) = n) by (unfold smv; now apply (sm_len n s Q HQ t Lt)).
  destruct (SPD_psd_var n (simm s Q B) HB2) as (V2 & _). destruct (proj2 (mie_feasible n A2 b2 (simm s Q B) (smv s Q t c) M2)) as (_ & _ & C' & _).
  - split; [now apply JohnM.SPD_is_PSD|]. split; auto. intros x Hx. apply ball_image_sim in Hx as (y & Hy & ->); auto. apply HE; [|now apply IN]. destruct Hy as (u & Lu & _ & ->). rewrite vadd_length; rewrite mat_vec_length; congruence.
  - split; auto. split; auto. split; auto. intros Sp. destruct (S Sp) as (r & ->). exists (s * r). now apply simm_eye.
Qed.
Lemma smv_back s Q t x : 0 < s -> orthogonal n Q -> length t = n -> length x = n ->
  smv (/ s) (transpose Q) (vscale (- / s) (mat_vec (transpose Q) t)) (smv s Q t x) = x.
Proof.
  intros Hs HQ Lt Lx. pose proof HQ as (MQ & E1 & E2). pose proof (is_mat_transpose _ _ _ MQ Hn) as TQ. pose proof (is_mat_length _ _ _ MQ) as LQ. pose proof (is_mat_length _ _ _ TQ) as LT.
  unfold smv, move. rewrite !mat_vec_vscale. assert (LX : length (mat_vec Q x) = n) by (rewrite mat_vec_length; auto). rewrite mat_vec_vadd by (rewrite vscale_length; congruence).
  rewrite mat_vec_vscale. rewrite (orthonormal_apply n n) by (auto using orthogonal_orthonormal). assert (L2 : length (mat_vec (transpose Q) t) = n) by (rewrite mat_vec_length; auto).
  apply (vec_ext n); [len|auto|]. intros i Hi. rewrite nth_vadd by len. rewrite !nth_vscale, nth_vadd by len. rewrite nth_vscale. field. lra.
Qed.
Lemma simm_back s Q B : 0 < s -> orthogonal n Q -> is_mat n n B -> simm s Q (simm (/ s) (transpose Q) B) = B.
Proof.
  intros Hs HQ HB. pose proof HQ as (MQ & E1 & E2). pose proof (is_mat_transpose _ _ _ MQ Hn) as TQ. pose proof (is_mat_length _ _ _ MQ) as LQ. pose proof (is_mat_length _ _ _ TQ) as LT.
  assert (MS : is_mat n n (simm (/ s) (transpose Q) B)) by (apply is_mat_mscale; apply congruence_ok; auto).
  apply (mat_eq_by_vec n n); auto; [apply is_mat_mscale; apply congruence_ok; auto|]. intros x Lx. assert (L1 : length (mat_vec (transpose Q) x) = n) by (rewrite mat_vec_length; auto).
  rewrite simm_vec, simm_vec by (auto using orthogonal_tr). rewrite (transpose_involutive n n) by auto. rewrite <- (mat_vec_mat_mul n n n Q (transpose Q) x) by auto. rewrite E2, mat_vec_eye by auto.
  assert (LB : length (mat_vec B x) = n) by (rewrite mat_vec_length; apply HB). rewrite mat_vec_vscale, <- (mat_vec_mat_mul n n n Q (transpose Q)) by auto. rewrite E2, mat_vec_eye by auto. rewrite <- (Rinv_inv s) at 1. apply scale_cancel. apply Rinv_neq_0_compat. lra.
Qed.
End H.
Lemma mie_similar n s Q t A1 b1 A2 b2 sphere eigh1 inv1 solver1 eigh2 inv2 solver2 :
  (0 < n)%nat -> 0 < s -> orthogonal n Q -> length t = n -> (0 < length b1)%nat -> (0 < length b2)%nat -> is_mat (length b1) n A1 -> is_mat (length b2) n A2 ->
  (forall x, length x = n -> (halfspaces A2 b2 (move Q t (vscale s x)) <-> halfspaces A1 b1 x)) ->
  mie_oracles n eigh1 inv1 solver1 A1 b1 sphere -> mie_oracles n eigh2 inv2 solver2 A2 b2 sphere ->
  exists e1 e2, mie_inequality_form eigh1 inv1 solver1 A1 b1 sphere = Ok e1 /\ mie_inequality_form eigh2 inv2 solver2 A2 b2 sphere = Ok e2 /\
    exists u, length u = n /\ (forall x, length x = n -> (ell_set (e_half e2) (e_rot e2) (e_center e2) (vadd (move Q t (vscale s x)) u) <-> ell_set (e_half e1) (e_rot e1) (e_center e1) x)) /\
      (sphere = false -> u = zeros n).
Proof.
  intros Hn Hs HQ Lt N1 N2 M1 M2 HE Q1 Q2. unfold mie_oracles in *. cbv zeta in Q1, Q2. destruct Q1 as ((ld1 & HL1 & OP1) & I1 & E1 & W1). destruct Q2 as ((ld2 & HL2 & OP2) & I2 & E2 & W2).
  destruct (solver1 _) as [B1 c1] eqn:S1. destruct (solver2 _) as [B2 c2] eqn:S2. cbn [fst snd] in *. pose proof OP1 as (F1 & D1 & O1). pose proof OP2 as (F2 & D2 & O2).
  destruct (eigh1 (inv1 _)) as [w1 V1] eqn:G1. destruct (eigh2 (inv2 _)) as [w2 V2] eqn:G2. cbn [fst snd] in *.
  destruct (mie_form_ball n A1 b1 sphere eigh1 inv1 solver1 B1 c1 w1 V1) as (e1 & X1 & X2 & X3 & X4 & X5 & X6 & X7 & X8 & X9); auto.
  destruct (mie_form_ball n A2 b2 sphere eigh2 inv2 solver2 B2 c2 w2 V2) as (e2 & Y1 & Y2 & Y3 & Y4 & Y5 & Y6 & Y7 & Y8 & Y9); auto.
  exists e1, e2. split; auto. split; auto. pose proof F1 as (VB1 & Lc1 & _). pose proof F2 as (VB2 & Lc2 & _). pose proof (psd_var_SPD n Hn B1 VB1 D1) as P1. pose proof (psd_var_SPD n Hn B2 VB2 D2) as P2.
  assert (LD : forall B, SPD n B -> ld1 B = ld2 B). { intros B PB. destruct (SPD_diag n Hn B PB) as (V & w & HV & Lw & Pw & ->). unfold congruent. rewrite HL1, HL2 by auto. reflexivity. }
  set (B3 := simm s Q B1). set (c3 := smv s Q t c1). pose proof (sim_SPD n Hn s Q B1 Hs HQ P1) as P3. fold (simm s Q B1) in P3. fold B3 in P3. assert (Lc3 : length c3 = n) by (unfold c3, smv; now apply (sm_len n s Q HQ t Lt)).
  set (s' := / s). set (Q' := transpose Q). set (t' := vscale (- / s) (mat_vec (transpose Q) t)). assert (Hs' : 0 < s') by (now apply Rinv_0_lt_compat). assert (HQ' : orthogonal n Q') by now apply orthogonal_tr.
  assert (Lt' : length t' = n) by (unfold t'; rewrite vscale_length, mat_vec_length; apply (is_mat_transpose _ _ _ (proj1 HQ) Hn)).
  assert (EL3 : ld2 B3 = ld2 B1 + INR n * ln s) by (unfold B3, simm; now apply sim_log_det).
  destruct (JohnX.mie_optimal_unique n Hn ld2 HL2 A2 b2 sphere B2 c2 B3 c3 M2 OP2) as (EB & Ec).
  { split; [|split; [apply (SPD_psd_var n B3 P3)|]].
    - apply (feas n Hn s Q t A1 b1); auto. intros x Lx Hx. now apply HE.
    - intros B' c' F' D'. pose proof F' as (V' & Lc' & _). pose proof (psd_var_SPD n Hn B' V' D') as P'. pose proof (sim_SPD n Hn s' Q' B' Hs' HQ' P') as P4. fold (simm s' Q' B') in P4. pose proof (proj1 P') as M'.
      assert (F4 : mie_constraints n A1 b1 sphere (simm s' Q' B') (smv s' Q' t' c')).
      { apply (feas n Hn s' Q' t' A2 b2); auto. intros x Lx Hx. assert (L' : length (smv s' Q' t' x) = n) by (unfold smv; now apply (sm_len n s' Q' HQ' t' Lt')). apply HE; auto.
        replace (move Q t (vscale s (smv s' Q' t' x))) with x; auto. symmetry. pose proof (smv_back n Hn s' Q' t' x Hs' HQ' Lt' Lx) as BK.
        replace (/ s') with s in BK by (unfold s'; now rewrite Rinv_inv). replace (transpose Q') with Q in BK by (unfold Q'; symmetry; apply (transpose_involutive n n); auto; apply HQ).
        replace (vscale (- s) (mat_vec Q t')) with t in BK; [exact BK|]. unfold t'. rewrite mat_vec_vscale. destruct HQ as (MQ & _ & EQ). pose proof (is_mat_transpose _ _ _ MQ Hn) as TQ. rewrite <- (mat_vec_mat_mul n n n) by auto. rewrite EQ, mat_vec_eye by auto.
        apply (vec_ext n); [auto|now rewrite !vscale_length|]. intros i Hi. rewrite !nth_vscale. field. lra. }
      pose proof (O1 _ _ F4 (proj2 (SPD_psd_var n _ P4))) as G. rewrite !LD in G by auto. unfold simm in G. rewrite (sim_log_det n Hn ld2) in G by auto. unfold s' in G. rewrite ln_Rinv in G by auto. rewrite EL3. lra. }
  exists (vsub c2 c3). split; [len|]. split.
  - intros x Lx. assert (LS : length (move Q t (vscale s x)) = n) by (now apply (sm_len n s Q HQ t Lt)). rewrite Y8, X8 by len. subst B2. pose proof (ball_image_sim n Hn s Q t B1 c1 (move Q t (vscale s x)) HQ Lt (proj1 P1) Lc1) as BI. fold B3 c3 in BI.
    assert (LB3 : length B3 = n) by apply P3. transitivity (ball_image n B3 c3 (move Q t (vscale s x))).
    + split; intros (u & Lu & Hu & E); exists u; (split; [auto|]; split; [auto|]); assert (length (mat_vec B3 u) = n) by len.
      * apply (f_equal (fun v => vsub v (vsub c2 c3))) in E. replace (vsub (vadd (move Q t (vscale s x)) (vsub c2 c3)) (vsub c2 c3)) with (move Q t (vscale s x)) in E by vring n. rewrite E. vring n.
      * rewrite E. vring n.
    + rewrite BI. split.
      * intros (y & Hy & E). replace x with y; auto. assert (Ly : length y = n) by (destruct Hy as (u & Lu & _ & ->); rewrite vadd_length; rewrite mat_vec_length; rewrite (is_mat_length _ _ _ (proj1 P1)); auto).
        rewrite <- (smv_back n Hn s Q t x), <- (smv_back n Hn s Q t y) by auto. f_equal. symmetry. exact E.
      * intros Hx. exists x. split; auto.
  - intros Sp. rewrite (Ec Sp). vring n.
Qed.
Lemma mbe_similar_all d s Q t points k1 orth1 null1 eigh1 lstsq1 solver1 k2 orth2 null2 eigh2 lstsq2 solver2 :
  (0 < d)%nat -> 0 < s -> orthogonal d Q -> length t = d -> (forall x, In x points -> length x = d) ->
  mbe_oracles d k1 orth1 null1 eigh1 lstsq1 solver1 points ->
  mbe_oracles d k2 orth2 null2 eigh2 lstsq2 solver2 (map (fun p => move Q t (vscale s p)) points) ->
  exists e1 e2, mbe_of_points orth1 null1 eigh1 lstsq1 solver1 points = Ok e1 /\
    mbe_of_points orth2 null2 eigh2 lstsq2 solver2 (map (fun p => move Q t (vscale s p)) points) = Ok e2 /\
    forall x, length x = d -> (ell_set (e_half e2) (e_rot e2) (e_center e2) (move Q t (vscale s x)) <-> ell_set (e_half e1) (e_rot e1) (e_center e1) x).
Proof. intros Hd Hs HQ Lt HP H1 H2. exact (mbe_similar d Hd s Hs Q HQ t Lt points k1 orth1 null1 eigh1 lstsq1 solver1 k2 orth2 null2 eigh2 lstsq2 solver2 HP H1 H2). Qed.
(** the same for ConvexPolyhedron.mbe *)
Lemma poly_mbe_similar d s Q t p1 p2 k1 orth1 null1 eigh1 lstsq1 solver1 k2 orth2 null2 eigh2 lstsq2 solver2 :
  (0 < d)%nat -> 0 < s -> orthogonal d Q -> length t = d -> (forall x, In x (p_vertices p1) -> length x = d) -> (forall x, In x (p_vertices p2) -> length x = d) ->
  (forall x, in_hull d (p_vertices p2) x <-> in_hull d (map (fun p => move Q t (vscale s p)) (p_vertices p1)) x) ->
  mbe_oracles d k1 orth1 null1 eigh1 lstsq1 solver1 (p_vertices p1) -> mbe_oracles d k2 orth2 null2 eigh2 lstsq2 solver2 (p_vertices p2) ->
  exists e1 e2, poly_mbe orth1 null1 eigh1 lstsq1 solver1 p1 = Ok e1 /\ poly_mbe orth2 null2 eigh2 lstsq2 solver2 p2 = Ok e2 /\
    forall x, length x = d -> (ell_set (e_half e2) (e_rot e2) (e_center e2) (move Q t (vscale s x)) <-> ell_set (e_half e1) (e_rot e1) (e_center e1) x).
Proof.
  intros Hd Hs HQ Lt HP1 HP2 HH H1 H2. destruct (similar_run d Hd s Hs Q HQ t Lt k1 orth1 null1 eigh1 lstsq1 solver1 (p_vertices p1) HP1 H1) as (orth & null & eigh & lstsq & solver & e & e' & H' & E1 & E2 & E3).
  assert (HP' : forall x, In x (map (fun p => move Q t (vscale s p)) (p_vertices p1)) -> length x = d) by (intros x Hx; apply in_map_iff in Hx as (p & <- & Hp); apply (sm_len d s Q HQ t Lt); auto).
  destruct (mbe_of_points_function d (map (fun p => move Q t (vscale s p)) (p_vertices p1)) (p_vertices p2) k1 orth null eigh lstsq solver k2 orth2 null2 eigh2 lstsq2 solver2) as (f & f' & F1 & F2 & _ & _ & F3); auto; [intros x; symmetry; apply HH|].
  rewrite E2 in F1. injection F1 as <-. exists e, f'. split; [exact E1|]. split; [exact F2|]. intros x Lx. rewrite <- F3. now apply E3.
Qed.

(** * Concrete cases *)
Lemma quarter_on : orthogonal 2 [[0; -1]; [1; 0]].
Proof. split; [split; [reflexivity|repeat constructor]|]. split; (apply (mat_ext 2 2); [split; [reflexivity|repeat constructor]|split; [reflexivity|repeat constructor]|]; intros i j Hi Hj; destruct i as [|[|i]], j as [|[|j]]; try lia; unfold entry; cbn; ring). Qed.
Lemma similar_premises : orthogonal 2 [[0; -1]; [1; 0]] /\
  map (fun p => move [[0; -1]; [1; 0]] [1; 0] (vscale 2 p)) [[0; 0]; [1; 1]; [2; 2]] = [[1; 0]; [-1; 2]; [-3; 4]] /\
  (exists k orth null_space eigh lstsq solver, mbe_oracles 2 k orth null_space eigh lstsq solver [[0; 0]; [1; 1]; [2; 2]]) /\
  exists k orth null_space eigh lstsq solver, mbe_oracles 2 k orth null_space eigh lstsq solver [[1; 0]; [-1; 2]; [-3; 4]].
Proof.
  assert (L : forall P : mat, Forall (fun x => length x = 2%nat) P -> forall x, In x P -> length x = 2%nat) by (intros P H; now apply Forall_forall). split; [exact quarter_on|]. split; [|split; [exact (proj1 collinear_run)|]].
  - unfold move, mat_vec, vscale, vadd, dot. cbn. repeat (f_equal; try ring).
  - apply mbe_oracles_exist; [lia|apply L; repeat constructor|]. exists [1; 0], [-1; 2]. split; [now left|]. split; [right; now left|]. intro E. injection E. lra.
Qed.
Lemma interval_c x : length x = 1%nat -> (halfspaces [[1]; [-1]] [5; -3] x <-> 4 - 1 <= nth 0 x 0 <= 4 + 1).
Proof.
  intros Lx. destruct (len1_inv _ Lx) as (a & ->). cbn [nth]. split.
  - intros H. pose proof (H 0%nat ltac:(cbn; lia)) as H0. pose proof (H 1%nat ltac:(cbn; lia)) as H1. unfold dot in *. cbn in *. lra.
  - intros H i Hi. cbn in Hi. destruct i as [|[|i]]; [| |lia]; unfold dot; cbn; lra.
Qed.
Lemma similar_interval : orthogonal 1 [[-1]] /\
  (forall x, length x = 1%nat -> (halfspaces [[1]; [-1]] [5; -3] (move [[-1]] [4] (vscale 1 x)) <-> halfspaces [[1]; [-1]] [1; 1] x)) /\
  mie_oracles 1 (fun _ => ([1], [[1]])) (fun _ => [[1]]) (fun _ => ([[1]], [0])) [[1]; [-1]] [1; 1] false /\
  mie_oracles 1 (fun _ => ([1], [[1]])) (fun _ => [[1]]) (fun _ => ([[1]], [4])) [[1]; [-1]] [5; -3] false.
Proof.
  assert (M1 : is_mat 2 1 [[1]; [-1]]) by (split; [reflexivity|repeat constructor]). split; [split; [split; [reflexivity|repeat constructor]|]; split; cbn; repeat (f_equal; try ring)|]. split; [|split].
  - intros x Lx. destruct (len1_inv _ Lx) as (a & ->). rewrite interval_a by reflexivity. rewrite interval_c by reflexivity. cbn. lra.
  - apply interval_solver; auto. apply interval_a.
  - apply interval_solver; auto. intros x Lx. rewrite interval_c by auto. lra.
Qed.
