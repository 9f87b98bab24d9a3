(** Optimal points of the extremal-ellipsoid programs give ellipsoids of extremal volume. *)
From Verif Require Import Proofs.Coord Proofs.Hull Base.Ext Model.Util Model.Polydd Model.Constraint Model.Ellipsoid Model.Poly Model.Extremal
  Spec.Basic Spec.Shapes Spec.ShapeObjects Spec.DoubleDesc Spec.PolySpec Spec.ExtremalSpec Proofs.LinAlg Proofs.DDP Proofs.PolyP Proofs.EllP Proofs.EllForms Proofs.EllSame Proofs.MustContain Proofs.BoxP Proofs.VolumeP Proofs.ExtremalP.

Lemma vprod_pos v : (forall a, In a v -> 0 < a) -> 0 < vprod v.
Proof. induction v as [|a v IH]; intro H; cbn; [lra|]. apply Rmult_lt_0_compat; [apply H; now left|]. apply IH. intros; apply H; now right. Qed.
Lemma ln_vprod v : (forall a, In a v -> 0 < a) -> ln (vprod v) = lsum (map ln v).
Proof.
  induction v as [|a v IH]; intro H; cbn; [apply ln_1|]. rewrite ln_mult; [|apply H; now left|apply vprod_pos; intros; apply H; now right].
  fold (vprod v). rewrite IH by (intros; apply H; now right). reflexivity.
Qed.
Lemma lsum_ln_inv v : (forall a, In a v -> 0 < a) -> lsum (map ln (map Rinv v)) = - lsum (map ln v).
Proof.
  induction v as [|a v IH]; intro H; cbn; [ring|]. rewrite ln_Rinv by (apply H; now left). change (fold_right Rplus 0) with lsum.
  rewrite IH by (intros; apply H; now right). ring.
Qed.
Lemma vprod_le_ln u v : (forall a, In a u -> 0 < a) -> (forall a, In a v -> 0 < a) -> lsum (map ln u) <= lsum (map ln v) -> vprod u <= vprod v.
Proof.
  intros Hu Hv H. rewrite <- !ln_vprod in H by auto. pose proof (vprod_pos u Hu). pose proof (vprod_pos v Hv).
  destruct (Rle_lt_dec (vprod u) (vprod v)) as [|C]; [auto|]. apply ln_increasing in C; auto. lra.
Qed.
Lemma nth_pos_in v : (forall i, (i < length v)%nat -> 0 < nth i v 0) -> forall a, In a v -> 0 < a.
Proof. intros H a Ha. destruct (In_nth v a 0 Ha) as (i & Hi & <-). auto. Qed.
Lemma inv_pos_in v : (forall a, In a v -> 0 < a) -> forall a, In a (map Rinv v) -> 0 < a.
Proof. intros H a Ha. apply in_map_iff in Ha as (b & <- & Hb). apply Rinv_0_lt_compat. auto. Qed.
Lemma quad_sum_pos d y : length d = length y -> (forall a, In a d -> 0 < a) -> y <> zeros (length y) -> 0 < lsum (map2 (fun a b => a * b * b) d y).
Proof.
  revert d. induction y as [|b y IH]; intros [|a d] L H N; cbn in *; try discriminate; [congruence|]. change (fold_right Rplus 0) with lsum.
  assert (A : 0 < a) by (apply H; now left). assert (Q : 0 <= a * b * b) by (pose proof (sqr_nonneg b); nra).
  assert (G : forall d y, length d = length y -> (forall a, In a d -> 0 < a) -> 0 <= lsum (map2 (fun a b => a * b * b) d y)).
  { clear. intros d. induction d as [|a d IH]; intros [|b y] L H; cbn; try lra; try discriminate. change (fold_right Rplus 0) with lsum.
    assert (A : 0 < a) by (apply H; now left). specialize (IH y ltac:(cbn in L; lia) ltac:(intros; apply H; now right)). pose proof (sqr_nonneg b). nra. }
  destruct (Req_dec b 0) as [->|B].
  - specialize (IH d ltac:(lia) ltac:(intros; apply H; now right)). assert (y <> zeros (length y)) by (intro E; apply N; unfold zeros in *; cbn; congruence). specialize (IH H0). lra.
  - specialize (G d y ltac:(lia) ltac:(intros; apply H; now right)). assert (0 < b * b) by nra. nra.
Qed.
Lemma congd_pos_def n Q d : (0 < n)%nat -> orthogonal n Q -> length d = n -> (forall a, In a d -> 0 < a) -> pos_def n (congd Q d).
Proof.
  intros Hn HQ Ld Hd x Lx Nx. pose proof HQ as (MQ & _). pose proof (is_mat_transpose _ _ _ MQ Hn) as TQ. rewrite (congd_quad n) by auto.
  assert (LT : length (mat_vec (transpose Q) x) = n) by (rewrite mat_vec_length; apply TQ). apply quad_sum_pos; [congruence|auto|].
  intro E. apply Nx. rewrite LT in E. rewrite <- (orthogonal_back n Q x) by auto. rewrite E, mat_vec_zeros. now rewrite (is_mat_length _ _ _ MQ).
Qed.
Lemma congd_psd n Q d : (0 < n)%nat -> orthogonal n Q -> length d = n -> (forall a, In a d -> 0 < a) -> cp_psd_var n (congd Q d).
Proof.
  intros Hn HQ Ld Hd. pose proof HQ as (MQ & _). assert (MC : is_mat n n (congd Q d)) by (apply congd_is_mat; auto). split; [exact MC|]. split; [apply (symmetric_transpose n); auto; apply congd_sym; auto|].
  intros x Lx. destruct (list_eq_dec Req_EM_T x (zeros n)) as [->|N]; [unfold quad; rewrite dot_zeros_l; lra|]. apply Rlt_le. apply (congd_pos_def n); auto.
Qed.
Lemma orthogonal_mul n A B : (0 < n)%nat -> orthogonal n A -> orthogonal n B -> orthogonal n (mat_mul A B).
Proof.
  intros Hn (MA & A1 & A2) (MB & B1 & B2). pose proof (is_mat_transpose _ _ _ MA Hn) as TA. pose proof (is_mat_transpose _ _ _ MB Hn) as TB.
  assert (MAB : is_mat n n (mat_mul A B)) by (apply (is_mat_mul n n n); auto). split; [exact MAB|]. rewrite (transpose_mat_mul n n n) by auto. split.
  - rewrite (mat_mul_assoc n n n n) by auto. rewrite <- (mat_mul_assoc n n n n (transpose A)) by auto. rewrite A1, (mat_mul_eye_l n n) by auto. exact B1.
  - rewrite (mat_mul_assoc n n n n) by (auto; apply (is_mat_mul n n n); auto). rewrite <- (mat_mul_assoc n n n n B) by auto. rewrite B2, (mat_mul_eye_l n n) by auto. exact A2.
Qed.
Lemma orthogonal_transpose n A : (0 < n)%nat -> orthogonal n A -> orthogonal n (transpose A).
Proof. intros Hn (MA & A1 & A2). split; [now apply is_mat_transpose|]. rewrite (transpose_involutive n n) by auto. auto. Qed.

(** * The minimum bounding ellipsoid of points that span the space *)
Lemma mbe_of_points_minimal n points orth null_space eigh lstsq solver log_det r A b w V :
  (0 < n)%nat -> (forall x, In x points -> length x = n) -> hd_error points = Some r ->
  let D := map (fun p => vsub p r) points in let R := orth (transpose D) in
  orthogonal n R ->
  solver (mbe_points_constraints n (mat_mul D R) false) = (A, b) -> mbe_points_constraints n (mat_mul D R) false A b -> pos_def n A ->
  log_det_spec n log_det -> (forall A' b', mbe_points_constraints n (mat_mul D R) false A' b' -> pos_def n A' -> log_det A' <= log_det A) ->
  eigh A = (w, V) -> eigh_spec n A (w, V) -> lstsq_spec A (vneg b) (lstsq A (vneg b)) ->
  null_spec n n (transpose (mat_mul R V)) (null_space (transpose (mat_mul R V))) ->
  exists e, mbe_of_points orth null_space eigh lstsq solver points = Ok e /\ e_dim e = n /\ orthogonal n (e_rot e) /\
    (forall p, In p points -> ell_set (e_half e) (e_rot e) (e_center e) p) /\
    forall h Q c e', ell_init h (Some Q) (Some c) = Ok e' -> length h = n -> orthogonal n Q -> (forall i, (i < n)%nat -> 0 < nth i h 0) ->
      (forall p, In p points -> ell_set h Q c p) -> e_volume e <= e_volume e'.
Proof.
  intros Hn HP Hr D R HO HS HC HPD HLD HM HE HES HL HN. pose proof HO as (MR & R1 & R2). pose proof (is_mat_transpose _ _ _ MR Hn) as TR.
  assert (OS : orth_spec n n D R). { split; [split; auto|]. intros p Hp. apply (orthogonal_back n); auto. unfold D in Hp. apply in_map_iff in Hp as (q & <- & Hq).
    pose proof (HP q Hq) as Lq. assert (Lr : length r = n) by (destruct points; [discriminate|]; injection Hr as ->; apply HP; now left). len. }
  destruct (mbe_of_points_contains n n points orth null_space eigh lstsq solver r A b w V) as (e & E1 & E2 & E3 & E4 & E5); auto.
  exists e. repeat (split; [assumption|]). intros h Q c e' He' Lh HQ Ph HC'. rewrite Nat.sub_diag, app_nil_r in E4.
  pose proof (ell_init_inv _ _ _ _ He') as (_ & EH' & _ & EC' & _ & Lc'). cbn in EC', Lc'. rewrite EC', Lh in Lc'.
  apply e_volume_le. rewrite E4, EH'. destruct HES as (Lw & HV & HD). cbn in Lw, HV. 
  assert (HES : eigh_spec n A (w, V)) by (split; auto). pose proof HC as ((MA & _) & _).
  assert (WP : forall a, In a w -> 0 < a) by (apply nth_pos_in; rewrite Lw; intros i Hi; apply (eig_pos n A w V i); auto).
  assert (HP' : forall a, In a h -> 0 < a) by (apply nth_pos_in; now rewrite Lh).
  assert (LHi : length (map Rinv h) = n) by now rewrite map_length.
  pose proof HQ as (MQ & Q1 & Q2). pose proof (is_mat_transpose _ _ _ MQ Hn) as TQ.
  set (W := mat_mul (transpose R) Q). assert (OW : orthogonal n W) by (apply orthogonal_mul; auto; apply orthogonal_transpose; auto). pose proof OW as (MW & _).
  set (A' := congd W (map Rinv h)). assert (MA' : is_mat n n A') by (apply congd_is_mat; auto). assert (LA' : length A' = n) by apply MA'.
  assert (Lr : length r = n) by (destruct points; [discriminate|]; injection Hr as ->; apply HP; now left).
  set (b' := vneg (mat_vec A' (mat_vec (transpose R) (vsub c r)))).
  assert (LTR : length (transpose R) = n) by apply TR. assert (Lb' : length b' = n) by (unfold b'; len).
  assert (EA : forall y, length y = n -> mat_vec A' (mat_vec (transpose R) y) = mat_vec W (vmul (map Rinv h) (mat_vec (transpose Q) y))).
  { intros y Ly. unfold A'. rewrite (congd_mat_vec n) by (auto; len). do 2 f_equal. unfold W. rewrite (transpose_mat_mul n n n) by auto. rewrite (transpose_involutive n n) by auto.
    rewrite (mat_vec_mat_mul n n n) by (auto; len). f_equal. apply (orthogonal_back n); auto. }
  specialize (HM A' b'). unfold A' in HM at 3. unfold congd in HM. rewrite (HLD W (map Rinv h)) in HM by (auto; apply inv_pos_in; auto).
  rewrite (eigh_congd n A w V) in HM by auto. unfold congd in HM. rewrite (HLD V w) in HM by auto. rewrite lsum_ln_inv in HM by auto.
  apply vprod_le_ln; auto; [apply inv_pos_in; auto|]. rewrite lsum_ln_inv by auto.
  assert (K : - lsum (map ln h) <= lsum (map ln w)); [|lra]. apply HM; [|apply congd_pos_def; auto; apply inv_pos_in; auto].
  split; [apply congd_psd; auto; apply inv_pos_in; auto|]. split; [exact Lb'|]. split; [|discriminate].
  intros x Hx. unfold mat_mul, D in Hx. rewrite map_map in Hx. apply in_map_iff in Hx as (p & <- & Hp). rewrite vec_mat_mat_vec.
  pose proof (HP p Hp) as Lp. destruct (HC' p Hp) as (u & Lu & Hu & Ep). rewrite Lh in Lu.
  assert (EX : vadd (mat_vec A' (mat_vec (transpose R) (vsub p r))) b' = mat_vec A' (mat_vec (transpose R) (vsub p c))).
  { unfold b'. rewrite !mat_vec_vsub by len. assert (length (mat_vec A' (mat_vec (transpose R) p)) = n) by len. assert (length (mat_vec A' (mat_vec (transpose R) c)) = n) by len. assert (length (mat_vec A' (mat_vec (transpose R) r)) = n) by len. vring n. }
  rewrite EX, EA by len. assert (LQ : length Q = n) by apply MQ. assert (Lhu : length (vmul h u) = n) by (rewrite vmul_length; congruence).
  replace (vsub p c) with (mat_vec Q (vmul h u)) by (rewrite Ep; unfold move; assert (length (mat_vec Q (vmul h u)) = n) by len; vring n).
  rewrite (orthonormal_apply n n) by (auto using orthogonal_orthonormal).
  replace (vmul (map Rinv h) (vmul h u)) with u.
  - apply (norm_le_iff _ 1); [lra|]. rewrite (orthonormal_dot n n) by (auto using orthogonal_orthonormal). lra.
  - apply (vec_ext n); [auto|rewrite !vmul_length; rewrite ?vmul_length; congruence|]. intros i Hi. rewrite !nth_vmul by (rewrite ?vmul_length; congruence). rewrite nth_rinv by lia. specialize (Ph i Hi). field. lra.
Qed.

(** * The maximum inscribed ellipsoid *)
Lemma mat_eq_by_unit n X Y : is_mat n n X -> is_mat n n Y -> (forall j, (j < n)%nat -> mat_vec X (unit_vec n j) = mat_vec Y (unit_vec n j)) -> X = Y.
Proof.
  intros HX HY H. apply (mat_ext n n); auto. intros i j Hi Hj. specialize (H j Hj).
  assert (E : nth i (mat_vec X (unit_vec n j)) 0 = nth i (mat_vec Y (unit_vec n j)) 0) by now rewrite H.
  rewrite !nth_mat_vec in E. rewrite (dot_comm (nth i X [])), (dot_comm (nth i Y [])) in E.
  rewrite !dot_unit_vec in E by (auto; eapply is_mat_row; eauto). exact E.
Qed.
Lemma inverse_square_root n B M w V : (0 < n)%nat -> cp_psd_var n B -> inv_spec n (mat_mul B B) M -> eigh_spec n M (w, V) -> (forall a, In a w -> 0 < a) ->
  B = congd V (map (fun a => / sqrt a) w).
Proof.
  intros Hn (MB & TB & PB) (MM & I1 & I2) HE Hw. pose proof HE as (Lw & HV & _). cbn in Lw, HV. pose proof HV as (MV & _).
  set (s := map (fun a => / sqrt a) w). assert (Ls : length s = n) by (unfold s; now rewrite map_length). assert (LB : length B = n) by apply MB. assert (LV : length V = n) by apply MV.
  assert (MD : is_mat n n (diag s)) by (rewrite <- Ls; apply is_mat_diag).
  apply (eigh_congd n); auto. split; [exact Ls|]. split; [exact HV|]. cbn [fst snd].
  apply (mat_eq_by_unit n); [apply (is_mat_mul n n n); auto|apply (is_mat_mul n n n); auto|]. intros j Hj. assert (Le : length (unit_vec n j) = n) by apply unit_vec_length.
  rewrite !(mat_vec_mat_mul n n n) by auto. rewrite mat_vec_diag by congruence.
  assert (SE : forall v, length v = n -> vmul v (unit_vec n j) = vscale (nth j v 0) (unit_vec n j)).
  { intros v Lv. apply (vec_ext n); [rewrite vmul_length; congruence|len|]. intros i Hi. rewrite nth_vmul, nth_vscale by congruence. unfold unit_vec. rewrite nth_map_seq by auto.
    destruct (Nat.eqb_spec i j); [subst; ring|ring]. }
  rewrite SE, mat_vec_vscale by auto. set (v := mat_vec V (unit_vec n j)). assert (Lv : length v = n) by (unfold v; len).
  set (a := nth j w 0). assert (Pa : 0 < a) by (apply Hw, nth_In; lia). assert (Es : nth j s 0 = / sqrt a) by (unfold s; rewrite (nth_map_0 _ _ _ 0) by lia; reflexivity).
  rewrite Es. set (t := / sqrt a). assert (Pt : 0 < t) by (apply Rinv_0_lt_compat, sqrt_lt_R0; auto).
  assert (Et : t * t * a = 1). { unfold t. rewrite <- (sqrt_sqrt a) at 3 by lra. field. assert (0 < sqrt a) by (apply sqrt_lt_R0; auto). lra. }
  assert (EM : mat_vec M v = vscale a v). { unfold v. rewrite (eigh_apply n M w V) by auto. rewrite SE, mat_vec_vscale by auto. reflexivity. }
  assert (EB : mat_vec B (mat_vec B v) = vscale (t * t) v).
  { assert (X : mat_vec (mat_mul B B) (mat_vec M v) = v). { rewrite <- (mat_vec_mat_mul n n n) by (auto; apply (is_mat_mul n n n); auto). rewrite I1. now apply mat_vec_eye. }
    rewrite EM, mat_vec_vscale, (mat_vec_mat_mul n n n) in X by auto. assert (L2 : length (mat_vec B (mat_vec B v)) = n) by len.
    rewrite <- X at 2. apply (vec_ext n); [auto|len|]. intros i Hi. rewrite !nth_vscale. rewrite <- (Rmult_assoc (t * t)), Et. ring. }
  set (z := vsub (mat_vec B v) (vscale t v)). assert (Lz : length z = n) by (unfold z; len). assert (LBv : length (mat_vec B v) = n) by len.
  assert (BZ : vadd (mat_vec B z) (vscale t z) = zeros n).
  { unfold z. rewrite mat_vec_vsub by len. rewrite mat_vec_vscale, EB. vring n. }
  assert (QZ : quad B z + t * dot z z = 0). { unfold quad. rewrite <- dot_vscale_r, <- dot_vadd_r by len. rewrite BZ. apply dot_zeros_r. }
  specialize (PB z Lz). pose proof (dot_self_nonneg z). assert (Z0 : dot z z = 0) by nra. apply dot_self_zero in Z0. rewrite Lz in Z0.
  apply (vec_ext n); [auto|len|]. intros i Hi. assert (X : nth i z 0 = nth i (zeros n) 0) by now rewrite Z0. unfold z in X. rewrite nth_vsub, nth_zeros in X by len. lra.
Qed.
Lemma mie_maximal n A b sphere eigh inv solver log_det B c w V :
  (0 < n)%nat -> (0 < length b)%nat -> is_mat (length b) n A ->
  solver (mie_constraints n A b sphere) = (B, c) -> mie_constraints n A b sphere B c ->
  log_det_spec n log_det -> (forall B' c', mie_constraints n A b sphere B' c' -> pos_def n B' -> log_det B' <= log_det B) ->
  inv_spec n (mat_mul B B) (inv (mat_mul B B)) ->
  eigh (inv (mat_mul B B)) = (w, V) -> eigh_spec n (inv (mat_mul B B)) (w, V) ->
  (forall a, In a w -> np_atol * np_atol < a < / (np_atol * np_atol)) ->
  exists e, mie_inequality_form eigh inv solver A b sphere = Ok e /\ e_dim e = n /\ orthogonal n (e_rot e) /\
    (forall x, ell_set (e_half e) (e_rot e) (e_center e) x -> halfspaces A b x) /\
    forall h Q q e', ell_init h (Some Q) (Some q) = Ok e' -> length h = n -> orthogonal n Q -> (forall i, (i < n)%nat -> 0 < nth i h 0) ->
      (forall x, ell_set h Q q x -> halfspaces A b x) -> (sphere = true -> exists r, h = repeat r n) -> e_volume e' <= e_volume e.
Proof.
  intros Hn Hb MA HS HC HLD HM HI HE HES Hw. pose proof HC as (HB & _).
  assert (WP : forall a, In a w -> 0 < a). { intros a Ha. specialize (Hw a Ha). pose proof np_atol_pos. nra. }
  destruct (mie_form_ball n A b sphere eigh inv solver B c w V) as (e & E1 & E2 & E3 & E4 & E5 & E6 & E7 & E8 & E9); auto.
  exists e. repeat (split; [assumption|]). intros h Q q e' He' Lh HQ Ph HC' HSp. pose proof HES as (Lw & HV & _). cbn in Lw, HV.
  pose proof (ell_init_inv _ _ _ _ He') as (_ & EH' & _ & EC' & _ & Lc'). cbn in EC', Lc'. rewrite EC', Lh in Lc'.
  apply e_volume_le. rewrite E7, EH'. set (s := map (fun a => / sqrt a) w) in *. assert (Ls : length s = n) by (unfold s; now rewrite map_length).
  assert (SP : forall a, In a s -> 0 < a). { intros a Ha. unfold s in Ha. apply in_map_iff in Ha as (t & <- & Ht). apply Rinv_0_lt_compat, sqrt_lt_R0. auto. }
  assert (HP' : forall a, In a h -> 0 < a) by (apply nth_pos_in; now rewrite Lh).
  pose proof HQ as (MQ & Q1 & Q2). pose proof (is_mat_transpose _ _ _ MQ Hn) as TQ. set (B' := congd Q h). specialize (HM B' q).
  assert (EB : B = congd V s) by (apply (inverse_square_root n B _ w V) in HI; auto).
  rewrite EB in HM. unfold B' in HM at 3. unfold congd in HM. rewrite !HLD in HM by auto. apply vprod_le_ln; auto. apply HM; [|apply congd_pos_def; auto].
  assert (MB' : is_mat n n B') by (apply congd_is_mat; auto).
  destruct (mie_feasible n A b B' q MA) as (_ & K). destruct K as (K1 & K2 & K3 & _).
  - destruct (congd_psd n Q h Hn HQ Lh HP') as (P1 & P2 & P3). split; [split; [auto|split; [now apply transpose_symmetric|auto]]|]. split; [exact Lc'|].
    intros x (u & Lu & Hu & ->). apply HC'. exists (mat_vec (transpose Q) u). split; [rewrite mat_vec_length, Lh; apply TQ|]. split.
    + rewrite (orthonormal_dot n n) by (auto; apply orthogonal_orthonormal, orthogonal_transpose; auto). apply (norm_le_iff _ 1) in Hu; lra.
    + unfold move, B'. rewrite (congd_mat_vec n) by auto. reflexivity.
  - split; [exact K1|]. split; [exact K2|]. split; [exact K3|]. intro Es. destruct (HSp Es) as (r & Er). exists r.
    unfold B'. rewrite Er. apply (mat_eq_by_vec n n); [apply congd_is_mat; auto; apply repeat_length|apply is_mat_mscale, is_mat_eye|].
    intros x Lx. rewrite (congd_mat_vec n) by (auto; apply repeat_length). rewrite mat_vec_mscale, mat_vec_eye by auto.
    assert (LT : length (mat_vec (transpose Q) x) = n) by (rewrite mat_vec_length; apply TQ).
    replace (vmul (repeat r n) (mat_vec (transpose Q) x)) with (vscale r (mat_vec (transpose Q) x)); [rewrite mat_vec_vscale; f_equal; apply (orthogonal_back n); auto|].
    rewrite <- LT. clear. induction (mat_vec (transpose Q) x); cbn; [reflexivity|]. now f_equal.
Qed.
