(** The extremal-ellipsoid programs: feasible points and the ellipsoids built from them. *)
From Verif Require Import Proofs.Coord Proofs.Hull Base.Ext Model.Util Model.Polydd Model.Constraint Model.Ellipsoid Model.Poly Model.Extremal
  Spec.Basic Spec.Shapes Spec.ShapeObjects Spec.DoubleDesc Spec.PolySpec Spec.ExtremalSpec Proofs.LinAlg Proofs.DDP Proofs.PolyP Proofs.EllP Proofs.EllForms Proofs.EllSame Proofs.MustContain.

(** * Feasible points *)
Lemma preimage_convex n A b : is_mat n n A -> length b = n -> convex (fun x => length x = n /\ ball_preimage A b x).
Proof.
  intros HA Hb p q t _ (Lp & Hp) (Lq & Hq) Ht. split; [len|]. unfold ball_preimage in *.
  assert (LA : length A = n) by apply HA.
  replace (vadd (mat_vec A (vadd (vscale (1 - t) p) (vscale t q))) b) with (vadd (vscale (1 - t) (vadd (mat_vec A p) b)) (vscale t (vadd (mat_vec A q) b))).
  - eapply Rle_trans; [apply norm_triangle; len|]. rewrite !norm_vscale, !Rabs_pos_eq by lra. nra.
  - rewrite mat_vec_vadd, !mat_vec_vscale by len. assert (L1 : length (mat_vec A p) = n) by len. assert (L2 : length (mat_vec A q) = n) by len.
    revert L1 L2. generalize (mat_vec A p) (mat_vec A q). intros. vring n.
Qed.
Lemma mbe_feasible n P A b : (forall x, In x P -> length x = n) -> (0 < n)%nat ->
  (mbe_points_constraints n P false A b <->
   PSD n A /\ length b = n /\ forall x, in_hull n P x -> ball_preimage A b x).
Proof.
  intros HP Hn. unfold mbe_points_constraints, cp_psd_var. split.
  - intros ((HA & HT & HQ) & Hb & HC & _). split; [split; [auto|split; [now apply transpose_symmetric|auto]]|]. split; [auto|].
    intros x Hx. apply (hull_in_convex n (fun x => length x = n /\ ball_preimage A b x) P); auto.
    + now apply preimage_convex.
    + intros v Hv. split; [now apply HP|now apply HC].
  - intros ((HA & HS & HQ) & Hb & HC). split; [split; [auto|split; [now apply (symmetric_transpose n)|auto]]|]. split; [auto|]. split; [|discriminate].
    intros x Hx. apply HC. now apply hull_vertex.
Qed.
Lemma sym_dot n B x y : is_mat n n B -> transpose B = B -> length x = n -> length y = n -> dot x (mat_vec B y) = dot (mat_vec B x) y.
Proof. intros HB HT Hx Hy. rewrite (dot_mat_vec_t n n B y x), HT by auto. reflexivity. Qed.
Lemma mie_feasible n A b B c : is_mat (length b) n A ->
  (mie_constraints n A b false B c <->
   PSD n B /\ length c = n /\ forall x, ball_image n B c x -> halfspaces A b x).
Proof.
  intros MA. assert (LA : length A = length b) by apply MA. unfold mie_constraints, cp_psd_var. split.
  - intros ((HB & HT & HQ) & Hc & HC & _). split; [split; [auto|split; [now apply transpose_symmetric|auto]]|]. split; [auto|].
    intros x (u & Lu & Hu & ->) i Hi. rewrite LA in Hi. specialize (HC i Hi). pose proof (is_mat_row _ _ _ _ MA Hi) as La. set (a := nth i A []) in *.
    assert (LB : length B = n) by apply HB. rewrite dot_vadd_r by len. rewrite (sym_dot n) by auto.
    pose proof (cauchy_schwarz_norm (mat_vec B a) u) as CS. apply abs_le_inv in CS. pose proof (norm_nonneg (mat_vec B a)). nra.
  - intros ((HB & HS & HQ) & Hc & HC). assert (HT : transpose B = B) by now apply (symmetric_transpose n).
    split; [split; [auto|split; auto]|]. split; [auto|]. split; [|discriminate]. intros i Hi.
    pose proof (is_mat_row _ _ _ _ MA Hi) as La. assert (LB : length B = n) by apply HB.
    assert (LBa : length (mat_vec B (nth i A [])) = n) by (rewrite mat_vec_length; auto). pose proof (norm_nonneg (mat_vec B (nth i A []))) as N0.
    destruct (Rle_lt_dec (norm (mat_vec B (nth i A []))) 0) as [Z|P].
    + specialize (HC (vadd (mat_vec B (zeros n)) c)). rewrite mat_vec_zeros, LB, vadd_zeros_l in HC by auto.
      assert (X : halfspaces A b c). { apply HC. exists (zeros n). split; [len|]. split; [|now rewrite mat_vec_zeros, LB, vadd_zeros_l]. unfold norm. rewrite dot_zeros_l, sqrt_0. lra. }
      specialize (X i ltac:(lia)). lra.
    + set (a := nth i A []) in *. set (u := vscale (/ norm (mat_vec B a)) (mat_vec B a)).
      assert (Lu : length u = n) by (unfold u; len).
      assert (X : halfspaces A b (vadd (mat_vec B u) c)).
      { apply HC. exists u. split; [auto|]. split; [|auto]. unfold u. rewrite norm_vscale, Rabs_pos_eq by (apply Rlt_le, Rinv_0_lt_compat; lra). rewrite Rinv_l; lra. }
      specialize (X i ltac:(lia)). change (dot a (vadd (mat_vec B u) c) <= nth i b 0) in X. rewrite dot_vadd_r in X by len. rewrite (sym_dot n) in X by auto.
      unfold u in X. rewrite dot_vscale_r, <- norm_sqr in X. replace (/ norm (mat_vec B a) * (norm (mat_vec B a) * norm (mat_vec B a))) with (norm (mat_vec B a)) in X by (field; lra). exact X.
Qed.

(** * Orthonormal columns *)
Lemma mat_vec_hstack d k m W N u v : is_mat d k W -> is_mat d m N -> length u = k -> length v = m ->
  mat_vec (hstack W N) (u ++ v) = vadd (mat_vec W u) (mat_vec N v).
Proof.
  intros (LW & HW) (LN & HN) Lu Lv. unfold hstack, mat_vec, vadd. assert (E : length W = length N) by congruence. clear LW LN.
  revert N E HN. induction W as [|w W IH]; intros [|r N] E HN; cbn in *; try discriminate; [reflexivity|].
  apply Forall_cons_iff in HW as (Hw & HW). apply Forall_cons_iff in HN as (Hr & HN). f_equal; [apply dot_app; congruence|]. apply IH; auto.
Qed.
Lemma is_mat_hstack d k m W N : is_mat d k W -> is_mat d m N -> is_mat d (k + m) (hstack W N).
Proof.
  intros (LW & HW) (LN & HN). unfold hstack. split; [rewrite map2_length, LW, LN, Nat.min_id; reflexivity|].
  assert (E : length W = length N) by congruence. clear LW LN. revert N E HN.
  induction W as [|w W IH]; intros [|r N] E HN; cbn in *; try discriminate; constructor.
  - apply Forall_cons_iff in HW as (Hw & _). apply Forall_cons_iff in HN as (Hr & _). rewrite app_length. congruence.
  - apply IH; try lia; [now apply Forall_cons_iff in HW|now apply Forall_cons_iff in HN].
Qed.
Lemma transpose_hstack d k m W N x : (0 < d)%nat -> is_mat d k W -> is_mat d m N -> length x = d ->
  mat_vec (transpose (hstack W N)) x = mat_vec (transpose W) x ++ mat_vec (transpose N) x.
Proof.
  intros Hd HW HN Lx. pose proof (is_mat_hstack d k m W N HW HN) as HH.
  pose proof (is_mat_transpose _ _ _ HH Hd) as TH. pose proof (is_mat_transpose _ _ _ HW Hd) as TW. pose proof (is_mat_transpose _ _ _ HN Hd) as TN.
  apply (vec_ext (k + m)); [rewrite mat_vec_length; apply TH|rewrite app_length, !mat_vec_length; rewrite (is_mat_length _ _ _ TW), (is_mat_length _ _ _ TN); reflexivity|].
  intros i Hi. rewrite nth_mat_vec, nth_transpose by (rewrite (is_mat_ncols _ _ _ HH) by auto; lia).
  destruct (Nat.lt_ge_cases i k) as [C|C].
  - rewrite app_nth1 by (rewrite mat_vec_length, (is_mat_length _ _ _ TW); lia). rewrite nth_mat_vec, nth_transpose by (rewrite (is_mat_ncols _ _ _ HW) by auto; lia). f_equal.
    apply (vec_ext d); [rewrite col_length; apply HH|rewrite col_length; apply HW|]. intros j Hj. rewrite !nth_col. unfold entry, hstack.
    rewrite (nth_map2 _ _ _ [] [] []) by (reflexivity || (pose proof (is_mat_length _ _ _ HW); pose proof (is_mat_length _ _ _ HN); congruence)). apply app_nth1. rewrite (is_mat_row d k); auto.
  - rewrite app_nth2 by (rewrite mat_vec_length, (is_mat_length _ _ _ TW); lia). rewrite mat_vec_length, (is_mat_length _ _ _ TW).
    rewrite nth_mat_vec, nth_transpose by (rewrite (is_mat_ncols _ _ _ HN) by auto; lia). f_equal.
    apply (vec_ext d); [rewrite col_length; apply HH|rewrite col_length; apply HN|]. intros j Hj. rewrite !nth_col. unfold entry, hstack.
    rewrite (nth_map2 _ _ _ [] [] []) by (reflexivity || (pose proof (is_mat_length _ _ _ HW); pose proof (is_mat_length _ _ _ HN); congruence)).
    assert (LR : length (nth j W []) = k) by (apply (is_mat_row d k); auto). rewrite app_nth2 by lia. rewrite LR. reflexivity.
Qed.
Lemma orthonormal_apply d k W u : (0 < d)%nat -> orthonormal d k W -> length u = k -> mat_vec (transpose W) (mat_vec W u) = u.
Proof.
  intros Hd (HW & E) Lu. rewrite <- (mat_vec_mat_mul k d k) by (auto using is_mat_transpose). rewrite E. now apply mat_vec_eye.
Qed.
Lemma orthonormal_dot d k W u v : (0 < d)%nat -> orthonormal d k W -> length u = k -> length v = k -> dot (mat_vec W u) (mat_vec W v) = dot u v.
Proof.
  intros Hd HW Lu Lv. pose proof HW as (MW & _). rewrite (dot_mat_vec_t d k W v (mat_vec W u)) by (auto; rewrite mat_vec_length; apply MW).
  rewrite (orthonormal_apply d k) by auto. reflexivity.
Qed.
Lemma complete_orthogonal d k W N : (0 < d)%nat -> (k <= d)%nat -> orthonormal d k W -> null_spec d k (transpose W) N -> orthogonal d (hstack W N).
Proof.
  intros Hd Hk HW (HN & N1 & N2). pose proof HW as (MW & EW). pose proof HN as (MN & EN).
  assert (HH : is_mat d d (hstack W N)) by (replace d with (k + (d - k))%nat at 2 by lia; now apply is_mat_hstack).
  pose proof (is_mat_transpose _ _ _ HH Hd) as TH. pose proof (is_mat_transpose _ _ _ MW Hd) as TW. pose proof (is_mat_transpose _ _ _ MN Hd) as TN.
  assert (LW : length W = d) by apply MW. assert (LN : length N = d) by apply MN. assert (LTW : length (transpose W) = k) by apply TW. assert (LTN : length (transpose N) = (d - k)%nat) by apply TN.
  split; [exact HH|]. split.
  - apply (mat_eq_by_vec d d); [now apply (is_mat_mul d d d)|apply is_mat_eye|]. intros x Lx. rewrite mat_vec_eye by auto.
    rewrite (mat_vec_mat_mul d d d) by auto. rewrite <- (firstn_skipn k x). set (u := firstn k x). set (v := skipn k x).
    assert (Lu : length u = k) by (unfold u; rewrite firstn_length; lia). assert (Lv : length v = (d - k)%nat) by (unfold v; rewrite skipn_length; lia).
    rewrite (mat_vec_hstack d k (d - k)) by auto. rewrite (transpose_hstack d k (d - k)); auto; [|len].
    rewrite !mat_vec_vadd by len. rewrite (orthonormal_apply d k), (orthonormal_apply d (d - k)) by auto. rewrite N1, vadd_zeros_r by auto. f_equal.
    assert (Z : mat_vec (transpose N) (mat_vec W u) = zeros (d - k)).
    { set (y := mat_vec (transpose N) (mat_vec W u)). assert (Ly : length y = (d - k)%nat) by (unfold y; rewrite mat_vec_length; auto).
      assert (D : dot y y = 0).
      { unfold y at 2. rewrite (dot_comm y). rewrite <- (dot_mat_vec_t d (d - k) N y (mat_vec W u)) by (auto; rewrite mat_vec_length; auto).
        rewrite (dot_comm (mat_vec W u)). rewrite (dot_mat_vec_t d k W u (mat_vec N y)) by (auto; rewrite mat_vec_length; auto). rewrite N1 by auto. apply dot_zeros_l. }
      apply dot_self_zero in D. congruence. }
    rewrite Z. now apply vadd_zeros_l.
  - apply (mat_eq_by_vec d d); [now apply (is_mat_mul d d d)|apply is_mat_eye|]. intros x Lx. rewrite mat_vec_eye by auto.
    rewrite (mat_vec_mat_mul d d d) by auto. rewrite (transpose_hstack d k (d - k)) by auto. rewrite (mat_vec_hstack d k (d - k)) by (auto; rewrite mat_vec_length; auto).
    set (wx := mat_vec W (mat_vec (transpose W) x)). assert (Lwx : length wx = d) by (unfold wx; rewrite mat_vec_length; auto).
    assert (K : mat_vec (transpose W) (vsub x wx) = zeros k).
    { rewrite mat_vec_vsub by congruence. unfold wx. rewrite (orthonormal_apply d k) by (auto; rewrite mat_vec_length; auto). rewrite vsub_diag, mat_vec_length, LTW. reflexivity. }
    pose proof (N2 (vsub x wx) ltac:(len) K) as E. rewrite !mat_vec_vsub in E by (rewrite ?mat_vec_length; congruence).
    assert (Z : mat_vec N (mat_vec (transpose N) wx) = zeros d).
    { assert (Y : mat_vec (transpose N) wx = zeros (d - k)).
      { set (y := mat_vec (transpose N) wx). assert (Ly : length y = (d - k)%nat) by (unfold y; rewrite mat_vec_length; auto).
        assert (D : dot y y = 0).
        { unfold y at 2. rewrite (dot_comm y). rewrite <- (dot_mat_vec_t d (d - k) N y wx) by auto. rewrite dot_comm. unfold wx.
          rewrite (dot_mat_vec_t d k W _ (mat_vec N y)) by (auto; rewrite mat_vec_length; auto). rewrite N1 by auto. apply dot_zeros_l. }
        apply dot_self_zero in D. congruence. }
      rewrite Y, mat_vec_zeros, LN. reflexivity. }
    rewrite Z in E. assert (LNN : length (mat_vec N (mat_vec (transpose N) x)) = d) by (rewrite mat_vec_length; auto). rewrite vsub_zeros_r in E by auto. rewrite E. fold wx. vring d.
Qed.

(** * mbe_of_points *)
Lemma nth_rinv w i : (i < length w)%nat -> nth i (map Rinv w) 0 = / nth i w 0.
Proof. intro H. rewrite (nth_indep _ 0 (/ 0)) by (rewrite map_length; auto). apply map_nth. Qed.
Lemma eigh_apply n A w V y : (0 < n)%nat -> is_mat n n A -> eigh_spec n A (w, V) -> length y = n -> mat_vec A (mat_vec V y) = mat_vec V (vmul w y).
Proof.
  intros Hn HA (Lw & (MV & V1 & V2) & E) Ly. cbn [fst snd] in *. rewrite <- (mat_vec_mat_mul n n n) by auto. rewrite E.
  assert (HD : is_mat n n (diag w)) by (rewrite <- Lw; apply is_mat_diag). rewrite (mat_vec_mat_mul n n n), mat_vec_diag by (auto; congruence). reflexivity.
Qed.
Lemma orthogonal_orthonormal n V : orthogonal n V -> orthonormal n n V.
Proof. intros (M & E & _). split; auto. Qed.
Lemma orthogonal_back n V x : (0 < n)%nat -> orthogonal n V -> length x = n -> mat_vec V (mat_vec (transpose V) x) = x.
Proof. intros Hn (M & _ & E) Lx. rewrite <- (mat_vec_mat_mul n n n) by auto using is_mat_transpose. rewrite E. now apply mat_vec_eye. Qed.
Definition unit_vec (n i : nat) : vec := map (fun j => if Nat.eqb j i then 1 else 0) (seq 0 n).
Lemma unit_vec_length n i : length (unit_vec n i) = n. Proof. unfold unit_vec. now rewrite map_length, seq_length. Qed.
Lemma dot_unit_vec n i x : length x = n -> (i < n)%nat -> dot (unit_vec n i) x = nth i x 0.
Proof.
  intros Lx Hi. rewrite (dot_rsum n) by (auto using unit_vec_length). rewrite <- (rsum_delta n i (fun j => nth j x 0) Hi). apply rsum_ext. intros j Hj.
  unfold unit_vec. rewrite nth_map_seq by auto. destruct (Nat.eqb_spec j i), (Nat.eqb_spec i j); subst; try congruence; ring.
Qed.
Lemma eig_pos n A w V i : (0 < n)%nat -> is_mat n n A -> pos_def n A -> eigh_spec n A (w, V) -> (i < n)%nat -> 0 < nth i w 0.
Proof.
  intros Hn HA HP HE Hi. pose proof HE as (Lw & HV & _). cbn in Lw, HV. pose proof HV as (MV & _). set (e := unit_vec n i) in *. assert (Le : length e = n) by apply unit_vec_length.
  assert (Q : quad A (mat_vec V e) = nth i w 0).
  { unfold quad. rewrite (eigh_apply n) with (w := w) by auto. rewrite (orthonormal_dot n n) by (auto using orthogonal_orthonormal; len).
    unfold e in *. rewrite dot_unit_vec by (auto; rewrite vmul_length; congruence). rewrite nth_vmul by congruence. unfold unit_vec. rewrite nth_map_seq, Nat.eqb_refl by auto. ring. }
  rewrite <- Q. apply HP; [rewrite mat_vec_length; apply MV|]. intro Z.
  assert (D : dot (mat_vec V e) (mat_vec V e) = 1).
  { rewrite (orthonormal_dot n n) by (auto using orthogonal_orthonormal). unfold e. rewrite dot_unit_vec by auto. unfold unit_vec. rewrite nth_map_seq, Nat.eqb_refl by auto. reflexivity. }
  rewrite Z, dot_zeros_l in D. lra.
Qed.
Lemma vmul_app a b c d : length a = length c -> vmul (a ++ b) (c ++ d) = vmul a c ++ vmul b d.
Proof. intro H. unfold vmul. now apply map2_app. Qed.
Lemma vmul_zeros_l n v : length v = n -> vmul (zeros n) v = zeros n.
Proof. intro H. vext n. rewrite nth_vmul, nth_zeros by len. ring. Qed.
Lemma mbe_of_points_contains d k points orth null_space eigh lstsq solver r A b w V :
  (0 < d)%nat -> (0 < k <= d)%nat -> (forall x, In x points -> length x = d) -> hd_error points = Some r ->
  let D := map (fun p => vsub p r) points in let R := orth (transpose D) in
  orth_spec d k D R ->
  solver (mbe_points_constraints k (mat_mul D R) false) = (A, b) -> mbe_points_constraints k (mat_mul D R) false A b -> pos_def k A ->
  eigh A = (w, V) -> eigh_spec k A (w, V) -> lstsq_spec A (vneg b) (lstsq A (vneg b)) ->
  null_spec d k (transpose (mat_mul R V)) (null_space (transpose (mat_mul R V))) ->
  exists e, mbe_of_points orth null_space eigh lstsq solver points = Ok e /\ e_dim e = d /\ orthogonal d (e_rot e) /\ e_half e = map Rinv w ++ zeros (d - k) /\
    forall p, In p points -> ell_set (e_half e) (e_rot e) (e_center e) p.
Proof.
  intros Hd Hk HP Hr D R HO HS HC HPD HE HES HL HN. destruct points as [|r' points']; [discriminate|]. injection Hr as ->. set (points := r :: points') in *.
  assert (Lr : length r = d) by (apply HP; now left). destruct HO as (HR & HO). pose proof HR as (MR & ER).
  assert (NR : ncols R = k) by (apply (is_mat_ncols d k); auto). assert (LR : length R = d) by apply MR.
  destruct HC as ((MA & TA & PA) & Lb & HC & _). pose proof HES as (Lw & HV & _). cbn in Lw, HV. pose proof HV as (MV & _).
  assert (MRV : is_mat d k (mat_mul R V)) by (apply (is_mat_mul d k k); auto; lia).
  assert (ORV : orthonormal d k (mat_mul R V)).
  { split; [exact MRV|]. apply (mat_eq_by_vec k k); [apply (is_mat_mul k d k); auto using is_mat_transpose|apply is_mat_eye|]. intros x Lx. rewrite mat_vec_eye by auto.
    assert (TRV : is_mat k d (transpose (mat_mul R V))) by (apply is_mat_transpose; auto). rewrite (mat_vec_mat_mul k d k) by auto.
    apply (vec_ext k); [rewrite mat_vec_length; apply TRV|auto|]. intros i Hi.
    assert (X : forall u, length u = k -> dot u (mat_vec (transpose (mat_mul R V)) (mat_vec (mat_mul R V) x)) = dot u x).
    { intros u Lu. rewrite dot_comm. rewrite <- (dot_mat_vec_t d k (mat_mul R V) u) by (auto; rewrite mat_vec_length; apply MRV).
      rewrite !(mat_vec_mat_mul d k k) by auto. rewrite (orthonormal_dot d k) by (auto; rewrite mat_vec_length; apply MV). rewrite (orthonormal_dot k k) by (auto using orthogonal_orthonormal; lia). apply dot_comm. }
    specialize (X (unit_vec k i) (unit_vec_length k i)). rewrite !dot_unit_vec in X by (auto; rewrite mat_vec_length; apply TRV). exact X. }
  set (N := null_space (transpose (mat_mul R V))) in *. pose proof (complete_orthogonal d k _ N Hd ltac:(lia) ORV HN) as HQ.
  assert (WP : forall i, (i < k)%nat -> 0 < nth i w 0) by (intros i Hi; apply (eig_pos k A w V i); try lia; assumption).
  assert (EH : unproject_half d w = map Rinv w ++ zeros (d - k)).
  { unfold unproject_half. rewrite Lw. f_equal. apply map_ext_in. intros a Ha. destruct (In_nth w a 0 Ha) as (i & Hi & <-). rewrite Lw in Hi. specialize (WP i Hi). rewrite (proj2 (Reqb_false _ _)) by lra. reflexivity. }
  set (c0 := lstsq A (vneg b)) in *. set (half := map Rinv w ++ zeros (d - k)). assert (Lh : length half = d) by (unfold half; rewrite app_length, map_length, zeros_length; lia).
  assert (NA : ncols A = k) by (apply (is_mat_ncols k k); auto; lia). destruct HL as (Lc0 & HL). rewrite NA in Lc0, HL. assert (LA : length A = k) by apply MA.
  (* A is invertible *)
  assert (Ac0 : mat_vec A c0 = vneg b).
  { apply HL. set (z := mat_vec (transpose V) (vneg b)). assert (Lz : length z = k) by (unfold z; rewrite mat_vec_length, transpose_length; apply (is_mat_ncols k k); auto; lia).
    exists (mat_vec V (vmul (map Rinv w) z)). split; [rewrite mat_vec_length; apply MV|]. rewrite (eigh_apply k) with (w := w) by (auto; try lia; rewrite vmul_length; rewrite map_length; congruence).
    replace (vmul w (vmul (map Rinv w) z)) with z; [unfold z; apply (orthogonal_back k); auto; len; lia|].
    assert (Lwi : length (map Rinv w) = k) by (rewrite map_length; auto). apply (vec_ext k); [auto|rewrite !vmul_length; rewrite ?vmul_length; congruence|].
    intros i Hi. rewrite !nth_vmul by (rewrite ?vmul_length; congruence). rewrite nth_rinv by lia. specialize (WP i Hi). field. lra. }
  assert (MQ : is_mat d d (hstack (mat_mul R V) N)) by apply HQ. assert (LRc : length (mat_vec R c0) = d) by (rewrite mat_vec_length; auto).
  assert (EI : mbe_of_points orth null_space eigh lstsq solver points = Ok {| e_half := half; e_rot := hstack (mat_mul R V) N; e_center := vadd (mat_vec R c0) r |}).
  { unfold mbe_of_points, points. fold points. change (map (fun p => vsub p r) points) with D. change (orth (transpose D)) with R. cbv zeta. rewrite NR, HS, HE, Lr, EH. fold half. fold N c0.
    rewrite (ell_init_good half (Some (hstack (mat_mul R V) N)) (Some (vadd (mat_vec R c0) r))); [reflexivity| |rewrite Lh; exact MQ|cbn [pose_tr]; len].
    intros i Hi. unfold half. destruct (Nat.lt_ge_cases i k) as [C|C].
    - rewrite app_nth1 by (rewrite map_length; lia). rewrite nth_rinv by lia. apply Rlt_le, Rinv_0_lt_compat, WP, C.
    - rewrite app_nth2 by (rewrite map_length; lia). rewrite nth_zeros. lra. }
  rewrite EI. eexists. split; [reflexivity|]. cbn [e_half e_rot e_center]. split; [exact Lh|]. split; [exact HQ|]. split; [reflexivity|].
  intros p Hp. assert (Lp : length p = d) by (apply HP; exact Hp). set (q := vsub p r). assert (Lq : length q = d) by (unfold q; len).
  assert (Rq : mat_vec R (mat_vec (transpose R) q) = q) by (apply HO; unfold D, q; now apply (in_map (fun p => vsub p r))).
  set (x := mat_vec (transpose R) q) in *. assert (TR : is_mat k d (transpose R)) by (apply is_mat_transpose; auto). assert (Lx : length x = k) by (unfold x; rewrite mat_vec_length; apply TR).
  assert (Hx : norm (vadd (mat_vec A x) b) <= 1).
  { apply HC. unfold mat_mul. apply in_map_iff. exists q. split; [apply vec_mat_mat_vec|]. unfold D, q. now apply (in_map (fun p => vsub p r)). }
  set (y := vsub x c0). assert (Ly : length y = k) by (unfold y; len).
  assert (EAy : mat_vec A y = vadd (mat_vec A x) b). { unfold y. rewrite mat_vec_vsub by congruence. rewrite Ac0. vring k. }
  set (z := mat_vec (transpose V) y). assert (TV : is_mat k k (transpose V)) by (apply is_mat_transpose; auto; lia). assert (Lz : length z = k) by (unfold z; rewrite mat_vec_length; apply TV).
  assert (EVz : mat_vec V z = y) by (apply (orthogonal_back k); auto; lia).
  assert (EU : mat_vec A y = mat_vec V (vmul w z)) by (rewrite <- EVz; apply eigh_apply with (n := k); auto; lia).
  assert (Lwz : length (vmul w z) = k) by (rewrite vmul_length; congruence).
  exists (vmul w z ++ zeros (d - k)). split; [rewrite app_length, Lwz, zeros_length, Lh; lia|]. split.
  - rewrite dot_app by auto. rewrite dot_zeros_l, Rplus_0_r. rewrite <- (orthonormal_dot k k V) by (auto using orthogonal_orthonormal; lia). rewrite <- EU, EAy.
    apply (norm_le_iff _ 1) in Hx; lra.
  - unfold half. rewrite vmul_app by (rewrite map_length; congruence). rewrite vmul_zeros_l by len.
    replace (vmul (map Rinv w) (vmul w z)) with z.
    2:{ assert (Lwi : length (map Rinv w) = k) by (rewrite map_length; auto). apply (vec_ext k); [auto|rewrite !vmul_length; rewrite ?vmul_length; congruence|].
        intros i Hi. rewrite !nth_vmul by (rewrite ?vmul_length; congruence). rewrite nth_rinv by lia. specialize (WP i Hi). field. lra. }
    unfold move. destruct HN as ((MN & _) & _). rewrite (mat_vec_hstack d k (d - k)) by (auto; len). rewrite mat_vec_zeros, (is_mat_length _ _ _ MN).
    rewrite (mat_vec_mat_mul d k k) by auto. rewrite EVz. unfold y. rewrite mat_vec_vsub by congruence. rewrite Rq. unfold q. vring d.
Qed.

(** * The inscribed ellipsoid *)
Lemma image_quad n B M c x : (0 < n)%nat -> is_mat n n B -> transpose B = B -> inv_spec n (mat_mul B B) M -> length c = n -> length x = n ->
  (ball_image n B c x <-> quad M (vsub x c) <= 1).
Proof.
  intros Hn HB HT (HM & I1 & I2) Lc Lx. assert (LB : length B = n) by apply HB. assert (LM : length M = n) by apply HM.
  assert (ME : is_mat n n (mat_mul B B)) by (apply (is_mat_mul n n n); auto).
  assert (J1 : forall v, length v = n -> mat_vec B (mat_vec B (mat_vec M v)) = v).
  { intros v Lv. rewrite <- (mat_vec_mat_mul n n n B B), <- (mat_vec_mat_mul n n n) by (auto; len). rewrite I1. now apply mat_vec_eye. }
  assert (J2 : forall v, length v = n -> mat_vec M (mat_vec B (mat_vec B v)) = v).
  { intros v Lv. rewrite <- (mat_vec_mat_mul n n n B B), <- (mat_vec_mat_mul n n n) by (auto; len). rewrite I2. now apply mat_vec_eye. }
  unfold ball_image. split.
  - intros (u & Lu & Hu & ->). assert (LBu : length (mat_vec B u) = n) by len. replace (vsub (vadd (mat_vec B u) c) c) with (mat_vec B u) by vring n.
    set (y := mat_vec M (mat_vec B u)). assert (Ly : length y = n) by (unfold y; len).
    assert (E : mat_vec B y = u).
    { assert (K : mat_vec B (mat_vec B (mat_vec B y)) = mat_vec B (mat_vec B u)) by (unfold y; now rewrite J1).
      assert (LBy : length (mat_vec B y) = n) by len. rewrite <- (J2 (mat_vec B y)) by auto. rewrite K. now apply J2. }
    unfold quad. fold y. rewrite <- (sym_dot n) by auto. rewrite E. apply (norm_le_iff _ 1) in Hu; lra.
  - intro H. set (v := vsub x c) in *. assert (Lv : length v = n) by (unfold v; len). exists (mat_vec B (mat_vec M v)). split; [len|]. split.
    + apply (norm_le_iff _ 1); [lra|]. rewrite <- (sym_dot n) by (auto; len). rewrite J1 by auto. rewrite dot_comm. fold (quad M v). lra.
    + rewrite J1 by auto. unfold v. vring n.
Qed.
Lemma from_shape_matrix_half eigh M c e w V : eigh M = (w, V) -> (forall a, In a w -> np_atol * np_atol < a) ->
  ell_from_shape_matrix eigh M c = Ok e -> e_half e = map (fun a => / sqrt a) w.
Proof.
  intros Hg Hw H. unfold ell_from_shape_matrix in H. rewrite Hg, inv_sqrt_eigs in H by auto. apply ell_init_inv in H. apply H.
Qed.
Lemma mie_form_ball n A b sphere eigh inv solver B c w V :
  (0 < n)%nat -> (0 < length b)%nat -> is_mat (length b) n A ->
  solver (mie_constraints n A b sphere) = (B, c) -> mie_constraints n A b sphere B c ->
  inv_spec n (mat_mul B B) (inv (mat_mul B B)) ->
  eigh (inv (mat_mul B B)) = (w, V) -> eigh_spec n (inv (mat_mul B B)) (w, V) ->
  (forall a, In a w -> np_atol * np_atol < a < / (np_atol * np_atol)) ->
  exists e, mie_inequality_form eigh inv solver A b sphere = Ok e /\ is_ell e /\ e_dim e = n /\ e_center e = c /\ orthogonal n (e_rot e) /\ fat (e_half e) /\ e_half e = map (fun a => / sqrt a) w /\
    (forall x, length x = n -> (ell_set (e_half e) (e_rot e) (e_center e) x <-> ball_image n B c x)) /\
    (forall x, ell_set (e_half e) (e_rot e) (e_center e) x -> halfspaces A b x).
Proof.
  intros Hn Hb MA HS HC HI HE HES Hw. pose proof HC as ((MB & TB & PB) & Lc & HC1 & _).
  pose proof HI as (MI & _). pose proof HES as (Lw & HV & _). cbn in Lw, HV.
  destruct (from_shape_matrix_good eigh n (inv (mat_mul B B)) c w V) as (e & F1 & F2 & F3 & F4 & F5 & F6 & F7); auto; [apply (eigh_congd n); auto|].
  exists e. assert (NA : ncols A = n) by (apply (is_mat_ncols (length b) n); auto).
  assert (EQ : forall x, length x = n -> (ell_set (e_half e) (e_rot e) (e_center e) x <-> ball_image n B c x)).
  { intros x Lx. rewrite ell_set_local by (rewrite ?F3; auto). rewrite F7, F4. symmetry. apply image_quad; auto. }
  assert (EH : e_half e = map (fun a => / sqrt a) w) by (apply (from_shape_matrix_half eigh _ _ e w V HE) in F1; auto; intros a Ha; apply Hw; auto).
  split; [unfold mie_inequality_form; now rewrite NA, HS|]. repeat (split; [assumption|]).
  intros x Hx. assert (Lx : length x = n).
  { destruct Hx as (u & Lu & _ & ->). unfold move. rewrite F4. destruct F5 as ((LR & _) & _). rewrite vadd_length; rewrite mat_vec_length; congruence. }
  apply EQ in Hx; auto. destruct (mie_feasible n A b B c MA) as (K & _). destruct K as (_ & _ & K); [|now apply K].
  split; [split; auto|]. split; [auto|]. split; [auto|discriminate].
Qed.

Lemma orthonormal_mul d k W V : (0 < d)%nat -> (0 < k)%nat -> orthonormal d k W -> orthogonal k V -> orthonormal d k (mat_mul W V).
Proof.
  intros Hd Hk HW HV. pose proof HW as (MW & EW). pose proof HV as (MV & V1 & V2).
  pose proof (is_mat_transpose _ _ _ MW Hd) as TW. pose proof (is_mat_transpose _ _ _ MV Hk) as TV.
  split; [apply (is_mat_mul d k k); auto|]. rewrite (transpose_mat_mul d k k) by auto.
  rewrite (mat_mul_assoc k k d k) by (auto; apply (is_mat_mul d k k); auto). rewrite <- (mat_mul_assoc k d k k (transpose W)) by auto. rewrite EW.
  rewrite (mat_mul_eye_l k k) by auto. exact V1.
Qed.
Lemma vertices_face_form n dd P f : (0 < n)%nat -> P <> [] -> rows_len n P ->
  ineqs_correct n (dd_ineqs dd) {| cdd_rows := map (cons 1) P; cdd_lin := [] |} ->
  sf_to_face_form (dd_ineqs dd) (span_form (Some P) None None) = Ok f ->
  (0 < length (ff_b f))%nat /\ is_mat (length (ff_b f)) n (ff_A f) /\
  forall x, length x = n -> (halfspaces (ff_A f) (ff_b f) x <-> in_hull n P x).
Proof.
  intros Hn NP RP HI Hf.
  assert (E : exists p, poly_from_vertices dd P false = Ok p /\ p_face p = f).
  { unfold poly_from_vertices, poly_init. rewrite Hf. cbn [bind]. eexists. split; reflexivity. }
  destruct E as (p & E & <-). destruct (from_vertices_agree n dd P p Hn NP RP HI E) as ((OK & AG) & EV).
  destruct OK as (_ & PA & MA & LA & _). unfold p_A, p_b in *. rewrite LA. split; [lia|]. split; [exact MA|].
  intros x Lx. rewrite <- EV. apply AG, Lx.
Qed.
Lemma poly_mie_inside d k dd orth null_space eigh inv solver p sphere r f B c w V :
  (0 < d)%nat -> (0 < k <= d)%nat -> (forall v, In v (p_vertices p) -> length v = d) -> hd_error (p_vertices p) = Some r ->
  let D := map (fun v => vsub v r) (p_vertices p) in let R := orth (transpose D) in let P := mat_mul D R in
  orth_spec d k D R ->
  ineqs_correct k (dd_ineqs dd) {| cdd_rows := map (cons 1) P; cdd_lin := [] |} ->
  sf_to_face_form (dd_ineqs dd) (span_form (Some P) None None) = Ok f ->
  solver (mie_constraints k (ff_A f) (ff_b f) sphere) = (B, c) -> mie_constraints k (ff_A f) (ff_b f) sphere B c ->
  inv_spec k (mat_mul B B) (inv (mat_mul B B)) ->
  eigh (inv (mat_mul B B)) = (w, V) -> eigh_spec k (inv (mat_mul B B)) (w, V) ->
  (forall a, In a w -> np_atol * np_atol < a < / (np_atol * np_atol)) ->
  null_spec d k (transpose R) (null_space (transpose R)) ->
  exists e, poly_mie dd orth null_space eigh inv solver p sphere = Ok e /\ e_dim e = d /\ orthogonal d (e_rot e) /\
    forall x, ell_set (e_half e) (e_rot e) (e_center e) x -> in_hull d (p_vertices p) x.
Proof.
  intros Hd Hk HP Hr D R P HO HI Hf HS HC HIN HE HES Hw HN.
  destruct (p_vertices p) as [|r' pts'] eqn:EP; [discriminate|]. injection Hr as ->. set (points := r :: pts') in *.
  assert (Lr : length r = d) by (apply HP; now left). destruct HO as (HR & HO). pose proof HR as (MR & ER).
  assert (LR : length R = d) by apply MR. pose proof (is_mat_transpose _ _ _ MR Hd) as TR. assert (LTR : length (transpose R) = k) by apply TR.
  assert (EPm : P = map (mat_vec (transpose R)) D) by (unfold P, mat_mul; apply map_ext; intro; apply vec_mat_mat_vec).
  assert (RP : rows_len k P). { rewrite EPm. intros v Hv. apply in_map_iff in Hv as (u & <- & Hu). len. }
  assert (NP : P <> []) by (rewrite EPm; discriminate).
  destruct (vertices_face_form k dd P f ltac:(lia) NP RP HI Hf) as (Lb & MA & HULL).
  destruct (mie_form_ball k (ff_A f) (ff_b f) sphere eigh inv solver B c w V) as (e & E1 & E2 & E3 & E4 & E5 & E6 & _ & E7 & E8); auto; [lia|].
  destruct (form_facts e E2) as (M1 & L2 & L3). rewrite E3 in M1, L2, L3.
  assert (ORV : orthonormal d k (mat_mul R (e_rot e))) by (apply orthonormal_mul; auto; lia). pose proof ORV as (MRV & _).
  set (N := null_space (transpose R)) in *. pose proof HN as (ON & N1 & N2). pose proof ON as (MN & _).
  assert (TE : is_mat k k (transpose (e_rot e))) by (apply is_mat_transpose; auto; lia).
  assert (ET : forall x, length x = d -> mat_vec (transpose (mat_mul R (e_rot e))) x = mat_vec (transpose (e_rot e)) (mat_vec (transpose R) x)).
  { intros x Lx. rewrite (transpose_mat_mul d k k) by (auto; lia). now apply (mat_vec_mat_mul k k d). }
  assert (HQ : orthogonal d (hstack (mat_mul R (e_rot e)) N)).
  { apply (complete_orthogonal d k); auto; [lia|]. split; [exact ON|]. split.
    - intros v Lv. rewrite ET by (rewrite mat_vec_length; apply MN). rewrite N1 by auto. rewrite mat_vec_zeros. f_equal. apply TE.
    - intros x Lx Hx. apply N2; auto. rewrite ET in Hx by auto. rewrite <- (orthogonal_back k (e_rot e) (mat_vec (transpose R) x)) by (auto; try lia; len).
      rewrite Hx, mat_vec_zeros. now rewrite (is_mat_length _ _ _ M1). }
  set (half := e_half e ++ zeros (d - k)). assert (Lh : length half = d) by (unfold half; rewrite app_length, zeros_length; lia).
  assert (LRc : length (mat_vec R (e_center e)) = d) by (rewrite mat_vec_length; auto).
  assert (EI : poly_mie dd orth null_space eigh inv solver p sphere = Ok {| e_half := half; e_rot := hstack (mat_mul R (e_rot e)) N; e_center := vadd (mat_vec R (e_center e)) r |}).
  { unfold poly_mie. rewrite EP. unfold points. fold points. change (map (fun p => vsub p r) points) with D. change (orth (transpose D)) with R. change (mat_mul D R) with P.
    cbv zeta. rewrite Hf. cbn [bind]. rewrite E1. cbn [bind]. rewrite Lr, E3. fold half. fold N.
    rewrite (ell_init_good half (Some (hstack (mat_mul R (e_rot e)) N)) (Some (vadd (mat_vec R (e_center e)) r))); [reflexivity| |rewrite Lh; apply HQ|cbn [pose_tr]; len].
    intros i Hi. unfold half. destruct (Nat.lt_ge_cases i k) as [C|C].
    - rewrite app_nth1 by lia. specialize (E6 i ltac:(lia)). pose proof np_atol_pos. lra.
    - rewrite app_nth2 by lia. rewrite nth_zeros. lra. }
  rewrite EI. eexists. split; [reflexivity|]. cbn [e_half e_rot e_center]. split; [exact Lh|]. split; [exact HQ|].
  intros x (u & Lu & Hu & ->). rewrite Lh in Lu.
  assert (EU : u = firstn k u ++ skipn k u) by (symmetry; apply firstn_skipn). set (u1 := firstn k u) in *. set (u2 := skipn k u) in *.
  assert (L1 : length u1 = k) by (unfold u1; rewrite firstn_length; lia). assert (L2' : length u2 = (d - k)%nat) by (unfold u2; rewrite skipn_length; lia). clearbody u1 u2. subst u.
  rewrite dot_app in Hu by auto. pose proof (dot_self_nonneg u2) as P2.
  set (y := move (e_rot e) (e_center e) (vmul (e_half e) u1)).
  assert (Lhu : length (vmul (e_half e) u1) = k) by (rewrite vmul_length; congruence).
  assert (Ly : length y = k) by (unfold y, move; rewrite vadd_length; rewrite mat_vec_length; rewrite (is_mat_length _ _ _ M1); auto).
  assert (Hy : in_hull k P y).
  { apply HULL; [exact Ly|]. apply E8. exists u1. split; [congruence|]. split; [lra|reflexivity]. }
  replace (move (hstack (mat_mul R (e_rot e)) N) (vadd (mat_vec R (e_center e)) r) (vmul half (u1 ++ u2))) with (vadd (mat_vec R y) r).
  - destruct Hy as (wt & Lw & Hwt & ->). rewrite (combine_rows_mat_vec k d) by auto.
    assert (LP : length P = length points) by (rewrite EPm; unfold D; rewrite !map_length; reflexivity).
    exists wt. split; [congruence|]. split; [exact Hwt|]. rewrite <- combine_rows_translate; [|exact Lr|rewrite map_length; congruence|apply Hwt|].
    + f_equal. rewrite EPm. unfold D. rewrite !map_map. rewrite <- (map_id points) at 2. apply map_ext_in. intros v Hv.
      rewrite HO by (unfold D; now apply (in_map (fun p => vsub p r))). assert (length v = d) by (apply HP; exact Hv). vring d.
    + intros v Hv. apply in_map_iff in Hv as (z & <- & _). rewrite mat_vec_length. exact LR.
  - unfold half. rewrite vmul_app by congruence. rewrite vmul_zeros_l by len. unfold y, move.
    rewrite (mat_vec_hstack d k (d - k)) by (auto; len). rewrite mat_vec_zeros, (is_mat_length _ _ _ MN).
    rewrite (mat_vec_mat_mul d k k) by auto. assert (LMv : length (mat_vec (e_rot e) (vmul (e_half e) u1)) = k) by (rewrite mat_vec_length; apply M1).
    rewrite mat_vec_vadd by congruence. assert (length (mat_vec R (mat_vec (e_rot e) (vmul (e_half e) u1))) = d) by (rewrite mat_vec_length; exact LR). vring d.
Qed.
