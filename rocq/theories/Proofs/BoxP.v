From Verif Require Import Base.Vec Base.VecFacts Spec.Basic Spec.Shapes Spec.ShapeObjects
  Model.Util Model.Polydd Model.Poly Model.Ellipsoid Model.Box
  Proofs.Coord Proofs.Hull Proofs.InertialT Proofs.InertialP.

(** ** poses *)
Lemma move_inv n Q c u p : orthogonal n Q -> length c = n -> length u = n -> length p = n -> (0 < n)%nat ->
  (p = move Q c u <-> u = mat_vec (transpose Q) (vsub p c)).
Proof.
  intros (HQ & H1 & H2) Hc Hu Hp Hn. pose proof (is_mat_transpose _ _ _ HQ Hn) as HT.
  assert (LQ : length Q = n) by apply HQ.
  assert (LT : length (transpose Q) = n) by apply HT.
  split; intro E; subst.
  - unfold move. rewrite vsub_vadd by (rewrite mat_vec_length; congruence).
    rewrite <- (mat_vec_mat_mul (length c) (length c) (length c)) by auto. rewrite H1, mat_vec_eye; auto.
  - unfold move. rewrite <- (mat_vec_mat_mul (length c) (length c) (length c)) by (auto; rewrite vsub_length; congruence).
    rewrite H2, mat_vec_eye by (rewrite vsub_length; congruence). rewrite vadd_vsub; congruence.
Qed.
Lemma move_len n Q c u : is_mat n n Q -> length c = n -> length (move Q c u) = n.
Proof. intros HQ Hc. unfold move. rewrite vadd_length; rewrite mat_vec_length; [apply HQ|]. destruct HQ; congruence. Qed.
Lemma move_compose n Q t R c u : is_mat n n Q -> is_mat n n R -> length t = n -> length c = n -> length u = n ->
  (0 < n)%nat -> move Q t (move R c u) = move (mat_mul Q R) (vadd (mat_vec Q c) t) u.
Proof.
  intros HQ HR Ht Hc Hu Hn. unfold move. rewrite mat_vec_vadd by (rewrite mat_vec_length; destruct HR; congruence).
  rewrite (mat_vec_mat_mul n n n) by auto. symmetry. apply vadd_assoc.
Qed.
Lemma orthogonal_eye n : (0 < n)%nat -> orthogonal n (eye n).
Proof.
  intro Hn. pose proof (is_mat_eye n). split; [assumption|].
  rewrite transpose_eye. rewrite (mat_mul_eye_r n n) by auto. auto.
Qed.
Lemma orthogonal_transpose n Q : orthogonal n Q -> (0 < n)%nat -> orthogonal n (transpose Q).
Proof.
  intros (HQ & H1 & H2) Hn. split; [apply is_mat_transpose; auto|].
  rewrite (transpose_involutive n n) by auto. auto.
Qed.
Lemma orthogonal_mul n Q R : orthogonal n Q -> orthogonal n R -> (0 < n)%nat -> orthogonal n (mat_mul Q R).
Proof.
  intros (HQ & Q1 & Q2) (HR & R1 & R2) Hn.
  pose proof (is_mat_transpose _ _ _ HQ Hn) as HQT. pose proof (is_mat_transpose _ _ _ HR Hn) as HRT.
  assert (M1 : is_mat n n (mat_mul Q R)) by (eapply is_mat_mul; eauto).
  split; [assumption|]. rewrite (transpose_mat_mul n n n) by auto. split.
  - rewrite (mat_mul_assoc n n n n) by (auto; eapply is_mat_mul; eauto).
    rewrite <- (mat_mul_assoc n n n n (transpose Q) Q R) by auto.
    rewrite Q1, (mat_mul_eye_l n n) by auto. exact R1.
  - rewrite (mat_mul_assoc n n n n) by (auto; eapply is_mat_mul; eauto).
    rewrite <- (mat_mul_assoc n n n n R (transpose R) (transpose Q)) by auto.
    rewrite R2, (mat_mul_eye_l n n) by auto. exact Q2.
Qed.
Lemma orthogonal_dot n Q x y : orthogonal n Q -> length x = n -> length y = n -> (0 < n)%nat ->
  dot (mat_vec Q x) (mat_vec Q y) = dot x y.
Proof.
  intros (HQ & H1 & H2) Hx Hy Hn.
  rewrite (dot_mat_vec_t n n) by (auto; rewrite mat_vec_length; apply HQ).
  rewrite <- (mat_vec_mat_mul n n n); auto; [|apply is_mat_transpose; auto].
  rewrite H1, mat_vec_eye by auto. reflexivity.
Qed.
Lemma dot_tmat n Q x y : is_mat n n Q -> length x = n -> length y = n -> (0 < n)%nat ->
  dot (mat_vec (transpose Q) x) y = dot x (mat_vec Q y).
Proof.
  intros HQ Hx Hy Hn. symmetry. apply (dot_mat_vec_t n n); auto.
Qed.

Lemma vec_mat_transpose n v A : is_mat n n A -> length v = n -> (0 < n)%nat ->
  vec_mat v (transpose A) = mat_vec A v.
Proof.
  intros HA Hv Hn. rewrite vec_mat_mat_vec, (transpose_involutive n n) by auto. reflexivity.
Qed.
Lemma rows_move_eq n Q t X : is_mat n n Q -> length t = n -> rows_len n X -> (0 < n)%nat ->
  rows_move Q t X = map (move Q t) X.
Proof.
  intros HQ Ht HX Hn. unfold rows_move. destruct X as [|x X].
  - cbn [map]. replace (transpose (mat_mul Q (transpose []))) with (@nil vec); [reflexivity|].
    unfold transpose at 1, mat_mul, vec_mat. cbn. unfold ncols. destruct Q as [|q Q]; cbn; reflexivity.
  - set (Y := x :: X) in *. assert (HY : is_mat (length Y) n Y) by (apply rows_len_is_mat; auto).
    assert (0 < length Y)%nat by (cbn; lia).
    assert (HYT : is_mat n (length Y) (transpose Y)) by (apply is_mat_transpose; auto).
    rewrite (transpose_mat_mul n n (length Y)) by auto.
    rewrite (transpose_involutive (length Y) n) by auto.
    unfold mat_mul. rewrite map_map. apply map_ext_in. intros v Hv. unfold move. f_equal.
    apply (vec_mat_transpose n); auto.
Qed.

(** ** box constructor *)
Lemma clean_transform_inv r t n rt : clean_transform r t n = Ok rt ->
  fst rt = pose_rot n r /\ snd rt = pose_tr n t /\ is_mat n n (fst rt) /\ length (snd rt) = n.
Proof.
  unfold clean_transform, bind, assert_. destruct r as [r|]; [destruct (is_matb n n r) eqn:E1; [apply is_matb_iff in E1|discriminate]|];
  (destruct t as [t|]; [destruct (is_vecb n t) eqn:E2; [apply Nat.eqb_eq in E2|discriminate]|]);
  intros [= <-]; cbn; repeat split; auto using is_mat_eye, zeros_length; try apply is_mat_eye; try apply E1.
Qed.
Lemma clean_transform_good r t n : is_mat n n (pose_rot n r) -> length (pose_tr n t) = n ->
  clean_transform r t n = Ok (pose_rot n r, pose_tr n t).
Proof.
  intros H1 H2. unfold clean_transform, bind, assert_. destruct r as [r|]; cbn in *;
  rewrite ?(proj2 (is_matb_iff n n r) H1);
  (destruct t as [t|]; cbn in *; unfold is_vecb; rewrite ?H2, ?Nat.eqb_refl; reflexivity).
Qed.
Lemma forallb_nonneg h : forallb (Rleb 0) h = true <-> forall i, (i < length h)%nat -> 0 <= nth i h 0.
Proof.
  rewrite forallb_forall. split.
  - intros H i Hi. apply Rleb_iff, H, nth_In, Hi.
  - intros H x Hx. apply In_nth with (d := 0) in Hx as (i & Hi & <-). apply Rleb_iff, H, Hi.
Qed.

Lemma sign_combos_len n s : In s (sign_combos n) -> length s = n.
Proof.
  revert s; induction n as [|n IH]; intros s Hs; cbn in Hs.
  - destruct Hs as [<-|[]]. reflexivity.
  - apply in_app_iff in Hs as [Hs|Hs]; apply in_map_iff in Hs as (u & <- & Hu); cbn; f_equal; auto.
Qed.
Lemma box_vertices_len h : rows_len (length h) (box_vertices h).
Proof.
  intros v Hv. unfold box_vertices in Hv. apply in_map_iff in Hv as (s & <- & Hs).
  apply sign_combos_len in Hs. rewrite vmul_length; auto.
Qed.

Lemma box_init_inv h c r b : box_init h c r = Ok b ->
  length h = 3%nat /\ (forall i, (i < 3)%nat -> 0 <= nth i h 0) /\
  b_half b = h /\ b_center b = pose_tr 3 c /\ b_rot b = pose_rot 3 r /\
  is_mat 3 3 (b_rot b) /\ length (b_center b) = 3%nat /\
  b_A b = mat_mul box_normals (transpose (b_rot b)) /\
  b_b b = vadd [nth 0 h 0; nth 0 h 0; nth 1 h 0; nth 1 h 0; nth 2 h 0; nth 2 h 0]
               (mat_vec (b_A b) (b_center b)) /\
  b_vertices b = map (move (b_rot b) (b_center b)) (box_vertices h) /\ sf_bounded (p_span (b_poly b)) = true.
Proof.
  unfold box_init. destruct (is_vecb 3 h) eqn:E1; cbn [bind assert_]; [|discriminate].
  apply Nat.eqb_eq in E1.
  destruct (forallb (Rleb 0) h) eqn:E2; cbn [bind assert_]; [|discriminate].
  rewrite forallb_nonneg, E1 in E2.
  destruct (clean_transform r c 3) as [[rot cen]| |] eqn:E3; cbn [bind]; try discriminate.
  apply clean_transform_inv in E3 as (-> & -> & H1 & H2). cbn [fst snd] in *.
  unfold box_vertices_at, box_inequalities.
  rewrite clean_transform_good by assumption. cbn [bind fst snd pose_rot pose_tr].
  destruct (len3_inv _ E1) as (x & y & z & ->). cbn [bind face_form fst snd].
  intros [= <-]. unfold b_A, b_b, b_vertices, p_A, p_b, p_vertices. cbn [b_poly p_face p_span ff_A ff_b b_rot b_center b_half sf_vertices span_form].
  repeat (split; [solve [auto]|]). split; [|reflexivity].
  apply rows_move_eq with (n := 3%nat); auto. apply (box_vertices_len [x; y; z]).
Qed.
Lemma box_init_good h c r : length h = 3%nat -> (forall i, (i < 3)%nat -> 0 <= nth i h 0) ->
  is_mat 3 3 (pose_rot 3 r) -> length (pose_tr 3 c) = 3%nat -> exists b, box_init h c r = Ok b.
Proof.
  intros H1 H2 H3 H4. unfold box_init, is_vecb. rewrite H1, Nat.eqb_refl. cbn [bind assert_].
  rewrite (proj2 (forallb_nonneg h)) by (rewrite H1; auto). cbn [bind assert_].
  rewrite clean_transform_good by assumption. cbn [bind fst snd].
  unfold box_vertices_at, box_inequalities. rewrite clean_transform_good by assumption.
  cbn [bind fst snd pose_rot pose_tr].
  destruct (len3_inv _ H1) as (x & y & z & ->). cbn [bind]. eexists. reflexivity.
Qed.
Lemma box_init_raises h c r : length h = 3%nat -> (exists i, (i < 3)%nat /\ nth i h 0 < 0) ->
  box_init h c r = Raise AssertionError.
Proof.
  intros H1 (i & Hi & H2). unfold box_init, is_vecb. rewrite H1, Nat.eqb_refl. cbn [bind assert_].
  destruct (forallb (Rleb 0) h) eqn:E; [|reflexivity]. rewrite forallb_nonneg, H1 in E.
  specialize (E i Hi). lra.
Qed.

Lemma all_le_iff x y : length x = length y ->
  (all_le x y = true <-> forall i, (i < length x)%nat -> nth i x 0 <= nth i y 0).
Proof.
  unfold all_le. revert y; induction x as [|a x IH]; intros [|b y] H; cbn in *; try discriminate.
  - split; auto. intros _ i Hi; lia.
  - rewrite andb_true_iff, Rleb_iff, IH by lia. split.
    + intros [H1 H2] [|i] Hi; auto. apply H2. lia.
    + intro H1. split; [apply (H1 0%nat); lia|]. intros i Hi. apply (H1 (S i)). lia.
Qed.
Lemma poly_contains_iff p x tol : length (p_A p) = length (p_b p) ->
  (poly_contains p x tol = true <-> halfspaces (p_A p) (map (fun b => b + tol) (p_b p)) x).
Proof.
  intro H. unfold poly_contains. rewrite all_le_iff; [|unfold add_tol; rewrite mat_vec_length, map_length; exact H].
  unfold halfspaces, add_tol. rewrite mat_vec_length.
  split; intros H1 i Hi; specialize (H1 i Hi); rewrite nth_mat_vec in *; exact H1.
Qed.
Lemma nth_map_0 {A B} (f : A -> B) l i d d' : (i < length l)%nat -> nth i (map f l) d' = f (nth i l d).
Proof. intro H. rewrite (nth_indep _ d' (f d)) by (rewrite map_length; exact H). apply map_nth. Qed.

(** ** membership *)
Lemma box_contains_local b p tol : is_box b -> length p = 3%nat ->
  (box_contains b p tol = true <->
   forall i, (i < 3)%nat -> Rabs (nth i (mat_vec (transpose (b_rot b)) (vsub p (b_center b))) 0) <= nth i (b_half b) 0 + tol).
Proof.
  intros (h & c & r & Hb) Hp. apply box_init_inv in Hb as (H1 & H2 & <- & _ & _ & H3 & H4 & H5 & H6 & _).
  unfold box_contains. 
  assert (L : length (p_A (b_poly b)) = length (p_b (b_poly b))).
  { change (length (b_A b) = length (b_b b)). rewrite H6, H5. rewrite vadd_length; rewrite ?mat_vec_length, mat_mul_length; reflexivity. }
  rewrite poly_contains_iff by exact L.
  change (p_A (b_poly b)) with (b_A b). change (p_b (b_poly b)) with (b_b b). rewrite H6, H5.
  clear H5 H6 L H2. destruct b as [h0 c0 r0 P]. cbn [b_half b_center b_rot] in *.
  destruct_vecs. unfold halfspaces. 
  split.
  - intros H i Hi.
    pose proof (H 0%nat ltac:(cbn; lia)) as A0. pose proof (H 1%nat ltac:(cbn; lia)) as A1.
    pose proof (H 2%nat ltac:(cbn; lia)) as A2. pose proof (H 3%nat ltac:(cbn; lia)) as A3.
    pose proof (H 4%nat ltac:(cbn; lia)) as A4. pose proof (H 5%nat ltac:(cbn; lia)) as A5. clear H.
    cbn in A0, A1, A2, A3, A4, A5. 
    destruct i as [|[|[|i]]]; try lia; cbn; apply Rabs_le; lra.
  - intros H i Hi.
    pose proof (H 0%nat ltac:(lia)) as A0. pose proof (H 1%nat ltac:(lia)) as A1. pose proof (H 2%nat ltac:(lia)) as A2. clear H.
    cbn in A0, A1, A2. apply abs_le_inv in A0, A1, A2. cbn in Hi.
    destruct i as [|[|[|[|[|[|i]]]]]]; try lia; cbn; lra.
Qed.

Lemma box_contains_iff b p : is_box b -> orthogonal 3 (b_rot b) -> length p = 3%nat ->
  (box_contains b p 0 = true <-> box_set (b_half b) (b_rot b) (b_center b) p).
Proof.
  intros Hb HQ Hp. rewrite box_contains_local by assumption.
  destruct Hb as (h & c & r & Hb). apply box_init_inv in Hb as (H1 & H2 & Eh & _ & _ & H3 & H4 & _).
  rewrite <- Eh in *. unfold box_set, in_cube. rewrite H1.
  assert (L : length (mat_vec (transpose (b_rot b)) (vsub p (b_center b))) = 3%nat).
  { rewrite mat_vec_length. apply (is_mat_transpose 3 3); auto. }
  split.
  - intro H. exists (mat_vec (transpose (b_rot b)) (vsub p (b_center b))). split.
    + split; [exact L|]. intros i Hi. specialize (H i Hi). rewrite Rplus_0_r in H. exact H.
    + apply (move_inv 3); auto.
  - intros (u & [Hu H] & E). apply (move_inv 3) in E; auto. subst u. intros i Hi. rewrite Rplus_0_r. auto.
Qed.

(** with a tolerance the box grows by tol in every direction of its own axes *)
Lemma box_contains_tol b p tol : is_box b -> orthogonal 3 (b_rot b) -> length p = 3%nat ->
  (box_contains b p tol = true <-> box_set (map (fun h => h + tol) (b_half b)) (b_rot b) (b_center b) p).
Proof.
  intros Hb HQ Hp. rewrite box_contains_local by assumption.
  destruct Hb as (h & c & r & Hb). apply box_init_inv in Hb as (H1 & H2 & Eh & _ & _ & H3 & H4 & _).
  rewrite <- Eh in *. unfold box_set, in_cube. rewrite map_length, H1.
  assert (L : length (mat_vec (transpose (b_rot b)) (vsub p (b_center b))) = 3%nat).
  { rewrite mat_vec_length. apply (is_mat_transpose 3 3); auto. }
  split.
  - intro H. exists (mat_vec (transpose (b_rot b)) (vsub p (b_center b))). split.
    + split; [exact L|]. intros i Hi. specialize (H i Hi). rewrite (nth_map_0 _ _ _ 0) by lia. exact H.
    + apply (move_inv 3); auto.
  - intros (u & [Hu H] & E). apply (move_inv 3) in E; auto. subst u. intros i Hi. specialize (H i Hi).
    rewrite (nth_map_0 _ _ _ 0) in H by lia. exact H.
Qed.

(** ** vertices *)
Lemma cube_hull h u : in_hull (length h) (box_vertices h) u -> (forall i, (i < length h)%nat -> 0 <= nth i h 0) -> in_cube h u.
Proof.
  intros H Hh. split; [apply in_hull_length in H; exact H|]. intros i Hi.
  assert (K : forall v, In v (box_vertices h) -> Rabs (nth i v 0) <= nth i h 0).
  { intros v Hv. unfold box_vertices in Hv. apply in_map_iff in Hv as (s & <- & Hs).
    rewrite nth_vmul by (apply sign_combos_len in Hs; auto).
    assert (nth i s 0 = 1 \/ nth i s 0 = -1).
    { clear -Hi Hs. revert s i Hs Hi. generalize (length h) as n. induction n as [|n IH]; intros s i Hs Hi; [lia|].
      cbn in Hs. apply in_app_iff in Hs as [Hs|Hs]; apply in_map_iff in Hs as (s' & <- & Hs'); destruct i; cbn; auto; apply IH; auto; lia. }
    specialize (Hh i Hi). apply Rabs_le. destruct H0 as [->| ->]; lra. }
  revert H. apply (hull_in_convex (length h) (fun u => Rabs (nth i u 0) <= nth i h 0)); auto.
  - intros p q t E Hp Hq Ht. rewrite nth_vadd, !nth_vscale by (rewrite !vscale_length; auto).
    apply abs_le_inv in Hp, Hq. apply Rabs_le. nra.
  - apply box_vertices_len.
Qed.
Lemma combine_rows_map_cons n c w V : rows_len n V -> length w = length V -> 
  combine_rows (S n) w (map (cons c) V) = c * lsum w :: combine_rows n w V.
Proof.
  revert w; induction V as [|v V IH]; intros [|a w] HV Hl; cbn in Hl; try discriminate.
  - cbn [map]. rewrite !combine_rows_nil. cbn. f_equal. ring.
  - apply rows_len_cons in HV as [Hv HV]. cbn [map]. rewrite combine_rows_cons by (cbn; lia).
    rewrite IH by (auto; lia). rewrite combine_rows_cons by exact Hv. cbn.
    change (fold_right Rplus 0) with lsum. f_equal. ring.
Qed.
Lemma box_vertices_cons x h : box_vertices (x :: h) =
  map (cons x) (box_vertices h) ++ map (cons (- x)) (box_vertices h).
Proof.
  unfold box_vertices. cbn [length sign_combos]. rewrite map_app, !map_map. f_equal; apply map_ext; intro s; cbn.
  - rewrite Rmult_1_l. reflexivity.
  - f_equal. ring.
Qed.
Lemma lsum_vscale c w : lsum (vscale c w) = c * lsum w.
Proof. unfold vscale. rewrite <- (map_id w) at 2. apply (lsum_map_scal (fun x => x)). Qed.
Lemma hull_cube h u : in_cube h u -> in_hull (length h) (box_vertices h) u.
Proof.
  revert u; induction h as [|x h IH]; intros u [Hl Hu].
  - destruct u; [|discriminate]. exists [1]. cbn. split; [reflexivity|]. split; [|reflexivity].
    split; [intros y [<-|[]]; lra|cbn; ring].
  - destruct u as [|a u]; [discriminate|]. cbn in Hl.
    destruct (IH u) as (w & Lw & [Hn Hs] & E).
    { split; [lia|]. intros i Hi. apply (Hu (S i)). cbn. lia. }
    assert (Ha : Rabs a <= x) by (apply (Hu 0%nat); cbn; lia). apply abs_le_inv in Ha.
    assert (exists t, 0 <= t <= 1 /\ a = t * x + (1 - t) * - x) as (t & Ht & Ea).
    { destruct (Req_dec x 0) as [->|Hx].
      - exists 0. split; [lra|]. lra.
      - exists ((a + x) / (2 * x)). assert (0 < x) by lra. split; [|field; lra].
        split; [apply Rmult_le_pos; [lra|left; apply Rinv_0_lt_compat; lra]|].
        apply Rmult_le_reg_r with (2 * x); [lra|]. unfold Rdiv. rewrite Rmult_assoc, Rinv_l by lra. lra. }
    exists (vscale t w ++ vscale (1 - t) w). rewrite box_vertices_cons, !app_length, !map_length, !vscale_length.
    split; [lia|]. split.
    + split.
      * intros y Hy. apply in_app_iff in Hy as [Hy|Hy]; unfold vscale in Hy; apply in_map_iff in Hy as (z & <- & Hz);
        apply Rmult_le_pos; auto; lra.
      * rewrite lsum_app, !lsum_vscale, Hs. ring.
    + assert (HV := box_vertices_len h).
      cbn [length]. rewrite combine_rows_app.
      * rewrite !combine_rows_map_cons by (auto; rewrite vscale_length; auto).
        rewrite !combine_rows_scale, <- E, !lsum_vscale, Hs. cbn. f_equal.
        -- rewrite Ea. ring.
        -- apply (vec_ext (length u)); auto.
           ++ change (map2 Rplus (vscale t u) (vscale (1 - t) u)) with (vadd (vscale t u) (vscale (1 - t) u)).
              rewrite vadd_length; rewrite !vscale_length; reflexivity.
           ++ intros i Hi. change (map2 Rplus (vscale t u) (vscale (1 - t) u)) with (vadd (vscale t u) (vscale (1 - t) u)).
              rewrite nth_vadd by (rewrite !vscale_length; reflexivity). rewrite !nth_vscale. ring.
      * rewrite vscale_length, map_length. exact Lw.
      * apply (rows_len_map (length h)); auto. intros v Hv. cbn. lia.
      * apply (rows_len_map (length h)); auto. intros v Hv. cbn. lia.
Qed.

Lemma box_hull_iff b p : is_box b -> length p = 3%nat ->
  (in_hull 3 (b_vertices b) p <-> box_set (b_half b) (b_rot b) (b_center b) p).
Proof.
  intros (h & c & r & Hb) Hp. apply box_init_inv in Hb as (H1 & H2 & <- & _ & _ & H3 & H4 & _ & _ & -> & _).
  split.
  - intro H. apply in_hull_move_inv in H as (q & Hq & ->); auto.
    2:{ rewrite <- H1. apply box_vertices_len. }
    exists q. split; [|reflexivity]. rewrite <- H1 in Hq. apply cube_hull; auto. rewrite H1. auto.
  - intros (u & Hu & ->). apply in_hull_move; auto; [rewrite <- H1; apply box_vertices_len|].
    rewrite <- H1. apply hull_cube. exact Hu.
Qed.
Lemma box_faces_vertices b p : is_box b -> orthogonal 3 (b_rot b) -> length p = 3%nat ->
  (box_contains b p 0 = true <-> in_hull 3 (b_vertices b) p).
Proof. intros Hb HQ Hp. rewrite box_contains_iff, box_hull_iff by assumption. reflexivity. Qed.
Lemma poly_contains_all_eq p ps tol : is_mat (length (p_A p)) (p_dim p) (p_A p) -> (0 < length (p_A p))%nat -> (0 < p_dim p)%nat ->
  rows_len (p_dim p) ps -> poly_contains_all p ps tol = map (fun x => poly_contains p x tol) ps.
Proof.
  intros HA H1 H2 Hps. unfold poly_contains_all, poly_contains, mat_mul. rewrite map_map. apply map_ext_in.
  intros v Hv. f_equal. rewrite vec_mat_mat_vec, (transpose_involutive (length (p_A p)) (p_dim p)); auto.
Qed.
