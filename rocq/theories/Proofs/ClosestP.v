(** Closest points of two shapes. *)
From Verif Require Import Proofs.Coord Proofs.Hull Model.Util Model.Polydd Model.Poly Model.Ellipsoid Model.Box Model.Cylinder Model.RigidBody Model.Closest
  Spec.Basic Spec.Shapes Spec.ShapeObjects Spec.DoubleDesc Spec.PolySpec Spec.Bodies Spec.ClosestSpec Proofs.BoxP Proofs.PolyP Proofs.MustContain Proofs.CylP Proofs.EllP
  Proofs.CylCustom Proofs.RigidP.

Lemma one_over v : vscale (/ 1) v = v.
Proof. rewrite Rinv_1. apply vscale_1. Qed.
Lemma shp_must_contain_iff s K p : shape_is s K -> length p = 3%nat -> (shp_must_contain s p <-> K p).
Proof.
  assert (N : ~ (1 = 0)) by lra. assert (P : 0 < 1) by lra.
  intros HS Lp. destruct HS as [h c r b Hb HQ|q Hq|h r c e He Lh HQ|L R r c x Hx HQ|L R r c x k Hx Hk HQ]; cbn [shp_must_contain].
  - rewrite (box_must_contain_iff _ _ _ _ _ _ Hb HQ Lp) by lra. rewrite one_over. tauto.
  - rewrite poly_must_contain_iff; [now rewrite one_over| |lra]. destruct Hq as ((_ & _ & _ & E & _) & _). congruence.
  - assert (NE : h <> []) by (intros ->; discriminate). pose proof (ell_must_contain_iff _ _ _ _ p 1 He NE) as J. rewrite Lh in J. rewrite J by auto. rewrite one_over. tauto.
  - rewrite (cyl_must_contain_iff _ _ _ _ _ _ _ Hx HQ Lp). rewrite one_over. tauto.
  - destruct (caps_must_contain_iff _ _ _ _ _ _ p 1 Hx Hk HQ Lp) as (a & b & E & J). rewrite J, one_over.
    apply cyl_init_inv in Hx as (_ & _ & MQ & Hc & ->). rewrite endpoints_eq in E by auto. injection E as <- <-. unfold end1, end2. tauto.
Qed.
Lemma closest_pair_of s1 s2 K1 K2 solve : shape_is s1 K1 -> shape_is s2 K2 ->
  minimises closest_objective (closest_constraints s1 s2) (solve closest_objective (closest_constraints s1 s2)) ->
  let i := closest_points solve s1 s2 in closest_pair K1 K2 (cpi_p1 i) (cpi_p2 i) (cpi_dist i).
Proof.
  intros H1 H2 ((L1 & L2 & C1 & C2) & M). unfold closest_points. destruct (solve _ _) as [x y]. cbn in *.
  split; [auto|]. split; [auto|]. split; [now apply (shp_must_contain_iff s1)|]. split; [now apply (shp_must_contain_iff s2)|]. split; [reflexivity|].
  intros x' y' Lx Ly Kx Ky. apply M. split; [auto|]. split; [auto|]. split; [now apply (shp_must_contain_iff s1 K1)|now apply (shp_must_contain_iff s2 K2)].
Qed.
(** any minimiser is what an exact solver may return *)
Lemma minimises_of_pair s1 s2 K1 K2 x y d : shape_is s1 K1 -> shape_is s2 K2 -> closest_pair K1 K2 x y d ->
  minimises closest_objective (closest_constraints s1 s2) (x, y).
Proof.
  intros H1 H2 (Lx & Ly & Kx & Ky & -> & M). split.
  - cbn. split; [auto|]. split; [auto|]. split; [now apply (shp_must_contain_iff s1 K1)|now apply (shp_must_contain_iff s2 K2)].
  - cbn [fst snd]. intros x' y' (L1 & L2 & C1 & C2). apply M; auto; [now apply (shp_must_contain_iff s1)|now apply (shp_must_contain_iff s2)].
Qed.

(** * Consequences for closest pairs of any two sets *)
Lemma norm_vsub_self n x : length x = n -> norm (vsub x x) = 0.
Proof. intro L. unfold norm. rewrite (dot_rsum n) by len. rewrite rsum_zero; [apply sqrt_0|]. intros i Hi. rewrite nth_vsub by auto. ring. Qed.
Lemma norm_vsub_zero x y : length x = length y -> norm (vsub y x) = 0 -> x = y.
Proof.
  intros L H. assert (D : dot (vsub y x) (vsub y x) = 0) by (rewrite <- norm_sqr, H; ring). apply dot_self_zero in D.
  apply (vec_ext (length x)); auto. intros i Hi. pose proof (f_equal (fun v => nth i v 0) D) as E. cbn in E. rewrite nth_vsub, nth_zeros in E by auto. lra.
Qed.
Lemma norm_vsub_sym x y : length x = length y -> norm (vsub x y) = norm (vsub y x).
Proof.
  intro L. unfold norm. f_equal. rewrite !(dot_rsum (length x)) by len. apply rsum_ext. intros i Hi. rewrite !nth_vsub by auto. ring.
Qed.
Lemma pair_nonneg K1 K2 x y d : closest_pair K1 K2 x y d -> 0 <= d.
Proof. intros (_ & _ & _ & _ & -> & _). apply norm_nonneg. Qed.
Lemma pair_zero K1 K2 x y d : closest_pair K1 K2 x y d -> (d = 0 <-> exists p, length p = 3%nat /\ K1 p /\ K2 p).
Proof.
  intros H. pose proof (pair_nonneg _ _ _ _ _ H) as Hd. destruct H as (Lx & Ly & Kx & Ky & E & M). split.
  - intros ->. symmetry in E. apply norm_vsub_zero in E; [|congruence]. subst y. eauto.
  - intros (p & Lp & P1 & P2). specialize (M p p Lp Lp P1 P2). rewrite (norm_vsub_self 3) in M by auto. lra.
Qed.
Lemma pair_sym K1 K2 x y d x' y' d' : closest_pair K1 K2 x y d -> closest_pair K2 K1 x' y' d' -> d = d'.
Proof.
  intros (Lx & Ly & Kx & Ky & -> & M) (Lx' & Ly' & Kx' & Ky' & -> & M'). apply Rle_antisym.
  - rewrite (norm_vsub_sym y' x') by congruence. now apply M.
  - rewrite (norm_vsub_sym y x) by congruence. now apply M'.
Qed.
Lemma move_dist Q c x y : orthogonal 3 Q -> length c = 3%nat -> length x = 3%nat -> length y = 3%nat -> norm (vsub (move Q c y) (move Q c x)) = norm (vsub y x).
Proof.
  intros HQ Hc Hx Hy. assert (MQ : is_mat 3 3 Q) by apply HQ.
  assert (E : vsub (move Q c y) (move Q c x) = mat_vec Q (vsub y x)).
  { unfold move. rewrite mat_vec_vsub by congruence. assert (LQ : length Q = 3%nat) by apply MQ. assert (A1 : length (mat_vec Q x) = 3%nat) by (rewrite mat_vec_length; auto). assert (A2 : length (mat_vec Q y) = 3%nat) by (rewrite mat_vec_length; auto). revert A1 A2. generalize (mat_vec Q x) (mat_vec Q y). intros. apply (vec_ext 3); [len|len|]. intros i Hi. rewrite !nth_vsub, !nth_vadd by len. ring. }
  rewrite E. unfold norm. f_equal. apply (orthogonal_dot 3); len.
Qed.
Lemma pair_moved (K1 K2 K1' K2' : vec -> Prop) Q c x y d x' y' d' : orthogonal 3 Q -> length c = 3%nat ->
  (forall p, length p = 3%nat -> (K1' (move Q c p) <-> K1 p)) -> (forall p, length p = 3%nat -> (K2' (move Q c p) <-> K2 p)) ->
  closest_pair K1 K2 x y d -> closest_pair K1' K2' x' y' d' -> d = d'.
Proof.
  intros HQ Hc E1 E2 (Lx & Ly & Kx & Ky & -> & M) (Lx' & Ly' & Kx' & Ky' & -> & M').
  assert (MQ : is_mat 3 3 Q) by apply HQ.
  assert (INV : forall p, length p = 3%nat -> exists q, length q = 3%nat /\ p = move Q c q).
  { intros p Lp. exists (mat_vec (transpose Q) (vsub p c)). split; [rewrite mat_vec_length; apply (is_mat_transpose 3 3 Q MQ); lia|].
    refine (proj2 (move_inv 3 Q c _ p HQ Hc _ Lp _) eq_refl); [|lia]. rewrite mat_vec_length; apply (is_mat_transpose 3 3 Q MQ); lia. }
  destruct (INV x' Lx') as (u & Lu & ->). destruct (INV y' Ly') as (v & Lv & ->). apply E1 in Kx'; auto. apply E2 in Ky'; auto. apply Rle_antisym.
  - rewrite move_dist by auto. now apply M.
  - rewrite <- (move_dist Q c x y) by auto. apply M'; try (apply (move_len 3); auto); [now apply E1|now apply E2].
Qed.

(** * Convexity and separation *)
Lemma shape_is_convex s K p q t : shape_is s K -> length p = 3%nat -> length q = 3%nat -> K p -> K q -> 0 <= t <= 1 ->
  K (vadd (vscale (1 - t) p) (vscale t q)).
Proof.
  intros HS Lp Lq Kp Kq Ht. destruct HS as [h c r b Hb HQ|z Hz|h r c e He Lh HQ|L R r c x Hx HQ|L R r c x k Hx Hk HQ].
  - pose proof (box_agree h c r b Hb HQ) as ((_ & _ & MA & _) & _).
    apply (box_faces _ _ _ _ _ Hb HQ) in Kp, Kq; auto. apply (box_faces _ _ _ _ _ Hb HQ); [len|].
    apply (halfspaces_convex 3 _ (p_b (b_poly b)) MA p q t); auto; congruence.
  - destruct Hz as ((_ & _ & MA & _) & _). apply (halfspaces_convex 3 _ (p_b z) MA p q t); auto; congruence.
  - pose proof (ell_init_inv _ _ _ _ He) as (_ & _ & Er & Ec & MR & Lc). rewrite Er, Ec, Lh in *. apply ell_set_convex; auto; congruence.
  - apply cyl_init_inv in Hx as (_ & _ & MQ & Hc & _). destruct Kp as (x1 & y1 & z1 & H1 & H2 & ->), Kq as (x2 & y2 & z2 & G1 & G2 & ->).
    exists ((1 - t) * x1 + t * x2), ((1 - t) * y1 + t * y2), ((1 - t) * z1 + t * z2). split; [|split].
    + assert (0 <= t * (1 - t) * ((x1 - x2) * (x1 - x2) + (y1 - y2) * (y1 - y2))).
      { apply Rmult_le_pos; [apply Rmult_le_pos; lra|]. pose proof (sqr_nonneg (x1 - x2)). pose proof (sqr_nonneg (y1 - y2)). lra. }
      pose proof (Rmult_le_compat_l (1 - t) _ _ ltac:(lra) H1). pose proof (Rmult_le_compat_l t _ _ ltac:(lra) G1). nra.
    + apply abs_le_inv in H2 as [H2 H3]. apply abs_le_inv in G2 as [G2 G3]. apply Rabs_le. nra.
    + generalize dependent (pose_rot 3 r). generalize dependent (pose_tr 3 c). intros. destruct_vecs. unfold move. cbn. list_eq; ring.
  - apply cyl_init_inv in Hx as (_ & _ & MQ & Hc & _). eapply (caps_convex 3); eauto; try congruence; apply (move_len 3); auto.
Qed.
Lemma small_slope a b : (forall t, 0 < t <= 1 -> 2 * a <= t * b) -> 0 <= b -> a <= 0.
Proof.
  intros H Hb. destruct (Rle_lt_dec a 0) as [|Ha]; [auto|]. exfalso. destruct (Rle_lt_dec b a) as [L|L].
  - specialize (H 1 ltac:(lra)). lra.
  - specialize (H (a / b)). assert (0 < a / b) by (apply Rdiv_lt_0_compat; lra). assert (a / b <= 1) by (apply (Rmult_le_reg_r b); [lra|]; unfold Rdiv; rewrite Rmult_assoc, Rinv_l; lra).
    specialize (H ltac:(lra)). replace (a / b * b) with a in H by (field; lra). lra.
Qed.
Lemma norm_le_dot u v : norm u <= norm v <-> dot u u <= dot v v.
Proof.
  rewrite <- !norm_sqr. pose proof (norm_nonneg u). pose proof (norm_nonneg v). split; intro H1.
  - apply Rmult_le_compat; auto.
  - destruct (Rle_lt_dec (norm u) (norm v)) as [|G]; [auto|]. nra.
Qed.
(** supporting planes through the closest points characterise them *)
Definition separates (K1 K2 : vec -> Prop) (x y : vec) : Prop :=
  (forall p, length p = 3%nat -> K1 p -> dot (vsub y x) p <= dot (vsub y x) x) /\
  (forall p, length p = 3%nat -> K2 p -> dot (vsub y x) y <= dot (vsub y x) p).
Lemma separates_pair (K1 K2 : vec -> Prop) x y : length x = 3%nat -> length y = 3%nat -> K1 x -> K2 y -> separates K1 K2 x y ->
  closest_pair K1 K2 x y (norm (vsub y x)).
Proof.
  intros Lx Ly Kx Ky (S1 & S2). split; [auto|]. split; [auto|]. split; [auto|]. split; [auto|]. split; [auto|].
  intros x' y' Lx' Ly' Kx' Ky'. specialize (S1 x' Lx' Kx'). specialize (S2 y' Ly' Ky').
  apply norm_le_dot. set (n := vsub y x) in *. assert (Ln : length n = 3%nat) by (unfold n; len). 
  assert (E : dot n n <= dot n (vsub y' x')).
  { unfold n at 2. rewrite !dot_vsub_r by congruence. lra. }
  assert (Lw : length (vsub y' x') = 3%nat) by len. revert E Lw. generalize (vsub y' x'). intros w E Lw. clearbody n.
  pose proof (dot_self_nonneg (vsub w n)) as E2. rewrite dot_vsub_r, !dot_vsub_l in E2 by len. rewrite (dot_comm w n) in E2. lra.
Qed.
Lemma pair_separates (K1 K2 : vec -> Prop) x y d :
  (forall p q t, length p = 3%nat -> length q = 3%nat -> K1 p -> K1 q -> 0 <= t <= 1 -> K1 (vadd (vscale (1 - t) p) (vscale t q))) ->
  (forall p q t, length p = 3%nat -> length q = 3%nat -> K2 p -> K2 q -> 0 <= t <= 1 -> K2 (vadd (vscale (1 - t) p) (vscale t q))) ->
  closest_pair K1 K2 x y d -> separates K1 K2 x y.
Proof.
  intros C1 C2 (Lx & Ly & Kx & Ky & -> & M). split; intros p Lp Kp.
  - assert (dot (vsub y x) (vsub p x) <= 0); [|rewrite dot_vsub_r in *; [lra|congruence]].
    apply (small_slope _ (dot (vsub p x) (vsub p x))); [|apply dot_self_nonneg]. intros t Ht.
    assert (LV : length (vadd (vscale (1 - t) x) (vscale t p)) = 3%nat) by len. specialize (M _ y LV Ly (C1 x p t Lx Lp Kx Kp ltac:(lra)) Ky). apply norm_le_dot in M.
    replace (vsub y (vadd (vscale (1 - t) x) (vscale t p))) with (vsub (vsub y x) (vscale t (vsub p x))) in M.
    2:{ apply (vec_ext 3); [len|len|]. intros i Hi. repeat first [rewrite nth_vsub by len|rewrite nth_vadd by len|rewrite nth_vscale]. ring. }
    set (n := vsub y x) in *. set (w := vsub p x) in *. assert (length n = 3%nat) by (unfold n; len). assert (length w = 3%nat) by (unfold w; len). clearbody n w.
    rewrite dot_vsub_r, !dot_vsub_l, !dot_vscale_l, !dot_vscale_r in M by len. rewrite (dot_comm w n) in M. nra.
  - assert (dot (vsub x y) (vsub p y) <= 0).
    2:{ rewrite dot_vsub_r, !dot_vsub_l in * by congruence. lra. }
    apply (small_slope _ (dot (vsub p y) (vsub p y))); [|apply dot_self_nonneg]. intros t Ht.
    assert (LV : length (vadd (vscale (1 - t) y) (vscale t p)) = 3%nat) by len. specialize (M x _ Lx LV Kx (C2 y p t Ly Lp Ky Kp ltac:(lra))). rewrite (norm_vsub_sym y x), (norm_vsub_sym _ x) in M by len. apply norm_le_dot in M.
    replace (vsub x (vadd (vscale (1 - t) y) (vscale t p))) with (vsub (vsub x y) (vscale t (vsub p y))) in M.
    2:{ apply (vec_ext 3); [len|len|]. intros i Hi. repeat first [rewrite nth_vsub by len|rewrite nth_vadd by len|rewrite nth_vscale]. ring. }
    set (n := vsub x y) in *. set (w := vsub p y) in *. assert (length n = 3%nat) by (unfold n; len). assert (length w = 3%nat) by (unfold w; len). clearbody n w.
    rewrite dot_vsub_r, !dot_vsub_l, !dot_vscale_l, !dot_vscale_r in M by len. rewrite (dot_comm w n) in M. nra.
Qed.

(** * The function *)
Lemma closest_dist s1 s2 K1 K2 solve : shape_is s1 K1 -> shape_is s2 K2 ->
  minimises closest_objective (closest_constraints s1 s2) (solve closest_objective (closest_constraints s1 s2)) ->
  let i := closest_points solve s1 s2 in 0 <= cpi_dist i /\ (cpi_dist i = 0 <-> exists p, length p = 3%nat /\ K1 p /\ K2 p).
Proof. intros H1 H2 M i. pose proof (closest_pair_of s1 s2 K1 K2 solve H1 H2 M) as P. split; [eapply pair_nonneg|eapply pair_zero]; exact P. Qed.
Lemma closest_symmetric s1 s2 K1 K2 solve : shape_is s1 K1 -> shape_is s2 K2 ->
  minimises closest_objective (closest_constraints s1 s2) (solve closest_objective (closest_constraints s1 s2)) ->
  minimises closest_objective (closest_constraints s2 s1) (solve closest_objective (closest_constraints s2 s1)) ->
  cpi_dist (closest_points solve s1 s2) = cpi_dist (closest_points solve s2 s1).
Proof. intros H1 H2 M M'. eapply pair_sym; [exact (closest_pair_of s1 s2 K1 K2 solve H1 H2 M)|exact (closest_pair_of s2 s1 K2 K1 solve H2 H1 M')]. Qed.
Lemma closest_invariant dd s1 s2 K1 K2 solve Q c s1' s2' : shape_is s1 K1 -> shape_is s2 K2 -> orthogonal 3 Q -> length c = 3%nat ->
  shp_transform dd s1 (Some Q) (Some c) = Ok s1' -> shp_transform dd s2 (Some Q) (Some c) = Ok s2' -> dd_moves dd [s1; s2] Q c ->
  minimises closest_objective (closest_constraints s1 s2) (solve closest_objective (closest_constraints s1 s2)) ->
  minimises closest_objective (closest_constraints s1' s2') (solve closest_objective (closest_constraints s1' s2')) ->
  cpi_dist (closest_points solve s1' s2') = cpi_dist (closest_points solve s1 s2).
Proof.
  intros H1 H2 HQ Hc T1 T2 HD M M'.
  destruct (shp_transform_moves dd s1 K1 Q c s1' H1 T1 HQ) as (K1' & S1 & E1); [intros p [Hp|[]]; apply HD; now left|].
  destruct (shp_transform_moves dd s2 K2 Q c s2' H2 T2 HQ) as (K2' & S2 & E2); [intros p [Hp|[]]; apply HD; right; now left|].
  symmetry. apply (pair_moved K1 K2 K1' K2' Q c (cpi_p1 (closest_points solve s1 s2)) (cpi_p2 (closest_points solve s1 s2)) _ (cpi_p1 (closest_points solve s1' s2')) (cpi_p2 (closest_points solve s1' s2'))); auto;
  now apply closest_pair_of.
Qed.
Lemma closest_separates s1 s2 K1 K2 solve : shape_is s1 K1 -> shape_is s2 K2 ->
  minimises closest_objective (closest_constraints s1 s2) (solve closest_objective (closest_constraints s1 s2)) ->
  let i := closest_points solve s1 s2 in
  (forall p, length p = 3%nat -> K1 p -> dot (vsub (cpi_p2 i) (cpi_p1 i)) p <= dot (vsub (cpi_p2 i) (cpi_p1 i)) (cpi_p1 i)) /\
  (forall p, length p = 3%nat -> K2 p -> dot (vsub (cpi_p2 i) (cpi_p1 i)) (cpi_p2 i) <= dot (vsub (cpi_p2 i) (cpi_p1 i)) p).
Proof.
  intros H1 H2 M i. pose proof (closest_pair_of s1 s2 K1 K2 solve H1 H2 M) as P.
  apply pair_separates in P; [exact P|intros; eapply shape_is_convex; eauto|intros; eapply shape_is_convex; eauto].
Qed.

(** * A case: the cube [-1,1]^3 and the ball of radius 1 about (5,0,0) *)
Lemma move_eye3 c u : length c = 3%nat -> length u = 3%nat -> move (eye 3) c u = vadd u c.
Proof. intros. destruct_vecs. unfold move. cbn. unfold dot. cbn. list_eq; ring. Qed.
Lemma closest_case : exists s1 s2 K1 K2 solve, shape_is s1 K1 /\ shape_is s2 K2 /\
  minimises closest_objective (closest_constraints s1 s2) (solve closest_objective (closest_constraints s1 s2)) /\
  closest_points solve s1 s2 = {| cpi_p1 := [1; 0; 0]; cpi_p2 := [4; 0; 0]; cpi_dist := 3 |}.
Proof.
  destruct (box_init_good [1; 1; 1] None None) as (b & Eb); [reflexivity| |apply (is_mat_eye 3)|reflexivity|].
  { intros [|[|[|i]]] Hi; cbn; lra || lia. }
  pose proof (ell_init_good [1; 1; 1] None (Some [5; 0; 0])) as Ee. cbn [length] in Ee. specialize (Ee ltac:(intros [|[|[|i]]] Hi; cbn; lra || lia) (is_mat_eye 3) eq_refl).
  set (e := {| e_half := _ |}) in Ee.
  assert (H1 : shape_is (SBox b) (box_set [1; 1; 1] (pose_rot 3 None) (pose_tr 3 None))) by (apply (shape_is_box _ _ _ _ Eb), orthogonal_eye; lia).
  assert (H2 : shape_is (SEll e) (ell_set [1; 1; 1] (pose_rot 3 None) (pose_tr 3 (Some [5; 0; 0])))) by (apply (shape_is_ell _ _ _ _ Ee); [reflexivity|apply orthogonal_eye; lia]).
  exists (SBox b), (SEll e), (box_set [1; 1; 1] (pose_rot 3 None) (pose_tr 3 None)), (ell_set [1; 1; 1] (pose_rot 3 None) (pose_tr 3 (Some [5; 0; 0]))), (fun _ _ => ([1; 0; 0], [4; 0; 0])).
  split; [exact H1|]. split; [exact H2|]. assert (N : norm (vsub [4; 0; 0] [1; 0; 0]) = 3).
  { unfold norm. replace (dot _ _) with (3 * 3) by (unfold dot; cbn; ring). apply sqrt_square. lra. }
  split; [|unfold closest_points, closest_objective; rewrite N; reflexivity].
  eapply minimises_of_pair; [exact H1|exact H2|]. apply separates_pair; [reflexivity|reflexivity| | |split].
  - exists [1; 0; 0]. split; [split; [reflexivity|]|].
    + intros [|[|[|i]]] Hi; cbn in *; rewrite ?Rabs_R0, ?Rabs_R1; lra || lia.
    + cbn [pose_rot pose_tr]. rewrite move_eye3 by reflexivity. cbn. list_eq; ring.
  - exists [-1; 0; 0]. split; [reflexivity|]. split; [unfold dot; cbn; lra|]. cbn [pose_rot pose_tr]. rewrite move_eye3 by reflexivity. cbn. list_eq; ring.
  - intros p Lp (u & (Lu & Hu) & ->). cbn [pose_rot pose_tr]. rewrite move_eye3 by auto. specialize (Hu O ltac:(cbn; lia)). cbn in Lu. destruct_vecs.
    cbn in Hu. apply abs_le_inv in Hu. unfold dot. cbn. lra.
  - intros p Lp (u & Lu & Hu & ->). cbn [pose_rot pose_tr]. cbn in Lu. rewrite move_eye3 by (auto; rewrite vmul_length; auto). clear Lp. destruct u as [|a [|a' [|a'' [|]]]]; try discriminate.
    revert Hu. unfold dot. cbn. intro Hu. assert (a * a <= 1) by nra. assert (-1 <= a) by nra. lra.
Qed.
