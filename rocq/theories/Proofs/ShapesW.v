(** Statements about constructor calls, for the property files. *)
From Verif Require Import Base.Vec Base.Ext Base.VecFacts Spec.Basic Spec.Shapes Spec.ShapeObjects Spec.Samples
  Model.Util Model.Polydd Model.Poly Model.Ellipsoid Model.Box Model.Constraint Proofs.Coord Proofs.Hull Proofs.BoxP Proofs.EllP
  Proofs.InertialT Proofs.LinAlg Proofs.EllForms Proofs.EllSame Proofs.EllMore Proofs.SamplesP.

(** C21 *)
Lemma box_args h c r b : box_init h c r = Ok b -> is_box b /\ b_half b = h /\ b_rot b = pose_rot 3 r /\ b_center b = pose_tr 3 c.
Proof. intro H. split; [do 3 eexists; exact H|]. apply box_init_inv in H. tauto. Qed.
Lemma box_w_contains h c r b p : box_init h c r = Ok b -> orthogonal 3 (pose_rot 3 r) -> length p = 3%nat ->
  (box_contains b p 0 = true <-> box_set h (pose_rot 3 r) (pose_tr 3 c) p).
Proof. intros H HQ Hp. apply box_args in H as (Hb & <- & E2 & E3). try rewrite <- E2 in *. rewrite <- E3 in *. apply box_contains_iff; auto. Qed.
Lemma box_w_tol h c r b p tol : box_init h c r = Ok b -> orthogonal 3 (pose_rot 3 r) -> length p = 3%nat ->
  (box_contains b p tol = true <-> box_set (map (fun a => a + tol) h) (pose_rot 3 r) (pose_tr 3 c) p).
Proof. intros H HQ Hp. apply box_args in H as (Hb & <- & E2 & E3). try rewrite <- E2 in *. rewrite <- E3 in *. apply box_contains_tol; auto. Qed.
Lemma box_w_vertices h c r b p : box_init h c r = Ok b -> length p = 3%nat ->
  (in_hull 3 (b_vertices b) p <-> box_set h (pose_rot 3 r) (pose_tr 3 c) p).
Proof. intros H Hp. apply box_args in H as (Hb & <- & E2 & E3). try rewrite <- E2 in *. rewrite <- E3 in *. apply box_hull_iff; auto. Qed.
Lemma box_w_total h c r : length h = 3%nat -> (forall i, (i < 3)%nat -> 0 <= nth i h 0) ->
  is_mat 3 3 (pose_rot 3 r) -> length (pose_tr 3 c) = 3%nat -> exists b, box_init h c r = Ok b.
Proof. exact (box_init_good h c r). Qed.
Lemma box_contains_all_eq b ps tol : is_box b -> rows_len 3 ps ->
  box_contains_all b ps tol = map (fun x => box_contains b x tol) ps.
Proof.
  intros Hb Hps. pose proof Hb as (h & c & r & E). apply box_init_inv in E as (H1 & H2 & H3 & H4 & H5 & H6 & H7 & H8 & H9 & H10 & H11).
  assert (MA : is_mat 6 3 (b_A b)).
  { rewrite H8. apply (is_mat_mul 6 3 3); [split; [reflexivity|repeat constructor]|apply is_mat_transpose; auto|]; lia. }
  assert (D : p_dim (b_poly b) = 3%nat).
  { unfold p_dim, sf_dim. unfold b_vertices, p_vertices in H10. unfold sf_bounded in H11.
    destruct (sf_rays (p_span (b_poly b))); [discriminate|]. destruct (sf_vertices (p_span (b_poly b))) as [V|]; [|discriminate].
    rewrite H10. assert (RL : rows_len 3 (map (move (b_rot b) (b_center b)) (box_vertices h))).
    { intros v Hv. apply in_map_iff in Hv as (u & <- & Hu). apply (move_len 3); auto. }
    unfold ncols. destruct (map (move (b_rot b) (b_center b)) (box_vertices h)) as [|v0 V'] eqn:EV.
    - destruct (len3_inv _ H1) as (x & y & z & ->). discriminate.
    - cbn. apply RL. now left. }
  unfold box_contains_all, box_contains. apply poly_contains_all_eq; rewrite ?D; auto; try lia.
  - unfold b_A in MA. replace (length (p_A (b_poly b))) with 6%nat by (symmetry; apply MA). exact MA.
  - unfold b_A in MA. rewrite (is_mat_length _ _ _ MA). lia.
Qed.
Lemma box_example : exists b, box_init [1; 2; 3] (Some t0) (Some Q0) = Ok b.
Proof.
  apply box_init_good; [reflexivity| |apply Q0_orth|reflexivity].
  intros [|[|[|i]]] Hi; try lia; cbn; lra.
Qed.

(** C22 *)
Lemma ell_args h r c e : ell_init h r c = Ok e -> is_ell e /\ e_half e = h /\ e_rot e = pose_rot (length h) r /\
  e_center e = pose_tr (length h) c /\ e_dim e = length h.
Proof. intro H. split; [do 3 eexists; exact H|]. apply ell_init_inv in H. unfold e_dim. intuition congruence. Qed.
Lemma ell_w_contains h r c e p : ell_init h r c = Ok e -> h <> [] -> orthogonal (length h) (pose_rot (length h) r) ->
  length p = length h -> proper_half h ->
  (ell_contains e p 0 = true <-> ell_set h (pose_rot (length h) r) (pose_tr (length h) c) p).
Proof.
  intros H Hn HQ Hp Hpr. apply ell_args in H as (Hb & E & E2 & E3 & D). rewrite <- E2, <- ?E3 in *. rewrite <- E in *.
  apply ell_contains_iff; auto. unfold e_dim in *. destruct (e_half e); [congruence|cbn; lia].
Qed.
Lemma ell_w_flat h r c e p : ell_init h r c = Ok e -> h <> [] -> orthogonal (length h) (pose_rot (length h) r) ->
  length p = length h ->
  (ell_contains e p 0 = true <-> ell_set (flatten_half h) (pose_rot (length h) r) (pose_tr (length h) c) p).
Proof.
  intros H Hn HQ Hp. apply ell_args in H as (Hb & E & E2 & E3 & D). rewrite <- E2, <- ?E3 in *. rewrite <- E in *.
  apply ell_contains_flat; auto. unfold e_dim in *. destruct (e_half e); [congruence|cbn; lia].
Qed.
Lemma ell_w_total h r c : (forall i, (i < length h)%nat -> 0 <= nth i h 0) ->
  is_mat (length h) (length h) (pose_rot (length h) r) -> length (pose_tr (length h) c) = length h ->
  exists e, ell_init h r c = Ok e.
Proof. intros H1 H2 H3. eexists. apply ell_init_good; auto. Qed.
Lemma ell_example : exists e, ell_init [1; 2; 0] (Some Q0) (Some t0) = Ok e /\ proper_half [1; 2; 0] /\
  orthogonal 3 Q0 /\ ell_contains e [1; 2 + 1; 3] 0 = true.
Proof.
  destruct (ell_w_total [1; 2; 0] (Some Q0) (Some t0)) as [e He].
  - intros [|[|[|i]]] Hi; cbn in Hi |- *; try lia; lra.
  - apply Q0_orth.
  - reflexivity.
  - exists e. assert (P : proper_half [1; 2; 0]) by (intros [|[|[|i]]] Hi; cbn in Hi |- *; try lia; lra).
    split; [exact He|]. split; [exact P|]. split; [apply Q0_orth|].
    apply (ell_w_contains _ _ _ _ _ He); [discriminate|apply Q0_orth|reflexivity|exact P|].
    exists [1; 0; 0]. split; [reflexivity|]. split; [unfold dot; cbn; lra|]. cbn. unfold move, dot. cbn. list_eq; lra.
Qed.

(** C23: all forms of a non-degenerate ellipsoid *)
Lemma ell_forms h r c e : ell_init h r c = Ok e -> h <> [] -> orthogonal (length h) (pose_rot (length h) r) -> fat h ->
  exists S A b Q, e_S e = fin2 S /\ e_A e = fin2 A /\ e_b e = fin1 b /\ e_Q e = fin2 Q /\
    symmetric (length h) S /\ symmetric (length h) A /\
    mat_mul (e_E e) S = eye (length h) /\ mat_mul S (e_E e) = eye (length h) /\
    forall p, length p = length h ->
      let K := ell_set h (pose_rot (length h) r) (pose_tr (length h) c) p in
      (K <-> quad S (vsub p (pose_tr (length h) c)) <= 1) /\ (K <-> norm (vadd (mat_vec A p) b) <= 1) /\
      (K <-> 0 <= quad Q (p ++ [1])).
Proof.
  intros H Hn HQ Hf. apply ell_args in H as (Hb & E & E2 & E3 & D). rewrite <- E2 in HQ |- *. rewrite <- E3. clear E2 E3.
  rewrite <- E in *. clear E. fold (e_dim e) in *.
  assert (Hd : (0 < e_dim e)%nat) by (unfold e_dim in *; destruct (e_half e); [congruence|cbn; lia]).
  exists (rS e), (rA e), (rb e), (rQ e). do 6 (split; [auto using e_S_fin, e_A_fin, e_b_fin, e_Q_fin, rS_sym, rA_sym|]).
  split; [apply E_inverse; auto|]. split; [apply E_inverse; auto|].
  intros p Hp. cbv zeta. rewrite !ell_set_local by auto. split; [reflexivity|]. split.
  - rewrite <- affine_form by auto. pose proof (norm_nonneg (vadd (mat_vec (rA e) p) (rb e))). split; intro; nra.
  - rewrite rQ_quad by auto. split; lra.
Qed.
(** the degenerate case is rejected for A, b and S: they contain non-finite entries *)
Lemma ell_degenerate_S h r c e j : ell_init h r c = Ok e -> (j < length h)%nat -> nth j h 0 = 0 -> all_fin (e_S e) = false.
Proof.
  intros H Hj H0. apply ell_args in H as (Hb & E & _ & _ & D). rewrite <- E in *. clear E. fold (e_dim e) in *.
  assert (Hd : (0 < e_dim e)%nat) by lia.
  destruct (S_entry e Hb Hd 0 0 j) as [F _]; auto; [rewrite H0; apply tiny_0|].
  apply not_true_is_false. intro T. unfold all_fin in T. rewrite forallb_forall in T.
  specialize (T (nth 0 (e_S e) []) ltac:(apply nth_In; rewrite S_len by auto; auto)). rewrite forallb_forall in T.
  specialize (T (nth 0 (nth 0 (e_S e) []) NaN) ltac:(apply nth_In; rewrite S_row_len by auto; auto)). congruence.
Qed.
Lemma ell_example_fat : exists e, ell_init [1; 2; 3] (Some Q0) (Some t0) = Ok e /\ fat [1; 2; 3] /\ orthogonal 3 Q0.
Proof.
  destruct (ell_w_total [1; 2; 3] (Some Q0) (Some t0)) as [e He].
  - intros [|[|[|i]]] Hi; cbn in Hi |- *; try lia; lra.
  - apply Q0_orth.
  - reflexivity.
  - exists e. split; [exact He|]. split; [|apply Q0_orth]. intros [|[|[|i]]] Hi; cbn in Hi |- *; try lia; lra.
Qed.
