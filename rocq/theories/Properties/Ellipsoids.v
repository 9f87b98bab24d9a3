(** Properties C21-C24, C42, C55: membership of boxes and ellipsoids, their matrix forms, equality
    and surfaces (src/rigeo/shape/box.py, shape/ellipsoid.py). *)
From Verif Require Import Base.Vec Base.Ext Spec.Basic Spec.Shapes Spec.ShapeObjects Spec.Samples
  Model.Util Model.Polydd Model.Poly Model.Ellipsoid Model.Box
  Proofs.Coord Proofs.Hull Proofs.BoxP Proofs.EllP Proofs.EllSame Proofs.EllMore Proofs.ShapesW Proofs.SamplesP Proofs.RefutedP.

(** * C21 *)
Theorem C21_membership : forall h c r b p,
  box_init h c r = Ok b -> orthogonal 3 (pose_rot 3 r) -> length p = 3%nat ->
  (box_contains b p 0 = true <-> box_set h (pose_rot 3 r) (pose_tr 3 c) p).
Proof. exact box_w_contains. Qed.
Print Assumptions C21_membership.
Theorem C21_tolerance : forall h c r b p tol,
  box_init h c r = Ok b -> orthogonal 3 (pose_rot 3 r) -> length p = 3%nat ->
  (box_contains b p tol = true <-> box_set (map (fun a => a + tol) h) (pose_rot 3 r) (pose_tr 3 c) p).
Proof. exact box_w_tol. Qed.
Print Assumptions C21_tolerance.
Theorem C21_vertices : forall h c r b p,
  box_init h c r = Ok b -> length p = 3%nat ->
  (in_hull 3 (b_vertices b) p <-> box_set h (pose_rot 3 r) (pose_tr 3 c) p).
Proof. exact box_w_vertices. Qed.
Print Assumptions C21_vertices.
Theorem C21_array : forall b ps tol,
  is_box b -> rows_len 3 ps ->
  box_contains_all b ps tol = map (fun x => box_contains b x tol) ps.
Proof. exact box_contains_all_eq. Qed.
Print Assumptions C21_array.
Theorem C21_constructor : forall h c r,
  length h = 3%nat -> (forall i, (i < 3)%nat -> 0 <= nth i h 0) ->
  is_mat 3 3 (pose_rot 3 r) -> length (pose_tr 3 c) = 3%nat -> exists b, box_init h c r = Ok b.
Proof. exact box_w_total. Qed.
Print Assumptions C21_constructor.
Theorem C21_negative : forall h c r,
  length h = 3%nat -> (exists i, (i < 3)%nat /\ nth i h 0 < 0) ->
  box_init h c r = Raise AssertionError.
Proof. exact box_init_raises. Qed.
Print Assumptions C21_negative.
Example C21_example : orthogonal 3 Q0 /\ exists b, box_init [1; 2; 3] (Some t0) (Some Q0) = Ok b.
Proof. exact (conj Q0_orth box_example). Qed.

(** * C22 *)
Theorem C22_membership : forall h r c e p,
  ell_init h r c = Ok e -> h <> [] -> orthogonal (length h) (pose_rot (length h) r) ->
  length p = length h -> proper_half h ->
  (ell_contains e p 0 = true <-> ell_set h (pose_rot (length h) r) (pose_tr (length h) c) p).
Proof. exact ell_w_contains. Qed.
Print Assumptions C22_membership.
Theorem C22_small_extents_are_zero : forall h r c e p,
  ell_init h r c = Ok e -> h <> [] -> orthogonal (length h) (pose_rot (length h) r) ->
  length p = length h ->
  (ell_contains e p 0 = true <-> ell_set (flatten_half h) (pose_rot (length h) r) (pose_tr (length h) c) p).
Proof. exact ell_w_flat. Qed.
Print Assumptions C22_small_extents_are_zero.
Theorem C22_constructor : forall h r c,
  (forall i, (i < length h)%nat -> 0 <= nth i h 0) ->
  is_mat (length h) (length h) (pose_rot (length h) r) -> length (pose_tr (length h) c) = length h ->
  exists e, ell_init h r c = Ok e.
Proof. exact ell_w_total. Qed.
Print Assumptions C22_constructor.
Theorem C22_negative : forall h r c,
  (exists i, (i < length h)%nat /\ nth i h 0 < 0) -> ell_init h r c = Raise AssertionError.
Proof. exact ell_init_negative. Qed.
Print Assumptions C22_negative.
Example C22_example : exists e, ell_init [1; 2; 0] (Some Q0) (Some t0) = Ok e /\ proper_half [1; 2; 0] /\
  orthogonal 3 Q0 /\ ell_contains e [1; 2 + 1; 3] 0 = true.
Proof. exact ell_example. Qed.

(** * C23 *)
Theorem C23_forms : forall h r c e,
  ell_init h r c = Ok e -> h <> [] -> orthogonal (length h) (pose_rot (length h) r) -> fat h ->
  exists S A b Q, e_S e = fin2 S /\ e_A e = fin2 A /\ e_b e = fin1 b /\ e_Q e = fin2 Q /\
    symmetric (length h) S /\ symmetric (length h) A /\
    mat_mul (e_E e) S = eye (length h) /\ mat_mul S (e_E e) = eye (length h) /\
    forall p, length p = length h ->
      let K := ell_set h (pose_rot (length h) r) (pose_tr (length h) c) p in
      (K <-> quad S (vsub p (pose_tr (length h) c)) <= 1) /\ (K <-> norm (vadd (mat_vec A p) b) <= 1) /\
      (K <-> 0 <= quad Q (p ++ [1])).
Proof. exact ell_forms. Qed.
Print Assumptions C23_forms.
Theorem C23_degenerate_not_finite : forall h r c e j,
  ell_init h r c = Ok e -> (j < length h)%nat -> nth j h 0 = 0 -> all_fin (e_S e) = false.
Proof. exact ell_degenerate_S. Qed.
Print Assumptions C23_degenerate_not_finite.
Example C23_example : exists e, ell_init [1; 2; 3] (Some Q0) (Some t0) = Ok e /\ fat [1; 2; 3] /\ orthogonal 3 Q0.
Proof. exact ell_example_fat. Qed.

(** * C24 *)
Theorem C24_reflexive : forall e tol,
  all_fin (e_Q e) = true -> 0 <= tol -> ell_is_same e e tol = Ok true.
Proof. exact ell_is_same_refl. Qed.
Print Assumptions C24_reflexive.
Theorem C24_finite : forall e,
  is_ell e -> (0 < e_dim e)%nat -> fat (e_half e) -> all_fin (e_Q e) = true.
Proof. exact ell_fat_Q_fin. Qed.
Print Assumptions C24_finite.
Theorem C24_same_points : forall e f tol,
  is_ell e -> is_ell f -> (0 < e_dim e)%nat -> e_dim f = e_dim e ->
  fat (e_half e) -> fat (e_half f) -> orthogonal (e_dim e) (e_rot e) -> orthogonal (e_dim f) (e_rot f) ->
  (forall p, length p = e_dim e -> ell_set (e_half e) (e_rot e) (e_center e) p <->
                                   ell_set (e_half f) (e_rot f) (e_center f) p) ->
  0 <= tol -> ell_is_same e f tol = Ok true.
Proof. exact ell_is_same_sets. Qed.
Print Assumptions C24_same_points.
(** a degenerate ellipsoid is not even the same as itself: finding *)
Theorem C24_degenerate_never_same : forall e f tol j,
  is_ell e -> is_ell f -> (0 < e_dim e)%nat -> e_dim f = e_dim e ->
  (j < e_dim e)%nat -> nth j (e_half e) 0 = 0 ->
  (exists i, (i < e_dim e)%nat /\ (entry (e_rot e) i j = 0 \/ nth i (e_center e) 0 = 0)) ->
  ell_is_same e f tol = Ok false.
Proof. exact ell_is_same_degenerate. Qed.
Print Assumptions C24_degenerate_never_same.
Theorem C24_degenerate_refuted : exists e, ell_init [1; 2; 0] (Some Q0) (Some t0) = Ok e /\ orthogonal 3 Q0 /\ forall tol, ell_is_same e e tol = Ok false.
Proof. exact degenerate_w. Qed.
Print Assumptions C24_degenerate_refuted.
(** different degenerate ellipsoids can compare equal: finding *)
Theorem C24_different_refuted : exists e f,
  is_ell e /\ is_ell f /\ orthogonal 2 (e_rot e) /\ orthogonal 2 (e_rot f) /\
  (exists p, length p = 2%nat /\ ell_set (e_half e) (e_rot e) (e_center e) p /\ ~ ell_set (e_half f) (e_rot f) (e_center f) p) /\
  forall tol, ell_is_same e f tol = Ok true.
Proof. exact ell_is_same_false_positive. Qed.
Print Assumptions C24_different_refuted.
Example C24_example : exists e, ell_init [1; 2; 0] (Some Q0) (Some t0) = Ok e /\ forall tol, ell_is_same e e tol = Ok false.
Proof.
  destruct ell_example as (e & He & _). exists e. split; [exact He|]. intro tol.
  pose proof (ell_args _ _ _ _ He) as (I & E1 & E2 & _ & E3). cbn in E3.
  apply (ell_is_same_degenerate e e tol 2); auto; rewrite ?E3; try lia.
  - rewrite E1. reflexivity.
  - exists 0%nat. split; [lia|]. left. rewrite E2. reflexivity.
Qed.

(** * C42 *)
Theorem C42_box : forall b p,
  is_box b -> orthogonal 3 (b_rot b) -> length p = 3%nat ->
  (box_on_surface b p 0 = true <->
   box_set (b_half b) (b_rot b) (b_center b) p /\ ~ interior_point 3 (box_set (b_half b) (b_rot b) (b_center b)) p).
Proof. exact box_on_surface_iff. Qed.
Print Assumptions C42_box.
Theorem C42_ellipsoid : forall e p,
  is_ell e -> (0 < e_dim e)%nat -> orthogonal (e_dim e) (e_rot e) -> fat (e_half e) ->
  length p = e_dim e ->
  (ell_on_surface e p 0 = true <-> ell_boundary (e_half e) (e_rot e) (e_center e) p).
Proof. exact ell_on_surface_fat. Qed.
Print Assumptions C42_ellipsoid.
Theorem C42_degenerate_ellipsoid : forall e p,
  is_ell e -> (0 < e_dim e)%nat -> orthogonal (e_dim e) (e_rot e) ->
  length p = e_dim e -> proper_half (e_half e) -> In 0 (e_half e) ->
  (ell_on_surface e p 0 = true <-> ell_set (e_half e) (e_rot e) (e_center e) p).
Proof. exact ell_on_surface_degenerate. Qed.
Print Assumptions C42_degenerate_ellipsoid.
Example C42_example : exists b, box_init [1; 2; 3] (Some t0) (Some Q0) = Ok b /\ box_set [1; 2; 3] Q0 t0 (move Q0 t0 [1; 0; 0]) /\
  ~ interior_point 3 (box_set [1; 2; 3] Q0 t0) (move Q0 t0 [1; 0; 0]).
Proof.
  destruct box_example as [b Hb]. exists b. split; [exact Hb|].
  assert (C : in_cube [1; 2; 3] [1; 0; 0]).
  { split; [reflexivity|]. intros [|[|[|i]]] Hi; cbn in Hi |- *; try lia; rewrite ?Rabs_R1, ?Rabs_R0; lra. }
  split; [exists [1; 0; 0]; auto|].
  intro I. pose proof (proj1 (box_interior [1; 2; 3] Q0 t0 [1; 0; 0] eq_refl Q0_orth eq_refl eq_refl C) I 0%nat ltac:(lia)) as J. cbn in J.
  rewrite Rabs_R1 in J. lra.
Qed.

(** * C55 *)
Theorem C55_from_shape_matrix : forall e eigh,
  is_ell e -> (0 < e_dim e)%nat -> fat (e_half e) ->
  orthogonal (e_dim e) (e_rot e) -> (forall i, (i < e_dim e)%nat -> nth i (e_half e) 0 < / np_atol) ->
  forall M, e_S e = fin2 M -> eigh_spec (e_dim e) M (eigh M) ->
  exists e', ell_from_shape_matrix eigh M (Some (e_center e)) = Ok e' /\ e_S e' = e_S e /\
    e_center e' = e_center e /\
    forall p, length p = e_dim e -> ell_set (e_half e') (e_rot e') (e_center e') p <-> ell_set (e_half e) (e_rot e) (e_center e) p.
Proof. exact from_shape_matrix_roundtrip. Qed.
Print Assumptions C55_from_shape_matrix.
Theorem C55_from_affine : forall e eigh lstsq,
  is_ell e -> (0 < e_dim e)%nat -> fat (e_half e) ->
  orthogonal (e_dim e) (e_rot e) -> (forall i, (i < e_dim e)%nat -> nth i (e_half e) 0 < / np_atol) ->
  forall A b, e_A e = fin2 A -> e_b e = fin1 b -> eigh_spec (e_dim e) (mat_mul A A) (eigh (mat_mul A A)) ->
  lstsq_spec A (vneg b) (lstsq A (vneg b)) ->
  exists e', ell_from_affine eigh lstsq A b = Ok e' /\ e_S e' = e_S e /\ e_center e' = e_center e.
Proof. exact from_affine_roundtrip. Qed.
Print Assumptions C55_from_affine.
Theorem C55_singular : forall eigh n M c,
  (0 < n)%nat -> is_mat n n M -> eigh_spec n M (eigh M) ->
  (exists x, length x = n /\ x <> zeros n /\ mat_vec M x = zeros n) ->
  ell_from_shape_matrix eigh M c = Raise AssertionError.
Proof. exact from_shape_matrix_singular. Qed.
Print Assumptions C55_singular.
(** the oracle premises can be met: for an axis-aligned ellipsoid the identity diagonalises S *)
Example C55_example : eigh_spec 2 [[1; 0]; [0; 1 / 4]] ([1; 1 / 4], eye 2) /\
  lstsq_spec [[1; 0]; [0; 1 / 2]] [3; 4] [3; 8].
Proof.
  split.
  - split; [reflexivity|]. split; [apply orthogonal_eye; lia|]. cbn. unfold dot. cbn. list_eq; lra.
  - split; [reflexivity|]. intros _. cbn. unfold dot. cbn. list_eq; lra.
Qed.
