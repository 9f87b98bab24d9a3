(** Properties C27, C32-C37, C41, C65: rigid transforms of shapes, containment and equality of
    polyhedra, face forms, span forms, intersection, grids and convex hulls
    (src/rigeo/polydd.py, shape/base.py, shape/poly.py, shape/box.py, shape/ellipsoid.py,
    shape/cylinder.py, shape/capsule.py). *)
From Verif Require Import Base.Vec Base.VecFacts Base.Ext Spec.Basic Spec.Shapes Spec.ShapeObjects Spec.DoubleDesc Spec.PolySpec Spec.Samples
  Model.Util Model.Constraint Model.Polydd Model.Poly Model.Ellipsoid Model.Box Model.Cylinder
  Proofs.Coord Proofs.Hull Proofs.BoxP Proofs.EllP Proofs.ShapesW Proofs.SamplesP Proofs.MustContain Proofs.CylP Proofs.TransformP
  Proofs.DDP Proofs.PolyP Proofs.GridP Proofs.AabbP Proofs.SampleDD Proofs.RefutedP.

(** * C27 *)
Theorem C27_box : forall h c r b ro tr b' p tol,
  box_init h c r = Ok b -> box_transform b ro tr = Ok b' ->
  orthogonal 3 (pose_rot 3 ro) -> length p = 3%nat ->
  box_contains b' (move (pose_rot 3 ro) (pose_tr 3 tr) p) tol = box_contains b p tol.
Proof. exact box_transform_contains. Qed.
Print Assumptions C27_box.
Theorem C27_box_total : forall h c r b ro tr,
  box_init h c r = Ok b -> is_mat 3 3 (pose_rot 3 ro) -> length (pose_tr 3 tr) = 3%nat ->
  exists b', box_transform b ro tr = Ok b'.
Proof. exact box_transform_good. Qed.
Print Assumptions C27_box_total.
Theorem C27_box_compose : forall h c r b ro tr b1 ro' tr' b2,
  box_init h c r = Ok b ->
  box_transform b ro tr = Ok b1 -> box_transform b1 ro' tr' = Ok b2 ->
  box_transform b (Some (mat_mul (pose_rot 3 ro') (pose_rot 3 ro)))
    (Some (vadd (mat_vec (pose_rot 3 ro') (pose_tr 3 tr)) (pose_tr 3 tr'))) = Ok b2.
Proof. exact box_transform_compose. Qed.
Print Assumptions C27_box_compose.
Theorem C27_box_default : forall h c r b,
  box_init h c r = Ok b -> box_transform b None None = Ok b.
Proof. exact box_transform_id. Qed.
Print Assumptions C27_box_default.
Theorem C27_box_about_center : forall h c r b M b' p tol,
  box_init h c r = Ok b -> box_rotate_about_center b M = Ok b' -> orthogonal 3 M ->
  length p = 3%nat -> let c0 := pose_tr 3 c in
  box_contains b' (vadd (mat_vec M (vsub p c0)) c0) tol = box_contains b p tol.
Proof. exact box_rotate_center. Qed.
Print Assumptions C27_box_about_center.
Theorem C27_ellipsoid : forall h r c e ro tr e' p tol,
  ell_init h r c = Ok e -> ell_transform e ro tr = Ok e' -> h <> [] ->
  orthogonal (length h) (pose_rot (length h) ro) -> length p = length h ->
  ell_contains e' (move (pose_rot (length h) ro) (pose_tr (length h) tr) p) tol = ell_contains e p tol.
Proof. exact ell_transform_contains. Qed.
Print Assumptions C27_ellipsoid.
Theorem C27_ellipsoid_total : forall h r c e ro tr,
  ell_init h r c = Ok e -> h <> [] -> is_mat (length h) (length h) (pose_rot (length h) ro) ->
  length (pose_tr (length h) tr) = length h -> exists e', ell_transform e ro tr = Ok e'.
Proof. exact ell_transform_good. Qed.
Print Assumptions C27_ellipsoid_total.
Theorem C27_ellipsoid_compose : forall h r c e ro tr e1 ro' tr' e2,
  ell_init h r c = Ok e -> h <> [] ->
  ell_transform e ro tr = Ok e1 -> ell_transform e1 ro' tr' = Ok e2 -> let n := length h in
  ell_transform e (Some (mat_mul (pose_rot n ro') (pose_rot n ro)))
    (Some (vadd (mat_vec (pose_rot n ro') (pose_tr n tr)) (pose_tr n tr'))) = Ok e2.
Proof. exact ell_transform_compose. Qed.
Print Assumptions C27_ellipsoid_compose.
Theorem C27_ellipsoid_default : forall h r c e,
  ell_init h r c = Ok e -> h <> [] -> ell_transform e None None = Ok e.
Proof. exact ell_transform_id. Qed.
Print Assumptions C27_ellipsoid_default.
Theorem C27_cylinder : forall L r ro co c ro' tr' c' p tol,
  cyl_init L r ro co = Ok c -> cyl_transform c ro' tr' = Ok c' ->
  orthogonal 3 (pose_rot 3 ro') -> length p = 3%nat ->
  cyl_contains c' (move (pose_rot 3 ro') (pose_tr 3 tr') p) tol = cyl_contains c p tol.
Proof. exact cyl_transform_contains. Qed.
Print Assumptions C27_cylinder.
Theorem C27_cylinder_total : forall L r ro co c ro' tr',
  cyl_init L r ro co = Ok c -> is_mat 3 3 (pose_rot 3 ro') ->
  length (pose_tr 3 tr') = 3%nat -> exists c', cyl_transform c ro' tr' = Ok c'.
Proof. exact cyl_transform_good. Qed.
Print Assumptions C27_cylinder_total.
Theorem C27_cylinder_compose : forall L r ro co c ro1 tr1 c1 ro2 tr2 c2,
  cyl_init L r ro co = Ok c ->
  cyl_transform c ro1 tr1 = Ok c1 -> cyl_transform c1 ro2 tr2 = Ok c2 ->
  cyl_transform c (Some (mat_mul (pose_rot 3 ro2) (pose_rot 3 ro1)))
    (Some (vadd (mat_vec (pose_rot 3 ro2) (pose_tr 3 tr1)) (pose_tr 3 tr2))) = Ok c2.
Proof. exact cyl_transform_compose. Qed.
Print Assumptions C27_cylinder_compose.
Theorem C27_cylinder_default : forall L r ro co c,
  cyl_init L r ro co = Ok c -> cyl_transform c None None = Ok c.
Proof. exact cyl_transform_id. Qed.
Print Assumptions C27_cylinder_default.
Theorem C27_capsule : forall L r ro co c k ro' tr' k' p tol,
  cyl_init L r ro co = Ok c -> caps_init c = Ok k ->
  caps_transform k ro' tr' = Ok k' -> orthogonal 3 (pose_rot 3 ro') -> length p = 3%nat -> 0 <= tol ->
  / 100000000 < r \/ tol = 0 ->
  caps_contains k' (move (pose_rot 3 ro') (pose_tr 3 tr') p) tol = caps_contains k p tol.
Proof. exact caps_transform_contains. Qed.
Print Assumptions C27_capsule.
Theorem C27_capsule_total : forall L r ro co c k ro' tr',
  cyl_init L r ro co = Ok c -> caps_init c = Ok k -> is_mat 3 3 (pose_rot 3 ro') ->
  length (pose_tr 3 tr') = 3%nat -> exists k', caps_transform k ro' tr' = Ok k'.
Proof. exact caps_transform_good. Qed.
Print Assumptions C27_capsule_total.
Theorem C27_capsule_compose : forall L r ro co c k ro1 tr1 k1 ro2 tr2 k2,
  cyl_init L r ro co = Ok c -> caps_init c = Ok k ->
  caps_transform k ro1 tr1 = Ok k1 -> caps_transform k1 ro2 tr2 = Ok k2 ->
  caps_transform k (Some (mat_mul (pose_rot 3 ro2) (pose_rot 3 ro1)))
    (Some (vadd (mat_vec (pose_rot 3 ro2) (pose_tr 3 tr1)) (pose_tr 3 tr2))) = Ok k2.
Proof. exact caps_transform_compose. Qed.
Print Assumptions C27_capsule_compose.
Theorem C27_capsule_default : forall L r ro co c k,
  cyl_init L r ro co = Ok c -> caps_init c = Ok k -> caps_transform k None None = Ok k.
Proof. exact caps_transform_id. Qed.
Print Assumptions C27_capsule_default.
(** a capsule of radius 0 with a positive tolerance: finding *)
Theorem C27_capsule_zero_radius_refuted : exists c k k' p, cyl_init 0 0 None None = Ok c /\ caps_init c = Ok k /\
  caps_transform k (Some rot345) None = Ok k' /\ orthogonal 3 rot345 /\ length p = 3%nat /\
  caps_contains k p 1 = true /\ caps_contains k' (move rot345 (zeros 3) p) 1 = false.
Proof. exact caps_transform_zero_radius. Qed.
Print Assumptions C27_capsule_zero_radius_refuted.
Theorem C27_face_form : forall n f M t f' p p' x tol,
  is_mat (length (ff_A f)) n (ff_A f) -> length (ff_A f) = length (ff_b f) ->
  (0 < length (ff_A f))%nat -> (0 < n)%nat -> ff_transform f M t = Ok f' -> orthogonal n (pose_rot n M) -> length (pose_tr n t) = n ->
  length x = n -> p_face p = f -> p_face p' = f' ->
  poly_contains p' (move (pose_rot n M) (pose_tr n t) x) tol = poly_contains p x tol.
Proof. exact ff_transform_contains. Qed.
Print Assumptions C27_face_form.
Theorem C27_polyhedron : forall n dd p ro tr p' x,
  poly_agree n p -> poly_transform dd p ro tr = Ok p' ->
  ineqs_correct n (dd_ineqs dd)
    {| cdd_rows := map (fun v => 1 :: move (pose_rot n ro) (pose_tr n tr) v) (p_vertices p); cdd_lin := [] |} ->
  orthogonal n (pose_rot n ro) -> length x = n ->
  poly_contains p' (move (pose_rot n ro) (pose_tr n tr) x) 0 = poly_contains p x 0.
Proof. exact poly_transform_contains. Qed.
Print Assumptions C27_polyhedron.
Example C27_example : orthogonal 3 rot345 /\ orthogonal 3 Q0 /\
  (exists b b', box_init [1; 2; 3] (Some t0) (Some Q0) = Ok b /\ box_transform b (Some rot345) (Some t0) = Ok b') /\
  (exists e e', ell_init [1; 2; 0] (Some Q0) (Some t0) = Ok e /\ ell_transform e (Some rot345) (Some t0) = Ok e') /\
  (exists c k c' k', cyl_init 2 1 (Some Q0) (Some t0) = Ok c /\ caps_init c = Ok k /\
     cyl_transform c (Some rot345) (Some t0) = Ok c' /\ caps_transform k (Some rot345) (Some t0) = Ok k').
Proof.
  pose proof rot345_orth as O. assert (M : is_mat 3 3 (pose_rot 3 (Some rot345))) by exact (proj1 O).
  assert (T : length (pose_tr 3 (Some t0)) = 3%nat) by reflexivity.
  split; [exact O|]. split; [exact Q0_orth|]. split; [|split].
  - destruct box_example as (b & Hb). destruct (box_transform_good _ _ _ _ _ _ Hb M T) as (b' & H'). exists b, b'. auto.
  - destruct ell_example as (e & He & _). destruct (ell_transform_good _ _ _ _ (Some rot345) (Some t0) He ltac:(discriminate) M T) as (e' & H'). exists e, e'. auto.
  - destruct caps_example as (c & k & Hc & Hk). destruct (cyl_transform_good _ _ _ _ _ _ _ Hc M T) as (c' & Hc').
    destruct (caps_transform_good _ _ _ _ _ _ _ _ Hc Hk M T) as (k' & Hk'). exists c, k, c', k'. auto.
Qed.
(** [0, 1] moved by 1 under reflection *)
Example C27_example_polyhedron : poly_agree 1 (pinterval 0 1) /\ orthogonal 1 (pose_rot 1 (Some [[-1]])) /\
  ineqs_correct 1 (dd_ineqs (dd1 0 1))
    {| cdd_rows := map (fun v => 1 :: move (pose_rot 1 (Some [[-1]])) (pose_tr 1 (Some [1])) v) (p_vertices (pinterval 0 1)); cdd_lin := [] |} /\
  exists p', poly_transform (dd1 0 1) (pinterval 0 1) (Some [[-1]]) (Some [1]) = Ok p'.
Proof.
  split; [apply pinterval_agree; lra|]. split.
  - split; [split; [reflexivity|repeat constructor]|]. cbn. unfold dot. cbn. split; list_eq; lra.
  - split.
    + replace (map _ _) with [[1; 1]; [1; 0]] by (cbn; unfold dot; cbn; list_eq; lra). split; [apply hrows_ok|].
      intros x Lx. destruct (len1_inv _ Lx) as (y & ->). cbn [dd_ineqs dd1]. rewrite hrows_set. split.
      * intro H. exists [y; 1 - y]. split; [reflexivity|]. split; [intros [|[|i]] Hi _; cbn in *; [lra|lra|lia]|].
        split; [unfold dot; cbn; lra|]. cbn. list_eq. lra.
      * intros (w & L & P & D & E). cbn in L. destruct (len2_inv _ L) as (u & v & ->). cbn in D, E. unfold dot in D. cbn in D.
        pose proof (P 0%nat ltac:(cbn; lia) ltac:(intros [])) as P0. pose proof (P 1%nat ltac:(cbn; lia) ltac:(intros [])) as P1. cbn in P0, P1.
        injection E as ->. lra.
    + eexists. unfold poly_transform. cbn. reflexivity.
Qed.

(** * C32 *)
Theorem C32_polyhedron : forall n p q tol,
  poly_ok n p -> rows_len n (p_vertices q) ->
  (contains_polyhedron (poly_contains_all p) q tol = true <->
   forall x, in_hull n (p_vertices q) x -> poly_contains p x tol = true).
Proof. exact poly_contains_polyhedron. Qed.
Print Assumptions C32_polyhedron.
Theorem C32_ellipsoid : forall h r c e q tol,
  ell_init h r c = Ok e -> h <> [] -> rows_len (length h) (p_vertices q) ->
  (contains_polyhedron (ell_contains_all e) q tol = true <->
   forall x, in_hull (length h) (p_vertices q) x -> ell_contains e x tol = true).
Proof. exact ell_contains_polyhedron. Qed.
Print Assumptions C32_ellipsoid.
Theorem C32_cylinder : forall L r ro co c q tol,
  cyl_init L r ro co = Ok c -> rows_len 3 (p_vertices q) ->
  (contains_polyhedron (cyl_contains_all c) q tol = true <->
   forall x, in_hull 3 (p_vertices q) x -> cyl_contains c x tol = true).
Proof. exact cyl_contains_polyhedron. Qed.
Print Assumptions C32_cylinder.
Example C32_example : poly_ok 1 (pinterval 0 1) /\ rows_len 1 (p_vertices (pinterval (1 / 4) (1 / 2))) /\
  contains_polyhedron (poly_contains_all (pinterval 0 1)) (pinterval (1 / 4) (1 / 2)) 0 = true /\
  contains_polyhedron (poly_contains_all (pinterval 0 1)) (pinterval (1 / 4) 2) 0 = false.
Proof.
  assert (O : poly_ok 1 (pinterval 0 1)) by (apply pinterval_agree; lra). split; [exact O|].
  assert (RL : forall a b, rows_len 1 (p_vertices (pinterval a b))) by (intros a b v [<-|[<-|[]]]; reflexivity).
  split; [apply RL|]. split.
  - apply (poly_contains_polyhedron 1); [exact O|apply RL|]. intros x H. pose proof (in_hull_length _ _ _ H) as L.
    destruct (len1_inv _ L) as (y & ->). apply pinterval_contains.
    pose proof (proj2 (agree_contains 1 _ _ (pinterval_agree (1 / 4) (1 / 2) ltac:(lra)) L) H) as K. apply pinterval_contains in K. lra.
  - destruct contains_polyhedron eqn:E; [|reflexivity]. exfalso.
    pose proof (proj1 (poly_contains_polyhedron 1 _ _ _ O (RL _ _)) E [2]) as K. rewrite pinterval_contains in K.
    assert (2 <= 1); [|lra]. apply K. apply hull_vertex; [apply RL|right; now left].
Qed.

(** * C33 *)
Theorem C33_equality : forall n k k' p q,
  poly_agree n p -> poly_agree n q -> isinstance_of k k' = true ->
  (poly_is_same (isinstance_of k k') p q 0 = true <->
   forall x, length x = n -> (in_hull n (p_vertices p) x <-> in_hull n (p_vertices q) x)).
Proof. exact poly_is_same_iff. Qed.
Print Assumptions C33_equality.
Theorem C33_reflexive : forall n k p,
  poly_agree n p -> poly_is_same (isinstance_of k k) p p 0 = true.
Proof. exact poly_is_same_refl. Qed.
Print Assumptions C33_reflexive.
Theorem C33_transitive : forall n k1 k2 k3 p q r,
  poly_agree n p -> poly_agree n q -> poly_agree n r ->
  poly_is_same (isinstance_of k1 k2) p q 0 = true -> poly_is_same (isinstance_of k2 k3) q r 0 = true ->
  poly_is_same (isinstance_of k1 k3) p r 0 = true.
Proof. exact poly_is_same_trans. Qed.
Print Assumptions C33_transitive.
Theorem C33_symmetric_same_class : forall n k p q,
  poly_agree n p -> poly_agree n q ->
  poly_is_same (isinstance_of k k) p q 0 = poly_is_same (isinstance_of k k) q p 0.
Proof. exact poly_is_same_sym. Qed.
Print Assumptions C33_symmetric_same_class.
(** a box is never the same as an equal general polyhedron: finding *)
Theorem C33_box_and_polyhedron : forall h c r b p,
  box_init h c r = Ok b -> orthogonal 3 (pose_rot 3 r) -> poly_agree 3 p ->
  (forall x, length x = 3%nat -> (in_hull 3 (p_vertices p) x <-> box_set h (pose_rot 3 r) (pose_tr 3 c) x)) ->
  poly_is_same (isinstance_of KPoly KBox) p (b_poly b) 0 = true /\
  poly_is_same (isinstance_of KBox KPoly) (b_poly b) p 0 = false.
Proof. exact is_same_asym. Qed.
Print Assumptions C33_box_and_polyhedron.
Theorem C33_asymmetric_refuted : exists b p, box_init [1; 2; 3] (Some t0) (Some Q0) = Ok b /\ poly_agree 3 p /\
  (forall x, length x = 3%nat -> (in_hull 3 (p_vertices p) x <-> box_set [1; 2; 3] Q0 t0 x)) /\
  poly_is_same (isinstance_of KPoly KBox) p (b_poly b) 0 = true /\ poly_is_same (isinstance_of KBox KPoly) (b_poly b) p 0 = false.
Proof. exact asym_w. Qed.
Print Assumptions C33_asymmetric_refuted.
Example C33_example : poly_agree 1 (pinterval 0 1) /\ poly_agree 1 (pinterval 0 2) /\
  poly_is_same (isinstance_of KPoly KPoly) (pinterval 0 1) (pinterval 0 1) 0 = true /\
  poly_is_same (isinstance_of KPoly KPoly) (pinterval 0 1) (pinterval 0 2) 0 = false.
Proof.
  assert (A1 : poly_agree 1 (pinterval 0 1)) by (apply pinterval_agree; lra). assert (A2 : poly_agree 1 (pinterval 0 2)) by (apply pinterval_agree; lra).
  split; [exact A1|]. split; [exact A2|]. split; [apply (poly_is_same_refl 1); exact A1|].
  destruct poly_is_same eqn:E; [|reflexivity]. exfalso.
  pose proof (proj1 (poly_is_same_iff 1 KPoly KPoly _ _ A1 A2 eq_refl) E [2] eq_refl) as K.
  rewrite <- !(agree_contains 1), !pinterval_contains in K by (exact A1 || exact A2 || reflexivity). lra.
Qed.
(** the vertices and faces of the box itself, as an object of the base class *)
Example C33_example_box : exists b, box_init [1; 2; 3] (Some t0) (Some Q0) = Ok b /\ orthogonal 3 (pose_rot 3 (Some Q0)) /\
  poly_agree 3 (b_poly b) /\
  (forall x, length x = 3%nat -> (in_hull 3 (p_vertices (b_poly b)) x <-> box_set [1; 2; 3] (pose_rot 3 (Some Q0)) (pose_tr 3 (Some t0)) x)).
Proof.
  destruct box_example as (b & Hb). exists b. split; [exact Hb|]. split; [exact Q0_orth|].
  pose proof (box_agree _ _ _ _ Hb Q0_orth) as A. split; [exact A|]. intros x Lx.
  rewrite <- (agree_contains 3 _ _ A Lx). exact (box_w_contains _ _ _ _ _ Hb Q0_orth Lx).
Qed.

(** * C34 *)
Theorem C34_stack : forall f g h x,
  length (ff_A f) = length (ff_b f) -> length (ff_A g) = length (ff_b g) ->
  ff_stack f g = Ok h -> length (ff_A h) = length (ff_b h) /\
  (halfspaces (ff_A h) (ff_b h) x <-> halfspaces (ff_A f) (ff_b f) x /\ halfspaces (ff_A g) (ff_b g) x).
Proof. exact ff_stack_iff. Qed.
Print Assumptions C34_stack.
Theorem C34_stack_total : forall f g,
  exists h, ff_stack f g = Ok h.
Proof. exact ff_stack_total. Qed.
Print Assumptions C34_stack_total.
Theorem C34_equalities : forall Ai bi Ae be f x,
  length Ai = length bi -> face_form Ai bi (Some Ae) (Some be) = Ok f ->
  length (ff_A f) = length (ff_b f) /\ length Ae = length be /\
  (halfspaces (ff_A f) (ff_b f) x <->
   halfspaces Ai bi x /\ forall i, (i < length Ae)%nat -> dot (nth i Ae []) x = nth i be 0).
Proof. exact face_form_eq. Qed.
Print Assumptions C34_equalities.
Theorem C34_equalities_mismatch : forall Ai bi Ae be,
  length Ae <> length be ->
  face_form Ai bi (Some Ae) (Some be) = Raise AssertionError.
Proof. exact face_form_eq_mismatch. Qed.
Print Assumptions C34_equalities_mismatch.
Theorem C34_cdd_rows : forall f x,
  length (ff_A f) = length (ff_b f) ->
  (h_set (ff_to_cdd f) x <-> halfspaces (ff_A f) (ff_b f) x).
Proof. exact ff_cdd_set. Qed.
Print Assumptions C34_cdd_rows.
Theorem C34_roundtrip : forall f,
  length (ff_A f) = length (ff_b f) -> ff_A f <> [] -> ff_from_cdd (ff_to_cdd f) = Ok f.
Proof. exact ff_cdd_roundtrip. Qed.
Print Assumptions C34_roundtrip.
Theorem C34_from_cdd : forall n m f x,
  h_ok n m -> ff_from_cdd m = Ok f -> length x = n ->
  length (ff_A f) = length (ff_b f) /\ is_mat (length (ff_A f)) n (ff_A f) /\ (0 < length (ff_A f))%nat /\
  (halfspaces (ff_A f) (ff_b f) x <-> h_set m x).
Proof. exact ff_from_cdd_iff. Qed.
Print Assumptions C34_from_cdd.
Theorem C34_from_cdd_total : forall m,
  (exists i, (i < length (cdd_rows m))%nat /\ ~ In i (cdd_lin m)) -> exists f, ff_from_cdd m = Ok f.
Proof. exact ff_from_cdd_ok. Qed.
Print Assumptions C34_from_cdd_total.
Theorem C34_all_equalities : forall m,
  (forall i, (i < length (cdd_rows m))%nat -> In i (cdd_lin m)) -> ff_from_cdd m = Raise IndexError.
Proof. exact ff_from_cdd_all_eq. Qed.
Print Assumptions C34_all_equalities.
Theorem C34_stack_count : forall f g h,
  ff_stack f g = Ok h -> ff_nf h = (ff_nf f + ff_nf g)%nat.
Proof. exact nf_counts. Qed.
Print Assumptions C34_stack_count.
Theorem C34_from_cdd_count : forall m f,
  NoDup (cdd_lin m) -> (forall i, In i (cdd_lin m) -> (i < length (cdd_rows m))%nat) -> ff_from_cdd m = Ok f ->
  ff_nf f = (length (cdd_rows m) + length (cdd_lin m))%nat /\ length (ff_b f) = ff_nf f.
Proof. exact nf_from_cdd. Qed.
Print Assumptions C34_from_cdd_count.
Theorem C34_rays_count : forall v r s,
  sf_nr (span_form v r s) = (match r with Some r => length r | None => 0 end + 2 * match s with Some s => length s | None => 0 end)%nat.
Proof. exact nr_counts. Qed.
Print Assumptions C34_rays_count.
Example C34_example : exists f, face_form [[1; 0]] [2] (Some [[0; 1]]) (Some [3]) = Ok f /\
  halfspaces (ff_A f) (ff_b f) [1; 3] /\ ~ halfspaces (ff_A f) (ff_b f) [1; 2] /\
  ff_from_cdd {| cdd_rows := [[3; 0; -1]]; cdd_lin := [0%nat] |} = Raise IndexError.
Proof.
  eexists. split; [reflexivity|]. split; [|split; [|reflexivity]].
  - intros [|[|[|i]]] Hi; cbn in *; unfold dot; cbn; try lra; lia.
  - intro H. specialize (H 2%nat ltac:(cbn; lia)). cbn in H. unfold dot in H. cbn in H. lra.
Qed.
Example C34_count_example : exists m f, NoDup (cdd_lin m) /\ (forall i, In i (cdd_lin m) -> (i < length (cdd_rows m))%nat) /\
  ff_from_cdd m = Ok f /\ length (cdd_rows m) = 2%nat /\ cdd_lin m = [1%nat] /\ ff_nf f = 3%nat.
Proof.
  exists {| cdd_rows := [[3; 0; -1]; [1; 1; 0]]; cdd_lin := [1%nat] |}. eexists. cbn [cdd_lin cdd_rows].
  split; [repeat constructor; intros []|]. split; [intros i [<-|[]]; cbn; lia|]. repeat split.
Qed.

(** * C35 *)
Theorem C35_empty : forall n dd p q,
  poly_ok n p -> poly_ok n q -> gens_correct n (dd_gens dd) (stacked p q) ->
  (poly_intersect dd p q = Ok None <->
   forall x, length x = n -> ~ (poly_contains p x 0 = true /\ poly_contains q x 0 = true)).
Proof. exact intersect_none. Qed.
Print Assumptions C35_empty.
Theorem C35_points : forall n dd p q r x,
  poly_ok n p -> poly_ok n q -> gens_correct n (dd_gens dd) (stacked p q) ->
  (forall s m, sf_from_cdd (dd_gens dd (stacked p q)) = Ok (Some s) -> sf_to_cdd s = Ok m -> ineqs_correct n (dd_ineqs dd) m) ->
  poly_intersect dd p q = Ok (Some r) -> length x = n ->
  poly_agree n r /\ (poly_contains r x 0 = true <-> poly_contains p x 0 = true /\ poly_contains q x 0 = true).
Proof. exact intersect_some. Qed.
Print Assumptions C35_points.
Theorem C35_total : forall n dd p q x,
  poly_agree n p -> poly_ok n q -> gens_correct n (dd_gens dd) (stacked p q) ->
  proper_rays (dd_gens dd (stacked p q)) ->
  (forall s m, sf_from_cdd (dd_gens dd (stacked p q)) = Ok (Some s) -> sf_to_cdd s = Ok m -> has_inequality (dd_ineqs dd m)) ->
  length x = n -> poly_contains p x 0 = true -> poly_contains q x 0 = true -> exists r, poly_intersect dd p q = Ok (Some r).
Proof. exact intersect_ok. Qed.
Print Assumptions C35_total.
(** when the intersection has no interior the library may report equalities only: finding *)
Theorem C35_equalities_only : forall n dd p q x s m,
  poly_ok n p -> poly_ok n q -> gens_correct n (dd_gens dd) (stacked p q) ->
  length x = n -> poly_contains p x 0 = true -> poly_contains q x 0 = true ->
  sf_from_cdd (dd_gens dd (stacked p q)) = Ok (Some s) -> sf_to_cdd s = Ok m -> ~ has_inequality (dd_ineqs dd m) ->
  poly_intersect dd p q = Raise IndexError.
Proof. exact intersect_index_error. Qed.
Print Assumptions C35_equalities_only.
Theorem C35_all_equalities_refuted : exists dd p q x, poly_agree 1 p /\ poly_agree 1 q /\ gens_correct 1 (dd_gens dd) (stacked p q) /\
  ineqs_correct 1 (dd_ineqs dd) {| cdd_rows := [[1; 1]]; cdd_lin := [] |} /\ length x = 1%nat /\ poly_contains p x 0 = true /\ poly_contains q x 0 = true /\
  poly_intersect dd p q = Raise IndexError.
Proof. exact intersect_w. Qed.
Print Assumptions C35_all_equalities_refuted.
Theorem C35_unbounded : forall dd f s,
  sf_bounded s = false -> poly_init dd (Some f) (Some s) = Raise ValueError.
Proof. exact poly_init_unbounded. Qed.
Print Assumptions C35_unbounded.
Theorem C35_bounded : forall dd o s p,
  poly_init dd o (Some s) = Ok p -> sf_rays (p_span p) = None /\ exists V, sf_vertices (p_span p) = Some V.
Proof. exact poly_init_bounded. Qed.
Print Assumptions C35_bounded.
Example C35_example : poly_agree 1 (pinterval 0 1) /\ poly_agree 1 (pinterval (1 / 2) (3 / 2)) /\
  gens_correct 1 (dd_gens (dd1 (1 / 2) 1)) (stacked (pinterval 0 1) (pinterval (1 / 2) (3 / 2))) /\
  proper_rays (dd_gens (dd1 (1 / 2) 1) (stacked (pinterval 0 1) (pinterval (1 / 2) (3 / 2)))) /\
  (forall s m, sf_from_cdd (dd_gens (dd1 (1 / 2) 1) (stacked (pinterval 0 1) (pinterval (1 / 2) (3 / 2)))) = Ok (Some s) ->
     sf_to_cdd s = Ok m -> has_inequality (dd_ineqs (dd1 (1 / 2) 1) m) /\ ineqs_correct 1 (dd_ineqs (dd1 (1 / 2) 1)) m) /\
  poly_contains (pinterval 0 1) [3 / 4] 0 = true /\ poly_contains (pinterval (1 / 2) (3 / 2)) [3 / 4] 0 = true.
Proof. exact interval_intersection. Qed.
Example C35_example_empty : poly_agree 1 (pinterval 0 1) /\ poly_agree 1 (pinterval 2 3) /\
  gens_correct 1 (dd_gens dd_none) (stacked (pinterval 0 1) (pinterval 2 3)).
Proof. split; [apply pinterval_agree; lra|]. split; [apply pinterval_agree; lra|exact stacked_disjoint]. Qed.
(** [0, 1] and [1, 2] meet in the single point 1, for which one equality describes everything *)
Example C35_example_point : poly_agree 1 (pinterval 0 1) /\ poly_agree 1 (pinterval 1 2) /\
  gens_correct 1 (dd_gens dd_point) (stacked (pinterval 0 1) (pinterval 1 2)) /\
  ineqs_correct 1 (dd_ineqs dd_point) {| cdd_rows := [[1; 1]]; cdd_lin := [] |} /\
  poly_intersect dd_point (pinterval 0 1) (pinterval 1 2) = Raise IndexError.
Proof. exact point_intersection. Qed.

(** * C36 *)
Theorem C36_bounded : forall n V ro tr f' x,
  V <> [] -> rows_len n V -> (0 < n)%nat -> is_mat n n (pose_rot n ro) -> length (pose_tr n tr) = n ->
  sf_transform {| sf_vertices := Some V; sf_rays := None |} ro tr = Ok f' ->
  (span_set n f' x <-> exists y, span_set n {| sf_vertices := Some V; sf_rays := None |} y /\ x = move (pose_rot n ro) (pose_tr n tr) y).
Proof. exact sf_transform_bounded. Qed.
Print Assumptions C36_bounded.
Theorem C36_rays_rotation : forall n V W ro f' x,
  V <> [] -> rows_len n V -> rows_len n W -> W <> [] -> (0 < n)%nat -> is_mat n n (pose_rot n ro) ->
  sf_transform {| sf_vertices := Some V; sf_rays := Some W |} ro None = Ok f' ->
  (span_set n f' x <-> exists y, span_set n {| sf_vertices := Some V; sf_rays := Some W |} y /\ x = move (pose_rot n ro) (zeros n) y).
Proof. exact sf_transform_rays_rotate. Qed.
Print Assumptions C36_rays_rotation.
(** the translation is added to the rays: finding *)
Theorem C36_rays_translation_refuted : exists V W t f' y x,
  sf_transform {| sf_vertices := Some V; sf_rays := Some W |} None (Some t) = Ok f' /\
  rows_len 2 V /\ rows_len 2 W /\ length t = 2%nat /\
  span_set 2 {| sf_vertices := Some V; sf_rays := Some W |} y /\ x = move (eye 2) t y /\ ~ span_set 2 f' x.
Proof. exact sf_transform_rays_wrong. Qed.
Print Assumptions C36_rays_translation_refuted.
Example C36_example : exists f f', rows_len 2 [[1; 2]; [3; 4]] /\ rows_len 2 [[1; 0]] /\ is_mat 2 2 (pose_rot 2 (Some [[0; -1]; [1; 0]])) /\
  sf_transform {| sf_vertices := Some [[1; 2]; [3; 4]]; sf_rays := None |} (Some [[0; -1]; [1; 0]]) (Some [5; 6]) = Ok f /\
  sf_transform {| sf_vertices := Some [[1; 2]; [3; 4]]; sf_rays := Some [[1; 0]] |} (Some [[0; -1]; [1; 0]]) None = Ok f'.
Proof.
  do 2 eexists. split; [intros v [<-|[<-|[]]]; reflexivity|]. split; [intros v [<-|[]]; reflexivity|].
  split; [split; [reflexivity|repeat constructor]|]. split; reflexivity.
Qed.

(** * C37 *)
Theorem C37_set : forall n v r s x,
  (forall V, v = Some V -> rows_len n V) -> rows_len n (olist r) -> rows_len n (olist s) ->
  (span_set n (span_form v r s) x <->
   exists a q u, (match v with Some V => in_hull n V a | None => a = zeros n end) /\ cone n (olist r) q /\ linspan n (olist s) u /\
                 x = vadd a (vadd q u)).
Proof. exact span_form_set. Qed.
Print Assumptions C37_set.
Theorem C37_bounded : forall f,
  sf_bounded f = true <-> (exists V, sf_vertices f = Some V) /\ sf_rays f = None.
Proof. exact sf_bounded_iff. Qed.
Print Assumptions C37_bounded.
Theorem C37_cone : forall f,
  sf_is_cone f = true <-> (exists W, sf_rays f = Some W) /\ sf_vertices f = None.
Proof. exact sf_is_cone_iff. Qed.
Print Assumptions C37_cone.
Theorem C37_roundtrip : forall f,
  sf_vertices f <> Some [] -> sf_rays f <> Some [] -> (sf_vertices f <> None \/ sf_rays f <> None) ->
  (let* m := sf_to_cdd f in sf_from_cdd m) = Ok (Some f).
Proof. exact sf_roundtrip. Qed.
Print Assumptions C37_roundtrip.
Theorem C37_empty : forall m,
  cdd_rows m = [] -> sf_from_cdd m = Ok None.
Proof. exact sf_from_cdd_empty. Qed.
Print Assumptions C37_empty.
Theorem C37_from_cdd : forall n m,
  v_ok n m -> exists f, sf_from_cdd m = Ok (Some f) /\
  (exists V, sf_vertices f = Some V /\ V <> [] /\ rows_len n V) /\ rows_len n (olist (sf_rays f)) /\
  forall x, span_set n f x <-> v_set n m x.
Proof. exact sf_from_cdd_iff. Qed.
Print Assumptions C37_from_cdd.
Theorem C37_to_cdd : forall n f m,
  sf_to_cdd f = Ok m -> (exists V, sf_vertices f = Some V /\ V <> [] /\ rows_len n V) -> rows_len n (olist (sf_rays f)) ->
  v_ok n m /\ forall x, v_set n m x <-> span_set n f x.
Proof. exact sf_to_cdd_iff. Qed.
Print Assumptions C37_to_cdd.
Theorem C37_to_cdd_nothing : forall f,
  sf_vertices f = None -> sf_rays f = None -> sf_to_cdd f = Raise TypeError.
Proof. exact sf_to_cdd_none. Qed.
Print Assumptions C37_to_cdd_nothing.
Example C37_example : v_ok 2 {| cdd_rows := [[1; 2; 3]; [0; 1; 0]; [0; 0; 1]]; cdd_lin := [2%nat] |} /\
  exists f, sf_from_cdd {| cdd_rows := [[1; 2; 3]; [0; 1; 0]; [0; 0; 1]]; cdd_lin := [2%nat] |} = Ok (Some f) /\
  span_set 2 f [4; -7] /\ ~ span_set 2 f [1; 0].
Proof.
  assert (V : v_ok 2 {| cdd_rows := [[1; 2; 3]; [0; 1; 0]; [0; 0; 1]]; cdd_lin := [2%nat] |}).
  { split; [intros r [<-|[<-|[<-|[]]]]; cbn; auto|]. split; [intros i [<-|[]]; cbn; auto|]. exists [1; 2; 3]. split; [now left|reflexivity]. }
  split; [exact V|]. destruct (sf_from_cdd_iff _ _ V) as (f & E & _ & _ & H). exists f. split; [exact E|]. rewrite !H. split.
  - exists [1; 2; -10]. split; [reflexivity|]. split; [|split; [unfold dot; cbn; lra|cbn; list_eq; lra]].
    intros [|[|[|i]]] Hi N; cbn in *; [lra|lra| |lia]. exfalso. apply N. now left.
  - intros (w & L & P & D & Ex). cbn in L. destruct (len3_inv _ L) as (u & v & z & ->). cbn in D, Ex. unfold dot in D. cbn in D.
    pose proof (P 0%nat ltac:(cbn; lia) ltac:(intros [K|[]]; discriminate K)) as P0. pose proof (P 1%nat ltac:(cbn; lia) ltac:(intros [K|[]]; discriminate K)) as P1. cbn in P0, P1.
    injection Ex as E1 E2. lra.
Qed.

(** * C41 *)
Theorem C41_box_points : forall h c r b n1 n2 n3,
  box_init h c r = Ok b ->
  box_grid b n1 n2 n3 = map (move (pose_rot 3 r) (pose_tr 3 c))
    (meshgrid3 (linspace (- nth 0 h 0) (nth 0 h 0) n1) (linspace (- nth 1 h 0) (nth 1 h 0) n2) (linspace (- nth 2 h 0) (nth 2 h 0) n3)).
Proof. exact box_grid_eq. Qed.
Print Assumptions C41_box_points.
Theorem C41_box_count : forall h c r b n1 n2 n3,
  box_init h c r = Ok b -> length (box_grid b n1 n2 n3) = (n1 * n2 * n3)%nat.
Proof. exact box_grid_length. Qed.
Print Assumptions C41_box_count.
Theorem C41_box_inside : forall h c r b n1 n2 n3 p,
  box_init h c r = Ok b -> In p (box_grid b n1 n2 n3) ->
  length p = 3%nat /\ box_set h (pose_rot 3 r) (pose_tr 3 c) p.
Proof. exact box_grid_in. Qed.
Print Assumptions C41_box_inside.
Theorem C41_box_contained : forall h c r b n1 n2 n3 p tol,
  box_init h c r = Ok b -> orthogonal 3 (pose_rot 3 r) -> 0 <= tol ->
  In p (box_grid b n1 n2 n3) -> box_contains b p tol = true.
Proof. exact box_grid_contained. Qed.
Print Assumptions C41_box_contained.
Theorem C41_box_corners : forall h c r b n1 n2 n3 s1 s2 s3,
  box_init h c r = Ok b -> (2 <= n1)%nat -> (2 <= n2)%nat -> (2 <= n3)%nat ->
  (s1 = 1 \/ s1 = -1) -> (s2 = 1 \/ s2 = -1) -> (s3 = 1 \/ s3 = -1) ->
  In (move (pose_rot 3 r) (pose_tr 3 c) [s1 * nth 0 h 0; s2 * nth 1 h 0; s3 * nth 2 h 0]) (box_grid b n1 n2 n3).
Proof. exact box_grid_corners. Qed.
Print Assumptions C41_box_corners.
Theorem C41_ellipsoid : forall e n g,
  shape_grid (ell_aabb e) (fun ps => ell_contains_all e ps default_tol) n = Ok g ->
  (0 < n)%nat /\ exists b, ell_aabb e = Ok b /\ g = filter (fun p => ell_contains e p default_tol) (box_grid b n n n).
Proof. exact ell_grid_eq. Qed.
Print Assumptions C41_ellipsoid.
Theorem C41_cylinder : forall c n g,
  shape_grid (cyl_aabb c) (fun ps => cyl_contains_all c ps default_tol) n = Ok g ->
  (0 < n)%nat /\ exists b, cyl_aabb c = Ok b /\ g = filter (fun p => cyl_contains c p default_tol) (box_grid b n n n).
Proof. exact cyl_grid_eq. Qed.
Print Assumptions C41_cylinder.
Theorem C41_capsule : forall k n g,
  shape_grid (caps_aabb k) (fun ps => caps_contains_all k ps default_tol) n = Ok g ->
  (0 < n)%nat /\ exists b, caps_aabb k = Ok b /\ g = filter (fun p => caps_contains k p default_tol) (box_grid b n n n).
Proof. exact caps_grid_eq. Qed.
Print Assumptions C41_capsule.
Theorem C41_polyhedron : forall p n g,
  poly_ok 3 p -> grid_of (poly_aabb p) (fun ps => poly_contains_all p ps default_tol) n = Ok g ->
  exists b, poly_aabb p = Ok b /\ g = filter (fun x => poly_contains p x default_tol) (box_grid b n n n).
Proof. exact poly_grid_eq. Qed.
Print Assumptions C41_polyhedron.
Theorem C41_zero : forall aabb f,
  shape_grid aabb f 0 = Raise AssertionError.
Proof. exact shape_grid_zero. Qed.
Print Assumptions C41_zero.
Example C41_example : exists b, box_init [1; 2; 3] (Some t0) (Some Q0) = Ok b /\ length (box_grid b 2 3 4) = 24%nat.
Proof. destruct box_example as (b & Hb). exists b. split; [exact Hb|]. exact (box_grid_length _ _ _ _ 2 3 4 Hb). Qed.
Example C41_example_ellipsoid : exists e g, ell_init [1; 2; 0] (Some Q0) (Some t0) = Ok e /\
  shape_grid (ell_aabb e) (fun ps => ell_contains_all e ps default_tol) 3 = Ok g.
Proof.
  destruct ell_example as (e & He & _). destruct (AabbP.ell_aabb_good _ _ _ _ He eq_refl) as (b & Hb & _).
  exists e. unfold shape_grid, grid_of. rewrite Hb. cbn. eexists. split; [exact He|reflexivity].
Qed.

(** * C65 *)
Theorem C65_few_points : forall canon ps,
  (length ps <= 1)%nat -> convex_hull canon ps = Ok (Some ps).
Proof. exact convex_hull_small. Qed.
Print Assumptions C65_few_points.
Theorem C65_hull : forall n canon ps,
  (2 <= length ps)%nat -> rows_len n ps ->
  vcanon_correct n canon {| cdd_rows := map (cons 1) ps; cdd_lin := [] |} ->
  exists hs, convex_hull canon ps = Ok (Some hs) /\ incl hs ps /\ forall x, in_hull n hs x <-> in_hull n ps x.
Proof. exact convex_hull_iff. Qed.
Print Assumptions C65_hull.
(** the midpoint is redundant *)
Example C65_example : vcanon_correct 1 (fun _ => vrows 0 2) {| cdd_rows := map (cons 1) [[0]; [1]; [2]]; cdd_lin := [] |} /\
  rows_len 1 [[0]; [1]; [2]].
Proof. exact interval_canon. Qed.
