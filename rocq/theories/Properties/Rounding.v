(** C83: membership in a polyhedron in binary64.  C84: a box is the same as itself in binary64.
    C85: bounding boxes.  C86: membership in an ellipsoid. *)
From Verif Require Import Base.Vec Spec.Basic Spec.Floats Spec.Rounding Model.Util Model.FloatUtil Model.Box Model.FloatShapes Proofs.FloatShapesP Proofs.FloatBoundP Proofs.FloatEllP.

(** * C83: the rounded membership test of a polyhedron *)
Theorem C83_inner_product : forall a x v,
  length a = length x -> fl_dot (combine a x) v -> Rabs (v - dot a x) <= dot_margin (length a) (abs_dot a x).
Proof. exact fl_dot_err. Qed.
Print Assumptions C83_inner_product.
Theorem C83_contains : forall A b tol p ans,
  (forall a, In a A -> length a = length p) -> length b = length A -> fl_contains A b tol p ans ->
  ((forall i, (i < length A)%nat -> dot (nth i A []) p <= nth i b 0 + tol - face_margin (nth i A []) p (nth i b 0) tol) -> ans = true) /\
  (ans = true -> forall i, (i < length A)%nat -> dot (nth i A []) p <= nth i b 0 + tol + face_margin (nth i A []) p (nth i b 0) tol).
Proof. exact fl_contains_spec. Qed.
Print Assumptions C83_contains.
Theorem C83_default_tolerance : forall A b p ans,
  (forall a, In a A -> length a = length p) -> length b = length A -> (length p <= 3)%nat ->
  (forall a s, In a A -> In s a -> Rabs s <= 1) -> (forall s, In s p -> Rabs s <= 1000000) -> (forall s, In s b -> Rabs s <= 10000000) ->
  fl_contains A b (b64 (/ 100000000)) p ans ->
  ((forall i, (i < length A)%nat -> dot (nth i A []) p <= nth i b 0) -> ans = true) /\
  (ans = true -> forall i, (i < length A)%nat -> dot (nth i A []) p <= nth i b 0 + / 50000000).
Proof. exact contains_default. Qed.
Print Assumptions C83_default_tolerance.
Theorem C83_large_refuted : exists A b p, is_mat 1 3 A /\ length b = 1%nat /\ length p = 3%nat /\ (forall a s, In a A -> In s a -> is_b64 s /\ Rabs s <= 1) /\ (forall s, In s p -> is_b64 s) /\ (forall s, In s b -> is_b64 s) /\
  dot (nth 0 A []) p <= nth 0 b 0 /\ fl_contains A b (b64 (/ 100000000)) p false /\ fl_contains A b (b64 (/ 100000000)) p true.
Proof. exact contains_large. Qed.
Print Assumptions C83_large_refuted.
Theorem C83_total : forall A b tol p,
  exists ans, fl_contains A b tol p ans.
Proof. exact fl_contains_total. Qed.
Print Assumptions C83_total.
Example C83_example : forall ans, fl_contains [[3 / 5; 4 / 5; 0]] [-200] (b64 (/ 100000000)) [1000; -1000; 5] ans -> ans = true.
Proof. exact contains_case. Qed.

(** * C84: a box is the same as itself *)
Theorem C84_same : forall half Q c tol M e ans,
  length half = 3%nat -> (forall h, In h half -> 0 <= h <= M) -> is_mat 3 3 Q -> (forall q s, In q Q -> In s q -> is_b64 s) ->
  near_orthogonal e Q -> 0 <= e <= / 100 -> length c = 3%nat -> (forall s, In s c -> Rabs s <= M) -> 8 * (e * M) + 256 * (u64 * M) + 256 * eta64 <= tol ->
  fl_box_is_same_self half Q c tol ans -> ans = true.
Proof. exact box_same_self. Qed.
Print Assumptions C84_same.
Theorem C84_default_tolerance : forall half Q c ans,
  length half = 3%nat -> (forall h, In h half -> 0 <= h <= 1000) -> is_mat 3 3 Q -> (forall q s, In q Q -> In s q -> is_b64 s) ->
  near_orthogonal (/ 10000000000000) Q -> length c = 3%nat -> (forall s, In s c -> Rabs s <= 1000) -> fl_box_is_same_self half Q c (b64 (/ 100000000)) ans -> ans = true.
Proof. exact box_same_default. Qed.
Print Assumptions C84_default_tolerance.
Theorem C84_total : forall half Q c tol,
  length half = 3%nat -> exists ans, fl_box_is_same_self half Q c tol ans.
Proof. exact fl_box_total. Qed.
Print Assumptions C84_total.
Theorem C84_inaccurate_rotation_refuted : exists Q, is_mat 3 3 Q /\ (forall q s, In q Q -> In s q -> is_b64 s) /\ near_orthogonal (/ 100000) Q /\
  forall ans, fl_box_is_same_self [1; 1; 1] Q [0; 0; 0] (b64 (/ 100000000)) ans -> ans = false.
Proof. exact box_inaccurate. Qed.
Print Assumptions C84_inaccurate_rotation_refuted.
Example C84_example : forall ans, fl_box_is_same_self [1; 2; 3] [[b64 (3 / 5); - b64 (4 / 5); 0]; [b64 (4 / 5); b64 (3 / 5); 0]; [0; 0; 1]] [10; -20; 30] (b64 (/ 100000000)) ans -> ans = true.
Proof. exact box_same_rot. Qed.

(** * C85: the bounding box of points contains the points *)
Theorem C85_contains : forall P tol M r,
  rows_len 3 P -> P <> [] -> (forall p s, In p P -> In s p -> is_b64 s /\ Rabs s <= M) -> 32 * (u64 * M) + 32 * eta64 <= tol ->
  fl_aabb_contains (fst (fl_points_to_bound P)) (snd (fl_points_to_bound P)) tol P r -> forall ans, In ans r -> ans = true.
Proof. exact bound_contains. Qed.
Print Assumptions C85_contains.
Theorem C85_half_extents : forall v1 v2 h,
  In h (snd (fl_two_vertices v1 v2)) -> 0 <= h.
Proof. exact bound_half_nonneg. Qed.
Print Assumptions C85_half_extents.
Theorem C85_default_tolerance : forall P r,
  rows_len 3 P -> P <> [] -> (forall p s, In p P -> In s p -> is_b64 s /\ Rabs s <= 1000000) ->
  fl_aabb_contains (fst (fl_points_to_bound P)) (snd (fl_points_to_bound P)) (b64 (/ 100000000)) P r -> forall ans, In ans r -> ans = true.
Proof. exact bound_default. Qed.
Print Assumptions C85_default_tolerance.
Theorem C85_total : forall c h tol P,
  length h = 3%nat -> exists r, length r = length P /\ fl_aabb_contains c h tol P r.
Proof. exact bound_total. Qed.
Print Assumptions C85_total.
Theorem C85_large_refuted : exists P, rows_len 3 P /\ P <> [] /\ (forall p s, In p P -> In s p -> is_b64 s /\ Rabs s <= 300000000) /\
  forall r, fl_aabb_contains (fst (fl_points_to_bound P)) (snd (fl_points_to_bound P)) (b64 (/ 100000000)) P r -> nth 0 r true = false.
Proof. exact bound_large. Qed.
Print Assumptions C85_large_refuted.
Example C85_example : forall r, fl_aabb_contains (fst (fl_points_to_bound [[1; 2; 3]; [-5; 1000; 7]; [4; 4; -999999]])) (snd (fl_points_to_bound [[1; 2; 3]; [-5; 1000; 7]; [4; 4; -999999]])) (b64 (/ 100000000)) [[1; 2; 3]; [-5; 1000; 7]; [4; 4; -999999]] r ->
  forall ans, In ans r -> ans = true.
Proof. exact bound_case. Qed.

(** * C86: the rounded membership test of an ellipsoid *)
Theorem C86_contains : forall half Q c tol p ans m M,
  length half = 3%nat -> (forall h, In h half -> 0 <= h) -> (forall h, In h half -> b64 (/ 100000000) < h -> m <= h <= M) -> 0 < m <= 1 -> m <= M <= powerRZ 2 300 ->
  is_mat 3 3 Q -> (forall q s, In q Q -> In s q -> Rabs s <= 101 / 100) -> length c = 3%nat -> (forall s, In s c -> Rabs s <= M) -> length p = 3%nat -> (forall s, In s p -> Rabs s <= M) ->
  640 * (u64 * M) + 320 * eta64 <= tol * m -> tol <= 1 -> fl_ell_contains half Q c tol p ans ->
  (ell_near (b64 (/ 100000000)) half Q c 0 0 p -> ans = true) /\ (ans = true -> ell_near (b64 (/ 100000000)) half Q c (2 * tol) (2 * tol) p).
Proof. exact ell_contains_spec. Qed.
Print Assumptions C86_contains.
Theorem C86_default_tolerance : forall half Q c p ans m M,
  length half = 3%nat -> (forall h, In h half -> 0 <= h) -> (forall h, In h half -> b64 (/ 100000000) < h -> m <= h <= M) -> / 100000000 <= m <= 1 -> m <= M <= 50000 * m ->
  is_mat 3 3 Q -> (forall q s, In q Q -> In s q -> Rabs s <= 101 / 100) -> length c = 3%nat -> (forall s, In s c -> Rabs s <= M) -> length p = 3%nat -> (forall s, In s p -> Rabs s <= M) ->
  fl_ell_contains half Q c (b64 (/ 100000000)) p ans ->
  (ell_near (b64 (/ 100000000)) half Q c 0 0 p -> ans = true) /\ (ans = true -> ell_near (b64 (/ 100000000)) half Q c (/ 40000000) (/ 40000000) p).
Proof. exact ell_default. Qed.
Print Assumptions C86_default_tolerance.
Theorem C86_total : forall half Q c tol p,
  exists ans, fl_ell_contains half Q c tol p ans.
Proof. exact fl_ell_total. Qed.
Print Assumptions C86_total.
Example C86_example : forall ans, fl_ell_contains [2; 1; 0] [[b64 (3 / 5); - b64 (4 / 5); 0]; [b64 (4 / 5); b64 (3 / 5); 0]; [0; 0; 1]] [10; -20; 30] (b64 (/ 100000000)) [11; -19; 30] ans -> ans = true.
Proof. exact ell_case. Qed.
