(** Properties C69-C71: convenience constructors, InertialParameters.is_same and
    ConvexPolyhedron.mbe (src/rigeo/shape/box.py, shape/poly.py, shape/ellipsoid.py, inertial.py). *)
From Verif Require Import Base.Vec Base.VecFacts Base.Ext Spec.Basic Spec.Shapes Spec.Objects Spec.ShapeObjects Spec.DoubleDesc Spec.PolySpec Spec.Samples Spec.Integrals Spec.RandomSpec Spec.Uniform Spec.ExtremalSpec
  Model.Util Model.Constraint Model.Polydd Model.Poly Model.Inertial Model.Ellipsoid Model.Box Model.Cylinder Model.Random Model.Extremal
  Proofs.ConstructP Proofs.MoreEx.

(** * C69 *)
Theorem C69_cube : forall a c r b p,
  box_cube a c r = Ok b -> orthogonal 3 (pose_rot 3 r) -> length p = 3%nat ->
  (box_contains b p 0 = true <-> exists x y z, Rabs x <= a /\ Rabs y <= a /\ Rabs z <= a /\ p = move (pose_rot 3 r) (pose_tr 3 c) [x; y; z]).
Proof. exact cube_points. Qed.
Print Assumptions C69_cube.
Theorem C69_cube_total : forall a c r,
  is_mat 3 3 (pose_rot 3 r) -> length (pose_tr 3 c) = 3%nat ->
  (0 <= a -> exists b, box_cube a c r = Ok b) /\ (a < 0 -> box_cube a c r = Raise AssertionError).
Proof. exact cube_total. Qed.
Print Assumptions C69_cube_total.
Theorem C69_sides : forall l c r b p,
  box_from_side_lengths l c r = Ok b -> orthogonal 3 (pose_rot 3 r) -> length p = 3%nat ->
  b_side_lengths b = l /\
  (box_contains b p 0 = true <-> exists u, length u = 3%nat /\ (forall i, (i < 3)%nat -> 2 * Rabs (nth i u 0) <= nth i l 0) /\ p = move (pose_rot 3 r) (pose_tr 3 c) u).
Proof. exact sides_points. Qed.
Print Assumptions C69_sides.
Theorem C69_sides_total : forall l c r,
  is_mat 3 3 (pose_rot 3 r) -> length (pose_tr 3 c) = 3%nat ->
  (length l = 3%nat -> (forall x, In x l -> 0 <= x) -> exists b, box_from_side_lengths l c r = Ok b) /\
  ((length l <> 3%nat \/ exists x, In x l /\ x < 0) -> box_from_side_lengths l c r = Raise AssertionError).
Proof. exact sides_total. Qed.
Print Assumptions C69_sides_total.
Example C69_box_example : exists b b', orthogonal 3 Q0 /\ box_cube 2 (Some t0) (Some Q0) = Ok b /\ box_from_side_lengths [1; 2; 3] (Some t0) (Some Q0) = Ok b'.
Proof. exact boxes_case. Qed.
Theorem C69_as_poly : forall h c r b dd p,
  box_init h c r = Ok b -> orthogonal 3 (pose_rot 3 r) ->
  ineqs_correct 3 (dd_ineqs dd) {| cdd_rows := map (cons 1) (b_vertices b); cdd_lin := [] |} -> box_as_poly dd b = Ok p ->
  poly_agree 3 p /\ p_vertices p = b_vertices b /\ forall x, length x = 3%nat -> poly_contains p x 0 = box_contains b x 0.
Proof. exact as_poly_agree. Qed.
Print Assumptions C69_as_poly.
Theorem C69_simplex : forall dd e p x,
  (0 < length e)%nat -> ineqs_correct (length e) (dd_ineqs dd) {| cdd_rows := map (cons 1) (zeros (length e) :: diag e); cdd_lin := [] |} ->
  poly_simplex dd e = Ok p -> length x = length e ->
  poly_agree (length e) p /\ (poly_contains p x 0 = true <-> (forall i, (i < length e)%nat -> 0 <= nth i x 0) /\ rsum (length e) (fun i => nth i x 0 / nth i e 0) <= 1).
Proof. exact simplex_points. Qed.
Print Assumptions C69_simplex.
Theorem C69_simplex_error : forall dd e,
  (exists a, In a e /\ a <= 0) -> poly_simplex dd e = Raise AssertionError.
Proof. exact simplex_bad. Qed.
Print Assumptions C69_simplex_error.
Example C69_simplex_example : exists dd p, ineqs_correct 2 (dd_ineqs dd) {| cdd_rows := map (cons 1) (zeros 2 :: diag [2; 3]); cdd_lin := [] |} /\ poly_simplex dd [2; 3] = Ok p /\
  poly_contains p [1; 1] 0 = true /\ poly_contains p [1; 2] 0 = false.
Proof. exact simplex_case. Qed.
Theorem C69_halfspaces : forall n dd A b prune p x,
  (0 < n)%nat -> (0 < length A)%nat -> is_mat (length A) n A -> length b = length A ->
  (prune = true -> hcanon_correct n (dd_canon dd) {| cdd_rows := map2 (fun b a => b :: vneg a) b A; cdd_lin := [] |}) ->
  poly_from_halfspaces dd A b prune = Ok p -> gens_correct n (dd_gens dd) {| cdd_rows := map2 (fun b a => b :: vneg a) (p_b p) (p_A p); cdd_lin := [] |} ->
  length x = n -> poly_agree n p /\ (poly_contains p x 0 = true <-> halfspaces A b x).
Proof. exact halfspaces_points. Qed.
Print Assumptions C69_halfspaces.
Theorem C69_halfspaces_total : forall n dd A b B,
  (0 < n)%nat -> is_mat (length A) n A -> length b = length A ->
  let m := {| cdd_rows := map2 (fun b a => b :: vneg a) b A; cdd_lin := [] |} in
  gens_correct n (dd_gens dd) m -> proper_rays (dd_gens dd m) ->
  (forall x i, length x = n -> halfspaces A b x -> Rabs (nth i x 0) <= B) -> (exists x, length x = n /\ halfspaces A b x) ->
  exists p, poly_from_halfspaces dd A b false = Ok p.
Proof. exact halfspaces_total. Qed.
Print Assumptions C69_halfspaces_total.
Theorem C69_halfspaces_empty : forall n dd A b,
  length b = length A -> gens_correct n (dd_gens dd) {| cdd_rows := map2 (fun b a => b :: vneg a) b A; cdd_lin := [] |} ->
  (forall x, length x = n -> ~ halfspaces A b x) -> poly_from_halfspaces dd A b false = Raise AttributeError.
Proof. exact halfspaces_empty. Qed.
Print Assumptions C69_halfspaces_empty.
Theorem C69_halfspaces_unbounded : forall n dd A b y d,
  length b = length A -> gens_correct n (dd_gens dd) {| cdd_rows := map2 (fun b a => b :: vneg a) b A; cdd_lin := [] |} ->
  length y = n -> length d = n -> d <> zeros n -> (forall t, 0 <= t -> halfspaces A b (vadd y (vscale t d))) -> poly_from_halfspaces dd A b false = Raise ValueError.
Proof. exact halfspaces_unbounded. Qed.
Print Assumptions C69_halfspaces_unbounded.
Example C69_halfspaces_example : let A := [[-1; 0]; [0; -1]; [/ 2; / 3]] in let b := [0; 0; 1] in let m := {| cdd_rows := map2 (fun b a => b :: vneg a) b A; cdd_lin := [] |} in
  exists dd p, hcanon_correct 2 (dd_canon dd) m /\ gens_correct 2 (dd_gens dd) m /\ proper_rays (dd_gens dd m) /\ poly_from_halfspaces dd A b true = Ok p /\ poly_from_halfspaces dd A b false = Ok p /\
    p_A p = A /\ p_b p = b /\ (forall x i, length x = 2%nat -> halfspaces A b x -> Rabs (nth i x 0) <= 3) /\ halfspaces A b [1; 1].
Proof. exact halfspaces_case. Qed.
Example C69_halfspaces_bad_example :
  (exists dd, gens_correct 1 (dd_gens dd) {| cdd_rows := map2 (fun b a => b :: vneg a) [-1; 0] [[1]; [-1]]; cdd_lin := [] |} /\
     (forall x, length x = 1%nat -> ~ halfspaces [[1]; [-1]] [-1; 0] x) /\ poly_from_halfspaces dd [[1]; [-1]] [-1; 0] false = Raise AttributeError) /\
  (exists dd, gens_correct 1 (dd_gens dd) {| cdd_rows := map2 (fun b a => b :: vneg a) [0] [[-1]]; cdd_lin := [] |} /\
     (forall t, 0 <= t -> halfspaces [[-1]] [0] (vadd [0] (vscale t [1]))) /\ poly_from_halfspaces dd [[-1]] [0] false = Raise ValueError).
Proof. exact halfspaces_bad_case. Qed.
Theorem C69_rotate_about_center : forall h r c e M e' p tol,
  ell_init h r c = Ok e -> ell_rotate_about_center e M = Ok e' -> h <> [] -> orthogonal (length h) M ->
  length p = length h -> let c0 := pose_tr (length h) c in
  ell_contains e' (vadd (mat_vec M (vsub p c0)) c0) tol = ell_contains e p tol.
Proof. exact ell_rotate_center. Qed.
Print Assumptions C69_rotate_about_center.
Example C69_rotate_example : exists e e', ell_init [1; 2; 3] (Some Q0) (Some t0) = Ok e /\ ell_rotate_about_center e rot345 = Ok e' /\ orthogonal 3 rot345.
Proof. exact rotate_case. Qed.

(** * C70 *)
Theorem C70_entries : forall p q,
  ip_ok p -> ip_ok q ->
  (ip_is_same p q = true <-> forall i j, (i < 4)%nat -> (j < 4)%nat -> Rabs (entry (ip_J p) i j - entry (ip_J q) i j) <= / 100000000 + / 100000 * Rabs (entry (ip_J q) i j)).
Proof. exact ip_same_iff. Qed.
Print Assumptions C70_entries.
Theorem C70_reflexive : forall p,
  ip_is_same p p = true.
Proof. exact ip_same_refl. Qed.
Print Assumptions C70_reflexive.
Example C70_example : ip_ok p0 /\ ip_is_same p0 {| ip_mass := 4 + / 50000; ip_com := ip_com p0; ip_H := ip_H p0 |} = true /\
  ip_is_same p0 {| ip_mass := 5; ip_com := ip_com p0; ip_H := ip_H p0 |} = false.
Proof. exact same_case. Qed.
(** not symmetric: finding *)
Theorem C70_symmetric_refuted : exists p q, ip_init 1 (Some (zeros 3)) None (Some (eye 3)) None false = Ok p /\
  ip_init (1 - (/ 100000000 + / 100000)) (Some (zeros 3)) None (Some (eye 3)) None false = Ok q /\ ip_is_same q p = true /\ ip_is_same p q = false.
Proof. exact ip_same_asymmetric. Qed.
Print Assumptions C70_symmetric_refuted.
(** very small bodies all count as the same: finding *)
Theorem C70_tiny : forall p q,
  ip_ok p -> ip_ok q -> (forall i j, (i < 4)%nat -> (j < 4)%nat -> Rabs (entry (ip_J p) i j) <= / 200000000 /\ Rabs (entry (ip_J q) i j) <= / 200000000) ->
  ip_is_same p q = true.
Proof. exact ip_same_tiny. Qed.
Print Assumptions C70_tiny.
Theorem C70_tiny_refuted : exists p q, ip_init 0 None (Some [1; 0; 0]) (Some (zeros2 3 3)) None false = Ok p /\
  ip_init (/ 200000000) None (Some [1; 0; 0]) (Some (mscale (/ 200000000) (outer [1; 0; 0] [1; 0; 0]))) None false = Ok q /\
  ip_mass p <> ip_mass q /\ ip_is_same p q = true.
Proof. exact ip_tiny_different. Qed.
Print Assumptions C70_tiny_refuted.

(** * C71 *)
Theorem C71_contains : forall d k p orth null_space eigh lstsq solver r A b w V,
  poly_agree d p -> (0 < k <= d)%nat -> hd_error (p_vertices p) = Some r ->
  let D := map (fun p => vsub p r) (p_vertices p) in let R := orth (transpose D) in
  orth_spec d k D R ->
  solver (mbe_points_constraints k (mat_mul D R) false) = (A, b) -> mbe_points_constraints k (mat_mul D R) false A b -> pos_def k A ->
  eigh A = (w, V) -> eigh_spec k A (w, V) -> lstsq_spec A (vneg b) (lstsq A (vneg b)) ->
  null_spec d k (transpose (mat_mul R V)) (null_space (transpose (mat_mul R V))) ->
  exists e, poly_mbe orth null_space eigh lstsq solver p = Ok e /\ e_dim e = d /\ orthogonal d (e_rot e) /\ e_half e = map Rinv w ++ zeros (d - k) /\
    forall x, length x = d -> poly_contains p x 0 = true -> ell_set (e_half e) (e_rot e) (e_center e) x.
Proof. exact poly_mbe_contains. Qed.
Print Assumptions C71_contains.
Theorem C71_minimal : forall n p orth null_space eigh lstsq solver log_det r A b w V,
  poly_agree n p -> hd_error (p_vertices p) = Some r ->
  let D := map (fun p => vsub p r) (p_vertices p) in let R := orth (transpose D) in
  orthogonal n R ->
  solver (mbe_points_constraints n (mat_mul D R) false) = (A, b) -> mbe_points_constraints n (mat_mul D R) false A b -> pos_def n A ->
  log_det_spec n log_det -> (forall A' b', mbe_points_constraints n (mat_mul D R) false A' b' -> pos_def n A' -> log_det A' <= log_det A) ->
  eigh A = (w, V) -> eigh_spec n A (w, V) -> lstsq_spec A (vneg b) (lstsq A (vneg b)) ->
  null_spec n n (transpose (mat_mul R V)) (null_space (transpose (mat_mul R V))) ->
  exists e, poly_mbe orth null_space eigh lstsq solver p = Ok e /\
    forall h Q c e', ell_init h (Some Q) (Some c) = Ok e' -> length h = n -> orthogonal n Q -> (forall i, (i < n)%nat -> 0 < nth i h 0) ->
      (forall x, length x = n -> poly_contains p x 0 = true -> ell_set h Q c x) -> e_volume e <= e_volume e'.
Proof. exact poly_mbe_minimal. Qed.
Print Assumptions C71_minimal.
Example C71_example : exists p e, poly_agree 1 p /\ (forall x, length x = 1%nat -> poly_contains p x 0 = true <-> -1 <= nth 0 x 0 <= 1) /\
  poly_mbe (fun _ => [[1]]) (fun _ => [[]]) (fun _ => ([1], [[1]])) (fun _ y => y) (fun _ => ([[1]], [1])) p = Ok e /\
  (forall x, length x = 1%nat -> poly_contains p x 0 = true -> ell_set (e_half e) (e_rot e) (e_center e) x) /\
  forall h Q c e', ell_init h (Some Q) (Some c) = Ok e' -> length h = 1%nat -> orthogonal 1 Q -> (forall i, (i < 1)%nat -> 0 < nth i h 0) ->
      (forall x, length x = 1%nat -> poly_contains p x 0 = true -> ell_set h Q c x) -> e_volume e <= e_volume e'.
Proof. exact poly_mbe_case. Qed.
