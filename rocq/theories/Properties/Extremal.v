(** Properties C53, C54: ellipsoid containment and the extremal-ellipsoid programs
    (src/rigeo/shape/ellipsoid.py, poly.py). *)
From Verif Require Import Base.Vec Base.Ext Model.Util Model.Polydd Model.Constraint Model.Ellipsoid Model.Poly Model.Extremal
  Spec.Basic Spec.Shapes Spec.ShapeObjects Spec.DoubleDesc Spec.PolySpec Spec.ExtremalSpec
  Proofs.SampleDD Proofs.ExtremalP Proofs.ExtremalOpt Proofs.EllPairP Proofs.ExtremalEx.

(** * C53: one ellipsoid in another *)
(** the condition with S and A b of both ellipsoids is sound *)
Theorem C53_s_procedure : forall s o S1 A1 b1 S2 A2 b2 t,
  is_ell s -> is_ell o -> (0 < e_dim s)%nat -> e_dim o = e_dim s ->
  orthogonal (e_dim s) (e_rot s) -> orthogonal (e_dim s) (e_rot o) -> fat (e_half s) -> fat (e_half o) ->
  e_S s = fin2 S1 -> e_A s = fin2 A1 -> e_b s = fin1 b1 -> e_S o = fin2 S2 -> e_A o = fin2 A2 -> e_b o = fin1 b2 -> 0 <= t ->
  cp_nsd (e_dim s + 1) (schur (msub S1 (mscale t S2)) (vsub (mat_vec A1 b1) (vscale t (mat_vec A2 b2))) (dot b1 b1 - 1 - t * (dot b2 b2 - 1))) ->
  forall x, ell_set (e_half o) (e_rot o) (e_center o) x -> ell_set (e_half s) (e_rot s) (e_center s) x.
Proof. exact s_procedure_sound. Qed.
Print Assumptions C53_s_procedure.
(** what the condition of the code guarantees *)
Theorem C53_code_condition : forall s o A2 b1 b2 P,
  is_ell s -> is_ell o -> (0 < e_dim s)%nat -> e_dim o = e_dim s ->
  orthogonal (e_dim s) (e_rot s) -> fat (e_half s) -> fat (e_half o) -> e_A o = fin2 A2 -> e_b s = fin1 b1 -> e_b o = fin1 b2 ->
  contains_ellipsoid s o = Ok P -> P -> forall x, length x = e_dim s ->
  quadric A2 b1 (dot b2 b2 - 1) x -> ell_set (e_half s) (e_rot s) (e_center s) x.
Proof. exact contains_code. Qed.
Print Assumptions C53_code_condition.
Theorem C53_unit_sphere_sound : forall s c o P,
  is_ell s -> (0 < e_dim s)%nat -> length c = e_dim s -> orthogonal (e_dim s) (e_rot s) -> fat (e_half s) ->
  ell_sphere 1 (Some c) = Ok o -> e_b s = e_b o -> contains_ellipsoid s o = Ok P -> P ->
  forall x, length x = e_dim s -> ball c 1 x -> ell_set (e_half s) (e_rot s) (e_center s) x.
Proof. exact contains_unit_sphere_sound. Qed.
Print Assumptions C53_unit_sphere_sound.
Theorem C53_unit_sphere_iff : forall s o P,
  is_ell s -> (0 < e_dim s)%nat -> orthogonal (e_dim s) (e_rot s) -> fat (e_half s) -> e_center s = zeros (e_dim s) ->
  ell_sphere 1 (Some (zeros (e_dim s))) = Ok o -> contains_ellipsoid s o = Ok P ->
  (P <-> forall x, length x = e_dim s -> norm x <= 1 -> ell_set (e_half s) (e_rot s) (e_center s) x).
Proof. exact contains_unit_ball_iff. Qed.
Print Assumptions C53_unit_sphere_iff.
(** concentric spheres: the answer is r2 <= r1^2 *)
Theorem C53_concentric_spheres : forall n r1 r2 s o P,
  (0 < n)%nat -> / 100000000 < r1 -> / 100000000 < r2 ->
  ell_sphere r1 (Some (zeros n)) = Ok s -> ell_sphere r2 (Some (zeros n)) = Ok o -> contains_ellipsoid s o = Ok P -> (P <-> r2 <= r1 * r1).
Proof. exact contains_spheres. Qed.
Print Assumptions C53_concentric_spheres.
Theorem C53_size_refuted : exists s o P x, ell_sphere 2 (Some (zeros 3)) = Ok s /\ ell_sphere 3 (Some (zeros 3)) = Ok o /\ contains_ellipsoid s o = Ok P /\ P /\
  ell_set (e_half o) (e_rot o) (e_center o) x /\ ~ ell_set (e_half s) (e_rot s) (e_center s) x.
Proof. exact contains_size_refuted. Qed.
Print Assumptions C53_size_refuted.
Theorem C53_false_refuted : exists s o P, ell_sphere (1 / 2) (Some (zeros 3)) = Ok s /\ ell_sphere (2 / 5) (Some (zeros 3)) = Ok o /\ contains_ellipsoid s o = Ok P /\ ~ P /\
  forall x, length x = 3%nat -> ell_set (e_half o) (e_rot o) (e_center o) x -> ell_set (e_half s) (e_rot s) (e_center s) x.
Proof. exact contains_false_refuted. Qed.
Print Assumptions C53_false_refuted.
Theorem C53_unit_spheres_anywhere : forall c s o P,
  (0 < length c)%nat -> ell_sphere 1 (Some (zeros (length c))) = Ok s -> ell_sphere 1 (Some c) = Ok o -> contains_ellipsoid s o = Ok P -> P.
Proof. exact contains_anywhere. Qed.
Print Assumptions C53_unit_spheres_anywhere.
Theorem C53_place_refuted : exists s o P x, ell_sphere 1 (Some (zeros 3)) = Ok s /\ ell_sphere 1 (Some [10; 0; 0]) = Ok o /\ contains_ellipsoid s o = Ok P /\ P /\
  ell_set (e_half o) (e_rot o) (e_center o) x /\ ~ ell_set (e_half s) (e_rot s) (e_center s) x.
Proof. exact contains_place_refuted. Qed.
Print Assumptions C53_place_refuted.
Theorem C53_dimensions : forall s o,
  is_ell s -> is_ell o -> (0 < e_dim s)%nat -> (0 < e_dim o)%nat -> fat (e_half s) -> fat (e_half o) -> e_dim o <> e_dim s -> contains_ellipsoid s o = Raise ValueError.
Proof. exact contains_dims. Qed.
Print Assumptions C53_dimensions.
Example C53_contains_example : exists s P, ell_sphere 1 (Some (zeros 3)) = Ok s /\ contains_ellipsoid s s = Ok P /\ P /\ e_center s = zeros (e_dim s) /\ e_b s = e_b s.
Proof. exact contains_case. Qed.
(** the bounding ellipsoid of ellipsoids contains the quadrics of the coefficients that the code uses *)
Theorem C53_mbe_code_condition : forall n eigh linsolve solver ells sphere ABs Sv d ts w V,
  (0 < n)%nat -> ells <> [] -> (forall E, In E ells -> e_dim E = n) ->
  Forall2 (fun E AB => e_A E = fin2 (fst AB) /\ e_b E = fin1 (snd AB)) ells ABs ->
  (forall AB, In AB ABs -> is_mat n n (fst AB) /\ length (snd AB) = n) ->
  solver (fun S d => exists ts, mbee_constraints n ABs sphere S d ts) = (Sv, d) -> mbee_constraints n ABs sphere Sv d ts ->
  length (linsolve Sv (vneg d)) = n -> mat_vec Sv (linsolve Sv (vneg d)) = vneg d ->
  eigh Sv = (w, V) -> eigh_spec n Sv (w, V) -> (forall a, In a w -> np_atol * np_atol < a < / (np_atol * np_atol)) ->
  exists e, mbe_of_ellipsoids eigh linsolve solver ells sphere = Ok e /\ is_ell e /\ e_dim e = n /\ orthogonal n (e_rot e) /\
    (forall x, length x = n -> (ell_set (e_half e) (e_rot e) (e_center e) x <-> quad Sv (vsub x (linsolve Sv (vneg d))) <= 1)) /\
    forall AB x, In AB ABs -> length x = n -> quadric (fst AB) (snd AB) (dot (snd AB) (snd AB) - 1) x -> ell_set (e_half e) (e_rot e) (e_center e) x.
Proof. exact mbee_result. Qed.
Print Assumptions C53_mbe_code_condition.
Theorem C53_mbe_unit_spheres : forall n eigh linsolve solver centers ells sphere Sv d ts w V,
  (0 < n)%nat -> centers <> [] -> (forall c, In c centers -> length c = n) -> mapM (fun c => ell_sphere 1 (Some c)) centers = Ok ells ->
  let ABs := map (fun c => (eye n, vneg c)) centers in
  solver (fun S d => exists ts, mbee_constraints n ABs sphere S d ts) = (Sv, d) -> mbee_constraints n ABs sphere Sv d ts ->
  length (linsolve Sv (vneg d)) = n -> mat_vec Sv (linsolve Sv (vneg d)) = vneg d ->
  eigh Sv = (w, V) -> eigh_spec n Sv (w, V) -> (forall a, In a w -> np_atol * np_atol < a < / (np_atol * np_atol)) ->
  exists e, mbe_of_ellipsoids eigh linsolve solver ells sphere = Ok e /\ e_dim e = n /\ orthogonal n (e_rot e) /\
    forall c x, In c centers -> length x = n -> ball c 1 x -> ell_set (e_half e) (e_rot e) (e_center e) x.
Proof. exact mbee_unit_spheres. Qed.
Print Assumptions C53_mbe_unit_spheres.
Example C53_mbe_example : exists eigh linsolve solver E e,
  ell_sphere 1 (Some [1; 2; 3]) = Ok E /\ mbe_of_ellipsoids eigh linsolve solver [E] true = Ok e /\
  forall x, length x = 3%nat -> ball [1; 2; 3] 1 x -> ell_set (e_half e) (e_rot e) (e_center e) x.
Proof. exact mbee_unit_case. Qed.
(** one sphere of radius r at the origin: the optimal result is the sphere of radius sqrt r *)
Theorem C53_mbe_sphere_best : forall n r S d ts,
  (0 < n)%nat -> 0 < r ->
  mbee_constraints n [(mscale (/ r) (eye n), zeros n)] false S d ts -> forall x, length x = n -> quad S x <= / r * dot x x.
Proof. exact mbee_sphere_best. Qed.
Print Assumptions C53_mbe_sphere_best.
Theorem C53_mbe_sphere_feasible : forall n r,
  0 < r -> mbee_constraints n [(mscale (/ r) (eye n), zeros n)] false (mscale (/ r) (eye n)) (zeros n) [1].
Proof. exact mbee_sphere_feasible. Qed.
Print Assumptions C53_mbe_sphere_feasible.
Theorem C53_mbe_sphere_result : forall n r eigh linsolve solver E sphere w V,
  (0 < n)%nat -> / 100000000 < r < 100000000 -> ell_sphere r (Some (zeros n)) = Ok E ->
  let Sv := mscale (/ r) (eye n) in
  solver (fun S d => exists ts, mbee_constraints n [(mscale (/ r) (eye n), zeros n)] sphere S d ts) = (Sv, zeros n) ->
  length (linsolve Sv (vneg (zeros n))) = n -> mat_vec Sv (linsolve Sv (vneg (zeros n))) = vneg (zeros n) ->
  eigh Sv = (w, V) -> eigh_spec n Sv (w, V) ->
  exists e, mbe_of_ellipsoids eigh linsolve solver [E] sphere = Ok e /\ e_dim e = n /\
    forall x, length x = n -> (ell_set (e_half e) (e_rot e) (e_center e) x <-> ball (zeros n) (sqrt r) x).
Proof. exact mbee_sphere_result. Qed.
Print Assumptions C53_mbe_sphere_result.
Theorem C53_mbe_refuted : exists eigh linsolve solver E e x,
  ell_sphere 3 (Some (zeros 3)) = Ok E /\ mbe_of_ellipsoids eigh linsolve solver [E] false = Ok e /\
  solver (fun S d => exists ts, mbee_constraints 3 [(mscale (/ 3) (eye 3), zeros 3)] false S d ts) = (mscale (/ 3) (eye 3), zeros 3) /\
  mbee_constraints 3 [(mscale (/ 3) (eye 3), zeros 3)] false (mscale (/ 3) (eye 3)) (zeros 3) [1] /\
  (forall S d ts, mbee_constraints 3 [(mscale (/ 3) (eye 3), zeros 3)] false S d ts -> forall y, length y = 3%nat -> quad S y <= quad (mscale (/ 3) (eye 3)) y) /\
  ell_set (e_half E) (e_rot E) (e_center E) x /\ ~ ell_set (e_half e) (e_rot e) (e_center e) x.
Proof. exact mbee_sphere_refuted. Qed.
Print Assumptions C53_mbe_refuted.

(** * C54: points and halfspaces *)
Theorem C54_points_feasible : forall n P A b,
  (forall x, In x P -> length x = n) -> (0 < n)%nat ->
  (mbe_points_constraints n P false A b <->
   PSD n A /\ length b = n /\ forall x, in_hull n P x -> ball_preimage A b x).
Proof. exact mbe_feasible. Qed.
Print Assumptions C54_points_feasible.
Theorem C54_mbe_contains : forall d k points orth null_space eigh lstsq solver r A b w V,
  (0 < d)%nat -> (0 < k <= d)%nat -> (forall x, In x points -> length x = d) -> hd_error points = Some r ->
  let D := map (fun p => vsub p r) points in let R := orth (transpose D) in
  orth_spec d k D R ->
  solver (mbe_points_constraints k (mat_mul D R) false) = (A, b) -> mbe_points_constraints k (mat_mul D R) false A b -> pos_def k A ->
  eigh A = (w, V) -> eigh_spec k A (w, V) -> lstsq_spec A (vneg b) (lstsq A (vneg b)) ->
  null_spec d k (transpose (mat_mul R V)) (null_space (transpose (mat_mul R V))) ->
  exists e, mbe_of_points orth null_space eigh lstsq solver points = Ok e /\ e_dim e = d /\ orthogonal d (e_rot e) /\ e_half e = map Rinv w ++ zeros (d - k) /\
    forall p, In p points -> ell_set (e_half e) (e_rot e) (e_center e) p.
Proof. exact mbe_of_points_contains. Qed.
Print Assumptions C54_mbe_contains.
Example C54_mbe_example : exists e,
  mbe_of_points (fun _ => [[1]; [0]]) (fun _ => [[0]; [1]]) (fun _ => ([1], [[1]])) (fun _ y => y) (fun _ => ([[1]], [1])) [[1; 0]; [-1; 0]] = Ok e /\
  e_half e = [/ 1; 0] /\ forall p, In p [[1; 0]; [-1; 0]] -> ell_set (e_half e) (e_rot e) (e_center e) p.
Proof. exact mbe_points_case. Qed.
Theorem C54_mbe_minimal : forall n points orth null_space eigh lstsq solver log_det r A b w V,
  (0 < n)%nat -> (forall x, In x points -> length x = n) -> hd_error points = Some r ->
  let D := map (fun p => vsub p r) points in let R := orth (transpose D) in
  orthogonal n R ->
  solver (mbe_points_constraints n (mat_mul D R) false) = (A, b) -> mbe_points_constraints n (mat_mul D R) false A b -> pos_def n A ->
  log_det_spec n log_det -> (forall A' b', mbe_points_constraints n (mat_mul D R) false A' b' -> pos_def n A' -> log_det A' <= log_det A) ->
  eigh A = (w, V) -> eigh_spec n A (w, V) -> lstsq_spec A (vneg b) (lstsq A (vneg b)) ->
  null_spec n n (transpose (mat_mul R V)) (null_space (transpose (mat_mul R V))) ->
  exists e, mbe_of_points orth null_space eigh lstsq solver points = Ok e /\ e_dim e = n /\ orthogonal n (e_rot e) /\
    (forall p, In p points -> ell_set (e_half e) (e_rot e) (e_center e) p) /\
    forall h Q c e', ell_init h (Some Q) (Some c) = Ok e' -> length h = n -> orthogonal n Q -> (forall i, (i < n)%nat -> 0 < nth i h 0) ->
      (forall p, In p points -> ell_set h Q c p) -> e_volume e <= e_volume e'.
Proof. exact mbe_of_points_minimal. Qed.
Print Assumptions C54_mbe_minimal.
Example C54_minimal_example : exists e,
  mbe_of_points (fun _ => [[1]]) (fun _ => [[]]) (fun _ => ([1], [[1]])) (fun _ y => y) (fun _ => ([[1]], [1])) [[1]; [-1]] = Ok e /\
  forall h Q c e', ell_init h (Some Q) (Some c) = Ok e' -> length h = 1%nat -> orthogonal 1 Q -> (forall i, (i < 1)%nat -> 0 < nth i h 0) ->
      (forall p, In p [[1]; [-1]] -> ell_set h Q c p) -> e_volume e <= e_volume e'.
Proof. exact mbe_minimal_case. Qed.
Theorem C54_halfspaces_feasible : forall n A b B c,
  is_mat (length b) n A ->
  (mie_constraints n A b false B c <->
   PSD n B /\ length c = n /\ forall x, ball_image n B c x -> halfspaces A b x).
Proof. exact mie_feasible. Qed.
Print Assumptions C54_halfspaces_feasible.
Theorem C54_mie_inside : forall n A b sphere eigh inv solver B c w V,
  (0 < n)%nat -> (0 < length b)%nat -> is_mat (length b) n A ->
  solver (mie_constraints n A b sphere) = (B, c) -> mie_constraints n A b sphere B c ->
  inv_spec n (mat_mul B B) (inv (mat_mul B B)) ->
  eigh (inv (mat_mul B B)) = (w, V) -> eigh_spec n (inv (mat_mul B B)) (w, V) ->
  (forall a, In a w -> np_atol * np_atol < a < / (np_atol * np_atol)) ->
  exists e, mie_inequality_form eigh inv solver A b sphere = Ok e /\ is_ell e /\ e_dim e = n /\ e_center e = c /\ orthogonal n (e_rot e) /\ fat (e_half e) /\ e_half e = map (fun a => / sqrt a) w /\
    (forall x, length x = n -> (ell_set (e_half e) (e_rot e) (e_center e) x <-> ball_image n B c x)) /\
    (forall x, ell_set (e_half e) (e_rot e) (e_center e) x -> halfspaces A b x).
Proof. exact mie_form_ball. Qed.
Print Assumptions C54_mie_inside.
Theorem C54_mie_maximal : forall n A b sphere eigh inv solver log_det B c w V,
  (0 < n)%nat -> (0 < length b)%nat -> is_mat (length b) n A ->
  solver (mie_constraints n A b sphere) = (B, c) -> mie_constraints n A b sphere B c ->
  log_det_spec n log_det -> (forall B' c', mie_constraints n A b sphere B' c' -> pos_def n B' -> log_det B' <= log_det B) ->
  inv_spec n (mat_mul B B) (inv (mat_mul B B)) ->
  eigh (inv (mat_mul B B)) = (w, V) -> eigh_spec n (inv (mat_mul B B)) (w, V) ->
  (forall a, In a w -> np_atol * np_atol < a < / (np_atol * np_atol)) ->
  exists e, mie_inequality_form eigh inv solver A b sphere = Ok e /\ e_dim e = n /\ orthogonal n (e_rot e) /\
    (forall x, ell_set (e_half e) (e_rot e) (e_center e) x -> halfspaces A b x) /\
    forall h Q q e', ell_init h (Some Q) (Some q) = Ok e' -> length h = n -> orthogonal n Q -> (forall i, (i < n)%nat -> 0 < nth i h 0) ->
      (forall x, ell_set h Q q x -> halfspaces A b x) -> (sphere = true -> exists r, h = repeat r n) -> e_volume e' <= e_volume e.
Proof. exact mie_maximal. Qed.
Print Assumptions C54_mie_maximal.
Example C54_mie_example : exists e,
  mie_inequality_form (fun _ => ([1], [[1]])) (fun _ => [[1]]) (fun _ => ([[1]], [0])) [[1]; [-1]] [1; 1] true = Ok e /\
  (forall x, ell_set (e_half e) (e_rot e) (e_center e) x -> halfspaces [[1]; [-1]] [1; 1] x) /\
  forall h Q q e', ell_init h (Some Q) (Some q) = Ok e' -> length h = 1%nat -> orthogonal 1 Q -> (forall i, (i < 1)%nat -> 0 < nth i h 0) ->
      (forall x, ell_set h Q q x -> halfspaces [[1]; [-1]] [1; 1] x) -> (true = true -> exists r, h = repeat r 1) -> e_volume e' <= e_volume e.
Proof. exact mie_case. Qed.
Theorem C54_poly_mie : forall d k dd orth null_space eigh inv solver p sphere r f B c w V,
  (0 < d)%nat -> (0 < k <= d)%nat -> (forall v, In v (p_vertices p) -> length v = d) -> hd_error (p_vertices p) = Some r ->
  let D := map (fun v => vsub v r) (p_vertices p) in let R := orth (transpose D) in let P := mat_mul D R in
  orth_spec d k D R ->
  ineqs_correct k (dd_ineqs dd) {| cdd_rows := map (cons 1) P; cdd_lin := [] |} ->
  sf_to_face_form (dd_ineqs dd) (span_form (Some P) None None) = Ok f ->
  solver (mie_constraints k (ff_A f) (ff_b f) sphere) = (B, c) -> mie_constraints k (ff_A f) (ff_b f) sphere B c ->
  inv_spec k (mat_mul B B) (inv (mat_mul B B)) ->
  eigh (inv (mat_mul B B)) = (w, V) -> eigh_spec k (inv (mat_mul B B)) (w, V) ->
  (forall a, In a w -> np_atol * np_atol < a < / (np_atol * np_atol)) ->
  null_spec d k (transpose R) (null_space (transpose R)) ->
  exists e, poly_mie dd orth null_space eigh inv solver p sphere = Ok e /\ e_dim e = d /\ orthogonal d (e_rot e) /\
    forall x, ell_set (e_half e) (e_rot e) (e_center e) x -> in_hull d (p_vertices p) x.
Proof. exact poly_mie_inside. Qed.
Print Assumptions C54_poly_mie.
Example C54_poly_mie_example : exists e,
  poly_mie (dd1 0 2) (fun _ => [[1]]) (fun _ => [[]]) (fun _ => ([1], [[1]])) (fun _ => [[1]]) (fun _ => ([[1]], [1])) (pinterval (-1) 1) false = Ok e /\
  forall x, ell_set (e_half e) (e_rot e) (e_center e) x -> in_hull 1 (p_vertices (pinterval (-1) 1)) x.
Proof. exact poly_mie_case. Qed.
Theorem C54_empty : (forall orth null_space eigh lstsq solver, mbe_of_points orth null_space eigh lstsq solver [] = Raise IndexError) /\
  (forall eigh linsolve solver sphere, mbe_of_ellipsoids eigh linsolve solver [] sphere = Raise IndexError).
Proof. exact extremal_empty. Qed.
Print Assumptions C54_empty.
