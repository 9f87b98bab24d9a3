(** Properties C38, C39, C40: random values and points (src/rigeo/random.py, and the random_points
    methods of src/rigeo/shape/*.py and src/rigeo/inertial.py).  The draws of the generator are
    universally quantified. *)
From Verif Require Import Base.Vec Model.Util Model.Polydd Model.Poly Model.Inertial Model.Ellipsoid Model.Box Model.Cylinder Model.Random
  Spec.Basic Spec.Shapes Spec.Objects Spec.ShapeObjects Spec.PolySpec Spec.RandomSpec Proofs.RandomP Proofs.RandomS Proofs.RandomE Proofs.RefutedP.

(** * C38 *)
Theorem C38_psd_matrix : forall n A,
  (0 < n)%nat -> rows_of n n (uniform_draw (-1) 1) A -> PSD n (random_psd_matrix A).
Proof. exact random_psd_psd. Qed.
Print Assumptions C38_psd_matrix.
Theorem C38_weight_vectors : forall n k W,
  rows_of n k unit_draw W -> (forall w, In w W -> w <> zeros k) ->
  exists V, random_weight_vectors W = Ok V /\ is_mat n k V /\ forall v, In v V -> weights v.
Proof. exact weight_vectors_good. Qed.
Print Assumptions C38_weight_vectors.
(** the only failing draw is a row of zeros *)
Theorem C38_weight_vectors_zero : forall n k W,
  rows_of n k unit_draw W -> In (zeros k) W -> random_weight_vectors W = NonFinite.
Proof. exact weight_vectors_zero. Qed.
Print Assumptions C38_weight_vectors_zero.
Theorem C38_hypersphere : forall n dim X,
  (1 <= dim)%nat -> normal_rows n (dim + 1) X ->
  exists P, random_points_on_hypersphere dim X = Ok P /\ is_mat n (dim + 1) P /\ forall p, In p P -> norm p = 1.
Proof. exact hypersphere_good. Qed.
Print Assumptions C38_hypersphere.
Theorem C38_hypersphere_zero : forall n dim X,
  (1 <= dim)%nat -> is_mat n (dim + 1) X -> In (zeros (dim + 1)) X -> random_points_on_hypersphere dim X = NonFinite.
Proof. exact hypersphere_zero. Qed.
Print Assumptions C38_hypersphere_zero.
Theorem C38_ball : forall n dim X c,
  (2 <= dim)%nat -> normal_rows n dim X -> draws_of n unit_draw c ->
  exists P, random_points_in_ball dim X c = Ok P /\ is_mat n dim P /\ forall p, In p P -> norm p <= 1.
Proof. exact in_ball_good. Qed.
Print Assumptions C38_ball.
(** every point of the open ball is drawn *)
Theorem C38_ball_covers : forall dim p,
  (2 <= dim)%nat -> length p = dim -> norm p < 1 ->
  exists X c, normal_rows 1 dim X /\ draws_of 1 unit_draw c /\ random_points_in_ball dim X c = Ok [p].
Proof. exact in_ball_covers. Qed.
Print Assumptions C38_ball_covers.
(** the assertion of random_points_in_ball allows dim = 1, but the call fails *)
Theorem C38_ball_one : forall X c,
  random_points_in_ball 1 X c = Raise AssertionError.
Proof. exact in_ball_one. Qed.
Print Assumptions C38_ball_one.
Theorem C38_box : forall h c r b n U,
  box_init h c r = Ok b -> rows_of n 3 (uniform_draw (-1) 1) U ->
  length (box_random_points b U) = n /\ forall p, In p (box_random_points b U) -> length p = 3%nat /\ box_set h (pose_rot 3 r) (pose_tr 3 c) p.
Proof. exact box_random_in. Qed.
Print Assumptions C38_box.
Theorem C38_box_covers : forall h c r b u,
  box_init h c r = Ok b -> length u = 3%nat -> (forall i, (i < 3)%nat -> Rabs (nth i u 0) < nth i h 0) ->
  exists U, rows_of 1 3 (uniform_draw (-1) 1) U /\ box_random_points b U = [move (pose_rot 3 r) (pose_tr 3 c) u].
Proof. exact box_random_covers. Qed.
Print Assumptions C38_box_covers.
Theorem C38_ellipsoid : forall h r c e X u n,
  ell_init h r c = Ok e -> (2 <= length h)%nat -> orthogonal (length h) (pose_rot (length h) r) ->
  normal_rows n (length h) X -> draws_of n unit_draw u ->
  exists P, ell_random_points e X u = Ok P /\ length P = n /\
    forall p, In p P -> length p = length h /\ ell_set h (pose_rot (length h) r) (pose_tr (length h) c) p.
Proof. exact ell_random_in. Qed.
Print Assumptions C38_ellipsoid.
Theorem C38_ellipsoid_covers : forall h r c e u,
  ell_init h r c = Ok e -> (2 <= length h)%nat -> orthogonal (length h) (pose_rot (length h) r) ->
  length u = length h -> dot u u < 1 ->
  exists X d, normal_rows 1 (length h) X /\ draws_of 1 unit_draw d /\
    ell_random_points e X d = Ok [move (pose_rot (length h) r) (pose_tr (length h) c) (vmul h u)].
Proof. exact ell_random_covers. Qed.
Print Assumptions C38_ellipsoid_covers.
Theorem C38_ellipsoid_one : forall h r c e X u,
  ell_init h r c = Ok e -> length h = 1%nat -> ell_random_points e X u = Raise AssertionError.
Proof. exact ell_random_one. Qed.
Print Assumptions C38_ellipsoid_one.
Theorem C38_cylinder : forall L r ro co cy n Z X u,
  cyl_init L r ro co = Ok cy ->
  draws_of n (uniform_draw (- (1 / 2)) (1 / 2)) Z -> normal_rows n 2 X -> draws_of n unit_draw u ->
  exists P, cyl_random_points cy Z X u = Ok P /\ length P = n /\
    forall p, In p P -> length p = 3%nat /\ cyl_set L r (pose_rot 3 ro) (pose_tr 3 co) p.
Proof. exact cyl_random_in. Qed.
Print Assumptions C38_cylinder.
Theorem C38_cylinder_covers : forall L r ro co cy x y z,
  cyl_init L r ro co = Ok cy -> x * x + y * y < r * r -> Rabs z < L / 2 ->
  exists Z X u, draws_of 1 (uniform_draw (- (1 / 2)) (1 / 2)) Z /\ normal_rows 1 2 X /\ draws_of 1 unit_draw u /\
    cyl_random_points cy Z X u = Ok [move (pose_rot 3 ro) (pose_tr 3 co) [x; y; z]].
Proof. exact cyl_random_covers. Qed.
Print Assumptions C38_cylinder_covers.
Theorem C38_polyhedron : forall d p n W,
  poly_ok d p -> rows_of n (p_nv p) unit_draw W -> (forall w, In w W -> w <> zeros (p_nv p)) ->
  exists P, poly_random_points p W = Ok P /\ length P = n /\ forall x, In x P -> in_hull d (p_vertices p) x.
Proof. exact poly_random_in. Qed.
Print Assumptions C38_polyhedron.
Theorem C38_polyhedron_covers : forall d p x,
  poly_ok d p -> in_hull d (p_vertices p) x ->
  exists W, rows_of 1 (p_nv p) unit_draw W /\ (forall w, In w W -> w <> zeros (p_nv p)) /\ poly_random_points p W = Ok [x].
Proof. exact poly_random_covers. Qed.
Print Assumptions C38_polyhedron_covers.
Theorem C38_capsule : forall L r ro co c k U n P,
  cyl_init L r ro co = Ok c -> caps_init c = Ok k -> orthogonal 3 (pose_rot 3 ro) ->
  (forall t m, rows_of m 3 (uniform_draw (-1) 1) (U t m)) -> caps_random_points k U n = Ok P ->
  length P = n /\ forall p, In p P -> length p = 3%nat /\ caps_contains k p default_tol = true /\
    box_set [r; r; (L + 2 * r) / 2] (pose_rot 3 ro) (pose_tr 3 co) p /\
    exists a b, cyl_endpoints c = [a; b] /\ caps_set a b (r + (r + L + 3) * default_tol) p.
Proof. exact caps_random_in. Qed.
Print Assumptions C38_capsule.
Theorem C38_capsule_total : forall L r ro co c k U n,
  cyl_init L r ro co = Ok c -> caps_init c = Ok k ->
  (forall t m, rows_of m 3 (uniform_draw (-1) 1) (U t m)) ->
  (exists P, caps_random_points k U n = Ok P) \/ caps_random_points k U n = Raise ValueError.
Proof. exact caps_random_total. Qed.
Print Assumptions C38_capsule_total.
Theorem C38_inertial : forall u c A,
  unit_draw u -> draws_of 3 unit_draw c -> rows_of 3 3 (uniform_draw (-1) 1) A ->
  exists p, ip_random u c A = Ok p /\ ip_ok p /\ 1 / 10 <= ip_mass p < 1 /\ PSD 4 (ip_J p) /\ ip_Hc p = random_psd_matrix A /\
    forall i, (i < 3)%nat -> - (1 / 2) <= nth i (ip_com p) 0 < 1 / 2.
Proof. exact ip_random_good. Qed.
Print Assumptions C38_inertial.
Example C38_example : unit_draw (1 / 2) /\ draws_of 3 unit_draw [0; 1 / 2; 3 / 4] /\
  rows_of 3 3 (uniform_draw (-1) 1) [[-1; 0; 1 / 2]; [1 / 2; 1 / 3; 0]; [0; 0; - (1 / 4)]] /\
  rows_of 2 3 unit_draw [[0; 1 / 2; 0]; [1 / 3; 1 / 3; 1 / 4]] /\ (forall w, In w [[0; 1 / 2; 0]; [1 / 3; 1 / 3; 1 / 4]] -> w <> zeros 3) /\
  normal_rows 2 3 [[3; 0; 4]; [0; -1; 0]] /\ draws_of 2 unit_draw [0; 1 / 8] /\
  random_points_in_ball 3 [[3; 0; 4]; [0; -1; 0]] [0; 1 / 8] = Ok [[0; 0; 0]; [0; - (1 / 2); 0]].
Proof. exact random_case. Qed.

(** * C39 *)
Theorem C39_box_edges : forall h c r b n counts tx ty tz sh,
  box_init h c r = Ok b -> 0 < lsum h -> multinomial_draw n 12 counts ->
  (forall x, In x tx \/ In x ty \/ In x tz -> uniform_draw (-1) 1 x) -> shuffles sh ->
  exists P, box_random_points_on_edges b n counts tx ty tz sh = Ok P /\ length P = n /\
    forall p, In p P -> box_edge h (pose_rot 3 r) (pose_tr 3 c) p.
Proof. exact box_edges_good. Qed.
Print Assumptions C39_box_edges.
Theorem C39_box_edges_cover : forall h c r b u i,
  box_init h c r = Ok b -> length u = 3%nat -> (i < 3)%nat -> Rabs (nth i u 0) < nth i h 0 ->
  (forall j, (j < 3)%nat -> j <> i -> Rabs (nth j u 0) = nth j h 0) ->
  exists counts tx ty tz, multinomial_draw 1 12 counts /\ (forall x, In x tx \/ In x ty \/ In x tz -> uniform_draw (-1) 1 x) /\
    box_random_points_on_edges b 1 counts tx ty tz (fun P => P) = Ok [move (pose_rot 3 r) (pose_tr 3 c) u].
Proof. exact box_edges_cover. Qed.
Print Assumptions C39_box_edges_cover.
Theorem C39_box_edges_zero : forall h c r b n counts tx ty tz sh,
  box_init h c r = Ok b -> lsum h = 0 ->
  box_random_points_on_edges b n counts tx ty tz sh = Raise ValueError.
Proof. exact box_edges_zero. Qed.
Print Assumptions C39_box_edges_zero.
(** a rotated and translated box *)
Example C39_edges_example : exists b Q counts tx ty tz, orthogonal 3 Q /\ Q <> eye 3 /\ box_init [1; 2; 3] (Some [10; 0; 0]) (Some Q) = Ok b /\ 0 < lsum [1; 2; 3] /\
  multinomial_draw 3 12 counts /\ (forall x, In x tx \/ In x ty \/ In x tz -> uniform_draw (-1) 1 x) /\ shuffles (@rev vec) /\
  box_random_points_on_edges b 3 counts tx ty tz (@rev vec) =
    Ok (map (move Q [10; 0; 0]) [[-1; -2; 3 / 4]; [-1; 1; - 3]; [1 / 2; 2; -3]]).
Proof. exact edges_case. Qed.
(** the surface of a box at the origin *)
Theorem C39_box_surface : forall h c r b n U counts sh,
  box_init h c r = Ok b -> pose_rot 3 r = eye 3 -> pose_tr 3 c = zeros 3 ->
  0 < nth 1 h 0 * nth 2 h 0 + nth 0 h 0 * nth 2 h 0 + nth 0 h 0 * nth 1 h 0 -> n <> 1%nat ->
  rows_of n 3 (uniform_draw (-1) 1) U -> multinomial_draw n 6 counts -> shuffles sh ->
  exists P, box_random_points_on_surface b n U counts sh = Ok P /\ length P = n /\ forall p, In p P -> box_surface h (eye 3) (zeros 3) p.
Proof. exact box_surface_good. Qed.
Print Assumptions C39_box_surface.
Theorem C39_box_surface_cover : forall h c r b u i,
  box_init h c r = Ok b -> pose_rot 3 r = eye 3 -> pose_tr 3 c = zeros 3 -> length u = 3%nat -> (i < 3)%nat ->
  Rabs (nth i u 0) = nth i h 0 -> (forall j, (j < 3)%nat -> j <> i -> Rabs (nth j u 0) < nth j h 0) ->
  exists U counts P, rows_of 2 3 (uniform_draw (-1) 1) U /\ multinomial_draw 2 6 counts /\
    box_random_points_on_surface b 2 U counts (fun P => P) = Ok P /\ In u P.
Proof. exact box_surface_cover. Qed.
Print Assumptions C39_box_surface_cover.
Theorem C39_box_surface_error : forall h c r b n U counts sh,
  box_init h c r = Ok b ->
  (nth 1 h 0 * nth 2 h 0 + nth 0 h 0 * nth 2 h 0 + nth 0 h 0 * nth 1 h 0 = 0 -> box_random_points_on_surface b n U counts sh = Raise ValueError) /\
  (0 < nth 1 h 0 * nth 2 h 0 + nth 0 h 0 * nth 2 h 0 + nth 0 h 0 * nth 1 h 0 -> box_random_points_on_surface b 1 U counts sh = Raise IndexError).
Proof. exact box_surface_error. Qed.
Print Assumptions C39_box_surface_error.
(** the pose is applied twice *)
Theorem C39_box_surface_moved : forall h c r b i,
  box_init h c r = Ok b -> pose_rot 3 r = eye 3 -> (forall j, (j < 3)%nat -> 0 < nth j h 0) ->
  (i < 3)%nat -> nth i (pose_tr 3 c) 0 <> 0 ->
  exists U counts P, rows_of 2 3 (uniform_draw (-1) 1) U /\ multinomial_draw 2 6 counts /\
    box_random_points_on_surface b 2 U counts (fun P => P) = Ok P /\ forall p, In p P -> ~ box_set h (eye 3) (pose_tr 3 c) p.
Proof. exact box_surface_moved. Qed.
Print Assumptions C39_box_surface_moved.
Theorem C39_box_surface_translated_refuted : exists b U counts P, box_init [1; 1; 1] (Some [1; 0; 0]) None = Ok b /\ rows_of 2 3 (uniform_draw (-1) 1) U /\ multinomial_draw 2 6 counts /\
  box_random_points_on_surface b 2 U counts (fun P => P) = Ok P /\ forall p, In p P -> ~ box_set [1; 1; 1] (eye 3) [1; 0; 0] p.
Proof. exact surface_moved_w. Qed.
Print Assumptions C39_box_surface_translated_refuted.
Theorem C39_box_surface_rotated_refuted : exists b Q U counts P, orthogonal 3 Q /\ box_init [1; 1; 1] None (Some Q) = Ok b /\
  rows_of 2 3 (uniform_draw (-1) 1) U /\ multinomial_draw 2 6 counts /\
  box_random_points_on_surface b 2 U counts (fun P => P) = Ok P /\ forall p, In p P -> ~ box_set [1; 1; 1] Q (zeros 3) p.
Proof. exact box_surface_rotated. Qed.
Print Assumptions C39_box_surface_rotated_refuted.
(** the surface of an ellipsoid: the rotation is transposed *)
Theorem C39_ellipsoid_surface : forall h r c e n draw fuel,
  ell_init h r c = Ok e -> (2 <= length h)%nat ->
  (forall i, (i < length h)%nat -> 0 < nth i h 0) ->
  (forall k m, normal_rows m (length h) (fst (draw k m)) /\ draws_of m unit_draw (snd (draw k m))) ->
  ell_random_points_on_surface e n draw fuel = None \/
  exists P, ell_random_points_on_surface e n draw fuel = Some (Ok P) /\ length P = n /\
    forall p, In p P -> ell_boundary h (transpose (pose_rot (length h) r)) (pose_tr (length h) c) p.
Proof. exact ell_surface_spec. Qed.
Print Assumptions C39_ellipsoid_surface.
Theorem C39_ellipsoid_surface_symmetric : forall h r c e n draw fuel P,
  ell_init h r c = Ok e -> (2 <= length h)%nat -> symmetric (length h) (pose_rot (length h) r) ->
  (forall k m, normal_rows m (length h) (fst (draw k m)) /\ draws_of m unit_draw (snd (draw k m))) ->
  ell_random_points_on_surface e n draw fuel = Some (Ok P) ->
  length P = n /\ forall p, In p P -> ell_boundary h (pose_rot (length h) r) (pose_tr (length h) c) p.
Proof. exact ell_surface_symmetric. Qed.
Print Assumptions C39_ellipsoid_surface_symmetric.
Theorem C39_ellipsoid_surface_cover : forall h r c e u,
  ell_init h r c = Ok e -> (2 <= length h)%nat -> (forall i, (i < length h)%nat -> 0 < nth i h 0) ->
  length u = length h -> dot u u = 1 ->
  exists draw, (forall k m, normal_rows m (length h) (fst (draw k m)) /\ draws_of m unit_draw (snd (draw k m))) /\
    ell_random_points_on_surface e 1 draw 1 = Some (Ok [move (transpose (pose_rot (length h) r)) (pose_tr (length h) c) (vmul h u)]).
Proof. exact ell_surface_cover. Qed.
Print Assumptions C39_ellipsoid_surface_cover.
Theorem C39_ellipsoid_surface_rotated_refuted : exists e Q draw P, orthogonal 3 Q /\ ell_init [2; 1; 1] (Some Q) None = Ok e /\
  (forall k m, normal_rows m 3 (fst (draw k m)) /\ draws_of m unit_draw (snd (draw k m))) /\
  ell_random_points_on_surface e 1 draw 1 = Some (Ok P) /\ forall p, In p P -> ~ ell_set [2; 1; 1] Q (zeros 3) p.
Proof. exact ell_surface_rotated. Qed.
Print Assumptions C39_ellipsoid_surface_rotated_refuted.
(** only non-degenerate ellipsoids of dimension 2 or more *)
Theorem C39_ellipsoid_surface_degenerate : forall h r c e n draw fuel,
  ell_init h r c = Ok e -> In 0 h -> ell_random_points_on_surface e n draw fuel = Some (Raise AssertionError).
Proof. exact ell_surface_degenerate. Qed.
Print Assumptions C39_ellipsoid_surface_degenerate.
Theorem C39_ellipsoid_surface_one : forall h r c e n draw fuel,
  ell_init h r c = Ok e -> length h = 1%nat -> (0 < n)%nat -> (0 < fuel)%nat ->
  ell_random_points_on_surface e n draw fuel = Some (Raise AssertionError).
Proof. exact ell_surface_one. Qed.
Print Assumptions C39_ellipsoid_surface_one.
(** the number of turns allowed in the model does not matter, and n turns suffice for lucky draws *)
Theorem C39_ellipsoid_surface_fuel : forall e n draw fuel fuel' x,
  (fuel <= fuel')%nat -> ell_random_points_on_surface e n draw fuel = Some x -> ell_random_points_on_surface e n draw fuel' = Some x.
Proof. exact ell_surface_fuel. Qed.
Print Assumptions C39_ellipsoid_surface_fuel.
Theorem C39_ellipsoid_surface_progress : forall h r c e n draw M,
  ell_init h r c = Ok e -> (2 <= length h)%nat -> (forall x, In x h -> 0 < x <= M) ->
  (forall k m, normal_rows m (length h) (fst (draw k m)) /\ draws_of m unit_draw (snd (draw k m))) ->
  (forall k m, (0 < m)%nat -> exists i, (i < m)%nat /\ nth i (snd (draw k m)) 0 <= lmin h / M) ->
  exists P, ell_random_points_on_surface e n draw n = Some (Ok P).
Proof. exact ell_surface_progress. Qed.
Print Assumptions C39_ellipsoid_surface_progress.

(** * C40 *)
Theorem C40_rejection : forall inside draw n max_tries,
  (forall k r, length (draw k r) = r) ->
  let ins x := existsb (fun s => s x) inside in
  (exists k, (k <= max_tries)%nat /\ missing ins draw n k = 0%nat /\ (forall j, (j < k)%nat -> (0 < missing ins draw n j)%nat) /\
     rejection_sample inside draw n max_tries = Ok (accepted ins draw n k)) \/
  ((forall j, (j <= max_tries)%nat -> (0 < missing ins draw n j)%nat) /\ rejection_sample inside draw n max_tries = Raise ValueError).
Proof. exact rejection_spec. Qed.
Print Assumptions C40_rejection.
Theorem C40_rejection_points : forall inside draw n max_tries P,
  (forall k r, length (draw k r) = r) -> rejection_sample inside draw n max_tries = Ok P ->
  length P = n /\ forall p, In p P -> (exists s, In s inside /\ s p = true) /\
    exists k, (k < max_tries)%nat /\ In p (draw k (missing (fun x => existsb (fun s => s x) inside) draw n k)).
Proof. exact rejection_points. Qed.
Print Assumptions C40_rejection_points.
(** no other candidates are requested *)
Theorem C40_requests : forall inside draw draw' n max_tries,
  let ins x := existsb (fun s => s x) inside in
  (forall k r, length (draw k r) = r) -> (forall k r, length (draw' k r) = r) ->
  (forall k, (k < max_tries)%nat -> (0 < missing ins draw n k)%nat -> draw k (missing ins draw n k) = draw' k (missing ins draw n k)) ->
  rejection_sample inside draw n max_tries = rejection_sample inside draw' n max_tries.
Proof. exact rejection_requests. Qed.
Print Assumptions C40_requests.
Theorem C40_missing : forall ins draw n k,
  (missing ins draw n (S k) <= missing ins draw n k <= n)%nat.
Proof. exact missing_decreases. Qed.
Print Assumptions C40_missing.
Theorem C40_never : forall inside draw n max_tries,
  (0 < n)%nat -> (forall k r, length (draw k r) = r) ->
  (forall k r p s, In p (draw k r) -> In s inside -> s p = false) -> rejection_sample inside draw n max_tries = Raise ValueError.
Proof. exact rejection_never. Qed.
Print Assumptions C40_never.
Theorem C40_progress : forall inside draw n max_tries,
  (n <= max_tries)%nat -> (forall k r, length (draw k r) = r) ->
  (forall k r, (0 < r)%nat -> exists p s, In p (draw k r) /\ In s inside /\ s p = true) -> exists P, rejection_sample inside draw n max_tries = Ok P.
Proof. exact rejection_progress. Qed.
Print Assumptions C40_progress.
Example C40_example : let inside := [fun p => Rleb (nth 0 p 0) 1; fun p => Rleb 5 (nth 0 p 0)] in
  let draw k r := if Nat.eqb k 0 then firstn r ([[0]; [3]; [6]] ++ repeat [0] r) else repeat [1] r in
  (forall k r, length (draw k r) = r) /\ rejection_sample inside draw 3 2 = Ok [[0]; [6]; [1]] /\ rejection_sample inside draw 3 1 = Raise ValueError.
Proof. exact rejection_case. Qed.
