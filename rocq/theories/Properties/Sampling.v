(** Property C72: the probability laws that the samplers hand to the random generator
    (src/rigeo/random.py, shape/box.py, shape/ellipsoid.py). *)
From Verif Require Import Base.Vec Base.VecFacts Base.Ext Spec.Basic Spec.Shapes Spec.Objects Spec.ShapeObjects Spec.DoubleDesc Spec.PolySpec Spec.Samples Spec.Integrals Spec.RandomSpec Spec.Uniform Spec.ExtremalSpec
  Model.Util Model.Constraint Model.Polydd Model.Poly Model.Inertial Model.Ellipsoid Model.Box Model.Cylinder Model.Random Model.Extremal
  Proofs.UniformP Proofs.MoreEx.

(** * C72 *)
(** a face is chosen with probability its share of the area, and the points of a face lie on it *)
Theorem C72_box_surface : forall mult h c r b n U sh,
  box_init h c r = Ok b -> pose_rot 3 r = eye 3 -> pose_tr 3 c = zeros 3 ->
  0 < nth 1 h 0 * nth 2 h 0 + nth 0 h 0 * nth 2 h 0 + nth 0 h 0 * nth 1 h 0 -> n <> 1%nat ->
  rows_of n 3 (uniform_draw (-1) 1) U -> (forall pv, length pv = 6%nat -> multinomial_draw n 6 (mult n pv)) -> shuffles sh ->
  exists pv P0, shares 6 (face_area h) (box_shell h (fun _ => 1)) pv /\
    box_sample_surface mult b n U sh = Ok (sh P0) /\ length P0 = n /\
    forall k j, (k < 6)%nat -> of_kind (mult n pv) k j -> face_points h k (nth j P0 []).
Proof. exact surface_law. Qed.
Print Assumptions C72_box_surface.
Theorem C72_box_edges : forall mult h c r b n tx ty tz sh,
  box_init h c r = Ok b -> 0 < lsum h ->
  (forall x, In x tx \/ In x ty \/ In x tz -> uniform_draw (-1) 1 x) -> (forall pv, length pv = 12%nat -> multinomial_draw n 12 (mult n pv)) -> shuffles sh ->
  exists pv P0, shares 12 (edge_length h) (box_frame h (fun _ => 1)) pv /\
    box_sample_edges mult b n tx ty tz sh = Ok (map (move (pose_rot 3 r) (pose_tr 3 c)) (sh P0)) /\ length P0 = n /\
    forall k j, (k < 12)%nat -> of_kind (mult n pv) k j -> edge_points h k (nth j P0 []).
Proof. exact edges_law. Qed.
Print Assumptions C72_box_edges.
Theorem C72_face_shares : forall h c r b,
  box_init h c r = Ok b -> 0 < nth 1 h 0 * nth 2 h 0 + nth 0 h 0 * nth 2 h 0 + nth 0 h 0 * nth 1 h 0 ->
  shares 6 (face_area h) (box_shell h (fun _ => 1)) (box_face_pvals b).
Proof. exact box_face_shares. Qed.
Print Assumptions C72_face_shares.
Theorem C72_edge_shares : forall h c r b,
  box_init h c r = Ok b -> 0 < lsum h ->
  shares 12 (edge_length h) (box_frame h (fun _ => 1)) (box_edge_pvals b).
Proof. exact box_edge_shares. Qed.
Print Assumptions C72_edge_shares.
Example C72_surface_example : exists b U (mult : nat -> vec -> list nat), box_init [1; 2; 3] None None = Ok b /\ rows_of 2 3 (uniform_draw (-1) 1) U /\
  (forall pv, length pv = 6%nat -> multinomial_draw 2 6 (mult 2%nat pv)) /\ shuffles (fun P => P) /\
  box_face_pvals b = [3 / 11; 3 / 11; 3 / 22; 3 / 22; 1 / 11; 1 / 11].
Proof. exact surface_law_case. Qed.
(** the radius of a point in the ball has the distribution function rho^dim, its direction is that of the normal draw *)
Theorem C72_ball : forall dim x c,
  (2 <= dim)%nat -> length x = dim -> x <> zeros dim -> unit_draw c ->
  exists p, random_points_in_ball dim [x] [c] = Ok [p] /\ p = vscale (norm p) (vscale (/ norm x) x) /\
    forall rho, 0 <= rho -> (norm p <= rho <-> c <= rho ^ dim).
Proof. exact ball_law. Qed.
Print Assumptions C72_ball.
(** a candidate for the surface of an ellipsoid is kept with probability proportional to the area
    element at its place *)
Theorem C72_ellipsoid_surface : forall h e u phi v draw,
  ell_init h None None = Ok e -> (forall a, In a h -> 0 < a) -> length h = 3%nat -> -1 <= u <= 1 ->
  draw 0%nat 1%nat = ([ell_point [1; 1; 1] u phi], [v]) ->
  exists K, 0 < K /\ (forall u phi, -1 <= u <= 1 -> 0 < K * ell_area h u phi <= 1) /\
    ell_random_points_on_surface e 1 draw 1 = if Rle_dec v (K * ell_area h u phi) then Some (Ok [ell_point h u phi]) else None.
Proof. exact ell_law. Qed.
Print Assumptions C72_ellipsoid_surface.
Example C72_ellipsoid_example : exists e, ell_init [1; 2; 3] None None = Ok e /\ -1 <= 1 / 2 <= 1 /\ (forall a, In a [1; 2; 3] -> 0 < a).
Proof. exact ell_law_case. Qed.
