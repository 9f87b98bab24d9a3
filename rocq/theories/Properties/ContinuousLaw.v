(** Property C106: the laws of the box samplers (C102) and of the ellipsoid surface sampler (C104) hold for every
    continuous function of the point; the integrals that those laws name exist. *)
From Verif Require Import Base.Vec Model.Util Model.Inertial Model.Polydd Model.Poly Model.Ellipsoid Model.Box Model.Cylinder Model.Random Model.MonteCarlo
  Spec.Basic Spec.Shapes Spec.ShapeObjects Spec.Integrals Spec.RandomSpec Spec.Expect Spec.Turns Spec.Continuous Spec.Samples Proofs.ContLaw.

Theorem C106_solid : forall f h c r b,
  continuous3 f -> box_init h c r = Ok b -> (forall i, (i < 3)%nat -> 0 < nth i h 0) ->
  let g := fun u => f (move (pose_rot 3 r) (pose_tr 3 c) u) in
  exists A T T2, box_volume h (fun _ => 1) A /\ box_volume h g T /\ box_volume h (fun u => g u * g u) T2 /\
  forall n, (1 <= n)%nat ->
    estimates_of [1] n (rows_of n 3 (uniform_draw (-1) 1)) (mean_rows 3 n)
      (fun _ U => Ok (box_random_points b U)) (average f) (T / A) ((T2 / A - (T / A) ^ 2) / INR n).
Proof. exact solid_continuous. Qed.
Print Assumptions C106_solid.
Theorem C106_edges : forall f h c r b,
  continuous3 f -> box_init h c r = Ok b -> (forall i, (i < 3)%nat -> 0 < nth i h 0) ->
  let g := fun u => f (move (pose_rot 3 r) (pose_tr 3 c) u) in
  exists A T T2, box_frame h (fun _ => 1) A /\ box_frame h g T /\ box_frame h (fun u => g u * g u) T2 /\
  forall n sh, (1 <= n)%nat -> shuffles sh ->
    estimates_of (box_edge_pvals b) n (draws_of n (uniform_draw (-1) 1)) (mean_u n)
      (fun counts u => edge_points_from b n u counts sh) (average f) (T / A) ((T2 / A - (T / A) ^ 2) / INR n).
Proof. exact edges_continuous. Qed.
Print Assumptions C106_edges.
Theorem C106_surface : forall f h b,
  continuous3 f -> box_init h None None = Ok b -> (forall i, (i < 3)%nat -> 0 < nth i h 0) ->
  exists A T T2, box_shell h (fun _ => 1) A /\ box_shell h f T /\ box_shell h (fun p => f p * f p) T2 /\
  forall n sh, (2 <= n)%nat -> shuffles sh ->
    estimates_of (box_face_pvals b) n (rows_of n 3 (uniform_draw (-1) 1)) (mean_rows 3 n)
      (fun counts U => box_random_points_on_surface b n U counts sh) (average f) (T / A) ((T2 / A - (T / A) ^ 2) / INR n).
Proof. exact surface_continuous. Qed.
Print Assumptions C106_surface.
Theorem C106_ellipsoid : forall f h r c e,
  continuous3 f -> ell_init h r c = Ok e -> length h = 3%nat -> (forall a, In a h -> 0 < a) ->
  exists A T a, ell_surface h (fun _ => 1) A /\ ell_surface h (fun p => f (move (transpose (pose_rot 3 r)) (pose_tr 3 c) p)) T /\ 0 < a <= 1 /\ forall k,
    turns_mean k (fun l => point_stat (fun _ => 1) (ell_random_points_on_surface e 1 (surface_draw l) k)) (1 - (1 - a) ^ k) /\
    turns_mean k (fun l => point_stat f (ell_random_points_on_surface e 1 (surface_draw l) k)) (T / A * (1 - (1 - a) ^ k)).
Proof. exact ellipsoid_continuous. Qed.
Print Assumptions C106_ellipsoid.
Example C106_example : continuous3 (fun p => nth 0 p 0 * nth 1 p 0) /\ (exists b, box_init [1; 2; 3] (Some t0) (Some Q0) = Ok b) /\ (exists b, box_init [1; 2; 3] None None = Ok b) /\
  (exists e, ell_init [3; 2; 1] (Some Q0) (Some t0) = Ok e) /\ shuffles (@rev vec).
Proof. exact continuous_case. Qed.
