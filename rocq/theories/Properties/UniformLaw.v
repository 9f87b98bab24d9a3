(** Property C102: the random points of a box have the uniform law.  For every function f whose integrals
    exist, the average of f over the sampled points has the average of f over the box, its faces or its
    edges as its mean, and the mean squared deviation of independent points. *)
From Verif Require Import Base.Vec Model.Util Model.Inertial Model.Polydd Model.Poly Model.Box Model.Random Model.MonteCarlo
  Spec.Basic Spec.Shapes Spec.Integrals Spec.RandomSpec Spec.Expect Spec.ShapeObjects Proofs.SamplingP.

(** * random_points, at every pose *)
Theorem C102_solid : forall f h c r b T T2 A,
  box_init h c r = Ok b -> (forall i, (i < 3)%nat -> 0 < nth i h 0) ->
  let g := fun u => f (move (pose_rot 3 r) (pose_tr 3 c) u) in
  box_volume h (fun _ => 1) A -> box_volume h g T -> box_volume h (fun u => g u * g u) T2 ->
  forall n, (1 <= n)%nat ->
    estimates_of [1] n (rows_of n 3 (uniform_draw (-1) 1)) (mean_rows 3 n)
      (fun _ U => Ok (box_random_points b U)) (average f) (T / A) ((T2 / A - (T / A) ^ 2) / INR n).
Proof. exact solid_law_of. Qed.
Print Assumptions C102_solid.
(** * random_points_on_edges, at every pose *)
Theorem C102_edges : forall f h c r b T T2 A,
  box_init h c r = Ok b -> (forall i, (i < 3)%nat -> 0 < nth i h 0) ->
  let g := fun u => f (move (pose_rot 3 r) (pose_tr 3 c) u) in
  box_frame h (fun _ => 1) A -> box_frame h g T -> box_frame h (fun u => g u * g u) T2 ->
  forall n sh, (1 <= n)%nat -> shuffles sh ->
    estimates_of (box_edge_pvals b) n (draws_of n (uniform_draw (-1) 1)) (mean_u n)
      (fun counts u => edge_points_from b n u counts sh) (average f) (T / A) ((T2 / A - (T / A) ^ 2) / INR n).
Proof. exact edges_law_of. Qed.
Print Assumptions C102_edges.
(** * random_points_on_surface, at the identity pose (at other poses the points leave the surface: C39) *)
Theorem C102_surface : forall f h b T T2 A,
  box_init h None None = Ok b -> (forall i, (i < 3)%nat -> 0 < nth i h 0) ->
  box_shell h (fun _ => 1) A -> box_shell h f T -> box_shell h (fun p => f p * f p) T2 ->
  forall n sh, (2 <= n)%nat -> shuffles sh ->
    estimates_of (box_face_pvals b) n (rows_of n 3 (uniform_draw (-1) 1)) (mean_rows 3 n)
      (fun counts U => box_random_points_on_surface b n U counts sh) (average f) (T / A) ((T2 / A - (T / A) ^ 2) / INR n).
Proof. exact surface_law_of. Qed.
Print Assumptions C102_surface.
(** * the law is determined by the program *)
Theorem C102_unique_rows : forall pv n run stat t v t' v',
  estimates_of pv n (rows_of n 3 (uniform_draw (-1) 1)) (mean_rows 3 n) run stat t v ->
  estimates_of pv n (rows_of n 3 (uniform_draw (-1) 1)) (mean_rows 3 n) run stat t' v' -> t = t' /\ v = v'.
Proof. exact rows_law_unique. Qed.
Print Assumptions C102_unique_rows.
Theorem C102_unique_draws : forall pv n run stat t v t' v',
  estimates_of pv n (draws_of n (uniform_draw (-1) 1)) (mean_u n) run stat t v ->
  estimates_of pv n (draws_of n (uniform_draw (-1) 1)) (mean_u n) run stat t' v' -> t = t' /\ v = v'.
Proof. exact draws_law_unique. Qed.
Print Assumptions C102_unique_draws.
Example C102_example : exists b, box_init [1; 3 / 4; 1 / 2] (Some [1; 2; 3]) None = Ok b /\
  let g := fun u => nth 0 (move (eye 3) [1; 2; 3] u) 0 in
  box_frame [1; 3 / 4; 1 / 2] (fun _ => 1) 18 /\ box_frame [1; 3 / 4; 1 / 2] g 18 /\ box_frame [1; 3 / 4; 1 / 2] (fun u => g u * g u) (92 / 3) /\
  box_volume [1; 3 / 4; 1 / 2] (fun _ => 1) 3 /\ box_volume [1; 3 / 4; 1 / 2] g 3 /\ box_volume [1; 3 / 4; 1 / 2] (fun u => g u * g u) 4 /\ shuffles (@rev vec).
Proof. exact sampled_box. Qed.
