(** Property C104: the law of a point that Ellipsoid.random_points_on_surface returns.  The loop ends with
    probability 1, and given that it has ended after k turns the mean of every function of the point is its
    average over the surface of the ellipsoid (with the transpose of the rotation: see C39). *)
From Verif Require Import Base.Vec Model.Util Model.Inertial Model.Polydd Model.Poly Model.Ellipsoid Model.Box Model.Cylinder Model.Random
  Spec.Basic Spec.Shapes Spec.ShapeObjects Spec.Integrals Spec.RandomSpec Spec.Turns Proofs.TurnsP.

Theorem C104_law : forall f h r c e A T,
  ell_init h r c = Ok e -> length h = 3%nat -> (forall a, In a h -> 0 < a) ->
  ell_surface h (fun _ => 1) A -> ell_surface h (fun p => f (move (transpose (pose_rot 3 r)) (pose_tr 3 c) p)) T ->
  exists a, 0 < a <= 1 /\ forall k,
    (forall l, length l = k -> (forall t, In t l -> turn_draw t) -> let o := ell_random_points_on_surface e 1 (surface_draw l) k in o = None \/ exists p, o = Some (Ok [p])) /\
    turns_mean k (fun l => point_stat (fun _ => 1) (ell_random_points_on_surface e 1 (surface_draw l) k)) (1 - (1 - a) ^ k) /\
    turns_mean k (fun l => point_stat f (ell_random_points_on_surface e 1 (surface_draw l) k)) (T / A * (1 - (1 - a) ^ k)).
Proof. exact surface_point_law. Qed.
Print Assumptions C104_law.
Theorem C104_unique : forall k,
  forall F I J, turns_mean k F I -> turns_mean k F J -> I = J.
Proof. exact turns_unique. Qed.
Print Assumptions C104_unique.
Example C104_example : exists e, ell_init [2; 2; 2] None (Some [1; 0; 0]) = Ok e /\ (forall a, In a [2; 2; 2] -> 0 < a) /\
  ell_surface [2; 2; 2] (fun _ => 1) (16 * PI) /\ ell_surface [2; 2; 2] (fun p => nth 0 (move (transpose (eye 3)) [1; 0; 0] p) 0) (16 * PI) /\
  turn_draw (1 / 2, 1, 1 / 3).
Proof. exact surface_case. Qed.
