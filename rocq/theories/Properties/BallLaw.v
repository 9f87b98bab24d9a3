(** Property C103: mean and second moments of the random points of balls, ellipsoids and cylinders. *)
From Verif Require Import Base.Vec Model.Util Model.Inertial Model.Polydd Model.Poly Model.Ellipsoid Model.Box Model.Cylinder Model.Random
  Spec.Basic Spec.Shapes Spec.ShapeObjects Spec.Integrals Spec.RandomSpec Spec.Symmetric Proofs.BallLawP.

(** * random_points_in_ball *)
Theorem C103_ball_mean : forall d law i,
  symmetric_law d law -> (2 <= d)%nat -> (i < d)%nat ->
  mean_point d law (fun x c => random_points_in_ball d [x] [c]) (fun p => nth i p 0) 0.
Proof. exact ball_first. Qed.
Print Assumptions C103_ball_mean.
Theorem C103_ball_second : forall d law i j,
  symmetric_law d law -> (2 <= d)%nat -> (i < d)%nat -> (j < d)%nat ->
  mean_point d law (fun x c => random_points_in_ball d [x] [c]) (fun p => nth i p 0 * nth j p 0) (if Nat.eqb i j then / (INR d + 2) else 0).
Proof. exact ball_second. Qed.
Print Assumptions C103_ball_second.
(** * Ellipsoid.random_points: the centre, and the second moment matrix of uniform_density_params *)
Theorem C103_ellipsoid_mean : forall h r c e law i,
  symmetric_law 3 law -> ell_init h r c = Ok e -> length h = 3%nat -> (i < 3)%nat ->
  mean_point 3 law (fun x u => ell_random_points e [x] [u]) (fun p => nth i p 0) (nth i (e_center e) 0).
Proof. exact ell_mean. Qed.
Print Assumptions C103_ellipsoid_mean.
Theorem C103_ellipsoid_second : forall h r c e law i j,
  symmetric_law 3 law -> ell_init h r c = Ok e -> length h = 3%nat -> orthogonal 3 (pose_rot 3 r) -> (i < 3)%nat -> (j < 3)%nat ->
  exists q, ell_uniform_density_params e 1 = Ok q /\
    mean_point 3 law (fun x u => ell_random_points e [x] [u]) (fun p => nth i p 0 * nth j p 0) (entry (ip_H q) i j).
Proof. exact ell_second. Qed.
Print Assumptions C103_ellipsoid_second.
(** * Cylinder.random_points *)
Theorem C103_cylinder_mean : forall L r ro co cy law i,
  symmetric_law 2 law -> cyl_init L r ro co = Ok cy -> (i < 3)%nat ->
  mean_point_z 2 law (fun z x u => cyl_random_points cy [z] [x] [u]) (fun p => nth i p 0) (nth i (pose_tr 3 co) 0).
Proof. exact cyl_mean. Qed.
Print Assumptions C103_cylinder_mean.
Theorem C103_cylinder_second : forall L r ro co cy law i j,
  symmetric_law 2 law -> cyl_init L r ro co = Ok cy -> (i < 3)%nat -> (j < 3)%nat ->
  exists q, cyl_uniform_density_params cy 1 = Ok q /\
    mean_point_z 2 law (fun z x u => cyl_random_points cy [z] [x] [u]) (fun p => nth i p 0 * nth j p 0) (entry (ip_H q) i j).
Proof. exact cyl_second. Qed.
Print Assumptions C103_cylinder_second.
(** * every point of a sample is the point of its own draws *)
Theorem C103_ball_rows : forall d X u B,
  random_points_in_ball d X u = Ok B -> length u = length X -> length B = length X /\
  forall k, (k < length X)%nat -> random_points_in_ball d [nth k X []] [nth k u 0] = Ok [nth k B []].
Proof. exact ball_rows. Qed.
Print Assumptions C103_ball_rows.
Theorem C103_ellipsoid_rows : forall e X u P,
  ell_random_points e X u = Ok P -> length u = length X -> length P = length X /\
  forall k, (k < length X)%nat -> ell_random_points e [nth k X []] [nth k u 0] = Ok [nth k P []].
Proof. exact ell_rows. Qed.
Print Assumptions C103_ellipsoid_rows.
Theorem C103_cylinder_rows : forall cy Z X u P,
  cyl_random_points cy Z X u = Ok P -> length u = length X -> length Z = length X -> length P = length X /\
  forall k, (k < length X)%nat -> cyl_random_points cy [nth k Z 0] [nth k X []] [nth k u 0] = Ok [nth k P []].
Proof. exact cyl_rows. Qed.
Print Assumptions C103_cylinder_rows.
(** * the mean is determined by the program *)
Theorem C103_unique : forall d law run stat I J,
  symmetric_law d law -> mean_point d law run stat I -> mean_point d law run stat J -> I = J.
Proof. exact mean_point_unique. Qed.
Print Assumptions C103_unique.
Example C103_example : exists e cy law law2, ell_init [3; 2; 1] (Some [[0; -1; 0]; [1; 0; 0]; [0; 0; 1]]) (Some [1; 2; 3]) = Ok e /\ orthogonal 3 [[0; -1; 0]; [1; 0; 0]; [0; 0; 1]] /\
  cyl_init 4 2 None (Some [1; 2; 3]) = Ok cy /\ symmetric_law 3 law /\ symmetric_law 2 law2.
Proof. exact ball_case. Qed.
