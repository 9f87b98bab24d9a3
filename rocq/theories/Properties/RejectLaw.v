(** Property C105: the law of a point that rejection_sample returns, and of Capsule.random_points. *)
From Verif Require Import Base.Vec Model.Util Model.Inertial Model.Polydd Model.Poly Model.Ellipsoid Model.Box Model.Cylinder Model.Random
  Spec.Basic Spec.Shapes Spec.ShapeObjects Spec.Integrals Spec.RandomSpec Spec.Uniform Spec.Expect Spec.Samples Proofs.MonteCarloR Proofs.RejectLaw Proofs.CapsLawP.

(** * rejection_sample with a box as bounding shape *)
Theorem C105_law : forall f inside h c r b V A B,
  box_init h c r = Ok b -> (forall i, (i < 3)%nat -> 0 < nth i h 0) ->
  let ins := fun p => existsb (fun s => s p) inside in
  let g := move (pose_rot 3 r) (pose_tr 3 c) in
  box_volume h (fun _ => 1) V -> box_volume h (fun u => if ins (g u) then 1 else 0) A -> 0 < A ->
  box_volume h (fun u => if ins (g u) then f (g u) else 0) B ->
  0 < A / V <= 1 /\ forall K,
    let run := fun U => rejection_sample inside (fun k _ => box_random_points b [nth k U []]) 1 K in
    (forall U, rows_of K 3 (uniform_draw (-1) 1) U -> run U = Raise ValueError \/ exists p, run U = Ok [p] /\ ins p = true) /\
    mean_rows 3 K (fun U => match run U with Raise ValueError => 1 | _ => 0 end) ((1 - A / V) ^ K) /\
    mean_rows 3 K (fun U => match run U with Ok [p] => f p | _ => 0 end) (B / A * (1 - (1 - A / V) ^ K)).
Proof. exact rejection_law. Qed.
Print Assumptions C105_law.
Example C105_half_example : exists b, box_init [1; 1; 1] None None = Ok b /\ (forall i, (i < 3)%nat -> 0 < nth i [1; 1; 1] 0) /\
  let ins := fun p => existsb (fun s : vec -> bool => s p) [fun p => Rleb 0 (nth 0 p 0)] in let g := move (pose_rot 3 None) (pose_tr 3 None) in
  box_volume [1; 1; 1] (fun _ => 1) 8 /\ box_volume [1; 1; 1] (fun u => if ins (g u) then 1 else 0) 4 /\ box_volume [1; 1; 1] (fun u => if ins (g u) then nth 0 (g u) 0 else 0) 2.
Proof. exact half_case. Qed.
(** * Capsule.random_points: the volume of the accepted region exists, each try succeeds with probability at least 1/8 *)
Theorem C105_capsule_volume : forall L r ro co c k,
  cyl_init L r ro co = Ok c -> caps_init c = Ok k -> orthogonal 3 (pose_rot 3 ro) -> / 100000000 < r ->
  exists A, box_volume [r; r; (L + 2 * r) / 2] (fun u => if caps_contains k (move (pose_rot 3 ro) (pose_tr 3 co) u) (/ 100000000) then 1 else 0) A /\ r * r * (L + r) <= A.
Proof. exact caps_volume. Qed.
Print Assumptions C105_capsule_volume.
Theorem C105_capsule : forall f L r ro co c k B,
  cyl_init L r ro co = Ok c -> caps_init c = Ok k -> orthogonal 3 (pose_rot 3 ro) -> / 100000000 < r ->
  let g := move (pose_rot 3 ro) (pose_tr 3 co) in let N := Z.to_nat 10000 in let h := [r; r; (L + 2 * r) / 2] in
  let ins := fun u => caps_contains k (g u) (/ 100000000) in
  box_volume h (fun u => if ins u then f (g u) else 0) B ->
  exists A a, box_volume h (fun u => if ins u then 1 else 0) A /\ 0 < A /\ 1 / 8 <= a <= 1 /\ (1 - a) ^ N <= (7 / 8) ^ N /\
    let run := fun U => caps_random_points k (fun t _ => [nth t U []]) 1 in
    (forall U, rows_of N 3 (uniform_draw (-1) 1) U -> run U = Raise ValueError \/ exists p, run U = Ok [p] /\ caps_contains k p (/ 100000000) = true) /\
    mean_rows 3 N (fun U => match run U with Raise ValueError => 1 | _ => 0 end) ((1 - a) ^ N) /\
    mean_rows 3 N (fun U => match run U with Ok [p] => f p | _ => 0 end) (B / A * (1 - (1 - a) ^ N)).
Proof. exact capsule_law. Qed.
Print Assumptions C105_capsule.
Theorem C105_unique : forall d n F I J,
  mean_rows d n F I -> mean_rows d n F J -> I = J.
Proof. exact mean_rows_unique. Qed.
Print Assumptions C105_unique.
Example C105_capsule_example : exists c k B, cyl_init 2 1 (Some Q0) (Some t0) = Ok c /\ caps_init c = Ok k /\ orthogonal 3 (pose_rot 3 (Some Q0)) /\ / 100000000 < 1 /\
  box_volume [1; 1; (2 + 2 * 1) / 2] (fun u => if caps_contains k (move (pose_rot 3 (Some Q0)) (pose_tr 3 (Some t0)) u) (/ 100000000) then 1 else 0) B.
Proof. exact capsule_case. Qed.
