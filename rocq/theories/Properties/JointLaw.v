(** Property C107: the joint law of the points that rejection_sample, Capsule.random_points and
    Ellipsoid.random_points_on_surface return.  A turn of the loop draws one candidate for every point that
    is still missing.  All n points are found within K turns with probability (1 - (1 - a)^K)^n, and given
    this the points are independent and each has the uniform law: the mean of a product of functions of the
    single points is the product of the averages of these functions. *)
From Verif Require Import Base.Vec Model.Util Model.Inertial Model.Polydd Model.Poly Model.Ellipsoid Model.Box Model.Cylinder Model.Random
  Spec.Basic Spec.Shapes Spec.ShapeObjects Spec.Integrals Spec.RandomSpec Spec.Uniform Spec.Expect Spec.Turns Spec.Blocks Proofs.BlocksP Proofs.BlocksS.

(** * rejection_sample with a box as bounding shape *)
Theorem C107_rejection : forall inside h c r b V A fs Bs,
  box_init h c r = Ok b -> (forall i, (i < 3)%nat -> 0 < nth i h 0) ->
  let ins := fun p => existsb (fun s => s p) inside in
  let g := move (pose_rot 3 r) (pose_tr 3 c) in
  box_volume h (fun _ => 1) V -> box_volume h (fun u => if ins (g u) then 1 else 0) A -> 0 < A ->
  Forall2 (fun f B => box_volume h (fun u => if ins (g u) then f (g u) else 0) B) fs Bs ->
  let n := length fs in forall K,
    let run := fun l => rejection_sample inside (fun t m => box_random_points b (firstn m (nth t l []))) n K in
    let mean := blocks_mean (rows_of n 3 (uniform_draw (-1) 1)) (mean_rows 3 n) K in
    mean (fun l => match run l with Ok P => 1 | _ => 0 end) ((1 - (1 - A / V) ^ K) ^ n) /\
    mean (fun l => match run l with Ok P => product fs P | _ => 0 end) (rprod (map (fun B => B / A) Bs) * (1 - (1 - A / V) ^ K) ^ n).
Proof. exact joint_law. Qed.
Print Assumptions C107_rejection.
Example C107_half_example : exists b, box_init [1; 1; 1] None None = Ok b /\ (forall i, (i < 3)%nat -> 0 < nth i [1; 1; 1] 0) /\
  let ins := fun p => existsb (fun s : vec -> bool => s p) [fun p => Rleb 0 (nth 0 p 0)] in let g := move (pose_rot 3 None) (pose_tr 3 None) in
  box_volume [1; 1; 1] (fun _ => 1) 8 /\ box_volume [1; 1; 1] (fun u => if ins (g u) then 1 else 0) 4 /\
  Forall2 (fun f B => box_volume [1; 1; 1] (fun u => if ins (g u) then f (g u) else 0) B) [(fun p => nth 0 p 0); (fun _ => 1)] [2; 4].
Proof. exact joint_case. Qed.
(** * Capsule.random_points *)
Theorem C107_capsule : forall L r ro co c k fs Bs,
  cyl_init L r ro co = Ok c -> caps_init c = Ok k -> orthogonal 3 (pose_rot 3 ro) -> / 100000000 < r ->
  let g := move (pose_rot 3 ro) (pose_tr 3 co) in let K := Z.to_nat 10000 in let h := [r; r; (L + 2 * r) / 2] in
  let ins := fun u => caps_contains k (g u) (/ 100000000) in
  Forall2 (fun f B => box_volume h (fun u => if ins u then f (g u) else 0) B) fs Bs ->
  let n := length fs in
  exists A a, box_volume h (fun u => if ins u then 1 else 0) A /\ 0 < A /\ 1 / 8 <= a <= 1 /\
    let run := fun l => caps_random_points k (fun t m => firstn m (nth t l [])) n in
    let mean := blocks_mean (rows_of n 3 (uniform_draw (-1) 1)) (mean_rows 3 n) K in
    mean (fun l => match run l with Ok P => 1 | _ => 0 end) ((1 - (1 - a) ^ K) ^ n) /\
    mean (fun l => match run l with Ok P => product fs P | _ => 0 end) (rprod (map (fun B => B / A) Bs) * (1 - (1 - a) ^ K) ^ n).
Proof. exact capsule_joint. Qed.
Print Assumptions C107_capsule.
Theorem C107_unique : forall n K F I J,
  blocks_mean (rows_of n 3 (uniform_draw (-1) 1)) (mean_rows 3 n) K F I -> blocks_mean (rows_of n 3 (uniform_draw (-1) 1)) (mean_rows 3 n) K F J -> I = J.
Proof. exact joint_unique. Qed.
Print Assumptions C107_unique.
(** * Ellipsoid.random_points_on_surface *)
Theorem C107_surface : forall h r c e A fs Ts,
  ell_init h r c = Ok e -> length h = 3%nat -> (forall a, In a h -> 0 < a) ->
  ell_surface h (fun _ => 1) A -> Forall2 (fun f T => ell_surface h (fun p => f (move (transpose (pose_rot 3 r)) (pose_tr 3 c) p)) T) fs Ts ->
  let n := length fs in
  exists a, 0 < a <= 1 /\ forall K,
    let run := fun l => ell_random_points_on_surface e n (surface_blocks l) K in
    let mean := blocks_mean (fun B => length B = n /\ (forall t, In t B -> turn_draw t)) (turns_mean n) K in
    mean (fun l => match run l with Some (Ok P) => 1 | _ => 0 end) ((1 - (1 - a) ^ K) ^ n) /\
    mean (fun l => match run l with Some (Ok P) => product fs P | _ => 0 end) (rprod (map (fun T => T / A) Ts) * (1 - (1 - a) ^ K) ^ n).
Proof. exact surface_joint. Qed.
Print Assumptions C107_surface.
Theorem C107_surface_unique : forall n K F I J,
  let mean := blocks_mean (fun B => length B = n /\ (forall t, In t B -> turn_draw t)) (turns_mean n) K in mean F I -> mean F J -> I = J.
Proof. exact surface_joint_unique. Qed.
Print Assumptions C107_surface_unique.
Example C107_surface_example : exists e, ell_init [2; 2; 2] None (Some [1; 0; 0]) = Ok e /\ (forall a, In a [2; 2; 2] -> 0 < a) /\ ell_surface [2; 2; 2] (fun _ => 1) (16 * PI) /\
  Forall2 (fun f T => ell_surface [2; 2; 2] (fun p => f (move (transpose (eye 3)) [1; 0; 0] p)) T) [(fun p => nth 0 p 0); (fun _ => 1)] [16 * PI; 16 * PI].
Proof. exact surface_joint_case. Qed.
