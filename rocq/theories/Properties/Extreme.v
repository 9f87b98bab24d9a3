(** Property C99: the extreme values compared by scripts/experiments/generate_drip_data.py and
    process_drip_data.py: what the realizability constraints allow in each direction. *)
From Verif Require Import Base.Vec Model.Util Model.Constraint Model.Inertial Model.Polydd Model.Poly Model.Ellipsoid Model.Box Model.Cylinder
  Model.Realize Model.RigidBody Model.Drip Spec.Basic Spec.Objects Spec.Shapes Spec.ShapeObjects Spec.PolySpec Spec.Realizable Spec.Bodies
  Spec.Quadratic Spec.Cone Spec.Extreme Proofs.Drip Proofs.DripV Proofs.DripW Proofs.DripX.

(** * the greatest value of a quadratic function on the shape *)
Theorem C99_largest : forall s K D,
  shape_is s K -> is_mat 4 4 D -> exists q, largest_on K D q.
Proof. exact largest_exists. Qed.
Print Assumptions C99_largest.
(** * the problem with the custom constraints *)
Theorem C99_box_custom : forall h c r b mass D q,
  box_init h c r = Ok b -> orthogonal 3 (pose_rot 3 r) -> 0 <= mass -> is_mat 4 4 D -> largest_on (box_set h (pose_rot 3 r) (pose_tr 3 c)) D q ->
  exists v, drip_max (box_drip_custom b mass) D v /\ mass * q <= v /\ ((forall i, (i < 3)%nat -> 0 <= qdir D (col i (pose_rot 3 r))) -> v = mass * q).
Proof. exact box_custom_value. Qed.
Print Assumptions C99_box_custom.
Theorem C99_cylinder_custom : forall L R0 ro co c ut mass D q,
  cyl_init L R0 ro co = Ok c -> orthogonal 3 (pose_rot 3 ro) -> (R0 = 0 \/ / 100000000 < R0) -> 0 <= mass -> is_mat 4 4 D ->
  largest_on (cyl_set L R0 (pose_rot 3 ro) (pose_tr 3 co)) D q -> drip_max (cyl_drip_custom ut c mass) D (mass * q).
Proof. exact cyl_custom_value. Qed.
Print Assumptions C99_cylinder_custom.
(** * the problems with the moment constraints *)
Theorem C99_box_moment : forall h c r b mass D q d,
  box_init h c r = Ok b -> orthogonal 3 (pose_rot 3 r) -> 0 <= mass -> is_mat 4 4 D -> largest_on (box_set h (pose_rot 3 r) (pose_tr 3 c)) D q -> (2 <= d)%nat ->
  exists v, drip_value (box_drip_moment b mass d) D v /\ mass * q <= v.
Proof. exact box_moment_value. Qed.
Print Assumptions C99_box_moment.
Theorem C99_cylinder_moment : forall L R0 ro co c mass D q d,
  cyl_init L R0 ro co = Ok c -> orthogonal 3 (pose_rot 3 ro) -> 0 <= mass -> is_mat 4 4 D -> largest_on (cyl_set L R0 (pose_rot 3 ro) (pose_tr 3 co)) D q -> (2 <= d)%nat ->
  exists v, drip_value (cyl_drip_moment c mass d) D v /\ mass * q <= v.
Proof. exact cyl_moment_value. Qed.
Print Assumptions C99_cylinder_moment.
Theorem C99_box_order_two : forall h c r b mass D,
  box_init h c r = Ok b -> orthogonal 3 (pose_rot 3 r) -> 0 <= mass -> is_mat 4 4 D -> exists v, drip_max (box_drip_moment b mass 2) D v.
Proof. exact box_order_two. Qed.
Print Assumptions C99_box_order_two.
Theorem C99_box_orders : forall h c r b mass D d d' v v',
  box_init h c r = Ok b -> orthogonal 3 (pose_rot 3 r) -> (0 < d <= d')%nat ->
  drip_value (box_drip_moment b mass d) D v -> drip_value (box_drip_moment b mass d') D v' -> v' <= v.
Proof. exact box_moment_mono. Qed.
Print Assumptions C99_box_orders.
Theorem C99_cylinder_orders : forall c mass D d d' v v',
  (0 < d <= d')%nat -> drip_value (cyl_drip_moment c mass d) D v -> drip_value (cyl_drip_moment c mass d') D v' -> v' <= v.
Proof. exact cyl_moment_mono. Qed.
Print Assumptions C99_cylinder_orders.
Theorem C99_box_limit : forall h c r b mass D q,
  box_init h c r = Ok b -> orthogonal 3 (pose_rot 3 r) -> 0 <= mass -> is_mat 4 4 D -> largest_on (box_set h (pose_rot 3 r) (pose_tr 3 c)) D q ->
  forall e, 0 < e -> exists d0, forall d v, (d0 <= d)%nat -> drip_value (box_drip_moment b mass d) D v -> v <= mass * q + e.
Proof. exact box_order_limit. Qed.
Print Assumptions C99_box_limit.
Theorem C99_cylinder_limit : forall L R0 ro co c mass D q,
  cyl_init L R0 ro co = Ok c -> orthogonal 3 (pose_rot 3 ro) -> 0 <= mass -> is_mat 4 4 D -> largest_on (cyl_set L R0 (pose_rot 3 ro) (pose_tr 3 co)) D q ->
  forall e, 0 < e -> exists d0, forall d v, (d0 <= d)%nat -> drip_value (cyl_drip_moment c mass d) D v -> v <= mass * q + e.
Proof. exact cyl_order_limit. Qed.
Print Assumptions C99_cylinder_limit.
Theorem C99_box_order_one : forall h c r b mass,
  box_init h c r = Ok b -> orthogonal 3 (pose_rot 3 r) -> 0 < mass ->
  forall D e, is_mat 4 4 D -> length e = 3%nat -> 0 < qdir D e -> forall w, exists v, w <= v /\ reached (box_drip_moment b mass 1) D v.
Proof. exact box_order_one. Qed.
Print Assumptions C99_box_order_one.
Theorem C99_cylinder_order_one : forall L R0 ro co c mass,
  cyl_init L R0 ro co = Ok c -> orthogonal 3 (pose_rot 3 ro) -> 0 < mass ->
  forall D, is_mat 4 4 D -> 0 < qdir D (col 2 (pose_rot 3 ro)) -> forall w, exists v, w <= v /\ reached (cyl_drip_moment c mass 1) D v.
Proof. exact cyl_order_one. Qed.
Print Assumptions C99_cylinder_order_one.
(** * process_drip_data.py:18-19: the custom values should always be at least as tight *)
Theorem C99_cylinder_tighter : forall L R0 ro co c ut mass D d v w,
  cyl_init L R0 ro co = Ok c -> orthogonal 3 (pose_rot 3 ro) -> (R0 = 0 \/ / 100000000 < R0) -> 0 <= mass -> is_mat 4 4 D -> (0 < d)%nat ->
  drip_value (cyl_drip_custom ut c mass) D v -> drip_value (cyl_drip_moment c mass d) D w -> v <= w.
Proof. exact cyl_tighter. Qed.
Print Assumptions C99_cylinder_tighter.
(** for boxes the opposite holds in some direction, by an amount that does not depend on the order *)
Theorem C99_box_looser : forall h c r b mass,
  box_init h c r = Ok b -> orthogonal 3 (pose_rot 3 r) -> (forall i, (i < 3)%nat -> 0 < nth i h 0) -> 0 < mass ->
  exists D, is_mat 4 4 D /\ symmetric 4 D /\ forall d v w, (2 <= d)%nat -> drip_value (box_drip_custom b mass) D v -> drip_value (box_drip_moment b mass d) D w -> w + 45 * mass <= v.
Proof. exact box_looser. Qed.
Print Assumptions C99_box_looser.
Theorem C99_box_tighter_refuted : exists b D v w2 w3, box_init [1 / 2; 1; 3 / 2] None None = Ok b /\ is_mat 4 4 D /\ symmetric 4 D /\
  drip_value (box_drip_custom b 1) D v /\ drip_value (box_drip_moment b 1 2) D w2 /\ drip_value (box_drip_moment b 1 3) D w3 /\ w2 < v /\ w3 < v.
Proof. exact tighter_refuted. Qed.
Print Assumptions C99_box_tighter_refuted.
(** and order two is not exact either *)
Theorem C99_order_two_refuted : exists b c D, box_init [1; 1; 1] None None = Ok b /\ cyl_init 2 1 None None = Ok c /\ is_mat 4 4 D /\ symmetric 4 D /\ forall ut mass, 0 < mass ->
  drip_max (box_drip_custom b mass) D 0 /\ (exists w, drip_max (box_drip_moment b mass 2) D w /\ 0 < w) /\ drip_max (cyl_drip_custom ut c mass) D 0 /\ (exists w, drip_value (cyl_drip_moment c mass 2) D w /\ 0 < w).
Proof. exact incomparable_refuted. Qed.
Print Assumptions C99_order_two_refuted.
Example C99_example : forall ut, exists b c D, box_init [1 / 2; 1; 3 / 2] None None = Ok b /\ cyl_init 1 (1 / 2) None None = Ok c /\ orthogonal 3 (pose_rot 3 None) /\ (1 / 2 = 0 \/ / 100000000 < 1 / 2) /\ is_mat 4 4 D /\ symmetric 4 D /\
  largest_on (box_set [1 / 2; 1; 3 / 2] (pose_rot 3 None) (pose_tr 3 None)) D (5 / 2) /\ (forall i, (i < 3)%nat -> 0 <= qdir D (col i (pose_rot 3 None))) /\ drip_max (box_drip_custom b 1) D (5 / 2) /\
  largest_on (cyl_set 1 (1 / 2) (pose_rot 3 None) (pose_tr 3 None)) D (1 / 2) /\ drip_max (cyl_drip_custom ut c 1) D (1 / 2) /\ 0 < qdir D (col 2 (pose_rot 3 None)) /\
  (exists v, drip_value (box_drip_moment b 1 2) D v) /\ (exists v, drip_value (cyl_drip_moment c 1 3) D v).
Proof. exact drip_example. Qed.
