(** Properties C78-C80: multibodies (src/rigeo/unused/multibody.py). *)
From Coq Require Import String.
From Verif Require Import Base.Vec Model.Util Model.Inertial Model.Poly Model.Ellipsoid Model.Box Model.Cylinder
  Model.Realize Model.RigidBody Model.MultiBody Spec.Basic Spec.Objects Spec.Shapes Spec.ShapeObjects Spec.PolySpec Spec.Realizable Spec.Bodies
  Spec.Identify Spec.Multi Proofs.MultiP.
Import ListNotations.

(** * C78: bodies from a robot model *)
Theorem C78_shape : forall dd g s,
  pin_to_shape dd g = Ok s -> placement_ok g ->
  exists K, shape_is s K /\ forall x, length x = 3%nat -> (K x <-> placed g x).
Proof. exact pin_shape. Qed.
Print Assumptions C78_shape.
Theorem C78_shape_total : forall dd g,
  geom_ok (go_geometry g) -> placement_ok g -> exists s, pin_to_shape dd g = Ok s.
Proof. exact pin_total. Qed.
Print Assumptions C78_shape_total.
Theorem C78_shape_errors : forall dd g,
  (go_geometry g = GConvex -> pin_to_shape dd g = Raise NotImplementedError) /\
  (go_geometry g = GOther -> pin_to_shape dd g = Raise ValueError) /\
  (forall r, go_geometry g = GSphere r -> r < 0 -> pin_to_shape dd g = Raise AssertionError) /\
  (forall r hl, go_geometry g = GCylinder r hl -> r < 0 \/ hl < 0 -> pin_to_shape dd g = Raise AssertionError) /\
  (forall h, go_geometry g = GBox h -> length h = 3%nat -> (exists x, In x h /\ x < 0) -> pin_to_shape dd g = Raise AssertionError).
Proof. exact pin_errors. Qed.
Print Assumptions C78_shape_errors.
Theorem C78_bodies : forall dd model geoms tool gravity M,
  mb_init dd model geoms tool gravity = Ok M ->
  (forall g, In g geoms -> placement_ok g) -> (forall i, In i (pm_inertias model) -> inertia_ok i) ->
  NoDup (map fst (mb_bodies M)) /\
  (forall j, (exists b, dget (mb_bodies M) j = Some b) <-> exists g, In g geoms /\ go_parent g = j) /\
  (forall j b, dget (mb_bodies M) j = Some b -> exists i Ks, nth_error (pm_inertias model) j = Some i /\ same_inertia i (bd_params b) /\ ip_ok (bd_params b) /\
     Forall2 shape_is (bd_shapes b) Ks /\
     Forall2 (fun g K => forall x, length x = 3%nat -> (K x <-> placed g x)) (geoms_of j geoms) Ks).
Proof. exact mb_bodies_spec. Qed.
Print Assumptions C78_bodies.
Theorem C78_union : forall j geoms Ks x,
  length x = 3%nat -> Forall2 (fun g K => forall x, length x = 3%nat -> (K x <-> placed g x)) (geoms_of j geoms) Ks ->
  (union_of Ks x <-> exists g, In g geoms /\ go_parent g = j /\ placed g x).
Proof. exact union_placed. Qed.
Print Assumptions C78_union.
Theorem C78_total : forall dd model geoms tool gravity,
  (forall g, In g geoms -> geom_ok (go_geometry g) /\ placement_ok g /\ (go_parent g < length (pm_inertias model))%nat) ->
  (forall i, In i (pm_inertias model) -> inertia_ok i) -> (forall name, tool = Some name -> In name (pm_frames model)) ->
  (forall g, gravity = Some g -> length g = 3%nat) -> exists M, mb_init dd model geoms tool gravity = Ok M.
Proof. exact mb_total. Qed.
Print Assumptions C78_total.
Theorem C78_settings : forall dd model geoms tool gravity M,
  mb_init dd model geoms tool gravity = Ok M ->
  pm_names (mb_model M) = pm_names model /\ pm_frames (mb_model M) = pm_frames model /\ pm_nq (mb_model M) = pm_nq model /\ pm_nv (mb_model M) = pm_nv model /\
  pm_inertias (mb_model M) = pm_inertias model /\ (gravity = None -> pm_gravity (mb_model M) = pm_gravity model) /\
  (forall g, gravity = Some g -> pm_gravity (mb_model M) = g) /\ (tool = None -> mb_tool M = None) /\
  (forall name, tool = Some name -> exists i, mb_tool M = Some i /\ nth_error (pm_frames model) i = Some name /\ forall k, (k < i)%nat -> nth_error (pm_frames model) k <> Some name).
Proof. exact mb_settings. Qed.
Print Assumptions C78_settings.
Theorem C78_geometry_errors : forall dd model pre g post,
  (forall g', In g' pre -> geom_ok (go_geometry g') /\ placement_ok g' /\ (go_parent g' < length (pm_inertias model))%nat) ->
  (forall i, In i (pm_inertias model) -> inertia_ok i) ->
  ((length (pm_inertias model) <= go_parent g)%nat -> mb_init dd model (pre ++ g :: post) None None = Raise IndexError) /\
  ((go_parent g < length (pm_inertias model))%nat -> forall e, pin_to_shape dd g = Raise e -> mb_init dd model (pre ++ g :: post) None None = Raise e).
Proof. exact mb_errors. Qed.
Print Assumptions C78_geometry_errors.
Theorem C78_argument_errors : forall dd model geoms tool gravity,
  (forall name, tool = Some name -> ~ In name (pm_frames model) -> mb_init dd model geoms tool gravity = Raise ValueError) /\
  (forall g, gravity = Some g -> length g <> 3%nat -> (forall name, tool = Some name -> In name (pm_frames model)) -> mb_init dd model geoms tool gravity = Raise AssertionError).
Proof. exact mb_init_errors. Qed.
Print Assumptions C78_argument_errors.
Example C78_example : forall dd, exists model geoms M b1 b2,
  (forall g, In g geoms -> geom_ok (go_geometry g) /\ placement_ok g /\ (go_parent g < length (pm_inertias model))%nat) /\
  (forall i, In i (pm_inertias model) -> inertia_ok i) /\ length geoms = 3%nat /\
  mb_init dd model geoms (Some "tool"%string) (Some [0; 0; -1]) = Ok M /\
  get_bodies M [RName "elbow"%string; RIndex 1] = Ok [b2; b1] /\ length (bd_shapes b1) = 2%nat /\ length (bd_shapes b2) = 1%nat /\
  ip_mass (bd_params b1) = 2 /\ ip_mass (bd_params b2) = 1 /\ get_bodies M [RIndex 0] = Raise KeyError.
Proof. exact arm_example. Qed.

(** * C79: the joint torque regressor in rigeo's order of parameters *)
Theorem C79_regressor : forall regressor_pin M q v a (links : nat),
  let nv := pm_nv (mb_model M) in
  is_mat nv (10 * links) (regressor_pin q v a) -> nv = links ->
  exists Y, mb_torque_regressor regressor_pin M q v a = Ok Y /\ is_mat nv (10 * links) Y /\
    forall ps x w, length ps = links -> (forall p, In p ps -> ip_ok p) -> stacks ps x -> pin_stack ps w -> mat_vec Y x = mat_vec (regressor_pin q v a) w.
Proof. exact regressor_spec. Qed.
Print Assumptions C79_regressor.
Theorem C79_torques : forall regressor_pin M q v a (torques : list IP -> vec),
  let links := pm_nv (mb_model M) in
  is_mat links (10 * links) (regressor_pin q v a) ->
  (forall ps w, length ps = links -> (forall p, In p ps -> ip_ok p) -> pin_stack ps w -> mat_vec (regressor_pin q v a) w = torques ps) ->
  exists Y, mb_torque_regressor regressor_pin M q v a = Ok Y /\ is_mat links (10 * links) Y /\
    forall ps x, length ps = links -> (forall p, In p ps -> ip_ok p) -> stacks ps x -> mat_vec Y x = torques ps.
Proof. exact regressor_torques. Qed.
Print Assumptions C79_torques.
Theorem C79_index_error : forall regressor_pin M q v a (links : nat),
  let nv := pm_nv (mb_model M) in
  is_mat nv (10 * links) (regressor_pin q v a) -> (links < nv)%nat -> mb_torque_regressor regressor_pin M q v a = Raise IndexError.
Proof. exact regressor_fail. Qed.
Print Assumptions C79_index_error.
Theorem C79_floating_base_refuted : forall dd,
  exists model M regressor_pin q v a, mb_init dd model [] None None = Ok M /\ pm_nq model = 7%nat /\ pm_nv model = 6%nat /\
  length q = 7%nat /\ length v = 6%nat /\ length a = 6%nat /\ is_mat 6 (10 * 1) (regressor_pin q v a) /\ mb_torque_regressor regressor_pin M q v a = Raise IndexError.
Proof. exact regressor_floating_refuted. Qed.
Print Assumptions C79_floating_base_refuted.
Theorem C79_mimic_refuted : forall dd,
  exists model M regressor_pin q v a Y ps x w, mb_init dd model [] None None = Ok M /\ pm_nv model = 1%nat /\
  is_mat 1 (10 * 2) (regressor_pin q v a) /\ mb_torque_regressor regressor_pin M q v a = Ok Y /\ length ps = 2%nat /\ (forall p, In p ps -> ip_ok p) /\
  stacks ps x /\ pin_stack ps w /\ mat_vec Y x <> mat_vec (regressor_pin q v a) w.
Proof. exact regressor_mimic_refuted. Qed.
Print Assumptions C79_mimic_refuted.
Example C79_example : forall dd, exists model M regressor_pin q v a ps x, mb_init dd model [] None None = Ok M /\ pm_nv model = 2%nat /\
  is_mat 2 (10 * 2) (regressor_pin q v a) /\ length ps = 2%nat /\ (forall p, In p ps -> ip_ok p) /\ stacks ps x /\ mat_vec (regressor_pin q v a) x <> [0; 0] /\
  exists Y, mb_torque_regressor regressor_pin M q v a = Ok Y /\ Y <> regressor_pin q v a.
Proof. exact regressor_example. Qed.

(** * C80: lookups by name or index, kinematics *)
Theorem C80_get_bodies : forall dd model geoms tool gravity M joints bs,
  mb_init dd model geoms tool gravity = Ok M -> get_bodies M joints = Ok bs ->
  Forall2 (fun r b => exists j, dget (mb_bodies M) j = Some b /\
    match r with
    | RIndex i => j = i
    | RName name => nth_error (pm_names model) j = Some name /\ forall k, (k < j)%nat -> nth_error (pm_names model) k <> Some name
    end) joints bs.
Proof. exact get_bodies_names. Qed.
Print Assumptions C80_get_bodies.
Theorem C80_get_bodies_errors : forall dd model geoms tool gravity M,
  mb_init dd model geoms tool gravity = Ok M ->
  (forall pre name post, (forall n, In (RName n) pre -> In n (pm_names model)) -> ~ In name (pm_names model) ->
     get_bodies M (pre ++ RName name :: post) = Raise ValueError) /\
  (forall j, (forall g, In g geoms -> go_parent g <> j) -> get_bodies M [RIndex j] = Raise KeyError).
Proof. exact get_bodies_errors. Qed.
Print Assumptions C80_get_bodies_errors.
Theorem C80_frame_pose : forall oMf M frame,
  match frame with
  | None => (mb_tool M = None -> get_frame_pose oMf M frame = Raise TypeError) /\
      forall i R t, mb_tool M = Some i -> nth_error oMf i = Some (R, t) -> get_frame_pose oMf M frame = Ok (Arr2 R, Arr1 t)
  | Some (RIndex i) => ((length oMf <= i)%nat -> get_frame_pose oMf M frame = Raise IndexError) /\
      forall R t, nth_error oMf i = Some (R, t) -> get_frame_pose oMf M frame = Ok (Arr2 R, Arr1 t)
  | Some (RName name) => (~ In name (pm_frames (mb_model M)) -> get_frame_pose oMf M frame = Raise ValueError) /\
      forall i R t, nth_error (pm_frames (mb_model M)) i = Some name -> (forall k, (k < i)%nat -> nth_error (pm_frames (mb_model M)) k <> Some name) ->
        nth_error oMf i = Some (R, t) -> get_frame_pose oMf M frame = Ok (Arr2 R, Arr1 t)
  end.
Proof. exact frame_pose_spec. Qed.
Print Assumptions C80_frame_pose.
Theorem C80_frame_queries : forall motion jac M q frame rf,
  let rf' := match rf with None => LOCAL | Some f => f end in
  (forall i, frame_index M frame i ->
     get_frame_velocity motion M frame rf = Ok (motion i rf') /\ get_frame_classical_acceleration motion M frame rf = Ok (motion i rf') /\
     get_frame_spatial_acceleration motion M frame rf = Ok (motion i rf') /\ compute_frame_jacobian jac M q frame rf = Ok (jac q i rf')) /\
  (forall e, frame_error M frame e ->
     get_frame_velocity motion M frame rf = Raise e /\ get_frame_classical_acceleration motion M frame rf = Raise e /\
     get_frame_spatial_acceleration motion M frame rf = Raise e /\ compute_frame_jacobian jac M q frame rf = Raise e).
Proof. exact frame_queries_spec. Qed.
Print Assumptions C80_frame_queries.
Theorem C80_kinematics : forall (D : Type) (fk : vec -> vec -> vec -> D) M q v a,
  let nq := pm_nq (mb_model M) in let nv := pm_nv (mb_model M) in
  (length q = nq -> (forall x, v = Some x -> length x = nv) -> (forall x, a = Some x -> length x = nv) ->
     mb_forward_kinematics fk M q v a = Ok (fk q (match v with Some x => x | None => repeat 0 nv end) (match a with Some x => x | None => repeat 0 nv end))) /\
  (length q <> nq \/ (exists x, v = Some x /\ length x <> nv) \/ (exists x, a = Some x /\ length x <> nv) ->
     mb_forward_kinematics fk M q v a = Raise AssertionError).
Proof. exact kinematics_spec. Qed.
Print Assumptions C80_kinematics.
Theorem C80_torques : forall rnea M q v a,
  let nq := pm_nq (mb_model M) in let nv := pm_nv (mb_model M) in
  (length q = nq -> length v = nv -> length a = nv -> mb_joint_torques rnea M q v a = Ok (rnea q v a)) /\
  (length q <> nq \/ length v <> nv \/ length a <> nv -> mb_joint_torques rnea M q v a = Raise AssertionError).
Proof. exact torques_spec. Qed.
Print Assumptions C80_torques.
Theorem C80_pose_order_refuted : forall dd,
  exists model M oMf frame r, mb_init dd model [] None None = Ok M /\ get_frame_pose oMf M frame = Ok r /\
  ~ exists position orientation, r = (Arr1 position, Arr2 orientation).
Proof. exact pose_order_refuted. Qed.
Print Assumptions C80_pose_order_refuted.
(** see also C78_example *)
Example C80_frame_example : forall dd, exists model M, mb_init dd model [] (Some "tool"%string) None = Ok M /\
  frame_index M None 2 /\ frame_index M (Some (RName "base"%string)) 0 /\ frame_index M (Some (RIndex 1)) 1 /\
  frame_error M (Some (RName "gripper"%string)) ValueError /\
  exists M', mb_init dd model [] None None = Ok M' /\ frame_error M' None TypeError.
Proof. exact frames_example. Qed.
