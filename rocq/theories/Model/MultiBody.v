(** Model of /repo/src/rigeo/unused/multibody.py.  Like identify.py the file cannot be imported as it
    stands (its relative imports do not exist below unused/); the model reads them as rigeo's.
    Pinocchio's and HPP-FCL's objects are records of the attributes the code reads; their
    algorithms (rnea, computeJointTorqueRegressor, forwardKinematics) are arguments.  Not modelled:
    URDF parsing (87-123) and the velocity, acceleration and Jacobian getters (332-374), which
    hand an index to pinocchio. *)
From Coq Require Import String.
From Verif Require Import Base.Vec Model.Util Model.Inertial Model.Poly Model.Ellipsoid Model.Box Model.Cylinder Model.RigidBody.
Import ListNotations.

(** hppfcl geometries by node type: GEOM_CONVEX, GEOM_BOX, GEOM_SPHERE, GEOM_CYLINDER, and all others *)
Inductive geom := GConvex | GBox (halfSide : vec) | GSphere (radius : R) | GCylinder (radius halfLength : R) | GOther.
(** pinocchio.GeometryObject: geometry, placement (rotation, translation) and parentJoint *)
Record GeomObj := { go_geometry : geom; go_rotation : mat; go_translation : vec; go_parent : nat }.
(** pinocchio.Inertia: mass, lever, and inertia about the centre of mass *)
Record PinInertia := { pi_mass : R; pi_lever : vec; pi_inertia : mat }.
(** pinocchio.Model: names has one entry per joint, the first for the universe *)
Record PinModel := { pm_names : list string; pm_frames : list string; pm_nq : nat; pm_nv : nat;
  pm_inertias : list PinInertia; pm_gravity : vec }.

(** multibody.py:15-28 [_hppfcl_to_shape] *)
Definition hppfcl_to_shape (g : geom) : res shp :=
  match g with
  | GConvex => Raise NotImplementedError
  | GBox halfSide => let* b := box_init halfSide None None in Ok (SBox b)
  | GSphere radius => let* e := ell_sphere radius None in Ok (SEll e)
  | GCylinder radius halfLength => let* c := cyl_init (2 * halfLength) radius None None in Ok (SCyl c)
  | GOther => Raise ValueError
  end.
(** multibody.py:31-35 [_pin_to_shape]; none of these shapes' transforms uses the double description
    library *)
Definition pin_to_shape (dd : DD) (g : GeomObj) : res shp :=
  let* s := hppfcl_to_shape (go_geometry g) in
  shp_transform dd s (Some (go_rotation g)) (Some (go_translation g)).

(** std::vector lookup from Python by a non-negative index *)
Definition at_index {A} (l : list A) (i : nat) : res A :=
  match nth_error l i with Some a => Ok a | None => Raise IndexError end.
(** position of the first occurrence of a name: model.getJointId, model.getFrameId *)
Fixpoint index_of (name : string) (l : list string) : option nat :=
  match l with
  | [] => None
  | a :: r => if String.eqb name a then Some 0%nat else option_map S (index_of name r)
  end.
(** multibody.py:143-145 [get_joint_index] and 165-167 [get_frame_index] *)
Definition get_index (l : list string) (name : string) : res nat :=
  match index_of name l with Some i => Ok i | None => Raise ValueError end.

(** a dict with integer keys, in insertion order *)
Definition idict (A : Type) := list (nat * A).
Fixpoint dget {A} (d : idict A) (k : nat) : option A :=
  match d with
  | [] => None
  | (k', a) :: r => if Nat.eqb k k' then Some a else dget r k
  end.
Fixpoint dput {A} (d : idict A) (k : nat) (a : A) : idict A :=
  match d with
  | [] => [(k, a)]
  | (k', a') :: r => if Nat.eqb k k' then (k', a) :: r else (k', a') :: dput r k a
  end.

(** multibody.py:69-85: the body of the loop over the geometries *)
Definition add_geom (dd : DD) (inertias : list PinInertia) (bodies : idict Body) (g : GeomObj) : res (idict Body) :=
  let joint_idx := go_parent g in
  let* inertia := at_index inertias joint_idx in
  let* shape := pin_to_shape dd g in
  match dget bodies joint_idx with
  | Some b => Ok (dput bodies joint_idx {| bd_shapes := bd_shapes b ++ [shape]; bd_params := bd_params b |})
  | None =>
      let* params := ip_init (pi_mass inertia) None (Some (pi_lever inertia)) None (Some (pi_inertia inertia)) true in
      let* b := rb_init (ShapeList [shape]) (Some params) in
      Ok (dput bodies joint_idx b)
  end.
Fixpoint add_geoms (dd : DD) (inertias : list PinInertia) (bodies : idict Body) (l : list GeomObj) : res (idict Body) :=
  match l with
  | [] => Ok bodies
  | g :: r => let* bodies := add_geom dd inertias bodies g in add_geoms dd inertias bodies r
  end.
(** multibody.py:41-85 [__init__]; the tool's index, the model with its gravity, and the bodies *)
Record MB := { mb_model : PinModel; mb_tool : option nat; mb_bodies : idict Body }.
Definition mb_init (dd : DD) (model : PinModel) (geoms : list GeomObj) (tool_link_name : option string) (gravity : option vec) : res MB :=
  let* tool := match tool_link_name with
               | Some name => let* i := get_index (pm_frames model) name in Ok (Some i)
               | None => Ok None
               end in
  let* model := match gravity with
                | Some g => let* _ := assert_ (is_vecb 3 g) in
                    Ok {| pm_names := pm_names model; pm_frames := pm_frames model; pm_nq := pm_nq model; pm_nv := pm_nv model;
                          pm_inertias := pm_inertias model; pm_gravity := g |}
                | None => Ok model
                end in
  let* bodies := add_geoms dd (pm_inertias model) [] geoms in
  Ok {| mb_model := model; mb_tool := tool; mb_bodies := bodies |}.

(** joints and frames are given by name or by a non-negative index *)
Inductive ref := RName (name : string) | RIndex (i : nat).
(** multibody.py:169-173 [_resolve_joint_index] *)
Definition resolve_joint (M : MB) (joint : ref) : res nat :=
  match joint with RName name => get_index (pm_names (mb_model M)) name | RIndex i => Ok i end.
(** multibody.py:175-181 [_resolve_frame_index] *)
Definition resolve_frame (M : MB) (frame : option ref) : res (option nat) :=
  match frame with
  | None => Ok (mb_tool M)
  | Some (RName name) => let* i := get_index (pm_frames (mb_model M)) name in Ok (Some i)
  | Some (RIndex i) => Ok (Some i)
  end.
(** multibody.py:183-198 [get_bodies]: all names are resolved before any body is looked up *)
Definition get_bodies (M : MB) (joints : list ref) : res (list Body) :=
  let* indices := mapM (resolve_joint M) joints in
  mapM (fun idx => match dget (mb_bodies M) idx with Some b => Ok b | None => Raise KeyError end) indices.

(** multibody.py:225-250 [compute_forward_kinematics]; [fk] is pinocchio's, its result the new data *)
Definition mb_forward_kinematics {D : Type} (fk : vec -> vec -> vec -> D) (M : MB) (q : vec) (v a : option vec) : res D :=
  let v := match v with None => zeros (pm_nv (mb_model M)) | Some v => v end in
  let a := match a with None => zeros (pm_nv (mb_model M)) | Some a => a end in
  let* _ := assert_ (is_vecb (pm_nq (mb_model M)) q) in
  let* _ := assert_ (is_vecb (pm_nv (mb_model M)) v) in
  let* _ := assert_ (is_vecb (pm_nv (mb_model M)) a) in
  Ok (fk q v a).
(** multibody.py:252-275 [compute_joint_torques] *)
Definition mb_joint_torques (rnea : vec -> vec -> vec -> vec) (M : MB) (q v a : vec) : res vec :=
  let* _ := assert_ (is_vecb (pm_nq (mb_model M)) q) in
  let* _ := assert_ (is_vecb (pm_nv (mb_model M)) v) in
  let* _ := assert_ (is_vecb (pm_nv (mb_model M)) a) in
  Ok (rnea q v a).

(** Y[:, k] = x *)
Definition set_col (Y : mat) (k : nat) (x : vec) : res mat :=
  if Nat.ltb k (ncols Y) then Ok (map2 (fun r a => set_nth r k a) Y x) else Raise IndexError.
(** Y[:, k] *)
Definition get_col (Y : mat) (k : nat) : res vec :=
  if Nat.ltb k (ncols Y) then Ok (col k Y) else Raise IndexError.
(** multibody.py:303-307: the columns of Ixz and Iyy of each link are exchanged *)
Definition swap_link (Y_pin Y : mat) (i : nat) : res mat :=
  let* c7 := get_col Y_pin (i * 10 + 7) in
  let* Y := set_col Y (i * 10 + 6) c7 in
  let* c6 := get_col Y_pin (i * 10 + 6) in
  set_col Y (i * 10 + 7) c6.
Fixpoint swap_links (Y_pin Y : mat) (l : list nat) : res mat :=
  match l with
  | [] => Ok Y
  | i :: r => let* Y := swap_link Y_pin Y i in swap_links Y_pin Y r
  end.
(** multibody.py:277-307 [compute_joint_torque_regressor] *)
Definition mb_torque_regressor (regressor_pin : vec -> vec -> vec -> mat) (M : MB) (q v a : vec) : res mat :=
  let Y_pin := regressor_pin q v a in
  swap_links Y_pin Y_pin (seq 0 (pm_nv (mb_model M))).

(** multibody.py:309-330 [get_frame_pose]; [oMf] is data.oMf, a rotation and a translation per frame.
    Indexing it with None raises TypeError. *)
Inductive array := Arr1 (x : vec) | Arr2 (A : mat).
Definition get_frame_pose (oMf : list (mat * vec)) (M : MB) (frame : option ref) : res (array * array) :=
  let* idx := resolve_frame M frame in
  match idx with
  | None => Raise TypeError
  | Some i => let* pose := at_index oMf i in Ok (Arr2 (fst pose), Arr1 (snd pose))
  end.
(** pinocchio.ReferenceFrame *)
Inductive ref_frame := LOCAL | WORLD | LOCAL_WORLD_ALIGNED.
(** multibody.py:332-341, 343-352, 354-363 [get_frame_velocity, get_frame_classical_acceleration,
    get_frame_spatial_acceleration].  [motion idx rf] is what the pinocchio function of that name
    returns, a linear and an angular part; called with None as the index it raises
    Boost.Python.ArgumentError, a subclass of TypeError. *)
Definition frame_motion (motion : nat -> ref_frame -> vec * vec) (M : MB) (frame : option ref) (expressed_in : option ref_frame) : res (vec * vec) :=
  let rf := match expressed_in with None => LOCAL | Some f => f end in
  let* idx := resolve_frame M frame in
  match idx with
  | None => Raise TypeError
  | Some i => let V := motion i rf in Ok (fst V, snd V)
  end.
Definition get_frame_velocity := frame_motion.
Definition get_frame_classical_acceleration := frame_motion.
Definition get_frame_spatial_acceleration := frame_motion.
(** multibody.py:365-374 [compute_frame_jacobian]; [jac] is pinocchio.computeFrameJacobian *)
Definition compute_frame_jacobian (jac : vec -> nat -> ref_frame -> mat) (M : MB) (q : vec) (frame : option ref) (expressed_in : option ref_frame) : res mat :=
  let rf := match expressed_in with None => LOCAL | Some f => f end in
  let* idx := resolve_frame M frame in
  match idx with
  | None => Raise TypeError
  | Some i => Ok (jac q i rf)
  end.
