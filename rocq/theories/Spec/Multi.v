(** Specification vocabulary for multibodies. *)
From Verif Require Import Base.Vec Model.Inertial Model.RigidBody Model.MultiBody Spec.Basic Spec.Objects Spec.Shapes.

(** the point set of a geometry in its own frame *)
Definition geom_set (g : geom) (x : vec) : Prop :=
  match g with
  | GBox h => in_cube h x
  | GSphere r => length x = 3%nat /\ norm x <= r
  | GCylinder r hl => exists a b c, x = [a; b; c] /\ a * a + b * b <= r * r /\ Rabs c <= hl
  | _ => False
  end.
(** its point set in the frame of the joint *)
Definition placed (g : GeomObj) (x : vec) : Prop :=
  exists u, geom_set (go_geometry g) u /\ x = move (go_rotation g) (go_translation g) u.
(** dimensions of a geometry that the code supports *)
Definition geom_ok (g : geom) : Prop :=
  match g with
  | GBox h => length h = 3%nat /\ forall x, In x h -> 0 <= x
  | GSphere r => 0 <= r
  | GCylinder r hl => 0 <= r /\ 0 <= hl
  | _ => False
  end.
Definition placement_ok (g : GeomObj) : Prop := orthogonal 3 (go_rotation g) /\ length (go_translation g) = 3%nat.
Definition inertia_ok (i : PinInertia) : Prop := 0 <= pi_mass i /\ length (pi_lever i) = 3%nat /\ is_mat 3 3 (pi_inertia i).
(** the geometries of joint j, in the order of the geometry model *)
Definition geoms_of (j : nat) (l : list GeomObj) : list GeomObj := filter (fun g => Nat.eqb (go_parent g) j) l.
(** p has the mass and centre of mass of i, and its inertia matrix about the centre of mass *)
Definition same_inertia (i : PinInertia) (p : IP) : Prop :=
  ip_mass p = pi_mass i /\ ip_com p = pi_lever i /\ ip_Ic p = Ok (pi_inertia i).
(** pinocchio's order of the ten parameters, m, h, Ixx, Ixy, Iyy, Ixz, Iyz, Izz, and rigeo's,
    m, h, Ixx, Ixy, Ixz, Iyy, Iyz, Izz, where I is about the origin of the joint frame *)
Definition pin_vector (m : R) (h : vec) (I : mat) : vec :=
  [m; nth 0 h 0; nth 1 h 0; nth 2 h 0; entry I 0 0; entry I 0 1; entry I 1 1; entry I 0 2; entry I 1 2; entry I 2 2].
(** the parameters of the links, stacked in pinocchio's order and in rigeo's *)
Definition pin_stack (ps : list IP) (v : vec) : Prop :=
  exists vs, Forall2 (fun p t => exists I, ip_I p = Ok I /\ t = pin_vector (ip_mass p) (ip_h p) I) ps vs /\ v = concat vs.
(** the frame index meant by an argument: the tool by default, an index itself, or the first frame of
    the given name *)
Definition frame_index (M : MB) (frame : option ref) (i : nat) : Prop :=
  match frame with
  | None => mb_tool M = Some i
  | Some (RIndex k) => k = i
  | Some (RName name) => nth_error (pm_frames (mb_model M)) i = Some name /\
      forall k, (k < i)%nat -> nth_error (pm_frames (mb_model M)) k <> Some name
  end.
(** arguments that mean no frame, and the exception *)
Definition frame_error (M : MB) (frame : option ref) (e : exn) : Prop :=
  (frame = None /\ mb_tool M = None /\ e = TypeError) \/
  (exists name, frame = Some (RName name) /\ ~ In name (pm_frames (mb_model M)) /\ e = ValueError).
