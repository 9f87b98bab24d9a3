(** Specification vocabulary about the objects of the model (through their public attributes). *)
From Verif Require Import Base.Vec Spec.Basic Model.Spatial Model.Inertial.

(** Shapes of the stored attributes of a parameter object. *)
Definition ip_ok (p : IP) : Prop := length (ip_com p) = 3%nat /\ is_mat 3 3 (ip_H p).

(** Defaults of the optional arguments of transform methods. *)
Definition rot_of (r : option mat) : mat := match r with None => eye 3 | Some r => r end.

Definition tr_of (t : option vec) : vec := match t with None => zeros 3 | Some t => t end.

(** A parameter object describes a system of point masses. *)
Definition describes (p : IP) (s : pms) : Prop :=
  has_moments s (ip_mass p) (vscale (ip_mass p) (ip_com p)) (ip_H p).

(** The point masses given by parallel arrays. *)
Definition system (masses : vec) (points : mat) : pms := combine masses points.

(** A spatial vector holds six numbers. *)
Definition sv_ok (s : SV) : Prop := length (sv_vec s) = 6%nat.
