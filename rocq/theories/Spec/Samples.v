(** Concrete objects used by the examples that accompany the theorems. *)
From Verif Require Import Base.Vec Spec.Basic Model.Spatial Model.Inertial.

(** three point masses, not in a plane through the origin *)
Definition s0 : pms := [(1, [1; 0; 0]); (2, [0; 1; 0]); (1, [0; 0; 2])].
(** their parameters *)
Definition p0 : IP :=
  {| ip_mass := 4; ip_com := [1 / 4; 1 / 2; 1 / 2]; ip_H := [[1; 0; 0]; [0; 2; 0]; [0; 0; 4]] |}.
(** a quarter turn about z *)
Definition Q0 : mat := [[0; -1; 0]; [1; 0; 0]; [0; 0; 1]].
Definition t0 : vec := [1; 2; 3].
Definition V0 : SV := {| sv_vec := [1; 2; 3; 4; 5; 6] |}.
Definition A0 : SV := {| sv_vec := [0; 1; 0; -1; 0; 2] |}.
(** a rotation about z that is not symmetric *)
Definition rot345 : mat := [[3 / 5; - (4 / 5); 0]; [4 / 5; 3 / 5; 0]; [0; 0; 1]].
(** a body that leaves the plane z = 0 by very little *)
Definition disk_params : IP := {| ip_mass := 1; ip_com := [0; 0; 0]; ip_H := diag [0; 0; / 1000000000] |}.
