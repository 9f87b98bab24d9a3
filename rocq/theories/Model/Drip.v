(** scripts/experiments/generate_drip_data.py: extreme values of linear functions of the
    pseudo-inertia matrix under the realizability constraints of a shape. *)
From Verif Require Import Base.Vec Model.Constraint Model.Inertial Model.Poly Model.Box Model.Cylinder Model.Realize.

(** cp.Problem with the parameter D left open: the conjunction of the constraints and the objective
    to be maximised, both as functions of the value of the variable J.  Solving (MOSEK) is not
    modelled: Spec/Extreme.v says what the reported value is. *)
Record drip := { dr_constraints : mat -> res Prop; dr_objective : mat -> mat -> R }.
(** generate_drip_data.py:14-21 [setup_drip_problem]; [drip_constraints] is the shape's method with
    its keyword arguments applied.  J is declared with PSD=True. *)
Definition setup_drip_problem (mass : R) (drip_constraints : param_var -> res Prop) : drip :=
  {| dr_constraints := fun J =>
       let* cs := drip_constraints (PVmat J) in
       Ok (cp_psd_var 4 J /\ entry J 3 3 = mass /\ cs);
     dr_objective := fun D J => trace (mat_mul D J) |}.
(** generate_drip_data.py:30-35, shape a Box: [problem_moment_d2] and [problem_moment_d3] for d = 2 and
    d = 3; the script uses mass = 1 *)
Definition box_drip_moment (b : Box) (mass : R) (d : nat) : drip :=
  setup_drip_problem mass (fun v => poly_moment_sdp_constraints (b_poly b) v 0 d).
(** generate_drip_data.py:36-38, shape a Box: [problem_custom] *)
Definition box_drip_custom (b : Box) (mass : R) : drip :=
  setup_drip_problem mass (fun v => box_moment_custom_vertex_constraints b v 0).
(** generate_drip_data.py:30-35, shape a Cylinder *)
Definition cyl_drip_moment (c : Cyl) (mass : R) (d : nat) : drip :=
  setup_drip_problem mass (fun v => cyl_moment_sdp_constraints c v 0 d).
(** generate_drip_data.py:36-38, shape a Cylinder; [use_trace] as in Model/Ellipsoid.v *)
Definition cyl_drip_custom (use_trace : bool) (c : Cyl) (mass : R) : drip :=
  setup_drip_problem mass (fun v => cyl_moment_custom_vertex_constraints use_trace c v 0).
