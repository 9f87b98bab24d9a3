(** Model of /repo/src/rigeo/closest.py. *)
From Verif Require Import Base.Vec Model.Util Model.Poly Model.Ellipsoid Model.Box Model.Cylinder Model.RigidBody.

(** closest.py:8-24 [ClosestPointInfo] *)
Record ClosestPointInfo := { cpi_p1 : vec; cpi_p2 : vec; cpi_dist : R }.

(** the [must_contain] method of each kind of shape, with its default scale *)
Definition shp_must_contain (s : shp) (point : vec) : Prop :=
  match s with
  | SBox b => poly_must_contain (b_poly b) point 1
  | SPoly p => poly_must_contain p point 1
  | SEll e => ell_must_contain e point 1
  | SCyl c => cyl_must_contain c point 1
  | SCaps k => caps_must_contain k point 1
  end.
(** closest.py:51-57: two variables of 3 entries, cp.norm2(p2 - p1) and both sets of constraints *)
Definition closest_objective (p1 p2 : vec) : R := norm (vsub p2 p1).
Definition closest_constraints (shape1 shape2 : shp) (p1 p2 : vec) : Prop :=
  length p1 = 3%nat /\ length p2 = 3%nat /\ shp_must_contain shape1 p1 /\ shp_must_contain shape2 p2.
(** closest.py:27-59 [closest_points].  [solve objective constraints] is problem.solve: the values of
    p1 and p2 afterwards.  Not modelled: a solver that fails or reports infeasibility, in which
    case the values are None. *)
Definition closest_points (solve : (vec -> vec -> R) -> (vec -> vec -> Prop) -> vec * vec) (shape1 shape2 : shp)
  : ClosestPointInfo :=
  let '(p1, p2) := solve closest_objective (closest_constraints shape1 shape2) in
  {| cpi_p1 := p1; cpi_p2 := p2; cpi_dist := closest_objective p1 p2 |}.
