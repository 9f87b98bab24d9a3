(** Vocabulary for extreme values of linear functions of the pseudo-inertia matrix. *)
From Verif Require Import Base.Vec Model.Drip Spec.Cone Spec.Quadratic.

(** v is the objective at some matrix satisfying the constraints *)
Definition reached (p : drip) (D : mat) (v : R) : Prop := exists J, accepts (dr_constraints p J) /\ dr_objective p D J = v.
(** v is the value of the problem: the least upper bound of its objective *)
Definition drip_value (p : drip) (D : mat) (v : R) : Prop := is_lub (reached p D) v.
(** moreover the value is reached *)
Definition drip_max (p : drip) (D : mat) (v : R) : Prop := drip_value p D v /\ reached p D v.
(** q is the greatest value on K of the quadratic function given by D *)
Definition largest_on (K : vec -> Prop) (D : mat) (q : R) : Prop :=
  (exists x, length x = 3%nat /\ K x /\ qval D x = q) /\ forall x, length x = 3%nat -> K x -> qval D x <= q.
