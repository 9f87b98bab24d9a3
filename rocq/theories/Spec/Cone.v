(** Combinations of pseudo-inertia matrices, and constraints that are closed under them. *)
From Verif Require Import Base.Vec Model.Constraint Model.Inertial Model.RigidBody Spec.Basic Spec.Objects Spec.Realizable Spec.Bodies Spec.Identify.

(** a J1 + b J2 *)
Definition mix (a b : R) (J1 J2 : mat) : mat := madd (mscale a J1) (mscale b J2).
(** the call succeeds and its constraints hold *)
Definition accepts (c : res Prop) : Prop := exists P, c = Ok P /\ P.
(** the constraints [F v eps] hold for every combination with non-negative weights of parameters
    for which they hold; the margins are combined with the same weights.  With margin 0 the accepted
    parameters form a convex cone; with weights adding up to one and equal margins, a convex set. *)
Definition conic (F : param_var -> R -> res Prop) : Prop := forall a b v1 v2 v J1 J2 eps1 eps2,
  0 <= a -> 0 <= b -> 0 <= eps1 -> 0 <= eps2 -> is_mat 4 4 J1 -> is_mat 4 4 J2 ->
  pv_value v1 J1 -> pv_value v2 J2 -> pv_value v (mix a b J1 J2) ->
  accepts (F v1 eps1) -> accepts (F v2 eps2) -> accepts (F v (a * eps1 + b * eps2)).
(** a x + b y *)
Definition vmix (a b : R) (x y : vec) : vec := vadd (vscale a x) (vscale b y).
(** the same for the parameter vectors of several bodies *)
Definition tmix (a b : R) (l m : list vec) : list vec := map2 (vmix a b) l m.
(** the shapes of the bodies are well formed, where they are used *)
Definition bodies_ok (must_realize : bool) (bodies : list Body) : Prop := must_realize = true ->
  forall b, In b bodies -> exists Ks, Forall2 shape_is (bd_shapes b) Ks /\ (forall s, In s (bd_shapes b) -> shape_proper s).
(** one well formed bounding shape per body, if there are any *)
Definition coms_ok (com_bounding_shapes : option (list shp)) (bodies : list Body) : Prop :=
  forall l, com_bounding_shapes = Some l -> length l = length bodies /\ exists Ks, Forall2 shape_is l Ks.
(** the nominal parameters are positive definite, where they are used *)
Definition nominals_ok (gamma : R) (inv : mat -> res mat) (bodies : list Body) : Prop :=
  0 < gamma -> forall b, In b bodies -> nominal_ok inv (ip_J (bd_params b)).
