(** Specification vocabulary for closest points. *)
From Verif Require Import Base.Vec Spec.Basic.

(** x, y are points of K1 and K2 at the smallest distance d *)
Definition closest_pair (K1 K2 : vec -> Prop) (x y : vec) (d : R) : Prop :=
  length x = 3%nat /\ length y = 3%nat /\ K1 x /\ K2 y /\ d = norm (vsub y x) /\
  forall x' y', length x' = 3%nat -> length y' = 3%nat -> K1 x' -> K2 y' -> d <= norm (vsub y' x').
(** a solver that returns a global minimiser of this problem *)
Definition minimises (f : vec -> vec -> R) (C : vec -> vec -> Prop) (s : vec * vec) : Prop :=
  C (fst s) (snd s) /\ forall x y, C x y -> f (fst s) (snd s) <= f x y.
