(** Vocabulary for the existence of solutions. *)
From Verif Require Import Base.Vec Model.Constraint Model.RigidBody Spec.Identify.

(** no body has a cylinder among its shapes, where the shapes are used *)
Definition no_cylinders (must_realize : bool) (bodies : list Body) : Prop := must_realize = true ->
  forall b c, In b bodies -> ~ In (SCyl c) (bd_shapes b).
(** the solver reports an optimal solution exactly when there is one *)
Definition solver_exact {X : Type} (solver : (X -> res R) -> (X -> Prop) -> option X) (cost : X -> res R) (C : X -> Prop) : Prop :=
  match solver cost C with Some x => optimal cost C x | None => forall x, ~ optimal cost C x end.
(** J' tends to J: the entries of [n] x [n] matrices differ by at most e *)
Definition entries_within (n : nat) (e : R) (J' J : mat) : Prop := forall i j, (i < n)%nat -> (j < n)%nat -> Rabs (entry J' i j - entry J i j) <= e.
