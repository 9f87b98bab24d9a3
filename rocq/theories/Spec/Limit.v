(** One-sided limits of functions of a thickness, and masses at the corners of a box. *)
From Verif Require Import Base.Vec Spec.Basic Spec.Objects.

(** [f d] tends to [l] as [d] decreases to 0 *)
Definition tends_to_0r (f : R -> R) (l : R) : Prop :=
  forall e, 0 < e -> exists t, 0 < t /\ forall d, 0 < d < t -> Rabs (f d - l) < e.
(** the same for each entry of an n by m matrix *)
Definition mat_tends_to_0r (n m : nat) (F : R -> mat) (L : mat) : Prop :=
  is_mat n m L /\ forall i j, (i < n)%nat -> (j < m)%nat -> tends_to_0r (fun d => entry (F d) i j) (entry L i j).
