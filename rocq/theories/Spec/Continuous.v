(** Continuous functions of a point of space. *)
From Verif Require Import Base.Vec.

Definition continuous3 (f : vec -> R) : Prop :=
  forall p, length p = 3%nat -> forall eps, 0 < eps -> exists delta, 0 < delta /\
    forall q, length q = 3%nat -> (forall i, (i < 3)%nat -> Rabs (nth i q 0 - nth i p 0) < delta) -> Rabs (f q - f p) < eps.
