(** Means over the draws of a loop. *)
From Verif Require Import Base.Vec Spec.Basic Spec.Integrals Spec.RandomSpec.

(** the draws of one turn: a direction, given by its height u and its azimuth phi, and a number v *)
Definition turn : Type := R * R * R.
Definition turn_draw (t : turn) : Prop := let '(u, phi, v) := t in -1 <= u <= 1 /\ 0 <= phi <= 2 * PI /\ unit_draw v.
(** the mean of F over one turn, the direction being uniform on the sphere (u uniform on [-1, 1], phi
    uniform on [0, 2 PI]: the area element of the sphere is du dphi) and v uniform on [0, 1), exists and is I *)
Definition turn_mean (F : turn -> R) (I : R) : Prop :=
  exists H, (forall u phi, -1 <= u <= 1 -> 0 <= phi <= 2 * PI -> integral (fun v => F (u, phi, v)) 0 1 (H u phi)) /\
    integral2 (-1) 1 (fun _ => 0) (fun _ => 2 * PI) H (4 * PI * I).
(** the mean of F over k independent turns *)
Fixpoint turns_mean (k : nat) (F : list turn -> R) (I : R) : Prop :=
  match k with
  | O => I = F []
  | S k => exists G, (forall t, turn_draw t -> turns_mean k (fun l => F (t :: l)) (G t)) /\ turn_mean G I
  end.
(** the draws of the turns as the loops of the model take them: a unit vector and a number *)
Definition surface_draw (l : list turn) (k n : nat) : mat * vec :=
  match nth_error l k with Some (u, phi, v) => ([ell_point [1; 1; 1] u phi], [v]) | None => ([], []) end.
(** f of the point that a run returned, 0 for a run that has not ended *)
Definition point_stat (f : vec -> R) (o : option (res mat)) : R := match o with Some (Ok [p]) => f p | _ => 0 end.
