(** Laws of random vectors that are given by their means, and the mean of a point that is sampled
    from such a vector and uniform draws. *)
From Verif Require Import Base.Vec Spec.Basic Spec.Integrals Spec.RandomSpec.

(** the sign of one coordinate changed *)
Definition negate_at (i : nat) (x : vec) : vec :=
  map (fun k => if Nat.eqb k i then - nth k x 0 else nth k x 0) (seq 0 (length x)).
(** two coordinates exchanged *)
Definition exchange (i j : nat) (x : vec) : vec :=
  map (fun k => nth (if Nat.eqb k i then j else if Nat.eqb k j then i else k) x 0) (seq 0 (length x)).
(** [law F a]: the mean of F over the random vector exists and is a.  The law is linear, lives on the
    non-zero vectors of d entries and does not change when a coordinate changes its sign or two
    coordinates are exchanged.  The d independent standard normal draws of numpy have such a law. *)
Definition symmetric_law (d : nat) (law : (vec -> R) -> R -> Prop) : Prop :=
  law (fun _ => 1) 1 /\
  (forall F G a b s t, law F a -> law G b -> law (fun x => s * F x + t * G x) (s * a + t * b)) /\
  (forall F a b, law F a -> law F b -> a = b) /\
  (forall F G a, (forall x, length x = d -> x <> zeros d -> F x = G x) -> law F a -> law G a) /\
  (forall F a i, (i < d)%nat -> law F a -> law (fun x => F (negate_at i x)) a) /\
  (forall F a i j, (i < d)%nat -> (j < d)%nat -> law F a -> law (fun x => F (exchange i j x)) a) /\
  (forall i, (i < d)%nat -> exists a, law (fun x => nth i x 0 / norm x) a) /\
  (forall i j, (i < d)%nat -> (j < d)%nat -> exists a, law (fun x => nth i x 0 * nth j x 0 / dot x x) a).
(** a program that is given a vector of the law and a draw that is uniform on [0, 1) returns one point;
    the mean of [stat] of this point exists and is I *)
Definition mean_point (d : nat) (law : (vec -> R) -> R -> Prop) (run : vec -> R -> res mat) (stat : vec -> R) (I : R) : Prop :=
  exists (F : vec -> R -> R) (G : R -> R),
    (forall x c, length x = d -> x <> zeros d -> unit_draw c -> exists p, run x c = Ok [p] /\ stat p = F x c) /\
    (forall c, unit_draw c -> law (fun x => F x c) (G c)) /\ integral G 0 1 I.
(** the same when the program is also given a draw that is uniform on [-1/2, 1/2) *)
Definition mean_point_z (d : nat) (law : (vec -> R) -> R -> Prop) (run : R -> vec -> R -> res mat) (stat : vec -> R) (I : R) : Prop :=
  exists K, (forall z, uniform_draw (- (1 / 2)) (1 / 2) z -> mean_point d law (run z) stat (K z)) /\ integral K (- (1 / 2)) (1 / 2) I.
