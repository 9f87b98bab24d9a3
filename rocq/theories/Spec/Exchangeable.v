(** Laws of random vectors that do not change when two entries are exchanged. *)
From Verif Require Import Base.Vec Spec.Basic Spec.Integrals Spec.RandomSpec Spec.Symmetric.

(** [law F a]: the mean of F over the random vector exists and is a.  The law is linear and lives on the
    non-zero vectors of k numbers in [0, 1); k independent draws of rng.random have such a law (they are
    all zero with probability 0). *)
Definition exchangeable_law (k : nat) (law : (vec -> R) -> R -> Prop) : Prop :=
  law (fun _ => 1) 1 /\
  (forall F G a b s t, law F a -> law G b -> law (fun x => s * F x + t * G x) (s * a + t * b)) /\
  (forall F a b, law F a -> law F b -> a = b) /\
  (forall F G a, (forall x, draws_of k unit_draw x -> x <> zeros k -> F x = G x) -> law F a -> law G a) /\
  (forall F a i j, (i < k)%nat -> (j < k)%nat -> law F a -> law (fun x => F (exchange i j x)) a) /\
  (forall i, (i < k)%nat -> exists a, law (fun x => nth i x 0 / lsum x) a).
(** two independent draws that are uniform on [0, 1): the mean of F exists and is a, whichever of the two
    draws is integrated first *)
Definition pair_mean (F : vec -> R) (a : R) : Prop :=
  exists G, (forall x, unit_draw x -> integral (fun y => F [x; y]) 0 1 (G x)) /\ integral G 0 1 a.
Definition pair_law (F : vec -> R) (a : R) : Prop := pair_mean F a /\ pair_mean (fun v => F (rev v)) a.
