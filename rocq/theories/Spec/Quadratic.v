(** Quadratic functions on space as test functions: a symmetric 4x4 matrix S stands for the
    function x -> (x, 1)^T S (x, 1). *)
From Verif Require Import Base.Vec.

(** the value at a point *)
Definition qval (S : mat) (x : vec) : R := quad S (x ++ [1]).
(** half the second derivative in direction u *)
Definition qdir (S : mat) (u : vec) : R := quad S (u ++ [0]).
(** the integral over a mass distribution whose pseudo-inertia matrix is J: trace(S J) is linear in
    J, and for a single mass m at x it is m times the value at x *)
Definition qint (S J : mat) : R := trace (mat_mul S J).
