(** Model of /repo/src/rigeo/unused/geodesic.py *)
From Verif Require Import Base.Vec.

(** geodesic.py:23 [A.shape == B.shape] *)
Definition same_shape (A B : mat) : bool :=
  Nat.eqb (length A) (length B) && Nat.eqb (ncols A) (ncols B).

(** np.log on a real number: -inf at zero and nan below it, without an exception *)
Definition np_log (x : R) : res R := if Rltb 0 x then Ok (ln x) else NonFinite.

(** geodesic.py:4-26 [positive_definite_distance]; [linsolve] is np.linalg.solve, which may raise,
    and [eigvals] is np.linalg.eigvals.  Complex eigenvalues are not modelled: the eigenvalues are
    those of a product of two positive definite matrices, which are real. *)
Definition positive_definite_distance (linsolve : mat -> mat -> res mat) (eigvals : mat -> vec)
  (A B : mat) : res R :=
  let* _ := assert_ (same_shape A B) in
  let* C := linsolve A B in
  let eigs := eigvals C in
  let* logs := mapM np_log eigs in
  Ok (sqrt ((1 / 2) * lsum (map (fun x => x ^ 2) logs))).
