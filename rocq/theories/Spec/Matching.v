(** Specification vocabulary for the comparison of matrices up to the order of rows. *)
From Verif Require Import Base.Vec.

(** numpy's closeness of rows with m entries: relative to the second argument *)
Definition close_rows (m : nat) (rtol atol : R) (a b : vec) : Prop :=
  forall k, (k < m)%nat -> Rabs (nth k a 0 - nth k b 0) <= atol + rtol * Rabs (nth k b 0).
(** f matches the n rows of A one-to-one with rows of B that are close *)
Definition row_matching (n m : nat) (rtol atol : R) (A B : mat) (f : nat -> nat) : Prop :=
  (forall i, (i < n)%nat -> (f i < n)%nat) /\
  (forall i j, (i < n)%nat -> (j < n)%nat -> f i = f j -> i = j) /\
  (forall i, (i < n)%nat -> close_rows m rtol atol (nth i A []) (nth (f i) B [])).
(** no row of A is close to two rows of B *)
Definition separated_rows (n m : nat) (rtol atol : R) (A B : mat) : Prop :=
  forall i j k, (i < n)%nat -> (j < n)%nat -> (k < n)%nat ->
    close_rows m rtol atol (nth i A []) (nth j B []) -> close_rows m rtol atol (nth i A []) (nth k B []) -> j = k.
(** the mean squared length of the errors *)
Definition mean_sq (errors : list vec) : R :=
  lsum (map (fun e => norm e * norm e) errors) / INR (length errors).
