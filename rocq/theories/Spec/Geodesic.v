(** Specification vocabulary for the distance between positive definite matrices. *)
From Verif Require Import Base.Vec Spec.Basic.

(** symmetric positive definite matrix *)
Definition SPD (n : nat) (M : mat) : Prop :=
  is_mat n n M /\ symmetric n M /\ forall x, length x = n -> x <> zeros n -> 0 < quad M x.
(** A' is the inverse of the square matrix A *)
Definition inverse (n : nat) (A A' : mat) : Prop :=
  is_mat n n A /\ is_mat n n A' /\ mat_mul A A' = eye n /\ mat_mul A' A = eye n.
(** w lists the eigenvalues of C, as often as their multiplicity, in some order *)
Definition eigenlist (n : nat) (C : mat) (w : vec) : Prop :=
  length w = n /\ exists P P', inverse n P P' /\ mat_mul C P = mat_mul P (diag w).
(** What np.linalg.solve promises for the square system A X = B *)
Definition solve_spec (n : nat) (A B : mat) (r : res mat) : Prop :=
  match r with
  | Ok X => is_mat n n X /\ mat_mul A X = B
  | Raise e => e = LinAlgError /\ ~ exists A', inverse n A A'
  | NonFinite => False
  end.
(** What np.linalg.eigvals promises for a matrix with a basis of real eigenvectors *)
Definition eiglist_spec (n : nat) (C : mat) (w : vec) : Prop :=
  (exists w', eigenlist n C w') -> eigenlist n C w.
(** both promises, for the calls made on A and B *)
Definition numpy_for (n : nat) (linsolve : mat -> mat -> res mat) (eigvals : mat -> vec) (A B : mat) : Prop :=
  solve_spec n A B (linsolve A B) /\
  forall X, is_mat n n X -> mat_mul A X = B -> eiglist_spec n X (eigvals X).
Definition all_pos (w : vec) : Prop := forall x, In x w -> 0 < x.
(** sqrt(1/2 sum_i (ln w_i)^2) *)
Definition log_distance (w : vec) : R := sqrt ((1 / 2) * lsum (map (fun x => ln x ^ 2) w)).
(** G diag(w) G^T *)
Definition congruent (G : mat) (w : vec) : mat := mat_mul (mat_mul G (diag w)) (transpose G).
(** G M G^T *)
Definition congruence (G M : mat) : mat := mat_mul (mat_mul G M) (transpose G).
(** lo |x|^2 <= x^T M x <= hi |x|^2 *)
Definition form_between (n : nat) (M : mat) (lo hi : R) : Prop :=
  forall x, length x = n -> lo * dot x x <= quad M x <= hi * dot x x.
