(** Specification vocabulary for the extremal-ellipsoid programs: what the external routines
    promise, and ellipsoids as images and preimages of the unit ball. *)
From Verif Require Import Base.Vec Spec.Basic Spec.Shapes.

(** {x : |A x + b| <= 1} *)
Definition ball_preimage (A : mat) (b x : vec) : Prop := norm (vadd (mat_vec A x) b) <= 1.
(** {B u + c : |u| <= 1} in dimension n *)
Definition ball_image (n : nat) (B : mat) (c x : vec) : Prop :=
  exists u, length u = n /\ norm u <= 1 /\ x = vadd (mat_vec B u) c.
(** the domain of log_det *)
Definition pos_def (n : nat) (A : mat) : Prop :=
  forall x, length x = n -> x <> zeros n -> 0 < quad A x.
(** the k columns of W in dimension d are orthonormal *)
Definition orthonormal (d k : nat) (W : mat) : Prop :=
  is_mat d k W /\ mat_mul (transpose W) W = eye k.
(** scipy.linalg.orth of the matrix with columns D: an orthonormal basis of their span *)
Definition orth_spec (d k : nat) (D W : mat) : Prop :=
  orthonormal d k W /\ forall p, In p D -> mat_vec W (mat_vec (transpose W) p) = p.
(** scipy.linalg.null_space of a (k x d) matrix M of rank k: an orthonormal basis of the kernel *)
Definition null_spec (d k : nat) (M N : mat) : Prop :=
  orthonormal d (d - k) N /\
  (forall v, length v = (d - k)%nat -> mat_vec M (mat_vec N v) = zeros k) /\
  (forall x, length x = d -> mat_vec M x = zeros k -> mat_vec N (mat_vec (transpose N) x) = x).
(** np.linalg.inv of an invertible matrix *)
Definition inv_spec (n : nat) (E M : mat) : Prop :=
  is_mat n n M /\ mat_mul E M = eye n /\ mat_mul M E = eye n.
(** {x : x^T A x + 2 b.x + c <= 0} *)
Definition quadric (A : mat) (b : vec) (c : R) (x : vec) : Prop := quad A x + 2 * dot b x + c <= 0.
(** the ball of radius rho about q *)
Definition ball (q : vec) (rho : R) (x : vec) : Prop := norm (vsub x q) <= rho.
(** cvxpy's log_det: the sum of the logarithms of the eigenvalues of a positive definite matrix *)
Definition log_det_spec (n : nat) (log_det : mat -> R) : Prop :=
  forall V w, orthogonal n V -> length w = n -> (forall a, In a w -> 0 < a) ->
    log_det (mat_mul (mat_mul V (diag w)) (transpose V)) = lsum (map ln w).
