(** Margins for the properties about rounding (C83-C86). *)
From Verif Require Import Base.Vec.

(** half a unit in the last place of a number in [1, 2), and half the smallest positive number, in binary64 *)
Definition u64 : R := / 9007199254740992.
Definition eta64 : R := powerRZ 2 (-1075).
(** the magnitudes that meet in the inner product *)
Definition abs_dot (a x : vec) : R := dot (map Rabs a) (map Rabs x).
(** the error of an inner product of n terms with magnitudes T *)
Definition dot_margin (n : nat) (T : R) : R := ((1 + u64) ^ n - 1) * T + 2 * INR n * (1 + u64) ^ n * eta64.
(** the error of the test a . x <= b + tol *)
Definition face_margin (a x : vec) (b tol : R) : R :=
  dot_margin (length a) (abs_dot a x) + (u64 * (Rabs b + Rabs tol) + eta64).
(** the columns of Q are orthonormal up to e *)
Definition near_orthogonal (e : R) (Q : mat) : Prop :=
  forall i j, (i < 3)%nat -> (j < 3)%nat -> Rabs (dot (col i Q) (col j Q) - (if Nat.eqb i j then 1 else 0)) <= e.
Global Arguments u64 : simpl never.
Global Arguments eta64 : simpl never.
(** the point p of space in the frame of the ellipsoid *)
Definition local_coord (Q : mat) (c p : vec) (j : nat) : R := dot (col j Q) (vsub p c).
(** p is in the ellipsoid up to e1 along axes of half extent at most th, and up to e2 in the quadratic form of the others *)
Definition ell_near (th : R) (half : vec) (Q : mat) (c : vec) (e1 e2 : R) (p : vec) : Prop :=
  (forall j, (j < 3)%nat -> nth j half 0 <= th -> Rabs (local_coord Q c p j) <= e1) /\
  lsum (map (fun j => if Rle_dec (nth j half 0) th then 0 else Rsqr (local_coord Q c p j / nth j half 0)) [0%nat; 1%nat; 2%nat]) <= 1 + e2.
