(** numpy arrays as lists: the primitives used by /repo/src/rigeo. A 1-d array is a list of
    reals, a 2-d array is the list of its rows.  A 2-d array with no row loses its number of
    columns; the models below say so where it matters. *)
From Verif Require Export Base.Num.

Notation vec := (list R).
Notation mat := (list (list R)).

Definition vadd (x y : vec) : vec := map2 Rplus x y.
Definition vsub (x y : vec) : vec := map2 Rminus x y.
Definition vmul (x y : vec) : vec := map2 Rmult x y.
Definition vneg (x : vec) : vec := map Ropp x.
Definition vscale (c : R) (x : vec) : vec := map (Rmult c) x.
Definition vdivs (x : vec) (c : R) : vec := map (fun a => a / c) x.
Definition zeros (n : nat) : vec := repeat 0 n.
Definition ones (n : nat) : vec := repeat 1 n.

(** x @ y, both 1-d *)
Definition dot (x y : vec) : R := lsum (map2 Rmult x y).
Definition norm2 (x : vec) : R := dot x x.
Definition norm (x : vec) : R := sqrt (dot x x).

Definition ncols (A : mat) : nat := length (hd [] A).
Definition entry (A : mat) (i j : nat) : R := nth j (nth i A []) 0.
(** A[:, j] *)
Definition col (j : nat) (A : mat) : vec := map (fun r => nth j r 0) A.
(** A.T *)
Definition transpose (A : mat) : mat := map (fun j => col j A) (seq 0 (ncols A)).
(** A @ x *)
Definition mat_vec (A : mat) (x : vec) : vec := map (fun r => dot r x) A.
(** x @ A *)
Definition vec_mat (x : vec) (A : mat) : vec := map (fun j => dot x (col j A)) (seq 0 (ncols A)).
(** A @ B *)
Definition mat_mul (A B : mat) : mat := map (fun r => vec_mat r B) A.
(** np.outer(x, y) *)
Definition outer (x y : vec) : mat := map (fun a => vscale a y) x.
(** np.eye(n) *)
Definition eye (n : nat) : mat :=
  map (fun i => map (fun j => if Nat.eqb i j then 1 else 0) (seq 0 n)) (seq 0 n).
(** np.diag(d) for a 1-d d *)
Definition diag (d : vec) : mat :=
  map (fun i => map (fun j => if Nat.eqb i j then nth i d 0 else 0) (seq 0 (length d)))
      (seq 0 (length d)).
(** np.diag(A) for a 2-d A *)
Definition diagonal (A : mat) : vec := map (fun i => entry A i i) (seq 0 (length A)).
(** np.trace(A) *)
Definition trace (A : mat) : R := lsum (diagonal A).
Definition madd (A B : mat) : mat := map2 vadd A B.
Definition msub (A B : mat) : mat := map2 vsub A B.
Definition mscale (c : R) (A : mat) : mat := map (vscale c) A.
Definition mneg (A : mat) : mat := map vneg A.
Definition zeros2 (n m : nat) : mat := repeat (zeros m) n.
(** np.hstack of two 2-d arrays *)
Definition hstack (A B : mat) : mat := map2 (@app R) A B.
(** np.vstack of two 2-d arrays *)
Definition vstack (A B : mat) : mat := A ++ B.
(** np.block([[A, B], [C, D]]) *)
Definition block (A B C D : mat) : mat := hstack A B ++ hstack C D.
(** A[:n, :m] *)
Definition sub_mat (n m : nat) (A : mat) : mat := map (firstn m) (firstn n A).
(** a[:, None] *)
Definition column (x : vec) : mat := map (fun a => [a]) x.

(** x^T A x *)
Definition quad (A : mat) (x : vec) : R := dot x (mat_vec A x).

(** shape tests *)
Definition is_mat (n m : nat) (A : mat) : Prop :=
  length A = n /\ Forall (fun r => length r = m) A.
Definition is_matb (n m : nat) (A : mat) : bool :=
  Nat.eqb (length A) n && forallb (fun r => Nat.eqb (length r) m) A.
Definition is_vecb (n : nat) (x : vec) : bool := Nat.eqb (length x) n.
