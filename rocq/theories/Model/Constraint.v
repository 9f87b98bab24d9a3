(** Model of /repo/src/rigeo/constraint.py.  A cvxpy expression is modelled by its value; a list
    of constraints by the proposition that the value satisfies them. *)
From Verif Require Import Base.Vec Model.Util.

(** cvxpy's [X >> 0] on a square expression: z^T X z >= 0 for all z (cvxpy does not enforce
    symmetry). *)
Definition cp_psd (n : nat) (X : mat) : Prop := forall z, length z = n -> 0 <= quad X z.
(** cp.Variable((n, n), PSD=True): symmetric positive semidefinite. *)
Definition cp_psd_var (n : nat) (X : mat) : Prop :=
  is_mat n n X /\ transpose X = X /\ cp_psd n X.

(** constraint.py:5-34 [schur] for a 2-d A, a 1-d B and a scalar C (the shapes used in
    shape/ellipsoid.py); the scalar/1-d cases of [_shape_schur_var] make B a column and C 1x1. *)
Definition schur (A : mat) (b : vec) (c : R) : mat := block A (column b) [b] [[c]].

(** constraint.py:37-81 [pim_sum_vec_matrices] *)
Definition pim_sum_vec_matrices : list mat :=
  [ set_entry (zeros2 4 4) 3 3 1;
    set_entry (set_entry (zeros2 4 4) 0 3 1) 3 0 1;
    set_entry (set_entry (zeros2 4 4) 1 3 1) 3 1 1;
    set_entry (set_entry (zeros2 4 4) 2 3 1) 3 2 1;
    set_entry (set_entry (set_entry (zeros2 4 4) 0 0 (- (1 / 2))) 1 1 (1 / 2)) 2 2 (1 / 2);
    set_entry (set_entry (zeros2 4 4) 0 1 (-1)) 1 0 (-1);
    set_entry (set_entry (zeros2 4 4) 0 2 (-1)) 2 0 (-1);
    set_entry (set_entry (set_entry (zeros2 4 4) 0 0 (1 / 2)) 1 1 (- (1 / 2))) 2 2 (1 / 2);
    set_entry (set_entry (zeros2 4 4) 1 2 (-1)) 2 1 (-1);
    set_entry (set_entry (set_entry (zeros2 4 4) 0 0 (1 / 2)) 1 1 (1 / 2)) 2 2 (- (1 / 2)) ].

(** cp.sum of a Python list is the builtin sum of its elements *)
Definition msum (n m : nat) (l : list mat) : mat := fold_left madd l (zeros2 n m).

(** constraint.py:85-100 [pim_must_equal_vec] *)
Definition pim_must_equal_vec (theta : vec) : res mat :=
  let* _ := assert_ (is_vecb 10 theta) in
  Ok (msum 4 4 (map2 (fun A p => mscale p A) pim_sum_vec_matrices theta)).

(** constraint.py:136-154 [pim_psd]: J == J.T and J >> eps * eye(4) *)
Definition pim_psd (J : mat) (eps : R) : res Prop :=
  let* _ := assert_ (is_matb 4 4 J) in
  let* _ := assert_ (Rleb 0 eps) in
  Ok (J = transpose J /\ cp_psd 4 (msub J (mscale eps (eye 4)))).

(** The parameter variable: a 4x4 matrix, a 10-vector, or something of another shape. *)
Inductive param_var := PVmat (J : mat) | PVvec (theta : vec).

(** constraint.py:103-133 [pim_must_equal_param_var] *)
Definition pim_must_equal_param_var (v : param_var) (eps : R) : res (mat * Prop) :=
  let* _ := assert_ (Rleb 0 eps) in
  let* J := match v with
            | PVmat J => if is_matb 4 4 J then Ok J else Raise ValueError
            | PVvec t => if is_vecb 10 t then pim_must_equal_vec t else Raise ValueError
            end in
  let* c := pim_psd J eps in
  Ok (J, c).
