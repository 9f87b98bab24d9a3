(** Model of /repo/src/rigeo/util.py *)
From Verif Require Import Base.Vec.
From Flocq Require Import Core.Raux.

(** np.triu_indices(n, k) / np.tril_indices(n, k): row-major index pairs. *)
Definition triu_indices (n : nat) (k : Z) : list (nat * nat) :=
  filter (fun ij => Z.leb k (Z.of_nat (snd ij) - Z.of_nat (fst ij)))
         (list_prod (seq 0 n) (seq 0 n)).
Definition tril_indices (n : nat) (k : Z) : list (nat * nat) :=
  filter (fun ij => Z.leb (Z.of_nat (snd ij) - Z.of_nat (fst ij)) k)
         (list_prod (seq 0 n) (seq 0 n)).

(** util.py:9-31 [vech] *)
Definition vech (A : mat) (k : Z) : res vec :=
  let n := length A in
  let* _ := assert_ (is_matb n n A) in
  Ok (map (fun ij => entry A (fst ij) (snd ij)) (triu_indices n k)).

(** Python [float.is_integer] and [int()] (truncation towards zero) on reals. *)
Definition is_integer (x : R) : bool := Reqb x (IZR (Zfloor x)).
Definition py_int (x : R) : Z := if Rleb 0 x then Zfloor x else Zceil x.

(** util.py:34-56 [is_triangular_number], exact square root (the binary64 version is in
    Model/FloatUtil.v). Both Integral and float arguments are reals here. *)
Definition is_triangular_number (x : R) : bool * Z :=
  if negb (is_integer x) || Rltb x 1 then (false, (-1)%Z)
  else
    let n := (1 / 2) * (sqrt (1 + 8 * x) - 1) in
    (is_integer n, py_int n).

(** A[i, j] = v *)
Fixpoint set_nth {A} (l : list A) (i : nat) (v : A) : list A :=
  match l, i with
  | [], _ => []
  | _ :: r, O => v :: r
  | a :: r, S j => a :: set_nth r j v
  end.
Definition set_entry (A : mat) (i j : nat) (v : R) : mat :=
  set_nth A i (set_nth (nth i A []) j v).
(** A[idx] = vals, in index order *)
Fixpoint assign (A : mat) (idx : list (nat * nat)) (vals : vec) : mat :=
  match idx, vals with
  | (i, j) :: idx', v :: vals' => assign (set_entry A i j v) idx' vals'
  | _, _ => A
  end.

(** util.py:59-92 [unvech].  The argument is 1-d by type. *)
Definition unvech (a : vec) : res mat :=
  let '(triangular, nz) := is_triangular_number (INR (length a)) in
  let* _ := assert_ triangular in
  let n := Z.to_nat nz in
  let A := assign (zeros2 n n) (triu_indices n 0) a in
  let idxl := tril_indices n (-1) in
  Ok (assign A idxl (map (fun ij => entry (transpose A) (fst ij) (snd ij)) idxl)).

(** util.py:95-113 [skew3] *)
Definition skew3 (v : vec) : res mat :=
  match v with
  | [x; y; z] => Ok [[0; - z; y]; [z; 0; - x]; [- y; x; 0]]
  | _ => Raise AssertionError
  end.

(** util.py:116-125 [lift3] *)
Definition lift3 (x : vec) : res mat :=
  match x with
  | [x0; x1; x2] => Ok [[x0; x1; x2; 0; 0; 0];
                        [0; x0; 0; x1; x2; 0];
                        [0; 0; x0; 0; x1; x2]]
  | _ => Raise AssertionError
  end.

(** util.py:143-166 [compute_evaluation_times], exact arithmetic (the binary64 version is in
    Model/FloatUtil.v). *)
Definition compute_evaluation_times (duration step : R) : res (Z * vec) :=
  let* _ := assert_ (Rltb 0 duration) in
  let* _ := assert_ (Rltb 0 step) in
  let n := Zceil (duration / step) in
  Ok (n, map (fun k => step * INR k) (seq 0 (Z.to_nat n))).

(** util.py:169-179 [validation_rmse].  Ys is a list of 6x10 matrices, ws a list of wrenches.
    Simplification: different numbers of rows are a ValueError (numpy would broadcast a
    leading axis of length 1).  The mean of no values is nan. *)
Definition validation_rmse (Ys : list mat) (ws : list vec) (theta : vec) (W : option mat) : res R :=
  let _ := match W with None => eye 6 | Some w => w end in
  if Nat.eqb (length Ys) (length ws) then
    let error := map2 (fun Y w => vsub (mat_vec Y theta) w) Ys ws in
    let square := map (fun e => lsum (map (fun a => a ^ 2) e)) error in
    let* _ := assert_ (Nat.eqb (length square) (length ws)) in
    match square with
    | [] => NonFinite
    | _ => Ok (sqrt (lsum square / INR (length square)))
    end
  else Raise ValueError.

(** util.py:182-195 [clean_transform] *)
Definition clean_transform (rotation : option mat) (translation : option vec) (dim : nat)
  : res (mat * vec) :=
  let* rot := match rotation with
              | None => Ok (eye dim)
              | Some r => let* _ := assert_ (is_matb dim dim r) in Ok r
              end in
  let* tr := match translation with
             | None => Ok (zeros dim)
             | Some t => let* _ := assert_ (is_vecb dim t) in Ok t
             end in
  Ok (rot, tr).

(** util.py:198-204 [transform_matrix]: eye(dim+1) with the two slices assigned. *)
Definition transform_matrix (rotation : option mat) (translation : option vec) (dim : nat)
  : res mat :=
  let* rt := clean_transform rotation translation dim in
  Ok (map2 (fun r t => r ++ [t]) (fst rt) (snd rt) ++ [zeros dim ++ [1]]).

(** util.py:207-213 [transform_matrix_inv].  The inner call leaves [dim] at its default 3. *)
Definition transform_matrix_inv (rotation : option mat) (translation : option vec) (dim : nat)
  : res mat :=
  let* rt := clean_transform rotation translation dim in
  let rT := transpose (fst rt) in
  transform_matrix (Some rT) (Some (mat_vec (mneg rT) (snd rt))) 3.

(** itertools.product([1, -1], repeat=n) *)
Fixpoint sign_combos (n : nat) : list vec :=
  match n with
  | O => [[]]
  | S m => map (cons 1) (sign_combos m) ++ map (cons (-1)) (sign_combos m)
  end.

(** util.py:216-231 [box_vertices] *)
Definition box_vertices (half_extents : vec) : mat :=
  map (fun c => vmul c half_extents) (sign_combos (length half_extents)).

(** util.py:234-248 [contact_jacobian] *)
Definition contact_jacobian (point : vec) : res mat :=
  let* S := skew3 point in Ok (vstack S (eye 3)).
