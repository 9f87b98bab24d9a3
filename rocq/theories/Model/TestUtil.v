(** Model of /repo/src/rigeo/test_util.py. *)
From Verif Require Import Base.Vec Model.Util.

(** np.isclose(a, B, rtol, atol).all(axis=1): which rows of B are close to a *)
Definition rows_close (rtol atol : R) (a : vec) (B : mat) : list bool :=
  map (fun b => forallb (fun x => x) (map2 (isclose rtol atol) a b)) B.
(** np.argmax of a boolean array: the first True, or 0 *)
Fixpoint argmax_bool (l : list bool) : nat :=
  match l with
  | [] => O
  | true :: _ => O
  | false :: l' => let k := argmax_bool l' in if nth k l' false then S k else O
  end.
(** B_checked[idx] = True *)
Fixpoint mark (idx : nat) (l : list bool) : list bool :=
  match l, idx with
  | [], _ => []
  | _ :: l', O => true :: l'
  | x :: l', S i => x :: mark i l'
  end.
(** test_util.py:25-41: the loop over the rows of A *)
Fixpoint unordered_loop (rtol atol : R) (A B : mat) (checked : list bool) : bool :=
  match A with
  | [] => true
  | a :: A' =>
      let equal := rows_close rtol atol a B in
      let test := map2 (fun e c => e && negb c) equal checked in
      let idx := argmax_bool test in
      if nth idx test false then unordered_loop rtol atol A' B (mark idx checked) else false
  end.
(** test_util.py:5-42 [allclose_unordered].  Matrices with no rows do not record their number of
    columns here. *)
Definition allclose_unordered (A B : mat) (rtol atol : R) : res bool :=
  let* _ := assert_ (Nat.eqb (length A) (length B) && Nat.eqb (ncols A) (ncols B)) in
  Ok (unordered_loop rtol atol A B (repeat false (length A))).
