(** Model of the printed forms: [__str__], [__repr__] and [__hash__].  How Python prints a number and
    how numpy prints an array are arguments ([show], [show_vec], [show_mat]); the text put around
    them is modelled exactly.  The type of the numbers is an argument as well. *)
From Coq Require Import String Ascii List DecimalString Decimal.
Import ListNotations.
Local Open Scope string_scope.

(** [str] of a non-negative Python integer: its decimal digits, no leading zeros *)
Definition str_nat (n : nat) : string := NilEmpty.string_of_uint (Nat.to_uint n).
(** [sep.join(strs)] *)
Fixpoint py_join (sep : string) (l : list string) : string :=
  match l with
  | [] => ""
  | [s] => s
  | s :: l' => s ++ sep ++ py_join sep l'
  end.
(** moment.py:15-19 [MomentIndex.__str__], [__repr__] *)
Definition idx_str (v : list nat) : string := py_join "" (map str_nat v).
(** moment.py:21-22 [MomentIndex.__hash__]: the builtin [hash] of the tuple *)
Definition idx_hash {Z : Type} (hash : list nat -> Z) (v : list nat) : Z := hash v.
(** moment.py:83-88 [Polynomial.__str__], [__repr__] *)
Definition pol_str {K : Type} (show : K -> string) (p : list (list nat * K)) : string :=
  py_join " + " (map (fun kv => show (snd kv) ++ " * x^" ++ idx_str (fst kv)) p).

Section Repr.
Context {K V M : Type} (show : K -> string) (show_vec : V -> string) (show_mat : M -> string).
(** inertial.py:74-75 [InertialParameters.__repr__] *)
Definition ip_repr (mass : K) (com : V) (H : M) : string :=
  "InertialParameters(mass=" ++ show mass ++ ", com=" ++ show_vec com ++ ", H=" ++ show_mat H ++ ")".
(** spatial.py:27-28 [SpatialVector.__repr__] (twists and wrenches inherit it) *)
Definition sv_repr (linear angular : V) : string :=
  "SpatialVector(linear=" ++ show_vec linear ++ ", angular=" ++ show_vec angular ++ ")".
(** box.py:108-109 [Box.__repr__] *)
Definition box_repr (half_extents center : V) (rotation : M) : string :=
  "Box(half_extents=" ++ show_vec half_extents ++ ", center=" ++ show_vec center ++ ", rotation=" ++ show_mat rotation ++ ")".
(** ellipsoid.py:113-114 [Ellipsoid.__repr__] *)
Definition ell_repr (half_extents center : V) (rotation : M) : string :=
  "Ellipsoid(half_extents=" ++ show_vec half_extents ++ ", center=" ++ show_vec center ++ ", rotation=" ++ show_mat rotation ++ ")".
(** poly.py:128-129 [ConvexPolyhedron.__repr__] (boxes override it) *)
Definition poly_repr (vertices : M) : string := "ConvexPolyhedron(vertices=" ++ show_mat vertices ++ ")".
(** [str(None)] or the printed array *)
Definition show_opt (m : option M) : string := match m with None => "None" | Some m => show_mat m end.
(** polydd.py:34-35 and unused/polydd_pycddlib3.py:34-35 [SpanForm.__repr__]; missing rays or vertices are None *)
Definition span_repr (vertices rays : option M) : string :=
  "SpanForm(vertices=" ++ show_opt vertices ++ ", rays=" ++ show_opt rays ++ ")".
(** polydd.py:187-188 and unused/polydd_pycddlib3.py:185-186 [FaceForm.__repr__] *)
Definition face_repr (A : M) (b : V) : string := "FaceForm(A=" ++ show_mat A ++ ", b=" ++ show_vec b ++ ")".
End Repr.
