(** Property C96: printed forms (moment.py, inertial.py, spatial.py, polydd.py, shape/*.py). *)
From Coq Require Import String Ascii List.
From Verif Require Import Model.Print Spec.Text Proofs.PrintP.
Import ListNotations.
Local Open Scope string_scope.

Theorem C96_index : forall u v,
  digits_only u -> digits_only v -> idx_str u = idx_str v -> u = v.
Proof. exact idx_str_inj. Qed.
Print Assumptions C96_index.
Theorem C96_low_degree : forall u v,
  length u = length v -> deg u <= 10 -> deg v <= 10 -> idx_str u = idx_str v -> u = v.
Proof. exact low_degree. Qed.
Print Assumptions C96_low_degree.
Theorem C96_index_clash_refuted : exists u v, length u = 2 /\ length v = 2 /\ fold_right Nat.add 0 u = 11 /\ fold_right Nat.add 0 v = 11 /\ u <> v /\ idx_str u = idx_str v.
Proof. exact idx_str_clash. Qed.
Print Assumptions C96_index_clash_refuted.
Theorem C96_polynomial : forall (K : Type) (show : K -> string) (p q : list (list nat * K)),
  faithful show -> (forall c, free_of " " (show c)) ->
  Forall (fun kv => digits_only (fst kv)) p -> Forall (fun kv => digits_only (fst kv)) q -> pol_str show p = pol_str show q -> p = q.
Proof. exact @pol_str_inj. Qed.
Print Assumptions C96_polynomial.
Theorem C96_parameters : forall (K V M : Type) (show : K -> string) (show_vec : V -> string) (show_mat : M -> string) m c H m' c' H',
  (forall x, free_of "=" (show x)) -> (forall x, free_of "=" (show_vec x)) -> ip_repr show show_vec show_mat m c H = ip_repr show show_vec show_mat m' c' H' ->
  show m = show m' /\ show_vec c = show_vec c' /\ show_mat H = show_mat H'.
Proof. exact @params_repr. Qed.
Print Assumptions C96_parameters.
Theorem C96_spatial : forall (V : Type) (show_vec : V -> string) a b a' b',
  (forall x, free_of "=" (show_vec x)) -> sv_repr show_vec a b = sv_repr show_vec a' b' -> show_vec a = show_vec a' /\ show_vec b = show_vec b'.
Proof. exact @spatial_repr. Qed.
Print Assumptions C96_spatial.
Theorem C96_shapes : forall (V M : Type) (show_vec : V -> string) (show_mat : M -> string) h c r h' c' r',
  (forall x, free_of "=" (show_vec x)) ->
  (box_repr show_vec show_mat h c r = box_repr show_vec show_mat h' c' r' -> show_vec h = show_vec h' /\ show_vec c = show_vec c' /\ show_mat r = show_mat r') /\
  (ell_repr show_vec show_mat h c r = ell_repr show_vec show_mat h' c' r' -> show_vec h = show_vec h' /\ show_vec c = show_vec c' /\ show_mat r = show_mat r') /\
  box_repr show_vec show_mat h c r <> ell_repr show_vec show_mat h' c' r'.
Proof. exact @shape_repr. Qed.
Print Assumptions C96_shapes.
Theorem C96_polyhedra : forall (V M : Type) (show_vec : V -> string) (show_mat : M -> string) A b A' b' v r v' r',
  (forall x, free_of "=" (show_mat x)) ->
  (poly_repr show_mat A = poly_repr show_mat A' -> show_mat A = show_mat A') /\
  (face_repr show_vec show_mat A b = face_repr show_vec show_mat A' b' -> show_mat A = show_mat A' /\ show_vec b = show_vec b') /\
  (span_repr show_mat v r = span_repr show_mat v' r' -> show_opt show_mat v = show_opt show_mat v' /\ show_opt show_mat r = show_opt show_mat r').
Proof. exact @polyhedron_repr. Qed.
Print Assumptions C96_polyhedra.
Theorem C96_missing : forall (M : Type) (show_mat : M -> string) o o',
  faithful show_mat -> (forall m, show_mat m <> "None") -> show_opt show_mat o = show_opt show_mat o' -> o = o'.
Proof. exact @show_opt_inj. Qed.
Print Assumptions C96_missing.
Example C96_printer : faithful str_nat /\ (forall n, free_of " " (str_nat n)) /\ (forall n, free_of "=" (str_nat n)) /\ (forall n, str_nat n <> "None").
Proof. exact str_nat_ok. Qed.
Example C96_example : pol_str str_nat [([2; 0], 3); ([0; 1], 12)] = "3 * x^20 + 12 * x^01" /\ digits_only [2; 0] /\ digits_only [0; 1] /\
  box_repr str_nat str_nat 1 2 3 = "Box(half_extents=1, center=2, rotation=3)" /\ idx_str [1; 10] = "110".
Proof. exact print_example. Qed.
