(** Model of /repo/src/rigeo/shape/poly.py (ConvexPolyhedron) except the moment constraints
    (Model/Realize.v).  [_box_vertices] (poly.py:14-29) is unused dead code. *)
From Verif Require Import Base.Vec Model.Util Model.Polydd Model.Inertial.

(** poly.py:48-60: the two forms; [_polys] is derived from the face form (Model/Realize.v) *)
Record Poly := { p_face : FaceForm; p_span : SpanForm }.

(** The double description library. *)
Record DD := { dd_ineqs : CDD -> CDD; dd_gens : CDD -> CDD; dd_canon : CDD -> CDD }.

(** poly.py:48-60 [__init__].  Neither form: None.to_face_form() is an AttributeError; an empty
    set makes to_span_form return None, and None.bounded() is an AttributeError. *)
Definition poly_init (dd : DD) (face : option FaceForm) (span : option SpanForm) : res Poly :=
  let* f := match face with
            | Some f => Ok f
            | None => match span with
                      | Some s => sf_to_face_form (dd_ineqs dd) s
                      | None => Raise AttributeError
                      end
            end in
  let* s := match span with
            | Some s => Ok s
            | None => let* o := ff_to_span_form (dd_gens dd) f in
                      match o with Some s => Ok s | None => Raise AttributeError end
            end in
  if sf_bounded s then Ok {| p_face := f; p_span := s |} else Raise ValueError.

(** poly.py:62-77 [from_vertices] *)
Definition poly_from_vertices (dd : DD) (vertices : mat) (prune : bool) : res Poly :=
  let s := span_form (Some vertices) None None in
  if prune then
    let* o := sf_canonical (dd_canon dd) s in
    poly_init dd None o
  else poly_init dd None (Some s).

(** poly.py:79-100 [from_halfspaces] *)
Definition poly_from_halfspaces (dd : DD) (A : mat) (b : vec) (prune : bool) : res Poly :=
  let* f := face_form A b None None in
  if prune then let* g := ff_canonical (dd_canon dd) f in poly_init dd (Some g) None
  else poly_init dd (Some f) None.

(** poly.py:102-126 [simplex] *)
Definition poly_simplex (dd : DD) (extents : vec) : res Poly :=
  let* _ := assert_ (forallb (Rltb 0) extents) in
  poly_from_vertices dd (zeros (length extents) :: diag extents) false.

(** poly.py:131-159.  A bounded polyhedron has vertices. *)
Definition p_A (p : Poly) : mat := ff_A (p_face p).
Definition p_b (p : Poly) : vec := ff_b (p_face p).
Definition p_vertices (p : Poly) : mat := match sf_vertices (p_span p) with Some v => v | None => [] end.
Definition p_nv (p : Poly) : nat := sf_nv (p_span p).
Definition p_dim (p : Poly) : nat := match sf_dim (p_span p) with Some d => d | None => O end.

(** np.all(x <= y) *)
Definition all_le (x y : vec) : bool := forallb (fun b => b) (map2 Rleb x y).
(** b + tol *)
Definition add_tol (b : vec) (tol : R) : vec := map (fun x => x + tol) b.

(** poly.py:161-164 [contains], one point *)
Definition poly_contains (p : Poly) (point : vec) (tol : R) : bool :=
  all_le (mat_vec (p_A p) point) (add_tol (p_b p) tol).
(** poly.py:165 [contains], array of points *)
Definition poly_contains_all (p : Poly) (points : mat) (tol : R) : list bool :=
  map (fun r => all_le r (add_tol (p_b p) tol)) (mat_mul points (transpose (p_A p))).

(** poly.py:167-170 [must_contain], one point *)
Definition poly_must_contain (p : Poly) (point : vec) (scale : R) : Prop :=
  Forall2 Rle (mat_vec (p_A p) point) (vscale scale (p_b p)).

(** base.py:24-39 [contains_polyhedron], shape given by its [contains] on arrays *)
Definition contains_polyhedron (contains_all : mat -> R -> list bool) (poly : Poly) (tol : R) : bool :=
  forallb (fun b => b) (contains_all (p_vertices poly) tol).

(** The Python class of a polyhedral object: ConvexPolyhedron (poly.py:32) or its subclass Box
    (box.py:33, class Box(ConvexPolyhedron)). *)
Inductive pclass := KPoly | KBox.
(** isinstance(other, self.__class__) *)
Definition isinstance_of (self other : pclass) : bool :=
  match self, other with KBox, KPoly => false | _, _ => true end.
(** poly.py:172-177 [is_same]; [inst] is isinstance(other, self.__class__) *)
Definition poly_is_same (inst : bool) (p q : Poly) (tol : R) : bool :=
  if negb inst then false
  else contains_polyhedron (poly_contains_all p) q tol &&
       contains_polyhedron (poly_contains_all q) p tol.

(** poly.py:243-262 [intersect]; Ok None is Python's None.  The constructor recomputes the face
    form from the span form. *)
Definition poly_intersect (dd : DD) (p q : Poly) : res (option Poly) :=
  let* f := ff_stack (p_face p) (p_face q) in
  let* s := ff_to_span_form (dd_gens dd) f in
  match s with
  | None => Ok None
  | Some s => let* r := poly_init dd None (Some s) in Ok (Some r)
  end.

(** poly.py:312-317 [transform]: new_vertices = vertices @ R.T + t.  [self.from_vertices] on a
    ConvexPolyhedron; Box overrides the method. *)
Definition poly_transform (dd : DD) (p : Poly) (rotation : option mat) (translation : option vec)
  : res Poly :=
  let* rt := clean_transform rotation translation (p_dim p) in
  let vs := map (fun r => vadd r (snd rt)) (mat_mul (p_vertices p) (transpose (fst rt))) in
  poly_from_vertices dd vs false.

(** poly.py:319-345 [vertex_point_mass_params] *)
Inductive mass_arg := MassScalar (m : R) | MassArray (ms : vec).
Definition poly_vertex_point_mass_params (p : Poly) (mass : mass_arg) : res IP :=
  let masses := match mass with
                | MassScalar m => map (fun a => m * a / INR (p_nv p)) (ones (p_nv p))
                | MassArray ms => ms
                end in
  let* _ := assert_ (Nat.eqb (length masses) (p_nv p)) in
  let* _ := assert_ (forallb (Rleb 0) masses) in
  ip_from_point_masses masses (p_vertices p).
