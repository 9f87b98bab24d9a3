(** Model of /repo/src/rigeo/polydd.py.  The double description library (cdd) is an argument of
    the functions that call it. *)
From Verif Require Import Base.Vec Model.Util.

(** The parts of cdd.Matrix that the code uses: rows and the linear set. *)
Record CDD := { cdd_rows : mat; cdd_lin : list nat }.

(** boolean-mask and index-array selection of rows *)
Definition select {A} (mask : list bool) (l : list A) : list A :=
  map snd (filter fst (combine mask l)).
Definition take {A} (d : A) (idx : list nat) (l : list A) : list A := map (fun i => nth i l d) idx.

(** ** SpanForm *)
(** polydd.py:6-32 *)
Record SpanForm := { sf_vertices : option mat; sf_rays : option mat }.

(** polydd.py:17-32 [__init__] *)
Definition span_form (vertices rays span : option mat) : SpanForm :=
  {| sf_vertices := vertices;
     sf_rays := match span with
                | None => rays
                | Some s => match rays with
                            | None => Some (s ++ mneg s)
                            | Some r => Some (r ++ (s ++ mneg s))
                            end
                end |}.

(** polydd.py:37-45 *)
Definition sf_nv (f : SpanForm) : nat := match sf_vertices f with Some v => length v | None => 0 end.
Definition sf_nr (f : SpanForm) : nat := match sf_rays f with Some r => length r | None => 0 end.
(** polydd.py:47-55 [dim]; arrays always have a second dimension, an empty list of rows has
    [ncols] 0 in the model (numpy keeps the column count of a (0, d) array) *)
Definition sf_dim (f : SpanForm) : option nat :=
  match sf_rays f with
  | Some r => Some (ncols r)
  | None => match sf_vertices f with Some v => Some (ncols v) | None => None end
  end.

(** polydd.py:57-85 [from_cdd_matrix]; None is Python's None.  np.isclose(t, 1.0) has the default
    tolerances.  A linearity row whose first entry is not 0 fails the assertion. *)
Definition sf_from_cdd (m : CDD) : res (option SpanForm) :=
  match cdd_rows m with
  | [] => Ok None
  | M =>
      let t := col 0 M in
      let body := map (@tl R) M in
      let v_mask := map (fun a => isclose np_rtol np_atol a 1) t in
      let r_mask := map (fun a => isclose np_rtol np_atol a 0) t in
      let lin := map (fun i => existsb (Nat.eqb i) (cdd_lin m)) (seq 0 (length M)) in
      let* _ := assert_ (forallb (fun i => isclose np_rtol np_atol (nth i t 0) 0) (cdd_lin m)) in
      let r_mask := map2 (fun r l => r && negb l) r_mask lin in
      let pick mask := if existsb (fun b => b) mask then Some (select mask body) else None in
      Ok (Some (span_form (pick v_mask) (pick r_mask) (pick lin)))
  end.

(** polydd.py:87-94 [bounded] *)
Definition sf_bounded (f : SpanForm) : bool :=
  match sf_rays f, sf_vertices f with None, Some _ => true | _, _ => false end.
(** polydd.py:96-107 [is_cone] *)
Definition sf_is_cone (f : SpanForm) : bool :=
  match sf_rays f, sf_vertices f with Some _, None => true | _, _ => false end.

(** polydd.py:109-127 [to_cdd_matrix].  With neither vertices nor rays [self.dim + 1] is
    None + 1, a TypeError. *)
Definition sf_to_cdd (f : SpanForm) : res CDD :=
  match sf_vertices f, sf_rays f with
  | None, None => Raise TypeError
  | v, r =>
      let rows k o := match o with Some A => map (cons k) A | None => [] end in
      Ok {| cdd_rows := rows 1 v ++ rows 0 r; cdd_lin := [] |}
  end.

(** polydd.py:129-141 [canonical]; [canon] is cdd's canonicalize *)
Definition sf_canonical (canon : CDD -> CDD) (f : SpanForm) : res (option SpanForm) :=
  let* m := sf_to_cdd f in sf_from_cdd (canon m).

(** (rotation @ X.T).T + translation *)
Definition rows_move (rotation : mat) (translation : vec) (X : mat) : mat :=
  map (fun r => vadd r translation) (transpose (mat_mul rotation (transpose X))).

(** polydd.py:156-169 [transform].  The translation is added to the rays as well.  A form with
    neither vertices nor rays and a default argument calls np.eye(None), a TypeError. *)
Definition sf_transform (f : SpanForm) (rotation : option mat) (translation : option vec)
  : res SpanForm :=
  let* d := match sf_dim f, rotation, translation with
            | Some d, _, _ => Ok d
            | None, Some _, Some _ => Ok O
            | None, _, _ => Raise TypeError
            end in
  let rot := match rotation with None => eye d | Some r => r end in
  let tr := match translation with None => zeros d | Some t => t end in
  Ok (span_form (option_map (rows_move rot tr) (sf_vertices f))
                (option_map (rows_move rot tr) (sf_rays f)) None).

(** ** FaceForm *)
(** polydd.py:172-185 *)
Record FaceForm := { ff_A : mat; ff_b : vec }.

(** polydd.py:175-185 [__init__].  [A_eq] without [b_eq] is an AttributeError. *)
Definition face_form (A_ineq : mat) (b_ineq : vec) (A_eq : option mat) (b_eq : option vec)
  : res FaceForm :=
  match A_eq with
  | None => Ok {| ff_A := A_ineq; ff_b := b_ineq |}
  | Some Ae =>
      match b_eq with
      | None => Raise AttributeError
      | Some be =>
          let* _ := assert_ (Nat.eqb (length Ae) (length be)) in
          Ok {| ff_A := A_ineq ++ (Ae ++ mneg Ae); ff_b := b_ineq ++ (be ++ vneg be) |}
      end
  end.

(** polydd.py:190-213 [from_cdd_matrix].  An empty index list becomes a float array, which numpy
    rejects as an index: IndexError when every row is an equality; with no rows at all [M] is 1-d
    and [M[:, 0]] is an IndexError too. *)
Definition ff_from_cdd (m : CDD) : res FaceForm :=
  let M := cdd_rows m in
  let b := col 0 M in
  let A := map (fun r => vneg (tl r)) M in
  let ineq := filter (fun i => negb (existsb (Nat.eqb i) (cdd_lin m))) (seq 0 (length M)) in
  match ineq with
  | [] => Raise IndexError
  | _ =>
      match cdd_lin m with
      | [] => face_form (take [] ineq A) (take 0 ineq b) None None
      | eq => face_form (take [] ineq A) (take 0 ineq b) (Some (take [] eq A)) (Some (take 0 eq b))
      end
  end.

(** polydd.py:225-237 [to_cdd_matrix]: rows [b -A] *)
Definition ff_to_cdd (f : FaceForm) : CDD :=
  {| cdd_rows := map2 (fun b a => b :: vneg a) (ff_b f) (ff_A f); cdd_lin := [] |}.

(** polydd.py:239-249 [canonical] *)
Definition ff_canonical (canon : CDD -> CDD) (f : FaceForm) : res FaceForm :=
  ff_from_cdd (canon (ff_to_cdd f)).

(** polydd.py:251-268 [stack] *)
Definition ff_stack (f g : FaceForm) : res FaceForm :=
  face_form (ff_A f ++ ff_A g) (ff_b f ++ ff_b g) None None.

(** polydd.py:143-154 SpanForm.to_face_form; [ineqs] is cdd.Polyhedron(.).get_inequalities() *)
Definition sf_to_face_form (ineqs : CDD -> CDD) (f : SpanForm) : res FaceForm :=
  let* m := sf_to_cdd f in ff_from_cdd (ineqs m).
(** polydd.py:270-281 FaceForm.to_span_form; [gens] is cdd.Polyhedron(.).get_generators() *)
Definition ff_to_span_form (gens : CDD -> CDD) (f : FaceForm) : res (option SpanForm) :=
  sf_from_cdd (gens (ff_to_cdd f)).

(** polydd.py:215-218 [nf] *)
Definition ff_nf (f : FaceForm) : nat := length (ff_A f).
(** polydd.py:220-223, 283-291 [transform] *)
Definition ff_dim (f : FaceForm) : nat := ncols (ff_A f).
Definition ff_transform (f : FaceForm) (rotation : option mat) (translation : option vec)
  : res FaceForm :=
  let rot := match rotation with None => eye (ff_dim f) | Some r => r end in
  let tr := match translation with None => zeros (ff_dim f) | Some t => t end in
  let A := mat_mul (ff_A f) (transpose rot) in
  face_form A (vadd (ff_b f) (mat_vec A tr)) None None.

(** polydd.py:294-317 [convex_hull]; the points array is 2-d by type *)
Definition convex_hull (canon : CDD -> CDD) (points : mat) : res (option mat) :=
  match points with
  | [] | [_] => Ok (Some points)
  | _ =>
      let* f := sf_canonical canon (span_form (Some points) None None) in
      match f with
      | None => Raise AttributeError
      | Some f => Ok (sf_vertices f)
      end
  end.
