(** Model of /repo/src/rigeo/shape/box.py (random points are in Model/Random.v, the moment
    constraints in Model/Realize.v), and of the Ellipsoid/ConvexPolyhedron methods that build
    boxes. *)
From Verif Require Import Base.Vec Base.Ext Model.Util Model.Polydd Model.Poly Model.Inertial
  Model.Ellipsoid.

(** box.py:56-76: the stored attributes; [b_poly] holds the forms stored by ConvexPolyhedron *)
Record Box := { b_half : vec; b_center : vec; b_rot : mat; b_poly : Poly }.

(** box.py:11-15 [_box_vertices] *)
Definition box_vertices_at (half : vec) (rotation : option mat) (center : option vec) : res mat :=
  let* rt := clean_transform rotation center 3 in
  Ok (rows_move (fst rt) (snd rt) (box_vertices half)).
(** box.py:18-30 [_box_inequalities] *)
Definition box_normals : mat :=
  [[1; 0; 0]; [-1; 0; 0]; [0; 1; 0]; [0; -1; 0]; [0; 0; 1]; [0; 0; -1]].
Definition box_inequalities (half : vec) (rotation : option mat) (center : option vec)
  : res (mat * vec) :=
  let* rt := clean_transform rotation center 3 in
  match half with
  | [x; y; z] =>
      let A := mat_mul box_normals (transpose (fst rt)) in
      Ok (A, vadd [x; x; y; y; z; z] (mat_vec A (snd rt)))
  | _ => Raise ValueError
  end.

(** box.py:56-76 [__init__].  Both forms are given, so the ConvexPolyhedron constructor calls no
    double description routine; the span form is bounded by construction. *)
Definition box_init (half : vec) (center : option vec) (rotation : option mat) : res Box :=
  let* _ := assert_ (is_vecb 3 half) in
  let* _ := assert_ (forallb (Rleb 0) half) in
  let* rt := clean_transform rotation center 3 in
  let* vs := box_vertices_at half (Some (fst rt)) (Some (snd rt)) in
  let* Ab := box_inequalities half (Some (fst rt)) (Some (snd rt)) in
  let* f := face_form (fst Ab) (snd Ab) None None in
  Ok {| b_half := half; b_center := snd rt; b_rot := fst rt;
        b_poly := {| p_face := f; p_span := span_form (Some vs) None None |} |}.

(** box.py:78-83 [cube] *)
Definition box_cube (half_extent : R) (center : option vec) (rotation : option mat) : res Box :=
  let* _ := assert_ (Rleb 0 half_extent) in
  box_init (vscale half_extent (ones 3)) center rotation.
(** box.py:85-90 [from_side_lengths] *)
Definition box_from_side_lengths (lengths : vec) (center : option vec) (rotation : option mat) : res Box :=
  box_init (vscale (1 / 2) lengths) center rotation.
(** box.py:92-99 [from_two_vertices] *)
Definition box_from_two_vertices (v1 v2 : vec) : res Box :=
  let center := vscale (1 / 2) (vadd v1 v2) in
  let half := vscale (1 / 2) (vsub (map2 Rmax v1 v2) (map2 Rmin v1 v2)) in
  box_init half (Some center) None.
(** box.py:101-106 [from_points_to_bound]; np.min of an empty array raises ValueError *)
Definition col_min (points : mat) : vec := map lmin (transpose points).
Definition col_max (points : mat) : vec := map lmax (transpose points).
Definition box_from_points_to_bound (points : mat) : res Box :=
  match points with
  | [] => Raise ValueError
  | _ => box_from_two_vertices (col_min points) (col_max points)
  end.

(** box.py:111-124 *)
Definition b_side_lengths (b : Box) : vec := vscale 2 (b_half b).
Definition b_volume (b : Box) : R := vprod (b_side_lengths b).
Definition b_diaglen (b : Box) : R := 2 * norm (b_half b).

(** inherited ConvexPolyhedron members *)
Definition b_A (b : Box) : mat := p_A (b_poly b).
Definition b_b (b : Box) : vec := p_b (b_poly b).
Definition b_vertices (b : Box) : mat := p_vertices (b_poly b).
Definition box_contains (b : Box) (p : vec) (tol : R) : bool := poly_contains (b_poly b) p tol.
Definition box_contains_all (b : Box) (ps : mat) (tol : R) : list bool :=
  poly_contains_all (b_poly b) ps tol.

(** box.py:221-257 [on_surface] for one row of points *)
Definition box_on_surface (b : Box) (point : vec) (tol : R) : bool :=
  let contained := box_contains b point tol in
  let q := vec_mat (vsub point (b_center b)) (b_rot b) in
  let mask i := isclose 0 tol (Rabs (nth i q 0)) (nth i (b_half b) 0) in
  contained && (mask 0%nat || mask 1%nat || mask 2%nat).

(** np.linspace(a, b, n): n = 1 gives [a] *)
Definition linspace (a b : R) (n : nat) : vec :=
  map (fun k => a + INR k * ((b - a) / INR (n - 1))) (seq 0 n).
(** box.py:259-286 [grid].  np.meshgrid with its default 'xy' indexing: the flattened arrays run
    over y (outermost), x, z (innermost). *)
Definition meshgrid3 (x y z : vec) : mat :=
  flat_map (fun b => flat_map (fun a => map (fun c => [a; b; c]) z) x) y.
Definition box_grid (b : Box) (n1 n2 n3 : nat) : mat :=
  let g i n := linspace (- nth i (b_half b) 0) (nth i (b_half b) 0) n in
  rows_move (b_rot b) (b_center b) (meshgrid3 (g 0%nat n1) (g 1%nat n2) (g 2%nat n3)).

(** box.py:288-297 [transform] *)
Definition box_transform (b : Box) (rotation : option mat) (translation : option vec) : res Box :=
  let* rt := clean_transform rotation translation 3 in
  box_init (b_half b) (Some (vadd (mat_vec (fst rt) (b_center b)) (snd rt)))
           (Some (mat_mul (fst rt) (b_rot b))).
(** box.py:299-318 [rotate_about_center] *)
Definition box_rotate_about_center (b : Box) (rotation : mat) : res Box :=
  let* _ := assert_ (is_matb 3 3 rotation) in
  box_init (b_half b) (Some (b_center b)) (Some (mat_mul rotation (b_rot b))).

(** box.py:320-330 [mie] *)
Definition box_mie (b : Box) (sphere : bool) : res Ell :=
  if sphere then ell_sphere (lmin (b_half b)) (Some (b_center b))
  else ell_init (b_half b) (Some (b_rot b)) (Some (b_center b)).
(** box.py:332-343 [mbe] *)
Definition box_mbe (b : Box) (sphere : bool) : res Ell :=
  let half := map (fun h => h * sqrt 3) (b_half b) in
  if sphere then ell_sphere (lmax half) (Some (b_center b))
  else ell_init half (Some (b_rot b)) (Some (b_center b)).
(** box.py:345-352 [as_poly] *)
Definition box_as_poly (dd : DD) (b : Box) : res Poly := poly_from_vertices dd (b_vertices b) false.

(** InertialParameters(mass=mass, h=np.zeros(3), H=diag(d)).transform(rotation, center), the common
    tail of all density parameter methods *)
Definition density_params (mass : R) (H : mat) (rotation : mat) (center : vec) : res IP :=
  let* p := ip_init mass (Some (zeros 3)) None (Some H) None false in
  ip_transform p (Some rotation) (Some center).

(** box.py:381-401 [uniform_density_params] *)
Definition mdivs (A : mat) (c : R) : mat := map (fun r => vdivs r c) A.
Definition box_uniform_density_params (b : Box) (mass : R) : res IP :=
  let* _ := assert_ (Rleb 0 mass) in
  density_params mass (mdivs (mscale mass (diag (vsq (b_half b)))) 3) (b_rot b) (b_center b).
(** box.py:403-430 [hollow_density_params]; d = 0 divides 0 by 0 *)
Definition box_hollow_density_params (b : Box) (mass : R) : res IP :=
  let* _ := assert_ (Rleb 0 mass) in
  match b_half b with
  | [x; y; z] =>
      let d := 3 * (x * y + x * z + y * z) in
      if Reqb d 0 then NonFinite else
      let Hxx := x ^ 2 * (x * y + x * z + 3 * y * z) / d in
      let Hyy := y ^ 2 * (x * y + 3 * x * z + y * z) / d in
      let Hzz := z ^ 2 * (3 * x * y + x * z + y * z) / d in
      density_params mass (mscale mass (diag [Hxx; Hyy; Hzz])) (b_rot b) (b_center b)
  | _ => Raise ValueError
  end.
(** box.py:432-459 [wireframe_density_params] *)
Definition box_wireframe_density_params (b : Box) (mass : R) : res IP :=
  let* _ := assert_ (Rleb 0 mass) in
  match b_half b with
  | [x; y; z] =>
      let d := x + y + z in
      if Reqb d 0 then NonFinite else
      let Hxx := x ^ 2 * (x / 3 + y + z) / d in
      let Hyy := y ^ 2 * (x + y / 3 + z) / d in
      let Hzz := z ^ 2 * (x + y + z / 3) / d in
      density_params mass (mscale mass (diag [Hxx; Hyy; Hzz])) (b_rot b) (b_center b)
  | _ => Raise ValueError
  end.

(** ** Methods of other shapes that return boxes *)
(** ellipsoid.py:424-432 [mbb] *)
Definition ell_mbb (e : Ell) : res Box := box_init (e_half e) (Some (e_center e)) (Some (e_rot e)).
(** ellipsoid.py:434-442 [mib] *)
Definition ell_mib (e : Ell) : res Box :=
  box_init (vdivs (e_half e) (sqrt 3)) (Some (e_center e)) (Some (e_rot e)).
(** ellipsoid.py:444-449 [aabb] *)
Definition ell_aabb (e : Ell) : res Box :=
  let s := map sqrt (diagonal (e_E e)) in
  box_from_two_vertices (vsub (e_center e) s) (vadd (e_center e) s).
(** poly.py:193-196 [aabb] *)
Definition poly_aabb (p : Poly) : res Box := box_from_points_to_bound (p_vertices p).

(** base.py:153-172, poly.py:347-351 [grid] of a shape given by its aabb and [contains] (default
    tolerance 1e-8).  Shape.grid asserts n > 0; ConvexPolyhedron.grid does not. *)
Definition grid_of (aabb : res Box) (contains_all : mat -> list bool) (n : nat) : res mat :=
  let* b := aabb in
  let g := box_grid b n n n in
  Ok (select (contains_all g) g).
Definition shape_grid (aabb : res Box) (contains_all : mat -> list bool) (n : nat) : res mat :=
  let* _ := assert_ (Nat.ltb 0 n) in
  grid_of aabb contains_all n.

(** ellipsoid.py:561-581 [uniform_density_params] *)
Definition ell_uniform_density_params (e : Ell) (mass : R) : res IP :=
  let* _ := assert_ (Rleb 0 mass) in
  density_params mass (mdivs (mscale mass (diag (vsq (e_half e)))) 5) (e_rot e) (e_center e).
(** ellipsoid.py:583-610 [hollow_density_params]; unpacking other than 3 half extents raises
    ValueError *)
Definition ell_hollow_density_params (e : Ell) (mass : R) : res IP :=
  let* _ := assert_ (Rleb 0 mass) in
  match e_half e with
  | [x; y; z] =>
      let d := 5 * (x * y + x * z + y * z) in
      if Reqb d 0 then NonFinite else
      let Hxx := x ^ 2 * (x * y + x * z + 3 * y * z) / d in
      let Hyy := y ^ 2 * (x * y + 3 * x * z + y * z) / d in
      let Hzz := z ^ 2 * (3 * x * y + x * z + y * z) / d in
      density_params mass (mscale mass (diag [Hxx; Hyy; Hzz])) (e_rot e) (e_center e)
  | _ => Raise ValueError
  end.
