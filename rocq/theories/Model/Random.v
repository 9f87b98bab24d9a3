(** Model of /repo/src/rigeo/random.py and of the methods that draw random points.

    The generator is not modelled: its draws are arguments, and the theorems range over all draws
    in the range that numpy documents (rng.random in [0, 1), rng.uniform(low, high) in [low, high),
    rng.normal any real, rng.multinomial(n, p) non-negative integers with sum n, rng.shuffle a
    permutation).  An array of points of any shape (s1, ..., sk, d) is the list of its
    n = s1 * ... * sk rows; the reshape/squeeze at the end of each function only regroups these
    rows and is not modelled.  The distribution of the draws is not modelled. *)
From Verif Require Import Base.Vec Model.Util Model.Polydd Model.Poly Model.Inertial Model.Ellipsoid
  Model.Box Model.Cylinder.

(** random.py:5-25 [random_psd_matrix]; [A] is the uniform draw *)
Definition random_psd_matrix (A : mat) : mat := mat_mul (transpose A) A.

(** random.py:28-47 [random_weight_vectors]; one row of draws per weight vector; 0 / 0 is nan *)
Definition weight_vector (w : vec) : res vec :=
  let s := lsum w in if Reqb s 0 then NonFinite else Ok (vdivs w s).
Definition random_weight_vectors (W : mat) : res mat := mapM weight_vector W.

(** random.py:50-71 [random_points_on_hypersphere]; the rows of [X] are normal draws of dim + 1
    entries; a zero row gives nan *)
Definition normalize_row (x : vec) : res vec :=
  let r := norm x in if Reqb r 0 then NonFinite else Ok (vdivs x r).
Definition random_points_on_hypersphere (dim : nat) (X : mat) : res mat :=
  let* _ := assert_ (Nat.leb 1 dim) in mapM normalize_row X.

(** c ** p for c >= 0 and p > 0 *)
Definition rpow (c p : R) : R := if Reqb c 0 then 0 else Rpower c p.
(** random.py:74-89 [random_points_in_ball]; [c] holds one uniform draw per point *)
Definition random_points_in_ball (dim : nat) (X : mat) (c : vec) : res mat :=
  let* _ := assert_ (Nat.leb 1 dim) in
  let* s := random_points_on_hypersphere (dim - 1) X in
  Ok (map2 (fun a x => vscale (rpow a (1 / INR dim)) x) c s).

(** box.py:126-137 [Box.random_points]; the rows of [U] are uniform draws in [-1, 1) *)
Definition box_random_points (b : Box) (U : mat) : mat :=
  rows_move (b_rot b) (b_center b) (map (fun u => vmul u (b_half b)) U).

(** ** slice assignment *)
Definition mapi {A B} (f : nat -> A -> B) (l : list A) : list B := map2 f (seq 0 (length l)) l.
(** row[j] = v *)
Definition set_coord (j : nat) (v : R) (p : vec) : vec := firstn j p ++ [v] ++ skipn (S j) p.
(** points[a:b] = f(row number, row) for each row of the slice *)
Definition set_rows (a b : nat) (f : nat -> vec -> vec) (P : mat) : mat :=
  mapi (fun k p => if (Nat.leb a k && Nat.ltb k b)%bool then f k p else p) P.
(** np.cumsum *)
Fixpoint cumsum_from (a : nat) (l : list nat) : list nat :=
  match l with [] => [] | x :: r => (a + x)%nat :: cumsum_from (a + x) r end.
Definition cumsum (l : list nat) : list nat := cumsum_from 0 l.

(** box.py:139-175 [Box.random_points_on_surface].  [U] are the draws of self.random_points(n),
    [counts] the multinomial draw and [shuffle] the permutation.  If all faces have area 0 then
    pvals is nan and multinomial raises ValueError.  For n = 1 self.random_points returns one point
    of shape (3,), which the index expression points[0 : idx[0], 0] does not accept. *)
Definition box_random_points_on_surface (b : Box) (n : nat) (U : mat) (counts : list nat)
    (shuffle : mat -> mat) : res mat :=
  let points := box_random_points b U in
  match b_half b with
  | [x; y; z] =>
      let Ax := 4 * y * z in
      let Ay := 4 * x * z in
      let Az := 4 * x * y in
      let A := 2 * (Ax + Ay + Az) in
      if Reqb A 0 then Raise ValueError
      else if Nat.eqb n 1 then Raise IndexError
      else
        let idx := cumsum counts in
        let i k := nth k idx 0%nat in
        let points := set_rows 0 (i 0%nat) (fun _ => set_coord 0 x) points in
        let points := set_rows (i 0%nat) (i 1%nat) (fun _ => set_coord 0 (- x)) points in
        let points := set_rows (i 1%nat) (i 2%nat) (fun _ => set_coord 1 y) points in
        let points := set_rows (i 2%nat) (i 3%nat) (fun _ => set_coord 1 (- y)) points in
        let points := set_rows (i 3%nat) (i 4%nat) (fun _ => set_coord 2 z) points in
        let points := set_rows (i 4%nat) n (fun _ => set_coord 2 (- z)) points in
        Ok (rows_move (b_rot b) (b_center b) (shuffle points))
  | _ => Raise ValueError
  end.

(** box.py:177-219 [Box.random_points_on_edges].  [tx], [ty], [tz] are the three uniform draws. *)
Definition box_random_points_on_edges (b : Box) (n : nat) (counts : list nat) (tx ty tz : vec)
    (shuffle : mat -> mat) : res mat :=
  match b_half b with
  | [x; y; z] =>
      let L := 4 * (x + y + z) in
      if Reqb L 0 then Raise ValueError
      else
        let idx := cumsum (0%nat :: counts) in
        let i k := nth k idx 0%nat in
        let points := zeros2 n 3 in
        let points := set_rows 0 (i 4%nat) (fun k => set_coord 0 (x * nth k tx 0)) points in
        let yz j (v w : R) := set_rows (i j) (i (S j)) (fun _ p => set_coord 2 w (set_coord 1 v p)) in
        let points := yz 3%nat (- y) z (yz 2%nat (- y) (- z) (yz 1%nat y (- z) (yz 0%nat y z points))) in
        let points := set_rows (i 4%nat) (i 8%nat)
                        (fun k => set_coord 1 (y * nth (k - i 4%nat) ty 0)) points in
        let xz j (v w : R) := set_rows (i j) (i (S j)) (fun _ p => set_coord 2 w (set_coord 0 v p)) in
        let points := xz 7%nat (- x) z (xz 6%nat (- x) (- z) (xz 5%nat x (- z) (xz 4%nat x z points))) in
        let points := set_rows (i 8%nat) n
                        (fun k => set_coord 2 (z * nth (k - i 8%nat) tz 0)) points in
        let xy j (v w : R) := set_rows (i j) (i (S j)) (fun _ p => set_coord 1 w (set_coord 0 v p)) in
        let points := xy 11%nat (- x) y (xy 10%nat (- x) (- y) (xy 9%nat x (- y) (xy 8%nat x y points))) in
        Ok (rows_move (b_rot b) (b_center b) (shuffle points))
  | _ => Raise ValueError
  end.

(** box.py:154-159 and box.py:187-189: the probabilities of the faces and of the edges *)
Definition box_face_pvals (b : Box) : vec :=
  match b_half b with
  | [x; y; z] =>
      let Ax := 4 * y * z in
      let Ay := 4 * x * z in
      let Az := 4 * x * y in
      let A := 2 * (Ax + Ay + Az) in vdivs [Ax; Ax; Ay; Ay; Az; Az] A
  | _ => []
  end.
Definition box_edge_pvals (b : Box) : vec :=
  match b_half b with
  | [x; y; z] => let L := 4 * (x + y + z) in vdivs [x; x; x; x; y; y; y; y; z; z; z; z] L
  | _ => []
  end.
(** the two methods with [multinomial n pvals] standing for rng.multinomial (box.py:163, box.py:190) *)
Definition box_sample_surface (multinomial : nat -> vec -> list nat) (b : Box) (n : nat) (U : mat)
    (shuffle : mat -> mat) : res mat :=
  box_random_points_on_surface b n U (multinomial n (box_face_pvals b)) shuffle.
Definition box_sample_edges (multinomial : nat -> vec -> list nat) (b : Box) (n : nat) (tx ty tz : vec)
    (shuffle : mat -> mat) : res mat :=
  box_random_points_on_edges b n (multinomial n (box_edge_pvals b)) tx ty tz shuffle.

(** cylinder.py:233-240 [Cylinder.random_points]; [Z] uniform draws in [-1/2, 1/2) *)
Definition cyl_random_points (c : Cyl) (Z : vec) (X : mat) (u : vec) : res mat :=
  let Pz := map (fun t => c_length c * t) Z in
  let* B := random_points_in_ball 2 X u in
  let Pxy := map (vscale (c_radius c)) B in
  let P := map2 (fun xy z => xy ++ [z]) Pxy Pz in
  Ok (map (fun p => vadd p (c_center c)) (mat_mul P (transpose (c_rot c)))).

(** poly.py:179-191 [ConvexPolyhedron.random_points]; each row of [W] has nv entries *)
Definition poly_random_points (p : Poly) (W : mat) : res mat :=
  let* w := random_weight_vectors W in Ok (mat_mul w (p_vertices p)).

(** ellipsoid.py:451-460 [Ellipsoid.random_points] *)
Definition ell_random_points (e : Ell) (X : mat) (u : vec) : res mat :=
  let* B := random_points_in_ball (length (e_half e)) X u in
  let Ainv := mat_mul (mat_mul (e_rot e) (diag (e_half e))) (transpose (e_rot e)) in
  Ok (map (fun p => vadd p (e_center e)) (mat_mul B Ainv)).

(** ellipsoid.py:462-510 [Ellipsoid.random_points_on_surface].  [draw k r] are the normal and the
    uniform draws of turn k of the loop when r points are missing.  The loop of the code is
    unbounded: [None] means that it is still running after [fuel] turns.  A turn whose normal draws
    contain a zero row is NonFinite here (numpy would compare with nan and reject that row). *)
Definition surface_g (m : R) (d r : vec) : R := m * sqrt (lsum (vmul (map (fun a => a ^ 2) r) d)).
Definition surface_accept (half : vec) (p : mat) (u : vec) : mat :=
  let d := map (fun a => 1 / a ^ 4) half in
  let m := lmin half in
  let r := map (fun x => vmul x half) p in
  let accept := map2 (fun v x => Rleb v (surface_g m d x)) u r in
  map fst (filter snd (combine r accept)).
(** points[count : count + len(new)] = new *)
Definition write_rows (points : mat) (count : nat) (new : mat) : mat :=
  firstn count points ++ new ++ skipn (count + length new) points.
Fixpoint ell_surface_loop (half : vec) (n : nat) (draw : nat -> nat -> mat * vec) (fuel turn : nat)
    (points : mat) (count : nat) : option (res mat) :=
  if Nat.ltb count n then
    match fuel with
    | O => None
    | S fuel =>
        let rem := (n - count)%nat in
        let '(X, u) := draw turn rem in
        match random_points_on_hypersphere (length half - 1) X with
        | Ok p =>
            let new := surface_accept half p u in
            ell_surface_loop half n draw fuel (S turn) (write_rows points count new) (count + length new)
        | Raise e => Some (Raise e)
        | NonFinite => Some NonFinite
        end
    end
  else Some (Ok points).
Definition ell_random_points_on_surface (e : Ell) (n : nat) (draw : nat -> nat -> mat * vec) (fuel : nat)
  : option (res mat) :=
  if forallb (Rltb 0) (e_half e) then
    match ell_surface_loop (e_half e) n draw fuel 0 (zeros2 n (length (e_half e))) 0 with
    | Some (Ok points) =>
        Some (Ok (map (fun p => vadd p (e_center e)) (mat_mul points (e_rot e))))
    | r => r
    end
  else Some (Raise AssertionError).

(** random.py:92-137 [rejection_sample].  [inside] are the [contains] methods of the actual shapes,
    [draw k r] is the array of the r candidates that bounding_shape.random_points(r) returns on try
    number k.  The recursion is on max_tries - tries. *)
Fixpoint rejection_loop (inside : list (vec -> bool)) (draw : nat -> nat -> mat) (n : nat)
    (rest tries : nat) (points : mat) (m : nat) : res mat :=
  if Nat.ltb m n then
    match rest with
    | O => Raise ValueError
    | S rest =>
        let candidates := draw tries (n - m)%nat in
        let c := map (fun x => existsb (fun s => s x) inside) candidates in
        if negb (existsb (fun b => b) c) then rejection_loop inside draw n rest (S tries) points m
        else
          let new := map fst (filter snd (combine candidates c)) in
          rejection_loop inside draw n rest (S tries) (write_rows points m new) (m + length new)
    end
  else Ok points.
Definition rejection_sample (inside : list (vec -> bool)) (draw : nat -> nat -> mat) (n max_tries : nat)
  : res mat := rejection_loop inside draw n max_tries 0 (zeros2 n 3) 0.

(** the default of max_tries, random.py:93 *)
Definition default_max_tries : nat := Z.to_nat 10000.
(** capsule.py:93-100 [Capsule.random_points]; [U k r] are the uniform draws of the r candidates of
    try number k *)
Definition caps_random_points (k : Caps) (U : nat -> nat -> mat) (n : nat) : res mat :=
  let* b := caps_mbb k in
  rejection_sample [fun p => caps_contains k p default_tol] (fun t r => box_random_points b (U t r)) n default_max_tries.

(** inertial.py:180-190 [InertialParameters.random]: draws [u], [c] in [0, 1) and [A] in [-1, 1) *)
Definition ip_random (u : R) (c : vec) (A : mat) : res IP :=
  let mass := 1 / 10 + u * (9 / 10) in
  let com := map (fun a => a - 1 / 2) c in
  let H := madd (random_psd_matrix A) (mscale mass (outer com com)) in
  ip_init mass None (Some com) (Some H) None false.
