(** Model of the memory that shapes share with their arguments (util.py, polydd.py, shape/), on top
    of the values of Model/{Polydd,Poly,Ellipsoid,Box,Cylinder}.v.  [half_extents_inv] (ellipsoid.py:72)
    is not among the stored arrays: it is a new array made from the copy of half_extents. *)
From Verif Require Import Base.Vec Base.Ext Model.Util Model.Polydd Model.Poly Model.Inertial Model.Ellipsoid Model.Box Model.Cylinder
  Model.Moment Model.Realize Model.Store.

(** util.py:182-195 [clean_transform] *)
Definition clean_transform_s (rotation : option arr2) (translation : option arr1) (dim : nat) : st (arr2 * arr1) :=
  do rot <- match rotation with
            | None => alloc2 (eye dim)
            | Some r => do r <- copy2 r; do rv <- get2 r; do _ <- lift (assert_ (is_matb dim dim rv)); ret r
            end;
  do tr <- match translation with
           | None => alloc1 (zeros dim)
           | Some t => do t <- copy1 t; do tv <- get1 t; do _ <- lift (assert_ (is_vecb dim tv)); ret t
           end;
  ret (rot, tr).

(** ** Ellipsoid *)
Record EllS := { els_half : arr1; els_rot : arr2; els_center : arr1 }.
Definition els_view (s : store) (e : EllS) : Ell := {| e_half := rd1 s (els_half e); e_rot := rd2 s (els_rot e); e_center := rd1 s (els_center e) |}.
(** the buffers of the arrays that the object holds *)
Definition els_bufs (e : EllS) : list nat := [a1_buf (els_half e); a2_buf (els_rot e); a1_buf (els_center e)].
(** ellipsoid.py:62-84 [__init__] with arrays; the elements of an array of reals are finite *)
Definition els_init (half : arr1) (rotation : option arr2) (center : option arr1) : st EllS :=
  do h <- copy1 half;
  do hv <- get1 h;
  do _ <- lift (assert_ (forallb (Rleb 0) hv));
  do rot <- match rotation with None => alloc2 (eye (length hv)) | Some r => ret r end;
  do r <- copy2 rot;
  do rv <- get2 r;
  do _ <- lift (assert_ (is_matb (length hv) (length hv) rv));
  do cen <- match center with None => alloc1 (zeros (length hv)) | Some c => ret c end;
  do c <- copy1 cen;
  do cv <- get1 c;
  do _ <- lift (assert_ (is_vecb (length hv) cv));
  ret {| els_half := h; els_rot := r; els_center := c |}.
(** ellipsoid.py:116-134 [sphere] *)
Definition els_sphere (radius : R) (center : option arr1) : st EllS :=
  do c <- match center with None => alloc1 (zeros 3) | Some c => copy1 c end;
  do cv <- get1 c;
  do h <- alloc1 (vscale radius (ones (length cv)));
  els_init h None (Some c).
(** ellipsoid.py:512-521 [transform] *)
Definition els_transform (e : EllS) (rotation : option arr2) (translation : option arr1) : st EllS :=
  do ev <- (fun s => Ok (els_view s e, s));
  do rt <- clean_transform_s rotation translation (e_dim ev);
  do rv <- get2 (fst rt);
  do tv <- get1 (snd rt);
  do r <- alloc2 (mat_mul rv (e_rot ev));
  do c <- alloc1 (vadd (mat_vec rv (e_center ev)) tv);
  do h <- copy1 (els_half e);
  els_init h (Some r) (Some c).
(** ellipsoid.py:523-541 [rotate_about_center] *)
Definition els_rotate_about_center (e : EllS) (rotation : arr2) : st EllS :=
  do ev <- (fun s => Ok (els_view s e, s));
  do rv <- get2 rotation;
  do r <- alloc2 (mat_mul rv (e_rot ev));
  do h <- copy1 (els_half e);
  do c <- copy1 (els_center e);
  els_init h (Some r) (Some c).

(** ** face and span forms *)
Record FFS := { ffs_A : arr2; ffs_b : arr1 }.
Definition ffs_view (s : store) (f : FFS) : FaceForm := {| ff_A := rd2 s (ffs_A f); ff_b := rd1 s (ffs_b f) |}.
Definition ffs_bufs (f : FFS) : list nat := [a2_buf (ffs_A f); a1_buf (ffs_b f)].
(** polydd.py:175-185 [FaceForm.__init__]: without equalities the arrays are stored as they are *)
Definition ffs_init (A_ineq : arr2) (b_ineq : arr1) (A_eq : option arr2) (b_eq : option arr1) : st FFS :=
  match A_eq with
  | None => ret {| ffs_A := A_ineq; ffs_b := b_ineq |}
  | Some Ae =>
      match b_eq with
      | None => lift (Raise AttributeError)
      | Some be =>
          do Aev <- get2 Ae; do bev <- get1 be;
          do _ <- lift (assert_ (Nat.eqb (length Aev) (length bev)));
          do Aiv <- get2 A_ineq; do biv <- get1 b_ineq;
          do A <- alloc2 (Aiv ++ (Aev ++ mneg Aev));
          do b <- alloc1 (biv ++ (bev ++ vneg bev));
          ret {| ffs_A := A; ffs_b := b |}
      end
  end.
(** polydd.py:190-213 [FaceForm.from_cdd_matrix]: index arrays make new arrays *)
Definition ffs_from_cdd (m : CDD) : st FFS :=
  do f <- lift (ff_from_cdd m); do A <- alloc2 (ff_A f); do b <- alloc1 (ff_b f); ret {| ffs_A := A; ffs_b := b |}.
Record SFS := { sfs_vertices : option arr2; sfs_rays : option arr2 }.
Definition sfs_view (s : store) (f : SFS) : SpanForm := {| sf_vertices := option_map (rd2 s) (sfs_vertices f); sf_rays := option_map (rd2 s) (sfs_rays f) |}.
Definition sfs_bufs (f : SFS) : list nat :=
  match sfs_vertices f with Some v => [a2_buf v] | None => [] end ++ match sfs_rays f with Some r => [a2_buf r] | None => [] end.
(** polydd.py:17-32 [SpanForm.__init__] *)
Definition sfs_init (vertices rays span : option arr2) : st SFS :=
  do v <- match vertices with None => ret None | Some v => do v <- copy2 v; ret (Some v) end;
  do r <- match rays with None => ret None | Some r => do r <- copy2 r; ret (Some r) end;
  do r <- match span with
          | None => ret r
          | Some sp => do spv <- get2 sp;
              match r with
              | None => do q <- alloc2 (spv ++ mneg spv); ret (Some q)
              | Some r => do rv <- get2 r; do q <- alloc2 (rv ++ (spv ++ mneg spv)); ret (Some q)
              end
          end;
  ret {| sfs_vertices := v; sfs_rays := r |}.
(** polydd.py:57-85 [SpanForm.from_cdd_matrix]: new arrays; None is Python's None *)
Definition alloc2_opt (o : option mat) : st (option arr2) := match o with None => ret None | Some M => do a <- alloc2 M; ret (Some a) end.
Definition sfs_from_cdd (m : CDD) : st (option SFS) :=
  do o <- lift (sf_from_cdd m);
  match o with
  | None => ret None
  | Some f => do v <- alloc2_opt (sf_vertices f); do r <- alloc2_opt (sf_rays f); ret (Some {| sfs_vertices := v; sfs_rays := r |})
  end.
(** polydd.py:239-249, 129-141 [canonical], 143-154 [to_face_form], 270-281 [to_span_form]: the matrices
    handed to cdd are new *)
Definition ffs_canonical (canon : CDD -> CDD) (f : FFS) : st FFS := fun s => ffs_from_cdd (canon (ff_to_cdd (ffs_view s f))) s.
Definition sfs_canonical (canon : CDD -> CDD) (f : SFS) : st (option SFS) := fun s => (do m <- lift (sf_to_cdd (sfs_view s f)); sfs_from_cdd (canon m)) s.
Definition sfs_to_face_form (ineqs : CDD -> CDD) (f : SFS) : st FFS := fun s => (do m <- lift (sf_to_cdd (sfs_view s f)); ffs_from_cdd (ineqs m)) s.
Definition ffs_to_span_form (gens : CDD -> CDD) (f : FFS) : st (option SFS) := fun s => sfs_from_cdd (gens (ff_to_cdd (ffs_view s f))) s.
(** polydd.py:294-317 [convex_hull]: at most one point is returned as it came *)
Definition convex_hull_s (canon : CDD -> CDD) (points : arr2) : st (option arr2) :=
  do P <- get2 points;
  match P with
  | [] | [_] => ret (Some points)
  | _ => do f <- sfs_init (Some points) None None;
         do o <- sfs_canonical canon f;
         match o with None => lift (Raise AttributeError) | Some f => ret (sfs_vertices f) end
  end.

(** ** ConvexPolyhedron *)
(** poly.py:48-60: the two forms, and the polynomials, whose coefficients are numbers *)
Record PolyS := { pls_face : FFS; pls_span : SFS; pls_polys : list pol }.
Definition pls_view (s : store) (p : PolyS) : Poly := {| p_face := ffs_view s (pls_face p); p_span := sfs_view s (pls_span p) |}.
Definition pls_bufs (p : PolyS) : list nat := ffs_bufs (pls_face p) ++ sfs_bufs (pls_span p).
(** poly.py:48-60 [__init__] *)
Definition pls_init (dd : DD) (face : option FFS) (span : option SFS) : st PolyS :=
  do f <- match face with
          | Some f => ret f
          | None => match span with Some sp => sfs_to_face_form (dd_ineqs dd) sp | None => lift (Raise AttributeError) end
          end;
  do sp <- match span with
           | Some sp => ret sp
           | None => do o <- ffs_to_span_form (dd_gens dd) f; match o with Some sp => ret sp | None => lift (Raise AttributeError) end
           end;
  do spv <- (fun s => Ok (sfs_view s sp, s));
  do fv <- (fun s => Ok (ffs_view s f, s));
  if sf_bounded spv then ret {| pls_face := f; pls_span := sp; pls_polys := p_polys {| p_face := fv; p_span := spv |} |} else lift (Raise ValueError).
(** poly.py:62-77 [from_vertices], 79-100 [from_halfspaces] *)
Definition pls_from_vertices (dd : DD) (vertices : arr2) (prune : bool) : st PolyS :=
  do f <- sfs_init (Some vertices) None None;
  if prune then do o <- sfs_canonical (dd_canon dd) f; pls_init dd None o
  else pls_init dd None (Some f).
Definition pls_from_halfspaces (dd : DD) (A : arr2) (b : arr1) (prune : bool) : st PolyS :=
  do f <- ffs_init A b None None;
  if prune then do g <- ffs_canonical (dd_canon dd) f; pls_init dd (Some g) None
  else pls_init dd (Some f) None.

(** ** Box *)
Record BoxS := { bxs_half : arr1; bxs_center : arr1; bxs_rot : arr2; bxs_poly : PolyS }.
Definition bxs_view (s : store) (b : BoxS) : Box :=
  {| b_half := rd1 s (bxs_half b); b_center := rd1 s (bxs_center b); b_rot := rd2 s (bxs_rot b); b_poly := pls_view s (bxs_poly b) |}.
Definition bxs_bufs (b : BoxS) : list nat := [a1_buf (bxs_half b); a1_buf (bxs_center b); a2_buf (bxs_rot b)] ++ pls_bufs (bxs_poly b).
(** box.py:56-76 [__init__]; the inner calls of clean_transform (box.py:13, 20) only read *)
Definition bxs_init (dd : DD) (half : arr1) (center : option arr1) (rotation : option arr2) : st BoxS :=
  do h <- copy1 half;
  do hv <- get1 h;
  do _ <- lift (assert_ (is_vecb 3 hv));
  do _ <- lift (assert_ (forallb (Rleb 0) hv));
  do rt <- clean_transform_s rotation center 3;
  do rv <- get2 (fst rt);
  do tv <- get1 (snd rt);
  do vs <- lift (box_vertices_at hv (Some rv) (Some tv));
  do V <- alloc2 vs;
  do Ab <- lift (box_inequalities hv (Some rv) (Some tv));
  do A <- alloc2 (fst Ab);
  do b <- alloc1 (snd Ab);
  do sf <- sfs_init (Some V) None None;
  do ff <- ffs_init A b None None;
  do p <- pls_init dd (Some ff) (Some sf);
  ret {| bxs_half := h; bxs_center := snd rt; bxs_rot := fst rt; bxs_poly := p |}.

(** ** Cylinder and Capsule *)
Record CylS := { cys_length : R; cys_radius : R; cys_rot : arr2; cys_center : arr1;
                 cys_ell1 : EllS; cys_ell2 : EllS; cys_disk0s : list EllS; cys_disks : list EllS }.
Definition cys_view (s : store) (c : CylS) : Cyl :=
  {| c_length := cys_length c; c_radius := cys_radius c; c_rot := rd2 s (cys_rot c); c_center := rd1 s (cys_center c);
     c_ell1 := els_view s (cys_ell1 c); c_ell2 := els_view s (cys_ell2 c);
     c_disk0s := map (els_view s) (cys_disk0s c); c_disks := map (els_view s) (cys_disks c) |}.
Definition cys_bufs (c : CylS) : list nat :=
  [a2_buf (cys_rot c); a1_buf (cys_center c)] ++ flat_map els_bufs (cys_ell1 c :: cys_ell2 c :: cys_disk0s c ++ cys_disks c).
(** an ellipsoid from a list of numbers and a new array *)
Definition els_new (half center : vec) : st EllS := do h <- alloc1 half; do c <- alloc1 center; els_init h None (Some c).
(** cylinder.py:30-97 [__init__] *)
Definition cys_init (len radius : R) (rotation : option arr2) (center : option arr1) : st CylS :=
  do _ <- lift (assert_ (Rleb 0 len));
  do _ <- lift (assert_ (Rleb 0 radius));
  do rot <- match rotation with None => alloc2 (eye 3) | Some r => copy2 r end;
  do rv <- get2 rot;
  do _ <- lift (assert_ (is_matb 3 3 rv));
  do c <- match center with None => alloc1 (zeros 3) | Some c => copy1 c end;
  do cv <- get1 c;
  do _ <- lift (assert_ (is_vecb 3 cv));
  do e1 <- els_new [len / 2] [dot (longitudinal_axis rv) cv];
  do e2 <- els_new [radius; radius] (mat_vec (transpose (transverse_axes rv)) cv);
  let h := (1 / 2) * len in
  do d1 <- els_new [radius; radius; 0] [0; 0; h];
  do d2 <- els_new [radius; radius; 0] [0; 0; - h];
  do t1 <- els_transform d1 (Some rot) (Some c);
  do t2 <- els_transform d2 (Some rot) (Some c);
  ret {| cys_length := len; cys_radius := radius; cys_rot := rot; cys_center := c; cys_ell1 := e1; cys_ell2 := e2;
         cys_disk0s := [d1; d2]; cys_disks := [t1; t2] |}.
Record CapS := { cps_cyl : CylS; cps_caps : list EllS }.
Definition cps_view (s : store) (k : CapS) : Caps := {| k_cyl := cys_view s (cps_cyl k); k_caps := map (els_view s) (cps_caps k) |}.
(** capsule.py:19-26 [__init__]: the cylinder is stored as it is; the array of endpoints(), which always
    has two rows, is new *)
Definition cps_init (c : CylS) : st CapS :=
  do cv <- (fun s => Ok (cys_view s c, s));
  match cyl_endpoints cv with
  | [p0; p1] =>
      do P0 <- alloc1 p0; do P1 <- alloc1 p1;
      do e0 <- els_sphere (cys_radius c) (Some P0);
      do e1 <- els_sphere (cys_radius c) (Some P1);
      ret {| cps_cyl := c; cps_caps := [e0; e1] |}
  | _ => lift (Raise IndexError)
  end.

(** ** transforms of the other shapes *)
(** box.py:288-297 [transform], 299-318 [rotate_about_center], 320-330 [mie] *)
Definition bxs_transform (dd : DD) (b : BoxS) (rotation : option arr2) (translation : option arr1) : st BoxS :=
  do bv <- (fun s => Ok (bxs_view s b, s));
  do rt <- clean_transform_s rotation translation 3;
  do rv <- get2 (fst rt);
  do tv <- get1 (snd rt);
  do r <- alloc2 (mat_mul rv (b_rot bv));
  do c <- alloc1 (vadd (mat_vec rv (b_center bv)) tv);
  do h <- copy1 (bxs_half b);
  bxs_init dd h (Some c) (Some r).
Definition bxs_rotate_about_center (dd : DD) (b : BoxS) (rotation : arr2) : st BoxS :=
  do bv <- (fun s => Ok (bxs_view s b, s));
  do rv <- get2 rotation;
  do _ <- lift (assert_ (is_matb 3 3 rv));
  do r <- alloc2 (mat_mul rv (b_rot bv));
  do c <- copy1 (bxs_center b);
  do h <- copy1 (bxs_half b);
  bxs_init dd h (Some c) (Some r).
Definition bxs_mie (b : BoxS) (sphere : bool) : st EllS :=
  if sphere then do h <- get1 (bxs_half b); els_sphere (lmin h) (Some (bxs_center b))
  else els_init (bxs_half b) (Some (bxs_rot b)) (Some (bxs_center b)).
(** poly.py:312-317 [transform] *)
Definition pls_transform (dd : DD) (p : PolyS) (rotation : option arr2) (translation : option arr1) : st PolyS :=
  do pv <- (fun s => Ok (pls_view s p, s));
  do rt <- clean_transform_s rotation translation (p_dim pv);
  do rv <- get2 (fst rt);
  do tv <- get1 (snd rt);
  do V <- alloc2 (map (fun r => vadd r tv) (mat_mul (p_vertices pv) (transpose rv)));
  pls_from_vertices dd V false.
(** poly.py:146-149 [vertices]: the array of the span form *)
Definition pls_vertices (p : PolyS) : option arr2 := sfs_vertices (pls_span p).
(** cylinder.py:197-208 [transform] *)
Definition cys_transform (c : CylS) (rotation : option arr2) (translation : option arr1) : st CylS :=
  do cv <- (fun s => Ok (cys_view s c, s));
  do rt <- clean_transform_s rotation translation 3;
  do rv <- get2 (fst rt);
  do tv <- get1 (snd rt);
  do r <- alloc2 (mat_mul rv (c_rot cv));
  do x <- alloc1 (vadd (mat_vec rv (c_center cv)) tv);
  cys_init (cys_length c) (cys_radius c) (Some r) (Some x).
(** capsule.py:73-76 [transform] *)
Definition cps_transform (k : CapS) (rotation : option arr2) (translation : option arr1) : st CapS :=
  do c <- cys_transform (cps_cyl k) rotation translation; cps_init c.
