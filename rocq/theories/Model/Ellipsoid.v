(** Model of /repo/src/rigeo/shape/ellipsoid.py: class Ellipsoid (constraints of the bounding
    ellipsoid programs are in Model/Extremal.v, realizability in Model/Realize.v). *)
From Verif Require Import Base.Vec Base.Ext Model.Util Model.Polydd Model.Inertial.

(** ellipsoid.py:56-84: the stored attributes; half_extents_inv is a function of half_extents *)
Record Ell := { e_half : vec; e_rot : mat; e_center : vec }.

(** ellipsoid.py:17-25 [_inv_with_zeros], tol = 1e-8 = np_atol *)
Definition inv_with_zeros (a : evec) : evec :=
  map (fun x => if eclose 0 np_atol x (Fin 0) then PInf else einv x) a.

(** ellipsoid.py:62-84 [__init__]; scalars are passed as one-element lists *)
Definition ell_init_ext (half : evec) (rotation : option mat) (center : option vec) : res Ell :=
  let* _ := assert_ (forallb (fun a => eleb (Fin 0) a) half) in
  let* _ := assert_ (forallb is_fin half) in
  let d := length half in
  let rot := match rotation with None => eye d | Some r => r end in
  let* _ := assert_ (is_matb d d rot) in
  let c := match center with None => zeros d | Some c => c end in
  let* _ := assert_ (is_vecb d c) in
  Ok {| e_half := map to_R half; e_rot := rot; e_center := c |}.
Definition ell_init (half : vec) (rotation : option mat) (center : option vec) : res Ell :=
  ell_init_ext (fin1 half) rotation center.

(** ellipsoid.py:86-88 *)
Definition e_dim (e : Ell) : nat := length (e_half e).
(** ellipsoid.py:72 *)
Definition e_half_inv (e : Ell) : evec := inv_with_zeros (fin1 (e_half e)).
Definition esq (v : evec) : evec := map (fun a => emul a a) v.

(** ellipsoid.py:90-97 [S] *)
Definition e_S (e : Ell) : emat :=
  emat_mul (emat_mul (fin2 (e_rot e)) (ediag (esq (e_half_inv e)))) (fin2 (transpose (e_rot e))).
(** ellipsoid.py:99-102 [E] *)
Definition vsq (v : vec) : vec := map (fun a => a * a) v.
Definition e_E (e : Ell) : mat :=
  mat_mul (mat_mul (e_rot e) (diag (vsq (e_half e)))) (transpose (e_rot e)).
(** ellipsoid.py:104-106 [rank] *)
Definition e_rank (e : Ell) : nat := length (filter (fun a => negb (Reqb a 0)) (e_half e)).
(** np.prod *)
Definition vprod (v : vec) : R := fold_right Rmult 1 v.
(** ellipsoid.py:108-111 [volume] (the formula of the 3-dimensional case, in every dimension) *)
Definition e_volume (e : Ell) : R := 4 * PI * vprod (e_half e) / 3.

(** ellipsoid.py:116-134 [sphere] *)
Definition ell_sphere (radius : R) (center : option vec) : res Ell :=
  let c := match center with None => zeros 3 | Some c => c end in
  ell_init (vscale radius (ones (length c))) None (Some c).

(** ellipsoid.py:136-144 [from_shape_matrix]; [eigh] is np.linalg.eigh *)
Definition ell_from_shape_matrix (eigh : mat -> vec * mat) (S : mat) (center : option vec) : res Ell :=
  let '(eigs, rotation) := eigh S in
  ell_init_ext (inv_with_zeros (map esqrt (fin1 eigs))) (Some rotation) center.
(** ellipsoid.py:146-154 [from_affine]; [lstsq] is np.linalg.lstsq *)
Definition ell_from_affine (eigh : mat -> vec * mat) (lstsq : mat -> vec -> vec) (A : mat) (b : vec)
  : res Ell :=
  ell_from_shape_matrix eigh (mat_mul A A) (Some (lstsq A (vneg b))).

(** ellipsoid.py:167-176 [A] *)
Definition e_A (e : Ell) : emat :=
  emat_mul (emat_mul (fin2 (e_rot e)) (ediag (e_half_inv e))) (fin2 (transpose (e_rot e))).
(** ellipsoid.py:178-186 [b]: (-A) @ center *)
Definition eneg2 (A : emat) : emat := map (map eneg) A.
Definition e_b (e : Ell) : evec := emat_vec (eneg2 (e_A e)) (fin1 (e_center e)).

(** ellipsoid.py:28-53 [_Q_matrix]; [c @ S @ c] is (c @ S) @ c *)
Definition Q_matrix (S : emat) (c : vec) (bound : R) : emat :=
  let Sc := emat_vec S (fin1 c) in
  let corner := esub (Fin bound) (edot (evec_mat (fin1 c) S) (fin1 c)) in
  map2 (fun r x => map eneg r ++ [x]) S Sc ++ [Sc ++ [corner]].
(** ellipsoid.py:188-195 [Q] *)
Definition e_Q (e : Ell) : emat := Q_matrix (e_S e) (e_center e) 1.

(** ellipsoid.py:197-199 [_z] *)
Definition e_z (e : Ell) : list bool := map (fun h => isclose np_rtol np_atol h 0) (e_half e).

(** ellipsoid.py:231-242 [is_degenerate] *)
Definition e_is_degenerate (e : Ell) : bool := Nat.ltb (e_rank e) (e_dim e).

(** np.allclose of two extended matrices of the same shape; numpy raises ValueError for shapes
    that do not broadcast *)
Definition eallclose (rtol atol : R) (A B : emat) : bool :=
  forallb (fun b => b) (concat (map2 (map2 (eclose rtol atol)) A B)).
(** ellipsoid.py:244-248 [is_same] for another Ellipsoid (anything else: False).  Ellipsoids of
    different dimension have Q of different shape: ValueError (dimensions >= 1). *)
Definition ell_is_same (e f : Ell) (tol : R) : res bool :=
  if Nat.eqb (e_dim e) (e_dim f) then Ok (eallclose np_rtol tol (e_Q e) (e_Q f))
  else Raise ValueError.

(** ellipsoid.py:250-291 [contains] for one row of [points] *)
Definition ell_contains (e : Ell) (point : vec) (tol : R) : bool :=
  let z := e_z e in
  let nz := map negb z in
  let s := esq (select nz (e_half_inv e)) in
  let ps := vec_mat (vsub point (e_center e)) (e_rot e) in
  let pz := select z ps in
  let pnz := fin1 (select nz ps) in
  let res_z := forallb (fun a => isclose 0 tol a 0) pz in
  let res_nz := eleb (esum (map2 emul (map2 emul s pnz) pnz)) (Fin (1 + tol)) in
  res_z && res_nz.
Definition ell_contains_all (e : Ell) (points : mat) (tol : R) : list bool :=
  map (fun p => ell_contains e p tol) points.

(** ellipsoid.py:293-328 [on_surface] for one row of [points] *)
Definition ell_on_surface (e : Ell) (point : vec) (tol : R) : bool :=
  if existsb (fun b => b) (e_z e) then ell_contains e point tol
  else
    let s := esq (e_half_inv e) in
    let ps := fin1 (vec_mat (vsub point (e_center e)) (e_rot e)) in
    eclose 0 tol (esum (map2 emul (map2 emul s ps) ps)) (Fin 1).

(** ellipsoid.py:512-521 [transform] *)
Definition ell_transform (e : Ell) (rotation : option mat) (translation : option vec) : res Ell :=
  let* rt := clean_transform rotation translation (e_dim e) in
  ell_init (e_half e) (Some (mat_mul (fst rt) (e_rot e)))
           (Some (vadd (mat_vec (fst rt) (e_center e)) (snd rt))).
(** ellipsoid.py:523-541 [rotate_about_center] *)
Definition ell_rotate_about_center (e : Ell) (rotation : mat) : res Ell :=
  ell_init (e_half e) (Some (mat_mul rotation (e_rot e))) (Some (e_center e)).

(** ellipsoid.py:418-422 [mbe] *)
Definition ell_mbe (e : Ell) (sphere : bool) : res Ell :=
  if negb sphere then Ok e
  else ell_sphere (lmax (e_half e)) (Some (e_center e)).
