(** Model of /repo/src/rigeo/shape/cylinder.py and shape/capsule.py (moment constraints are in
    Model/Realize.v, random points in Model/Random.v). [_Us] (cylinder.py:61-68) is never read. *)
From Coq Require Import String.
From Verif Require Import Base.Vec Base.Ext Model.Util Model.Polydd Model.Poly Model.Inertial
  Model.Constraint Model.Ellipsoid Model.Box.
Import ListNotations.

(** cylinder.py:30-97: stored attributes *)
Record Cyl := { c_length : R; c_radius : R; c_rot : mat; c_center : vec;
                c_ell1 : Ell; c_ell2 : Ell; c_disk0s : list Ell; c_disks : list Ell }.

(** cylinder.py:99-105: rotation[:, 2] and rotation[:, :2] *)
Definition longitudinal_axis (rot : mat) : vec := col 2 rot.
Definition transverse_axes (rot : mat) : mat := map (firstn 2) rot.

(** cylinder.py:30-97 [__init__] *)
Definition cyl_init (length radius : R) (rotation : option mat) (center : option vec) : res Cyl :=
  let* _ := assert_ (Rleb 0 length) in
  let* _ := assert_ (Rleb 0 radius) in
  let rot := match rotation with None => eye 3 | Some r => r end in
  let* _ := assert_ (is_matb 3 3 rot) in
  let c := match center with None => zeros 3 | Some c => c end in
  let* _ := assert_ (is_vecb 3 c) in
  let* e1 := ell_init [length / 2] None (Some [dot (longitudinal_axis rot) c]) in
  let* e2 := ell_init [radius; radius] None (Some (mat_vec (transpose (transverse_axes rot)) c)) in
  let h := (1 / 2) * length in
  let* d1 := ell_init [radius; radius; 0] None (Some [0; 0; h]) in
  let* d2 := ell_init [radius; radius; 0] None (Some [0; 0; - h]) in
  let* ds := mapM (fun d => ell_transform d (Some rot) (Some c)) [d1; d2] in
  Ok {| c_length := length; c_radius := radius; c_rot := rot; c_center := c;
        c_ell1 := e1; c_ell2 := e2; c_disk0s := [d1; d2]; c_disks := ds |}.

(** cylinder.py:107-110 [volume] *)
Definition c_volume (c : Cyl) : R := PI * c_radius c ^ 2 * c_length c.

(** np.allclose on vectors of equal length *)
Definition allclose_vec (rtol atol : R) (x y : vec) : bool :=
  forallb (fun b => b) (map2 (isclose rtol atol) x y).
(** cylinder.py:112-120 [is_same] for another Cylinder (anything else: False) *)
Definition cyl_is_same (c d : Cyl) : bool :=
  isclose np_rtol np_atol (c_length c) (c_length d) &&
  isclose np_rtol np_atol (c_radius c) (c_radius d) &&
  allclose_vec np_rtol np_atol (c_center c) (c_center d) &&
  allclose_mat np_rtol np_atol (c_rot c) (c_rot d).

(** the default tolerance of every [contains] *)
Definition default_tol : R := / 100000000.

(** cylinder.py:122-127 [contains] for one row of points.  [E.contains(P)] is called without the
    tol argument. *)
Definition cyl_contains (c : Cyl) (point : vec) (tol : R) : bool :=
  let P1 := [dot point (longitudinal_axis (c_rot c))] in
  let P2 := vec_mat point (transverse_axes (c_rot c)) in
  ell_contains (c_ell1 c) P1 default_tol && ell_contains (c_ell2 c) P2 default_tol.
Definition cyl_contains_all (c : Cyl) (points : mat) (tol : R) : list bool :=
  map (fun p => cyl_contains c p tol) points.

(** ellipsoid.py:330-341 [must_contain] for one point: scale * E_diag, R^T (p - scale * center) and
    scale assembled by [schur] must be positive semidefinite *)
Definition ell_must_contain (e : Ell) (point : vec) (scale : R) : Prop :=
  let E_diag := diag (vsq (e_half e)) in
  let p := mat_vec (transpose (e_rot e)) (vsub point (vscale scale (e_center e))) in
  cp_psd (e_dim e + 1) (schur (mscale scale E_diag) p scale).

(** cylinder.py:129-136 [must_contain] *)
Definition cyl_must_contain (c : Cyl) (point : vec) (scale : R) : Prop :=
  let P1 := [dot point (longitudinal_axis (c_rot c))] in
  let P2 := vec_mat point (transverse_axes (c_rot c)) in
  ell_must_contain (c_ell1 c) P1 scale /\ ell_must_contain (c_ell2 c) P2 scale.

(** cylinder.py:197-208 [transform] *)
Definition cyl_transform (c : Cyl) (rotation : option mat) (translation : option vec) : res Cyl :=
  let* rt := clean_transform rotation translation 3 in
  cyl_init (c_length c) (c_radius c) (Some (mat_mul (fst rt) (c_rot c)))
           (Some (vadd (mat_vec (fst rt) (c_center c)) (snd rt))).

(** cylinder.py:210-213 [endpoints] *)
Definition cyl_endpoints (c : Cyl) : list vec :=
  let h := vscale ((1 / 2) * c_length c) (longitudinal_axis (c_rot c)) in
  [vadd h (c_center c); vadd (vneg h) (c_center c)].

(** cylinder.py:215-228 [aabb] *)
Definition cyl_aabb (c : Cyl) : res Box :=
  let half := [c_radius c; c_radius c; 0] in
  match cyl_endpoints c with
  | [p0; p1] =>
      let* d1 := ell_init half (Some (c_rot c)) (Some p0) in
      let* d2 := ell_init half (Some (c_rot c)) (Some p1) in
      let* a1 := ell_aabb d1 in
      let* a2 := ell_aabb d2 in
      box_from_points_to_bound (b_vertices a1 ++ b_vertices a2)
  | _ => Raise IndexError
  end.

(** cylinder.py:242-249 [mib] *)
Definition cyl_mib (c : Cyl) : res Box :=
  let r := c_radius c / sqrt 2 in
  box_init [r; r; c_length c / 2] (Some (c_center c)) (Some (c_rot c)).
(** cylinder.py:230-231 [mbe] *)
Definition cyl_mbe (c : Cyl) (sphere : bool) : res Ell :=
  let* b := cyl_mib c in box_mbe b sphere.
(** cylinder.py:251-257 [mbb] *)
Definition cyl_mbb (c : Cyl) : res Box :=
  box_init [c_radius c; c_radius c; c_length c / 2] (Some (c_center c)) (Some (c_rot c)).
(** cylinder.py:259-281 [uniform_density_params] *)
Definition cyl_uniform_density_params (c : Cyl) (mass : R) : res IP :=
  let* _ := assert_ (Rleb 0 mass) in
  let Hxy := mass * c_radius c ^ 2 / 4 in
  let Hz := mass * c_length c ^ 2 / 12 in
  density_params mass (diag [Hxy; Hxy; Hz]) (c_rot c) (c_center c).

(** ** Capsule *)
(** capsule.py:19-26 *)
Record Caps := { k_cyl : Cyl; k_caps : list Ell }.
(** capsule.py:19-26 [__init__] *)
Definition caps_init (c : Cyl) : res Caps :=
  let* caps := mapM (fun e => ell_sphere (c_radius c) (Some e)) (cyl_endpoints c) in
  Ok {| k_cyl := c; k_caps := caps |}.
(** cylinder.py:283-288 [capsule] *)
Definition cyl_capsule (c : Cyl) : res Caps := caps_init c.
(** capsule.py:28-46 *)
Definition k_full_length (k : Caps) : R := c_length (k_cyl k) + 2 * c_radius (k_cyl k).
(** Python keyword arguments: a keyword that the called function does not declare is a TypeError *)
Definition check_kwargs (declared given : list string) : res unit :=
  if forallb (fun k => existsb (String.eqb k) declared) given then Ok tt else Raise TypeError.
(** cylinder.py:112: [def is_same(self, other)] *)
Definition cyl_is_same_params : list string := ["self"; "other"]%string.
(** capsule.py:48-51 [is_same]; [inst] is isinstance(other, self.__class__); the call is
    self.cylinder.is_same(other.cylinder, tol=tol) *)
Definition caps_is_same (inst : bool) (k k' : Caps) (tol : R) : res bool :=
  if negb inst then Ok false
  else let* _ := check_kwargs cyl_is_same_params ["tol"%string] in
       Ok (cyl_is_same (k_cyl k) (k_cyl k')).
(** capsule.py:53-55 [contains] for one row of points *)
Definition caps_contains (k : Caps) (point : vec) (tol : R) : bool :=
  existsb (fun b => b) (map (fun e => ell_contains e point tol) (k_caps k) ++
                        [cyl_contains (k_cyl k) point tol]).
Definition caps_contains_all (k : Caps) (points : mat) (tol : R) : list bool :=
  map (fun p => caps_contains k p tol) points.
(** capsule.py:57-71 [must_contain] for one point; p1, p2, t are the auxiliary variables *)
Definition caps_must_contain (k : Caps) (point : vec) (scale : R) : Prop :=
  match k_caps k with
  | [e1; e2] =>
      exists p1 p2 t, length p1 = 3%nat /\ length p2 = 3%nat /\
        ell_must_contain e1 p1 t /\ ell_must_contain e2 p2 (scale - t) /\
        0 <= t /\ t <= scale /\ point = vadd p1 p2
  | _ => False
  end.
(** capsule.py:73-76 [transform] *)
Definition caps_transform (k : Caps) (rotation : option mat) (translation : option vec) : res Caps :=
  let* c := cyl_transform (k_cyl k) rotation translation in cyl_capsule c.
(** capsule.py:78-80 [aabb] *)
Definition caps_aabb (k : Caps) : res Box :=
  let* bs := mapM ell_aabb (k_caps k) in
  box_from_points_to_bound (flat_map b_vertices bs).
(** capsule.py:85-91 [mbb] *)
Definition caps_mbb (k : Caps) : res Box :=
  let c := k_cyl k in
  box_init [c_radius c; c_radius c; k_full_length k / 2] (Some (c_center c)) (Some (c_rot c)).
