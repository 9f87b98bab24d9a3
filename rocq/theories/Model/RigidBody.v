(** Model of /repo/src/rigeo/rigidbody.py ([regressor] is in Model/Inertial.v). *)
From Coq Require Import String.
From Verif Require Import Base.Vec Model.Util Model.Inertial Model.Constraint Model.Polydd Model.Poly Model.Ellipsoid
  Model.Box Model.Cylinder Model.Realize.
Import ListNotations.

(** The shape classes of rigeo/shape that a body can be made of. *)
Inductive shp := SBox (b : Box) | SPoly (p : Poly) | SEll (e : Ell) | SCyl (c : Cyl) | SCaps (k : Caps).

(** rigidbody.py:34-35: stored attributes *)
Record Body := { bd_shapes : list shp; bd_params : IP }.

(** rigidbody.py:28-35 [__init__]: [shapes] is a single shape (no shape class is Iterable) or a
    list *)
Inductive shapes_arg := OneShape (s : shp) | ShapeList (l : list shp).
Definition rb_init (shapes : shapes_arg) (params : option IP) : res Body :=
  let l := match shapes with OneShape s => [s] | ShapeList l => l end in
  let* p := match params with None => ip_zero | Some p => Ok p end in
  Ok {| bd_shapes := l; bd_params := p |}.

(** rigidbody.py:37-40 [__add__] *)
Definition rb_add (a b : Body) : res Body :=
  let shapes := bd_shapes a ++ bd_shapes b in
  let* params := ip_add (bd_params a) (bd_params b) in
  rb_init (ShapeList shapes) (Some params).
(** rigidbody.py:42-45 [__radd__]: the left operand is the integer 0 or another body *)
Inductive body_addend := BIntZero | BBody (b : Body).
Definition rb_radd (a : Body) (other : body_addend) : res Body :=
  match other with BIntZero => Ok a | BBody b => rb_add a b end.
(** Python [sum(l)] over bodies *)
Definition rb_sum (l : list Body) : res body_addend :=
  fold_left (fun acc b =>
    let* a := acc in
    let* s := match a with BIntZero => rb_radd b BIntZero | BBody c => rb_add c b end in
    Ok (BBody s)) l (Ok BIntZero).

(** rigidbody.py:67-70 [moment_constraints], the inner function.  Box inherits
    moment_sdp_constraints from ConvexPolyhedron; Capsule has no such method. *)
Definition rb_shape_constraints (use_trace : bool) (s : shp) (v : param_var) (eps : R) (d : nat) : res Prop :=
  match s with
  | SEll e => ell_moment_constraints use_trace e v eps
  | SBox b => poly_moment_sdp_constraints (b_poly b) v eps d
  | SPoly p => poly_moment_sdp_constraints p v eps d
  | SCyl c => cyl_moment_sdp_constraints c v eps d
  | SCaps _ => Raise AttributeError
  end.
(** rigidbody.py:47-86 [moment_sdp_constraints].  As in Model/Realize.v the calls for several
    shapes are made once on zero matrices to see whether they raise.  The J of the comprehension
    does not leak into [J == cp.sum(Js)]. *)
Definition rb_moment_sdp_constraints (use_trace : bool) (b : Body) (v : param_var) (eps : R) (d : nat) : res Prop :=
  match bd_shapes b with
  | [s] => rb_shape_constraints use_trace s v eps d
  | shapes =>
      let* Jc := pim_must_equal_param_var v eps in
      let '(J, psd_constraints) := Jc in
      let each s J := rb_shape_constraints use_trace s (PVmat J) 0 d in
      let* _ := all_constraints each shapes (map (fun _ => zeros2 4 4) shapes) in
      Ok (exists Js, List.length Js = List.length shapes /\ Forall (cp_psd_var 4) Js /\
          (exists P, all_constraints each shapes Js = Ok P /\ P) /\
          J = msum 4 4 Js /\ psd_constraints)
  end.

(** rigidbody.py:88-112 [mbes] calls shape.mbe(sphere=sphere, solver=solver).  The declared
    parameters of the five [mbe] methods (box.py:332, poly.py:198, cylinder.py:230,
    capsule.py:82, ellipsoid.py:418): *)
Definition mbe_declared (s : shp) : list string :=
  match s with
  | SEll _ => ["self"; "rcond"; "sphere"]
  | _ => ["self"; "rcond"; "sphere"; "solver"]
  end%string.
(** [mbe_points] and [mbe_ells] are mbe_of_points and mbe_of_ellipsoids (ellipsoid.py:629-728),
    which call a solver *)
Definition shp_mbe (mbe_points : mat -> bool -> res Ell) (mbe_ells : list Ell -> bool -> res Ell)
  (s : shp) (sphere : bool) : res Ell :=
  match s with
  | SBox b => box_mbe b sphere
  | SPoly p => mbe_points (p_vertices p) sphere
  | SEll e => ell_mbe e sphere
  | SCyl c => cyl_mbe c sphere
  | SCaps k => mbe_ells (k_caps k) sphere
  end.
Definition rb_mbes (mbe_points : mat -> bool -> res Ell) (mbe_ells : list Ell -> bool -> res Ell)
  (b : Body) (sphere : bool) : res Body :=
  let* es := mapM (fun s =>
    let* _ := check_kwargs (mbe_declared s) ["sphere"; "solver"]%string in
    let* e := shp_mbe mbe_points mbe_ells s sphere in Ok (SEll e)) (bd_shapes b) in
  rb_init (ShapeList es) (Some (bd_params b)).

(** rigidbody.py:114-138 [transform] *)
Definition shp_transform (dd : DD) (s : shp) (rotation : option mat) (translation : option vec) : res shp :=
  match s with
  | SBox b => let* x := box_transform b rotation translation in Ok (SBox x)
  | SPoly p => let* x := poly_transform dd p rotation translation in Ok (SPoly x)
  | SEll e => let* x := ell_transform e rotation translation in Ok (SEll x)
  | SCyl c => let* x := cyl_transform c rotation translation in Ok (SCyl x)
  | SCaps k => let* x := caps_transform k rotation translation in Ok (SCaps x)
  end.
Definition rb_transform (dd : DD) (b : Body) (rotation : option mat) (translation : option vec) : res Body :=
  let* rt := clean_transform rotation translation 3 in
  let* shapes := mapM (fun s => shp_transform dd s (Some (fst rt)) (Some (snd rt))) (bd_shapes b) in
  let* params := ip_transform (bd_params b) (Some (fst rt)) (Some (snd rt)) in
  rb_init (ShapeList shapes) (Some params).
