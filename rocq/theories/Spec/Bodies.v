(** The point set of a shape object, and of a body as the union of its shapes. *)
From Verif Require Import Base.Vec Spec.Basic Spec.Shapes Spec.ShapeObjects Spec.DoubleDesc Spec.PolySpec
  Model.Polydd Model.Poly Model.Ellipsoid Model.Box Model.Cylinder Model.RigidBody.

(** the object [s] was built by a constructor call in dimension 3 and its point set is [K] *)
Inductive shape_is : shp -> (vec -> Prop) -> Prop :=
| shape_is_box h c r b : box_init h c r = Ok b -> orthogonal 3 (pose_rot 3 r) ->
    shape_is (SBox b) (box_set h (pose_rot 3 r) (pose_tr 3 c))
| shape_is_poly p : poly_agree 3 p -> shape_is (SPoly p) (halfspaces (p_A p) (p_b p))
| shape_is_ell h r c e : ell_init h r c = Ok e -> length h = 3%nat -> orthogonal 3 (pose_rot 3 r) ->
    shape_is (SEll e) (ell_set h (pose_rot 3 r) (pose_tr 3 c))
| shape_is_cyl L R r c x : cyl_init L R r c = Ok x -> orthogonal 3 (pose_rot 3 r) ->
    shape_is (SCyl x) (cyl_set L R (pose_rot 3 r) (pose_tr 3 c))
| shape_is_caps L R r c x k : cyl_init L R r c = Ok x -> caps_init x = Ok k -> orthogonal 3 (pose_rot 3 r) ->
    shape_is (SCaps k) (caps_set (move (pose_rot 3 r) (pose_tr 3 c) [0; 0; L / 2])
                                 (move (pose_rot 3 r) (pose_tr 3 c) [0; 0; - (L / 2)]) R).
(** the union of a list of sets *)
Definition union_of (Ks : list (vec -> Prop)) (p : vec) : Prop := exists K, In K Ks /\ K p.
(** conditions under which the constraints of one shape are well defined: no half extent of an
    ellipsoid in (0, 1e-8], no trivial face of a polyhedron, and no capsule *)
Definition shape_proper (s : shp) : Prop :=
  match s with
  | SEll e => proper_half (e_half e)
  | SPoly p => faces_ok (p_A p) (p_b p)
  | SCaps _ => False
  | _ => True
  end.
(** what the double description library must do for the polyhedra of a body *)
Definition dd_moves (dd : DD) (l : list shp) (M : mat) (t : vec) : Prop :=
  forall p, In (SPoly p) l -> ineqs_correct 3 (dd_ineqs dd) {| cdd_rows := map (fun v => 1 :: move M t v) (p_vertices p); cdd_lin := [] |}.
Definition box_or_cyl (s : shp) : Prop := match s with SBox _ | SCyl _ => True | _ => False end.
