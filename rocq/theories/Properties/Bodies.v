(** Properties C46 (bodies) and C60: rigid bodies (src/rigeo/rigidbody.py). *)
From Verif Require Import Base.Vec Base.VecFacts Spec.Basic Spec.Objects Spec.Samples Spec.Realizable Spec.Shapes Spec.ShapeObjects Spec.PolySpec Spec.Bodies
  Model.Util Model.Constraint Model.Inertial Model.Polydd Model.Poly Model.Ellipsoid Model.Box Model.Cylinder Model.Realize Model.RigidBody
  Proofs.RigidP Proofs.RigidW.

(** * C46, several shapes *)
Theorem C46_body : forall ut b Ks v J eps d,
  Forall2 shape_is (bd_shapes b) Ks -> (forall s, In s (bd_shapes b) -> shape_proper s) ->
  pv_value v J -> is_mat 4 4 J -> 0 <= eps -> (0 < d)%nat ->
  exists P, rb_moment_sdp_constraints ut b v eps d = Ok P /\
    (realizable_J (union_of Ks) J -> PSD 4 (msub J (mscale eps (eye 4))) -> P).
Proof. exact body_sdp. Qed.
Print Assumptions C46_body.
Theorem C46_body_centres : forall ut b Ks v J eps d P,
  Forall2 shape_is (bd_shapes b) Ks -> (forall s, In s (bd_shapes b) -> shape_proper s) ->
  pv_value v J -> is_mat 4 4 J -> symmetric 4 J -> 0 <= eps -> (0 < d)%nat -> rb_moment_sdp_constraints ut b v eps d = Ok P -> P ->
  exists Js, J = msum 4 4 Js /\ Forall2 (fun (K : vec -> Prop) J' => PSD 4 J' /\ (0 < entry J' 3 3 -> K (com_J J'))) Ks Js /\
    (length (bd_shapes b) <> 1%nat -> PSD 4 (msub J (mscale eps (eye 4)))).
Proof. exact body_sdp_sound. Qed.
Print Assumptions C46_body_centres.
Theorem C46_body_capsule : forall ut b k v J eps d,
  In (SCaps k) (bd_shapes b) -> (forall s, In s (bd_shapes b) -> (exists x, s = SCaps x) \/ shape_proper s /\ exists K, shape_is s K) ->
  pv_value v J -> is_mat 4 4 J -> 0 <= eps -> (0 < d)%nat ->
  rb_moment_sdp_constraints ut b v eps d = Raise AttributeError.
Proof. exact body_capsule. Qed.
Print Assumptions C46_body_capsule.
Example C46_body_example : exists b Ks, Forall2 shape_is (bd_shapes b) Ks /\ length (bd_shapes b) = 3%nat /\
  (forall s, In s (bd_shapes b) -> shape_proper s) /\ realizable_J (union_of Ks) (ip_J (bd_params b)) /\
  PSD 4 (msub (ip_J (bd_params b)) (mscale (1 / 20) (eye 4))) /\ is_mat 4 4 (ip_J (bd_params b)).
Proof. exact sample_body. Qed.

(** * C60 *)
Theorem C60_add : forall a b,
  ip_ok (bd_params a) -> ip_ok (bd_params b) -> 0 < ip_mass (bd_params a) + ip_mass (bd_params b) ->
  exists c, rb_add a b = Ok c /\ bd_shapes c = bd_shapes a ++ bd_shapes b /\
    ip_mass (bd_params c) = ip_mass (bd_params a) + ip_mass (bd_params b) /\
    ip_J (bd_params c) = madd (ip_J (bd_params a)) (ip_J (bd_params b)).
Proof. exact rb_add_spec. Qed.
Print Assumptions C60_add.
Theorem C60_add_realizable : forall a b Ks Ks',
  Forall2 shape_is (bd_shapes a) Ks -> Forall2 shape_is (bd_shapes b) Ks' ->
  realizable (union_of Ks) (ip_mass (bd_params a)) (ip_h (bd_params a)) (ip_H (bd_params a)) ->
  realizable (union_of Ks') (ip_mass (bd_params b)) (ip_h (bd_params b)) (ip_H (bd_params b)) ->
  0 < ip_mass (bd_params a) + ip_mass (bd_params b) ->
  exists c, rb_add a b = Ok c /\ Forall2 shape_is (bd_shapes c) (Ks ++ Ks') /\
    realizable (union_of (Ks ++ Ks')) (ip_mass (bd_params c)) (ip_h (bd_params c)) (ip_H (bd_params c)).
Proof. exact rb_add_realizable. Qed.
Print Assumptions C60_add_realizable.
Theorem C60_sum : forall b l,
  (forall x, In x (b :: l) -> ip_ok (bd_params x) /\ 0 < ip_mass (bd_params x)) ->
  exists c, rb_sum (b :: l) = Ok (BBody c) /\ bd_shapes c = flat_map bd_shapes (b :: l) /\
    ip_J (bd_params c) = fold_left madd (map (fun x => ip_J (bd_params x)) l) (ip_J (bd_params b)).
Proof. exact rb_sum_spec. Qed.
Print Assumptions C60_sum.
(** adding two bodies that were built without parameters does not give finite parameters *)
Theorem C60_add_massless : forall l l',
  exists a b, rb_init (ShapeList l) None = Ok a /\ rb_init (ShapeList l') None = Ok b /\ rb_add a b = NonFinite.
Proof. exact rb_add_massless. Qed.
Print Assumptions C60_add_massless.
Theorem C60_transform : forall dd b ro tr b' Ks,
  rb_transform dd b ro tr = Ok b' -> orthogonal 3 (pose_rot 3 ro) ->
  Forall2 shape_is (bd_shapes b) Ks -> dd_moves dd (bd_shapes b) (pose_rot 3 ro) (pose_tr 3 tr) ->
  exists Ks', Forall2 shape_is (bd_shapes b') Ks' /\
    Forall2 (fun K K' => forall x, length x = 3%nat -> (K' (move (pose_rot 3 ro) (pose_tr 3 tr) x) <-> K x)) Ks Ks' /\
    (forall s, pms_ok s -> describes (bd_params b) s -> 0 <= ip_mass (bd_params b) ->
       describes (bd_params b') (pms_move (pose_rot 3 ro) (pose_tr 3 tr) s)).
Proof. exact rb_transform_spec. Qed.
Print Assumptions C60_transform.
Theorem C60_transform_realizable : forall dd b ro tr b' Ks,
  rb_transform dd b ro tr = Ok b' -> orthogonal 3 (pose_rot 3 ro) ->
  Forall2 shape_is (bd_shapes b) Ks -> dd_moves dd (bd_shapes b) (pose_rot 3 ro) (pose_tr 3 tr) -> 0 <= ip_mass (bd_params b) ->
  realizable (union_of Ks) (ip_mass (bd_params b)) (ip_h (bd_params b)) (ip_H (bd_params b)) ->
  exists Ks', Forall2 shape_is (bd_shapes b') Ks' /\
    realizable (union_of Ks') (ip_mass (bd_params b')) (ip_h (bd_params b')) (ip_H (bd_params b')).
Proof. exact rb_transform_realizable. Qed.
Print Assumptions C60_transform_realizable.
Theorem C60_transform_total : forall dd b ro tr,
  is_mat 3 3 (pose_rot 3 ro) -> length (pose_tr 3 tr) = 3%nat -> 0 <= ip_mass (bd_params b) ->
  (forall s, In s (bd_shapes b) -> exists K, shape_is s K /\ forall p, s <> SPoly p) ->
  exists b', rb_transform dd b ro tr = Ok b'.
Proof. exact rb_transform_total. Qed.
Print Assumptions C60_transform_total.
Theorem C60_mbes : forall mp me b sphere Ks,
  Forall2 shape_is (bd_shapes b) Ks -> (forall s, In s (bd_shapes b) -> box_or_cyl s) ->
  exists b', rb_mbes mp me b sphere = Ok b' /\ bd_params b' = bd_params b /\
    Forall2 (fun (K : vec -> Prop) s => exists e, s = SEll e /\ forall p, K p -> ell_set (e_half e) (e_rot e) (e_center e) p) Ks (bd_shapes b').
Proof. exact rb_mbes_bound. Qed.
Print Assumptions C60_mbes.
Theorem C60_mbes_ellipsoid : forall mp me b sphere pre e post,
  bd_shapes b = pre ++ SEll e :: post ->
  (forall s, In s pre -> (forall e', s <> SEll e') -> exists x, shp_mbe mp me s sphere = Ok x) ->
  rb_mbes mp me b sphere = Raise TypeError.
Proof. exact rb_mbes_ellipsoid. Qed.
Print Assumptions C60_mbes_ellipsoid.
Example C60_example : forall dd, exists b Ks b', Forall2 shape_is (bd_shapes b) Ks /\ length (bd_shapes b) = 3%nat /\ ip_ok (bd_params b) /\
  ip_mass (bd_params b) = 1 /\ realizable (union_of Ks) (ip_mass (bd_params b)) (ip_h (bd_params b)) (ip_H (bd_params b)) /\
  rb_transform dd b (Some Q0) (Some t0) = Ok b' /\ orthogonal 3 Q0 /\ dd_moves dd (bd_shapes b) Q0 t0.
Proof. exact sample_transform. Qed.
Example C60_example_mbes : exists b Ks, Forall2 shape_is (bd_shapes b) Ks /\ length (bd_shapes b) = 2%nat /\ forall s, In s (bd_shapes b) -> box_or_cyl s.
Proof. exact sample_boxes. Qed.
