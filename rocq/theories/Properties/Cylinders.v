(** Properties C25, C26, C31, C62, C63, C66: membership of cylinders and capsules, the must_contain
    constraints, the Schur complement matrix and the equality tests
    (src/rigeo/shape/cylinder.py, shape/capsule.py, shape/ellipsoid.py, shape/poly.py, constraint.py). *)
From Verif Require Import Base.Vec Base.Ext Spec.Basic Spec.Shapes Spec.ShapeObjects Spec.Samples
  Model.Util Model.Constraint Model.Polydd Model.Poly Model.Ellipsoid Model.Box Model.Cylinder
  Proofs.Coord Proofs.Hull Proofs.BoxP Proofs.EllP Proofs.ShapesW Proofs.SamplesP Proofs.MustContain Proofs.CylP Proofs.RefutedP.

(** * C25 *)
Theorem C25_membership : forall L r ro co c p tol,
  cyl_init L r ro co = Ok c -> orthogonal 3 (pose_rot 3 ro) -> length p = 3%nat ->
  (cyl_contains c p tol = true <->
   exists x y z, p = move (pose_rot 3 ro) (pose_tr 3 co) [x; y; z] /\
     (L / 2 <= / 100000000 -> Rabs z <= / 100000000) /\
     (/ 100000000 < L / 2 -> z * z <= (1 + / 100000000) * ((L / 2) * (L / 2))) /\
     (r <= / 100000000 -> Rabs x <= / 100000000 /\ Rabs y <= / 100000000) /\
     (/ 100000000 < r -> x * x + y * y <= (1 + / 100000000) * (r * r))).
Proof. exact cyl_contains_iff. Qed.
Print Assumptions C25_membership.
Theorem C25_complete : forall L r ro co c p tol,
  cyl_init L r ro co = Ok c -> orthogonal 3 (pose_rot 3 ro) ->
  cyl_set L r (pose_rot 3 ro) (pose_tr 3 co) p -> cyl_contains c p tol = true.
Proof. exact cyl_set_contains. Qed.
Print Assumptions C25_complete.
Theorem C25_tolerance_ignored : forall c p tol tol',
  cyl_contains c p tol = cyl_contains c p tol'.
Proof. exact cyl_contains_tol. Qed.
Print Assumptions C25_tolerance_ignored.
Theorem C25_constructor : forall L r ro co,
  0 <= L -> 0 <= r -> is_mat 3 3 (pose_rot 3 ro) -> length (pose_tr 3 co) = 3%nat ->
  exists c, cyl_init L r ro co = Ok c.
Proof. exact cyl_w_total. Qed.
Print Assumptions C25_constructor.
Theorem C25_negative : forall L r ro co,
  L < 0 \/ r < 0 -> cyl_init L r ro co = Raise AssertionError.
Proof. exact cyl_init_raises. Qed.
Print Assumptions C25_negative.
Example C25_example : orthogonal 3 Q0 /\ exists c, cyl_init 2 1 (Some Q0) (Some t0) = Ok c.
Proof. exact (conj Q0_orth cyl_example). Qed.

(** * C26 *)
Theorem C26_union : forall L r ro co c k p,
  cyl_init L r ro co = Ok c -> caps_init c = Ok k ->
  orthogonal 3 (pose_rot 3 ro) -> length p = 3%nat -> exists a b, cyl_endpoints c = [a; b] /\
  (caps_set a b r p <-> norm (vsub p a) <= r \/ norm (vsub p b) <= r \/ cyl_set L r (pose_rot 3 ro) (pose_tr 3 co) p).
Proof. exact caps_union. Qed.
Print Assumptions C26_union.
Theorem C26_hull : forall n a b r p,
  length a = n -> length b = n -> length p = n -> 0 <= r ->
  (caps_set a b r p <-> exists p1 p2 t, length p1 = n /\ length p2 = n /\ norm (vsub p1 a) <= r /\ norm (vsub p2 b) <= r /\
     0 <= t <= 1 /\ p = vadd (vscale (1 - t) p1) (vscale t p2)).
Proof. exact caps_hull. Qed.
Print Assumptions C26_hull.
Theorem C26_convex : forall n a b r,
  length a = n -> length b = n -> convex (fun p => length p = n /\ caps_set a b r p).
Proof. exact caps_convex. Qed.
Print Assumptions C26_convex.
Theorem C26_complete : forall L r ro co c k p tol,
  cyl_init L r ro co = Ok c -> caps_init c = Ok k ->
  orthogonal 3 (pose_rot 3 ro) -> length p = 3%nat -> 0 <= tol -> r = 0 \/ / 100000000 < r \/ r <= tol ->
  (exists a b, cyl_endpoints c = [a; b] /\ caps_set a b r p) -> caps_contains k p tol = true.
Proof. exact caps_set_contains. Qed.
Print Assumptions C26_complete.
Theorem C26_sound : forall L r ro co c k p tol,
  cyl_init L r ro co = Ok c -> caps_init c = Ok k ->
  orthogonal 3 (pose_rot 3 ro) -> length p = 3%nat -> 0 <= tol -> caps_contains k p tol = true ->
  exists a b, cyl_endpoints c = [a; b] /\ caps_set a b (r + (r + L + 3) * Rmax tol (/ 100000000)) p.
Proof. exact caps_contains_near. Qed.
Print Assumptions C26_sound.
(** the tol argument does not reach the cylinder part: finding *)
Theorem C26_tolerance_refuted : exists c k p, cyl_init 2 1 None None = Ok c /\ caps_init c = Ok k /\
  length p = 3%nat /\ caps_contains k p 0 = true /\
  forall a b, cyl_endpoints c = [a; b] -> ~ caps_set a b 1 p.
Proof. exact caps_contains_tol_zero. Qed.
Print Assumptions C26_tolerance_refuted.
Example C26_example : orthogonal 3 Q0 /\ exists c k, cyl_init 2 1 (Some Q0) (Some t0) = Ok c /\ caps_init c = Ok k.
Proof. exact (conj Q0_orth caps_example). Qed.

(** * C31 *)
Theorem C31_polyhedron : forall p x s,
  length (p_A p) = length (p_b p) -> 0 < s ->
  (poly_must_contain p x s <-> poly_contains p (vscale (/ s) x) 0 = true).
Proof. exact poly_w_must_contain. Qed.
Print Assumptions C31_polyhedron.
Theorem C31_polyhedron_zero : forall p x n,
  length (p_A p) = length (p_b p) -> length x = n ->
  rows_len n (p_vertices p) -> p_vertices p <> [] ->
  (forall y, length y = n -> (halfspaces (p_A p) (p_b p) y <-> in_hull n (p_vertices p) y)) ->
  (poly_must_contain p x 0 <-> x = zeros n).
Proof. exact poly_must_contain_zero. Qed.
Print Assumptions C31_polyhedron_zero.
Theorem C31_box : forall h c r b p s,
  box_init h c r = Ok b -> orthogonal 3 (pose_rot 3 r) -> length p = 3%nat ->
  0 <= s -> (poly_must_contain (b_poly b) p s <->
   (0 < s /\ box_set h (pose_rot 3 r) (pose_tr 3 c) (vscale (/ s) p)) \/ (s = 0 /\ p = zeros 3)).
Proof. exact box_must_contain_iff. Qed.
Print Assumptions C31_box.
Theorem C31_ellipsoid : forall h r c e p s,
  ell_init h r c = Ok e -> h <> [] ->
  orthogonal (length h) (pose_rot (length h) r) -> length p = length h ->
  (ell_must_contain e p s <->
   (0 < s /\ ell_set h (pose_rot (length h) r) (pose_tr (length h) c) (vscale (/ s) p)) \/ (s = 0 /\ p = zeros (length h))).
Proof. exact ell_must_contain_iff. Qed.
Print Assumptions C31_ellipsoid.
Theorem C31_cylinder : forall L r ro co c p s,
  cyl_init L r ro co = Ok c -> orthogonal 3 (pose_rot 3 ro) -> length p = 3%nat ->
  (cyl_must_contain c p s <->
   (0 < s /\ cyl_set L r (pose_rot 3 ro) (pose_tr 3 co) (vscale (/ s) p)) \/ (s = 0 /\ p = zeros 3)).
Proof. exact cyl_must_contain_iff. Qed.
Print Assumptions C31_cylinder.
Theorem C31_capsule : forall L r ro co c k p s,
  cyl_init L r ro co = Ok c -> caps_init c = Ok k ->
  orthogonal 3 (pose_rot 3 ro) -> length p = 3%nat -> exists a b, cyl_endpoints c = [a; b] /\
  (caps_must_contain k p s <-> (0 < s /\ caps_set a b r (vscale (/ s) p)) \/ (s = 0 /\ p = zeros 3)).
Proof. exact caps_must_contain_iff. Qed.
Print Assumptions C31_capsule.
(** a degenerate ellipsoid admits its centre, and a point outside its plane is excluded *)
Example C31_example : exists e, ell_init [1; 2; 0] (Some Q0) (Some t0) = Ok e /\
  ell_must_contain e [2; 4; 6] 2 /\ ~ ell_must_contain e [2; 4; 7] 2.
Proof.
  destruct ell_example as (e & He & _). exists e. split; [exact He|].
  assert (N : [1; 2; 0] <> []) by discriminate. pose proof Q0_orth as O. split.
  - refine (proj2 (ell_must_contain_iff _ _ _ _ [2; 4; 6] 2 He N O eq_refl) _). left. split; [lra|].
    exists [0; 0; 0]. split; [reflexivity|]. unfold dot; cbn. unfold dot; cbn. split; [lra|]. list_eq; lra.
  - intro H. pose proof (proj1 (ell_must_contain_iff _ _ _ _ [2; 4; 7] 2 He N O eq_refl) H) as H'. destruct H' as [[_ (u & Lu & _ & E)]|[H1 _]]; [|lra].
    destruct (len3_inv _ Lu) as (x & y & z & ->). cbn in E. unfold dot in E. cbn in E. injection E as _ _ E. lra.
Qed.

(** * C62 *)
Theorem C62_other_shape : forall k k' tol,
  caps_is_same false k k' tol = Ok false.
Proof. exact caps_is_same_other. Qed.
Print Assumptions C62_other_shape.
Theorem C62_raises : forall k k' tol,
  caps_is_same true k k' tol = Raise TypeError.
Proof. exact caps_is_same_raises. Qed.
Print Assumptions C62_raises.
Example C62_example : exists c k, cyl_init 2 1 (Some Q0) (Some t0) = Ok c /\ caps_init c = Ok k /\
  caps_is_same true k k 0 = Raise TypeError.
Proof. destruct caps_example as (c & k & H1 & H2). exists c, k. auto using caps_is_same_raises. Qed.

(** * C63 *)
Theorem C63_positive : forall n A b c,
  is_mat n n A -> length b = n -> 0 < c ->
  ((forall z, length z = S n -> 0 <= quad (schur A b c) z) <->
   (forall x, length x = n -> 0 <= quad (msub A (mscale (/ c) (outer b b))) x)).
Proof. exact schur_pos. Qed.
Print Assumptions C63_positive.
Theorem C63_zero : forall n A b,
  is_mat n n A -> length b = n ->
  ((forall z, length z = S n -> 0 <= quad (schur A b 0) z) <->
   ((forall x, length x = n -> 0 <= quad A x) /\ b = zeros n)).
Proof. exact schur_zero. Qed.
Print Assumptions C63_zero.
Theorem C63_negative : forall n A b c,
  is_mat n n A -> length b = n -> c < 0 ->
  ~ (forall z, length z = S n -> 0 <= quad (schur A b c) z).
Proof. exact schur_neg. Qed.
Print Assumptions C63_negative.
Example C63_example : schur [[2; 0]; [0; 3]] [1; 1] 1 = [[2; 0; 1]; [0; 3; 1]; [1; 1; 1]] /\
  (forall x, length x = 2%nat -> 0 <= quad (msub [[2; 0]; [0; 3]] (mscale (/ 1) (outer [1; 1] [1; 1]))) x).
Proof.
  split; [reflexivity|]. intros x Hx. destruct (len2_inv _ Hx) as (a & b & ->). unfold quad, dot. cbn. unfold dot. cbn.
  replace (/ 1) with 1 by lra. pose proof (sqr_nonneg (a - b)). pose proof (sqr_nonneg b). lra.
Qed.

(** * C66 *)
Theorem C66_reflexive : forall c,
  cyl_is_same c c = true.
Proof. exact cyl_is_same_refl. Qed.
Print Assumptions C66_reflexive.
(** the same solid turned about its own axis is not reported as the same: finding *)
Theorem C66_quarter_turn : forall L r Q c c1 c2,
  cyl_init L r (Some Q) (Some c) = Ok c1 ->
  cyl_init L r (Some (mat_mul Q Q0)) (Some c) = Ok c2 -> orthogonal 3 Q ->
  orthogonal 3 (mat_mul Q Q0) /\
  (forall p, cyl_set L r Q c p <-> cyl_set L r (mat_mul Q Q0) c p) /\ cyl_is_same c1 c2 = false.
Proof. exact cyl_is_same_quarter. Qed.
Print Assumptions C66_quarter_turn.
Theorem C66_rotation_refuted : exists c1 c2, cyl_init 2 1 (Some Q0) (Some t0) = Ok c1 /\ cyl_init 2 1 (Some (mat_mul Q0 Q0)) (Some t0) = Ok c2 /\ orthogonal 3 Q0 /\ orthogonal 3 (mat_mul Q0 Q0) /\
  (forall p, cyl_set 2 1 Q0 t0 p <-> cyl_set 2 1 (mat_mul Q0 Q0) t0 p) /\ cyl_is_same c1 c2 = false.
Proof. exact cyl_turn_w. Qed.
Print Assumptions C66_rotation_refuted.
Example C66_example : orthogonal 3 Q0 /\ exists c, cyl_init 2 1 (Some Q0) (Some t0) = Ok c.
Proof. exact (conj Q0_orth cyl_example). Qed.
