(** Properties C73-C74: the distance between positive definite matrices, answers of eigh, and
    ellipsoids from arbitrary shape matrices and affine maps
    (src/rigeo/unused/geodesic.py, src/rigeo/shape/ellipsoid.py). *)
From Coq Require Import Permutation.
From Verif Require Import Base.Vec Base.VecFacts Base.Ext Model.Util Model.Inertial Model.Ellipsoid Model.Geodesic
  Spec.Basic Spec.Objects Spec.Shapes Spec.ShapeObjects Spec.Geodesic
  Proofs.Spectral Proofs.MatAlg Proofs.GeodesicP Proofs.SpectralUse.

(** * C73 *)
Theorem C73_value : forall n, (0 < n)%nat -> forall linsolve eigvals A B G G' w,
  numpy_for n linsolve eigvals A B ->
  inverse n G G' -> length w = n -> all_pos w -> A = mat_mul G (transpose G) -> B = congruent G w ->
  positive_definite_distance linsolve eigvals A B = Ok (log_distance w).
Proof. exact distance_value. Qed.
Print Assumptions C73_value.
Theorem C73_total : forall n, (0 < n)%nat -> forall linsolve eigvals A B,
  numpy_for n linsolve eigvals A B -> SPD n A -> SPD n B ->
  exists d, positive_definite_distance linsolve eigvals A B = Ok d /\ 0 <= d.
Proof. exact distance_total. Qed.
Print Assumptions C73_total.
Theorem C73_zero : forall n, (0 < n)%nat -> forall linsolve eigvals A B,
  numpy_for n linsolve eigvals A B -> SPD n A -> SPD n B ->
  positive_definite_distance linsolve eigvals A B = Ok 0 <-> A = B.
Proof. exact distance_zero. Qed.
Print Assumptions C73_zero.
Theorem C73_symmetric : forall n, (0 < n)%nat -> forall linsolve eigvals A B,
  numpy_for n linsolve eigvals A B -> numpy_for n linsolve eigvals B A ->
  SPD n A -> SPD n B -> positive_definite_distance linsolve eigvals B A = positive_definite_distance linsolve eigvals A B.
Proof. exact distance_symmetric. Qed.
Print Assumptions C73_symmetric.
Theorem C73_invariant : forall n, (0 < n)%nat -> forall linsolve eigvals A B K K',
  numpy_for n linsolve eigvals A B -> inverse n K K' ->
  numpy_for n linsolve eigvals (congruence K A) (congruence K B) -> SPD n A -> SPD n B ->
  positive_definite_distance linsolve eigvals (congruence K A) (congruence K B) = positive_definite_distance linsolve eigvals A B.
Proof. exact distance_invariant. Qed.
Print Assumptions C73_invariant.
Theorem C73_inverse : forall n, (0 < n)%nat -> forall linsolve eigvals A B A' B',
  numpy_for n linsolve eigvals A B -> numpy_for n linsolve eigvals A' B' ->
  SPD n A -> SPD n B -> inverse n A A' -> inverse n B B' ->
  positive_definite_distance linsolve eigvals A' B' = positive_definite_distance linsolve eigvals A B.
Proof. exact distance_inverse. Qed.
Print Assumptions C73_inverse.
Theorem C73_scaled : forall n, (0 < n)%nat -> forall linsolve eigvals A c,
  numpy_for n linsolve eigvals A (mscale c A) -> SPD n A -> 0 < c ->
  positive_definite_distance linsolve eigvals A (mscale c A) = Ok (sqrt (INR n / 2) * Rabs (ln c)).
Proof. exact distance_scaled. Qed.
Print Assumptions C73_scaled.
Theorem C73_frame : forall linsolve eigvals p q r t p' q',
  ip_ok p -> ip_ok q -> 0 <= ip_mass p -> 0 <= ip_mass q ->
  orthogonal 3 (rot_of r) -> length (tr_of t) = 3%nat -> ip_transform p r t = Ok p' -> ip_transform q r t = Ok q' ->
  numpy_for 4 linsolve eigvals (ip_J p) (ip_J q) -> numpy_for 4 linsolve eigvals (ip_J p') (ip_J q') ->
  SPD 4 (ip_J p) -> SPD 4 (ip_J q) ->
  positive_definite_distance linsolve eigvals (ip_J p') (ip_J q') = positive_definite_distance linsolve eigvals (ip_J p) (ip_J q).
Proof. exact distance_frame. Qed.
Print Assumptions C73_frame.
Theorem C73_singular : forall n, (0 < n)%nat -> forall linsolve eigvals A B,
  is_mat n n A -> is_mat n n B -> solve_spec n A B (linsolve A B) ->
  (forall X, is_mat n n X -> mat_mul A X <> B) ->
  positive_definite_distance linsolve eigvals A B = Raise LinAlgError.
Proof. exact distance_singular. Qed.
Print Assumptions C73_singular.
Theorem C73_shape : forall linsolve eigvals A B,
  length A <> length B \/ ncols A <> ncols B ->
  positive_definite_distance linsolve eigvals A B = Raise AssertionError.
Proof. exact distance_shape. Qed.
Print Assumptions C73_shape.
(** for any two positive definite matrices there are answers of numpy as the theorems require *)
Theorem C73_satisfiable : forall n, (0 < n)%nat -> forall A B,
  SPD n A -> SPD n B -> exists linsolve eigvals, numpy_for n linsolve eigvals A B.
Proof. exact numpy_for_exists. Qed.
Print Assumptions C73_satisfiable.
Example C73_example : exists linsolve eigvals A B, SPD 2 A /\ SPD 2 B /\ A <> B /\ numpy_for 2 linsolve eigvals A B /\
  positive_definite_distance linsolve eigvals A B = Ok (log_distance [4; 1]).
Proof. destruct geo_case as (ls & ev & H). exists ls, ev, geoA, geoB. exact H. Qed.

(** * C74 *)
Theorem C74_eigh : forall n M, (0 < n)%nat -> is_mat n n M -> symmetric n M -> exists wV, eigh_spec n M wV.
Proof. exact spectral. Qed.
Print Assumptions C74_eigh.
Theorem C74_order : forall n M w V w' V',
  (0 < n)%nat -> is_mat n n M -> eigh_spec n M (w, V) -> eigh_spec n M (w', V') -> Permutation w w'.
Proof. exact eigh_perm. Qed.
Print Assumptions C74_order.
Theorem C74_shape_matrix : forall n M c eigh lo hi,
  (0 < n)%nat -> is_mat n n M -> length c = n ->
  eigh_spec n M (eigh M) -> form_between n M lo hi -> np_atol * np_atol < lo -> hi < / (np_atol * np_atol) ->
  exists e, ell_from_shape_matrix eigh M (Some c) = Ok e /\ e_S e = fin2 M /\ e_center e = c /\
    forall p, length p = n -> (ell_contains e p 0 = true <-> quad M (vsub p c) <= 1).
Proof. exact shape_matrix_any. Qed.
Print Assumptions C74_shape_matrix.
Theorem C74_affine : forall n A b eigh lstsq lo hi,
  (0 < n)%nat -> is_mat n n A -> symmetric n A -> length b = n ->
  (exists A', inverse n A A') -> eigh_spec n (mat_mul A A) (eigh (mat_mul A A)) -> lstsq_spec A (vneg b) (lstsq A (vneg b)) ->
  (forall x, length x = n -> lo * dot x x <= dot (mat_vec A x) (mat_vec A x) <= hi * dot x x) ->
  np_atol * np_atol < lo -> hi < / (np_atol * np_atol) ->
  exists e, ell_from_affine eigh lstsq A b = Ok e /\
    forall p, length p = n -> (ell_contains e p 0 = true <-> norm (vadd (mat_vec A p) b) <= 1).
Proof. exact affine_any. Qed.
Print Assumptions C74_affine.
Theorem C74_affine_refuted : exists A b p, is_mat 2 2 A /\ (exists A', inverse 2 A A') /\ length b = 2%nat /\ length p = 2%nat /\
  norm (vadd (mat_vec A p) b) <= 1 /\
  (exists wV c, eigh_spec 2 (mat_mul A A) wV /\ lstsq_spec A (vneg b) c) /\
  forall eigh lstsq, eigh_spec 2 (mat_mul A A) (eigh (mat_mul A A)) -> lstsq_spec A (vneg b) (lstsq A (vneg b)) ->
  exists e, ell_from_affine eigh lstsq A b = Ok e /\ ell_contains e p 0 = false.
Proof. exact affine_not_symmetric. Qed.
Print Assumptions C74_affine_refuted.
Example C74_example : exists M V, is_mat 2 2 M /\ entry M 0 1 <> 0 /\ eigh_spec 2 M ([4; 1], V) /\ form_between 2 M 1 4.
Proof. exact between_case. Qed.
