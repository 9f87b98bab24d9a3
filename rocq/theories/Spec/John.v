(** Specification vocabulary for the existence and uniqueness of extremal ellipsoids. *)
From Verif Require Import Base.Vec Spec.Basic Spec.Shapes Spec.ExtremalSpec Spec.DoubleDesc Spec.PolySpec Model.Util Model.Polydd Model.Poly Model.Extremal.

(** the points lie on no hyperplane {x : y.x = const} *)
Definition spans (n : nat) (P : mat) : Prop :=
  forall y, length y = n -> (forall p q, In p P -> In q P -> dot y p = dot y q) -> y = zeros n.
(** what a bounding ellipsoid needs: points on no hyperplane; a bounding ball needs only two different points *)
Definition wide (n : nat) (P : mat) (sphere : bool) : Prop :=
  if sphere then exists p q, In p P /\ In q P /\ p <> q else spans n P.
(** the halfspaces bound a bounded set *)
Definition bounded_halfspaces (n : nat) (A : mat) (b : vec) : Prop :=
  exists r, forall x, length x = n -> halfspaces A b x -> norm x <= r.
(** the set bounded by the halfspaces contains a ball *)
Definition solid_halfspaces (n : nat) (A : mat) (b : vec) : Prop :=
  exists q rho, length q = n /\ 0 < rho /\ forall x, length x = n -> ball q rho x -> halfspaces A b x.
(** (A, b) is feasible with A in the domain of log_det, and no feasible point has a larger log_det *)
Definition log_det_optimal (n : nat) (log_det : mat -> R) (feasible : mat -> vec -> Prop) (A : mat) (b : vec) : Prop :=
  feasible A b /\ pos_def n A /\ forall A' b', feasible A' b' -> pos_def n A' -> log_det A' <= log_det A.
(** two lists of points with the same convex hull *)
Definition same_hull (n : nat) (P Q : mat) : Prop := forall x, in_hull n P x <-> in_hull n Q x.
(** what orth, null_space, eigh, lstsq and the convex solver promise for the calls mbe_of_points makes:
    k is the number of columns orth returns *)
Definition mbe_oracles (d k : nat) (orth null_space : mat -> mat) (eigh : mat -> vec * mat) (lstsq : mat -> vec -> vec)
  (solver : (mat -> vec -> Prop) -> mat * vec) (points : mat) : Prop :=
  exists r, hd_error points = Some r /\
  let D := map (fun p => vsub p r) points in
  let R := orth (transpose D) in
  let program := mbe_points_constraints k (mat_mul D R) false in
  let A := fst (solver program) in
  let b := snd (solver program) in
  (0 < k <= d)%nat /\ orth_spec d k D R /\
  (exists log_det, log_det_spec k log_det /\ log_det_optimal k log_det program A b) /\
  eigh_spec k A (eigh A) /\ lstsq_spec A (vneg b) (lstsq A (vneg b)) /\
  null_spec d k (transpose (mat_mul R (snd (eigh A)))) (null_space (transpose (mat_mul R (snd (eigh A))))).
(** the same for mie_inequality_form on {x : A x <= b}: the eigenvalues the code takes square roots of
    are in the range in which it does not replace them *)
Definition mie_oracles (n : nat) (eigh : mat -> vec * mat) (inv : mat -> mat) (solver : (mat -> vec -> Prop) -> mat * vec)
  (A : mat) (b : vec) (sphere : bool) : Prop :=
  let program := mie_constraints n A b sphere in
  let B := fst (solver program) in
  let c := snd (solver program) in
  (exists log_det, log_det_spec n log_det /\ log_det_optimal n log_det program B c) /\
  inv_spec n (mat_mul B B) (inv (mat_mul B B)) /\ eigh_spec n (inv (mat_mul B B)) (eigh (inv (mat_mul B B))) /\
  forall a, In a (fst (eigh (inv (mat_mul B B)))) -> np_atol * np_atol < a < / (np_atol * np_atol).
(** the same for the polyhedron with the given vertices: f is the face form of the projected vertices *)
Definition poly_mie_oracles (d k : nat) (dd : DD) (orth null_space : mat -> mat) (eigh : mat -> vec * mat) (inv : mat -> mat)
  (solver : (mat -> vec -> Prop) -> mat * vec) (vertices : mat) : Prop :=
  exists r, hd_error vertices = Some r /\
  let D := map (fun p => vsub p r) vertices in
  let R := orth (transpose D) in
  let P := mat_mul D R in
  (0 < k <= d)%nat /\ orth_spec d k D R /\
  ineqs_correct k (dd_ineqs dd) {| cdd_rows := map (cons 1) P; cdd_lin := [] |} /\
  (exists f, sf_to_face_form (dd_ineqs dd) (span_form (Some P) None None) = Ok f /\ mie_oracles k eigh inv solver (ff_A f) (ff_b f) false) /\
  null_spec d k (transpose R) (null_space (transpose R)).
