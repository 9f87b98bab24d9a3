(** Property C95: the identification problems have a solution
    (src/rigeo/unused/identify.py, src/rigeo/rigidbody.py, src/rigeo/shape/*.py). *)
From Verif Require Import Base.Vec Model.Util Model.Inertial Model.Constraint Model.Polydd Model.Poly Model.Ellipsoid Model.Box Model.Cylinder
  Model.Realize Model.RigidBody Model.Identify Spec.Basic Spec.Objects Spec.Shapes Spec.ShapeObjects Spec.PolySpec Spec.Realizable Spec.Bodies
  Spec.ExtremalSpec Spec.Geodesic Spec.Identify Spec.Cone Spec.Exist Proofs.ExistC Proofs.ExistW.

Theorem C95_accepted_limit : forall ut b Ks v J,
  Forall2 shape_is (bd_shapes b) Ks -> (forall s, In s (bd_shapes b) -> shape_proper s) -> (forall c, ~ In (SCyl c) (bd_shapes b)) ->
  pv_value v J -> is_mat 4 4 J -> symmetric 4 J ->
  (forall e, 0 < e -> exists J', entries_within 4 e J' J /\ is_mat 4 4 J' /\ symmetric 4 J' /\ accepts (rb_moment_sdp_constraints ut b (PVmat J') 0 2)) -> accepts (rb_moment_sdp_constraints ut b v 0 2).
Proof. exact accepted_limit. Qed.
Print Assumptions C95_accepted_limit.
Theorem C95_exists : forall ut log_det inv r As bs Sigma gamma eps P bodies mr coms l0,
  log_det_spec 4 log_det -> id_init inv As bs Sigma gamma eps = Ok P -> cov_ok r inv Sigma ->
  data_ok r (10 * length bodies) As bs -> nominals_ok gamma inv bodies -> bodies_ok mr bodies -> no_cylinders mr bodies -> coms_ok coms bodies ->
  0 < gamma \/ determining (10 * length bodies) As ->
  id_feasible ut P bodies mr coms l0 -> exists l, optimal (id_cost log_det inv P bodies) (id_feasible ut P bodies mr coms) l.
Proof. exact id_exists. Qed.
Print Assumptions C95_exists.
Theorem C95_exists_unique : forall ut log_det inv r As bs Sigma gamma eps P bodies mr coms l0,
  log_det_spec 4 log_det -> id_init inv As bs Sigma gamma eps = Ok P -> cov_ok r inv Sigma ->
  data_ok r (10 * length bodies) As bs -> nominals_ok gamma inv bodies -> bodies_ok mr bodies -> no_cylinders mr bodies -> coms_ok coms bodies ->
  0 < gamma \/ determining (10 * length bodies) As ->
  id_feasible ut P bodies mr coms l0 -> exists! l, optimal (id_cost log_det inv P bodies) (id_feasible ut P bodies mr coms) l.
Proof. exact id_exists_unique. Qed.
Print Assumptions C95_exists_unique.
Theorem C95_outcome : forall ut log_det inv solver r As bs Sigma gamma eps P bodies mr coms,
  log_det_spec 4 log_det -> id_init inv As bs Sigma gamma eps = Ok P -> cov_ok r inv Sigma ->
  data_ok r (10 * length bodies) As bs -> nominals_ok gamma inv bodies -> bodies_ok mr bodies -> no_cylinders mr bodies -> coms_ok coms bodies ->
  0 < gamma \/ 0 < eps /\ determining (10 * length bodies) As ->
  solver_exact solver (id_cost log_det inv P bodies) (id_feasible ut P bodies mr coms) ->
  ((exists l, id_feasible ut P bodies mr coms l) /\ exists l rs, id_solve ut log_det inv solver P bodies mr coms = Ok rs /\ Forall2 (fun p t => ip_vec p = Ok t) rs l /\
     optimal (id_cost log_det inv P bodies) (id_feasible ut P bodies mr coms) l) \/
  ((forall l, ~ id_feasible ut P bodies mr coms l) /\ id_solve ut log_det inv solver P bodies mr coms = Raise AssertionError).
Proof. exact id_outcome. Qed.
Print Assumptions C95_outcome.
Theorem C95_discretized : forall inv r As bs Sigma gamma eps P points com,
  id_init inv As bs Sigma gamma eps = Ok P -> cov_ok r inv Sigma -> data_ok r 10 As bs -> (forall p, In p points -> length p = 3%nat) -> (forall s, com = Some s -> exists K, shape_is s K) ->
  determining 10 As -> exists! x, optimal (di_cost P) (di_feasible points com) x.
Proof. exact di_exists_unique. Qed.
Print Assumptions C95_discretized.
(** gamma = 0 and data that do not determine the parameters: feasible, but no optimal solution *)
Theorem C95_unattained_refuted : forall ut log_det inv (b : Body),
  exists As bs P l, id_init inv As bs None 0 0 = Ok P /\ data_ok 2 10 As bs /\
  id_feasible ut P [b] false None l /\ forall m, ~ optimal (id_cost log_det inv P [b]) (id_feasible ut P [b] false None) m.
Proof. exact unattained. Qed.
Print Assumptions C95_unattained_refuted.
Example C95_example : forall ut gamma, 0 <= gamma -> exists log_det inv solver As bs Sigma eps P bodies l l0,
  log_det_spec 4 log_det /\ id_init inv As bs (Some Sigma) gamma eps = Ok P /\ 0 < eps /\ cov_ok 20 inv (Some Sigma) /\ data_ok 20 (10 * length bodies) As bs /\
  determining (10 * length bodies) As /\ length bodies = 2%nat /\ (forall b, In b bodies -> length (bd_shapes b) = 2%nat) /\ nominals_ok gamma inv bodies /\ bodies_ok true bodies /\ no_cylinders true bodies /\ coms_ok (Some l) bodies /\
  id_feasible ut P bodies true (Some l) l0 /\ solver_exact solver (id_cost log_det inv P bodies) (id_feasible ut P bodies true (Some l)).
Proof. exact exist_example. Qed.
