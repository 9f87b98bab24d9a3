(** Property C97: how the identified parameters depend on the data and on the accuracy of the solver
    (src/rigeo/unused/identify.py). *)
From Verif Require Import Base.Vec Model.Util Model.Inertial Model.Constraint Model.Polydd Model.Poly Model.Ellipsoid Model.Box Model.Cylinder
  Model.Realize Model.RigidBody Model.Identify Spec.Basic Spec.Objects Spec.Shapes Spec.ShapeObjects Spec.PolySpec Spec.Realizable Spec.Bodies
  Spec.ExtremalSpec Spec.Geodesic Spec.Identify Spec.Cone Spec.Exist Spec.Stable Proofs.Stable Proofs.StableW.

(** away from the optimum the cost grows at least quadratically *)
Theorem C97_growth : forall ut log_det inv r As bs Sigma gamma eps P bodies mr coms l m,
  log_det_spec 4 log_det -> id_init inv As bs Sigma gamma eps = Ok P -> cov_ok r inv Sigma -> data_ok r (10 * length bodies) As bs -> nominals_ok gamma inv bodies -> bodies_ok mr bodies -> coms_ok coms bodies ->
  optimal (id_cost log_det inv P bodies) (id_feasible ut P bodies mr coms) l -> id_feasible ut P bodies mr coms m ->
  exists c1 c2, id_cost log_det inv P bodies l = Ok c1 /\ id_cost log_det inv P bodies m = Ok c2 /\
    c1 + 1 / (2 * INR (length As)) * response (id_W0 P) As (vsub (concat m) (concat l)) <= c2.
Proof. exact id_growth. Qed.
Print Assumptions C97_growth.
Theorem C97_tolerance : forall inv r As Sigma n,
  cov_ok r inv Sigma -> (0 < n)%nat -> As <> [] -> (forall A, In A As -> is_mat r (10 * n) A) -> determining (10 * n) As ->
  exists k, 0 < k /\ forall ut log_det bodies bs gamma eps P mr coms l m c1 c2, log_det_spec 4 log_det -> length bodies = n -> id_init inv As bs Sigma gamma eps = Ok P -> data_ok r (10 * length bodies) As bs -> nominals_ok gamma inv bodies -> bodies_ok mr bodies -> coms_ok coms bodies ->
  optimal (id_cost log_det inv P bodies) (id_feasible ut P bodies mr coms) l -> id_feasible ut P bodies mr coms m ->
  id_cost log_det inv P bodies l = Ok c1 -> id_cost log_det inv P bodies m = Ok c2 ->
  norm (vsub (concat m) (concat l)) ^ 2 <= k * (c2 - c1).
Proof. exact id_near. Qed.
Print Assumptions C97_tolerance.
(** the data determine the predictions with constant one *)
Theorem C97_stable : forall ut log_det inv r As bs bs' Sigma gamma eps P P' bodies mr coms l l',
  log_det_spec 4 log_det -> id_init inv As bs Sigma gamma eps = Ok P -> id_init inv As bs' Sigma gamma eps = Ok P' ->
  cov_ok r inv Sigma -> data_ok r (10 * length bodies) As bs -> data_ok r (10 * length bodies) As bs' -> nominals_ok gamma inv bodies -> bodies_ok mr bodies -> coms_ok coms bodies ->
  optimal (id_cost log_det inv P bodies) (id_feasible ut P bodies mr coms) l -> optimal (id_cost log_det inv P' bodies) (id_feasible ut P' bodies mr coms) l' ->
  response (id_W0 P) As (vsub (concat l') (concat l)) <= disturbance (id_W0 P) bs bs'.
Proof. exact id_stable. Qed.
Print Assumptions C97_stable.
Theorem C97_lipschitz : forall inv r As Sigma n,
  cov_ok r inv Sigma -> (0 < n)%nat -> (forall A, In A As -> is_mat r (10 * n) A) -> determining (10 * n) As ->
  exists k, 0 < k /\ forall ut log_det bodies bs bs' gamma eps P P' mr coms l l', log_det_spec 4 log_det -> length bodies = n -> id_init inv As bs Sigma gamma eps = Ok P -> id_init inv As bs' Sigma gamma eps = Ok P' ->
  data_ok r (10 * length bodies) As bs -> data_ok r (10 * length bodies) As bs' -> nominals_ok gamma inv bodies -> bodies_ok mr bodies -> coms_ok coms bodies ->
  optimal (id_cost log_det inv P bodies) (id_feasible ut P bodies mr coms) l -> optimal (id_cost log_det inv P' bodies) (id_feasible ut P' bodies mr coms) l' ->
  norm (vsub (concat l') (concat l)) ^ 2 <= k * disturbance (id_W0 P) bs bs'.
Proof. exact id_lipschitz. Qed.
Print Assumptions C97_lipschitz.
(** [bs0] are the observations that the true parameters [ps] would produce without noise *)
Theorem C97_noise : forall ut log_det inv solver r As bs bs0 Sigma eps P bodies mr coms ps v,
  log_det_spec 4 log_det -> id_init inv As bs Sigma 0 eps = Ok P -> cov_ok r inv Sigma ->
  data_ok r (10 * length bodies) As bs -> Forall2 (allowed eps mr) bodies ps -> com_allowed coms ps -> stacks ps v -> explains As bs0 v ->
  solved solver (id_cost log_det inv P bodies) (id_feasible ut P bodies mr coms) ->
  forall rs, id_solve ut log_det inv solver P bodies mr coms = Ok rs -> exists w, stacks rs w /\ length w = (10 * length bodies)%nat /\ response (id_W0 P) As (vsub v w) <= disturbance (id_W0 P) bs bs0.
Proof. exact id_noise_solve. Qed.
Print Assumptions C97_noise.
Theorem C97_error : forall inv r As Sigma n,
  cov_ok r inv Sigma -> (0 < n)%nat -> (forall A, In A As -> is_mat r (10 * n) A) -> determining (10 * n) As ->
  exists k, 0 < k /\ forall ut log_det bodies solver bs bs0 eps P mr coms ps v, log_det_spec 4 log_det -> length bodies = n -> id_init inv As bs Sigma 0 eps = Ok P ->
  data_ok r (10 * length bodies) As bs -> Forall2 (allowed eps mr) bodies ps -> com_allowed coms ps -> stacks ps v -> explains As bs0 v ->
  solved solver (id_cost log_det inv P bodies) (id_feasible ut P bodies mr coms) ->
  forall rs, id_solve ut log_det inv solver P bodies mr coms = Ok rs -> exists w, stacks rs w /\ norm (vsub v w) ^ 2 <= k * disturbance (id_W0 P) bs bs0.
Proof. exact id_noise_bound. Qed.
Print Assumptions C97_error.
Theorem C97_discretized_growth : forall inv r As bs Sigma gamma eps P points com x y,
  id_init inv As bs Sigma gamma eps = Ok P -> cov_ok r inv Sigma -> data_ok r 10 As bs -> (forall p, In p points -> length p = 3%nat) -> (forall s, com = Some s -> exists K, shape_is s K) ->
  optimal (di_cost P) (di_feasible points com) x -> di_feasible points com y ->
  fit_error (id_W0 P) As bs x + response (id_W0 P) As (vsub y x) <= fit_error (id_W0 P) As bs y.
Proof. exact di_growth. Qed.
Print Assumptions C97_discretized_growth.
Theorem C97_discretized_stable : forall inv r As bs bs' Sigma gamma eps P P' points com x y,
  id_init inv As bs Sigma gamma eps = Ok P -> id_init inv As bs' Sigma gamma eps = Ok P' -> cov_ok r inv Sigma -> data_ok r 10 As bs -> data_ok r 10 As bs' ->
  (forall p, In p points -> length p = 3%nat) -> (forall s, com = Some s -> exists K, shape_is s K) ->
  optimal (di_cost P) (di_feasible points com) x -> optimal (di_cost P') (di_feasible points com) y ->
  response (id_W0 P) As (vsub y x) <= disturbance (id_W0 P) bs bs'.
Proof. exact di_stable. Qed.
Print Assumptions C97_discretized_stable.
Example C97_example : forall ut gamma b1 b2, 0 <= gamma -> length b1 = 20%nat -> length b2 = 20%nat -> exists log_det inv As Sigma eps P P' bodies coms ps v l l',
  log_det_spec 4 log_det /\ id_init inv As [b1] (Some Sigma) gamma eps = Ok P /\ id_init inv As [b2] (Some Sigma) gamma eps = Ok P' /\ 0 < eps /\ cov_ok 20 inv (Some Sigma) /\
  data_ok 20 (10 * length bodies) As [b1] /\ data_ok 20 (10 * length bodies) As [b2] /\
  determining (10 * length bodies) As /\ length bodies = 2%nat /\ nominals_ok gamma inv bodies /\ bodies_ok true bodies /\ coms_ok (Some coms) bodies /\
  Forall2 (allowed eps true) bodies ps /\ com_allowed (Some coms) ps /\ stacks ps v /\ explains As [v] v /\
  optimal (id_cost log_det inv P bodies) (id_feasible ut P bodies true (Some coms)) l /\ optimal (id_cost log_det inv P' bodies) (id_feasible ut P' bodies true (Some coms)) l'.
Proof. exact stable_example. Qed.
