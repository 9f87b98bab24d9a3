(** Properties C75-C77: parameter identification (src/rigeo/unused/identify.py). *)
From Verif Require Import Base.Vec Model.Util Model.Inertial Model.Constraint Model.Poly Model.Ellipsoid Model.Box Model.Cylinder
  Model.Realize Model.RigidBody Model.Identify Spec.Basic Spec.Objects Spec.Shapes Spec.ShapeObjects Spec.PolySpec Spec.Realizable Spec.Bodies
  Spec.ExtremalSpec Spec.Geodesic Spec.Identify Proofs.LogDet Proofs.IdentifyP Proofs.IdentifyW.

(** * C75: least squares and the entropic regularizer *)
Theorem C75_least_squares : forall r c As bs thetas,
  data_ok r c As bs -> length (concat thetas) = c ->
  least_squares_objective thetas As bs None = Ok (sum_squares As bs (concat thetas)).
Proof. exact lso_unweighted. Qed.
Print Assumptions C75_least_squares.
Theorem C75_least_squares_weighted : forall r c As bs thetas W,
  data_ok r c As bs -> length (concat thetas) = c -> is_mat r r W ->
  least_squares_objective thetas As bs (Some W) = Ok (weighted_squares W As bs (concat thetas)).
Proof. exact lso_weighted. Qed.
Print Assumptions C75_least_squares_weighted.
Theorem C75_least_squares_zero : forall r c As bs theta,
  data_ok r c As bs ->
  0 <= sum_squares As bs theta /\ (sum_squares As bs theta = 0 <-> explains As bs theta).
Proof. exact sum_squares_zero. Qed.
Print Assumptions C75_least_squares_zero.
Theorem C75_least_squares_weighted_zero : forall r c As bs W theta,
  data_ok r c As bs -> pos_def r W ->
  0 <= weighted_squares W As bs theta /\ (weighted_squares W As bs theta = 0 <-> explains As bs theta).
Proof. exact weighted_squares_zero. Qed.
Print Assumptions C75_least_squares_weighted_zero.
Theorem C75_least_squares_errors : forall thetas As bs W0,
  (As = [] \/ bs = [] \/ length (concat thetas) <> ncols (concat As) \/ length (concat As) <> length (concat bs)) ->
  least_squares_objective thetas As bs W0 = Raise ValueError.
Proof. exact lso_errors. Qed.
Print Assumptions C75_least_squares_errors.
Theorem C75_regularizer_minimum : forall log_det inv Js J0s,
  log_det_spec 4 log_det -> Js <> [] -> length Js = length J0s ->
  (forall J, In J J0s -> nominal_ok inv J) -> (forall J, In J Js -> SPD 4 J) ->
  exists v v0, entropic_regularizer log_det inv Js J0s = Ok v /\ entropic_regularizer log_det inv J0s J0s = Ok v0 /\
    v0 <= v /\ (v = v0 -> Js = J0s).
Proof. exact regularizer_min. Qed.
Print Assumptions C75_regularizer_minimum.
Theorem C75_regularizer_single : forall log_det inv J J0,
  log_det_spec 4 log_det -> nominal_ok inv J0 -> SPD 4 J ->
  exists v v0, entropic_regularizer1 log_det inv J J0 = Ok v /\ entropic_regularizer1 log_det inv J0 J0 = Ok v0 /\ v0 <= v /\ (v = v0 -> J = J0).
Proof. exact regularizer_single. Qed.
Print Assumptions C75_regularizer_single.
Theorem C75_regularizer_convex : forall log_det inv Js Js' J0s t,
  log_det_spec 4 log_det -> Js <> [] -> length Js = length J0s -> length Js' = length J0s ->
  (forall J, In J J0s -> nominal_ok inv J) -> (forall J, In J Js -> SPD 4 J) -> (forall J, In J Js' -> SPD 4 J) -> 0 <= t <= 1 ->
  exists v v' vt, entropic_regularizer log_det inv Js J0s = Ok v /\ entropic_regularizer log_det inv Js' J0s = Ok v' /\
    entropic_regularizer log_det inv (map2 (fun J J' => madd (mscale (1 - t) J) (mscale t J')) Js Js') J0s = Ok vt /\
    vt <= (1 - t) * v + t * v'.
Proof. exact regularizer_convex. Qed.
Print Assumptions C75_regularizer_convex.
Theorem C75_regularizer_lengths : forall log_det inv Js J0s,
  length Js <> length J0s -> entropic_regularizer log_det inv Js J0s = Raise AssertionError.
Proof. exact regularizer_lengths. Qed.
Print Assumptions C75_regularizer_lengths.
(** the log-determinant the theorems require exists and is concave in every dimension *)
Theorem C75_log_det_exists : forall n, (0 < n)%nat -> exists log_det, log_det_spec n log_det.
Proof. exact log_det_exists. Qed.
Print Assumptions C75_log_det_exists.
Theorem C75_log_det_concave : forall n, (0 < n)%nat -> forall log_det, log_det_spec n log_det -> forall t X Y,
  0 <= t <= 1 -> SPD n X -> SPD n Y ->
  (1 - t) * log_det X + t * log_det Y <= log_det (madd (mscale (1 - t) X) (mscale t Y)).
Proof. exact log_det_concave. Qed.
Print Assumptions C75_log_det_concave.
Example C75_example : exists inv Sigma, cov_ok 20 inv (Some Sigma) /\ (exists J, nominal_ok inv J) /\ data_ok 20 20 [eye 20] [ones 20].
Proof. exact objective_example. Qed.

(** * C76: IdentificationProblem *)
Theorem C76_fit : forall ut log_det inv solver r As bs Sigma eps P bodies mr coms ps v,
  id_init inv As bs Sigma 0 eps = Ok P -> cov_ok r inv Sigma ->
  data_ok r (10 * length bodies) As bs -> Forall2 (allowed eps mr) bodies ps -> com_allowed coms ps -> stacks ps v -> explains As bs v ->
  solved solver (id_cost log_det inv P bodies) (id_feasible ut P bodies mr coms) ->
  forall rs, id_solve ut log_det inv solver P bodies mr coms = Ok rs -> length rs = length bodies /\ exists w, stacks rs w /\ explains As bs w.
Proof. exact id_fit. Qed.
Print Assumptions C76_fit.
Theorem C76_recover : forall ut log_det inv solver r As bs Sigma eps P bodies mr coms ps v,
  id_init inv As bs Sigma 0 eps = Ok P -> cov_ok r inv Sigma ->
  data_ok r (10 * length bodies) As bs -> determining (10 * length bodies) As ->
  Forall2 (allowed eps mr) bodies ps -> com_allowed coms ps -> stacks ps v -> explains As bs v ->
  solved solver (id_cost log_det inv P bodies) (id_feasible ut P bodies mr coms) ->
  id_solve ut log_det inv solver P bodies mr coms = Ok ps.
Proof. exact id_recover. Qed.
Print Assumptions C76_recover.
Theorem C76_nominal : forall ut log_det inv solver r As bs Sigma gamma eps P bodies mr coms v,
  log_det_spec 4 log_det ->
  id_init inv As bs Sigma gamma eps = Ok P -> 0 < gamma -> cov_ok r inv Sigma -> data_ok r (10 * length bodies) As bs ->
  (forall b, In b bodies -> nominal_ok inv (ip_J (bd_params b)) /\ allowed eps mr b (bd_params b)) -> com_allowed coms (map bd_params bodies) ->
  stacks (map bd_params bodies) v -> explains As bs v ->
  solved solver (id_cost log_det inv P bodies) (id_feasible ut P bodies mr coms) ->
  id_solve ut log_det inv solver P bodies mr coms = Ok (map bd_params bodies).
Proof. exact id_nominal. Qed.
Print Assumptions C76_nominal.
Theorem C76_no_worse : forall ut log_det inv solver r As bs Sigma gamma eps P bodies mr coms v,
  log_det_spec 4 log_det ->
  id_init inv As bs Sigma gamma eps = Ok P -> 0 < gamma -> cov_ok r inv Sigma -> data_ok r (10 * length bodies) As bs ->
  (forall b, In b bodies -> nominal_ok inv (ip_J (bd_params b)) /\ allowed eps mr b (bd_params b)) -> com_allowed coms (map bd_params bodies) ->
  stacks (map bd_params bodies) v ->
  solved solver (id_cost log_det inv P bodies) (id_feasible ut P bodies mr coms) ->
  forall rs, id_solve ut log_det inv solver P bodies mr coms = Ok rs ->
    exists w, stacks rs w /\ fit_error (id_W0 P) As bs w <= fit_error (id_W0 P) As bs v /\
      (fit_error (id_W0 P) As bs w = fit_error (id_W0 P) As bs v -> rs = map bd_params bodies).
Proof. exact id_no_worse. Qed.
Print Assumptions C76_no_worse.
Theorem C76_guarantee : forall ut log_det inv solver P bodies mr coms rs,
  (forall thetas, solver (id_cost log_det inv P bodies) (id_feasible ut P bodies mr coms) = Some thetas -> id_feasible ut P bodies mr coms thetas) ->
  id_solve ut log_det inv solver P bodies mr coms = Ok rs ->
  Forall2 (result_ok (id_eps P) mr) bodies rs /\
  (forall l, coms = Some l -> Forall2 (fun s p => forall K, shape_is s K -> K (ip_com p)) l rs).
Proof. exact id_guarantee. Qed.
Print Assumptions C76_guarantee.
Theorem C76_centre_of_mass : forall eps b p s K,
  result_ok eps true b p -> bd_shapes b = [s] -> shape_is s K -> shape_proper s -> K (ip_com p).
Proof. exact result_one. Qed.
Print Assumptions C76_centre_of_mass.
Theorem C76_total : forall ut log_det inv solver r As bs Sigma gamma eps P bodies mr coms thetas,
  id_init inv As bs Sigma gamma eps = Ok P -> cov_ok r inv Sigma ->
  data_ok r (10 * length bodies) As bs -> 0 < eps \/ 0 < gamma -> (0 < gamma -> forall b, In b bodies -> nominal_ok inv (ip_J (bd_params b))) ->
  (forall b, In b bodies -> mr = true -> exists Ks, Forall2 shape_is (bd_shapes b) Ks /\ (forall s, In s (bd_shapes b) -> shape_proper s)) ->
  (forall l, coms = Some l -> length l = length bodies) ->
  solver (id_cost log_det inv P bodies) (id_feasible ut P bodies mr coms) = Some thetas -> id_feasible ut P bodies mr coms thetas ->
  exists rs, id_solve ut log_det inv solver P bodies mr coms = Ok rs /\ Forall2 (fun p t => ip_vec p = Ok t) rs thetas.
Proof. exact id_total. Qed.
Print Assumptions C76_total.
Theorem C76_failed : forall ut log_det inv solver r As bs Sigma gamma eps P bodies mr coms,
  id_init inv As bs Sigma gamma eps = Ok P -> cov_ok r inv Sigma ->
  data_ok r (10 * length bodies) As bs -> (forall b, In b bodies -> nominal_ok inv (ip_J (bd_params b))) ->
  (forall b, In b bodies -> mr = true -> exists Ks, Forall2 shape_is (bd_shapes b) Ks /\ (forall s, In s (bd_shapes b) -> shape_proper s)) ->
  (forall l, coms = Some l -> length l = length bodies) ->
  solver (id_cost log_det inv P bodies) (id_feasible ut P bodies mr coms) = None ->
  id_solve ut log_det inv solver P bodies mr coms = Raise AssertionError.
Proof. exact id_solve_failed. Qed.
Print Assumptions C76_failed.
Theorem C76_init_errors : forall inv As bs Sigma gamma eps,
  (length As <> length bs -> id_init inv As bs Sigma gamma eps = Raise AssertionError) /\
  (gamma < 0 -> id_init inv As bs Sigma gamma eps = Raise AssertionError) /\
  (eps < 0 -> id_init inv As bs Sigma gamma eps = Raise AssertionError) /\
  (length As = length bs -> 0 <= gamma -> 0 <= eps -> forall C e, Sigma = Some C -> inv C = Raise e -> id_init inv As bs Sigma gamma eps = Raise e).
Proof. exact id_init_errors. Qed.
Print Assumptions C76_init_errors.
Theorem C76_bounding_shapes : forall ut log_det inv solver P bodies mr l,
  length l <> length bodies ->
  id_solve ut log_det inv solver P bodies mr (Some l) = Raise AssertionError.
Proof. exact id_solve_coms. Qed.
Print Assumptions C76_bounding_shapes.
Theorem C76_definite_refuted : forall ut log_det inv, exists solver P bodies p, id_init inv (id_As P) (id_bs P) None 0 0 = Ok P /\
  data_ok 1 (10 * length bodies) (id_As P) (id_bs P) /\ solved solver (id_cost log_det inv P bodies) (id_feasible ut P bodies false None) /\
  id_solve ut log_det inv solver P bodies false None = Ok [p] /\ ~ pos_def 4 (ip_J p).
Proof. exact id_definite_refuted. Qed.
Print Assumptions C76_definite_refuted.
Theorem C76_finite_refuted : forall ut log_det inv, exists solver P bodies, id_init inv (id_As P) (id_bs P) None 0 0 = Ok P /\
  data_ok 1 (10 * length bodies) (id_As P) (id_bs P) /\ solved solver (id_cost log_det inv P bodies) (id_feasible ut P bodies false None) /\
  id_solve ut log_det inv solver P bodies false None = NonFinite.
Proof. exact id_massless_refuted. Qed.
Print Assumptions C76_finite_refuted.
Example C76_example : forall ut gamma, 0 <= gamma -> exists log_det inv solver As bs Sigma eps P bodies l v,
  log_det_spec 4 log_det /\ id_init inv As bs (Some Sigma) gamma eps = Ok P /\ 0 < eps /\ cov_ok 20 inv (Some Sigma) /\ data_ok 20 (10 * length bodies) As bs /\
  determining (10 * length bodies) As /\ length bodies = 2%nat /\
  (forall b, In b bodies -> nominal_ok inv (ip_J (bd_params b)) /\ allowed eps true b (bd_params b)) /\
  com_allowed (Some l) (map bd_params bodies) /\ stacks (map bd_params bodies) v /\ explains As bs v /\
  solved solver (id_cost log_det inv P bodies) (id_feasible ut P bodies true (Some l)) /\
  id_solve ut log_det inv solver P bodies true (Some l) = Ok (map bd_params bodies).
Proof. exact identify_example. Qed.

(** * C77: DiscretizedIdentificationProblem *)
Theorem C77_feasible : forall points com t,
  (forall p, In p points -> length p = 3%nat) -> length t = 10%nat ->
  exists J c, pim_must_equal_vec t = Ok J /\ di_constraints points com t = Ok c /\
    (c <-> realizable_J (fun x => In x points) J /\ match com with Some s => com_constraint s J | None => True end).
Proof. exact di_constraints_iff. Qed.
Print Assumptions C77_feasible.
Theorem C77_fit : forall solver r inv As bs Sigma gamma eps P points com p v,
  id_init inv As bs Sigma gamma eps = Ok P -> cov_ok r inv Sigma -> data_ok r 10 As bs ->
  (forall q, In q points -> length q = 3%nat) -> ip_ok p -> symmetric 3 (ip_H p) -> 0 < ip_mass p -> realizable_J (fun x => In x points) (ip_J p) ->
  (forall s, com = Some s -> exists K, shape_is s K /\ K (ip_com p)) -> ip_vec p = Ok v -> explains As bs v ->
  solved solver (di_cost P) (di_feasible points com) ->
  (forall rs, di_solve solver P points com = Ok rs -> exists q w, rs = [q] /\ ip_vec q = Ok w /\ explains As bs w) /\
  (determining 10 As -> di_solve solver P points com = Ok [p]).
Proof. exact di_fit. Qed.
Print Assumptions C77_fit.
Theorem C77_guarantee : forall solver P points com rs,
  (forall q, In q points -> length q = 3%nat) ->
  (forall t, solver (di_cost P) (di_feasible points com) = Some t -> di_feasible points com t) ->
  di_solve solver P points com = Ok rs ->
  exists p, rs = [p] /\ ip_ok p /\ symmetric 3 (ip_H p) /\ 0 < ip_mass p /\ realizable_J (fun x => In x points) (ip_J p) /\
    in_hull 3 points (ip_com p) /\ (forall s K, com = Some s -> shape_is s K -> K (ip_com p)).
Proof. exact di_guarantee. Qed.
Print Assumptions C77_guarantee.
Theorem C77_failed : forall solver r inv As bs Sigma gamma eps P points com,
  id_init inv As bs Sigma gamma eps = Ok P -> cov_ok r inv Sigma -> data_ok r 10 As bs ->
  (forall q, In q points -> length q = 3%nat) -> solver (di_cost P) (di_feasible points com) = None -> di_solve solver P points com = Raise AssertionError.
Proof. exact di_failed. Qed.
Print Assumptions C77_failed.
Theorem C77_settings : forall inv As bs Sigma gamma eps gamma' eps' P P' solver points com,
  id_init inv As bs Sigma gamma eps = Ok P -> id_init inv As bs Sigma gamma' eps' = Ok P' ->
  di_solve solver P points com = di_solve solver P' points com.
Proof. exact di_settings. Qed.
Print Assumptions C77_settings.
Theorem C77_margin_refuted : exists solver P points eps p, 0 < eps /\ (forall inv, id_init inv (id_As P) (id_bs P) None 0 eps = Ok P) /\
  data_ok 1 10 (id_As P) (id_bs P) /\ (forall q, In q points -> length q = 3%nat) /\
  solved solver (di_cost P) (di_feasible points None) /\ di_solve solver P points None = Ok [p] /\ ~ PSD 4 (msub (ip_J p) (mscale eps (eye 4))).
Proof. exact di_margin_refuted. Qed.
Print Assumptions C77_margin_refuted.
Example C77_example : exists solver P points p v, (forall inv, id_init inv (id_As P) (id_bs P) None 0 0 = Ok P) /\ data_ok 10 10 (id_As P) (id_bs P) /\
  determining 10 (id_As P) /\ (forall q, In q points -> length q = 3%nat) /\ length points = 6%nat /\ ip_ok p /\ symmetric 3 (ip_H p) /\ 0 < ip_mass p /\
  realizable_J (fun x => In x points) (ip_J p) /\ ip_vec p = Ok v /\ explains (id_As P) (id_bs P) v /\ solved solver (di_cost P) (di_feasible points None).
Proof. exact discrete_example. Qed.
