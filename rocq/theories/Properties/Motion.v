(** Property C98: which recorded motions determine the inertial parameters, and what the identification
    problem returns for them (src/rigeo/inertial.py, rigidbody.py, unused/multibody.py, unused/identify.py). *)
From Verif Require Import Base.Vec Model.Util Model.Spatial Model.Inertial Model.Constraint Model.Polydd Model.Poly Model.Ellipsoid Model.Box Model.Cylinder
  Model.Realize Model.RigidBody Model.Identify Model.MultiBody Spec.Basic Spec.Objects Spec.Shapes Spec.ShapeObjects Spec.PolySpec Spec.Realizable Spec.Bodies
  Spec.ExtremalSpec Spec.Geodesic Spec.Identify Spec.Cone Spec.Exist Spec.Stable Spec.Multi Spec.Motion Proofs.Motion Proofs.MotionW.

(** * which motions *)
Theorem C98_rank : forall VAs As,
  motions_ok VAs -> regressors VAs As -> tells_apart VAs <-> determining 10 As.
Proof. exact tells_apart_iff. Qed.
Print Assumptions C98_rank.
Theorem C98_one_motion : forall V A,
  sv_ok V -> sv_ok A -> ~ tells_apart [(V, A)].
Proof. exact one_motion. Qed.
Print Assumptions C98_one_motion.
Theorem C98_two_motions : exists V1 A1 V2 A2, motions_ok [(V1, A1); (V2, A2)] /\ tells_apart [(V1, A1); (V2, A2)].
Proof. exact two_motions. Qed.
Print Assumptions C98_two_motions.
Theorem C98_fixed_axis : forall VAs n,
  motions_ok VAs -> length n = 3%nat -> (forall V A, In (V, A) VAs -> exists s t, sv_angular V = vscale s n /\ sv_angular A = vscale t n) -> ~ tells_apart VAs.
Proof. exact fixed_axis. Qed.
Print Assumptions C98_fixed_axis.
Theorem C98_fixed_point : forall VAs c,
  motions_ok VAs -> length c = 3%nat -> (forall V A, In (V, A) VAs -> unaccelerated c V A) -> ~ tells_apart VAs.
Proof. exact fixed_point. Qed.
Print Assumptions C98_fixed_point.
Theorem C98_translations : forall VAs p q V1 A1 V2 A2,
  motions_ok VAs -> (forall V A, In (V, A) VAs -> sv_angular V = zeros 3 /\ sv_angular A = zeros 3) ->
  In (V1, A1) VAs -> In (V2, A2) VAs -> cross (sv_linear A1) (sv_linear A2) <> zeros 3 ->
  ip_ok p -> ip_ok q -> symmetric 3 (ip_H p) -> symmetric 3 (ip_H q) -> 0 < ip_mass p ->
  (forall V A, In (V, A) VAs -> ip_body_wrench p V A = ip_body_wrench q V A) <-> ip_mass p = ip_mass q /\ ip_com p = ip_com q.
Proof. exact translations. Qed.
Print Assumptions C98_translations.
Theorem C98_rich : forall VAs V1 A1 V2 A2 V3 A3 V4 A4 V5 A5,
  motions_ok VAs -> In (V1, A1) VAs -> In (V2, A2) VAs -> In (V3, A3) VAs -> In (V4, A4) VAs -> In (V5, A5) VAs ->
  (forall V, In V [V1; V2; V3; V4; V5; A1; A2] -> sv_angular V = zeros 3) -> cross (sv_linear A1) (sv_linear A2) <> zeros 3 -> dot (sv_angular A3) (cross (sv_angular A4) (sv_angular A5)) <> 0 -> tells_apart VAs.
Proof. exact rich_motions. Qed.
Print Assumptions C98_rich.
(** * what is returned *)
Theorem C98_recover : forall ut log_det inv solver VAs As bs Sigma eps P b mr coms p,
  motions_ok VAs -> tells_apart VAs -> regressors VAs As -> wrenches p VAs bs ->
  id_init inv As bs Sigma 0 eps = Ok P -> cov_ok 6 inv Sigma -> allowed eps mr b p -> com_allowed coms [p] ->
  solved solver (id_cost log_det inv P [b]) (id_feasible ut P [b] mr coms) -> id_solve ut log_det inv solver P [b] mr coms = Ok [p].
Proof. exact id_motions. Qed.
Print Assumptions C98_recover.
Theorem C98_noise : forall inv VAs As Sigma,
  motions_ok VAs -> tells_apart VAs -> regressors VAs As -> cov_ok 6 inv Sigma ->
  exists k, 0 < k /\ forall ut log_det b solver bs bs0 eps P mr coms p v, log_det_spec 4 log_det -> wrenches p VAs bs0 -> length bs = length bs0 -> (forall x, In x bs -> length x = 6%nat) ->
  id_init inv As bs Sigma 0 eps = Ok P -> allowed eps mr b p -> com_allowed coms [p] -> ip_vec p = Ok v ->
  solved solver (id_cost log_det inv P [b]) (id_feasible ut P [b] mr coms) ->
  forall q, id_solve ut log_det inv solver P [b] mr coms = Ok [q] -> exists w, ip_vec q = Ok w /\ norm (vsub v w) ^ 2 <= k * disturbance (id_W0 P) bs bs0.
Proof. exact id_motions_noise. Qed.
Print Assumptions C98_noise.
(** the joint torques of a fixed-base robot do not determine all parameters of its links, so there is no
    premise that they do; the identified parameters need the same torques *)
Theorem C98_robot : forall ut log_det inv solver regressor_pin M (torques : vec * vec * vec -> list IP -> vec) states Ys Sigma eps P bodies mr coms ps,
  let links := pm_nv (mb_model M) in
  (0 < links)%nat -> length bodies = links -> states <> [] ->
  (forall q v a, In (q, v, a) states -> is_mat links (10 * links) (regressor_pin q v a) /\
    forall ps w, length ps = links -> (forall p, In p ps -> ip_ok p) -> pin_stack ps w -> mat_vec (regressor_pin q v a) w = torques (q, v, a) ps) ->
  Forall2 (fun s Y => mb_torque_regressor regressor_pin M (fst (fst s)) (snd (fst s)) (snd s) = Ok Y) states Ys ->
  id_init inv Ys (map (fun s => torques s ps) states) Sigma 0 eps = Ok P -> cov_ok links inv Sigma -> Forall2 (allowed eps mr) bodies ps -> com_allowed coms ps ->
  solved solver (id_cost log_det inv P bodies) (id_feasible ut P bodies mr coms) ->
  forall rs, id_solve ut log_det inv solver P bodies mr coms = Ok rs -> length rs = links /\ forall s, In s states -> torques s rs = torques s ps.
Proof. exact id_robot. Qed.
Print Assumptions C98_robot.
Example C98_example : forall ut, exists log_det inv solver VAs As bs Sigma eps P b coms p v,
  log_det_spec 4 log_det /\ motions_ok VAs /\ length VAs = 2%nat /\ tells_apart VAs /\ regressors VAs As /\ wrenches p VAs bs /\
  id_init inv As bs (Some Sigma) 0 eps = Ok P /\ 0 < eps /\ cov_ok 6 inv (Some Sigma) /\ allowed eps true b p /\ com_allowed (Some coms) [p] /\ ip_vec p = Ok v /\
  solved solver (id_cost log_det inv P [b]) (id_feasible ut P [b] true (Some coms)).
Proof. exact motion_example. Qed.
Example C98_robot_example : forall ut dd, exists model M log_det inv solver regressor_pin torques states Ys Sigma eps P bodies coms ps rs, mb_init dd model [] None None = Ok M /\ pm_nv (mb_model M) = 2%nat /\
  length bodies = 2%nat /\ length states = 2%nat /\ (forall q v a, In (q, v, a) states -> is_mat 2 20 (regressor_pin q v a) /\
    forall ps w, length ps = 2%nat -> (forall p, In p ps -> ip_ok p) -> pin_stack ps w -> mat_vec (regressor_pin q v a) w = torques (q, v, a) ps) /\
  Forall2 (fun s Y => mb_torque_regressor regressor_pin M (fst (fst s)) (snd (fst s)) (snd s) = Ok Y) states Ys /\
  id_init inv Ys (map (fun s => torques s ps) states) (Some Sigma) 0 eps = Ok P /\ 0 < eps /\ cov_ok 2 inv (Some Sigma) /\ Forall2 (allowed eps true) bodies ps /\ com_allowed (Some coms) ps /\
  solved solver (id_cost log_det inv P bodies) (id_feasible ut P bodies true (Some coms)) /\ id_solve ut log_det inv solver P bodies true (Some coms) = Ok rs /\
  forall s, In s states -> torques s ps <> zeros 2.
Proof. exact robot_example. Qed.
Example C98_kinds_example : exists spin shake push,
  motions_ok spin /\ length spin = 3%nat /\ (forall V A, In (V, A) spin -> exists s t, s <> 0 /\ sv_angular V = vscale s [0; 0; 1] /\ sv_angular A = vscale t [0; 0; 1]) /\ (forall V A, In (V, A) spin -> unaccelerated [0; 0; 2] V A) /\
  motions_ok shake /\ length shake = 2%nat /\ (forall V A, In (V, A) shake -> sv_angular V = zeros 3 /\ sv_angular A = zeros 3) /\
  (exists V1 A1 V2 A2, In (V1, A1) shake /\ In (V2, A2) shake /\ cross (sv_linear A1) (sv_linear A2) <> zeros 3) /\
  motions_ok push /\ length push = 3%nat /\ (forall V A, In (V, A) push -> sv_angular V = zeros 3) /\
  (exists V3 A3 V4 A4 V5 A5, In (V3, A3) push /\ In (V4, A4) push /\ In (V5, A5) push /\ dot (sv_angular A3) (cross (sv_angular A4) (sv_angular A5)) <> 0).
Proof. exact kinds_example. Qed.
