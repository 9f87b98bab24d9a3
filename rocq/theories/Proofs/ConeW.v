(** Concrete cases for C93 and C94. *)
From Verif Require Import Base.Vec Base.VecFacts Spec.Basic Spec.Objects Spec.Realizable Spec.Shapes Spec.ShapeObjects Spec.PolySpec Spec.Bodies Spec.ExtremalSpec Spec.Geodesic Spec.Identify Spec.Cone
  Model.Util Model.Constraint Model.Inertial Model.Polydd Model.Poly Model.Box Model.Cylinder Model.Ellipsoid Model.Realize Model.RigidBody Model.Identify
  Proofs.Coord Proofs.InertialP Proofs.EllP Proofs.RealizeE Proofs.RealizeW Proofs.RigidP Proofs.RigidW Proofs.IdentifyP Proofs.IdentifyW Proofs.Cone Proofs.ConeId.

Lemma composite_example ut : exists b1 b2 b Ks1 Ks2, rb_add b1 b2 = Ok b /\ length (bd_shapes b) = 6%nat /\ Forall2 shape_is (bd_shapes b1) Ks1 /\ Forall2 shape_is (bd_shapes b2) Ks2 /\
  (forall s, In s (bd_shapes b1 ++ bd_shapes b2) -> shape_proper s) /\ ip_ok (bd_params b1) /\ 0 < ip_mass (bd_params b1) /\
  accepts (rb_moment_sdp_constraints ut b1 (PVmat (ip_J (bd_params b1))) 0 2) /\ accepts (rb_moment_sdp_constraints ut b1 (PVmat (ip_J (bd_params b1))) (1 / 20) 2) /\
  accepts (rb_moment_sdp_constraints ut b (PVmat (ip_J (bd_params b))) 0 2).
Proof.
  destruct sample_three as (b & Ks & A & B & C & D & E & _). destruct (rb_add_spec b b) as (c & Ec & Sc & Mc & Jc); try (rewrite E; cbn; exact p6_ok || (rewrite E; cbn; lra)); [rewrite E; cbn; lra|].
  exists b, b, c, Ks, Ks. assert (HP : forall s, In s (bd_shapes b ++ bd_shapes b) -> shape_proper s) by (intros s Hs; apply in_app_or in Hs as []; auto).
  assert (X : forall eps, 0 <= eps <= 1 / 20 -> accepts (rb_moment_sdp_constraints ut b (PVmat (ip_J (bd_params b))) eps 2)).
  { intros eps He. rewrite E, p6_J. destruct (body_sdp ut b Ks (PVmat J6) J6 eps 2 A C eq_refl J6_mat (proj1 He) ltac:(lia)) as (P & EP & HPP). exists P. split; [exact EP|]. apply HPP; [exact D|].
    destruct J6_margin as (_ & M2 & M3). split; [apply is_mat_msub; [exact J6_mat|apply is_mat_mscale, is_mat_eye]|]. split.
    - intros i j Hi Hj. destruct i as [|[|[|[|]]]]; try lia; destruct j as [|[|[|[|]]]]; try lia; cbn; try reflexivity; ring.
    - intros x Lx. specialize (M3 x Lx). clear - He M3 Lx. destruct_vecs. cbn in *. assert (0 <= (1 / 20 - eps) * (x0 * x0 + x1 * x1 + x2 * x2 + x3 * x3)) by (apply Rmult_le_pos; nra). nra. }
  split; [exact Ec|]. split; [rewrite Sc, app_length, B; reflexivity|]. split; [exact A|]. split; [exact A|]. split; [exact HP|]. split; [rewrite E; exact p6_ok|]. split; [rewrite E; cbn; lra|]. split; [apply X; lra|]. split; [apply X; lra|].
  assert (MJ : is_mat 4 4 (ip_J (bd_params b))) by (rewrite E, p6_J; exact J6_mat).
  assert (PJ : PSD 4 (ip_J (bd_params b))). { rewrite E, p6_J. split; [exact J6_mat|]. split; [exact J6_sym|]. intros x Lx. unfold J6. destruct_vecs. cbn. nra. }
  apply (body_sum ut b b c Ks Ks 2 (ip_J (bd_params c)) Ec A A HP ltac:(lia)).
  - rewrite Jc. now apply is_mat_madd.
  - rewrite Jc. intros i j Hi Hj. rewrite !(entry_madd _ _ 4 4) by auto. destruct PJ as (_ & S & _). now rewrite (S i j).
  - exists (ip_J (bd_params b)), (ip_J (bd_params b)). split; [exact Jc|]. split; [exact PJ|]. split; [exact PJ|]. split; apply X; lra.
Qed.
Lemma unique_example : forall ut gamma, 0 <= gamma -> exists log_det inv solver As bs Sigma eps P bodies l,
  log_det_spec 4 log_det /\ id_init inv As bs (Some Sigma) gamma eps = Ok P /\ cov_ok 20 inv (Some Sigma) /\ data_ok 20 (10 * length bodies) As bs /\ length bodies = 2%nat /\
  determining (10 * length bodies) As /\ (forall b, In b bodies -> nominal_ok inv (ip_J (bd_params b))) /\
  (forall b, In b bodies -> exists Ks, Forall2 shape_is (bd_shapes b) Ks /\ (forall s, In s (bd_shapes b) -> shape_proper s)) /\
  length l = length bodies /\ (exists Ks, Forall2 shape_is l Ks) /\
  solved solver (id_cost log_det inv P bodies) (id_feasible ut P bodies true (Some l)).
Proof.
  intros ut gamma Hg. destruct (identify_example ut gamma Hg) as (log_det & inv & solver & As & bs & Sigma & eps & P & bodies & l & v & H1 & H2 & _ & H3 & H4 & H5 & H6 & H7 & H8 & _ & _ & H9 & _).
  exists log_det, inv, solver, As, bs, Sigma, eps, P, bodies, l. repeat (split; [assumption|]). split; [intros b Hb; now apply H7|]. split.
  - intros b Hb. destruct (H7 b Hb) as (_ & (_ & _ & _ & _ & HA)). destruct (HA eq_refl) as (Ks & K1 & K2 & _). eauto.
  - cbn [com_allowed] in H8. split; [|split; [|exact H9]].
    + apply IdentifyP.Forall2_len in H8. now rewrite map_length in H8.
    + clear - H8. induction H8 as [|s p l ps (K & HK & _) H (Ks & IH)]; [exists []; constructor|exists (K :: Ks); constructor; auto].
Qed.
