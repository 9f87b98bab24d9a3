(** Witnesses for the refuted expectations whose general form is proved elsewhere. *)
From Verif Require Import Base.Vec Base.VecFacts Base.Ext Spec.Basic Spec.Shapes Spec.Objects Spec.ShapeObjects Spec.DoubleDesc Spec.PolySpec Spec.Samples Spec.Integrals Spec.RandomSpec Spec.Realizable Spec.Matching
  Model.Util Model.Constraint Model.Polydd Model.Poly Model.Inertial Model.Ellipsoid Model.Box Model.Cylinder Model.Random Model.Realize Model.TestUtil
  Proofs.Coord Proofs.Hull Proofs.BoxP Proofs.EllP Proofs.ShapesW Proofs.SamplesP Proofs.CylP Proofs.TransformP Proofs.EllSame
  Proofs.DDP Proofs.PolyP Proofs.SampleDD Proofs.InscribedP Proofs.VolumeP Proofs.DensityS Proofs.DensityP Proofs.RandomP Proofs.SdpP Proofs.TestUtilP Proofs.UtilP Proofs.Dynamics Proofs.RandomE.

Lemma box_sphere_w : exists b e rad e', box_init [1; 2; 3] (Some t0) (Some Q0) = Ok b /\ orthogonal 3 Q0 /\ box_mbe b true = Ok e /\ ell_sphere rad (Some t0) = Ok e' /\
  (forall p, box_set [1; 2; 3] Q0 t0 p -> ell_set (e_half e') (e_rot e') (e_center e') p) /\ e_volume e' < e_volume e.
Proof.
  destruct box_example as (b & Hb). destruct (box_mbe_total _ _ _ _ true Hb) as (e & He).
  destruct (box_mbe_sphere_not_minimal _ _ _ _ _ Hb Q0_orth He) as (rad & e' & H1 & H2 & H3); [cbn; lra|]. exists b, e, rad, e'. split; [exact Hb|]. split; [exact Q0_orth|]. auto.
Qed.
Lemma cyl_turn_w : exists c1 c2, cyl_init 2 1 (Some Q0) (Some t0) = Ok c1 /\ cyl_init 2 1 (Some (mat_mul Q0 Q0)) (Some t0) = Ok c2 /\ orthogonal 3 Q0 /\ orthogonal 3 (mat_mul Q0 Q0) /\
  (forall p, cyl_set 2 1 Q0 t0 p <-> cyl_set 2 1 (mat_mul Q0 Q0) t0 p) /\ cyl_is_same c1 c2 = false.
Proof.
  destruct cyl_example as (c1 & H1). destruct (cyl_w_total 2 1 (Some (mat_mul Q0 Q0)) (Some t0)) as (c2 & H2); try lra; [apply is_mat33|reflexivity|].
  exists c1, c2. split; [exact H1|]. split; [exact H2|]. split; [exact Q0_orth|]. exact (cyl_is_same_quarter _ _ _ _ _ _ H1 H2 Q0_orth).
Qed.
Lemma plate_w : exists e p, ell_init [2; 1; 0] None None = Ok e /\ ell_uniform_density_params e 1 = Ok p /\ ~ uniform_mass (plate 2 1) 1 (eye 3) (zeros 3) p.
Proof.
  destruct (ell_w_total [2; 1; 0] None None) as (e & He); [intros [|[|[|i]]] Hi; cbn in *; try lia; lra|apply (is_mat_eye 3)|reflexivity|].
  destruct (flat_uniform_refuted 2 1 1 e He ltac:(lra) ltac:(lra) ltac:(lra)) as (p & H1 & H2). exists e, p. auto.
Qed.
Lemma spheroid_w : exists e p, ell_init [20; 20; 1] None None = Ok e /\ ell_hollow_density_params e 1 = Ok p /\ ~ uniform_mass (ell_surface [20; 20; 1]) 1 (eye 3) (zeros 3) p.
Proof.
  destruct (ell_w_total [20; 20; 1] None None) as (e & He); [intros [|[|[|i]]] Hi; cbn in *; try lia; lra|apply (is_mat_eye 3)|reflexivity|].
  destruct (spheroid_refuted 20 1 1 e He ltac:(lra) ltac:(lra) ltac:(lra)) as (p & H1 & H2). exists e, p. auto.
Qed.
Lemma degenerate_w : exists e, ell_init [1; 2; 0] (Some Q0) (Some t0) = Ok e /\ orthogonal 3 Q0 /\ forall tol, ell_is_same e e tol = Ok false.
Proof.
  destruct ell_example as (e & He & _). exists e. split; [exact He|]. split; [exact Q0_orth|]. intro tol.
  pose proof (ell_args _ _ _ _ He) as (I & E1 & E2 & _ & E3). cbn in E3.
  apply (ell_is_same_degenerate e e tol 2); auto; rewrite ?E3; try lia.
  - rewrite E1. reflexivity.
  - exists 0%nat. split; [lia|]. left. rewrite E2. reflexivity.
Qed.
Lemma asym_w : exists b p, box_init [1; 2; 3] (Some t0) (Some Q0) = Ok b /\ poly_agree 3 p /\
  (forall x, length x = 3%nat -> (in_hull 3 (p_vertices p) x <-> box_set [1; 2; 3] Q0 t0 x)) /\
  poly_is_same (isinstance_of KPoly KBox) p (b_poly b) 0 = true /\ poly_is_same (isinstance_of KBox KPoly) (b_poly b) p 0 = false.
Proof.
  destruct box_example as (b & Hb). pose proof (box_agree _ _ _ _ Hb Q0_orth) as A. exists b, (b_poly b).
  assert (K : forall x, length x = 3%nat -> (in_hull 3 (p_vertices (b_poly b)) x <-> box_set [1; 2; 3] Q0 t0 x)).
  { intros x Lx. assert (B : is_box b) by (do 3 eexists; exact Hb). pose proof (box_init_inv _ _ _ _ Hb) as (_ & _ & E1 & E2 & E3 & _).
    change (p_vertices (b_poly b)) with (b_vertices b). rewrite (box_hull_iff b x) by (auto; rewrite E3; exact Q0_orth). rewrite E1, E2, E3. reflexivity. }
  split; [exact Hb|]. split; [exact A|]. split; [exact K|]. exact (is_same_asym _ _ _ _ _ Hb Q0_orth A K).
Qed.
Lemma intersect_w : exists dd p q x, poly_agree 1 p /\ poly_agree 1 q /\ gens_correct 1 (dd_gens dd) (stacked p q) /\
  ineqs_correct 1 (dd_ineqs dd) {| cdd_rows := [[1; 1]]; cdd_lin := [] |} /\ length x = 1%nat /\ poly_contains p x 0 = true /\ poly_contains q x 0 = true /\
  poly_intersect dd p q = Raise IndexError.
Proof.
  destruct point_intersection as (H1 & H2 & H3 & H4 & H5). exists dd_point, (pinterval 0 1), (pinterval 1 2), [1].
  do 4 (split; [assumption|]). split; [reflexivity|]. split; [apply pinterval_contains; lra|]. split; [apply pinterval_contains; lra|exact H5].
Qed.
Lemma surface_moved_w : exists b U counts P, box_init [1; 1; 1] (Some [1; 0; 0]) None = Ok b /\ rows_of 2 3 (uniform_draw (-1) 1) U /\ multinomial_draw 2 6 counts /\
  box_random_points_on_surface b 2 U counts (fun P => P) = Ok P /\ forall p, In p P -> ~ box_set [1; 1; 1] (eye 3) [1; 0; 0] p.
Proof.
  destruct (box_init_good [1; 1; 1] (Some [1; 0; 0]) None) as (b & Hb); [reflexivity|intros [|[|[|i]]] Hi; try lia; cbn; lra|apply (is_mat_eye 3)|reflexivity|].
  destruct (box_surface_moved _ _ _ _ 0 Hb eq_refl) as (U & k & P & H1 & H2 & H3 & H4); [intros [|[|[|i]]] Hi; try lia; cbn; lra|lia|cbn; lra|].
  exists b, U, k, P. auto.
Qed.
Lemma box_sdp_w : exists b J P, box_init [1; 2; 3] (Some t0) (Some Q0) = Ok b /\ orthogonal 3 Q0 /\ is_mat 4 4 J /\ poly_moment_sdp_constraints (b_poly b) (PVmat J) 1 2 = Ok P /\ P /\ ~ PSD 4 (msub J (mscale 1 (eye 4))).
Proof.
  destruct box_example as (b & Hb). destruct (box_sdp_eps _ _ _ _ 1 2 Hb Q0_orth ltac:(lra) ltac:(lia)) as (J & P & H1 & H2 & H3 & _ & H4). exists b, J, P.
  split; [exact Hb|]. split; [exact Q0_orth|]. auto.
Qed.
Lemma poly_sdp_w : exists p J P, poly_agree 3 p /\ is_mat 4 4 J /\ poly_moment_sdp_constraints p (PVmat J) 1 2 = Ok P /\ P /\ ~ PSD 4 (msub J (mscale 1 (eye 4))).
Proof.
  destruct box_sdp_w as (b & J & P & Hb & _ & H1 & H2 & H3 & H4). exists (b_poly b), J, P. split; [exact (box_agree _ _ _ _ Hb Q0_orth)|]. auto.
Qed.
Lemma cyl_sdp_w : exists c J P, cyl_init 2 1 (Some Q0) (Some t0) = Ok c /\ orthogonal 3 Q0 /\ is_mat 4 4 J /\ cyl_moment_sdp_constraints c (PVmat J) 1 2 = Ok P /\ P /\ ~ PSD 4 (msub J (mscale 1 (eye 4))).
Proof.
  destruct cyl_example as (c & Hc). destruct (cyl_sdp_eps _ _ _ _ _ 1 2 Hc Q0_orth ltac:(lra) ltac:(lia)) as (J & P & H1 & H2 & H3 & _ & H4). exists c, J, P.
  split; [exact Hc|]. split; [exact Q0_orth|]. auto.
Qed.
Lemma unordered_w : exists A B, is_mat 2 1 A /\ is_mat 2 1 B /\ allclose_unordered A B np_rtol np_atol = Ok false /\ exists f, row_matching 2 1 np_rtol np_atol A B f.
Proof. apply unordered_incomplete; unfold np_rtol, np_atol; lra. Qed.
Lemma inverse_w : exists Q t, orthogonal 2 Q /\ length t = 2%nat /\ transform_matrix_inv (Some Q) (Some t) 2 = Raise AssertionError.
Proof.
  assert (M : is_mat 2 2 [[0; -1]; [1; 0]]) by (split; [reflexivity|repeat constructor]).
  exists [[0; -1]; [1; 0]], [1; 2]. split; [split; [exact M|split; cbn; list_eq; ring]|]. split; [reflexivity|]. apply transform_matrix_inv_other; auto.
Qed.
