(** C81: what the relaxations do not guarantee. *)
From Verif Require Import Base.Vec Base.VecFacts Spec.Basic Spec.Objects Spec.Samples Spec.Realizable Spec.Shapes Spec.ShapeObjects Spec.PolySpec Spec.Bodies
  Spec.ExtremalSpec Spec.Geodesic Spec.Identify
  Model.Util Model.Constraint Model.Inertial Model.Polydd Model.Poly Model.Ellipsoid Model.Box Model.Cylinder Model.Realize Model.RigidBody Model.Identify
  Proofs.Coord Proofs.LinAlg Proofs.InertialP Proofs.BoxP Proofs.EllP Proofs.ShapesW Proofs.CylP Proofs.PimP Proofs.RealizeP Proofs.SdpP Proofs.RealizeW Proofs.SamplesP Proofs.RigidP Proofs.RigidW
  Proofs.VertexP Proofs.MatAlg Proofs.LogDet Proofs.IdentifyP Proofs.IdentifyW Proofs.MultiP Proofs.ClosestP Proofs.SdpGap.

Lemma cube_bounds p : length p = 3%nat -> box_set [1; 1; 1] (pose_rot 3 None) (pose_tr 3 None) p ->
  -1 <= nth 0 p 0 <= 1 /\ -1 <= nth 1 p 0 <= 1 /\ -1 <= nth 2 p 0 <= 1.
Proof.
  intros _ (u & [Lu Hu] & ->). cbn in Lu. cbn [pose_rot pose_tr]. rewrite move_eye3 by (reflexivity || auto). destruct (len3_inv _ Lu) as (x & y & z & ->).
  pose proof (Hu 0%nat ltac:(cbn; lia)) as H0. pose proof (Hu 1%nat ltac:(cbn; lia)) as H1. pose proof (Hu 2%nat ltac:(cbn; lia)) as H2. cbn in *.
  pose proof (Rle_abs x); pose proof (Rle_abs (- x)); pose proof (Rle_abs y); pose proof (Rle_abs (- y)); pose proof (Rle_abs z); pose proof (Rle_abs (- z)); rewrite !Rabs_Ropp in *; lra.
Qed.
Lemma cyl_bounds p : length p = 3%nat -> cyl_set 2 1 (pose_rot 3 None) (pose_tr 3 None) p -> nth 0 p 0 <= 1 /\ nth 2 p 0 <= 1.
Proof.
  intros _ (x & y & z & H & Hz & ->). cbn [pose_rot pose_tr]. rewrite move_eye3 by reflexivity. pose proof (Rle_abs z). cbn. split; [|lra].
  pose proof (Rle_0_sqr y) as Y. unfold Rsqr in Y. destruct (Rle_dec x 1); [lra|nra].
Qed.
Lemma box_sdp_refuted : exists b J, box_init [1; 1; 1] None None = Ok b /\ is_mat 4 4 J /\ symmetric 4 J /\
  (exists P, poly_moment_sdp_constraints (b_poly b) (PVmat J) 0 2 = Ok P /\ P) /\ ~ realizable_J (box_set [1; 1; 1] (pose_rot 3 None) (pose_tr 3 None)) J.
Proof.
  destruct s6_shapes as (_ & (b & Hb) & _). exists b, J_gap. split; [auto|]. split; [apply J_gap_ok|]. split; [apply J_gap_ok|]. split; [apply box_gap; auto; lra|].
  apply gap_not_realizable. intros p Lp Hp. pose proof (cube_bounds p Lp Hp). lra.
Qed.
Lemma cyl_sdp_refuted : exists c J, cyl_init 2 1 None None = Ok c /\ is_mat 4 4 J /\ symmetric 4 J /\
  (exists P, cyl_moment_sdp_constraints c (PVmat J) 0 2 = Ok P /\ P) /\ ~ realizable_J (cyl_set 2 1 (pose_rot 3 None) (pose_tr 3 None)) J.
Proof.
  destruct s6_shapes as (_ & _ & (c & Hc) & _). exists c, J_gap. split; [auto|]. split; [apply J_gap_ok|]. split; [apply J_gap_ok|]. split; [apply cyl_gap; auto; lra|].
  apply gap_not_realizable. exact cyl_bounds.
Qed.
Lemma box_custom_refuted : exists b J, box_init [1; 1; 1] None None = Ok b /\ PSD 4 J /\
  (exists P, box_moment_custom_vertex_constraints b (PVmat J) 0 = Ok P /\ P) /\ (exists P, poly_moment_vertex_constraints (b_poly b) (PVmat J) 0 = Ok P /\ P) /\
  ~ realizable_J (box_set [1; 1; 1] (pose_rot 3 None) (pose_tr 3 None)) J.
Proof.
  destruct s6_shapes as (HO & (b & Hb) & _). exists b, J_cut. split; [auto|]. split; [exact J_cut_psd|]. destruct (box_cut b Hb) as (P & EP & HP).
  split; [eauto|]. split; [|apply cut_not_realizable; exact cube_bounds].
  destruct (box_custom _ _ _ b (PVmat J_cut) J_cut 0 Hb HO eq_refl (proj1 J_cut_psd) ltac:(lra)) as (P' & EP' & _ & _ & H). apply H. rewrite EP in EP'. now injection EP' as <-.
Qed.

(** ** identification with must_realize *)
Definition t_gap : vec := [43; 21; 0; 23; 33; 0; 0; 64; 0; 31].
Lemma t_gap_J : pim_must_equal_vec t_gap = Ok J_gap.
Proof. cbn. f_equal. unfold J_gap. list_eq; field. Qed.
Lemma gap_psd_J : PSD 4 J_gap.
Proof.
  split; [apply J_gap_ok|]. split; [apply J_gap_ok|]. intros z Lz. destruct (len4_inv _ Lz) as (a & b & c & d & ->). unfold quad, dot. cbn.
  pose proof (Rle_0_sqr (31 * a + 21 * d)) as S1. pose proof (Rle_0_sqr (33 * c + 23 * d)) as S2. pose proof (Rle_0_sqr d) as S3. unfold Rsqr in *. nra.
Qed.
Lemma identification_refuted : forall ut log_det inv, exists solver P b p, id_init inv (id_As P) (id_bs P) None 0 0 = Ok P /\
  data_ok 10 10 (id_As P) (id_bs P) /\ determining 10 (id_As P) /\
  let body := {| bd_shapes := [SBox b]; bd_params := p |} in
  box_init [1; 1; 1] None None = Ok b /\
  solved solver (id_cost log_det inv P [body]) (id_feasible ut P [body] true None) /\
  id_solve ut log_det inv solver P [body] true None = Ok [p] /\
  ~ realizable_J (box_set [1; 1; 1] (pose_rot 3 None) (pose_tr 3 None)) (ip_J p).
Proof.
  intros ut log_det inv. destruct s6_shapes as (HO & (b & Hb) & _).
  destruct (from_vec_vec t_gap eq_refl) as (p & Ep & _); [cbn; lra|].
  pose proof (from_vec_ok_inv _ _ Ep) as (_ & _ & _ & _ & _ & _ & EJ). rewrite t_gap_J in EJ. injection EJ as EJ.
  set (P := {| id_As := [eye 10]; id_bs := [t_gap]; id_W0 := None; id_gamma := 0; id_eps := 0 |}). set (body := {| bd_shapes := [SBox b]; bd_params := p |}).
  assert (D : data_ok 10 (10 * length [body]) (id_As P) (id_bs P)) by (exact (data_eye 10 t_gap ltac:(lia) eq_refl)).
  assert (BO : Forall (body_ok true) [body]).
  { constructor; [|constructor]. intros _. exists [box_set [1; 1; 1] (pose_rot 3 None) (pose_tr 3 None)]. split; [|intros s [<-|[]]; exact I].
    constructor; [|constructor]. now apply (shape_is_box _ _ _ _ Hb). }
  assert (EX : explains (id_As P) (id_bs P) (concat [t_gap])) by (cbn [concat]; rewrite app_nil_r; now apply explains_eye).
  exists (fun _ _ => Some [t_gap]), P, b, p. cbv zeta. fold body.
  split. { unfold id_init. cbn [id_As id_bs P length Nat.eqb assert_ bind]. rewrite (proj2 (Rleb_iff 0 0)) by lra. reflexivity. }
  split; [exact D|]. split; [apply determining_eye|]. split; [exact Hb|]. split; [|split].
  - exists [t_gap]. split; [reflexivity|]. split.
    + split; [reflexivity|]. split; [constructor; [reflexivity|constructor]|]. split; [intros H; cbn in H; lra|].
      destruct (id_constraints_build ut P [body] true None [t_gap]) as (Js & c2 & E1 & E2 & E3 & E4 & E5); [cbn; lra|reflexivity|constructor; [reflexivity|constructor]|exact BO|].
      eexists. split; [exact E5|]. cbn [mapM] in E1. rewrite t_gap_J in E1. cbn [bind] in E1. injection E1 as <-.
      destruct (box_gap b Hb 0 (Rle_refl 0)) as (Q & EQ & HQ). cbn [combine mapM fst snd] in E4. unfold rb_moment_sdp_constraints in E4. cbn [bd_shapes body rb_shape_constraints] in E4.
      rewrite EQ in E4. cbn [bind] in E4. injection E4 as <-. cbn [map app]. constructor; [|constructor; [exact HQ|constructor]].
      apply psd_shift; [apply J_gap_ok|]. apply psd_shift0, gap_psd_J.
    + intros y c HF Ec. pose proof HF as (L1 & L2 & _).
      destruct (id_cost_ok log_det inv P [body] [t_gap] 10 D I) as (v & Js & _ & _ & V & _ & C & _); [reflexivity|constructor; [reflexivity|constructor]|intros H; cbn in H; lra|].
      destruct (id_cost_ok log_det inv P [body] y 10 D I L1 L2) as (w & Js' & _ & W0 & _ & _ & C' & _); [intros H; cbn in H; lra|].
      rewrite C' in Ec by (cbn; lra). injection Ec as <-. eexists. split; [apply C; cbn; lra|].
      rewrite (proj2 V EX). pose proof (no_pos _ _ _ _ D) as Hp. rewrite Rmult_0_r. apply Rmult_le_pos; [exact (Rlt_le _ _ Hp)|lra].
  - rewrite (id_solve_run _ _ _ _ _ _ _ _ 10); [cbn [mapM]; now rewrite Ep|cbn; lra|exact D|exact I|intros H; cbn in H; lra|exact BO|exact I].
  - rewrite <- EJ. apply gap_not_realizable. intros q Lq Hq. pose proof (cube_bounds q Lq Hq). lra.
Qed.
