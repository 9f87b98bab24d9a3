(** The feasibility problems of polyhedra and cylinders (C87). *)
From Verif Require Import Base.Vec Spec.Basic Spec.Objects Spec.Realizable Spec.Shapes Spec.ShapeObjects Spec.PolySpec
  Model.Util Model.Constraint Model.Inertial Model.Polydd Model.Poly Model.Ellipsoid Model.Box Model.Cylinder Model.Realize
  Proofs.SdpLimitW.

Lemma poly_feasibility p v J eps : poly_agree 3 p -> faces_ok (p_A p) (p_b p) -> pv_value v J -> is_mat 4 4 J -> symmetric 4 J -> 0 <= eps ->
  (forall d pb, poly_moment_sdp_feasibility_problem p v eps d = Ok pb -> pb_objective pb = 0) /\
  ((forall d, (0 < d)%nat -> exists pb, poly_moment_sdp_feasibility_problem p v eps d = Ok pb /\ pb_constraints pb) <->
   realizable_J (halfspaces (p_A p) (p_b p)) J).
Proof.
  intros Hp HF Hv HJ SJ He. split.
  - intros d pb. unfold poly_moment_sdp_feasibility_problem. destruct (poly_moment_sdp_constraints p v eps d); cbn [bind]; try discriminate. intro H. now injection H as <-.
  - rewrite <- (poly_all p v J eps) by auto. unfold poly_moment_sdp_feasibility_problem. split; intros H d Hd; destruct (H d Hd) as (P & E & HP).
    + destruct (poly_moment_sdp_constraints p v eps d) as [Q| |]; cbn [bind] in E; try discriminate. injection E as <-. now exists Q.
    + rewrite E. cbn [bind]. now eexists.
Qed.
Lemma cyl_feasibility L R ro co c v J eps : cyl_init L R ro co = Ok c -> orthogonal 3 (pose_rot 3 ro) -> pv_value v J -> is_mat 4 4 J -> symmetric 4 J -> 0 <= eps ->
  (forall d pb, cyl_moment_sdp_feasibility_problem c v eps d = Ok pb -> pb_objective pb = 0) /\
  ((forall d, (0 < d)%nat -> exists pb, cyl_moment_sdp_feasibility_problem c v eps d = Ok pb /\ pb_constraints pb) <->
   realizable_J (cyl_set L R (pose_rot 3 ro) (pose_tr 3 co)) J).
Proof.
  intros Hc HQ Hv HJ SJ He. split.
  - intros d pb. unfold cyl_moment_sdp_feasibility_problem. destruct (cyl_moment_sdp_constraints c v eps d); cbn [bind]; try discriminate. intro H. now injection H as <-.
  - rewrite <- (cyl_all L R ro co c v J eps) by auto. unfold cyl_moment_sdp_feasibility_problem. split; intros H d Hd; destruct (H d Hd) as (P & E & HP).
    + destruct (cyl_moment_sdp_constraints c v eps d) as [Q| |]; cbn [bind] in E; try discriminate. injection E as <-. now exists Q.
    + rewrite E. cbn [bind]. now eexists.
Qed.
