(** The statements of section W of RealizeE with all premises spelled out. *)
From Verif Require Import Base.Vec Base.VecFacts Base.Ext Spec.Basic Spec.Objects Spec.Realizable Spec.Shapes Spec.ShapeObjects
  Model.Util Model.Polydd Model.Constraint Model.Inertial Model.Ellipsoid Model.Realize
  Proofs.Coord Proofs.LinAlg Proofs.UtilP Proofs.InertialP Proofs.ConsistentP Proofs.BoxP Proofs.EllP Proofs.EllForms Proofs.Decomp Proofs.PimP
  Proofs.RealizeP Proofs.RealizeE.

Lemma ell_x_constraints h r c e ut v J eps : ell_init h r c = Ok e -> length h = 3%nat ->
  orthogonal 3 (pose_rot 3 r) -> proper_half h -> pv_value v J -> is_mat 4 4 J -> 0 <= eps ->
  exists P, ell_moment_constraints ut e v eps = Ok P /\
    (P <-> PSD 4 (msub J (mscale eps (eye 4))) /\ realizable_J (ell_set h (pose_rot 3 r) (pose_tr 3 c)) J).
Proof. intros Hi Lh. exact (ell_w_constraints h r c e Hi Lh ut v J eps). Qed.
Lemma ell_x_test h r c e eigvals p eps : ell_init h r c = Ok e -> length h = 3%nat ->
  orthogonal 3 (pose_rot 3 r) -> fat h -> ip_ok p -> symmetric 3 (ip_H p) ->
  eigvals_spec 4 (ip_J p) (eigvals (ip_J p)) -> 0 <= eps ->
  exists b, ell_can_realize eigvals e p eps = Ok b /\
    (b = true <-> PSD 4 (msub (ip_J p) (mscale eps (eye 4))) /\ realizable (ell_set h (pose_rot 3 r) (pose_tr 3 c)) (ip_mass p) (ip_h p) (ip_H p)).
Proof. intros Hi Lh. exact (ell_w_test h r c e Hi Lh eigvals p eps). Qed.
Lemma ell_x_test0 h r c e eigvals p : ell_init h r c = Ok e -> length h = 3%nat ->
  orthogonal 3 (pose_rot 3 r) -> fat h -> ip_ok p -> symmetric 3 (ip_H p) ->
  eigvals_spec 4 (ip_J p) (eigvals (ip_J p)) ->
  exists b, ell_can_realize eigvals e p 0 = Ok b /\
    (b = true <-> realizable (ell_set h (pose_rot 3 r) (pose_tr 3 c)) (ip_mass p) (ip_h p) (ip_H p)).
Proof. intros Hi Lh. exact (ell_w_test0 h r c e Hi Lh eigvals p). Qed.
Lemma ell_x_constraints0 h r c e ut v J : ell_init h r c = Ok e -> length h = 3%nat ->
  orthogonal 3 (pose_rot 3 r) -> proper_half h -> pv_value v J -> is_mat 4 4 J ->
  exists P, ell_moment_constraints ut e v 0 = Ok P /\ (P <-> realizable_J (ell_set h (pose_rot 3 r) (pose_tr 3 c)) J).
Proof. intros Hi Lh. exact (ell_w_constraints0 h r c e Hi Lh ut v J). Qed.
Lemma ell_x_test_degenerate0 h r c e eigvals p : ell_init h r c = Ok e -> length h = 3%nat ->
  orthogonal 3 (pose_rot 3 r) -> proper_half h -> ip_ok p -> symmetric 3 (ip_H p) ->
  eigvals_spec 4 (ip_J p) (eigvals (ip_J p)) ->
  realizable (ell_set h (pose_rot 3 r) (pose_tr 3 c)) (ip_mass p) (ip_h p) (ip_H p) -> ell_can_realize eigvals e p 0 = Ok true.
Proof. intros Hi Lh. exact (ell_w_test_degenerate0 h r c e Hi Lh eigvals p). Qed.
Lemma ell_x_thin h r c e eigvals p eps : ell_init h r c = Ok e -> length h = 3%nat ->
  (forall i, (i < 3)%nat -> 0 < nth i h 0) -> (exists i, (i < 3)%nat /\ nth i h 0 <= / 100000000) ->
  ip_ok p -> symmetric 3 (ip_H p) -> eigvals_spec 4 (ip_J p) (eigvals (ip_J p)) -> PSD 4 (msub (ip_J p) (mscale eps (eye 4))) ->
  ell_can_realize eigvals e p eps = Raise AssertionError.
Proof. intros Hi Lh. exact (ell_w_thin h r c e Hi Lh eigvals p eps). Qed.
Lemma ell_x_thin_constraints h r c e ut v J eps : ell_init h r c = Ok e -> length h = 3%nat ->
  (forall i, (i < 3)%nat -> 0 < nth i h 0) -> (exists i, (i < 3)%nat /\ nth i h 0 <= / 100000000) ->
  pv_value v J -> is_mat 4 4 J -> 0 <= eps -> ell_moment_constraints ut e v eps = NonFinite.
Proof. intros Hi Lh. exact (ell_w_thin_constraints h r c e Hi Lh ut v J eps). Qed.
Lemma ell_x_mixed h r c e v J eps : ell_init h r c = Ok e -> length h = 3%nat ->
  (exists i, (i < 3)%nat /\ nth i h 0 = 0) -> (exists i, (i < 3)%nat /\ 0 < nth i h 0 <= / 100000000) ->
  pv_value v J -> is_mat 4 4 J -> 0 <= eps -> ell_moment_constraints false e v eps = Raise ValueError.
Proof. intros Hi Lh. exact (ell_w_mixed h r c e Hi Lh v J eps). Qed.
