(** The sample objects satisfy the hypotheses of the theorems. *)
From Verif Require Import Proofs.Coord Model.Util Model.Spatial Model.Inertial
  Spec.Objects Spec.Samples Proofs.InertialP Proofs.InertialT.

Lemma p0_ok : ip_ok p0.
Proof. split; [reflexivity|apply is_mat33]. Qed.
Lemma p0_sym : symmetric 3 (ip_H p0).
Proof. apply sym33_intro. Qed.
Lemma p0_mass : 0 < ip_mass p0.
Proof. cbn. lra. Qed.
Lemma s0_ok : pms_ok s0.
Proof. intros mp H. cbn in H. repeat (destruct H as [<-|H]; [reflexivity|]). destruct H. Qed.
Lemma s0_nonneg : pms_nonneg s0.
Proof. intros mp H. cbn in H. repeat (destruct H as [<-|H]; [cbn; lra|]). destruct H. Qed.
Lemma p0_describes : describes p0 s0.
Proof.
  apply has_moments_coords. unfold pms_mass, pms_first, pms_second. cbn. repeat split; lra.
Qed.
Lemma Q0_orth : orthogonal 3 Q0.
Proof.
  split; [apply is_mat33|]. split; cbn; list_eq; lra.
Qed.
Lemma p0_psd : PSD 4 (ip_J p0).
Proof. exact (describes_PSD p0 s0 p0_describes s0_ok s0_nonneg). Qed.
