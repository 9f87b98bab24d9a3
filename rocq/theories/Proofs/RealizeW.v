(** A sample system of point masses that lies in all the sample shapes. *)
From Verif Require Import Base.Vec Base.VecFacts Spec.Basic Spec.Objects Spec.Realizable Spec.Shapes Spec.ShapeObjects
  Model.Util Model.Constraint Model.Inertial Model.Ellipsoid Model.Box Model.Cylinder Proofs.Coord Proofs.LinAlg Proofs.EllP Proofs.BoxP Proofs.CylP Proofs.PimP Proofs.RealizeP Proofs.RealizeE Proofs.ShapesW.

(** six equal masses at distance 1/2 along the coordinate axes *)
Definition s6 : pms := [(1 / 6, [1 / 2; 0; 0]); (1 / 6, [- (1 / 2); 0; 0]); (1 / 6, [0; 1 / 2; 0]); (1 / 6, [0; - (1 / 2); 0]); (1 / 6, [0; 0; 1 / 2]); (1 / 6, [0; 0; - (1 / 2)])].
Definition J6 : mat := diag [1 / 12; 1 / 12; 1 / 12; 1].
Lemma J6_mat : is_mat 4 4 J6. Proof. apply (is_mat_diag [_; _; _; _]). Qed.
Lemma J6_sym : symmetric 4 J6. Proof. apply (symmetric_diag [_; _; _; _]). Qed.
Lemma J6_pim : pim_of s6 J6.
Proof.
  split; [exact J6_mat|]. intros i j Hi Hj. destruct i as [|[|[|[|i]]]]; try lia; destruct j as [|[|[|[|j]]]]; try lia; unfold J6, diag, s6; cbn; lra.
Qed.
Lemma J6_margin : PSD 4 (msub J6 (mscale (1 / 20) (eye 4))).
Proof.
  assert (M : is_mat 4 4 (mscale (1 / 20) (eye 4))) by apply is_mat_mscale, is_mat_eye.
  split; [apply is_mat_msub; auto using J6_mat|]. split.
  - intros i j Hi Hj. rewrite !(entry_msub _ _ 4 4), !entry_mscale by (auto using J6_mat). rewrite J6_sym by auto. f_equal. f_equal. rewrite !entry_eye by auto. now rewrite Nat.eqb_sym.
  - intros z Hz. destruct (len4_inv _ Hz) as (a & b & c & d & ->). unfold quad, J6. cbn.
    pose proof (sqr_nonneg a). pose proof (sqr_nonneg b). pose proof (sqr_nonneg c). pose proof (sqr_nonneg d). lra.
Qed.
Lemma s6_realizable (K : vec -> Prop) : (forall x y z, x * x + y * y + z * z <= 1 / 4 -> K [x; y; z]) -> realizable_J K J6.
Proof.
  intro H. exists s6. split; [|split; [|split; [|exact J6_pim]]]; intros mp Hm;
    repeat (destruct Hm as [<-|Hm]; [cbn; try reflexivity; try lra; try (apply H; lra)|]); destruct Hm.
Qed.
Lemma s6_ball : realizable_J (ell_set [1; 1; 1] (eye 3) (zeros 3)) J6.
Proof. apply s6_realizable. intros x y z H. exists [x; y; z]. split; [reflexivity|]. split; [cbn; lra|]. cbn. list_eq; ring. Qed.
Lemma s6_box : realizable_J (box_set [1; 1; 1] (eye 3) (zeros 3)) J6.
Proof.
  apply s6_realizable. intros x y z H. exists [x; y; z]. split; [|cbn; list_eq; ring]. split; [reflexivity|].
  pose proof (sqr_nonneg x). pose proof (sqr_nonneg y). pose proof (sqr_nonneg z).
  intros [|[|[|i]]] Hi; cbn in *; try lia; apply Rabs_le; nra.
Qed.
Lemma s6_cyl : realizable_J (cyl_set 2 1 (eye 3) (zeros 3)) J6.
Proof.
  apply s6_realizable. intros x y z H. exists x, y, z. pose proof (sqr_nonneg x). pose proof (sqr_nonneg y). pose proof (sqr_nonneg z).
  split; [nra|]. split; [apply Rabs_le; nra|]. cbn. list_eq; ring.
Qed.
Lemma s6_shapes : orthogonal 3 (eye 3) /\ (exists b, box_init [1; 1; 1] None None = Ok b) /\ (exists c, cyl_init 2 1 None None = Ok c) /\ (exists e, ell_init [1; 1; 1] None None = Ok e).
Proof.
  split; [apply orthogonal_eye; lia|]. split; [|split].
  - apply box_w_total; [reflexivity| |apply is_mat_eye|reflexivity]. intros [|[|[|i]]] Hi; try lia; cbn; lra.
  - apply cyl_w_total; try lra; [apply is_mat_eye|reflexivity].
  - apply ell_w_total; [|apply is_mat_eye|reflexivity]. intros [|[|[|i]]] Hi; cbn in *; try lia; lra.
Qed.
