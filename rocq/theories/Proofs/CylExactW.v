(** C82: examples, and what the exact constraints reject. *)
From Verif Require Import Base.Vec Base.VecFacts Spec.Basic Spec.Objects Spec.Samples Spec.Realizable Spec.Shapes Spec.ShapeObjects Spec.PolySpec
  Model.Util Model.Constraint Model.Inertial Model.Polydd Model.Poly Model.Box Model.Cylinder Model.Ellipsoid Model.Realize
  Proofs.Coord Proofs.LinAlg Proofs.UtilP Proofs.InertialP Proofs.BoxP Proofs.EllP Proofs.CylP Proofs.ShapesW Proofs.PimP Proofs.RealizeW Proofs.SdpGap Proofs.SdpGapW Proofs.CylExact.

Lemma cyl_custom_stricter : exists c J, cyl_init 2 1 None None = Ok c /\ is_mat 4 4 J /\
  (exists P, cyl_moment_sdp_constraints c (PVmat J) 0 2 = Ok P /\ P) /\ forall ut P, cyl_moment_custom_vertex_constraints ut c (PVmat J) 0 = Ok P -> ~ P.
Proof.
  destruct cyl_sdp_refuted as (c & J & Hc & MJ & SJ & HP & HN). exists c, J. split; [auto|]. split; [auto|]. split; [auto|]. intros ut P EP HPc. apply HN.
  destruct (cyl_custom_exact 2 1 None None c ut (PVmat J) J Hc ltac:(apply orthogonal_eye; lia) ltac:(right; lra) eq_refl MJ) as (P' & EP' & HP'). rewrite EP in EP'. apply CylCustom.Ok_eq in EP'. subst P'. now apply HP'.
Qed.
Definition J82 : mat := [[3; 8; 11; 3]; [8; 22; 30; 8]; [11; 30; 41; 11]; [3; 8; 11; 3]].
Definition J82b : mat := [[3; -4; -3; -1]; [-4; 22; 24; 8]; [-3; 24; 27; 9]; [-1; 8; 9; 3]].
Lemma exact_case : (exists c J, cyl_init 2 1 (Some Q0) (Some t0) = Ok c /\ orthogonal 3 Q0 /\ is_mat 4 4 J /\ realizable_J (cyl_set 2 1 Q0 t0) J /\ entry J 3 3 = 3) /\
  (exists b J, box_init [1; 2; 0] (Some t0) (Some Q0) = Ok b /\ is_mat 4 4 J /\ realizable_J (box_set [1; 2; 0] Q0 t0) J /\ entry J 3 3 = 3).
Proof.
  split.
  - destruct (cyl_w_total 2 1 (Some Q0) (Some t0)) as (c & Hc); try lra; [repeat constructor|reflexivity|]. exists c, J82. split; [exact Hc|]. split; [exact quarter_orth|]. split; [repeat constructor|]. split; [|reflexivity].
    exists [(1, [1; 2; 3]); (2, [1; 3; 4])]. split; [intros mp [<-|[<-|[]]]; reflexivity|]. split; [intros mp [<-|[<-|[]]]; cbn; lra|]. split; [|split; [repeat constructor|intros i j Hi Hj; destruct i as [|[|[|[|i]]]], j as [|[|[|[|j]]]]; try lia; cbn; ring]].
    intros mp [<-|[<-|[]]]; [exists 0, 0, 0|exists 1, 0, 1]; (split; [lra|]); (split; [apply Rabs_le; lra|]); cbn; list_eq; ring.
  - destruct (box_w_total [1; 2; 0] (Some t0) (Some Q0)) as (b & Hb); [reflexivity|intros [|[|[|i]]] Hi; try lia; cbn; lra|repeat constructor|reflexivity|]. exists b, J82b. split; [exact Hb|]. split; [repeat constructor|]. split; [|reflexivity].
    exists [(1, [1; 2; 3]); (2, [-1; 3; 3])]. split; [intros mp [<-|[<-|[]]]; reflexivity|]. split; [intros mp [<-|[<-|[]]]; cbn; lra|]. split; [|split; [repeat constructor|intros i j Hi Hj; destruct i as [|[|[|[|i]]]], j as [|[|[|[|j]]]]; try lia; cbn; ring]].
    intros mp [<-|[<-|[]]]; [exists [0; 0; 0]|exists [1; 2; 0]]; (split; [split; [reflexivity|intros [|[|[|i]]] Hi; cbn in *; try lia; apply Rabs_le; lra]|cbn; list_eq; ring]).
Qed.
