(** Data sets meeting the premises of C97. *)
From Verif Require Import Base.Vec Base.VecFacts Spec.Basic Spec.Objects Spec.Samples Spec.Realizable Spec.Shapes Spec.ShapeObjects Spec.PolySpec Spec.Bodies Spec.ExtremalSpec Spec.Geodesic Spec.Identify Spec.Cone Spec.Exist Spec.Stable
  Model.Util Model.Constraint Model.Inertial Model.Polydd Model.Poly Model.Box Model.Cylinder Model.Ellipsoid Model.Realize Model.RigidBody Model.Identify
  Proofs.Coord Proofs.LinAlg Proofs.InertialP Proofs.BoxP Proofs.EllP Proofs.ShapesW Proofs.CylP Proofs.PimP Proofs.RealizeP Proofs.SdpP Proofs.RealizeW Proofs.SamplesP Proofs.RigidP Proofs.RigidW
  Proofs.MatAlg Proofs.LogDet Proofs.IdentifyP Proofs.IdentifyW Proofs.ExistC Proofs.ExistW.
Lemma stable_example : forall ut gamma b1 b2, 0 <= gamma -> length b1 = 20%nat -> length b2 = 20%nat -> exists log_det inv As Sigma eps P P' bodies coms ps v l l',
  log_det_spec 4 log_det /\ id_init inv As [b1] (Some Sigma) gamma eps = Ok P /\ id_init inv As [b2] (Some Sigma) gamma eps = Ok P' /\ 0 < eps /\ cov_ok 20 inv (Some Sigma) /\
  data_ok 20 (10 * length bodies) As [b1] /\ data_ok 20 (10 * length bodies) As [b2] /\
  determining (10 * length bodies) As /\ length bodies = 2%nat /\ nominals_ok gamma inv bodies /\ bodies_ok true bodies /\ coms_ok (Some coms) bodies /\
  Forall2 (allowed eps true) bodies ps /\ com_allowed (Some coms) ps /\ stacks ps v /\ explains As [v] v /\
  optimal (id_cost log_det inv P bodies) (id_feasible ut P bodies true (Some coms)) l /\ optimal (id_cost log_det inv P' bodies) (id_feasible ut P' bodies true (Some coms)) l'.
Proof.
  intros ut gamma b1 b2 Hg Lb1 Lb2. destruct (log_det_exists 4 ltac:(lia)) as (log_det & HLD). destruct sample_two as (b & Ks & A & B & C & N & D & E).
  destruct (SPD_inverse 4 ltac:(lia) (ip_J p6) p6_spd) as (J' & HI). destruct (SPD_scaled_eye 20 4 ltac:(lia) ltac:(lra)) as (HC & HCI).
  destruct s6_shapes as (H1 & (x & Hx) & _).
  set (inv := fun M : mat => if Nat.eqb (length M) 4 then Ok J' else Ok (mscale (/ 4) (eye 20))).
  assert (AL : allowed (1 / 20) true b p6).
  { split; [exact p6_ok|]. split; [intros i j Hi Hj; destruct i as [|[|[|]]]; try lia; destruct j as [|[|[|]]]; try lia; cbn; reflexivity|]. split; [cbn; lra|].
    split; [rewrite p6_J; exact J6_margin|]. intros _. exists Ks. split; [auto|]. split; [auto|]. rewrite p6_J. exact D. }
  assert (NO : nominal_ok inv (ip_J p6)) by (split; [exact p6_spd|]; exists J'; split; [reflexivity|exact HI]).
  set (bodies := [b; b]). assert (EP : map bd_params bodies = [p6; p6]) by (cbn; now rewrite E).
  assert (HA : Forall2 (allowed (1 / 20) true) bodies (map bd_params bodies)) by (rewrite EP; constructor; auto).
  destruct (stack_vecs _ _ _ _ HA) as (vs & V1 & V2 & V3 & V4 & V5).
  set (P := fun b1 => {| id_As := [eye 20]; id_bs := [b1]; id_W0 := Some (mscale (/ 4) (eye 20)); id_gamma := gamma; id_eps := 1 / 20 |}).
  assert (EI : forall b1, id_init inv [eye 20] [b1] (Some (mscale 4 (eye 20))) gamma (1 / 20) = Ok (P b1)).
  { intro. unfold id_init. cbn [length Nat.eqb assert_ bind]. rewrite (proj2 (Rleb_iff 0 gamma)) by auto. rewrite (proj2 (Rleb_iff 0 (1 / 20))) by lra. reflexivity. }
  assert (CV : cov_ok 20 inv (Some (mscale 4 (eye 20)))) by (split; [exact HC|]; exists (mscale (/ 4) (eye 20)); split; [reflexivity|exact HCI]).
  assert (LV : length (concat vs) = 20%nat) by (rewrite (concat10 vs 2); auto).
  assert (HD : forall b1, length b1 = 20%nat -> data_ok 20 20 [eye 20] [b1]) by (intros; apply data_eye; [lia|auto]).
  assert (SX : exists K, shape_is (SBox x) K /\ K (ip_com p6)).
  { eexists. split; [exact (shape_is_box _ _ _ _ Hx H1)|]. exists (zeros 3). split; [|cbn; list_eq; ring].
    split; [reflexivity|]. intros [|[|[|i]]] Hi; cbn in *; try lia; rewrite Rabs_R0; lra. }
  assert (CA : com_allowed (Some [SBox x; SBox x]) (map bd_params bodies)) by (rewrite EP; constructor; [exact SX|]; constructor; [exact SX|constructor]).
  assert (BN : forall y, In y bodies -> nominal_ok inv (ip_J (bd_params y))) by (intros y [<-|[<-|[]]]; rewrite E; exact NO).
  assert (FE : forall b1, id_feasible ut (P b1) bodies true (Some [SBox x; SBox x]) vs).
  { intro b1'. apply (feasible_of_allowed ut (P b1') bodies true _ (map bd_params bodies) vs); auto; [cbn; lra|]. intros _ p Hp. rewrite EP in Hp. destruct Hp as [<-|[<-|[]]]; exact p6_spd. }
  assert (HN : nominals_ok gamma inv bodies) by (intros _ y Hy; auto). assert (HB : bodies_ok true bodies) by (intros _ y [<-|[<-|[]]]; exists Ks; auto).
  assert (HNC : no_cylinders true bodies) by (intros _ y c [<-|[<-|[]]]; apply N).
  assert (HCo : coms_ok (Some [SBox x; SBox x]) bodies) by (intros l El; injection El as <-; split; [reflexivity|]; destruct SX as (K & HK & _); exists [K; K]; repeat constructor; auto).
  assert (EX : forall b1, length b1 = 20%nat -> exists l, optimal (id_cost log_det inv (P b1) bodies) (id_feasible ut (P b1) bodies true (Some [SBox x; SBox x])) l).
  { intros b0 L0. apply (id_exists ut log_det inv 20 [eye 20] [b0] (Some (mscale 4 (eye 20))) gamma (1 / 20) (P b0) bodies true (Some [SBox x; SBox x]) vs); auto. right. apply determining_eye. }
  destruct (EX b1 Lb1) as (l & Hl). destruct (EX b2 Lb2) as (l' & Hl').
  exists log_det, inv, [eye 20], (mscale 4 (eye 20)), (1 / 20), (P b1), (P b2), bodies, [SBox x; SBox x], (map bd_params bodies), (concat vs), l, l'.
  split; [auto|]. split; [auto|]. split; [auto|]. split; [lra|]. split; [auto|]. split; [apply HD; auto|]. split; [apply HD; auto|]. split; [apply determining_eye|]. split; [auto|]. split; [auto|]. split; [auto|]. split; [auto|]. split; [auto|]. split; [auto|].
  split; [exists vs; split; [exact V1|reflexivity]|]. split; [exact (explains_eye 20 _ LV)|]. split; auto.
Qed.
