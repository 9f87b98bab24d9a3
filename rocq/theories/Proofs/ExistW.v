(** A sample problem for C95. *)
From Verif Require Import Base.Vec Base.VecFacts Spec.Basic Spec.Objects Spec.Samples Spec.Realizable Spec.Shapes Spec.ShapeObjects Spec.PolySpec Spec.Bodies
  Spec.ExtremalSpec Spec.Geodesic Spec.Identify Spec.Cone Spec.Exist
  Model.Util Model.Constraint Model.Inertial Model.Polydd Model.Poly Model.Ellipsoid Model.Box Model.Cylinder Model.Realize Model.RigidBody Model.Identify
  Proofs.Coord Proofs.LinAlg Proofs.InertialP Proofs.BoxP Proofs.EllP Proofs.ShapesW Proofs.CylP Proofs.PimP Proofs.RealizeP Proofs.SdpP Proofs.RealizeW Proofs.SamplesP Proofs.RigidP Proofs.RigidW
  Proofs.MatAlg Proofs.LogDet Proofs.IdentifyP Proofs.IdentifyW.

Lemma sample_two : exists b Ks, Forall2 shape_is (bd_shapes b) Ks /\ length (bd_shapes b) = 2%nat /\ (forall s, In s (bd_shapes b) -> shape_proper s) /\ (forall c, ~ In (SCyl c) (bd_shapes b)) /\
  realizable_J (union_of Ks) J6 /\ bd_params b = p6.
Proof.
  destruct s6_shapes as (H1 & (b & Hb) & (c & Hc) & (e & He)).
  exists {| bd_shapes := [SBox b; SEll e]; bd_params := p6 |}. eexists. cbn [bd_shapes bd_params]. split; [|split; [reflexivity|split; [|split; [|split; [|reflexivity]]]]].
  - constructor; [exact (shape_is_box _ _ _ _ Hb H1)|]. constructor; [exact (shape_is_ell _ _ _ _ He eq_refl H1)|constructor].
  - intros s [<-|[<-|[]]]; cbn [shape_proper]; auto. pose proof (ell_init_inv _ _ _ _ He) as (_ & -> & _). intros [|[|[|i]]] Hi; cbn in *; try lra; lia.
  - intros x [H|[H|[]]]; discriminate.
  - eapply realizable_mono; [|exact s6_box]. intros p _ Hp. eexists. split; [now left|exact Hp].
Qed.
Lemma exist_example : forall ut gamma, 0 <= gamma -> exists log_det inv solver As bs Sigma eps P bodies l l0,
  log_det_spec 4 log_det /\ id_init inv As bs (Some Sigma) gamma eps = Ok P /\ 0 < eps /\ cov_ok 20 inv (Some Sigma) /\ data_ok 20 (10 * length bodies) As bs /\
  determining (10 * length bodies) As /\ length bodies = 2%nat /\ (forall b, In b bodies -> length (bd_shapes b) = 2%nat) /\ nominals_ok gamma inv bodies /\ bodies_ok true bodies /\ no_cylinders true bodies /\ coms_ok (Some l) bodies /\
  id_feasible ut P bodies true (Some l) l0 /\ solver_exact solver (id_cost log_det inv P bodies) (id_feasible ut P bodies true (Some l)).
Proof.
  intros ut gamma Hg. destruct (log_det_exists 4 ltac:(lia)) as (log_det & HLD). destruct sample_two as (b & Ks & A & B & C & N & D & E).
  destruct (SPD_inverse 4 ltac:(lia) (ip_J p6) p6_spd) as (J' & HI). destruct (SPD_scaled_eye 20 4 ltac:(lia) ltac:(lra)) as (HC & HCI).
  destruct s6_shapes as (H1 & (x & Hx) & _).
  set (inv := fun M : mat => if Nat.eqb (length M) 4 then Ok J' else Ok (mscale (/ 4) (eye 20))).
  assert (AL : allowed (1 / 20) true b p6).
  { split; [exact p6_ok|]. split; [intros i j Hi Hj; destruct i as [|[|[|]]]; try lia; destruct j as [|[|[|]]]; try lia; cbn; reflexivity|]. split; [cbn; lra|].
    split; [rewrite p6_J; exact J6_margin|]. intros _. exists Ks. split; [auto|]. split; [auto|]. rewrite p6_J. exact D. }
  assert (NO : nominal_ok inv (ip_J p6)) by (split; [exact p6_spd|]; exists J'; split; [reflexivity|exact HI]).
  set (bodies := [b; b]). assert (EP : map bd_params bodies = [p6; p6]) by (cbn; now rewrite E).
  assert (HA : Forall2 (allowed (1 / 20) true) bodies (map bd_params bodies)) by (rewrite EP; constructor; auto).
  destruct (stack_vecs _ _ _ _ HA) as (vs & V1 & V2 & V3 & V4 & V5).
  set (P := {| id_As := [eye 20]; id_bs := [concat vs]; id_W0 := Some (mscale (/ 4) (eye 20)); id_gamma := gamma; id_eps := 1 / 20 |}).
  assert (EI : id_init inv [eye 20] [concat vs] (Some (mscale 4 (eye 20))) gamma (1 / 20) = Ok P).
  { unfold id_init. cbn [length Nat.eqb assert_ bind]. rewrite (proj2 (Rleb_iff 0 gamma)) by auto. rewrite (proj2 (Rleb_iff 0 (1 / 20))) by lra. reflexivity. }
  assert (CV : cov_ok 20 inv (Some (mscale 4 (eye 20)))) by (split; [exact HC|]; exists (mscale (/ 4) (eye 20)); split; [reflexivity|exact HCI]).
  assert (LV : length (concat vs) = 20%nat) by (rewrite (concat10 vs 2); auto).
  assert (HD : data_ok 20 20 [eye 20] [concat vs]) by (apply data_eye; [lia|auto]).
  assert (SX : exists K, shape_is (SBox x) K /\ K (ip_com p6)).
  { eexists. split; [exact (shape_is_box _ _ _ _ Hx H1)|]. exists (zeros 3). split; [|cbn; list_eq; ring].
    split; [reflexivity|]. intros [|[|[|i]]] Hi; cbn in *; try lia; rewrite Rabs_R0; lra. }
  assert (CA : com_allowed (Some [SBox x; SBox x]) (map bd_params bodies)) by (rewrite EP; constructor; [exact SX|]; constructor; [exact SX|constructor]).
  assert (BN : forall y, In y bodies -> nominal_ok inv (ip_J (bd_params y))) by (intros y [<-|[<-|[]]]; rewrite E; exact NO).
  assert (FE : id_feasible ut P bodies true (Some [SBox x; SBox x]) vs).
  { apply (feasible_of_allowed ut P bodies true _ (map bd_params bodies) vs); auto; [cbn; lra|]. intros _ p Hp. rewrite EP in Hp. destruct Hp as [<-|[<-|[]]]; exact p6_spd. }
  exists log_det, inv, (fun _ _ => Some vs), [eye 20], [concat vs], (mscale 4 (eye 20)), (1 / 20), P, bodies, [SBox x; SBox x], vs.
  split; [auto|]. split; [auto|]. split; [lra|]. split; [auto|]. split; [auto|]. split; [apply determining_eye|]. split; [auto|]. split; [intros y [<-|[<-|[]]]; auto|]. split; [intros _ y Hy; auto|].
  split; [intros _ y [<-|[<-|[]]]; exists Ks; auto|]. split; [intros _ y c [<-|[<-|[]]]; apply N|]. split; [|split; [exact FE|]].
  - intros l El. injection El as <-. split; [reflexivity|]. destruct SX as (K & HK & _). exists [K; K]. repeat constructor; auto.
  - apply (explaining_optimal ut log_det inv 20); auto; [exact (id_init_weight 20 _ _ _ _ _ _ _ EI CV)|exact (explains_eye 20 _ LV)].
Qed.
