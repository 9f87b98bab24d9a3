(** Sample bodies for the properties of rigid bodies. *)
From Verif Require Import Base.Vec Base.VecFacts Spec.Basic Spec.Objects Spec.Samples Spec.Realizable Spec.Shapes Spec.ShapeObjects Spec.PolySpec Spec.Bodies
  Model.Util Model.Constraint Model.Inertial Model.Polydd Model.Poly Model.Ellipsoid Model.Box Model.Cylinder Model.Realize Model.RigidBody
  Proofs.Coord Proofs.InertialP Proofs.BoxP Proofs.EllP Proofs.ShapesW Proofs.CylP Proofs.PimP Proofs.RealizeP Proofs.SdpP Proofs.RealizeW Proofs.SamplesP Proofs.RigidP.

Definition p6 : IP := {| ip_mass := 1; ip_com := [0; 0; 0]; ip_H := diag [1/12; 1/12; 1/12] |}.
Lemma p6_J : ip_J p6 = J6.
Proof. unfold J6, p6, ip_J, ip_h, diag. cbn. list_eq; ring. Qed.
Lemma p6_ok : ip_ok p6. Proof. split; [reflexivity|apply is_mat33]. Qed.
Lemma sample_three : exists b Ks, Forall2 shape_is (bd_shapes b) Ks /\ length (bd_shapes b) = 3%nat /\
  (forall s, In s (bd_shapes b) -> shape_proper s) /\ realizable_J (union_of Ks) J6 /\ bd_params b = p6 /\ (forall p, ~ In (SPoly p) (bd_shapes b)).
Proof.
  destruct s6_shapes as (H1 & (b & Hb) & (c & Hc) & (e & He)).
  exists {| bd_shapes := [SBox b; SCyl c; SEll e]; bd_params := p6 |}. eexists. cbn [bd_shapes bd_params]. split; [|split; [reflexivity|split; [|split; [|split; [reflexivity|]]]]].
  - constructor; [exact (shape_is_box _ _ _ _ Hb H1)|]. constructor; [exact (shape_is_cyl _ _ _ _ _ Hc H1)|]. constructor; [exact (shape_is_ell _ _ _ _ He eq_refl H1)|constructor].
  - intros s [<-|[<-|[<-|[]]]]; cbn [shape_proper]; auto. pose proof (ell_init_inv _ _ _ _ He) as (_ & -> & _).
    intros [|[|[|i]]] Hi; cbn in *; try lra; lia.
  - eapply realizable_mono; [|exact s6_box]. intros p _ Hp. eexists. split; [now left|exact Hp].
  - intros p [H|[H|[H|[]]]]; discriminate.
Qed.
Lemma sample_body : exists b Ks, Forall2 shape_is (bd_shapes b) Ks /\ length (bd_shapes b) = 3%nat /\
  (forall s, In s (bd_shapes b) -> shape_proper s) /\ realizable_J (union_of Ks) (ip_J (bd_params b)) /\
  PSD 4 (msub (ip_J (bd_params b)) (mscale (1 / 20) (eye 4))) /\ is_mat 4 4 (ip_J (bd_params b)).
Proof.
  destruct sample_three as (b & Ks & A & B & C & D & E & _). exists b, Ks. rewrite E, p6_J. repeat (split; [assumption|]). split; [exact J6_margin|exact J6_mat].
Qed.
Lemma sample_transform : forall dd, exists b Ks b', Forall2 shape_is (bd_shapes b) Ks /\ length (bd_shapes b) = 3%nat /\ ip_ok (bd_params b) /\
  ip_mass (bd_params b) = 1 /\ realizable (union_of Ks) (ip_mass (bd_params b)) (ip_h (bd_params b)) (ip_H (bd_params b)) /\
  rb_transform dd b (Some Q0) (Some t0) = Ok b' /\ orthogonal 3 Q0 /\ dd_moves dd (bd_shapes b) Q0 t0.
Proof.
  intro dd. destruct sample_three as (b & Ks & A & B & C & D & E & N).
  destruct (rb_transform_total dd b (Some Q0) (Some t0)) as (b' & Eb).
  - apply is_mat33.
  - reflexivity.
  - rewrite E. cbn. lra.
  - intros s Hs. assert (HK : exists K, shape_is s K) by (clear - A Hs; induction A as [|s' K l Ks H A IH]; [destruct Hs|destruct Hs as [->|Hs]; eauto]).
    destruct HK as (K & HK). exists K. split; [exact HK|]. intros p ->. exact (N p Hs).
  - exists b, Ks, b'. rewrite E. split; [exact A|]. split; [exact B|]. split; [exact p6_ok|]. split; [reflexivity|]. split; [|split; [exact Eb|split]].
    + apply realizable_iff_J; [exact p6_ok|]. rewrite p6_J. exact D.
    + exact Q0_orth.
    + intros p Hp. destruct (N p Hp).
Qed.
Lemma sample_boxes : exists b Ks, Forall2 shape_is (bd_shapes b) Ks /\ length (bd_shapes b) = 2%nat /\ forall s, In s (bd_shapes b) -> box_or_cyl s.
Proof.
  destruct s6_shapes as (H1 & (b & Hb) & (c & Hc) & _).
  exists {| bd_shapes := [SBox b; SCyl c]; bd_params := p6 |}. eexists. cbn [bd_shapes]. split; [|split; [reflexivity|]].
  - constructor; [exact (shape_is_box _ _ _ _ Hb H1)|]. constructor; [exact (shape_is_cyl _ _ _ _ _ Hc H1)|constructor].
  - intros s [<-|[<-|[]]]; exact I.
Qed.
