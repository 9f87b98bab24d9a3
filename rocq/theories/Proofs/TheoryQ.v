(** scripts/theory: layers of the library's boxes and ellipsoids in any pose. *)
From Verif Require Import Base.Vec Base.VecFacts Spec.Basic Spec.Objects Spec.Shapes Spec.ShapeObjects Spec.Realizable Spec.Limit
  Model.Util Model.Inertial Model.Polydd Model.Poly Model.Ellipsoid Model.Box Model.Theory
  Proofs.Coord Proofs.InertialP Proofs.InertialT Proofs.BoxP Proofs.EllP Proofs.DensityP Proofs.TheoryP.

(** entries of J are affine in the second moments *)
Lemma dparams_entry Q c i j : is_mat 3 3 Q -> length c = 3%nat -> (i < 4)%nat -> (j < 4)%nat ->
  exists k0 k1 k2 k3, forall m s1 s2 s3, entry (ip_J (dparams m s1 s2 s3 Q c)) i j = m * (k0 + (k1 * s1 + (k2 * s2 + k3 * s3))).
Proof.
  intros HQ Hc Hi Hj. destruct (mat33_inv _ HQ) as (q1 & q2 & q3 & q4 & q5 & q6 & q7 & q8 & q9 & ->). destruct (len3_inv _ Hc) as (c1 & c2 & c3 & ->).
  set (Q := [[q1; q2; q3]; [q4; q5; q6]; [q7; q8; q9]]). set (e k l := nth l (nth k Q []) 0).
  exists (nth i [c1; c2; c3; 1] 0 * nth j [c1; c2; c3; 1] 0), (e i 0%nat * e j 0%nat), (e i 1%nat * e j 1%nat), (e i 2%nat * e j 2%nat). intros.
  unfold e, Q. clear e Q. destruct i as [|[|[|[|i]]]]; try lia; destruct j as [|[|[|[|j]]]]; try lia; unfold entry; cbn; ring.
Qed.
Lemma dparams_J m s1 s2 s3 Q c : is_mat 3 3 Q -> length c = 3%nat -> is_mat 4 4 (ip_J (dparams m s1 s2 s3 Q c)).
Proof.
  intros HQ Hc. destruct (mat33_inv _ HQ) as (q1 & q2 & q3 & q4 & q5 & q6 & q7 & q8 & q9 & ->). destruct (len3_inv _ Hc) as (c1 & c2 & c3 & ->).
  split; [reflexivity|repeat constructor].
Qed.
Lemma dparams_limit m f1 f2 f3 l1 l2 l3 Q c : is_mat 3 3 Q -> length c = 3%nat -> tends_to_0r f1 l1 -> tends_to_0r f2 l2 -> tends_to_0r f3 l3 ->
  mat_tends_to_0r 4 4 (fun d => ip_J (dparams m (f1 d) (f2 d) (f3 d) Q c)) (ip_J (dparams m l1 l2 l3 Q c)).
Proof.
  intros HQ Hc F1 F2 F3. split; [now apply dparams_J|]. intros i j Hi Hj.
  destruct (dparams_entry Q c i j HQ Hc Hi Hj) as (k0 & k1 & k2 & k3 & E). rewrite E.
  apply tends_ext with (g := fun d => m * (k0 + (k1 * f1 d + (k2 * f2 d + k3 * f3 d)))); [intros; apply E|].
  apply tends_scal, (tends_plus (fun _ => k0)); [apply tends_const|]. apply tends_plus; [now apply tends_scal|]. apply tends_plus; now apply tends_scal.
Qed.
Lemma dparams_add m1 m2 s1 s2 s3 t1 t2 t3 u1 u2 u3 Q c : is_mat 3 3 Q -> length c = 3%nat -> 0 < m1 + m2 ->
  m1 * s1 + m2 * t1 = (m1 + m2) * u1 -> m1 * s2 + m2 * t2 = (m1 + m2) * u2 -> m1 * s3 + m2 * t3 = (m1 + m2) * u3 ->
  ip_add (dparams m1 s1 s2 s3 Q c) (dparams m2 t1 t2 t3 Q c) = Ok (dparams (m1 + m2) u1 u2 u3 Q c).
Proof.
  intros HQ Hc Hm E1 E2 E3. rewrite ip_add_ok by exact Hm. unfold dparams. cbn [ip_mass ip_com ip_H]. f_equal. rewrite <- E1, <- E2, <- E3. f_equal.
  - destruct (len3_inv _ Hc) as (c1 & c2 & c3 & ->). cbn. list_eq; field; lra.
  - destruct (mat33_inv _ HQ) as (q1 & q2 & q3 & q4 & q5 & q6 & q7 & q8 & q9 & ->). destruct (len3_inv _ Hc) as (c1 & c2 & c3 & ->). cbn. list_eq; ring.
Qed.

Lemma vols a b c d m : 0 < a -> 0 < b -> 0 < c -> 0 < d -> 0 < m ->
  let V1 := a * b * c in let V2 := (a + d) * (b + d) * (c + d) in
  0 < m * V1 / (V2 - V1) /\ 0 < m * V2 / (V2 - V1) /\ m + m * V1 / (V2 - V1) = m * V2 / (V2 - V1).
Proof.
  intros Ha Hb Hc Hd Hm V1 V2. pose proof (lay_den a b c d ltac:(lra) ltac:(lra) ltac:(lra) Hd) as D. fold V1 V2 in D.
  assert (0 < V1) by (apply Rmult_lt_0_compat; [apply Rmult_lt_0_compat|]; lra).
  repeat split; [| |field; lra]; apply Rdiv_lt_0_compat; try lra; apply Rmult_lt_0_compat; lra.
Qed.

Lemma box_layer a b c ce r B m : box_init [a; b; c] ce r = Ok B -> 0 < a -> 0 < b -> 0 < c -> 0 < m ->
  exists layer p, box_hollow_density_params B m = Ok p /\ mat_tends_to_0r 4 4 (fun d => ip_J (layer d)) (ip_J p) /\
  forall d, 0 < d -> exists B2 q1 q2, box_init [a + d; b + d; c + d] ce r = Ok B2 /\
    0 < b_volume B2 - b_volume B /\
    box_uniform_density_params B (m * b_volume B / (b_volume B2 - b_volume B)) = Ok q1 /\
    box_uniform_density_params B2 (m * b_volume B2 / (b_volume B2 - b_volume B)) = Ok q2 /\
    ip_mass (layer d) = m /\ ip_add (layer d) q1 = Ok q2.
Proof.
  intros HB Ha Hb Hc Hm. pose proof (box_init_inv _ _ _ _ HB) as (_ & _ & E1 & E2 & E3 & MQ & LC & _). rewrite E2 in LC. rewrite E3 in MQ.
  assert (Hd : 0 < a * b + a * c + b * c). { pose proof (Rmult_lt_0_compat a b). pose proof (Rmult_lt_0_compat a c). pose proof (Rmult_lt_0_compat b c). lra. }
  pose proof (box_hollow_ok _ _ _ _ m a b c HB eq_refl Hm Hd) as HO. cbv zeta in HO.
  exists (fun d => dparams m (/ 3 * lay a b c d) (/ 3 * lay b a c d) (/ 3 * lay c a b d) (pose_rot 3 r) (pose_tr 3 ce)). eexists. split; [exact HO|]. split.
  - apply dparams_limit; auto; (eapply tends_eq; [apply tends_scal, lay_limit; lra|field; lra]).
  - intros d D. destruct (box_init_good [a + d; b + d; c + d] ce r) as (B2 & HB2); auto.
    { intros [|[|[|i]]] Hi; cbn; try lra; lia. }
    pose proof (box_init_inv _ _ _ _ HB2) as (_ & _ & F1 & _).
    assert (V1 : b_volume B = 8 * (a * b * c)) by (unfold b_volume, b_side_lengths; rewrite E1; cbn; ring).
    assert (V2 : b_volume B2 = 8 * ((a + d) * (b + d) * (c + d))) by (unfold b_volume, b_side_lengths; rewrite F1; cbn; ring).
    pose proof (lay_den a b c d ltac:(lra) ltac:(lra) ltac:(lra) D) as DD. destruct (vols a b c d m Ha Hb Hc D Hm) as (M1 & M2 & M3).
    assert (G1 : m * b_volume B / (b_volume B2 - b_volume B) = m * (a * b * c) / ((a + d) * (b + d) * (c + d) - a * b * c)) by (rewrite V1, V2; field; split; lra).
    assert (G2 : m * b_volume B2 / (b_volume B2 - b_volume B) = m * ((a + d) * (b + d) * (c + d)) / ((a + d) * (b + d) * (c + d) - a * b * c)) by (rewrite V1, V2; field; split; lra).
    exists B2. rewrite G1, G2, V1, V2. eexists. eexists. split; [exact HB2|]. split; [lra|].
    split; [apply (box_uniform_ok _ _ _ _ _ HB M1)|]. split; [apply (box_uniform_ok _ _ _ _ _ HB2 M2)|]. split; [reflexivity|].
    cbn [nth]. rewrite <- M3. apply dparams_add; auto; [lra|rewrite M3..].
    + unfold lay. field. lra.
    + rewrite lay_2. field. lra.
    + rewrite lay_3. field. lra.
Qed.
Lemma ell_layer a b c ce r B m : ell_init [a; b; c] r ce = Ok B -> 0 < a -> 0 < b -> 0 < c -> 0 < m ->
  exists layer p, ell_hollow_density_params B m = Ok p /\ mat_tends_to_0r 4 4 (fun d => ip_J (layer d)) (ip_J p) /\
  forall d, 0 < d -> exists B2 q1 q2, ell_init [a + d; b + d; c + d] r ce = Ok B2 /\
    0 < e_volume B2 - e_volume B /\
    ell_uniform_density_params B (m * e_volume B / (e_volume B2 - e_volume B)) = Ok q1 /\
    ell_uniform_density_params B2 (m * e_volume B2 / (e_volume B2 - e_volume B)) = Ok q2 /\
    ip_mass (layer d) = m /\ ip_add (layer d) q1 = Ok q2.
Proof.
  intros HB Ha Hb Hc Hm. pose proof (ell_init_inv _ _ _ _ HB) as (_ & E1 & E2 & E3 & MQ & LC). rewrite E3 in LC. rewrite E2 in MQ. cbn [length] in MQ, LC.
  assert (Hd : 0 < a * b + a * c + b * c). { pose proof (Rmult_lt_0_compat a b). pose proof (Rmult_lt_0_compat a c). pose proof (Rmult_lt_0_compat b c). lra. }
  pose proof (ell_hollow_ok _ _ _ _ m a b c HB eq_refl Hm Hd) as HO. cbv zeta in HO.
  exists (fun d => dparams m (/ 5 * lay a b c d) (/ 5 * lay b a c d) (/ 5 * lay c a b d) (pose_rot 3 r) (pose_tr 3 ce)). eexists. split; [exact HO|]. split.
  - apply dparams_limit; auto; (eapply tends_eq; [apply tends_scal, lay_limit; lra|field; lra]).
  - intros d D. pose proof PI_RGT_0 as PP. assert (HB2 : exists B2, ell_init [a + d; b + d; c + d] r ce = Ok B2).
    { eexists. apply ell_init_good; auto. intros [|[|[|i]]] Hi; cbn in *; try lra; lia. }
    destruct HB2 as (B2 & HB2).
    pose proof (ell_init_inv _ _ _ _ HB2) as (_ & F1 & _).
    assert (V1 : e_volume B = 4 * PI / 3 * (a * b * c)) by (unfold e_volume; rewrite E1; cbn; field).
    assert (V2 : e_volume B2 = 4 * PI / 3 * ((a + d) * (b + d) * (c + d))) by (unfold e_volume; rewrite F1; cbn; field).
    pose proof (lay_den a b c d ltac:(lra) ltac:(lra) ltac:(lra) D) as DD. destruct (vols a b c d m Ha Hb Hc D Hm) as (M1 & M2 & M3).
    assert (VD : 0 < e_volume B2 - e_volume B). { rewrite V1, V2, <- Rmult_minus_distr_l. apply Rmult_lt_0_compat; lra. }
    assert (G1 : m * e_volume B / (e_volume B2 - e_volume B) = m * (a * b * c) / ((a + d) * (b + d) * (c + d) - a * b * c)) by (rewrite V1, V2; field; split; [lra|rewrite V1, V2 in VD; lra]).
    assert (G2 : m * e_volume B2 / (e_volume B2 - e_volume B) = m * ((a + d) * (b + d) * (c + d)) / ((a + d) * (b + d) * (c + d) - a * b * c)) by (rewrite V1, V2; field; split; [lra|rewrite V1, V2 in VD; lra]).
    exists B2. rewrite G1, G2. eexists. eexists. split; [exact HB2|]. split; [exact VD|].
    split; [apply (ell_uniform_ok _ _ _ _ _ HB eq_refl M1)|]. split; [apply (ell_uniform_ok _ _ _ _ _ HB2 eq_refl M2)|]. split; [reflexivity|].
    cbn [nth]. rewrite <- M3. apply dparams_add; auto; [lra|rewrite M3..].
    + unfold lay. field. lra.
    + rewrite lay_2. field. lra.
    + rewrite lay_3. field. lra.
Qed.
