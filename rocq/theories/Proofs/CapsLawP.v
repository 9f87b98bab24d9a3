(** C105 for Capsule.random_points: the integrals exist and the sampler fails with probability at most (7/8)^10000. *)
From Coquelicot Require Rcomplements RInt Hierarchy Derive AutoDerive.
From Verif Require Import Base.Vec Base.VecFacts Spec.Basic Spec.Shapes Spec.ShapeObjects Spec.Integrals Spec.RandomSpec Spec.Uniform Spec.Expect Spec.Samples
  Model.Util Model.Polydd Model.Poly Model.Inertial Model.Ellipsoid Model.Box Model.Cylinder Model.Random
  Proofs.Coord Proofs.Hull Proofs.EllP Proofs.BoxP Proofs.CylP Proofs.IntegralP Proofs.DensityP Proofs.RandomP Proofs.RandomS Proofs.ExpectP Proofs.MonoInt Proofs.TransformP Proofs.MonteCarloQ Proofs.MonteCarloR Proofs.VolumeV Proofs.SamplingP Proofs.UniformP Proofs.TurnsP Proofs.SamplesP Proofs.RejectLaw.

(** the capsule in its own frame, with the tolerances of contains *)
Definition caps_loc (L r q z : R) : Prop :=
  q + (z - L / 2) * (z - L / 2) <= (1 + default_tol) * (r * r) \/ q + (z + L / 2) * (z + L / 2) <= (1 + default_tol) * (r * r) \/
  (within default_tol (L / 2) (z * z) [z] /\ q <= (1 + default_tol) * (r * r)).
Lemma caps_in_loc L r Q c x y z : 0 <= L -> / 100000000 < r -> orthogonal 3 Q -> length c = 3%nat ->
  (caps_contains (caps_of L r Q c) (move Q c [x; y; z]) default_tol = true <-> caps_loc L r (x * x + y * y) z).
Proof.
  intros HL Hr HQ Hc. assert (MQ : is_mat 3 3 Q) by apply HQ. assert (Lp : length (move Q c [x; y; z]) = 3%nat) by (apply (move_len 3); auto).
  assert (CAP : forall z0, ell_contains (cap_at r (move Q c [0; 0; z0])) (move Q c [x; y; z]) default_tol = true <-> x * x + y * y + (z - z0) * (z - z0) <= (1 + default_tol) * (r * r)).
  { intro z0. rewrite cap_contains; [|lra|apply (move_len 3); auto|exact Lp|unfold default_tol; lra].
    rewrite dist_move by auto. replace (dot (vsub [x; y; z] [0; 0; z0]) (vsub [x; y; z] [0; 0; z0])) with (x * x + y * y + (z - z0) * (z - z0)) by (unfold dot; cbn; ring).
    unfold within. split; [intros [_ H]; apply H; exact Hr|]. intro H. split; [intro; lra|auto]. }
  assert (EL' : mat_vec (transpose Q) (vsub (move Q c [x; y; z]) c) = [x; y; z]) by (symmetry; apply (move_inv 3); auto).
  rewrite caps_contains_or. unfold end1, end2. rewrite !CAP. rewrite (cyl_contains_local L r Q c _ _ x y z) by (auto; lra).
  replace (z - - (L / 2)) with (z + L / 2) by ring. unfold caps_loc. unfold within at 2. intuition (try lra).
Qed.
Lemma caps_loc_ex L r q a b : a <= b -> exI (fun z => ind (caps_loc L r q z)) a b.
Proof.
  intro H. assert (SQ : forall s, convex1 (fun z => q + (z - s) * (z - s) <= (1 + default_tol) * (r * r))).
  { intros s x y z [H1 H2] X Z. assert (D : (y - s) * (y - s) <= (x - s) * (x - s) \/ (y - s) * (y - s) <= (z - s) * (z - s)).
    { destruct (Rle_dec s y); [right|left]; [|replace ((y - s) * (y - s)) with ((s - y) * (s - y)) by ring; replace ((x - s) * (x - s)) with ((s - x) * (s - x)) by ring]; apply Rmult_le_compat; lra. }
    destruct D; lra. }
  apply union3_ex; auto.
  - intros x y z H1 X Z. pose proof (SQ (- (L / 2)) x y z H1) as K. cbv beta in K. unfold Rminus in K. rewrite Ropp_involutive in K. auto.
  - intros x y z [H1 H2] [X X1] [Z _]. split; [|exact X1]. destruct X as [Xa Xb]. destruct Z as [Za Zb]. split.
    + intros K v [<-|[]]. specialize (Xa K x (or_introl eq_refl)). specialize (Za K z (or_introl eq_refl)). apply Rcomplements.Rabs_le_between in Xa. apply Rcomplements.Rabs_le_between in Za. apply Rabs_le. lra.
    + intro K. specialize (Xb K). specialize (Zb K). assert (D : y * y <= x * x \/ y * y <= z * z).
      { destruct (Rle_dec 0 y); [right|left]; [|replace (y * y) with (- y * - y) by ring; replace (x * x) with (- x * - x) by ring]; apply Rmult_le_compat; lra. }
      destruct D; lra.
Qed.
Lemma caps_volume L r ro co c k : cyl_init L r ro co = Ok c -> caps_init c = Ok k -> orthogonal 3 (pose_rot 3 ro) -> / 100000000 < r ->
  exists A, box_volume [r; r; (L + 2 * r) / 2] (fun u => if caps_contains k (move (pose_rot 3 ro) (pose_tr 3 co) u) (/ 100000000) then 1 else 0) A /\ r * r * (L + r) <= A.
Proof.
  intros Hc Hk HQ Hr. change (/ 100000000) with default_tol. pose proof (caps_inv _ _ _ _ _ _ Hc Hk) as (HL & _ & MQ & Lc & ->).
  destruct (radial_volume (caps_loc L r) r ((L + 2 * r) / 2) ((L + r) / 2)) as (A & HA & LA); [lra|lra| | | |].
  - intros q q' z H [K|[K|[K K']]]; [left; lra|right; left; lra|right; right; split; [exact K|lra]].
  - intro q. apply caps_loc_ex. lra.
  - intros q z Hq Hz. assert (PR : 0 < r * r) by (apply Rmult_lt_0_compat; lra). assert (PT : 0 <= default_tol * (r * r)) by (apply Rmult_le_pos; [unfold default_tol; lra|lra]).
    assert (SQ : forall t, - (r / 2) <= t <= r / 2 -> t * t <= r / 2 * (r / 2)) by (intros t Ht; apply sq_abs; rewrite (Rabs_pos_eq (r / 2)) by lra; apply Rabs_le; lra).
    destruct (Rle_dec z (L / 2)) as [Z1|Z1]; [destruct (Rle_dec (- (L / 2)) z) as [Z2|Z2]|].
    + right. right. split; [|lra]. split; [intros T v [<-|[]]; apply Rabs_le; unfold default_tol; lra|]. intro T. assert (z * z <= L / 2 * (L / 2)) by (apply sq_abs; rewrite (Rabs_pos_eq (L / 2)) by lra; apply Rabs_le; lra).
      assert (0 <= default_tol * (L / 2 * (L / 2))); [apply Rmult_le_pos; [unfold default_tol; lra|apply Rmult_le_pos; lra]|lra].
    + right. left. specialize (SQ (z + L / 2) ltac:(lra)). lra.
    + left. specialize (SQ (z - L / 2) ltac:(lra)). lra.
  - exists A. split; [|lra]. unfold box_volume. destruct HA as (F & F1 & F2). exists F. split; [|exact F2]. intros x Hx. destruct (F1 x Hx) as (G & G1 & G2). exists G. split; [|exact G2]. intros y Hy.
    eapply IntegralP.integral_ext; [|exact (G1 y Hy)]. intros z _. cbv beta. pose proof (caps_in_loc L r (pose_rot 3 ro) (pose_tr 3 co) x y z HL Hr HQ Lc) as I.
    destruct (caps_contains _ _ _); [apply ind_true; now apply I|apply ind_false; intro K; apply I in K; discriminate K].
Qed.
Lemma capsule_law f L r ro co c k B : cyl_init L r ro co = Ok c -> caps_init c = Ok k -> orthogonal 3 (pose_rot 3 ro) -> / 100000000 < r ->
  let g := move (pose_rot 3 ro) (pose_tr 3 co) in let N := Z.to_nat 10000 in let h := [r; r; (L + 2 * r) / 2] in
  let ins := fun u => caps_contains k (g u) (/ 100000000) in
  box_volume h (fun u => if ins u then f (g u) else 0) B ->
  exists A a, box_volume h (fun u => if ins u then 1 else 0) A /\ 0 < A /\ 1 / 8 <= a <= 1 /\ (1 - a) ^ N <= (7 / 8) ^ N /\
    let run := fun U => caps_random_points k (fun t _ => [nth t U []]) 1 in
    (forall U, rows_of N 3 (uniform_draw (-1) 1) U -> run U = Raise ValueError \/ exists p, run U = Ok [p] /\ caps_contains k p (/ 100000000) = true) /\
    mean_rows 3 N (fun U => match run U with Raise ValueError => 1 | _ => 0 end) ((1 - a) ^ N) /\
    mean_rows 3 N (fun U => match run U with Ok [p] => f p | _ => 0 end) (B / A * (1 - (1 - a) ^ N)).
Proof.
  intros Hc Hk HQ Hr g N h ins HB. change (/ 100000000) with default_tol in ins |- *. pose proof (caps_inv _ _ _ _ _ _ Hc Hk) as (HL & _ & MQ & Lc & EK).
  destruct (caps_volume _ _ _ _ _ _ Hc Hk HQ Hr) as (A & HA & LA). assert (PR : 0 < r * r) by (apply Rmult_lt_0_compat; lra). assert (PA : 0 < A) by (eapply Rlt_le_trans; [|exact LA]; apply Rmult_lt_0_compat; lra).
  destruct (box_init_good h (Some (pose_tr 3 co)) (Some (pose_rot 3 ro))) as [b Hb]; auto. { intros [|[|[|i]]] Hi; cbn; try lia; lra. }
  assert (Eb : caps_mbb k = Ok b) by (rewrite EK; exact Hb).
  assert (HV : box_volume h (fun _ => 1) (8 * r * r * ((L + 2 * r) / 2))) by (eapply whole_of; [apply dom3_box_volume|apply box_volume_moments]).
  assert (PV : 0 < 8 * r * r * ((L + 2 * r) / 2)) by (apply Rmult_lt_0_compat; [apply Rmult_lt_0_compat|]; lra).
  assert (O : forall p, existsb (fun s : vec -> bool => s p) [fun p => caps_contains k p default_tol] = caps_contains k p default_tol) by (intro p; cbn; apply orb_false_r).
  assert (DOM : forall F G T, (forall u, F u = G u) -> box_volume h F T -> box_volume h G T).
  { intros F G T E. apply dom3_box_volume. intros. apply E. }
  destruct (rejection_law f [fun p => caps_contains k p default_tol] h (Some (pose_tr 3 co)) (Some (pose_rot 3 ro)) b (8 * r * r * ((L + 2 * r) / 2)) A B Hb) as [K1 K2]; auto.
  - intros [|[|[|i]]] Hi; cbn; try lia; lra.
  - revert HA. apply DOM. intro u. now rewrite O.
  - revert HB. apply DOM. intro u. rewrite O. reflexivity.
  - exists A, (A / (8 * r * r * ((L + 2 * r) / 2))). split; [exact HA|]. split; [exact PA|].
    match goal with |- ?P /\ _ => assert (H8 : P) end; [|split; [exact H8|split; [apply pow_incr; lra|]]].
    + split; [|apply K1]. apply Rmult_le_reg_r with (8 * r * r * ((L + 2 * r) / 2)); [exact PV|]. replace (A / (8 * r * r * ((L + 2 * r) / 2)) * (8 * r * r * ((L + 2 * r) / 2))) with A by (field; lra).
      apply Rle_trans with (r * r * ((L + 2 * r) / 2)); [lra|]. apply Rle_trans with (2 := LA). apply Rmult_le_compat_l; lra.
    + destruct (K2 N) as (J1 & J2 & J3). unfold caps_random_points. rewrite Eb. cbn [bind]. change default_max_tries with N. split; [|split].
      * intros U HU. destruct (J1 U HU) as [J|(p & J & Jp)]; [left; exact J|right; exists p]. rewrite O in Jp. split; [exact J|exact Jp].
      * exact J2.
      * exact J3.
Qed.
(** concrete cases *)
Lemma half_line f g I : (forall x, -1 <= x < 0 -> f x = 0) -> (forall x, 0 <= x <= 1 -> f x = g x) -> integral g 0 1 I -> integral f (-1) 1 I.
Proof.
  intros H1 H2 H3. apply (integral_eq _ _ _ (0 * (0 - -1) + I)); [|ring].
  assert (A : integral f (-1) 0 (0 * (0 - -1))). { eapply IntegralP.integral_ext; [|apply const_int]. intros x Hx. rewrite Rmin_left, Rmax_right in Hx by lra. cbv beta. symmetry. apply H1. lra. }
  assert (B : integral f 0 1 I). { eapply IntegralP.integral_ext; [|exact H3]. intros x Hx. rewrite Rmin_left, Rmax_right in Hx by lra. symmetry. apply H2. lra. }
  exact (RInt.is_RInt_Chasles _ (-1) 0 1 _ _ A B).
Qed.
Lemma half_case : exists b, box_init [1; 1; 1] None None = Ok b /\ (forall i, (i < 3)%nat -> 0 < nth i [1; 1; 1] 0) /\
  let ins := fun p => existsb (fun s : vec -> bool => s p) [fun p => Rleb 0 (nth 0 p 0)] in let g := move (pose_rot 3 None) (pose_tr 3 None) in
  box_volume [1; 1; 1] (fun _ => 1) 8 /\ box_volume [1; 1; 1] (fun u => if ins (g u) then 1 else 0) 4 /\ box_volume [1; 1; 1] (fun u => if ins (g u) then nth 0 (g u) 0 else 0) 2.
Proof.
  destruct (box_init_good [1; 1; 1] None None) as [b Hb]; auto; [intros [|[|[|i]]] Hi; cbn in *; try lra; lia|apply is_mat_eye|].
  exists b. split; [exact Hb|]. split; [intros [|[|[|i]]] Hi; cbn; try lra; lia|]. intros ins g.
  assert (EG : forall x y z, nth 0 (g [x; y; z]) 0 = x) by (intros; unfold g; cbn; ring).
  assert (EI : forall x y z, ins (g [x; y; z]) = Rleb 0 x) by (intros; unfold ins; cbn [existsb]; rewrite EG; apply orb_false_r).
  assert (IN : forall (x : R) (k : R -> R), integral2 (-1) 1 (fun _ => -1) (fun _ => 1) (fun _ _ => k x) (4 * k x)).
  { intros x k. exists (fun _ => 2 * k x). split; [intros; eapply integral_eq; [apply const_int|ring]|]. eapply integral_eq; [apply const_int|ring]. }
  assert (BV : forall (F : vec -> R) (k : R -> R) T, (forall x y z, F [x; y; z] = k x) -> integral (fun x => 4 * k x) (-1) 1 T -> box_volume [1; 1; 1] F T).
  { intros F k T E HI. unfold box_volume. replace (- (1)) with (-1) by ring. exists (fun x => 4 * k x). split; [|exact HI]. intros x _. destruct (IN x k) as (G & G1 & G2). exists G. split; [|exact G2]. intros y Hy. eapply IntegralP.integral_ext; [|exact (G1 y Hy)]. intros z _. cbv beta. now rewrite E. }
  split; [|split].
  - apply (BV _ (fun _ => 1)); [reflexivity|]. eapply integral_eq; [apply const_int|ring].
  - apply (BV _ (fun x => if Rleb 0 x then 1 else 0)); [intros; now rewrite EI|]. apply (half_line _ (fun _ => 4)).
    + intros x Hx. unfold Rleb. destruct Rle_dec; [lra|ring].
    + intros x Hx. unfold Rleb. destruct Rle_dec; [ring|lra].
    + eapply integral_eq; [apply const_int|ring].
  - apply (BV _ (fun x => if Rleb 0 x then x else 0)); [intros; now rewrite EI, EG|]. apply (half_line _ (fun x => 4 * x)).
    + intros x Hx. unfold Rleb. destruct Rle_dec; [lra|ring].
    + intros x Hx. unfold Rleb. destruct Rle_dec; [ring|lra].
    + eapply integral_eq; [apply lin_int|field].
Qed.
Lemma capsule_case : exists c k B, cyl_init 2 1 (Some Q0) (Some t0) = Ok c /\ caps_init c = Ok k /\ orthogonal 3 (pose_rot 3 (Some Q0)) /\ / 100000000 < 1 /\
  box_volume [1; 1; (2 + 2 * 1) / 2] (fun u => if caps_contains k (move (pose_rot 3 (Some Q0)) (pose_tr 3 (Some t0)) u) (/ 100000000) then 1 else 0) B.
Proof.
  destruct caps_example as (c & k & Hc & Hk). destruct (caps_volume 2 1 (Some Q0) (Some t0) c k Hc Hk Q0_orth ltac:(lra)) as (A & HA & _). exists c, k, A. repeat split; auto; try apply Q0_orth; lra.
Qed.
