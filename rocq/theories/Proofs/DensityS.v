(** C58: mass on the surface of an ellipsoid. *)
From Coquelicot Require Import Coquelicot.
From Verif Require Import Base.Vec Base.VecFacts Spec.Basic Spec.Objects Spec.Shapes Spec.ShapeObjects Spec.Integrals
  Model.Util Model.Inertial Model.Polydd Model.Poly Model.Ellipsoid Model.Box Model.Cylinder
  Proofs.Coord Proofs.InertialP Proofs.InertialT Proofs.EllP Proofs.IntegralP Proofs.DensityP.

Lemma sphere_hollow_integral R r c e m : ell_init [R; R; R] r c = Ok e -> 0 < R -> 0 < m ->
  exists p, ell_hollow_density_params e m = Ok p /\ uniform_mass (ell_surface [R; R; R]) m (pose_rot 3 r) (pose_tr 3 c) p.
Proof.
  intros He HR Hm. pose proof (ell_init_inv _ _ _ _ He) as (_ & E1 & E2 & E3 & MQ & LC). cbn [length] in *. rewrite E2, E3 in *.
  eexists. split; [apply (ell_hollow_ok _ _ _ _ _ R R R He); auto; nra|].
  replace (R * R * (R * R + R * R + 3 * R * R) / (5 * (R * R + R * R + R * R))) with (R * R / 3) by (field; nra).
  replace (R * R * (R * R + 3 * R * R + R * R) / (5 * (R * R + R * R + R * R))) with (R * R / 3) by (field; nra).
  replace (R * R * (3 * R * R + R * R + R * R) / (5 * (R * R + R * R + R * R))) with (R * R / 3) by (field; nra).
  apply (uniform_of_moments _ (4 * PI * (R * R))); auto; [apply dom3_ell_surface|now apply sphere_surface_moments|].
  pose proof PI_RGT_0. apply Rmult_lt_0_compat; nra.
Qed.

(** ** the parametrisation and its area element *)
Lemma angle a b s : 0 <= s -> a * a + b * b = s * s -> exists phi, 0 <= phi <= 2 * PI /\ a = s * cos phi /\ b = s * sin phi.
Proof.
  intros Hs H. pose proof PI_RGT_0 as HP. destruct (Req_dec s 0) as [->|Hn].
  { exists 0. assert (a = 0) by nra. assert (b = 0) by nra. subst. split; [lra|]. split; ring. }
  assert (Hs' : 0 < s) by lra. set (a' := a / s). set (b' := b / s).
  assert (Ea : a = s * a') by (unfold a'; field; lra). assert (Eb : b = s * b') by (unfold b'; field; lra).
  assert (H1 : a' * a' + b' * b' = 1) by (unfold a', b'; field_simplify; [|lra]; apply (Rmult_eq_reg_r (s ^ 2)); [field_simplify; lra|nra]).
  clearbody a' b'. assert (Ba : -1 <= a' <= 1) by (split; nra). pose proof (acos_bound a') as HB.
  destruct (Rle_dec 0 b') as [Hb|Hb].
  - exists (acos a'). split; [lra|]. rewrite cos_acos by lra. rewrite sin_acos by lra. split; [exact Ea|].
    replace (1 - a'²) with (b' * b') by (unfold Rsqr; lra). rewrite sqrt_square by lra. exact Eb.
  - exists (2 * PI - acos a'). split; [lra|]. rewrite cos_minus, sin_minus, cos_2PI, sin_2PI, cos_acos, sin_acos by lra. split; [lra|].
    replace (1 - a'²) with ((- b') * (- b')) by (unfold Rsqr; lra). rewrite sqrt_square by lra. lra.
Qed.
Lemma ell_point_surface x y z p :
  ell_boundary [x; y; z] (eye 3) (zeros 3) p <-> exists u phi, -1 <= u <= 1 /\ 0 <= phi <= 2 * PI /\ p = ell_point [x; y; z] u phi.
Proof.
  split.
  - intros (w & Lw & Hw & ->). cbn in Lw. destruct (len3_inv _ Lw) as (a & b & u & ->). cbn in Hw.
    assert (Hu : -1 <= u <= 1) by (split; nra). assert (P : 0 <= 1 - u * u) by nra.
    destruct (angle a b (sqrt (1 - u * u))) as (phi & Hphi & -> & ->); [apply sqrt_pos|rewrite sqrt_sqrt by exact P; lra|].
    exists u, phi. split; [exact Hu|]. split; [exact Hphi|]. rewrite id_move by reflexivity. reflexivity.
  - intros (u & phi & Hu & Hphi & ->). exists [sqrt (1 - u * u) * cos phi; sqrt (1 - u * u) * sin phi; u]. split; [reflexivity|]. split.
    + assert (P : 0 <= 1 - u * u) by nra. pose proof (sqrt_sqrt _ P) as E. pose proof (sin2_cos2 phi) as F. unfold Rsqr in F. cbn.
      generalize dependent (sqrt (1 - u * u)). intros s E. replace (s * cos phi * (s * cos phi) + (s * sin phi * (s * sin phi) + (u * u + 0))) with (s * s * (sin phi * sin phi + cos phi * cos phi) + u * u) by ring.
      rewrite F, E. ring.
    + rewrite id_move by reflexivity. reflexivity.
Qed.
Lemma ell_area_cross x y z u phi : -1 < u < 1 -> exists du dphi,
  curve_derivative (fun s => ell_point [x; y; z] s phi) u du /\ curve_derivative (fun t => ell_point [x; y; z] u t) phi dphi /\
  ell_area [x; y; z] u phi = Vec.norm (cross du dphi).
Proof.
  intros Hu. assert (P : 0 < 1 - u * u) by nra. pose proof (sqrt_lt_R0 _ P) as HS. pose proof (sqrt_sqrt _ (Rlt_le _ _ P)) as E.
  exists [x * (- u / sqrt (1 - u * u) * cos phi); y * (- u / sqrt (1 - u * u) * sin phi); z],
         [x * (- (sqrt (1 - u * u) * sin phi)); y * (sqrt (1 - u * u) * cos phi); 0].
  split; [|split].
  - split; [reflexivity|]. intros i Hi. destruct i as [|[|[|i]]]; try lia; cbn; auto_derive; try (match goal with |- _ = _ => try change (1 + - (u * u)) with (1 - u * u); field; lra end); try (split; auto; lra); auto; ring.
  - split; [reflexivity|]. intros i Hi. destruct i as [|[|[|i]]]; try lia; cbn; auto_derive; try ring; auto.
  - unfold ell_area, Vec.norm. f_equal. cbn. generalize dependent (sqrt (1 - u * u)). intros s HS E. pose proof (sin2_cos2 phi) as F. unfold Rsqr in F.
    generalize dependent (cos phi). generalize (sin phi). intros v w F. rewrite <- E.
    assert (G : x * (- u / s * w) * (y * (s * w)) - y * (- u / s * v) * (x * - (s * v)) = - (x * y * u)).
    { transitivity (- (x * y * u) * (v * v + w * w)); [field; lra|]. rewrite F. ring. }
    rewrite G. ring.
Qed.

(** ** uniqueness of the iterated integrals *)
Lemma integral2_unique a b lo hi f I I' : a <= b -> integral2 a b lo hi f I -> integral2 a b lo hi f I' -> I = I'.
Proof.
  intros Hab (F & HF & HI) (G & HG & HI'). apply (integral_unique F a b); [exact HI|]. apply (integral_ext G); [|exact HI'].
  intros x Hx. rewrite Rmin_left, Rmax_right in Hx by exact Hab. apply (integral_unique (f x) (lo x) (hi x)); [apply HG|apply HF]; lra.
Qed.

(** ** the flat ellipsoid: uniform_density_params is not uniform over the plate *)
Lemma plate_moments x y : 0 < x -> 0 < y -> moments_of (plate x y) (PI * x * y) (x * x / 4) (y * y / 4) 0.
Proof.
  intros Hx Hy a0 a1 a2 a3 b0 b1 b2 b3. unfold plate, affine. cbn [nth].
  exists (fun a => sqrt (x * x - a * a) * ((2 * y / x) * (a0 * b0 + a2 * b2 * (y * y) / 3) + (2 * y / x) * (a0 * b1 + a1 * b0) * a + (2 * y / x) * (a1 * b1 - a2 * b2 * (y * y) / (3 * (x * x))) * (a * a))). split.
  - intros a Ha. assert (P : 0 <= x * x - a * a) by nra.
    assert (Eq : y * sqrt (1 - (a / x) ^ 2) = y / x * sqrt (x * x - a * a)).
    { replace (1 - (a / x) ^ 2) with ((x * x - a * a) / (x * x)) by (field; lra). rewrite sqrt_div by (auto; nra). rewrite sqrt_square by lra. field. lra. }
    rewrite Eq. set (w := sqrt (x * x - a * a)). assert (Ew : w * w = x * x - a * a) by (apply sqrt_sqrt; exact P). clearbody w.
    apply (integral_ext (fun t => 1 * ((a0 + a1 * a + a2 * t) * (b0 + b1 * a + b2 * t) + 0))); [intros; ring|].
    eapply integral_eq; [apply affine_integral|].
    replace (y / x * w * (y / x * w)) with ((y / x) * (y / x) * (w * w)) by ring. rewrite Ew. field. lra.
  - eapply integral_eq; [apply half_disc; lra|]. field. lra.
Qed.
Lemma flat_uniform_refuted x y m e : ell_init [x; y; 0] None None = Ok e -> 0 < x -> 0 < y -> 0 < m ->
  exists p, ell_uniform_density_params e m = Ok p /\ ~ uniform_mass (plate x y) m (eye 3) (zeros 3) p.
Proof.
  intros He Hx Hy Hm. eexists. split; [apply (ell_uniform_ok _ _ _ _ _ He); auto|]. intros (_ & V & HV & HV1 & _ & H2).
  destruct (H2 0%nat 0%nat ltac:(lia) ltac:(lia)) as (X & HX & E). cbn [nth] in E.
  pose proof (plate_moments x y Hx Hy) as K.
  assert (PV : plate x y (fun _ => 1) (PI * x * y)).
  { replace (PI * x * y) with (PI * x * y * (1 * 1 + 0 * 0 * (x * x / 4) + 0 * 0 * (y * y / 4) + 0 * 0 * 0)) by ring.
    apply (dom3_plate x y (fun u => affine 1 0 0 0 u * affine 1 0 0 0 u)); [|apply K]. intros. unfold affine. cbn. ring. }
  assert (PX : plate x y (fun u => nth 0 (move (eye 3) (zeros 3) u) 0 * nth 0 (move (eye 3) (zeros 3) u) 0) (PI * x * y * (x * x / 4))).
  { replace (PI * x * y * (x * x / 4)) with (PI * x * y * (0 * 0 + 1 * 1 * (x * x / 4) + 0 * 0 * (y * y / 4) + 0 * 0 * 0)) by ring.
    apply (dom3_plate x y (fun u => affine 0 1 0 0 u * affine 0 1 0 0 u)); [|apply K]. intros. unfold affine, move. cbn. ring. }
  assert (EV : V = PI * x * y) by (exact (integral2_unique (- x) x _ _ _ _ _ ltac:(lra) HV1 PV)).
  assert (EX : X = PI * x * y * (x * x / 4)) by (exact (integral2_unique (- x) x _ _ _ _ _ ltac:(lra) HX PX)).
  pose proof PI_RGT_0 as HP.
  assert (EE : entry (ip_H (dparams m (x * x / 5) (y * y / 5) (0 * 0 / 5) (pose_rot 3 None) (pose_tr 3 None))) 0 0 = m * (x * x / 5)) by (unfold entry; cbn; field).
  rewrite EE, EX, EV in E. replace (PI * x * y * (x * x / 4) / (PI * x * y)) with (x * x / 4) in E by (field; repeat split; lra).
  assert (0 < m * (x * x)) by (apply Rmult_lt_0_compat; nra). lra.
Qed.

(** ** spheroids *)
Lemma abs_integral f g (c : R) : (forall u, 0 <= u -> f u = g u) -> (forall u, u <= 0 -> f u = g (- u)) -> integral g 0 1 c -> (forall u, continuous g u) -> integral f (-1) 1 (2 * c).
Proof.
  intros H1 H2 Hg Cg. replace (2 * c) with (c + c) by ring.
  apply (is_RInt_Chasles f (-1) 0 1 c c).
  - assert (K : integral (fun u => - g (- u)) (-1) 0 (- c)).
    { assert (K0 : is_RInt (fun u => scal (-1) (g (-1 * u + 0))) (-1) 0 (- c)).
      { apply (is_RInt_comp_lin g (-1) 0 (-1) 0). replace (-1 * -1 + 0) with 1 by ring. replace (-1 * 0 + 0) with 0 by ring. apply (is_RInt_swap g 1 0 c). exact Hg. }
      apply (integral_ext (fun u => scal (-1) (g (-1 * u + 0)))); [|exact K0]. intros u _. change scal with Rmult. cbv beta. replace (-1 * u + 0) with (- u) by ring. ring. }
    apply (integral_ext (fun u => - - g (- u))).
    + rewrite Rmin_left, Rmax_right by lra. intros u Hu. rewrite H2 by lra. ring.
    + pose proof (is_RInt_opp _ _ _ _ K) as K1. replace c with (- - c) by ring. exact K1.
  - apply (integral_ext g); [|exact Hg]. rewrite Rmin_left, Rmax_right by lra. intros u Hu. symmetry. apply H1. lra.
Qed.
Definition slope (a c u : R) : R := sqrt (c * c * (1 - u * u) + a * a * (u * u)).
Lemma slope_arg a c u : 0 < c <= a -> -1 <= u <= 1 -> 0 <= c * c * (1 - u * u) + a * a * (u * u).
Proof. intros Hc Hu. assert (0 <= c * c * (1 - u * u)) by (apply Rmult_le_pos; nra). assert (0 <= a * a * (u * u)) by (apply Rmult_le_pos; nra). lra. Qed.
Lemma slope_bounds a c u : 0 < c <= a -> -1 <= u <= 1 -> a * Rabs u <= slope a c u <= a * Rabs u + c.
Proof.
  intros Hc Hu.
  assert (G : forall v w, 0 <= v -> v <= 1 -> 0 <= w -> w * w = c * c * (1 - v * v) + a * a * (v * v) -> a * v <= w <= a * v + c).
  { intros v w Hv Hv1 S E. assert (0 <= c * c * (1 - v * v)) by (apply Rmult_le_pos; nra). assert (0 <= a * v) by nra.
    assert (0 <= c * c * (v * v)) by (apply Rmult_le_pos; nra). assert (0 <= c * (a * v)) by (apply Rmult_le_pos; lra). split.
    - apply Rnot_lt_le. intro H3. assert (w * w <= (a * v) * w) by (apply Rmult_le_compat_r; lra). assert ((a * v) * w < (a * v) * (a * v)) by (apply Rmult_lt_compat_l; lra). lra.
    - apply Rnot_lt_le. intro H3. assert ((a * v + c) * (a * v + c) < w * w) by (apply Rmult_le_0_lt_compat; lra). lra. }
  assert (Eu : u * u = Rabs u * Rabs u) by (rewrite <- Rabs_mult; symmetry; apply Rabs_pos_eq; nra).
  apply G; [apply Rabs_pos|apply Rabs_le; lra|apply sqrt_pos|]. unfold slope. rewrite sqrt_sqrt by (now apply slope_arg). rewrite Eu. reflexivity.
Qed.
Lemma slope_continuous a c (u : R) : continuous (slope a c) u.
Proof.
  unfold slope. apply (continuous_comp (fun u => c * c * (1 - u * u) + a * a * (u * u)) sqrt); [|apply continuous_sqrt].
  apply (ex_derive_continuous (fun u => c * c * (1 - u * u) + a * a * (u * u))). auto_derive. easy.
Qed.
Lemma ell_area_spheroid a c u phi : 0 <= a -> ell_area [a; a; c] u phi = a * slope a c u.
Proof.
  intro Ha. unfold ell_area, slope. rewrite <- (sqrt_square a Ha) at 5. rewrite <- sqrt_mult_alt by nra. f_equal.
  pose proof (sin2_cos2 phi) as E. unfold Rsqr in E. replace (cos phi ^ 2) with (1 - sin phi * sin phi) by (simpl; lra). ring.
Qed.
Lemma const_phi k : integral (fun _ => k) 0 (2 * PI) (2 * PI * k).
Proof. apply (integral_primitive (fun t => k * t)); [intro t; auto_derive; [easy|ring]|intro; apply continuous_const|ring]. Qed.
Lemma spheroid_refuted a c m e : ell_init [a; a; c] None None = Ok e -> 0 < c -> c <= a / 20 -> 0 < m ->
  exists p, ell_hollow_density_params e m = Ok p /\ ~ uniform_mass (ell_surface [a; a; c]) m (eye 3) (zeros 3) p.
Proof.
  intros He Hc Hca Hm. assert (Ha : 0 < a) by lra. eexists. split; [apply (ell_hollow_ok _ _ _ _ _ a a c He); auto; nra|]. intros (_ & V & HV & HV1 & _ & H2).
  destruct (H2 2%nat 2%nat ltac:(lia) ltac:(lia)) as (X & HX & E). clear H2.
  assert (ex_RInt (slope a c) (-1) 1) as (W0 & I0) by (apply (ex_RInt_continuous (slope a c)); intros; apply slope_continuous).
  assert (ex_RInt (fun u => u * u * slope a c u) (-1) 1) as (W2 & I2).
  { apply (ex_RInt_continuous (fun u => u * u * slope a c u)). intros u _. apply (continuous_mult (fun u => u * u) (slope a c)); [|apply slope_continuous].
    apply (ex_derive_continuous (fun u => u * u)). auto_derive. easy. }
  assert (EV : V = 2 * PI * a * W0).
  { refine (integral2_unique (-1) 1 _ _ _ _ _ _ HV1 _); [lra|]. exists (fun u => 2 * PI * a * slope a c u). split.
    - intros u _. apply (integral_ext (fun _ => a * slope a c u)); [intros phi _; rewrite ell_area_spheroid by lra; ring|]. eapply integral_eq; [apply const_phi|ring].
    - exact (is_RInt_scal (slope a c) (-1) 1 (2 * PI * a) W0 I0). }
  assert (EX : X = 2 * PI * a * (c * c) * W2).
  { refine (integral2_unique (-1) 1 _ _ _ _ _ _ HX _); [lra|]. exists (fun u => 2 * PI * a * (c * c) * (u * u * slope a c u)). split.
    - intros u _. apply (integral_ext (fun _ => a * (c * c) * (u * u * slope a c u))); [intros phi _; rewrite ell_area_spheroid by lra; unfold move, ell_point; cbn; ring|]. eapply integral_eq; [apply const_phi|ring].
    - exact (is_RInt_scal _ (-1) 1 (2 * PI * a * (c * c)) W2 I2). }
  assert (Cid : forall k (u : R), continuous (fun t => k * t) u) by (intros k u; apply (ex_derive_continuous (fun t => k * t)); auto_derive; easy).
  assert (B0 : a <= W0).
  { assert (J : integral (fun u => a * Rabs u) (-1) 1 (2 * (a / 2))).
    { apply (abs_integral _ (fun t => a * t)); [intros; now rewrite Rabs_pos_eq|intros; now rewrite Rabs_left1| |apply Cid].
      apply (integral_primitive (fun t => a * t ^ 2 / 2)); [intro t; auto_derive; [easy|inr; field]|apply Cid|field]. }
    replace a with (2 * (a / 2)) by field. apply (is_RInt_le _ _ (-1) 1 _ _ ltac:(lra) J I0). intros u Hu. apply slope_bounds; lra. }
  assert (B2 : W2 <= a / 2 + 2 * c / 3).
  { assert (J : integral (fun u => u * u * (a * Rabs u + c)) (-1) 1 (2 * (a / 4 + c / 3))).
    { apply (abs_integral _ (fun t => t * t * (a * t + c))); [intros; now rewrite Rabs_pos_eq|intros; rewrite Rabs_left1 by assumption; ring| |].
      - apply (integral_primitive (fun t => a * t ^ 4 / 4 + c * t ^ 3 / 3)); [intro t; auto_derive; [easy|inr; field]| |field].
        intro t. apply (ex_derive_continuous (fun t => t * t * (a * t + c))). auto_derive. easy.
      - intro t. apply (ex_derive_continuous (fun t => t * t * (a * t + c))). auto_derive. easy. }
    replace (a / 2 + 2 * c / 3) with (2 * (a / 4 + c / 3)) by field. apply (is_RInt_le _ _ (-1) 1 _ _ ltac:(lra) I2 J). intros u Hu.
    pose proof (slope_bounds a c u ltac:(lra) ltac:(lra)). apply Rmult_le_compat_l; [nra|lra]. }
  pose proof PI_RGT_0 as HP. assert (HW : 0 < W0) by lra.
  assert (EE : entry (ip_H (dparams m (a * a * (a * a + a * c + 3 * a * c) / (5 * (a * a + a * c + a * c))) (a * a * (a * a + 3 * a * c + a * c) / (5 * (a * a + a * c + a * c)))
    (c * c * (3 * a * a + a * c + a * c) / (5 * (a * a + a * c + a * c))) (pose_rot 3 None) (pose_tr 3 None))) 2 2 = m * (c * c) * ((3 * a + 2 * c) / (5 * (a + 2 * c)))).
  { unfold entry. cbn. field. split; nra. }
  rewrite EE, EX, EV in E.
  replace (m * (2 * PI * a * (c * c) * W2 / (2 * PI * a * W0))) with (m * (c * c) * (W2 / W0)) in E by (field; repeat split; lra).
  apply Rmult_eq_reg_l in E; [|assert (0 < m * (c * c)) by (apply Rmult_lt_0_compat; nra); lra].
  assert (E2 : (3 * a + 2 * c) * W0 = W2 * (5 * (a + 2 * c))).
  { replace W2 with (W2 / W0 * W0) by (field; lra). rewrite <- E. field. lra. }
  assert (L1 : (3 * a + 2 * c) * a <= (3 * a + 2 * c) * W0) by (apply Rmult_le_compat_l; lra).
  assert (L2 : W2 * (5 * (a + 2 * c)) <= (a / 2 + 2 * c / 3) * (5 * (a + 2 * c))) by (apply Rmult_le_compat_r; lra).
  assert (L3 : (3 * a + 2 * c) * a <= (a / 2 + 2 * c / 3) * (5 * (a + 2 * c))) by lra.
  assert (L4 : a * c <= a * (a / 20)) by (apply Rmult_le_compat_l; lra). assert (L5 : c * c <= c * (a / 20)) by (apply Rmult_le_compat_l; lra). assert (0 < a * a) by nra. lra.
Qed.
