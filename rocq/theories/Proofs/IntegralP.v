(** Integrals over boxes, cylinders, ellipsoids and their surfaces. *)
From Coq Require Import FunctionalExtensionality.
From Coquelicot Require Import Coquelicot.
From Verif Require Import Proofs.Coord Spec.Basic Spec.Shapes Spec.Objects Spec.Integrals Model.Inertial.

Lemma integral_primitive (F f : R -> R) a b I : (forall x, is_derive F x (f x)) -> (forall x, continuous f x) -> I = F b - F a -> integral f a b I.
Proof. intros H1 H2 ->. exact (is_RInt_derive F f a b (fun x _ => H1 x) (fun x _ => H2 x)). Qed.
Lemma integral_ext f g a b I : (forall x, Rmin a b < x < Rmax a b -> f x = g x) -> integral f a b I -> integral g a b I.
Proof. exact (is_RInt_ext f g a b I). Qed.
Lemma integral_eq f a b I I' : integral f a b I -> I = I' -> integral f a b I'.
Proof. now intros H <-. Qed.
Lemma integral_unique f a b I I' : integral f a b I -> integral f a b I' -> I = I'.
Proof. intros H1 H2. rewrite <- (is_RInt_unique _ _ _ _ H1). exact (is_RInt_unique _ _ _ _ H2). Qed.
Ltac inr := simpl; change (INR 2) with (1 + 1); try change (INR 3) with (1 + 1 + 1); try change (INR 4) with (1 + 1 + 1 + 1).
(** product of two affine functions over a symmetric interval *)
Lemma affine_integral k e A B C D w : integral (fun t => k * ((A + B * t) * (C + D * t) + e)) (- w) w (2 * w * k * (A * C + B * D * (w * w) / 3 + e)).
Proof.
  apply (integral_primitive (fun t => k * ((A * C + e) * t + (A * D + B * C) * t ^ 2 / 2 + B * D * t ^ 3 / 3))).
  - intro x. auto_derive; [easy|]. inr; field.
  - intro x. apply (ex_derive_continuous (fun t => k * ((A + B * t) * (C + D * t) + e))). auto_derive. easy.
  - field.
Qed.
(** ** the half disc *)
Lemma half_disc k0 k1 k2 r : 0 <= r -> integral (fun x => sqrt (r * r - x * x) * (k0 + k1 * x + k2 * (x * x))) (- r) r (PI * (r * r) / 2 * (k0 + k2 * (r * r) / 4)).
Proof.
  intro Hr. set (f := fun x => sqrt (r * r - x * x) * (k0 + k1 * x + k2 * (x * x))).
  assert (Cf : forall x, continuous f x).
  { intro x. unfold f. apply (continuous_mult (fun x => sqrt (r * r - x * x)) (fun x => k0 + k1 * x + k2 * (x * x))).
    - apply continuous_comp; [|apply continuous_sqrt]. apply (ex_derive_continuous (fun x => r * r - x * x)). auto_derive. easy.
    - apply (ex_derive_continuous (fun x => k0 + k1 * x + k2 * (x * x))). auto_derive. easy. }
  pose proof (is_RInt_comp f (fun t => r * sin t) (fun t => r * cos t) (- (PI / 2)) (PI / 2) (fun x _ => Cf _)) as H.
  assert (Ex : ex_RInt f (- r) r) by (apply (ex_RInt_continuous f); intros; apply Cf).
  apply (integral_eq f _ _ (RInt f (- r) r)); [apply (RInt_correct f); exact Ex|].
  cbv beta in H. replace (r * sin (- (PI / 2))) with (- r) in H by (rewrite sin_neg, sin_PI2; ring). replace (r * sin (PI / 2)) with r in H by (rewrite sin_PI2; ring).
  assert (K : integral (fun t => scal (r * cos t) (f (r * sin t))) (- (PI / 2)) (PI / 2) (RInt f (- r) r)).
  { apply H. intros x _. split; [auto_derive; [easy|ring]|]. apply (ex_derive_continuous (fun t => r * cos t)). auto_derive. easy. }
  eapply integral_unique; [exact K|].
  apply (integral_ext (fun t => r * r * (cos t ^ 2 * (k0 + k1 * r * sin t + k2 * (r * r) * sin t ^ 2)))).
  - intros t Ht. pose proof PI_RGT_0. rewrite Rmin_left, Rmax_right in Ht by lra. unfold f. change scal with Rmult. cbv beta.
    pose proof (cos_ge_0 t ltac:(lra) ltac:(lra)) as Hc.
    replace (r * r - r * sin t * (r * sin t)) with ((r * cos t) * (r * cos t)).
    + rewrite sqrt_square by nra. ring.
    + pose proof (sin2_cos2 t) as E. unfold Rsqr in E. nra.
  - apply (integral_primitive (fun t => r * r * (k0 * (t / 2 + sin t * cos t / 2) - k1 * r * (cos t ^ 3 / 3) + k2 * (r * r) * (t / 8 - sin t * cos t * (1 - 2 * sin t ^ 2) / 8)))).
    + intro t. auto_derive; [easy|]. pose proof (sin2_cos2 t) as E. unfold Rsqr in E. assert (E' : sin t ^ 2 = 1 - cos t ^ 2) by (simpl; lra). inr. simpl in E'.
      generalize dependent (sin t). generalize (cos t). intros c s E E'. apply Rminus_diag_uniq.
      transitivity ((1 - c * c - s * s) * (r * r * (k0 / 2 + k2 * r * r * (1 + 2 * s * s) / 8))); [field|].
      replace (1 - c * c - s * s) with 0 by lra. ring.
    + intro t. apply (ex_derive_continuous (fun t => r * r * (cos t ^ 2 * (k0 + k1 * r * sin t + k2 * (r * r) * sin t ^ 2)))). auto_derive. easy.
    + rewrite sin_neg, cos_neg, sin_PI2, cos_PI2. field.
Qed.

(** ** domains *)
Definition affine (a0 a1 a2 a3 : R) (u : vec) : R := a0 + a1 * nth 0 u 0 + a2 * nth 1 u 0 + a3 * nth 2 u 0.
(** volume V and second moments s1, s2, s3 per unit volume of a domain centred at the origin and
    aligned with the axes *)
Definition moments_of (D : domain) (V s1 s2 s3 : R) : Prop :=
  forall a0 a1 a2 a3 b0 b1 b2 b3,
    D (fun u => affine a0 a1 a2 a3 u * affine b0 b1 b2 b3 u) (V * (a0 * b0 + a1 * b1 * s1 + a2 * b2 * s2 + a3 * b3 * s3)).

Lemma box_volume_moments x y z : moments_of (box_volume [x; y; z]) (8 * x * y * z) (x * x / 3) (y * y / 3) (z * z / 3).
Proof.
  intros a0 a1 a2 a3 b0 b1 b2 b3. unfold box_volume, affine. cbn [nth].
  exists (fun a => 4 * y * z * ((a0 + a1 * a) * (b0 + b1 * a) + (a2 * b2 * (y * y) / 3 + a3 * b3 * (z * z) / 3))). split.
  - intros a _. exists (fun b => 2 * z * ((a0 + a1 * a + a2 * b) * (b0 + b1 * a + b2 * b) + a3 * b3 * (z * z) / 3)). split.
    + intros b _. eapply integral_ext; [|eapply integral_eq; [apply (affine_integral 1 0 (a0 + a1 * a + a2 * b) a3 (b0 + b1 * a + b2 * b) b3)|]]; [intros; cbv beta; ring|field].
    + eapply integral_eq; [apply (affine_integral (2 * z) (a3 * b3 * (z * z) / 3) (a0 + a1 * a) a2 (b0 + b1 * a) b2)|]. field.
  - eapply integral_eq; [apply affine_integral|]. field.
Qed.
Lemma face_integral A B C A' B' C' w w' : integral2 (- w) w (fun _ => - w') (fun _ => w') (fun b c => (A + B * b + C * c) * (A' + B' * b + C' * c))
  (4 * w * w' * (A * A' + B * B' * (w * w) / 3 + C * C' * (w' * w') / 3)).
Proof.
  exists (fun b => 2 * w' * ((A + B * b) * (A' + B' * b) + C * C' * (w' * w') / 3)). split.
  - intros b _. eapply integral_ext; [|eapply integral_eq; [apply (affine_integral 1 0 (A + B * b) C (A' + B' * b) C')|]]; [intros; cbv beta; ring|field].
  - eapply integral_eq; [apply affine_integral|]. field.
Qed.
Lemma face_integral' f A B C A' B' C' w w' : (forall b c, f b c = (A + B * b + C * c) * (A' + B' * b + C' * c)) ->
  integral2 (- w) w (fun _ => - w') (fun _ => w') f (4 * w * w' * (A * A' + B * B' * (w * w) / 3 + C * C' * (w' * w') / 3)).
Proof.
  intro H. destruct (face_integral A B C A' B' C' w w') as (F & H1 & H2). exists F. split; [|exact H2]. intros x Hx.
  eapply integral_ext; [|apply (H1 x Hx)]. intros y _. symmetry. apply H.
Qed.
Lemma edge_integral f A B A' B' w : (forall t, f t = (A + B * t) * (A' + B' * t)) -> integral f (- w) w (2 * w * (A * A' + B * B' * (w * w) / 3)).
Proof.
  intro H. eapply integral_ext; [|eapply integral_eq; [apply (affine_integral 1 0 A B A' B')|]].
  - intros t _. rewrite H. ring.
  - field.
Qed.
Lemma sum_cons (P : R -> Prop) l I1 I2 : P I1 -> sum_of l I2 -> sum_of (P :: l) (I1 + I2).
Proof. intros. exists I1, I2. auto. Qed.
Lemma sum_eq l I I' : sum_of l I -> I = I' -> sum_of l I'.
Proof. now intros H <-. Qed.
Lemma sum_nil : sum_of [] 0.
Proof. reflexivity. Qed.

Lemma box_shell_moments x y z : x * y + x * z + y * z <> 0 -> let d := 3 * (x * y + x * z + y * z) in
  moments_of (box_shell [x; y; z]) (8 * (x * y + x * z + y * z)) (x * x * (x * y + x * z + 3 * y * z) / d) (y * y * (x * y + 3 * x * z + y * z) / d)
    (z * z * (3 * x * y + x * z + y * z) / d).
Proof.
  intros Hd d a0 a1 a2 a3 b0 b1 b2 b3. unfold box_shell, affine. cbn [nth]. cbv zeta. eapply sum_eq.
  - apply sum_cons; [apply (face_integral' _ (a0 + a1 * x) a2 a3 (b0 + b1 * x) b2 b3); intros; ring|].
    apply sum_cons; [apply (face_integral' _ (a0 - a1 * x) a2 a3 (b0 - b1 * x) b2 b3); intros; ring|].
    apply sum_cons; [apply (face_integral' _ (a0 + a2 * y) a1 a3 (b0 + b2 * y) b1 b3); intros; ring|].
    apply sum_cons; [apply (face_integral' _ (a0 - a2 * y) a1 a3 (b0 - b2 * y) b1 b3); intros; ring|].
    apply sum_cons; [apply (face_integral' _ (a0 + a3 * z) a1 a2 (b0 + b3 * z) b1 b2); intros; ring|].
    apply sum_cons; [apply (face_integral' _ (a0 - a3 * z) a1 a2 (b0 - b3 * z) b1 b2); intros; ring|].
    apply sum_nil.
  - unfold d. field. exact Hd.
Qed.
Lemma box_frame_moments x y z : x + y + z <> 0 -> let d := x + y + z in
  moments_of (box_frame [x; y; z]) (8 * (x + y + z)) (x * x * (x / 3 + y + z) / d) (y * y * (x + y / 3 + z) / d) (z * z * (x + y + z / 3) / d).
Proof.
  intros Hd d a0 a1 a2 a3 b0 b1 b2 b3. unfold box_frame, affine. cbn [nth]. cbv zeta. eapply sum_eq.
  - apply sum_cons; [apply (edge_integral _ (a0 + a2 * y + a3 * z) a1 (b0 + b2 * y + b3 * z) b1); intros; ring|].
    apply sum_cons; [apply (edge_integral _ (a0 + a2 * y - a3 * z) a1 (b0 + b2 * y - b3 * z) b1); intros; ring|].
    apply sum_cons; [apply (edge_integral _ (a0 - a2 * y + a3 * z) a1 (b0 - b2 * y + b3 * z) b1); intros; ring|].
    apply sum_cons; [apply (edge_integral _ (a0 - a2 * y - a3 * z) a1 (b0 - b2 * y - b3 * z) b1); intros; ring|].
    apply sum_cons; [apply (edge_integral _ (a0 + a1 * x + a3 * z) a2 (b0 + b1 * x + b3 * z) b2); intros; ring|].
    apply sum_cons; [apply (edge_integral _ (a0 + a1 * x - a3 * z) a2 (b0 + b1 * x - b3 * z) b2); intros; ring|].
    apply sum_cons; [apply (edge_integral _ (a0 - a1 * x + a3 * z) a2 (b0 - b1 * x + b3 * z) b2); intros; ring|].
    apply sum_cons; [apply (edge_integral _ (a0 - a1 * x - a3 * z) a2 (b0 - b1 * x - b3 * z) b2); intros; ring|].
    apply sum_cons; [apply (edge_integral _ (a0 + a1 * x + a2 * y) a3 (b0 + b1 * x + b2 * y) b3); intros; ring|].
    apply sum_cons; [apply (edge_integral _ (a0 + a1 * x - a2 * y) a3 (b0 + b1 * x - b2 * y) b3); intros; ring|].
    apply sum_cons; [apply (edge_integral _ (a0 - a1 * x + a2 * y) a3 (b0 - b1 * x + b2 * y) b3); intros; ring|].
    apply sum_cons; [apply (edge_integral _ (a0 - a1 * x - a2 * y) a3 (b0 - b1 * x - b2 * y) b3); intros; ring|].
    apply sum_nil.
  - unfold d. field. exact Hd.
Qed.

Lemma cyl_volume_moments L r : 0 <= r -> moments_of (cyl_volume L r) (PI * (r * r) * L) (r * r / 4) (r * r / 4) (L * L / 12).
Proof.
  intros Hr a0 a1 a2 a3 b0 b1 b2 b3. unfold cyl_volume, affine. cbn [nth].
  exists (fun z => PI * (r * r) * ((a0 + a3 * z) * (b0 + b3 * z) + (a1 * b1 + a2 * b2) * (r * r) / 4)). split.
  - intros z _. exists (fun x => sqrt (r * r - x * x) * (2 * ((a0 + a3 * z) * (b0 + b3 * z)) + 2 * a2 * b2 * (r * r) / 3
        + 2 * ((a0 + a3 * z) * b1 + (b0 + b3 * z) * a1) * x + (2 * a1 * b1 - 2 * a2 * b2 / 3) * (x * x))). split.
    + intros x Hx. set (w := sqrt (r * r - x * x)).
      assert (Ew : w * w = r * r - x * x) by (apply sqrt_sqrt; nra). clearbody w.
      apply (integral_ext (fun t => 1 * ((a0 + a3 * z + a1 * x + a2 * t) * (b0 + b3 * z + b1 * x + b2 * t) + 0))); [intros; ring|].
      eapply integral_eq; [apply affine_integral|].
      rewrite Ew. field.
    + eapply integral_eq; [apply half_disc; exact Hr|]. field.
  - eapply integral_eq; [apply affine_integral|]. field.
Qed.

Lemma ell_volume_moments x y z : 0 < x -> 0 < y -> 0 < z -> moments_of (ell_volume [x; y; z]) (4 / 3 * PI * x * y * z) (x * x / 5) (y * y / 5) (z * z / 5).
Proof.
  intros Hx Hy Hz a0 a1 a2 a3 b0 b1 b2 b3. unfold ell_volume, affine. cbn [nth].
  exists (fun a => PI * y * z * (1 - (a / x) ^ 2) * ((a0 + a1 * a) * (b0 + b1 * a) + (a2 * b2 * (y * y) + a3 * b3 * (z * z)) * (1 - (a / x) ^ 2) / 4)). split.
  - intros a Ha. set (s := 1 - (a / x) ^ 2).
    assert (Hs : 0 <= s).
    { unfold s. enough ((a / x) ^ 2 <= 1) by lra. assert (- 1 <= a / x <= 1); [|simpl; nra]. split.
      - apply Rmult_le_reg_r with x; [exact Hx|]. unfold Rdiv. rewrite Rmult_assoc, Rinv_l by lra. lra.
      - apply Rmult_le_reg_r with x; [exact Hx|]. unfold Rdiv. rewrite Rmult_assoc, Rinv_l by lra. lra. }
    clearbody s. set (w := y * sqrt s). assert (Ew : w * w = y * y * s) by (unfold w; rewrite <- (sqrt_sqrt s Hs) at 3; ring).
    assert (Hw : 0 <= w) by (apply Rmult_le_pos; [lra|apply sqrt_pos]). clearbody w.
    exists (fun b => sqrt (w * w - b * b) * (2 * (z / y) * ((a0 + a1 * a) * (b0 + b1 * a)) + 2 * (z / y) * (a3 * b3 * (z / y) ^ 2 * (w * w) / 3)
       + 2 * (z / y) * ((a0 + a1 * a) * b2 + (b0 + b1 * a) * a2) * b + (2 * (z / y) * (a2 * b2) - 2 * (z / y) * (a3 * b3 * (z / y) ^ 2 / 3)) * (b * b))). split.
    + intros b Hb. assert (P : 0 <= w * w - b * b) by nra.
      assert (Eq : sqrt (s - (b / y) ^ 2) = sqrt (w * w - b * b) / y).
      { replace (s - (b / y) ^ 2) with ((w * w - b * b) / (y * y)) by (rewrite Ew; field; lra).
        rewrite sqrt_div by (auto; nra). rewrite sqrt_square by lra. reflexivity. }
      rewrite Eq. set (v := sqrt (w * w - b * b)). assert (Ev : v * v = w * w - b * b) by (apply sqrt_sqrt; exact P). clearbody v. clear Eq.
      apply (integral_ext (fun t => 1 * ((a0 + a1 * a + a2 * b + a3 * t) * (b0 + b1 * a + b2 * b + b3 * t) + 0))); [intros; ring|].
      eapply integral_eq; [apply affine_integral|].
      replace (z * (v / y) * (z * (v / y))) with ((z / y) ^ 2 * (v * v)) by (field; lra). rewrite Ev. field. lra.
    + eapply integral_eq; [apply half_disc; exact Hw|]. rewrite Ew. field. lra.
  - apply (integral_primitive (fun a => PI * y * z * (
        (a - a ^ 3 / (3 * x ^ 2)) * (a0 * b0) + (a ^ 2 / 2 - a ^ 4 / (4 * x ^ 2)) * (a0 * b1 + a1 * b0) + (a ^ 3 / 3 - a ^ 5 / (5 * x ^ 2)) * (a1 * b1)
        + (a2 * b2 * (y * y) + a3 * b3 * (z * z)) / 4 * (a - 2 * a ^ 3 / (3 * x ^ 2) + a ^ 5 / (5 * x ^ 4))))).
    + intro a. auto_derive; [easy|]. simpl. change (INR 5) with (1 + 1 + 1 + 1 + 1). change (INR 4) with (1 + 1 + 1 + 1). change (INR 3) with (1 + 1 + 1). change (INR 2) with (1 + 1). field. lra.
    + intro a. apply (ex_derive_continuous (fun a => PI * y * z * (1 - (a / x) ^ 2) * ((a0 + a1 * a) * (b0 + b1 * a) + (a2 * b2 * (y * y) + a3 * b3 * (z * z)) * (1 - (a / x) ^ 2) / 4))).
      auto_derive. easy.
    + field. lra.
Qed.

Lemma ell_area_sphere R u phi : 0 <= R -> ell_area [R; R; R] u phi = R * R.
Proof.
  intro H. unfold ell_area. replace ((R * R) ^ 2 * ((1 - u * u) * cos phi ^ 2) + (R * R) ^ 2 * ((1 - u * u) * sin phi ^ 2) + (R * R) ^ 2 * u ^ 2) with ((R * R) * (R * R)).
  - apply sqrt_square. nra.
  - pose proof (sin2_cos2 phi) as E. unfold Rsqr in E. replace (cos phi ^ 2) with (1 - sin phi * sin phi) by (simpl; lra). ring.
Qed.
Lemma sphere_surface_moments R : 0 < R -> moments_of (ell_surface [R; R; R]) (4 * PI * (R * R)) (R * R / 3) (R * R / 3) (R * R / 3).
Proof.
  intros HR a0 a1 a2 a3 b0 b1 b2 b3. unfold ell_surface, affine, ell_point. cbn [vmul map2 nth].
  exists (fun u => PI * (R * R) * (2 * ((a0 + a3 * (R * u)) * (b0 + b3 * (R * u))) + (a1 * b1 + a2 * b2) * (R * R) * (1 - u * u))). split.
  - intros u Hu. set (s := sqrt (1 - u * u)). assert (Es : s * s = 1 - u * u) by (apply sqrt_sqrt; nra). clearbody s.
    set (A := a0 + a3 * (R * u)). set (B := b0 + b3 * (R * u)).
    apply (integral_ext (fun t => (A + a1 * R * s * cos t + a2 * R * s * sin t) * (B + b1 * R * s * cos t + b2 * R * s * sin t) * (R * R))).
    { intros t _. rewrite ell_area_sphere by lra. unfold A, B. ring. }
    clearbody A B.
    apply (integral_primitive (fun t => (A * B * t + (A * (b1 * R * s) + B * (a1 * R * s)) * sin t - (A * (b2 * R * s) + B * (a2 * R * s)) * cos t
         + (a1 * R * s) * (b1 * R * s) * (t / 2 + sin t * cos t / 2) + (a2 * R * s) * (b2 * R * s) * (t / 2 - sin t * cos t / 2)
         + ((a1 * R * s) * (b2 * R * s) + (a2 * R * s) * (b1 * R * s)) * (sin t * sin t / 2)) * (R * R))).
    + intro t. auto_derive; [easy|]. pose proof (sin2_cos2 t) as E. unfold Rsqr in E. generalize dependent (sin t). generalize (cos t). intros c v E.
      apply Rminus_diag_uniq. transitivity ((1 - c * c - v * v) * ((a1 * b1 * R * R * s * s + a2 * b2 * R * R * s * s) / 2 * (R * R))); [field|].
      replace (1 - c * c - v * v) with 0 by lra. ring.
    + intro t. apply (ex_derive_continuous (fun t => (A + a1 * R * s * cos t + a2 * R * s * sin t) * (B + b1 * R * s * cos t + b2 * R * s * sin t) * (R * R))). auto_derive. easy.
    + rewrite sin_2PI, cos_2PI, sin_0, cos_0. rewrite <- Es. field.
  - apply (integral_primitive (fun u => PI * (R * R) * (2 * (a0 * b0 * u + (a0 * b3 + a3 * b0) * R * (u ^ 2 / 2) + a3 * b3 * (R * R) * (u ^ 3 / 3)) + (a1 * b1 + a2 * b2) * (R * R) * (u - u ^ 3 / 3)))).
    + intro a. auto_derive; [easy|]. inr. field.
    + intro a. apply (ex_derive_continuous (fun u => PI * (R * R) * (2 * ((a0 + a3 * (R * u)) * (b0 + b3 * (R * u))) + (a1 * b1 + a2 * b2) * (R * R) * (1 - u * u)))). auto_derive. easy.
    + field.
Qed.
