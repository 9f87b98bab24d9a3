(** C99: a quadratic whose extreme value is larger for the vertex constraints of a box than for any
    of its moment problems of order two and above. *)
From Verif Require Import Base.Vec Base.VecFacts Spec.Basic Spec.Objects Spec.Realizable Spec.Moments Spec.Shapes Spec.ShapeObjects Spec.PolySpec Spec.Bodies Spec.Quadratic Spec.Cone
  Model.Util Model.Constraint Model.Inertial Model.Moment Model.Polydd Model.Poly Model.Ellipsoid Model.Box Model.Cylinder Model.Realize Model.RigidBody
  Proofs.Coord Proofs.LinAlg Proofs.MatAlg Proofs.UtilP Proofs.InertialP Proofs.BoxP Proofs.CylP Proofs.PimP Proofs.Hull Proofs.PolynomialP Proofs.BasisP Proofs.SdpP Proofs.MomentP Proofs.VertexP Proofs.SdpSound Proofs.SdpGap Proofs.SdpGapW Proofs.SdpLimit Proofs.SdpLimitB Proofs.SdpLimitW Proofs.SdpClosed Proofs.DualBox Proofs.DualPoly Proofs.CylCustom Proofs.ClosestE Proofs.ExistB Proofs.Decomp Proofs.InertialT Proofs.RealizeE Proofs.RealizeX Proofs.CylExact Proofs.RealizeW.

(** ** moments of degree three as a trilinear form in affine functions; coordinates (x, y, z, 1) *)
Definition mon4 (i : nat) : idx := nth i [[1;0;0]; [0;1;0]; [0;0;1]; [0;0;0]]%nat [].
Definition T3 (ell : idx -> R) (f g k : nat -> R) : R :=
  rsum 4 (fun i => rsum 4 (fun j => rsum 4 (fun l => f i * g j * k l * ell (iadd (mon4 i) (iadd (mon4 j) (mon4 l)))))).
Lemma T3_swap12 ell f g k : T3 ell f g k = T3 ell g f k.
Proof. unfold T3, rsum. cbn. ring. Qed.
Lemma T3_swap23 ell f g k : T3 ell f g k = T3 ell f k g.
Proof. unfold T3, rsum. cbn. ring. Qed.
Definition comb (V : nat -> nat -> R) (al : nat -> R) (i : nat) : R := rsum 4 (fun a => al a * V a i).
Lemma T3_lin ell V al g k : T3 ell (comb V al) g k = rsum 4 (fun a => al a * T3 ell (V a) g k).
Proof. unfold T3, comb, rsum. cbn. ring. Qed.
Lemma T3_comb ell V al be ga : T3 ell (comb V al) (comb V be) (comb V ga) =
  rsum 4 (fun a => rsum 4 (fun b => rsum 4 (fun c => al a * be b * ga c * T3 ell (V a) (V b) (V c)))).
Proof.
  rewrite T3_lin. apply rsum_ext. intros a _. rewrite T3_swap12, T3_lin, <- rsum_scal. apply rsum_ext. intros b _. rewrite T3_swap12, T3_swap23, T3_swap12, T3_lin, <- !rsum_scal. apply rsum_ext. intros c _.
  rewrite (T3_swap12 ell (V c)), (T3_swap23 ell (V a) (V c)). ring.
Qed.
Lemma T3_ext ell f f' g g' k k' : (forall i, (i < 4)%nat -> f i = f' i) -> (forall i, (i < 4)%nat -> g i = g' i) -> (forall i, (i < 4)%nat -> k i = k' i) -> T3 ell f g k = T3 ell f' g' k'.
Proof. intros F G K. unfold T3. apply rsum_ext. intros i Hi. apply rsum_ext. intros j Hj. apply rsum_ext. intros l Hl. now rewrite F, G, K. Qed.
Definition cf (v : vec) (i : nat) : R := nth i v 0.
Lemma QF_T3 ell a b z : length a = 3%nat -> length z = 4%nat -> QF ell a b [nth 3 z 0; nth 0 z 0; nth 1 z 0; nth 2 z 0] = T3 ell (cf (vneg a ++ [b])) (cf z) (cf z).
Proof.
  intros La Lz. destruct (len4_inv _ Lz) as (z0 & z1 & z2 & z3 & ->). destruct (len3_inv a La) as (a0 & a1 & a2 & ->). unfold QF, Qw, quad, hmat. rewrite basis_31. unfold T3, rsum, cf, dot. cbn. ring.
Qed.
(** the quadratic and the nine certificates that its integral is not positive *)
Definition D_cut : mat := [[305; -1291; -2640; 1245]; [-1291; 305; -2640; 1245]; [-2640; -2640; -5120; 2640]; [1245; 1245; 2640; -4645]].
Lemma tri_cut (m : nat -> nat -> nat -> R) : (forall a b c, m a b c = m b a c) -> (forall a b c, m a b c = m a c b) ->
  (forall i s z, (i < 3)%nat -> s = 1 \/ s = -1 -> length z = 4%nat ->
     0 <= rsum 4 (fun a => rsum 4 (fun b => rsum 4 (fun c => (if Nat.eqb a 3 then 1 else if Nat.eqb a i then s else 0) * cf z b * cf z c * m a b c)))) ->
  rsum 4 (fun a => rsum 4 (fun b => entry D_cut a b * m a b 3%nat)) <= 0.
Proof.
  intros S12 S23 H. assert (S321 : forall a b c, m a b c = m c b a) by (intros; rewrite S23, S12, S23; reflexivity).
  pose proof (H 2%nat (-1) [-1; -1; 0; 1] ltac:(lia) ltac:(auto) eq_refl) as H0.
  pose proof (H 0%nat (-1) [1 + 1/40; 3/40; 0; 1] ltac:(lia) ltac:(auto) eq_refl) as H1.
  pose proof (H 0%nat 1 [-1 + 1/40; 3/40; 0; 1] ltac:(lia) ltac:(auto) eq_refl) as H2.
  pose proof (H 1%nat (-1) [3/40; 1 + 1/40; 0; 1] ltac:(lia) ltac:(auto) eq_refl) as H3.
  pose proof (H 1%nat 1 [3/40; -1 + 1/40; 0; 1] ltac:(lia) ltac:(auto) eq_refl) as H4.
  pose proof (H 0%nat (-1) [2 - 1/8; 2 - 1/8; 4; -2 + 1/8] ltac:(lia) ltac:(auto) eq_refl) as H5.
  pose proof (H 0%nat 1 [2 + 1/8; 2 + 1/8; 4; -2 - 1/8] ltac:(lia) ltac:(auto) eq_refl) as H6.
  pose proof (H 1%nat (-1) [2 - 1/8; 2 - 1/8; 4; -2 + 1/8] ltac:(lia) ltac:(auto) eq_refl) as H7.
  pose proof (H 1%nat 1 [2 + 1/8; 2 + 1/8; 4; -2 - 1/8] ltac:(lia) ltac:(auto) eq_refl) as H8. clear H.
  unfold rsum, cf in *. cbn in *.
  assert (E010 : m 0%nat 1%nat 0%nat = m 0%nat 0%nat 1%nat) by (pose proof (S12 0%nat 1%nat 0%nat); pose proof (S23 0%nat 1%nat 0%nat); pose proof (S321 0%nat 1%nat 0%nat); pose proof (S12 0%nat 0%nat 1%nat); pose proof (S23 1%nat 0%nat 0%nat); congruence).
  assert (E020 : m 0%nat 2%nat 0%nat = m 0%nat 0%nat 2%nat) by (pose proof (S12 0%nat 2%nat 0%nat); pose proof (S23 0%nat 2%nat 0%nat); pose proof (S321 0%nat 2%nat 0%nat); pose proof (S12 0%nat 0%nat 2%nat); pose proof (S23 2%nat 0%nat 0%nat); congruence).
  assert (E021 : m 0%nat 2%nat 1%nat = m 0%nat 1%nat 2%nat) by (pose proof (S12 0%nat 2%nat 1%nat); pose proof (S23 0%nat 2%nat 1%nat); pose proof (S321 0%nat 2%nat 1%nat); pose proof (S12 0%nat 1%nat 2%nat); pose proof (S23 2%nat 0%nat 1%nat); congruence).
  assert (E030 : m 0%nat 3%nat 0%nat = m 0%nat 0%nat 3%nat) by (pose proof (S12 0%nat 3%nat 0%nat); pose proof (S23 0%nat 3%nat 0%nat); pose proof (S321 0%nat 3%nat 0%nat); pose proof (S12 0%nat 0%nat 3%nat); pose proof (S23 3%nat 0%nat 0%nat); congruence).
  assert (E031 : m 0%nat 3%nat 1%nat = m 0%nat 1%nat 3%nat) by (pose proof (S12 0%nat 3%nat 1%nat); pose proof (S23 0%nat 3%nat 1%nat); pose proof (S321 0%nat 3%nat 1%nat); pose proof (S12 0%nat 1%nat 3%nat); pose proof (S23 3%nat 0%nat 1%nat); congruence).
  assert (E032 : m 0%nat 3%nat 2%nat = m 0%nat 2%nat 3%nat) by (pose proof (S12 0%nat 3%nat 2%nat); pose proof (S23 0%nat 3%nat 2%nat); pose proof (S321 0%nat 3%nat 2%nat); pose proof (S12 0%nat 2%nat 3%nat); pose proof (S23 3%nat 0%nat 2%nat); congruence).
  assert (E100 : m 1%nat 0%nat 0%nat = m 0%nat 0%nat 1%nat) by (pose proof (S12 1%nat 0%nat 0%nat); pose proof (S23 1%nat 0%nat 0%nat); pose proof (S321 1%nat 0%nat 0%nat); pose proof (S12 1%nat 0%nat 0%nat); pose proof (S23 0%nat 1%nat 0%nat); congruence).
  assert (E101 : m 1%nat 0%nat 1%nat = m 0%nat 1%nat 1%nat) by (pose proof (S12 1%nat 0%nat 1%nat); pose proof (S23 1%nat 0%nat 1%nat); pose proof (S321 1%nat 0%nat 1%nat); pose proof (S12 1%nat 1%nat 0%nat); pose proof (S23 0%nat 1%nat 1%nat); congruence).
  assert (E102 : m 1%nat 0%nat 2%nat = m 0%nat 1%nat 2%nat) by (pose proof (S12 1%nat 0%nat 2%nat); pose proof (S23 1%nat 0%nat 2%nat); pose proof (S321 1%nat 0%nat 2%nat); pose proof (S12 1%nat 2%nat 0%nat); pose proof (S23 0%nat 1%nat 2%nat); congruence).
  assert (E103 : m 1%nat 0%nat 3%nat = m 0%nat 1%nat 3%nat) by (pose proof (S12 1%nat 0%nat 3%nat); pose proof (S23 1%nat 0%nat 3%nat); pose proof (S321 1%nat 0%nat 3%nat); pose proof (S12 1%nat 3%nat 0%nat); pose proof (S23 0%nat 1%nat 3%nat); congruence).
  assert (E110 : m 1%nat 1%nat 0%nat = m 0%nat 1%nat 1%nat) by (pose proof (S12 1%nat 1%nat 0%nat); pose proof (S23 1%nat 1%nat 0%nat); pose proof (S321 1%nat 1%nat 0%nat); pose proof (S12 1%nat 0%nat 1%nat); pose proof (S23 1%nat 1%nat 0%nat); congruence).
  assert (E120 : m 1%nat 2%nat 0%nat = m 0%nat 1%nat 2%nat) by (pose proof (S12 1%nat 2%nat 0%nat); pose proof (S23 1%nat 2%nat 0%nat); pose proof (S321 1%nat 2%nat 0%nat); pose proof (S12 1%nat 0%nat 2%nat); pose proof (S23 2%nat 1%nat 0%nat); congruence).
  assert (E121 : m 1%nat 2%nat 1%nat = m 1%nat 1%nat 2%nat) by (pose proof (S12 1%nat 2%nat 1%nat); pose proof (S23 1%nat 2%nat 1%nat); pose proof (S321 1%nat 2%nat 1%nat); pose proof (S12 1%nat 1%nat 2%nat); pose proof (S23 2%nat 1%nat 1%nat); congruence).
  assert (E130 : m 1%nat 3%nat 0%nat = m 0%nat 1%nat 3%nat) by (pose proof (S12 1%nat 3%nat 0%nat); pose proof (S23 1%nat 3%nat 0%nat); pose proof (S321 1%nat 3%nat 0%nat); pose proof (S12 1%nat 0%nat 3%nat); pose proof (S23 3%nat 1%nat 0%nat); congruence).
  assert (E131 : m 1%nat 3%nat 1%nat = m 1%nat 1%nat 3%nat) by (pose proof (S12 1%nat 3%nat 1%nat); pose proof (S23 1%nat 3%nat 1%nat); pose proof (S321 1%nat 3%nat 1%nat); pose proof (S12 1%nat 1%nat 3%nat); pose proof (S23 3%nat 1%nat 1%nat); congruence).
  assert (E132 : m 1%nat 3%nat 2%nat = m 1%nat 2%nat 3%nat) by (pose proof (S12 1%nat 3%nat 2%nat); pose proof (S23 1%nat 3%nat 2%nat); pose proof (S321 1%nat 3%nat 2%nat); pose proof (S12 1%nat 2%nat 3%nat); pose proof (S23 3%nat 1%nat 2%nat); congruence).
  assert (E200 : m 2%nat 0%nat 0%nat = m 0%nat 0%nat 2%nat) by (pose proof (S12 2%nat 0%nat 0%nat); pose proof (S23 2%nat 0%nat 0%nat); pose proof (S321 2%nat 0%nat 0%nat); pose proof (S12 2%nat 0%nat 0%nat); pose proof (S23 0%nat 2%nat 0%nat); congruence).
  assert (E201 : m 2%nat 0%nat 1%nat = m 0%nat 1%nat 2%nat) by (pose proof (S12 2%nat 0%nat 1%nat); pose proof (S23 2%nat 0%nat 1%nat); pose proof (S321 2%nat 0%nat 1%nat); pose proof (S12 2%nat 1%nat 0%nat); pose proof (S23 0%nat 2%nat 1%nat); congruence).
  assert (E202 : m 2%nat 0%nat 2%nat = m 0%nat 2%nat 2%nat) by (pose proof (S12 2%nat 0%nat 2%nat); pose proof (S23 2%nat 0%nat 2%nat); pose proof (S321 2%nat 0%nat 2%nat); pose proof (S12 2%nat 2%nat 0%nat); pose proof (S23 0%nat 2%nat 2%nat); congruence).
  assert (E203 : m 2%nat 0%nat 3%nat = m 0%nat 2%nat 3%nat) by (pose proof (S12 2%nat 0%nat 3%nat); pose proof (S23 2%nat 0%nat 3%nat); pose proof (S321 2%nat 0%nat 3%nat); pose proof (S12 2%nat 3%nat 0%nat); pose proof (S23 0%nat 2%nat 3%nat); congruence).
  assert (E210 : m 2%nat 1%nat 0%nat = m 0%nat 1%nat 2%nat) by (pose proof (S12 2%nat 1%nat 0%nat); pose proof (S23 2%nat 1%nat 0%nat); pose proof (S321 2%nat 1%nat 0%nat); pose proof (S12 2%nat 0%nat 1%nat); pose proof (S23 1%nat 2%nat 0%nat); congruence).
  assert (E211 : m 2%nat 1%nat 1%nat = m 1%nat 1%nat 2%nat) by (pose proof (S12 2%nat 1%nat 1%nat); pose proof (S23 2%nat 1%nat 1%nat); pose proof (S321 2%nat 1%nat 1%nat); pose proof (S12 2%nat 1%nat 1%nat); pose proof (S23 1%nat 2%nat 1%nat); congruence).
  assert (E212 : m 2%nat 1%nat 2%nat = m 1%nat 2%nat 2%nat) by (pose proof (S12 2%nat 1%nat 2%nat); pose proof (S23 2%nat 1%nat 2%nat); pose proof (S321 2%nat 1%nat 2%nat); pose proof (S12 2%nat 2%nat 1%nat); pose proof (S23 1%nat 2%nat 2%nat); congruence).
  assert (E213 : m 2%nat 1%nat 3%nat = m 1%nat 2%nat 3%nat) by (pose proof (S12 2%nat 1%nat 3%nat); pose proof (S23 2%nat 1%nat 3%nat); pose proof (S321 2%nat 1%nat 3%nat); pose proof (S12 2%nat 3%nat 1%nat); pose proof (S23 1%nat 2%nat 3%nat); congruence).
  assert (E220 : m 2%nat 2%nat 0%nat = m 0%nat 2%nat 2%nat) by (pose proof (S12 2%nat 2%nat 0%nat); pose proof (S23 2%nat 2%nat 0%nat); pose proof (S321 2%nat 2%nat 0%nat); pose proof (S12 2%nat 0%nat 2%nat); pose proof (S23 2%nat 2%nat 0%nat); congruence).
  assert (E221 : m 2%nat 2%nat 1%nat = m 1%nat 2%nat 2%nat) by (pose proof (S12 2%nat 2%nat 1%nat); pose proof (S23 2%nat 2%nat 1%nat); pose proof (S321 2%nat 2%nat 1%nat); pose proof (S12 2%nat 1%nat 2%nat); pose proof (S23 2%nat 2%nat 1%nat); congruence).
  assert (E230 : m 2%nat 3%nat 0%nat = m 0%nat 2%nat 3%nat) by (pose proof (S12 2%nat 3%nat 0%nat); pose proof (S23 2%nat 3%nat 0%nat); pose proof (S321 2%nat 3%nat 0%nat); pose proof (S12 2%nat 0%nat 3%nat); pose proof (S23 3%nat 2%nat 0%nat); congruence).
  assert (E231 : m 2%nat 3%nat 1%nat = m 1%nat 2%nat 3%nat) by (pose proof (S12 2%nat 3%nat 1%nat); pose proof (S23 2%nat 3%nat 1%nat); pose proof (S321 2%nat 3%nat 1%nat); pose proof (S12 2%nat 1%nat 3%nat); pose proof (S23 3%nat 2%nat 1%nat); congruence).
  assert (E232 : m 2%nat 3%nat 2%nat = m 2%nat 2%nat 3%nat) by (pose proof (S12 2%nat 3%nat 2%nat); pose proof (S23 2%nat 3%nat 2%nat); pose proof (S321 2%nat 3%nat 2%nat); pose proof (S12 2%nat 2%nat 3%nat); pose proof (S23 3%nat 2%nat 2%nat); congruence).
  assert (E300 : m 3%nat 0%nat 0%nat = m 0%nat 0%nat 3%nat) by (pose proof (S12 3%nat 0%nat 0%nat); pose proof (S23 3%nat 0%nat 0%nat); pose proof (S321 3%nat 0%nat 0%nat); pose proof (S12 3%nat 0%nat 0%nat); pose proof (S23 0%nat 3%nat 0%nat); congruence).
  assert (E301 : m 3%nat 0%nat 1%nat = m 0%nat 1%nat 3%nat) by (pose proof (S12 3%nat 0%nat 1%nat); pose proof (S23 3%nat 0%nat 1%nat); pose proof (S321 3%nat 0%nat 1%nat); pose proof (S12 3%nat 1%nat 0%nat); pose proof (S23 0%nat 3%nat 1%nat); congruence).
  assert (E302 : m 3%nat 0%nat 2%nat = m 0%nat 2%nat 3%nat) by (pose proof (S12 3%nat 0%nat 2%nat); pose proof (S23 3%nat 0%nat 2%nat); pose proof (S321 3%nat 0%nat 2%nat); pose proof (S12 3%nat 2%nat 0%nat); pose proof (S23 0%nat 3%nat 2%nat); congruence).
  assert (E303 : m 3%nat 0%nat 3%nat = m 0%nat 3%nat 3%nat) by (pose proof (S12 3%nat 0%nat 3%nat); pose proof (S23 3%nat 0%nat 3%nat); pose proof (S321 3%nat 0%nat 3%nat); pose proof (S12 3%nat 3%nat 0%nat); pose proof (S23 0%nat 3%nat 3%nat); congruence).
  assert (E310 : m 3%nat 1%nat 0%nat = m 0%nat 1%nat 3%nat) by (pose proof (S12 3%nat 1%nat 0%nat); pose proof (S23 3%nat 1%nat 0%nat); pose proof (S321 3%nat 1%nat 0%nat); pose proof (S12 3%nat 0%nat 1%nat); pose proof (S23 1%nat 3%nat 0%nat); congruence).
  assert (E311 : m 3%nat 1%nat 1%nat = m 1%nat 1%nat 3%nat) by (pose proof (S12 3%nat 1%nat 1%nat); pose proof (S23 3%nat 1%nat 1%nat); pose proof (S321 3%nat 1%nat 1%nat); pose proof (S12 3%nat 1%nat 1%nat); pose proof (S23 1%nat 3%nat 1%nat); congruence).
  assert (E312 : m 3%nat 1%nat 2%nat = m 1%nat 2%nat 3%nat) by (pose proof (S12 3%nat 1%nat 2%nat); pose proof (S23 3%nat 1%nat 2%nat); pose proof (S321 3%nat 1%nat 2%nat); pose proof (S12 3%nat 2%nat 1%nat); pose proof (S23 1%nat 3%nat 2%nat); congruence).
  assert (E313 : m 3%nat 1%nat 3%nat = m 1%nat 3%nat 3%nat) by (pose proof (S12 3%nat 1%nat 3%nat); pose proof (S23 3%nat 1%nat 3%nat); pose proof (S321 3%nat 1%nat 3%nat); pose proof (S12 3%nat 3%nat 1%nat); pose proof (S23 1%nat 3%nat 3%nat); congruence).
  assert (E320 : m 3%nat 2%nat 0%nat = m 0%nat 2%nat 3%nat) by (pose proof (S12 3%nat 2%nat 0%nat); pose proof (S23 3%nat 2%nat 0%nat); pose proof (S321 3%nat 2%nat 0%nat); pose proof (S12 3%nat 0%nat 2%nat); pose proof (S23 2%nat 3%nat 0%nat); congruence).
  assert (E321 : m 3%nat 2%nat 1%nat = m 1%nat 2%nat 3%nat) by (pose proof (S12 3%nat 2%nat 1%nat); pose proof (S23 3%nat 2%nat 1%nat); pose proof (S321 3%nat 2%nat 1%nat); pose proof (S12 3%nat 1%nat 2%nat); pose proof (S23 2%nat 3%nat 1%nat); congruence).
  assert (E322 : m 3%nat 2%nat 2%nat = m 2%nat 2%nat 3%nat) by (pose proof (S12 3%nat 2%nat 2%nat); pose proof (S23 3%nat 2%nat 2%nat); pose proof (S321 3%nat 2%nat 2%nat); pose proof (S12 3%nat 2%nat 2%nat); pose proof (S23 2%nat 3%nat 2%nat); congruence).
  assert (E323 : m 3%nat 2%nat 3%nat = m 2%nat 3%nat 3%nat) by (pose proof (S12 3%nat 2%nat 3%nat); pose proof (S23 3%nat 2%nat 3%nat); pose proof (S321 3%nat 2%nat 3%nat); pose proof (S12 3%nat 3%nat 2%nat); pose proof (S23 2%nat 3%nat 3%nat); congruence).
  assert (E330 : m 3%nat 3%nat 0%nat = m 0%nat 3%nat 3%nat) by (pose proof (S12 3%nat 3%nat 0%nat); pose proof (S23 3%nat 3%nat 0%nat); pose proof (S321 3%nat 3%nat 0%nat); pose proof (S12 3%nat 0%nat 3%nat); pose proof (S23 3%nat 3%nat 0%nat); congruence).
  assert (E331 : m 3%nat 3%nat 1%nat = m 1%nat 3%nat 3%nat) by (pose proof (S12 3%nat 3%nat 1%nat); pose proof (S23 3%nat 3%nat 1%nat); pose proof (S321 3%nat 3%nat 1%nat); pose proof (S12 3%nat 1%nat 3%nat); pose proof (S23 3%nat 3%nat 1%nat); congruence).
  assert (E332 : m 3%nat 3%nat 2%nat = m 2%nat 3%nat 3%nat) by (pose proof (S12 3%nat 3%nat 2%nat); pose proof (S23 3%nat 3%nat 2%nat); pose proof (S321 3%nat 3%nat 2%nat); pose proof (S12 3%nat 2%nat 3%nat); pose proof (S23 3%nat 3%nat 2%nat); congruence).
  rewrite ?E010, ?E020, ?E021, ?E030, ?E031, ?E032, ?E100, ?E101, ?E102, ?E103, ?E110, ?E120, ?E121, ?E130, ?E131, ?E132, ?E200, ?E201, ?E202, ?E203, ?E210, ?E211, ?E212, ?E213, ?E220, ?E221, ?E230, ?E231, ?E232, ?E300, ?E301, ?E302, ?E303, ?E310, ?E311, ?E312, ?E313, ?E320, ?E321, ?E322, ?E323, ?E330, ?E331, ?E332 in H0, H1, H2, H3, H4, H5, H6, H7, H8 |- *.
  lra.
Qed.

(** ** the box: coordinates in which it is the cube [-1, 1]^3 *)
Definition dg (h : vec) : mat := [[nth 0 h 0; 0; 0; 0]; [0; nth 1 h 0; 0; 0]; [0; 0; nth 2 h 0; 0]; [0; 0; 0; 1]].
Definition ucoord (h : vec) (Q : mat) (c : vec) : mat := mat_mul (dg (map Rinv h)) (inv_T Q c).
Lemma dg_mat h : is_mat 4 4 (dg h).
Proof. split; [reflexivity|]. repeat constructor. Qed.
Lemma ucoord_mat h Q c : is_mat 3 3 Q -> length c = 3%nat -> is_mat 4 4 (ucoord h Q c).
Proof. intros MQ Lc. apply (is_mat_mul 4 4 4); [apply dg_mat|now apply transform_inv_ok|lia]. Qed.
Lemma face_comb h c r b i (s : bool) : box_init h c r = Ok b -> (forall i, (i < 3)%nat -> 0 < nth i h 0) -> (i < 3)%nat ->
  exists a t, length a = 3%nat /\ In (a, t) (combine (b_A b) (b_b b)) /\
  forall k, (k < 4)%nat -> cf (vneg a ++ [t]) k =
    comb (entry (ucoord h (pose_rot 3 r) (pose_tr 3 c))) (fun x => nth i h 0 * (if Nat.eqb x 3 then 1 else if Nat.eqb x i then (if s then 1 else -1) else 0)) k.
Proof.
  intros Hb Ph Hi. apply box_init_inv in Hb as (Lh & _ & E1 & E2 & E3 & MQ & Lc & EA & EB & _). rewrite EB, EA. rewrite EA in EB. clear EB EA. rewrite E3 in *. rewrite E2 in *. clear E1 E2 E3 b.
  pose proof (Ph 0%nat ltac:(lia)) as P0. pose proof (Ph 1%nat ltac:(lia)) as P1. pose proof (Ph 2%nat ltac:(lia)) as P2. clear Ph. destruct (len3_inv h Lh) as (h0 & h1 & h2 & EL). revert MQ Lc. generalize (pose_rot 3 r), (pose_tr 3 c). intros Q t MQ Lc.
  assert (G : forall A B n, (n < length A)%nat -> (n < length B)%nat -> In (nth n A ([] : vec), nth n B 0) (combine A B)).
  { intros A B n HA HB. revert B n HA HB. induction A as [|a A IH]; intros [|x B] [|n] HA HB; cbn in *; try lia; [now left|]. right. apply IH; lia. }
  set (n := (2 * i + (if s then 1 else 0))%nat). assert (Hn : (n < 6)%nat) by (unfold n; destruct s; lia).
  set (A := mat_mul box_normals (transpose Q)). set (B := vadd _ _).
  exists (nth n A []), (nth n B 0). subst A B. subst h. cbn [nth] in P0, P1, P2. destruct_vecs. split; [|split].
  - destruct n as [|[|[|[|[|[|n]]]]]]; try lia; reflexivity.
  - apply G; cbn; lia.
  - intros k Hk. subst n. destruct i as [|[|[|i]]]; try lia; destruct s; destruct k as [|[|[|[|k]]]]; try lia; unfold cf, comb, rsum, ucoord, inv_T, dg, entry; cbn; field; lra.
Qed.
Lemma match_T3 J ell V a b : moments_match J (hmat ell (basis_list 3 2)) -> symmetric 4 J -> (forall i, V 3%nat i = if Nat.eqb i 3 then 1 else 0) ->
  rsum 4 (fun i => rsum 4 (fun j => V a i * entry J i j * V b j)) = T3 ell (V a) (V b) (V 3%nat).
Proof.
  intros (H1 & H2 & H3) SJ HV. rewrite basis_32 in *. pose proof (H2 0%nat ltac:(lia)) as E0. pose proof (H2 1%nat ltac:(lia)) as E1. pose proof (H2 2%nat ltac:(lia)) as E2.
  pose proof (SJ 3%nat 0%nat ltac:(lia) ltac:(lia)) as F0. pose proof (SJ 3%nat 1%nat ltac:(lia) ltac:(lia)) as F1. pose proof (SJ 3%nat 2%nat ltac:(lia) ltac:(lia)) as F2. rewrite E0 in F0. rewrite E1 in F1. rewrite E2 in F2.
  unfold rsum at 1 2. cbn [Nat.add]. unfold rsum. cbn. rewrite H1, E0, E1, E2, F0, F1, F2, !H3 by lia. unfold T3, rsum. cbn. rewrite !HV. cbn. ring.
Qed.
Lemma order2_cut h c r b J P : box_init h c r = Ok b -> orthogonal 3 (pose_rot 3 r) -> (forall i, (i < 3)%nat -> 0 < nth i h 0) -> is_mat 4 4 J -> symmetric 4 J ->
  poly_moment_sdp_constraints (b_poly b) (PVmat J) 0 2 = Ok P -> P -> qint (congm (ucoord h (pose_rot 3 r) (pose_tr 3 c)) D_cut) J <= 0.
Proof.
  intros Hb HQ Ph HJ SJ E HP. destruct (SdpP.box_faces h c r b Hb HQ) as (Hd & LA & HF & HL). rewrite poly_constraints_J in E by auto.
  pose proof (box_init_inv _ _ _ _ Hb) as (Lh & Ph0 & _ & E2 & E3 & MQ & Lc & _). rewrite E3 in MQ. rewrite E2 in Lc.
  assert (HS : forall p, In p (p_polys (b_poly b)) -> poly_small 2 p).
  { intros p Hp. apply p_polys_in in Hp as (i & Hi & ->); [|auto]. destruct (affine_small (nth i (p_A (b_poly b)) []) (nth i (p_b (b_poly b)) 0)) as (O & deg & F1 & F2); [apply LA, nth_In, Hi|apply HF, Hi|]. split; [exact O|]. exists deg. split; [exact F1|lia]. }
  destruct (sdp_for_inv J (p_polys (b_poly b)) 2 P ltac:(lia) HS E HP) as (ell & Hf & Hm). set (U := ucoord h (pose_rot 3 r) (pose_tr 3 c)).
  assert (MU : is_mat 4 4 U) by now apply ucoord_mat. pose proof (is_mat_transpose 4 4 U MU ltac:(lia)) as MUT. assert (MUJ : is_mat 4 4 (mat_mul U J)) by (apply (is_mat_mul 4 4 4); auto; lia).
  assert (MD : is_mat 4 4 D_cut) by (split; [reflexivity|]; repeat constructor). rewrite congm_int by auto.
  assert (ML : is_mat 4 4 (mat_mul (mat_mul U J) (transpose U))) by (apply (is_mat_mul 4 4 4); auto; lia).
  assert (V3 : forall i, entry U 3 i = if Nat.eqb i 3 then 1 else 0).
  { subst U. clear - MQ Lc. revert MQ Lc. generalize (pose_rot 3 r), (pose_tr 3 c). intros Q t MQ Lc i. destruct_vecs. unfold ucoord, inv_T, dg, entry. destruct i as [|[|[|[|i]]]]; cbn; try ring. now destruct i. }
  assert (EL : forall a b, (a < 4)%nat -> (b < 4)%nat -> entry (mat_mul (mat_mul U J) (transpose U)) a b = T3 ell (entry U a) (entry U b) (entry U 3)).
  { intros a b' Ha Hb'. rewrite <- (match_T3 J) by auto. rewrite (entry_mm 4 ltac:(lia)) by auto. rewrite (rsum_ext 4 _ (fun j => rsum 4 (fun i => entry U a i * entry J i j * entry U b' j))).
    - apply rsum_swap.
    - intros j Hj. rewrite (entry_mm 4 ltac:(lia)) by auto. rewrite entry_transpose by (rewrite (is_mat_ncols 4 4); auto; lia). rewrite (Rmult_comm (rsum _ _)), <- rsum_scal. apply rsum_ext. intros i Hi. ring. }
  assert (EQ : qint D_cut (mat_mul (mat_mul U J) (transpose U)) = rsum 4 (fun a => rsum 4 (fun b => entry D_cut a b * T3 ell (entry U a) (entry U b) (entry U 3)))).
  { unfold qint. rewrite (trace_rsum 4) by (apply (is_mat_mul 4 4 4); auto; lia). apply rsum_ext. intros a Ha. rewrite (entry_mm 4 ltac:(lia)) by auto. apply rsum_ext. intros b' Hb'. rewrite EL by auto. rewrite T3_swap12. reflexivity. }
  rewrite EQ. apply (tri_cut (fun a b c => T3 ell (entry U a) (entry U b) (entry U c))).
  - intros. apply T3_swap12.
  - intros. apply T3_swap23.
  - intros i s z Hi Hs Lz. destruct (face_comb h c r b i (if Rlt_dec 0 s then true else false) Hb Ph Hi) as (a & t & La & Hin & Ha). fold U in Ha.
    set (y := map (fun k => comb (entry U) (cf z) k) (seq 0 4)).
    assert (Q : 0 <= QF ell a t [nth 3 y 0; nth 0 y 0; nth 1 y 0; nth 2 y 0]).
    { apply (faces_QF ell (p_A (b_poly b)) (p_b (b_poly b))); auto. exists (pose_tr 3 c). split; [exact Lc|]. apply (halfspaces_box h c r b); auto. exists (zeros 3). split.
      - clear - Lh Ph0. split; [now rewrite Lh|]. intros k Hk. rewrite nth_zeros, Rabs_R0. apply Ph0. lia.
      - revert MQ Lc. clear. generalize (pose_rot 3 r), (pose_tr 3 c). intros Q t MQ Lc. destruct_vecs. unfold move. cbn. list_eq; ring. }
    rewrite QF_T3 in Q by auto. rewrite (T3_ext ell _ _ _ (comb (entry U) (cf z)) _ (comb (entry U) (cf z)) Ha) in Q.
    2, 3: (intros k Hk; unfold y, cf at 1; destruct k as [|[|[|[|k]]]]; try lia; reflexivity).
    rewrite T3_comb in Q. set (S := rsum 4 _) in Q. set (S' := rsum 4 _). assert (ES : S = nth i h 0 * S').
    { unfold S, S'. rewrite <- rsum_scal. apply rsum_ext. intros x Hx. rewrite <- rsum_scal. apply rsum_ext. intros x' Hx'. rewrite <- rsum_scal. apply rsum_ext. intros x'' Hx''.
      destruct Hs as [-> | ->]; [destruct (Rlt_dec 0 1); [|lra]|destruct (Rlt_dec 0 (-1)); [lra|]]; ring. }
    rewrite ES in Q. specialize (Ph i Hi). apply (Rmult_le_reg_l (nth i h 0)); lra.
Qed.
(** ** the matrix accepted by the vertex constraints *)
Definition place (h : vec) (Q : mat) (c : vec) : mat := mat_mul (inv_T (transpose Q) (to_local Q c (zeros 3))) (dg h).
Definition J_star (h : vec) (Q : mat) (c : vec) (m : R) : mat := mscale (m / 4) (mat_mul (mat_mul (place h Q c) J_cut) (transpose (place h Q c))).
Section Star.
Variables (h : vec) (Q : mat) (c : vec).
Hypotheses (Lh : length h = 3%nat) (Ph : forall i, (i < 3)%nat -> 0 < nth i h 0) (HQ : orthogonal 3 Q) (Lc : length c = 3%nat).
Lemma fwd_mat : is_mat 4 4 (inv_T (transpose Q) (to_local Q c (zeros 3))).
Proof. pose proof HQ as (MQ & _). apply transform_inv_ok; [apply is_mat_transpose; [exact MQ|lia]|apply to_local_length, MQ]. Qed.
Lemma place_mat : is_mat 4 4 (place h Q c).
Proof. apply (is_mat_mul 4 4 4); [apply fwd_mat|apply dg_mat|lia]. Qed.
Lemma unit_place : mat_mul (ucoord h Q c) (place h Q c) = eye 4.
Proof.
  pose proof HQ as (MQ & _). destruct (transform_inv_ok Q c MQ Lc) as (_ & MT). pose proof fwd_mat as MF. pose proof (dg_mat h) as MD. pose proof (dg_mat (map Rinv h)) as MD'. unfold ucoord, place.
  rewrite (mat_mul_assoc 4 4 4 4 (dg (map Rinv h)) (inv_T Q c)) by (auto; try lia; apply (is_mat_mul 4 4 4); auto; lia). rewrite <- (mat_mul_assoc 4 4 4 4 (inv_T Q c)) by (auto; lia). rewrite inv_fwd by auto. rewrite (mat_mul_eye_l 4 4) by (auto; lia).
  pose proof (Ph 0%nat ltac:(lia)). pose proof (Ph 1%nat ltac:(lia)). pose proof (Ph 2%nat ltac:(lia)). clear - Lh H H0 H1. destruct (len3_inv h Lh) as (h0 & h1 & h2 & ->). cbn in *. unfold dg. cbn. list_eq; field; lra.
Qed.
Lemma place_point u t : length u = 3%nat -> mat_vec (place h Q c) (u ++ [t]) = vadd (mat_vec Q (vmul h u)) (vscale t c) ++ [t].
Proof.
  intro Lu. pose proof HQ as (MQ & _ & Q2). unfold place. rewrite (mat_vec_mat_mul 4 4 4) by (auto using fwd_mat, dg_mat; rewrite app_length, Lu; reflexivity).
  assert (Ec : mat_vec (mat_mul Q (transpose Q)) c = c) by (rewrite Q2; now apply (mat_vec_eye 3)). revert Ec. unfold to_local, inv_T, dg. clear - MQ Lc Lu Lh. destruct_vecs. cbn. intro Ec. injection Ec as E0 E1 E2.
  apply (f_equal (Rmult t)) in E0, E1, E2. list_eq; lra.
Qed.
Lemma place_in u : in_cube [1; 1; 1] u -> exists x, length x = 3%nat /\ box_set h Q c x /\ mat_vec (place h Q c) (u ++ [1]) = x ++ [1].
Proof.
  intros (Lu & Hu). cbn in Lu. rewrite place_point by auto. rewrite vscale_1. pose proof HQ as (MQ & _). exists (move Q c (vmul h u)). split; [apply move_length; auto|]. split; [|reflexivity]. exists (vmul h u). split; [|reflexivity].
  split; [unfold vmul; rewrite map2_length, Lh, Lu; reflexivity|]. intros i Hi. rewrite Lh in Hi. specialize (Hu i Hi). specialize (Ph i Hi).
  assert (E : nth i (vmul h u) 0 = nth i h 0 * nth i u 0) by (clear - Lh Lu Hi; destruct_vecs; destruct i as [|[|[|i]]]; try lia; reflexivity). rewrite E, Rabs_mult, (Rabs_pos_eq (nth i h 0)) by lra.
  assert (E1 : nth i [1; 1; 1] 0 = 1) by (destruct i as [|[|[|i]]]; try lia; reflexivity). rewrite E1 in Hu. nra.
Qed.
Lemma place_dir S i : is_mat 4 4 S -> (i < 3)%nat -> qdir (congm (place h Q c) S) (nth i (eye 3) []) = nth i h 0 * nth i h 0 * qdir S (col i Q).
Proof.
  intros HS Hi. pose proof HQ as (MQ & _). assert (Le : length (nth i (eye 3) ([] : vec)) = 3%nat) by (destruct i as [|[|[|i]]]; try lia; reflexivity). unfold qdir.
  rewrite congm_quad by (auto using place_mat; rewrite app_length, Le; reflexivity). rewrite place_point by exact Le.
  assert (E : vadd (mat_vec Q (vmul h (nth i (eye 3) []))) (vscale 0 c) ++ [0] = vscale (nth i h 0) (col i Q ++ [0])).
  { clear - MQ Lc Lh Hi. destruct_vecs. destruct i as [|[|[|i]]]; try lia; cbn; list_eq; ring. }
  rewrite E. assert (L4 : length (col i Q ++ [0]) = 4%nat) by (rewrite app_length, col_length3 by auto; reflexivity). clear - HS L4. revert L4. generalize (col i Q ++ [0]), (nth i h 0). intros v k Lv. unfold quad. destruct_vecs. cbn. ring.
Qed.
End Star.
Lemma star_accepted h c r b m : box_init h c r = Ok b -> orthogonal 3 (pose_rot 3 r) -> (forall i, (i < 3)%nat -> 0 < nth i h 0) -> 0 <= m ->
  let J := J_star h (pose_rot 3 r) (pose_tr 3 c) m in PSD 4 J /\ entry J 3 3 = m /\ accepts (box_moment_custom_vertex_constraints b (PVmat J) 0) /\
  qint (congm (ucoord h (pose_rot 3 r) (pose_tr 3 c)) D_cut) J = 45 * m.
Proof.
  intros Hb HQ Ph Hm J. pose proof (box_init_inv _ _ _ _ Hb) as (Lh & _ & _ & E2 & E3 & MQ & Lc & _). rewrite E3 in MQ. rewrite E2 in Lc. set (Q := pose_rot 3 r) in *. set (t := pose_tr 3 c) in *.
  assert (MP : is_mat 4 4 (place h Q t)) by (apply place_mat; auto). pose proof (is_mat_transpose 4 4 _ MP ltac:(lia)) as MPT. destruct J_cut_psd as (MJ & SJ & PJ). set (P := place h Q t) in *.
  set (X := mat_mul (mat_mul P J_cut) (transpose P)). assert (MPJ : is_mat 4 4 (mat_mul P J_cut)) by (apply (is_mat_mul 4 4 4); auto; lia). assert (MX : is_mat 4 4 X) by (apply (is_mat_mul 4 4 4); auto; lia).
  assert (PX : PSD 4 X).
  { apply (PSD_congr 4 4); [split; auto|auto|lia|lia|]. pose proof (congm_sym (transpose P) J_cut MPT MJ SJ) as C. unfold congm in C. rewrite (transpose_involutive 4 4) in C by (auto; lia). exact C. }
  assert (SX : symmetric 4 X) by apply PX.
  assert (PSJ : PSD 4 J) by (split; [now apply is_mat_mscale|]; split; [intros i j Hi Hj; unfold J, J_star; rewrite !entry_mscale; f_equal; now apply SX|]; intros z Lz; unfold J, J_star; rewrite quad_mscale; apply Rmult_le_pos; [lra|now apply PX]).
  split; [exact PSJ|]. split; [|split].
  - unfold J, J_star. rewrite entry_mscale. assert (E : entry X 3 3 = 4); [|unfold X in E; fold P; rewrite E; field].
    unfold X. rewrite (entry_mm 4 ltac:(lia)) by auto. rewrite (rsum_ext 4 _ (fun k => (if Nat.eqb k 3 then 1 else 0) * entry (mat_mul P J_cut) 3 k)).
    2: { intros k Hk. rewrite entry_transpose by (rewrite (is_mat_ncols 4 4); auto; lia). rewrite Rmult_comm. f_equal. unfold P, place, inv_T, to_local, dg. clear - MQ Lc Lh Hk. destruct_vecs. destruct k as [|[|[|[|k]]]]; try lia; unfold entry; cbn; ring. }
    unfold rsum. cbn [Nat.eqb]. rewrite (entry_mm 4 ltac:(lia)) by auto. unfold P, place, inv_T, to_local, dg. clear - MQ Lc Lh. destruct_vecs. unfold rsum, entry, J_cut. cbn. ring.
  - destruct (box_tests_exact h c r b (PVmat J) J 0 Hb HQ eq_refl (proj1 PSJ) ltac:(lra)) as (PP & EP & IP). exists PP. split; [exact EP|]. apply IP. split; [rewrite msub_zero by apply PSJ; exact PSJ|].
    intros S HS SS HD Hq. fold Q in HD, Hq. fold t in Hq. unfold J, J_star. fold P. fold X. rewrite qint_scale by auto. assert (Z : qint S X <= 0); [|nra].
    unfold X. rewrite <- congm_int by auto. destruct s6_shapes as (HQ1 & (b1 & Hb1) & _). destruct (box_cut b1 Hb1) as (P1 & EP1 & HP1).
    destruct (box_tests_exact [1;1;1] None None b1 (PVmat J_cut) J_cut 0 Hb1 HQ1 eq_refl MJ ltac:(lra)) as (P2 & EP2 & IP2). rewrite EP1 in EP2. apply Ok_eq in EP2. subst P2. apply IP2 in HP1 as (_ & HT).
    apply HT; [now apply congm_mat|now apply congm_sym| |].
    + intros i Hi. replace (col i (pose_rot 3 None)) with (nth i (eye 3) []) by (destruct i as [|[|[|i]]]; try lia; reflexivity). unfold P. rewrite place_dir by auto. apply Rmult_le_pos; [specialize (Ph i Hi); nra|now apply HD].
    + intros x Lx (u & Hu & ->). assert (EX : move (pose_rot 3 None) (pose_tr 3 None) u = u) by (destruct Hu as (Lu & _); cbn in Lu; clear - Lu; destruct_vecs; unfold move; cbn; list_eq; ring). rewrite EX in *.
      destruct (place_in h Q t Lh Ph HQ Lc u Hu) as (y & Ly & Hy & EY). unfold qval, P. rewrite congm_quad by (auto; rewrite app_length, Lx; reflexivity). rewrite EY. now apply Hq.
  - unfold J, J_star. fold P. fold X. pose proof (ucoord_mat h Q t MQ Lc) as MU. assert (MD : is_mat 4 4 D_cut) by (split; [reflexivity|]; repeat constructor). rewrite qint_scale by (auto; now apply congm_mat).
    rewrite congm_int by auto. set (U := ucoord h Q t) in *. pose proof (is_mat_transpose 4 4 _ MU ltac:(lia)) as MUT.
    assert (EX : mat_mul (mat_mul U X) (transpose U) = J_cut).
    { transitivity (mat_mul (mat_mul (mat_mul U P) J_cut) (transpose (mat_mul U P))).
      - unfold X. assert (MUP : is_mat 4 4 (mat_mul U P)) by (apply (is_mat_mul 4 4 4); auto; lia). assert (MUPJ : is_mat 4 4 (mat_mul (mat_mul U P) J_cut)) by (apply (is_mat_mul 4 4 4); auto; lia). rewrite (transpose_mat_mul 4 4 4 U P) by (auto; lia).
        rewrite <- (mat_mul_assoc 4 4 4 4 U (mat_mul P J_cut) (transpose P)) by (auto; lia). rewrite <- (mat_mul_assoc 4 4 4 4 U P J_cut) by (auto; lia). rewrite (mat_mul_assoc 4 4 4 4 (mat_mul (mat_mul U P) J_cut)) by (auto; lia). reflexivity.
      - unfold U, P. rewrite unit_place by auto. rewrite transpose_eye, (mat_mul_eye_l 4 4), (mat_mul_eye_r 4 4) by (auto; lia). reflexivity. }
    rewrite EX. unfold qint, J_cut, D_cut. cbn. field.
Qed.
