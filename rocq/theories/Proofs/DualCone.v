(** C88: closed convex cones of matrices are cut out by the quadratics that are nonpositive on them. *)
From Coq Require Import Classical.
From Verif Require Import Base.Vec Base.VecFacts Spec.Basic Spec.Objects Spec.Realizable Spec.Shapes Spec.ShapeObjects Spec.PolySpec Spec.Bodies Spec.Quadratic
  Model.Util Model.Constraint Model.Inertial Model.Polydd Model.Poly Model.Box Model.Realize
  Proofs.Coord Proofs.LinAlg Proofs.MatAlg Proofs.InertialP Proofs.Hull Proofs.Compact Proofs.Decomp Proofs.PimP Proofs.SdpP Proofs.VertexP Proofs.SdpSound Proofs.CylP Proofs.Carath Proofs.SdpLimit Proofs.SdpLimitB Proofs.DualBox.

Lemma dot_rr n x y : length x = n -> length y = n -> dot x y = rsum n (fun i => nth i x 0 * nth i y 0).
Proof. intros. now apply dot_rsum. Qed.
Lemma quad_small a b : (forall t, 0 < t <= 1 -> 2 * t * a <= t * t * b) -> a <= 0.
Proof.
  intro H. destruct (Rle_lt_dec a 0) as [|P]; [auto|exfalso]. set (t := Rmin 1 (a / (1 + Rabs b))). pose proof (Rabs_pos b) as Bp. pose proof (Rle_abs b) as Bl. assert (T0 : 0 < a / (1 + Rabs b)) by (apply Rdiv_lt_0_compat; lra).
  assert (Tp : 0 < t) by (apply Rmin_pos; lra). assert (Tl : t <= 1) by apply Rmin_l. assert (Ta : t <= a / (1 + Rabs b)) by apply Rmin_r. specialize (H t (conj Tp Tl)).
  assert (t * (1 + Rabs b) <= a). { apply Rmult_le_compat_r with (r := 1 + Rabs b) in Ta; [|lra]. unfold Rdiv in Ta. rewrite Rmult_assoc, Rinv_l in Ta by lra. lra. }
  assert (2 * a <= t * b) by (apply Rmult_le_reg_l with t; [auto|lra]). assert (t * b <= t * Rabs b) by (apply Rmult_le_compat_l; lra). nra.
Qed.
Lemma cone_sep n (C : vec -> Prop) y : length y = n ->
  (forall a, length a = n -> (forall e, 0 < e -> exists z, length z = n /\ C z /\ near n e z a) -> C a) ->
  (forall x z, length x = n -> length z = n -> C x -> C z -> C (vadd x z)) -> (forall t x, 0 <= t -> length x = n -> C x -> C (vscale t x)) -> C (zeros n) -> ~ C y ->
  exists s, length s = n /\ (forall x, length x = n -> C x -> dot s x <= 0) /\ 0 < dot s y.
Proof.
  intros Ly HC HA HS H0 HN. set (f := fun z => dot (vsub z y) (vsub z y)). set (m := dot y y).
  assert (Lz : length (zeros n) = n) by (unfold zeros; apply repeat_length).
  assert (fz : f (zeros n) = m).
  { unfold f, m. rewrite !(dot_rr n) by (try rewrite vsub_length; congruence). apply rsum_ext. intros i Hi. rewrite nth_vsub by congruence. rewrite nth_zeros. ring. }
  assert (Lf : forall z, length z = n -> length (vsub z y) = n) by (intros z L; rewrite vsub_length; congruence).
  assert (Cf : contR n f).
  { apply (contR_dot n _ _ n); auto; intros i Hi; (apply contR_ext with (g := fun z => nth i z 0 + - nth i y 0); [intros z L; rewrite nth_vsub by congruence; ring|apply contR_plus; [apply contR_nth|apply contR_const]]). }
  assert (K : compact n (fun z => C z /\ f z <= m)).
  { apply (compact_closed n (m + 1 + rsum n (fun i => Rabs (nth i y 0)))).
    - intros z L (_ & Hf) i Hi. rewrite nth_zeros, Rminus_0_r. assert (Q : (nth i z 0 - nth i y 0) * (nth i z 0 - nth i y 0) <= m).
      { eapply Rle_trans; [|exact Hf]. unfold f. rewrite (dot_rr n) by auto. apply Rle_trans with (rsum n (fun j => (if Nat.eqb j i then (nth i z 0 - nth i y 0) * (nth i z 0 - nth i y 0) else 0))).
        - clear - Hi. induction n as [|n IH]; [lia|]. cbn. destruct (Nat.eqb_spec n i) as [->|]; [|specialize (IH ltac:(lia)); lra].
          rewrite (rsum_ext _ _ (fun _ => 0)) by (intros j Hj; destruct (Nat.eqb_spec j i); [lia|reflexivity]). rewrite rsum_zero by auto. lra.
        - apply rsum_le. intros j Hj. rewrite nth_vsub by congruence. destruct (Nat.eqb_spec j i) as [->|]; [lra|]. apply Rle_0_sqr. }
      assert (Y : Rabs (nth i y 0) <= rsum n (fun j => Rabs (nth j y 0))).
      { clear - Hi. induction n as [|n IH]; [lia|]. cbn. assert (0 <= rsum n (fun j => Rabs (nth j y 0))) by (apply rsum_nonneg; intros; apply Rabs_pos). pose proof (Rabs_pos (nth n y 0)). destruct (Nat.eq_dec i n) as [->|]; [lra|]. specialize (IH ltac:(lia)). lra. }
      replace (nth i z 0) with ((nth i z 0 - nth i y 0) + nth i y 0) by ring. eapply Rle_trans; [apply Rabs_triang|]. set (w := nth i z 0 - nth i y 0) in *. assert (Rabs w <= m + 1); [|lra].
      apply Rabs_le. split; nra.
    - intros a La H. split; [apply HC; auto; intros e He; destruct (H e He) as (z & H1 & (H2 & _) & H3); eauto|].
      assert (f a - m <= 0); [|lra]. apply (limit_le n (fun z => f z - m)); auto; [apply contR_plus; [exact Cf|apply contR_const]|]. intros e He. destruct (H e He) as (z & H1 & (_ & H2) & H3). exists z. split; auto. split; [lra|auto]. }
  destruct (compact_min n _ f 0 K Cf) as (p & Lp & (Cp & Fp) & Mp).
  - exists (zeros n). split; [auto|]. split; [auto|rewrite fz; lra].
  - intros z L _. unfold f. rewrite (dot_rr n) by auto. apply rsum_nonneg. intros i Hi. apply Rle_0_sqr.
  - assert (Mp' : forall z, length z = n -> C z -> f p <= f z) by (intros z L Cz; destruct (Rle_lt_dec (f z) m); [apply Mp; auto|lra]). clear Mp K.
    set (s := vsub y p). assert (Ls : length s = n) by (unfold s; rewrite vsub_length; congruence). exists s. split; [exact Ls|].
    assert (Ex : forall t x, length x = n -> f (vadd p (vscale t x)) = f p - 2 * t * dot s x + t * t * dot x x).
    { intros t x Lx. assert (Lv : length (vscale t x) = n) by (rewrite vscale_length; auto). assert (Lw : length (vadd p (vscale t x)) = n) by (rewrite vadd_length; congruence). unfold f, s. rewrite !(dot_rr n) by (auto; rewrite vsub_length; congruence).
      rewrite (rsum_ext _ _ (fun i => nth i (vsub p y) 0 * nth i (vsub p y) 0 + (- (2 * t)) * (nth i (vsub y p) 0 * nth i x 0) + t * t * (nth i x 0 * nth i x 0))).
      - rewrite !rsum_plus, !rsum_scal. ring.
      - intros i Hi. rewrite !nth_vsub by congruence. rewrite nth_vadd by congruence. rewrite nth_vscale. ring. }
    assert (Neg : forall x, length x = n -> C x -> dot s x <= 0).
    { intros x Lx Cx. apply (quad_small _ (dot x x)). intros t Ht. pose proof (Mp' (vadd p (vscale t x))) as M. rewrite Ex in M by auto. assert (f p <= f p - 2 * t * dot s x + t * t * dot x x); [apply M|lra].
      - rewrite vadd_length; rewrite ?vscale_length; congruence. - apply HA; auto; [rewrite vscale_length; auto|]. apply HS; auto; lra. }
    split; [exact Neg|]. assert (Sp : 0 <= dot s p).
    { assert (- dot s p <= 0); [|lra]. apply (quad_small _ (dot p p)). intros t Ht. pose proof (Mp' (vadd p (vscale (- t) p))) as M. rewrite Ex in M by auto. assert (f p <= f p - 2 * - t * dot s p + - t * - t * dot p p); [apply M|lra].
      - rewrite vadd_length; rewrite ?vscale_length; congruence. - replace (vadd p (vscale (- t) p)) with (vscale (1 - t) p); [apply HS; auto; lra|].
        apply (vec_ext n); [rewrite vscale_length; auto|rewrite vadd_length; rewrite ?vscale_length; congruence|]. intros i Hi. rewrite nth_vadd by (rewrite ?vscale_length; congruence). rewrite !nth_vscale. ring. }
    assert (Ey : dot s y = dot s s + dot s p).
    { rewrite !(dot_rr n) by auto. rewrite <- rsum_plus. apply rsum_ext. intros i Hi. unfold s. rewrite nth_vsub by congruence. ring. }
    assert (0 < dot s s); [|lra]. destruct (Rle_lt_dec (dot s s) 0) as [L|]; [exfalso|auto]. apply HN. replace y with p; [exact Cp|]. apply (vec_ext n); auto. intros i Hi.
    assert (Z : forall i, (i < n)%nat -> nth i s 0 * nth i s 0 <= dot s s).
    { intros k Hk. rewrite (dot_rr n) by auto. clear - Hk. induction n as [|n IH]; [lia|]. cbn. assert (0 <= rsum n (fun j => nth j s 0 * nth j s 0)) by (apply rsum_nonneg; intros; apply Rle_0_sqr). pose proof (Rle_0_sqr (nth n s 0)) as Q. unfold Rsqr in Q. destruct (Nat.eq_dec k n) as [->|]; [lra|]. specialize (IH ltac:(lia)). lra. }
    specialize (Z i Hi). unfold s in Z at 1 2. rewrite nth_vsub in Z by congruence. assert (nth i y 0 - nth i p 0 = 0); [|lra]. nra.
Qed.
Definition symS (s : vec) : mat := map (fun i => map (fun j => (nth (4 * i + j) s 0 + nth (4 * j + i) s 0) / 2) (seq 0 4)) (seq 0 4).
Lemma symS_ok s : is_mat 4 4 (symS s) /\ symmetric 4 (symS s).
Proof.
  split.
  - split; [reflexivity|repeat constructor].
  - intros i j Hi Hj. destruct i as [|[|[|[|i]]]]; try lia; destruct j as [|[|[|[|j]]]]; try lia; cbn; lra.
Qed.
Lemma mat16_mat a : is_mat 4 4 (mat16 a).
Proof. split; [reflexivity|repeat constructor]. Qed.
Lemma mat16_vec16 J : is_mat 4 4 J -> mat16 (vec16 J) = J.
Proof. intro HJ. apply (mat_ext 4 4); auto using mat16_mat. intros i j Hi Hj. now rewrite entry_mat16, nth_vec16. Qed.
Lemma dot_symS s x : length s = 16%nat -> length x = 16%nat -> symmetric 4 (mat16 x) -> dot s x = qint (symS s) (mat16 x).
Proof.
  intros Ls Lx SX. rewrite qint_qsum by (try apply symS_ok; auto using mat16_mat). rewrite (dot_rr 16) by auto. unfold qsum.
  assert (Y : forall i j, (i < 4)%nat -> (j < 4)%nat -> nth (4 * j + i) x 0 = nth (4 * i + j) x 0) by (intros i j Hi Hj; rewrite <- !entry_mat16 by auto; apply SX; auto).
  pose proof (Y 0 1 ltac:(lia) ltac:(lia))%nat as Y1. pose proof (Y 0 2 ltac:(lia) ltac:(lia))%nat as Y2. pose proof (Y 0 3 ltac:(lia) ltac:(lia))%nat as Y3. pose proof (Y 1 2 ltac:(lia) ltac:(lia))%nat as Y4. pose proof (Y 1 3 ltac:(lia) ltac:(lia))%nat as Y5. pose proof (Y 2 3 ltac:(lia) ltac:(lia))%nat as Y6.
  cbn [rsum mat16 symS entry map seq nth Nat.mul Nat.add] in *. change (entry ?A ?i ?j) with (nth j (nth i A []) 0). unfold entry. cbn. cbn in Y1, Y2, Y3, Y4, Y5, Y6. rewrite Y1, Y2, Y3, Y4, Y5, Y6. field.
Qed.
Lemma mat_sep (D : mat -> Prop) J : is_mat 4 4 J -> symmetric 4 J ->
  (forall A, is_mat 4 4 A -> symmetric 4 A -> (forall e, 0 < e -> exists A', is_mat 4 4 A' /\ symmetric 4 A' /\ closeJ e A' A /\ D A') -> D A) ->
  (forall A B, is_mat 4 4 A -> symmetric 4 A -> is_mat 4 4 B -> symmetric 4 B -> D A -> D B -> D (madd A B)) -> (forall t A, 0 <= t -> is_mat 4 4 A -> symmetric 4 A -> D A -> D (mscale t A)) -> D (zeros2 4 4) -> ~ D J ->
  exists S, is_mat 4 4 S /\ symmetric 4 S /\ (forall A, is_mat 4 4 A -> symmetric 4 A -> D A -> qint S A <= 0) /\ 0 < qint S J.
Proof.
  intros HJ SJ HC HA HS H0 HN.
  assert (LV : forall M, length (vec16 M) = 16%nat) by (intro M; unfold vec16; now rewrite map_length, seq_length).
  destruct (cone_sep 16 (fun z => symmetric 4 (mat16 z) /\ D (mat16 z)) (vec16 J)) as (s & Ls & Neg & Pos).
  - apply LV.
  - intros a La H. assert (Sy : symmetric 4 (mat16 a)).
    { intros i j Hi Hj. rewrite !entry_mat16 by auto. apply Rminus_diag_uniq. apply Rle_antisym; apply Rnot_lt_le; intro P.
      - destruct (H ((nth (4 * i + j) a 0 - nth (4 * j + i) a 0) / 3) ltac:(lra)) as (z & _ & (Sz & _) & Nz). specialize (Sz i j Hi Hj). rewrite !entry_mat16 in Sz by auto. pose proof (abs_le_inv _ _ (Nz (4 * i + j)%nat ltac:(lia))) as N1. pose proof (abs_le_inv _ _ (Nz (4 * j + i)%nat ltac:(lia))) as N2. lra.
      - destruct (H ((nth (4 * j + i) a 0 - nth (4 * i + j) a 0) / 3) ltac:(lra)) as (z & _ & (Sz & _) & Nz). specialize (Sz i j Hi Hj). rewrite !entry_mat16 in Sz by auto. pose proof (abs_le_inv _ _ (Nz (4 * i + j)%nat ltac:(lia))) as N1. pose proof (abs_le_inv _ _ (Nz (4 * j + i)%nat ltac:(lia))) as N2. lra. }
    split; [exact Sy|]. apply HC; auto using mat16_mat. intros e He. destruct (H e He) as (z & Lz & (Sz & Dz) & Nz). exists (mat16 z). split; [apply mat16_mat|]. split; [exact Sz|]. split; [|exact Dz]. intros i j Hi Hj. rewrite !entry_mat16 by auto. apply Nz. lia.
  - intros x z Lx Lz (S1 & D1) (S2 & D2). assert (E : mat16 (vadd x z) = madd (mat16 x) (mat16 z)).
    { apply (mat_ext 4 4); auto using mat16_mat, is_mat_madd. intros i j Hi Hj. rewrite (entry_madd _ _ 4 4), !entry_mat16 by auto using mat16_mat. apply nth_vadd. congruence. }
    rewrite E. split; [|apply HA; auto using mat16_mat]. intros i j Hi Hj. rewrite !(entry_madd _ _ 4 4) by auto using mat16_mat. now rewrite S1, S2.
  - intros t x Ht Lx (S1 & D1). assert (E : mat16 (vscale t x) = mscale t (mat16 x)).
    { apply (mat_ext 4 4); auto using mat16_mat, is_mat_mscale. intros i j Hi Hj. rewrite entry_mscale, !entry_mat16 by auto. apply nth_vscale. }
    rewrite E. split; [|apply HS; auto using mat16_mat]. intros i j Hi Hj. rewrite !entry_mscale. now rewrite S1.
  - assert (E : mat16 (zeros 16) = zeros2 4 4) by reflexivity. rewrite E. split; [|exact H0]. intros i j Hi Hj. destruct i as [|[|[|[|i]]]]; try lia; destruct j as [|[|[|[|j]]]]; try lia; reflexivity.
  - rewrite mat16_vec16 by auto. tauto.
  - destruct (symS_ok s) as (MS & SS). exists (symS s). split; [auto|]. split; [auto|]. split.
    + intros A MA SA DA. rewrite <- (mat16_vec16 A MA) in SA, DA |- *. rewrite <- dot_symS by auto. apply Neg; auto.
    + rewrite <- (mat16_vec16 J HJ). rewrite <- dot_symS; auto. now rewrite mat16_vec16.
Qed.
