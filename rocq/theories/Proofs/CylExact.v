(** C82: the custom constraints of a cylinder are exact. *)
From Verif Require Import Base.Vec Base.VecFacts Spec.Basic Spec.Objects Spec.Realizable Spec.Shapes Spec.ShapeObjects Spec.PolySpec
  Model.Util Model.Constraint Model.Inertial Model.Polydd Model.Poly Model.Box Model.Cylinder Model.Ellipsoid Model.Realize
  Proofs.Coord Proofs.LinAlg Proofs.UtilP Proofs.InertialP Proofs.Hull Proofs.BoxP Proofs.EllP Proofs.CylP Proofs.PolyP Proofs.InertialT Proofs.Decomp Proofs.PimP
  Proofs.RealizeE Proofs.SdpP Proofs.VertexP Proofs.MomentP Proofs.CylCustom Proofs.SdpSound Proofs.RectP.

(** ** point masses in a cylinder along the third axis *)
Definition p3 : Type := (R * (R * R * R))%type.
Definition sum3 (f : R -> R -> R -> R) (s : list p3) : R := lsum (map (fun p : p3 => let '(m, (x, y, z)) := p in m * f x y z) s).
Definition in_cyl (r h : R) (s : list p3) : Prop :=
  forall p, In p s -> let '(m, (x, y, z)) := p in 0 <= m /\ x * x + y * y <= r * r /\ - h <= z <= h.
Definition rep3 (s : list p3) (xx xy yy xz yz zz x y z m : R) : Prop :=
  sum3 (fun x _ _ => x * x) s = xx /\ sum3 (fun x y _ => x * y) s = xy /\ sum3 (fun _ y _ => y * y) s = yy /\
  sum3 (fun x _ z => x * z) s = xz /\ sum3 (fun _ y z => y * z) s = yz /\ sum3 (fun _ _ z => z * z) s = zz /\
  sum3 (fun x _ _ => x) s = x /\ sum3 (fun _ y _ => y) s = y /\ sum3 (fun _ _ z => z) s = z /\ sum3 (fun _ _ _ => 1) s = m.
Definition incyl (r h xx xy yy xz yz zz x y z m : R) : Prop := exists s, in_cyl r h s /\ rep3 s xx xy yy xz yz zz x y z m.
Lemma sum3_app f s t : sum3 f (s ++ t) = sum3 f s + sum3 f t.
Proof. unfold sum3. now rewrite map_app, lsum_app. Qed.
Lemma sum3_cons f m x y z s : sum3 f ((m, (x, y, z)) :: s) = m * f x y z + sum3 f s.
Proof. reflexivity. Qed.
Lemma incyl_eq r h xx xy yy xz yz zz x y z m xx' xy' yy' xz' yz' zz' x' y' z' m' : incyl r h xx xy yy xz yz zz x y z m ->
  xx = xx' -> xy = xy' -> yy = yy' -> xz = xz' -> yz = yz' -> zz = zz' -> x = x' -> y = y' -> z = z' -> m = m' -> incyl r h xx' xy' yy' xz' yz' zz' x' y' z' m'.
Proof. now intros H -> -> -> -> -> -> -> -> -> ->. Qed.
Lemma incyl_zero r h : incyl r h 0 0 0 0 0 0 0 0 0 0.
Proof. exists []. split; [intros p []|]. repeat split; reflexivity. Qed.
Lemma incyl_add r h xx xy yy xz yz zz x y z m xx' xy' yy' xz' yz' zz' x' y' z' m' : incyl r h xx xy yy xz yz zz x y z m -> incyl r h xx' xy' yy' xz' yz' zz' x' y' z' m' ->
  incyl r h (xx + xx') (xy + xy') (yy + yy') (xz + xz') (yz + yz') (zz + zz') (x + x') (y + y') (z + z') (m + m').
Proof.
  intros (s & I & H) (s' & I' & H'). exists (s ++ s'). split.
  - intros p Hp. apply in_app_or in Hp as [Hp|Hp]; [apply I, Hp|apply I', Hp].
  - unfold rep3 in *. rewrite !sum3_app. destruct H as (? & ? & ? & ? & ? & ? & ? & ? & ? & ?), H' as (? & ? & ? & ? & ? & ? & ? & ? & ? & ?). repeat split; congruence.
Qed.
Lemma incyl_point r h m x y z : 0 <= m -> x * x + y * y <= r * r -> - h <= z <= h ->
  incyl r h (m * (x * x)) (m * (x * y)) (m * (y * y)) (m * (x * z)) (m * (y * z)) (m * (z * z)) (m * x) (m * y) (m * z) m.
Proof. intros Hm Hx Hz. exists [(m, (x, y, z))]. split; [intros p [<-|[]]; auto|]. unfold rep3, sum3. cbn. repeat split; ring. Qed.
(** ** more second moment along a horizontal direction: the two ends of the chord *)
Lemma incyl_chord r h m x y z g k t : 0 <= m -> x * x + y * y <= r * r -> - h <= z <= h -> g * g + k * k = 1 -> 0 <= t <= 1 ->
  let d := t * (m * (r * r) - (m * (x * x) + m * (y * y))) in
  incyl r h (m * (x * x) + d * (g * g)) (m * (x * y) + d * (g * k)) (m * (y * y) + d * (k * k)) (m * (x * z)) (m * (y * z)) (m * (z * z)) (m * x) (m * y) (m * z) m.
Proof.
  intros Hm Hr Hz Hg Ht d. set (b := x * g + y * k). set (e := b * b + (r * r - (x * x + y * y))). assert (Pe : 0 <= e) by (unfold e; nra).
  set (q := sqrt e). assert (Eq : q * q = e) by (apply sqrt_sqrt, Pe). assert (Pq : 0 <= q) by apply sqrt_pos.
  destruct (Req_dec q 0) as [Zq|Nq].
  - assert (e = 0) by (rewrite <- Eq, Zq; ring). assert (Z : r * r - (x * x + y * y) = 0) by (unfold e in *; nra).
    assert (d = 0) as -> by (unfold d; replace (m * (r * r) - (m * (x * x) + m * (y * y))) with (m * (r * r - (x * x + y * y))) by ring; rewrite Z; ring).
    eapply incyl_eq; [apply (incyl_point r h m x y z); auto|ring..].
  - assert (P : 0 < q) by lra. assert (B1 : - q <= b <= q) by (split; unfold e in *; nra).
    assert (E1 : forall u, (u + b) * (u + b) = e -> (x + u * g) * (x + u * g) + (y + u * k) * (y + u * k) = r * r).
    { intros u Hu. replace ((x + u * g) * (x + u * g) + (y + u * k) * (y + u * k)) with (x * x + y * y + 2 * u * b + u * u * (g * g + k * k)) by (unfold b; ring). rewrite Hg. unfold e in Hu. lra. }
    assert (C1 : (x + (q - b) * g) * (x + (q - b) * g) + (y + (q - b) * k) * (y + (q - b) * k) <= r * r) by (right; apply E1; rewrite <- Eq; ring).
    assert (C2 : (x + (- q - b) * g) * (x + (- q - b) * g) + (y + (- q - b) * k) * (y + (- q - b) * k) <= r * r) by (right; apply E1; rewrite <- Eq; ring).
    assert (Iq : 0 <= / (2 * q)) by (apply Rlt_le, Rinv_0_lt_compat; lra).
    assert (M1 : 0 <= t * m * (q + b) / (2 * q)) by (apply Rmult_le_pos; [apply Rmult_le_pos; [apply Rmult_le_pos|]; lra|auto]).
    assert (M2 : 0 <= t * m * (q - b) / (2 * q)) by (apply Rmult_le_pos; [apply Rmult_le_pos; [apply Rmult_le_pos|]; lra|auto]).
    assert (M0 : 0 <= (1 - t) * m) by (apply Rmult_le_pos; lra).
    assert (Ed : d = t * m * ((q - b) * (q + b))) by (unfold d; replace ((q - b) * (q + b)) with (q * q - b * b) by ring; rewrite Eq; unfold e; ring).
    eapply incyl_eq; [exact (incyl_add _ _ _ _ _ _ _ _ _ _ _ _ _ _ _ _ _ _ _ _ _ _ (incyl_point r h _ x y z M0 Hr Hz)
      (incyl_add _ _ _ _ _ _ _ _ _ _ _ _ _ _ _ _ _ _ _ _ _ _ (incyl_point r h _ _ _ z M1 C1 Hz) (incyl_point r h _ _ _ z M2 C2 Hz)))|..];
    rewrite ?Ed; clearbody q b; field; lra.
Qed.
Lemma incyl_spread r h xx xy yy xz yz zz x y z m g k d : incyl r h xx xy yy xz yz zz x y z m -> g * g + k * k = 1 -> 0 <= d -> xx + yy + d <= r * r * m ->
  incyl r h (xx + d * (g * g)) (xy + d * (g * k)) (yy + d * (k * k)) xz yz zz x y z m.
Proof.
  intros (s & I & HR) Hg Hd HA. destruct (Req_dec d 0) as [->|Nd].
  { eapply incyl_eq; [exists s; split; [exact I|exact HR]|ring..]. }
  assert (G : forall t, 0 <= t <= 1 -> let e := t * (m * (r * r) - (xx + yy)) in incyl r h (xx + e * (g * g)) (xy + e * (g * k)) (yy + e * (k * k)) xz yz zz x y z m).
  { intros t Ht. clear Hd HA Nd d. revert xx xy yy xz yz zz x y z m HR. induction s as [|[w [[px py] pz]] s IH]; intros xx xy yy xz yz zz x y z m (H1 & H2 & H3 & H4 & H5 & H6 & H7 & H8 & H9 & H10) e.
    - cbn in *. subst. eapply incyl_eq; [apply incyl_zero|unfold e; ring..].
    - rewrite sum3_cons in *. destruct (I _ (or_introl eq_refl)) as (Pw & Pr & Pz).
      specialize (IH (fun p Hp => I p (or_intror Hp)) _ _ _ _ _ _ _ _ _ _ (conj eq_refl (conj eq_refl (conj eq_refl (conj eq_refl (conj eq_refl (conj eq_refl (conj eq_refl (conj eq_refl (conj eq_refl eq_refl)))))))))).
      cbv zeta in IH. pose proof (incyl_chord r h w px py pz g k t Pw Pr Pz Hg Ht) as P1. cbv zeta in P1.
      eapply incyl_eq; [exact (incyl_add _ _ _ _ _ _ _ _ _ _ _ _ _ _ _ _ _ _ _ _ _ _ P1 IH)|..]; unfold e; subst; ring. }
  assert (P : 0 < m * (r * r) - (xx + yy)) by lra.
  assert (Ht : 0 <= d / (m * (r * r) - (xx + yy)) <= 1).
  { split; [apply Rmult_le_pos; [auto|apply Rlt_le, Rinv_0_lt_compat, P]|]. apply Rmult_le_reg_r with (m * (r * r) - (xx + yy)); auto. unfold Rdiv. rewrite Rmult_assoc, Rinv_l by lra. lra. }
  eapply incyl_eq; [apply (G _ Ht)|..]; try reflexivity; field; lra.
Qed.
(** ** a direction in which the two end disks agree *)
Lemma common_chord r m1 m2 a1 b1 a2 b2 : 0 <= r -> 0 <= m1 -> 0 <= m2 -> a1 * a1 + b1 * b1 <= r * r * (m1 * m1) -> a2 * a2 + b2 * b2 <= r * r * (m2 * m2) ->
  exists u v k, u * u + v * v = 1 /\ k * k <= r * r /\ u * a1 + v * b1 = k * m1 /\ u * a2 + v * b2 = k * m2.
Proof.
  intros Hr H1 H2 K1 K2.
  assert (G : forall u v m a b, u * u + v * v = 1 -> 0 < m -> a * a + b * b <= r * r * (m * m) -> ((u * a + v * b) / m) * ((u * a + v * b) / m) <= r * r).
  { clear. intros u v m a b Hu Hm H. apply Rmult_le_reg_r with (m * m); [nra|]. replace ((u * a + v * b) / m * ((u * a + v * b) / m) * (m * m)) with ((u * a + v * b) * (u * a + v * b)) by (field; lra).
    pose proof (Rle_0_sqr (u * b - v * a)) as S. unfold Rsqr in S.
    assert ((u * a + v * b) * (u * a + v * b) + (u * b - v * a) * (u * b - v * a) = (u * u + v * v) * (a * a + b * b)) as E by ring. rewrite Hu in E. lra. }
  assert (Z : forall m a b, m = 0 -> a * a + b * b <= r * r * (m * m) -> a = 0 /\ b = 0) by (clear; intros m a b -> H; split; nra).
  destruct (Rle_lt_or_eq_dec _ _ H1) as [P1|P1].
  - set (X := m2 * a1 - m1 * a2). set (Y := m2 * b1 - m1 * b2). destruct (Req_dec (X * X + Y * Y) 0) as [W|W].
    + assert (X = 0 /\ Y = 0) as (EX & EY) by (split; nra). exists 0, 1, (b1 / m1). split; [ring|]. split; [|split].
      * replace (b1 / m1) with ((0 * a1 + 1 * b1) / m1) by (field; lra). apply G; auto. ring.
      * field. lra.
      * apply (Rmult_eq_reg_l m1); [|lra]. unfold Y in EY. replace (m1 * (b1 / m1 * m2)) with (b1 * m2) by (field; lra). lra.
    + assert (PW : 0 < X * X + Y * Y) by nra. set (n := sqrt (X * X + Y * Y)). assert (En : n * n = X * X + Y * Y) by (apply sqrt_sqrt; lra).
      assert (Pn : 0 < n) by (apply sqrt_lt_R0, PW). assert (U : (- Y / n) * (- Y / n) + (X / n) * (X / n) = 1).
      { replace (- Y / n * (- Y / n) + X / n * (X / n)) with ((X * X + Y * Y) / (n * n)) by (field; lra). rewrite En. field. lra. }
      exists (- Y / n), (X / n), ((- Y / n * a1 + X / n * b1) / m1). split; [exact U|]. split; [now apply G|]. split; [field; lra|].
      apply (Rmult_eq_reg_l m1); [|lra]. transitivity (m2 * (- Y / n * a1 + X / n * b1)); [|field; lra].
      apply Rminus_diag_uniq. replace (m1 * (- Y / n * a2 + X / n * b2) - m2 * (- Y / n * a1 + X / n * b1)) with (/ n * (Y * X - X * Y)) by (unfold X, Y; field; lra). ring.
  - symmetry in P1. destruct (Z m1 a1 b1 P1 K1) as (-> & ->). subst m1. destruct (Rle_lt_or_eq_dec _ _ H2) as [P2|P2].
    + exists 0, 1, (b2 / m2). split; [ring|]. split; [|split; [ring|field; lra]]. replace (b2 / m2) with ((0 * a2 + 1 * b2) / m2) by (field; lra). apply G; auto. ring.
    + symmetry in P2. destruct (Z m2 a2 b2 P2 K2) as (-> & ->). subst m2. exists 0, 1, 0. split; [ring|]. split; [nra|]. split; ring.
Qed.
(** ** from a vertical section to the cylinder *)
Lemma incyl_lift r h l k u v A B C D E m : 0 <= l -> u * u + v * v = 1 -> l * l + k * k <= r * r -> inrect l h A B C D E m ->
  incyl r h (v * v * A + 2 * (k * u * v * D) + k * k * u * u * m) (- (u * v * A) + k * (v * v - u * u) * D + k * k * u * v * m) (u * u * A - 2 * (k * u * v * D) + k * k * v * v * m)
    (v * B + k * u * E) (- (u * B) + k * v * E) C (v * D + k * u * m) (- (u * D) + k * v * m) E m.
Proof.
  intros Hl Hu Hr (s & I & HR). revert A B C D E m HR. induction s as [|[w [x z]] s IH]; intros A B C D E m (H1 & H2 & H3 & H4 & H5 & H6).
  - cbn in *. subst. eapply incyl_eq; [apply incyl_zero|ring..].
  - rewrite sum2_cons in *. cbn [fst snd] in *. destruct (I _ (or_introl eq_refl)) as (Pw & Px & Pz). cbn [fst snd] in *.
    specialize (IH (fun p Hp => I p (or_intror Hp)) _ _ _ _ _ _ (conj eq_refl (conj eq_refl (conj eq_refl (conj eq_refl (conj eq_refl eq_refl)))))).
    assert (Q : (v * x + k * u) * (v * x + k * u) + (- (u * x) + k * v) * (- (u * x) + k * v) <= r * r).
    { replace ((v * x + k * u) * (v * x + k * u) + (- (u * x) + k * v) * (- (u * x) + k * v)) with ((u * u + v * v) * (x * x + k * k)) by ring. rewrite Hu. nra. }
    eapply incyl_eq; [exact (incyl_add _ _ _ _ _ _ _ _ _ _ _ _ _ _ _ _ _ _ _ _ _ _ (incyl_point r h w _ _ z Pw Q Pz) IH)|..]; subst; ring.
Qed.
Definition form4 (xx xy yy xz yz zz x y z m a b c d : R) : R :=
  xx * (a * a) + 2 * (xy * (a * b)) + yy * (b * b) + 2 * (xz * (a * c)) + 2 * (yz * (b * c)) + zz * (c * c) + 2 * (x * (a * d)) + 2 * (y * (b * d)) + 2 * (z * (c * d)) + m * (d * d).
Lemma cross_zero p q : (forall t, 0 <= 2 * t * q + t * t * p) -> q = 0.
Proof.
  intros H. destruct (Req_dec q 0) as [|N]; [auto|]. exfalso. assert (Q : 0 < q * q) by nra.
  destruct (Rle_dec p 0) as [P|P]; [specialize (H (- q)); nra|]. specialize (H (- q / (p + 1))).
  replace (2 * (- q / (p + 1)) * q + - q / (p + 1) * (- q / (p + 1)) * p) with (- (q * q) * ((p + 2) / ((p + 1) * (p + 1)))) in H by (field; lra).
  assert (0 < (p + 2) / ((p + 1) * (p + 1))) by (apply Rdiv_lt_0_compat; nra). nra.
Qed.
Lemma cyl_core r h m1 m2 a1 b1 a2 b2 xx xy yy xz yz zz x y z m : 0 <= r -> 0 <= h -> 0 <= m1 -> 0 <= m2 ->
  a1 * a1 + b1 * b1 <= r * r * (m1 * m1) -> a2 * a2 + b2 * b2 <= r * r * (m2 * m2) ->
  m = m1 + m2 -> x = a1 + a2 -> y = b1 + b2 -> z = h * (m1 - m2) -> xz = h * (a1 - a2) -> yz = h * (b1 - b2) ->
  xx + yy <= r * r * m -> zz <= h * h * m -> (forall a b c d, 0 <= form4 xx xy yy xz yz zz x y z m a b c d) -> incyl r h xx xy yy xz yz zz x y z m.
Proof.
  intros Hr Hh P1 P2 K1 K2 Em Ex Ey Ez Exz Eyz HT HZ HP. destruct (common_chord r m1 m2 a1 b1 a2 b2 Hr P1 P2 K1 K2) as (u & v & k & Hu & Hk & C1 & C2).
  set (l := sqrt (r * r - k * k)). assert (El : l * l = r * r - k * k) by (apply sqrt_sqrt; lra). assert (Pl : 0 <= l) by apply sqrt_pos.
  assert (Zw : u * x + v * y - k * m = 0) by (subst; lra). assert (Zz : u * xz + v * yz - k * z = 0).
  { subst. replace (u * (h * (a1 - a2)) + v * (h * (b1 - b2)) - k * (h * (m1 - m2))) with (h * ((u * a1 + v * b1 - k * m1) - (u * a2 + v * b2 - k * m2))) by ring. rewrite C1, C2. ring. }
  set (g := xx * u + xy * v - k * x). set (e := xy * u + yy * v - k * y). set (t := u * g + v * e).
  assert (Ft : form4 xx xy yy xz yz zz x y z m u v 0 (- k) = t).
  { unfold t, g, e, form4. apply Rminus_diag_uniq. ring_simplify. replace 0 with (- k * (u * x + v * y - k * m)) by (rewrite Zw; ring). ring. }
  assert (Pt : 0 <= t) by (rewrite <- Ft; apply HP).
  assert (FF : forall a b c d w, form4 xx xy yy xz yz zz x y z m (a - w * u) (b - w * v) c (d + w * k) = form4 xx xy yy xz yz zz x y z m a b c d - 2 * w * (a * g + b * e) + w * w * t).
  { intros a b c d w. rewrite <- Ft. transitivity (form4 xx xy yy xz yz zz x y z m a b c d - 2 * w * (a * g + b * e + c * (u * xz + v * yz - k * z) + d * (u * x + v * y - k * m))
      + w * w * form4 xx xy yy xz yz zz x y z m u v 0 (- k)); [unfold form4, g, e; ring|]. rewrite Zw, Zz. ring. }
  set (D := v * x - u * y). set (B := v * xz - u * yz). set (A := v * v * xx - 2 * (u * v * xy) + u * u * yy).
  assert (L1 : forall a b m', 0 <= m' -> a * a + b * b <= r * r * (m' * m') -> u * a + v * b = k * m' -> - (l * m') <= v * a - u * b <= l * m').
  { clear - El Hu Pl. intros a b m' Hm H E. assert (S : (v * a - u * b) * (v * a - u * b) <= (l * m') * (l * m')).
    { replace ((l * m') * (l * m')) with ((l * l) * (m' * m')) by ring. rewrite El.
      replace ((v * a - u * b) * (v * a - u * b)) with ((u * u + v * v) * (a * a + b * b) - (u * a + v * b) * (u * a + v * b)) by ring. rewrite Hu, E. lra. }
    assert (0 <= l * m') by (apply Rmult_le_pos; auto). split; nra. }
  pose proof (L1 a1 b1 m1 P1 K1 C1) as J1. pose proof (L1 a2 b2 m2 P2 K2 C2) as J2. clear L1.
  assert (Pr : 0 <= l * h * m - l * z - h * D + B /\ 0 <= l * h * m + l * z - h * D - B /\ 0 <= l * h * m - l * z + h * D - B /\ 0 <= l * h * m + l * z + h * D + B).
  { unfold D, B. subst. repeat split.
    - replace (l * h * (m1 + m2) - l * (h * (m1 - m2)) - h * (v * (a1 + a2) - u * (b1 + b2)) + (v * (h * (a1 - a2)) - u * (h * (b1 - b2)))) with (2 * h * (l * m2 - (v * a2 - u * b2))) by ring. apply Rmult_le_pos; lra.
    - replace (l * h * (m1 + m2) + l * (h * (m1 - m2)) - h * (v * (a1 + a2) - u * (b1 + b2)) - (v * (h * (a1 - a2)) - u * (h * (b1 - b2)))) with (2 * h * (l * m1 - (v * a1 - u * b1))) by ring. apply Rmult_le_pos; lra.
    - replace (l * h * (m1 + m2) - l * (h * (m1 - m2)) + h * (v * (a1 + a2) - u * (b1 + b2)) - (v * (h * (a1 - a2)) - u * (h * (b1 - b2)))) with (2 * h * (l * m2 + (v * a2 - u * b2))) by ring. apply Rmult_le_pos; lra.
    - replace (l * h * (m1 + m2) + l * (h * (m1 - m2)) + h * (v * (a1 + a2) - u * (b1 + b2)) + (v * (h * (a1 - a2)) - u * (h * (b1 - b2)))) with (2 * h * (l * m1 + (v * a1 - u * b1))) by ring. apply Rmult_le_pos; lra. }
  clear J1 J2. assert (Etr : xx + yy = A + t + k * k * m).
  { transitivity ((u * u + v * v) * (xx + yy)); [rewrite Hu; ring|]. unfold A, t, g, e. replace (k * k * m) with (k * (u * x + v * y)) by (replace (u * x + v * y) with (k * m) by lra; ring). ring. }
  set (f := v * g - u * e).
  assert (Hf : forall Ae, psd3 Ae B zz D z m -> Ae <= l * l * m -> incyl r h (v * v * Ae + 2 * (k * u * v * D) + k * k * u * u * m) (- (u * v * Ae) + k * (v * v - u * u) * D + k * k * u * v * m)
     (u * u * Ae - 2 * (k * u * v * D) + k * k * v * v * m) xz yz zz x y z m).
  { intros Ae Q1 Q2. eapply incyl_eq; [apply (incyl_lift r h l k u v Ae B zz D z m Pl Hu ltac:(lra)); apply rect_exact; auto; split; [exact Q1|tauto]|..]; try reflexivity.
    - unfold B. replace (k * u * z) with (u * (u * xz + v * yz)) by (replace (u * xz + v * yz) with (k * z) by lra; ring). transitivity ((u * u + v * v) * xz); [ring|rewrite Hu; ring].
    - unfold B. replace (k * v * z) with (v * (u * xz + v * yz)) by (replace (u * xz + v * yz) with (k * z) by lra; ring). transitivity ((u * u + v * v) * yz); [ring|rewrite Hu; ring].
    - unfold D. replace (k * u * m) with (u * (u * x + v * y)) by (replace (u * x + v * y) with (k * m) by lra; ring). transitivity ((u * u + v * v) * x); [ring|rewrite Hu; ring].
    - unfold D. replace (k * v * m) with (v * (u * x + v * y)) by (replace (u * x + v * y) with (k * m) by lra; ring). transitivity ((u * u + v * v) * y); [ring|rewrite Hu; ring]. }
  assert (EH : forall q, q * t = 1 \/ (g = 0 /\ e = 0) ->
     v * v * (A - q * (f * f)) + 2 * (k * u * v * D) + k * k * u * u * m + q * (g * g) = xx /\
     - (u * v * (A - q * (f * f))) + k * (v * v - u * u) * D + k * k * u * v * m + q * (g * e) = xy /\
     u * u * (A - q * (f * f)) - 2 * (k * u * v * D) + k * k * v * v * m + q * (e * e) = yy).
  { intros q Hq. assert (Eg : g = u * t + v * f) by (unfold t, f; transitivity ((u * u + v * v) * g); [rewrite Hu; ring|ring]).
    assert (Ee : e = v * t - u * f) by (unfold t, f; transitivity ((u * u + v * v) * e); [rewrite Hu; ring|ring]).
    assert (T : q * (t * t) = t /\ q * (t * f) = f).
    { destruct Hq as [Hq|[G0 E0]]; [split; [transitivity (q * t * t); [ring|rewrite Hq; ring]|transitivity (q * t * f); [ring|rewrite Hq; ring]]|].
      assert (t = 0) by (unfold t; rewrite G0, E0; ring). assert (f = 0) by (unfold f; rewrite G0, E0; ring). split; [rewrite H|rewrite H0]; ring. }
    destruct T as (T1 & T2).
    assert (Hxx : xx = v * v * A + 2 * (u * v) * (f + k * D) + u * u * (t + k * k * m) /\ xy = - (u * v * A) + (v * v - u * u) * (f + k * D) + u * v * (t + k * k * m) /\
      yy = u * u * A - 2 * (u * v) * (f + k * D) + v * v * (t + k * k * m)).
    { assert (E1 : f + k * D = u * v * xx + (v * v - u * u) * xy - u * v * yy) by (unfold f, g, e, D; ring).
      assert (E2 : t + k * k * m = u * u * xx + 2 * (u * v * xy) + v * v * yy) by (replace (k * k * m) with (k * (u * x + v * y)) by (replace (u * x + v * y) with (k * m) by lra; ring); unfold t, g, e; ring).
      rewrite E1, E2. unfold A. assert (U2 : (u * u + v * v) * (u * u + v * v) = 1) by (rewrite Hu; ring).
      split; [|split]; [transitivity ((u * u + v * v) * (u * u + v * v) * xx)|transitivity ((u * u + v * v) * (u * u + v * v) * xy)|transitivity ((u * u + v * v) * (u * u + v * v) * yy)]; (rewrite U2; ring) || ring. }
    destruct Hxx as (X1 & X2 & X3). split; [|split].
    - rewrite X1. rewrite Eg. transitivity (v * v * A + 2 * (u * v) * (k * D) + u * u * (k * k * m) + (u * u * (q * (t * t)) + 2 * (u * v) * (q * (t * f)))); [ring|rewrite T1, T2; ring].
    - rewrite X2. rewrite Eg, Ee. transitivity (- (u * v * A) + (v * v - u * u) * (k * D) + u * v * (k * k * m) + (u * v * (q * (t * t)) + (v * v - u * u) * (q * (t * f)))); [ring|rewrite T1, T2; ring].
    - rewrite X3. rewrite Ee. transitivity (u * u * A - 2 * (u * v) * (k * D) + v * v * (k * k * m) + (v * v * (q * (t * t)) - 2 * (u * v) * (q * (t * f)))); [ring|rewrite T1, T2; ring]. }
  destruct (Rle_lt_or_eq_dec _ _ Pt) as [Qt|Qt].
  - set (q := / t). assert (Hq : q * t = 1) by (apply Rinv_l; lra). assert (Pq : 0 < q) by now apply Rinv_0_lt_compat.
    assert (Q1 : psd3 (A - q * (f * f)) B zz D z m).
    { intros a b c. specialize (HP (a * v - q * a * f * u) (- (a * u) - q * a * f * v) b (c + q * a * f * k)). rewrite (FF (a * v) (- (a * u)) b c (q * a * f)) in HP.
      replace (a * v * g + - (a * u) * e) with (a * f) in HP by (unfold f; ring).
      replace (form (A - q * (f * f)) B zz D z m a b c) with (form4 xx xy yy xz yz zz x y z m (a * v) (- (a * u)) b c - q * (a * f * (a * f))) by (unfold form, form4, A, B, D; ring).
      replace (q * a * f * (q * a * f) * t) with (q * t * q * (a * f * (a * f))) in HP by ring. rewrite Hq in HP. lra. }
    assert (Ege : g * g + e * e = t * t + f * f) by (unfold t, f; transitivity ((u * u + v * v) * (g * g + e * e)); [rewrite Hu; ring|ring]).
    assert (Eqt : q * (g * g + e * e) = t + q * (f * f)) by (rewrite Ege; transitivity (q * t * t + q * (f * f)); [ring|rewrite Hq; ring]).
    assert (Q2 : A - q * (f * f) <= l * l * m - q * (g * g + e * e)) by (rewrite El, Eqt; lra).
    assert (Pge : 0 < g * g + e * e) by (rewrite Ege; nra). set (n := sqrt (g * g + e * e)). assert (En : n * n = g * g + e * e) by (apply sqrt_sqrt; lra). assert (Pn : 0 < n) by (apply sqrt_lt_R0, Pge).
    assert (Q3 : A - q * (f * f) <= l * l * m) by nra.
    destruct (EH q (or_introl Hq)) as (X1 & X2 & X3). eapply incyl_eq; [apply (incyl_spread r h _ _ _ _ _ _ _ _ _ _ (g / n) (e / n) (q * (g * g + e * e)) (Hf _ Q1 Q3))|..]; try reflexivity.
    + replace (g / n * (g / n) + e / n * (e / n)) with ((g * g + e * e) / (n * n)) by (field; lra). rewrite En. field. lra.
    + nra.
    + assert (EE : forall Ae, v * v * Ae + 2 * (k * u * v * D) + k * k * u * u * m + (u * u * Ae - 2 * (k * u * v * D) + k * k * v * v * m) = Ae + k * k * m) by (intro Ae; transitivity ((u * u + v * v) * (Ae + k * k * m)); [ring|rewrite Hu; ring]).
      rewrite EE. rewrite El in Q2. lra.
    + etransitivity; [|exact X1]. rewrite <- En. field. lra.
    + etransitivity; [|exact X2]. rewrite <- En. field. lra.
    + etransitivity; [|exact X3]. rewrite <- En. field. lra.
  - assert (G0 : g = 0).
    { apply (cross_zero xx). intro w. pose proof (HP (u + w) v 0 (- k)) as H. replace (form4 xx xy yy xz yz zz x y z m (u + w) v 0 (- k)) with (form4 xx xy yy xz yz zz x y z m u v 0 (- k) + 2 * w * g + w * w * xx) in H by (unfold form4, g; ring). rewrite Ft in H. lra. }
    assert (E0 : e = 0).
    { apply (cross_zero yy). intro w. pose proof (HP u (v + w) 0 (- k)) as H. replace (form4 xx xy yy xz yz zz x y z m u (v + w) 0 (- k)) with (form4 xx xy yy xz yz zz x y z m u v 0 (- k) + 2 * w * e + w * w * yy) in H by (unfold form4, e; ring). rewrite Ft in H. lra. }
    destruct (EH 0 (or_intror (conj G0 E0))) as (X1 & X2 & X3).
    assert (Q1 : psd3 (A - 0 * (f * f)) B zz D z m).
    { intros a b c. specialize (HP (a * v) (- (a * u)) b c). replace (form (A - 0 * (f * f)) B zz D z m a b c) with (form4 xx xy yy xz yz zz x y z m (a * v) (- (a * u)) b c) by (unfold form, form4, A, B, D; ring). exact HP. }
    eapply incyl_eq; [apply (Hf _ Q1); rewrite El; lra|..]; try reflexivity; lra.
Qed.
(** ** back to the frame of the body *)
Lemma move_as_local Q c u : orthogonal 3 Q -> length c = 3%nat -> length u = 3%nat -> to_local (transpose Q) (to_local Q c (zeros 3)) u = move Q c u.
Proof.
  intros (MQ & _ & Q2) Hc Hu. unfold to_local, move. assert (E : mat_vec (mat_mul Q (transpose Q)) c = c) by (rewrite Q2; now apply (mat_vec_eye 3)). clear Q2.
  destruct_vecs. cbn in *. injection E as E1 E2 E3. list_eq; lra.
Qed.
Lemma realizable_unlocal (K K0 : vec -> Prop) Q c J : orthogonal 3 Q -> length c = 3%nat -> is_mat 4 4 J -> (forall u, length u = 3%nat -> K0 u -> K (move Q c u)) ->
  realizable_J K0 (local_J Q c J) -> realizable_J K J.
Proof.
  intros HQ Hc HJ HK (s & Ho & Hn & Hin & HP). pose proof HQ as (MQ & Q1 & Q2). pose proof (is_mat_transpose 3 3 Q MQ ltac:(lia)) as MT.
  set (c' := to_local Q c (zeros 3)). assert (Lc' : length c' = 3%nat) by (apply to_local_length, MQ).
  destruct (pms_local_pim (transpose Q) c' s _ MT Lc' Ho Hn HP) as (S1 & S2 & S3). exists (pms_local (transpose Q) c' s). split; [auto|]. split; [auto|]. split.
  - intros mp Hm. apply in_map_iff in Hm as (mp' & <- & Hm). cbn [snd]. unfold c'. rewrite move_as_local by auto. apply HK; auto.
  - replace J with (mat_mul (mat_mul (inv_T (transpose Q) c') (local_J Q c J)) (transpose (inv_T (transpose Q) c'))); [exact S3|].
    destruct (transform_inv_ok Q c MQ Hc) as (_ & M1). destruct (transform_inv_ok (transpose Q) c' MT Lc') as (_ & M2). unfold local_J.
    assert (E : mat_mul (inv_T (transpose Q) c') (inv_T Q c) = eye 4).
    { assert (Ec : mat_vec (mat_mul Q (transpose Q)) c = c) by (rewrite Q2; now apply (mat_vec_eye 3)). revert Q2 Ec. unfold c', to_local, inv_T. clear - MQ Hc. destruct_vecs. cbn. intros Q2 Ec. injection Q2 as ? ? ? ? ? ? ? ? ?. injection Ec as ? ? ?. list_eq; lra. }
    transitivity (mat_mul (mat_mul (mat_mul (inv_T (transpose Q) c') (inv_T Q c)) J) (transpose (mat_mul (inv_T (transpose Q) c') (inv_T Q c)))).
    + pose proof (is_mat_transpose 4 4 _ M1 ltac:(lia)) as M1'. pose proof (is_mat_transpose 4 4 _ M2 ltac:(lia)) as M2'. rewrite (transpose_mat_mul 4 4 4) by (auto; lia).
      assert (X1 : is_mat 4 4 (mat_mul (inv_T Q c) J)) by (apply (is_mat_mul 4 4 4); auto; lia). assert (X2 : is_mat 4 4 (mat_mul (inv_T (transpose Q) c') (inv_T Q c))) by (apply (is_mat_mul 4 4 4); auto; lia).
      rewrite <- (mat_mul_assoc 4 4 4 4 (inv_T (transpose Q) c') (mat_mul (inv_T Q c) J)) by (auto; lia).
      rewrite <- (mat_mul_assoc 4 4 4 4 (inv_T (transpose Q) c') (inv_T Q c) J) by (auto; lia).
      assert (X3 : is_mat 4 4 (mat_mul (mat_mul (inv_T (transpose Q) c') (inv_T Q c)) J)) by (apply (is_mat_mul 4 4 4); auto; lia).
      rewrite (mat_mul_assoc 4 4 4 4 _ (transpose (inv_T Q c))) by (auto; lia). reflexivity.
    + rewrite E, transpose_eye, (mat_mul_eye_l 4 4), (mat_mul_eye_r 4 4) by (auto; lia). reflexivity.
Qed.
Lemma incyl_pim L R J : incyl R (L / 2) (entry J 0 0) (entry J 0 1) (entry J 1 1) (entry J 0 2) (entry J 1 2) (entry J 2 2) (entry J 0 3) (entry J 1 3) (entry J 2 3) (entry J 3 3) ->
  is_mat 4 4 J -> symmetric 4 J -> realizable_J (fun p => exists x y z, x * x + y * y <= R * R /\ Rabs z <= L / 2 /\ p = [x; y; z]) J.
Proof.
  intros (s & I & H) HJ SJ. exists (map (fun p : p3 => let '(m, (x, y, z)) := p in (m, [x; y; z])) s).
  split; [intros mp Hm; apply in_map_iff in Hm as ([m [[x y] z]] & <- & Hm); reflexivity|].
  split; [intros mp Hm; apply in_map_iff in Hm as ([m [[x y] z]] & <- & Hm); apply (I _ Hm)|].
  split; [intros mp Hm; apply in_map_iff in Hm as ([m [[x y] z]] & <- & Hm); destruct (I _ Hm) as (_ & I1 & I2); cbn; exists x, y, z; split; [auto|]; split; [now apply Rabs_le|reflexivity]|].
  split; [auto|]. destruct H as (H1 & H2 & H3 & H4 & H5 & H6 & H7 & H8 & H9 & H10).
  assert (G : forall f i j, (forall x y z, nth i ([x; y; z] ++ [1]) 0 * nth j ([x; y; z] ++ [1]) 0 = f x y z) ->
    lsum (map (fun mp => fst mp * nth i (snd mp ++ [1]) 0 * nth j (snd mp ++ [1]) 0) (map (fun p : p3 => let '(m, (x, y, z)) := p in (m, [x; y; z])) s)) = sum3 f s).
  { intros f i j Hf. rewrite map_map. unfold sum3. f_equal. apply map_ext. intros [m [[x y] z]]. cbn [fst snd]. rewrite <- (Hf x y z). ring. }
  intros i j Hi Hj. destruct i as [|[|[|[|i]]]], j as [|[|[|[|j]]]]; try lia.
  all: try match goal with |- entry ?M ?i ?j = _ => match eval compute in (Nat.ltb j i) with true => rewrite (SJ i j) by lia end end.
  all: first [rewrite <- H1|rewrite <- H2|rewrite <- H3|rewrite <- H4|rewrite <- H5|rewrite <- H6|rewrite <- H7|rewrite <- H8|rewrite <- H9|rewrite <- H10]; symmetry; apply G; intros; cbn; ring.
Qed.
Lemma disk_first R z J : 0 <= R -> realizable_J (ell_set [R; R; 0] (eye 3) [0; 0; z]) J ->
  entry J 0 3 * entry J 0 3 + entry J 1 3 * entry J 1 3 <= R * R * (entry J 3 3 * entry J 3 3) /\ entry J 0 2 = z * entry J 0 3 /\ entry J 1 2 = z * entry J 1 3.
Proof.
  intros PR HR. pose proof (realizable_psd _ _ HR) as PJ. pose proof (disk_moments R z J PR HR) as (D1 & _ & _ & D4). destruct HR as (s & Ho & Hn & Hin & HJ & HE).
  assert (S : forall mp, In mp s -> exists x y, snd mp = [x; y; z]).
  { intros mp Hm. destruct (Hin mp Hm) as (u & Lu & Hu & E). cbn in Lu. destruct (len3_inv _ Lu) as (a & b & c & ->). exists (R * a), (R * b). rewrite E. cbn. list_eq; ring. }
  split; [|split].
  - destruct PJ as (_ & SJ & PJ). set (m := entry J 3 3) in *. set (a := entry J 0 3) in *. set (b := entry J 1 3) in *.
    assert (Q : forall x y w, 0 <= entry J 0 0 * (x * x) + 2 * (entry J 0 1 * (x * y)) + entry J 1 1 * (y * y) + 2 * (a * (x * w)) + 2 * (b * (y * w)) + m * (w * w)).
    { intros x y w. pose proof (PJ [x; y; 0; w] eq_refl) as P. unfold a, b, m. pose proof (SJ 1%nat 0%nat ltac:(lia) ltac:(lia)). pose proof (SJ 3%nat 0%nat ltac:(lia) ltac:(lia)). pose proof (SJ 3%nat 1%nat ltac:(lia) ltac:(lia)).
      clear - HJ P H H0 H1. destruct_vecs. unfold quad, dot in P. cbn in *. subst. lra. }
    destruct (Rle_lt_or_eq_dec _ _ D4) as [Pm|Zm].
    + pose proof (Q m 0 (- a)) as Q1. pose proof (Q 0 m (- b)) as Q2. assert (A1 : a * a <= entry J 0 0 * m) by (apply Rmult_le_reg_l with m; nra). assert (B1 : b * b <= entry J 1 1 * m) by (apply Rmult_le_reg_l with m; nra). nra.
    + rewrite <- Zm in *. assert (a = 0) by (apply (cross_zero (entry J 0 0)); intro t; specialize (Q t 0 1); lra). assert (b = 0) by (apply (cross_zero (entry J 1 1)); intro t; specialize (Q 0 t 1); lra). subst a b. rewrite H, H0. lra.
  - rewrite !HE by lia. rewrite <- lsum_map_scal. f_equal. apply map_ext_in. intros mp Hm. destruct (S mp Hm) as (x & y & E). rewrite E. cbn. ring.
  - rewrite !HE by lia. rewrite <- lsum_map_scal. f_equal. apply map_ext_in. intros mp Hm. destruct (S mp Hm) as (x & y & E). rewrite E. cbn. ring.
Qed.
Lemma cyl_custom_exact L R ro co c ut v J : cyl_init L R ro co = Ok c -> orthogonal 3 (pose_rot 3 ro) -> (R = 0 \/ / 100000000 < R) -> pv_value v J -> is_mat 4 4 J ->
  exists P, cyl_moment_custom_vertex_constraints ut c v 0 = Ok P /\ (P <-> realizable_J (cyl_set L R (pose_rot 3 ro) (pose_tr 3 co)) J).
Proof.
  intros Hc HQ HR Hv HJ. destruct (cyl_custom_ok L R ro co c ut v J 0 Hc HR Hv HJ ltac:(lra)) as (P & EP & Hpsd & _). exists P. split; [exact EP|]. split.
  2: { intro Hr. destruct (cyl_custom L R ro co c ut v J Hc HQ HR Hv HJ Hr) as (P' & EP' & HP'). rewrite EP in EP'. apply Ok_eq in EP'. now subst P'. }
  intro HP. specialize (Hpsd HP). rewrite msub_zero in Hpsd by auto.
  apply cyl_init_inv in Hc as (PL & PR & MQ & Lc & ->). unfold cyl_moment_custom_vertex_constraints in EP.
  rewrite (pv_ok v J 0 Hv HJ ltac:(lra)) in EP. cbn [bind c_rot c_center c_disk0s cyl_of] in EP. destruct (transform_inv_ok _ _ MQ Lc) as (ET & MT). rewrite ET in EP. cbn [bind] in EP.
  apply bind_inv in EP as (u & _ & EP). apply Ok_eq in EP. subst P. cbv zeta in HP.
  change (mat_mul (mat_mul (inv_T (pose_rot 3 ro) (pose_tr 3 co)) J) (transpose (inv_T (pose_rot 3 ro) (pose_tr 3 co)))) with (local_J (pose_rot 3 ro) (pose_tr 3 co) J) in HP.
  set (Q := pose_rot 3 ro) in *. set (t := pose_tr 3 co) in *. pose proof (local_J_psd' Q t J MQ Lc Hpsd) as P0.
  destruct HP as (Js & L2 & FJ & _ & (P' & EP & HP) & HU & H0 & H1 & H2 & H3). destruct Js as [|Ja [|Jb [|]]]; try discriminate L2.
  inversion FJ as [|? ? (MJa & _) FJ']. inversion FJ' as [|? ? (MJb & _) _]. subst.
  assert (OE : orthogonal 3 (pose_rot 3 None)) by (apply orthogonal_eye; lia).
  destruct (ell_w_constraints0 [R; R; 0] None (Some [0; 0; 1 / 2 * L]) _ (disk_init R (1 / 2 * L) PR) eq_refl ut (PVmat Ja) Ja OE (disk_proper R HR) eq_refl MJa) as (Pa & Ea & Ia).
  destruct (ell_w_constraints0 [R; R; 0] None (Some [0; 0; - (1 / 2 * L)]) _ (disk_init R (- (1 / 2 * L)) PR) eq_refl ut (PVmat Jb) Jb OE (disk_proper R HR) eq_refl MJb) as (Pb & Eb & Ib).
  cbn [all_constraints] in EP. rewrite Ea, Eb in EP. cbn [bind] in EP. apply Ok_eq in EP. subst P'. destruct HP as (HPa & HPb & _).
  apply Ia in HPa. apply Ib in HPb. clear Ia Ib Ea Eb. cbn [pose_rot pose_tr] in HPa, HPb.
  pose proof (disk_first _ _ _ PR HPa) as (A5 & A6 & A7). pose proof (disk_first _ _ _ PR HPb) as (B5 & B6 & B7).
  apply disk_moments in HPa as (A1 & A2 & A3 & A4); [|exact PR]. apply disk_moments in HPb as (B1 & B2 & B3 & B4); [|exact PR].
  pose proof (HU 2%nat 3%nat ltac:(lia)) as U23. pose proof (HU 0%nat 2%nat ltac:(lia)) as U02. pose proof (HU 1%nat 2%nat ltac:(lia)) as U12. pose proof (HU 0%nat 3%nat ltac:(lia)) as U03. pose proof (HU 1%nat 3%nat ltac:(lia)) as U13.
  rewrite !two_msum in * by (auto; lia). set (J0 := local_J Q t J) in *.
  apply (realizable_unlocal _ (fun p => exists x y z, x * x + y * y <= R * R /\ Rabs z <= L / 2 /\ p = [x; y; z]) Q t J HQ Lc HJ).
  { intros w _ (x & y & z & W1 & W2 & ->). exists x, y, z. auto. }
  fold J0. destruct P0 as (M0 & S0 & P0). apply incyl_pim; auto.
  apply (cyl_core R (L / 2) (entry Ja 3 3) (entry Jb 3 3) (entry Ja 0 3) (entry Ja 1 3) (entry Jb 0 3) (entry Jb 1 3)); auto; try lra.
  - rewrite H3. lra.
  - rewrite H3. lra.
  - intros a b d e. pose proof (P0 [a; b; d; e] eq_refl) as F. replace (form4 _ _ _ _ _ _ _ _ _ _ a b d e) with (quad J0 [a; b; d; e]); [exact F|].
    assert (Y : forall i j, (i < 4)%nat -> (j < 4)%nat -> entry J0 j i = entry J0 i j) by (intros; apply S0; auto).
    pose proof (Y 0 1 ltac:(lia) ltac:(lia))%nat as Y1. pose proof (Y 0 2 ltac:(lia) ltac:(lia))%nat as Y2. pose proof (Y 0 3 ltac:(lia) ltac:(lia))%nat as Y3. pose proof (Y 1 2 ltac:(lia) ltac:(lia))%nat as Y4. pose proof (Y 1 3 ltac:(lia) ltac:(lia))%nat as Y5. pose proof (Y 2 3 ltac:(lia) ltac:(lia))%nat as Y6.
    clear - M0 Y1 Y2 Y3 Y4 Y5 Y6. clearbody J0. destruct_vecs. unfold quad, dot, form4. cbn in *. subst. ring.
Qed.
(** ** boxes without extent along an axis *)
Definition emb (k : nat) (x y : R) : vec := match k with 0%nat => [0; x; y] | 1%nat => [x; 0; y] | _ => [x; y; 0] end.
Lemma psd_zero_col J k i : PSD 4 J -> entry J k k <= 0 -> (k < 4)%nat -> (i < 4)%nat -> entry J i k = 0 /\ entry J k i = 0.
Proof.
  intros (MJ & SJ & PJ) Hk Lk Li. assert (E : entry J i k = 0); [|split; [exact E|rewrite <- E; apply SJ; auto]].
  assert (Q : forall s t, 0 <= quad J (vadd (vscale s (nth i (eye 4) [])) (vscale t (nth k (eye 4) [])))).
  { intros s t. apply PJ. destruct k as [|[|[|[|k]]]], i as [|[|[|[|i]]]]; try lia; reflexivity. }
  assert (G : forall s t, quad J (vadd (vscale s (nth i (eye 4) [])) (vscale t (nth k (eye 4) []))) = entry J i i * (s * s) + 2 * (entry J i k * (s * t)) + entry J k k * (t * t)).
  { intros s t. pose proof (SJ k i Lk Li) as Y. clear - MJ Y Lk Li. destruct k as [|[|[|[|k]]]], i as [|[|[|[|i]]]]; try lia; destruct_vecs; unfold quad, dot; cbn in *; subst; ring. }
  apply (cross_zero (entry J i i)). intro t. specialize (Q t 1). rewrite G in Q. lra.
Qed.
Lemma inrect_pim l h J i j k : In (i, j, k) [(1, 2, 0); (0, 2, 1); (0, 1, 2)]%nat ->
  inrect l h (entry J i i) (entry J i j) (entry J j j) (entry J i 3) (entry J j 3) (entry J 3 3) ->
  PSD 4 J -> entry J k k <= 0 -> realizable_J (fun p => exists x y, - l <= x <= l /\ - h <= y <= h /\ p = emb k x y) J.
Proof.
  intros Hi (s & I & H) PJ Hk. exists (map (fun p : R * (R * R) => (fst p, emb k (fst (snd p)) (snd (snd p)))) s).
  assert (Lk : (k < 4)%nat) by (destruct Hi as [E|[E|[E|[]]]]; injection E as <- <- <-; lia).
  pose proof (fun i Li => psd_zero_col J k i PJ Hk Lk Li) as Z. destruct PJ as (MJ & SJ & _).
  split; [intros mp Hm; apply in_map_iff in Hm as (p & <- & Hm); destruct k as [|[|k]]; reflexivity|].
  split; [intros mp Hm; apply in_map_iff in Hm as (p & <- & Hm); apply (I _ Hm)|].
  split; [intros mp Hm; apply in_map_iff in Hm as (p & <- & Hm); destruct (I _ Hm) as (_ & I1 & I2); cbn [snd]; eauto 8|].
  split; [auto|]. destruct H as (H1 & H2 & H3 & H4 & H5 & H6).
  assert (G : forall f a b, (forall x y, nth a (emb k x y ++ [1]) 0 * nth b (emb k x y ++ [1]) 0 = f x y) ->
    lsum (map (fun mp => fst mp * nth a (snd mp ++ [1]) 0 * nth b (snd mp ++ [1]) 0) (map (fun p : R * (R * R) => (fst p, emb k (fst (snd p)) (snd (snd p)))) s)) = sum2 f s).
  { intros f a b Hf. rewrite map_map. unfold sum2. f_equal. apply map_ext. intros [m [x y]]. cbn [fst snd]. rewrite <- (Hf x y). ring. }
  assert (G0 : forall a b, a = k \/ b = k -> lsum (map (fun mp => fst mp * nth a (snd mp ++ [1]) 0 * nth b (snd mp ++ [1]) 0) (map (fun p : R * (R * R) => (fst p, emb k (fst (snd p)) (snd (snd p)))) s)) = 0).
  { intros a b Hab. rewrite (G (fun _ _ => 0)).
    - unfold sum2. transitivity (lsum (map (fun p : R * (R * R) => 0 * fst p) s)); [f_equal; apply map_ext; intros; ring|rewrite lsum_map_scal; ring].
    - destruct Hi as [E|[E|[E|[]]]]; injection E as <- <- <-; intros x y; destruct Hab as [-> | ->]; cbn; ring. }
  intros a b Ha Hb. destruct (Nat.eq_dec a k) as [->|Na]; [rewrite G0 by auto; apply Z; auto|]. destruct (Nat.eq_dec b k) as [->|Nb]; [rewrite G0 by auto; apply Z; auto|].
  assert (W : forall a b, (a < 4)%nat -> (b < 4)%nat -> a <> k -> b <> k -> (a <= b)%nat -> entry J a b = lsum (map (fun mp => fst mp * nth a (snd mp ++ [1]) 0 * nth b (snd mp ++ [1]) 0) (map (fun p : R * (R * R) => (fst p, emb k (fst (snd p)) (snd (snd p)))) s))).
  { clear a b Ha Hb Na Nb. intros a b Ha Hb Na Nb Hab. destruct Hi as [E|[E|[E|[]]]]; injection E as <- <- <-; destruct a as [|[|[|[|a]]]], b as [|[|[|[|b]]]]; try lia.
    all: first [rewrite <- H1|rewrite <- H2|rewrite <- H3|rewrite <- H4|rewrite <- H5|rewrite <- H6]; symmetry; apply G; intros; cbn; ring. }
  destruct (Nat.le_gt_cases a b) as [Hab|Hab]; [apply W; auto|]. rewrite (SJ a b) by auto. rewrite W by (auto; lia). f_equal. apply map_ext. intro mp. ring.
Qed.
Lemma box_flat_exact h c r b v J : box_init h c r = Ok b -> orthogonal 3 (pose_rot 3 r) -> pv_value v J -> is_mat 4 4 J -> In 0 h ->
  exists P, box_moment_custom_vertex_constraints b v 0 = Ok P /\ (P <-> realizable_J (box_set h (pose_rot 3 r) (pose_tr 3 c)) J).
Proof.
  intros Hb HQ Hv HJ H0. destruct (box_custom h c r b v J 0 Hb HQ Hv HJ ltac:(lra)) as (P & EP & Hpsd & HN & _). exists P. split; [exact EP|].
  rewrite msub_zero in * by auto. split; [|intro HR; apply HN; [exact HR|exact (realizable_psd _ _ HR)]]. intro HP. specialize (Hpsd HP). clear HN.
  pose proof (box_init_inv h c r b Hb) as (Lh & Ph & Eh & Ec & Er & MQ & Lc & _). rewrite Er in MQ. rewrite Ec in Lc.
  unfold box_moment_custom_vertex_constraints in EP. rewrite (pv_ok v J 0 Hv HJ ltac:(lra)) in EP. cbn [bind] in EP. rewrite Er, Ec, Eh in EP. destruct (transform_inv_ok _ _ MQ Lc) as (ET & MT). rewrite ET in EP. cbn [bind] in EP.
  apply Ok_eq in EP. subst P. cbv zeta in HP. set (Q := pose_rot 3 r) in *. set (t := pose_tr 3 c) in *.
  change (mat_mul (mat_mul (inv_T Q t) J) (transpose (inv_T Q t))) with (local_J Q t J) in HP. pose proof (local_J_psd' Q t J MQ Lc Hpsd) as P0.
  destruct HP as (ms & (Lm & Pm) & _ & H3 & HU & HD).
  apply (realizable_unlocal _ (in_cube h) Q t J HQ Lc HJ); [intros u _ Hu; exists u; auto|]. set (J0 := local_J Q t J) in *. clearbody J0.
  clear - Lh Ph Lm Pm H3 HU HD P0 H0.
  destruct (len3_inv _ Lh) as (x & y & z & ->). destruct ms as [|a1 [|a2 [|a3 [|a4 [|a5 [|a6 [|a7 [|a8 [|]]]]]]]]]; try discriminate Lm.
  pose proof (Ph 0%nat ltac:(lia)) as Px. pose proof (Ph 1%nat ltac:(lia)) as Py. pose proof (Ph 2%nat ltac:(lia)) as Pz. cbn in Px, Py, Pz.
  assert (M : 0 <= a1 /\ 0 <= a2 /\ 0 <= a3 /\ 0 <= a4 /\ 0 <= a5 /\ 0 <= a6 /\ 0 <= a7 /\ 0 <= a8) by (repeat split; [apply (Pm 0%nat)|apply (Pm 1%nat)|apply (Pm 2%nat)|apply (Pm 3%nat)|apply (Pm 4%nat)|apply (Pm 5%nat)|apply (Pm 6%nat)|apply (Pm 7%nat)]; lia).
  destruct M as (M1 & M2 & M3 & M4 & M5 & M6 & M7 & M8).
  pose proof (HU 0%nat 1%nat ltac:(lia)) as U01. pose proof (HU 0%nat 2%nat ltac:(lia)) as U02. pose proof (HU 0%nat 3%nat ltac:(lia)) as U03. pose proof (HU 1%nat 2%nat ltac:(lia)) as U12. pose proof (HU 1%nat 3%nat ltac:(lia)) as U13. pose proof (HU 2%nat 3%nat ltac:(lia)) as U23.
  pose proof (HD 0%nat ltac:(lia)) as D0. pose proof (HD 1%nat ltac:(lia)) as D1. pose proof (HD 2%nat ltac:(lia)) as D2. clear HU HD Pm Ph Lh Lm.
  assert (F : forall i j k, In (i, j, k) [(1, 2, 0); (0, 2, 1); (0, 1, 2)]%nat -> psd3 (entry J0 i i) (entry J0 i j) (entry J0 j j) (entry J0 i 3) (entry J0 j 3) (entry J0 3 3)).
  { intros i j k Hi a b d. destruct P0 as (M0 & S0 & P0). pose proof (P0 (match k with 0%nat => [0; a; b; d] | 1%nat => [a; 0; b; d] | _ => [a; b; 0; d] end) ltac:(destruct k as [|[|]]; reflexivity)) as F.
    assert (Y : forall i j, (i < 4)%nat -> (j < 4)%nat -> entry J0 j i = entry J0 i j) by (intros; apply S0; auto).
    pose proof (Y 0 1 ltac:(lia) ltac:(lia))%nat as Y1. pose proof (Y 0 2 ltac:(lia) ltac:(lia))%nat as Y2. pose proof (Y 0 3 ltac:(lia) ltac:(lia))%nat as Y3. pose proof (Y 1 2 ltac:(lia) ltac:(lia))%nat as Y4. pose proof (Y 1 3 ltac:(lia) ltac:(lia))%nat as Y5. pose proof (Y 2 3 ltac:(lia) ltac:(lia))%nat as Y6.
    clear - M0 Y1 Y2 Y3 Y4 Y5 Y6 F Hi. destruct Hi as [E|[E|[E|[]]]]; injection E as <- <- <-; unfold form; destruct_vecs; unfold quad, dot in F; cbn in *; subst; lra. }
  assert (T : forall l k a, 0 <= l -> 0 <= k -> 0 <= a -> 0 <= l * k * a) by (intros; apply Rmult_le_pos; [apply Rmult_le_pos; auto|auto]).
  assert (W : exists i j k l d, In (i, j, k) [(1, 2, 0); (0, 2, 1); (0, 1, 2)]%nat /\ nth k [x; y; z] 0 = 0 /\ l = nth i [x; y; z] 0 /\ d = nth j [x; y; z] 0).
  { cbn in H0. destruct H0 as [H0|[H0|[H0|[]]]]; [exists 1%nat, 2%nat, 0%nat|exists 0%nat, 2%nat, 1%nat|exists 0%nat, 1%nat, 2%nat]; do 2 eexists; (split; [cbn; tauto|]); (split; [exact H0|split; reflexivity]). }
  destruct W as (i & j & k & l & d & Hi & Hk & El & Ed).
  assert (Z : entry J0 k k <= 0 /\ 0 <= l /\ 0 <= d /\ rect_ok l d (entry J0 i i) (entry J0 i j) (entry J0 j j) (entry J0 i 3) (entry J0 j 3) (entry J0 3 3)).
  { specialize (F i j k Hi). destruct Hi as [E|[E|[E|[]]]]; injection E as <- <- <-; cbn [nth] in Hk, El, Ed; subst; cbn in H3, U01, U02, U03, U12, U13, U23, D0, D1, D2.
    - split; [lra|]. split; [auto|]. split; [auto|]. split; [exact F|]. rewrite H3, U12, U13, U23. pose proof (T y z a1 Py Pz M1). pose proof (T y z a2 Py Pz M2). pose proof (T y z a3 Py Pz M3). pose proof (T y z a4 Py Pz M4). pose proof (T y z a5 Py Pz M5). pose proof (T y z a6 Py Pz M6). pose proof (T y z a7 Py Pz M7). pose proof (T y z a8 Py Pz M8). repeat split; lra.
    - split; [lra|]. split; [auto|]. split; [auto|]. split; [exact F|]. rewrite H3, U02, U03, U23. pose proof (T x z a1 Px Pz M1). pose proof (T x z a2 Px Pz M2). pose proof (T x z a3 Px Pz M3). pose proof (T x z a4 Px Pz M4). pose proof (T x z a5 Px Pz M5). pose proof (T x z a6 Px Pz M6). pose proof (T x z a7 Px Pz M7). pose proof (T x z a8 Px Pz M8). repeat split; lra.
    - split; [lra|]. split; [auto|]. split; [auto|]. split; [exact F|]. rewrite H3, U01, U03, U13. pose proof (T x y a1 Px Py M1). pose proof (T x y a2 Px Py M2). pose proof (T x y a3 Px Py M3). pose proof (T x y a4 Px Py M4). pose proof (T x y a5 Px Py M5). pose proof (T x y a6 Px Py M6). pose proof (T x y a7 Px Py M7). pose proof (T x y a8 Px Py M8). repeat split; lra. }
  destruct Z as (Z1 & Z2 & Z3 & Z4). apply (rect_exact l d _ _ _ _ _ _ Z2 Z3) in Z4. pose proof (inrect_pim l d J0 i j k Hi Z4 P0 Z1) as (s & S1 & S2 & S3 & S4).
  exists s. split; [auto|]. split; [auto|]. split; [|exact S4]. intros mp Hm. destruct (S3 mp Hm) as (p & q & Hp & Hq & E). rewrite E.
  clear - Hi Hk El Ed Hp Hq. destruct Hi as [E|[E|[E|[]]]]; injection E as <- <- <-; cbn [nth] in Hk, El, Ed; subst; (split; [reflexivity|]); intros [|[|[|w]]] Hw; cbn in Hw |- *; try lia; apply Rabs_le; lra.
Qed.
