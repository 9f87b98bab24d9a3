(** Second moments of point masses in a rectangle: what the pairwise products of its sides say is all there is. *)
From Verif Require Import Base.Vec Base.VecFacts.

(** ** point masses in the plane: mass, x, z *)
Definition sum2 (f : R -> R -> R) (s : list (R * (R * R))) : R := lsum (map (fun p => fst p * f (fst (snd p)) (snd (snd p))) s).
Definition in_rect (l h : R) (s : list (R * (R * R))) : Prop :=
  forall p, In p s -> 0 <= fst p /\ - l <= fst (snd p) <= l /\ - h <= snd (snd p) <= h.
Definition rep (s : list (R * (R * R))) (A B C D E m : R) : Prop :=
  sum2 (fun x _ => x * x) s = A /\ sum2 (fun x z => x * z) s = B /\ sum2 (fun _ z => z * z) s = C /\
  sum2 (fun x _ => x) s = D /\ sum2 (fun _ z => z) s = E /\ sum2 (fun _ _ => 1) s = m.
Definition inrect (l h A B C D E m : R) : Prop := exists s, in_rect l h s /\ rep s A B C D E m.

Lemma sum2_app f s t : sum2 f (s ++ t) = sum2 f s + sum2 f t.
Proof. unfold sum2. now rewrite map_app, lsum_app. Qed.
Lemma sum2_cons f p s : sum2 f (p :: s) = fst p * f (fst (snd p)) (snd (snd p)) + sum2 f s.
Proof. reflexivity. Qed.
Lemma inrect_eq l h A B C D E m A' B' C' D' E' m' : inrect l h A B C D E m -> A = A' -> B = B' -> C = C' -> D = D' -> E = E' -> m = m' -> inrect l h A' B' C' D' E' m'.
Proof. now intros H -> -> -> -> -> ->. Qed.
Lemma inrect_zero l h : inrect l h 0 0 0 0 0 0.
Proof. exists []. split; [intros p []|]. repeat split; reflexivity. Qed.
Lemma inrect_add l h A B C D E m A' B' C' D' E' m' : inrect l h A B C D E m -> inrect l h A' B' C' D' E' m' ->
  inrect l h (A + A') (B + B') (C + C') (D + D') (E + E') (m + m').
Proof.
  intros (s & I & H1 & H2 & H3 & H4 & H5 & H6) (s' & I' & H1' & H2' & H3' & H4' & H5' & H6'). exists (s ++ s'). split.
  - intros p Hp. apply in_app_or in Hp as [Hp|Hp]; auto.
  - unfold rep. rewrite !sum2_app. repeat split; congruence.
Qed.
Lemma inrect_point l h m x z : 0 <= m -> - l <= x <= l -> - h <= z <= h -> inrect l h (m * (x * x)) (m * (x * z)) (m * (z * z)) (m * x) (m * z) m.
Proof. intros Hm Hx Hz. exists [(m, (x, z))]. split; [intros p [<-|[]]; cbn; auto|]. unfold rep, sum2. cbn. repeat split; ring. Qed.
(** a point of the cone over the rectangle *)
Lemma inrect_ray l h k x z w : 0 <= k -> 0 <= l -> 0 <= h -> - (l * w) <= x <= l * w -> - (h * w) <= z <= h * w ->
  inrect l h (k * (x * x)) (k * (x * z)) (k * (z * z)) (k * (x * w)) (k * (z * w)) (k * (w * w)).
Proof.
  intros Hk Hl Hh Hx Hz. destruct (Req_dec w 0) as [->|Nw].
  - assert (x = 0) by lra. assert (z = 0) by lra. subst. eapply inrect_eq; [apply inrect_zero|ring..].
  - assert (HB : forall l x, 0 <= l -> - (l * w) <= x <= l * w -> - l <= x / w <= l).
    { clear - Nw. intros l x Hl Hx. destruct (Rlt_le_dec 0 w) as [P|P].
      - split; apply Rmult_le_reg_r with w; auto; unfold Rdiv; rewrite Rmult_assoc, Rinv_l by lra; lra.
      - assert (l * w <= 0) by nra. assert (x = 0) by lra. subst. unfold Rdiv. rewrite Rmult_0_l. lra. }
    eapply inrect_eq; [apply (inrect_point l h (k * (w * w)) (x / w) (z / w)); auto|..]; try (field; lra).
    apply Rmult_le_pos; [auto|]. apply Rle_0_sqr.
Qed.
(** ** reflections *)
Lemma inrect_swap l h A B C D E m : inrect l h A B C D E m -> inrect h l C B A E D m.
Proof.
  intros (s & I & H1 & H2 & H3 & H4 & H5 & H6). exists (map (fun p => (fst p, (snd (snd p), fst (snd p)))) s). split.
  - intros p Hp. apply in_map_iff in Hp as (q & <- & Hq). cbn. specialize (I q Hq). tauto.
  - unfold rep, sum2 in *. rewrite !map_map. cbn. repeat split; auto. rewrite <- H2. f_equal. apply map_ext. intros p. ring.
Qed.
Lemma sum2_scal (f g : R -> R -> R) k s : (forall x z, g x z = k * f x z) -> sum2 g s = k * sum2 f s.
Proof. intro H. unfold sum2. rewrite <- lsum_map_scal. f_equal. apply map_ext. intros p. rewrite H. ring. Qed.
Lemma inrect_flip l h A B C D E m : inrect l h A B C D E m -> inrect l h A (- B) C (- D) E m.
Proof.
  intros (s & I & H1 & H2 & H3 & H4 & H5 & H6). exists (map (fun p => (fst p, (- fst (snd p), snd (snd p)))) s). split.
  - intros p Hp. apply in_map_iff in Hp as (q & <- & Hq). cbn. specialize (I q Hq). lra.
  - assert (G : forall f, sum2 f (map (fun p => (fst p, (- fst (snd p), snd (snd p)))) s) = sum2 (fun x z => f (- x) z) s) by (intro f; unfold sum2; now rewrite map_map).
    unfold rep. rewrite !G. repeat split; auto.
    + rewrite <- H1. rewrite (sum2_scal (fun x _ => x * x) _ 1); intros; ring.
    + rewrite <- H2. rewrite (sum2_scal (fun x z => x * z) _ (-1)); intros; ring.
    + rewrite <- H4. rewrite (sum2_scal (fun x _ => x) _ (-1)); intros; ring.
Qed.

(** ** more second moment along x, up to what the width allows *)
Lemma inrect_spread l h A B C D E m d : 0 <= l -> inrect l h A B C D E m -> 0 <= d -> A + d <= l * l * m -> inrect l h (A + d) B C D E m.
Proof.
  intros Hl (s & I & HR) Hd HA. destruct (Req_dec d 0) as [->|Nd].
  { exists s. split; [auto|]. now rewrite Rplus_0_r. }
  assert (G : forall t, 0 <= t <= 1 -> inrect l h (A + t * (l * l * m - A)) B C D E m).
  { intros t Ht. clear Hd HA Nd d. revert A B C D E m HR. induction s as [|[w [x z]] s IH]; intros A B C D E m (H1 & H2 & H3 & H4 & H5 & H6).
    - cbn in *. subst. eapply inrect_eq; [apply inrect_zero|ring..].
    - rewrite sum2_cons in *. cbn [fst snd] in *. destruct (I (w, (x, z)) (or_introl eq_refl)) as (Pw & Hx & Hz). cbn [fst snd] in *.
      specialize (IH (fun p Hp => I p (or_intror Hp)) _ _ _ _ _ _ (conj eq_refl (conj eq_refl (conj eq_refl (conj eq_refl (conj eq_refl eq_refl)))))).
      assert (P : inrect l h (w * (x * x) + t * (l * l * w - w * (x * x))) (w * (x * z)) (w * (z * z)) (w * x) (w * z) w).
      { destruct (Req_dec l 0) as [->|Nl].
        - assert (x = 0) by lra. subst. eapply inrect_eq; [apply (inrect_point 0 h w 0 z); auto; lra|ring..].
        - assert (L : 0 < l) by lra. eapply inrect_eq.
          { apply inrect_add; [apply (inrect_point l h ((1 - t) * w) x z); auto; nra|].
            apply inrect_add; [apply (inrect_point l h (t * w * (l + x) / (2 * l)) l z); auto; try lra|apply (inrect_point l h (t * w * (l - x) / (2 * l)) (- l) z); auto; try lra].
            - apply Rmult_le_pos; [apply Rmult_le_pos; [apply Rmult_le_pos|]; lra|]. apply Rlt_le, Rinv_0_lt_compat. lra.
            - apply Rmult_le_pos; [apply Rmult_le_pos; [apply Rmult_le_pos|]; lra|]. apply Rlt_le, Rinv_0_lt_compat. lra. }
          all: field; lra. }
      eapply inrect_eq; [exact (inrect_add _ _ _ _ _ _ _ _ _ _ _ _ _ _ P IH)|..]; subst; ring. }
  assert (P : 0 < l * l * m - A) by lra. eapply inrect_eq; [apply (G (d / (l * l * m - A)))|try reflexivity..].
  - split; [apply Rmult_le_pos; [auto|apply Rlt_le, Rinv_0_lt_compat, P]|]. apply Rmult_le_reg_r with (l * l * m - A); auto. unfold Rdiv. rewrite Rmult_assoc, Rinv_l by lra. lra.
  - field. lra.
Qed.

(** ** positive semidefinite forms *)
Definition form (A B C D E m a b c : R) : R := A * (a * a) + 2 * (B * (a * b)) + C * (b * b) + 2 * (D * (a * c)) + 2 * (E * (b * c)) + m * (c * c).
Definition psd3 (A B C D E m : R) : Prop := forall a b c, 0 <= form A B C D E m a b c.
(** if the form vanishes at a vector then so does the matrix times the vector *)
Lemma psd3_kernel A B C D E m a b c : psd3 A B C D E m -> form A B C D E m a b c = 0 ->
  A * a + B * b + D * c = 0 /\ B * a + C * b + E * c = 0 /\ D * a + E * b + m * c = 0.
Proof.
  intros HP H0.
  assert (G : forall p q, 0 <= p -> (forall t, 0 <= 2 * t * q + t * t * p) -> q = 0).
  { clear. intros p q Hp H. destruct (Req_dec q 0) as [|N]; [auto|]. exfalso. specialize (H (- q / (p + 1))).
    replace (2 * (- q / (p + 1)) * q + - q / (p + 1) * (- q / (p + 1)) * p) with (- (q * q) * (p + 2) / ((p + 1) * (p + 1))) in H by (field; lra).
    assert (0 < q * q) by nra. assert (- (q * q) * (p + 2) / ((p + 1) * (p + 1)) < 0); [|lra].
    apply Rmult_lt_reg_r with ((p + 1) * (p + 1)); [nra|]. unfold Rdiv. assert (PP : 0 < (p + 1) * (p + 1)) by nra. rewrite Rmult_assoc, Rinv_l by lra. nra. }
  unfold psd3, form in *. split; [|split].
  - apply (G A); [specialize (HP 1 0 0); lra|]. intro t. specialize (HP (a + t) b c). lra.
  - apply (G C); [specialize (HP 0 1 0); lra|]. intro t. specialize (HP a (b + t) c). lra.
  - apply (G m); [specialize (HP 0 0 1); lra|]. intro t. specialize (HP a b (c + t)). lra.
Qed.
(** subtracting the outer product of a column combination *)
Lemma psd3_sub A B C D E m a b c t : psd3 A B C D E m -> 0 <= t -> t * form A B C D E m a b c <= 1 ->
  let x := A * a + B * b + D * c in let z := B * a + C * b + E * c in let w := D * a + E * b + m * c in
  psd3 (A - t * (x * x)) (B - t * (x * z)) (C - t * (z * z)) (D - t * (x * w)) (E - t * (z * w)) (m - t * (w * w)).
Proof.
  intros HP Ht H1 x z w p q r. set (y := x * p + z * q + w * r).
  assert (E1 : form (A - t * (x * x)) (B - t * (x * z)) (C - t * (z * z)) (D - t * (x * w)) (E - t * (z * w)) (m - t * (w * w)) p q r =
    form A B C D E m p q r - t * (y * y)) by (unfold form, y; ring).
  rewrite E1. pose proof (HP (p - t * y * a) (q - t * y * b) (r - t * y * c)) as H2.
  assert (E2 : form A B C D E m (p - t * y * a) (q - t * y * b) (r - t * y * c) = form A B C D E m p q r - 2 * t * (y * y) + t * t * (y * y) * form A B C D E m a b c)
    by (unfold form, y, x, z, w; ring).
  rewrite E2 in H2. assert (0 <= t * (y * y) * (1 - t * form A B C D E m a b c)); [|nra].
  apply Rmult_le_pos; [|lra]. apply Rmult_le_pos; [auto|]. apply Rle_0_sqr.
Qed.

(** ** the conditions *)
Definition rect_ok (l h A B C D E m : R) : Prop := psd3 A B C D E m /\ A <= l * l * m /\ C <= h * h * m /\
  0 <= l * h * m - l * E - h * D + B /\ 0 <= l * h * m + l * E - h * D - B /\ 0 <= l * h * m - l * E + h * D - B /\ 0 <= l * h * m + l * E + h * D + B.
Lemma rect_ok_swap l h A B C D E m : rect_ok l h A B C D E m -> rect_ok h l C B A E D m.
Proof. intros (H & H1 & H2 & H3 & H4 & H5 & H6). split; [intros a b c; specialize (H b a c); unfold form in *; lra|]. repeat split; lra. Qed.
Lemma rect_ok_flip l h A B C D E m : rect_ok l h A B C D E m -> rect_ok l h A (- B) C (- D) E m.
Proof. intros (H & H1 & H2 & H3 & H4 & H5 & H6). split; [intros a b c; specialize (H (- a) b c); unfold form in *; lra|]. repeat split; lra. Qed.
(** everything on the side x = l *)
Lemma rect_side l h A B C D E m : 0 <= l -> 0 <= h -> rect_ok l h A B C D E m -> form A B C D E m (-1) 0 l = 0 -> inrect l h A B C D E m.
Proof.
  intros Hl Hh (HP & _ & HC & _) H0. destruct (psd3_kernel _ _ _ _ _ _ _ _ _ HP H0) as (K1 & K2 & K3).
  assert (Pm : 0 <= m) by (specialize (HP 0 0 1); unfold psd3, form in HP; lra).
  destruct (Req_dec m 0) as [->|Nm].
  - assert (form A B C D E 0 0 0 1 = 0) as Z by (unfold form; ring). destruct (psd3_kernel _ _ _ _ _ _ _ _ _ HP Z) as (Z1 & Z2 & _).
    assert (C = 0) by (specialize (HP 0 1 0); unfold form in HP; lra). assert (D = 0) by lra. assert (E = 0) by lra. subst D E. eapply inrect_eq; [apply inrect_zero|lra..].
  - assert (P : 0 < m) by lra. assert (HE : E * E <= C * m).
    { specialize (HP 0 1 (- E / m)). unfold psd3, form in HP. replace (E * E) with (m * (E * E / m)) by (field; lra). rewrite (Rmult_comm C).
      apply Rmult_le_compat_l; [lra|]. replace (E * E / m) with (- (2 * (E * (1 * (- E / m))) + m * (- E / m * (- E / m)))) by (field; lra). lra. }
    assert (Bz : - h <= E / m <= h).
    { assert (S : (E / m) * (E / m) <= h * h).
      { apply Rmult_le_reg_r with (m * m); [nra|]. replace (E / m * (E / m) * (m * m)) with (E * E) by (field; lra). nra. }
      split; nra. }
    apply inrect_swap. eapply inrect_eq.
    { apply (inrect_spread h l _ _ _ _ _ _ (C - E * E / m) Hh (inrect_swap _ _ _ _ _ _ _ _ (inrect_point l h m l (E / m) Pm ltac:(lra) Bz))).
      - apply Rmult_le_reg_l with m; auto. replace (m * (C - E * E / m)) with (C * m - E * E) by (field; lra). lra.
      - replace (m * (E / m * (E / m)) + (C - E * E / m)) with C by (field; lra). exact HC. }
    all: assert (ED : D = l * m) by lra; assert (EB : B = l * E) by lra; assert (EA : A = l * (l * m)) by (rewrite <- ED; lra); subst D B A; field; lra.
Qed.
(** the cone over the rectangle contains the columns *)
Lemma rect_ray l h A B C D E m k : 0 <= l -> 0 <= h -> rect_ok l h A B C D E m -> 0 <= k ->
  let x := - A + l * D in let z := - B + l * E in let w := - D + l * m in
  inrect l h (k * (x * x)) (k * (x * z)) (k * (z * z)) (k * (x * w)) (k * (z * w)) (k * (w * w)).
Proof.
  intros Hl Hh (HP & H1 & H2 & H3 & H4 & H5 & H6) Hk x z w. apply inrect_ray; auto; unfold x, z, w.
  - specialize (HP (-1) 0 l). unfold form in HP. lra.
  - lra.
Qed.
(** side x = l, not empty, and side x = l or z = h everywhere *)
Lemma rect_corner l h A B C D E m : 0 <= l -> 0 <= h -> rect_ok l h A B C D E m -> 0 < form A B C D E m (-1) 0 l -> 0 < form A B C D E m 0 (-1) h ->
  l * h * m - l * E - h * D + B = 0 -> inrect l h A B C D E m.
Proof.
  intros Hl Hh HR T1 T3 N. pose proof (rect_ray l h A B C D E m (/ form A B C D E m (-1) 0 l) Hl Hh HR (Rlt_le _ _ (Rinv_0_lt_compat _ T1))) as R1.
  pose proof (rect_ray h l C B A E D m (/ form A B C D E m 0 (-1) h) Hh Hl (rect_ok_swap _ _ _ _ _ _ _ _ HR) (Rlt_le _ _ (Rinv_0_lt_compat _ T3))) as R3. apply inrect_swap in R3.
  destruct HR as (HP & _). cbv zeta in *.
  set (t1 := form A B C D E m (-1) 0 l) in *. set (t3 := form A B C D E m 0 (-1) h) in *.
  set (x1 := - A + l * D) in *. set (z1 := - B + l * E) in *. set (w1 := - D + l * m) in *.
  set (x3 := - B + h * D) in *. set (z3 := - C + h * E) in *. set (w3 := - E + h * m) in *.
  assert (P1 : psd3 (A - / t1 * (x1 * x1)) (B - / t1 * (x1 * z1)) (C - / t1 * (z1 * z1)) (D - / t1 * (x1 * w1)) (E - / t1 * (z1 * w1)) (m - / t1 * (w1 * w1))).
  { pose proof (psd3_sub A B C D E m (-1) 0 l (/ t1) HP (Rlt_le _ _ (Rinv_0_lt_compat _ T1))) as Q. fold t1 in Q. rewrite Rinv_l in Q by lra. specialize (Q (Rle_refl 1)). cbv zeta in Q.
    replace (A * -1 + B * 0 + D * l) with x1 in Q by (unfold x1; ring). replace (B * -1 + C * 0 + E * l) with z1 in Q by (unfold z1; ring).
    replace (D * -1 + E * 0 + m * l) with w1 in Q by (unfold w1; ring). exact Q. }
  assert (O1 : - z1 + h * w1 = 0) by (unfold z1, w1; lra). assert (O3 : - x3 + l * w3 = 0) by (unfold x3, w3; lra).
  assert (D1 : - x1 + l * w1 = t1) by (unfold x1, w1, t1, form; ring). assert (D3 : - z3 + h * w3 = t3) by (unfold z3, w3, t3, form; ring).
  set (A' := A - / t1 * (x1 * x1)) in *. set (B' := B - / t1 * (x1 * z1)) in *. set (C' := C - / t1 * (z1 * z1)) in *.
  set (D' := D - / t1 * (x1 * w1)) in *. set (E' := E - / t1 * (z1 * w1)) in *. set (m' := m - / t1 * (w1 * w1)) in *.
  assert (X3 : - B' + h * D' = x3) by (unfold B', D', x3; replace (- (B - / t1 * (x1 * z1)) + h * (D - / t1 * (x1 * w1))) with (- B + h * D - / t1 * x1 * (- z1 + h * w1)) by ring; rewrite O1; ring).
  assert (Z3 : - C' + h * E' = z3) by (unfold C', E', z3; replace (- (C - / t1 * (z1 * z1)) + h * (E - / t1 * (z1 * w1))) with (- C + h * E - / t1 * z1 * (- z1 + h * w1)) by ring; rewrite O1; ring).
  assert (W3 : - E' + h * m' = w3) by (unfold E', m', w3; replace (- (E - / t1 * (z1 * w1)) + h * (m - / t1 * (w1 * w1))) with (- E + h * m - / t1 * w1 * (- z1 + h * w1)) by ring; rewrite O1; ring).
  assert (X1 : - A' + l * D' = 0) by (unfold A', D'; replace (- (A - / t1 * (x1 * x1)) + l * (D - / t1 * (x1 * w1))) with (x1 - / t1 * x1 * (- x1 + l * w1)) by (unfold x1; ring); rewrite D1; field; lra).
  assert (Z1 : - B' + l * E' = 0) by (unfold B', E'; replace (- (B - / t1 * (x1 * z1)) + l * (E - / t1 * (z1 * w1))) with (z1 - / t1 * z1 * (- x1 + l * w1)) by (unfold z1; ring); rewrite D1; field; lra).
  assert (W1 : - D' + l * m' = 0) by (unfold D', m'; replace (- (D - / t1 * (x1 * w1)) + l * (m - / t1 * (w1 * w1))) with (w1 - / t1 * w1 * (- x1 + l * w1)) by (unfold w1; ring); rewrite D1; field; lra).
  assert (F3 : form A' B' C' D' E' m' 0 (-1) h = t3) by (rewrite <- D3, <- Z3, <- W3; unfold form; ring).
  pose proof (psd3_sub A' B' C' D' E' m' 0 (-1) h (/ t3) P1 (Rlt_le _ _ (Rinv_0_lt_compat _ T3))) as P3. rewrite F3, Rinv_l in P3 by lra. specialize (P3 (Rle_refl 1)). cbv zeta in P3.
  replace (A' * 0 + B' * -1 + D' * h) with x3 in P3 by (rewrite <- X3; ring). replace (B' * 0 + C' * -1 + E' * h) with z3 in P3 by (rewrite <- Z3; ring).
  replace (D' * 0 + E' * -1 + m' * h) with w3 in P3 by (rewrite <- W3; ring).
  set (A2 := A' - / t3 * (x3 * x3)) in *. set (B2 := B' - / t3 * (x3 * z3)) in *. set (C2 := C' - / t3 * (z3 * z3)) in *.
  set (D2 := D' - / t3 * (x3 * w3)) in *. set (E2 := E' - / t3 * (z3 * w3)) in *. set (m2 := m' - / t3 * (w3 * w3)) in *.
  assert (Pm : 0 <= m2) by (specialize (P3 0 0 1); unfold form in P3; lra).
  assert (G1 : - D2 + l * m2 = 0).
  { unfold D2, m2. replace (- (D' - / t3 * (x3 * w3)) + l * (m' - / t3 * (w3 * w3))) with (- D' + l * m' - / t3 * w3 * (- x3 + l * w3)) by ring. rewrite O3, W1. ring. }
  assert (G2 : - B2 + l * E2 = 0).
  { unfold B2, E2. replace (- (B' - / t3 * (x3 * z3)) + l * (E' - / t3 * (z3 * w3))) with (- B' + l * E' - / t3 * z3 * (- x3 + l * w3)) by ring. rewrite O3, Z1. ring. }
  assert (G3 : - A2 + l * D2 = 0).
  { unfold A2, D2. replace (- (A' - / t3 * (x3 * x3)) + l * (D' - / t3 * (x3 * w3))) with (- A' + l * D' - / t3 * x3 * (- x3 + l * w3)) by ring. rewrite O3, X1. ring. }
  assert (G4 : - E2 + h * m2 = 0).
  { unfold E2, m2. replace (- (E' - / t3 * (z3 * w3)) + h * (m' - / t3 * (w3 * w3))) with (- E' + h * m' - / t3 * w3 * (- z3 + h * w3)) by ring. rewrite D3, W3. field; lra. }
  assert (G5 : - C2 + h * E2 = 0).
  { unfold C2, E2. replace (- (C' - / t3 * (z3 * z3)) + h * (E' - / t3 * (z3 * w3))) with (- C' + h * E' - / t3 * z3 * (- z3 + h * w3)) by ring. rewrite D3, Z3. field; lra. }
  pose proof (inrect_point l h m2 l h Pm ltac:(lra) ltac:(lra)) as R0.
  eapply inrect_eq; [exact (inrect_add _ _ _ _ _ _ _ _ _ _ _ _ _ _ R0 (inrect_add _ _ _ _ _ _ _ _ _ _ _ _ _ _ R1 R3))|..].
  - replace (m2 * (l * l)) with A2 by (replace A2 with (l * D2) by lra; replace D2 with (l * m2) by lra; ring). unfold A2, A'. ring.
  - replace (m2 * (l * h)) with B2 by (replace B2 with (l * E2) by lra; replace E2 with (h * m2) by lra; ring). unfold B2, B'. ring.
  - replace (m2 * (h * h)) with C2 by (replace C2 with (h * E2) by lra; replace E2 with (h * m2) by lra; ring). unfold C2, C'. ring.
  - replace (m2 * l) with D2 by lra. unfold D2, D'. ring.
  - replace (m2 * h) with E2 by lra. unfold E2, E'. ring.
  - unfold m2, m'. ring.
Qed.
(** everything on the sides x = l and x = - l *)
Lemma rect_opposite l h A B C D E m : 0 <= l -> 0 <= h -> rect_ok l h A B C D E m -> 0 < form A B C D E m (-1) 0 l -> 0 < form A B C D E m 1 0 l ->
  A = l * l * m -> inrect l h A B C D E m.
Proof.
  intros Hl Hh HR T1 T2 N. pose proof (rect_ray l h A B C D E m (/ form A B C D E m (-1) 0 l) Hl Hh HR (Rlt_le _ _ (Rinv_0_lt_compat _ T1))) as R1.
  pose proof (rect_ray l h A (- B) C (- D) E m (/ form A B C D E m 1 0 l) Hl Hh (rect_ok_flip _ _ _ _ _ _ _ _ HR) (Rlt_le _ _ (Rinv_0_lt_compat _ T2))) as R2. apply inrect_flip in R2.
  destruct HR as (HP & _ & HC & _). cbv zeta in *.
  set (t1 := form A B C D E m (-1) 0 l) in *. set (t2 := form A B C D E m 1 0 l) in *.
  set (x1 := - A + l * D) in *. set (z1 := - B + l * E) in *. set (w1 := - D + l * m) in *.
  assert (L : 0 < l). { destruct (Req_dec l 0) as [->|]; [|lra]. unfold t1, form in T1. lra. }
  set (x2 := A + l * D) in *. set (z2 := B + l * E) in *. set (w2 := D + l * m) in *.
  assert (P1 : psd3 (A - / t1 * (x1 * x1)) (B - / t1 * (x1 * z1)) (C - / t1 * (z1 * z1)) (D - / t1 * (x1 * w1)) (E - / t1 * (z1 * w1)) (m - / t1 * (w1 * w1))).
  { pose proof (psd3_sub A B C D E m (-1) 0 l (/ t1) HP (Rlt_le _ _ (Rinv_0_lt_compat _ T1))) as Q. fold t1 in Q. rewrite Rinv_l in Q by lra. specialize (Q (Rle_refl 1)). cbv zeta in Q.
    replace (A * -1 + B * 0 + D * l) with x1 in Q by (unfold x1; ring). replace (B * -1 + C * 0 + E * l) with z1 in Q by (unfold z1; ring).
    replace (D * -1 + E * 0 + m * l) with w1 in Q by (unfold w1; ring). exact Q. }
  assert (O1 : x1 + l * w1 = 0) by (unfold x1, w1; rewrite N; ring). assert (O2 : - x2 + l * w2 = 0) by (unfold x2, w2; rewrite N; ring).
  assert (D1 : - x1 + l * w1 = t1) by (unfold x1, w1, t1, form; ring). assert (D2 : x2 + l * w2 = t2) by (unfold x2, w2, t2, form; ring).
  set (A' := A - / t1 * (x1 * x1)) in *. set (B' := B - / t1 * (x1 * z1)) in *. set (C' := C - / t1 * (z1 * z1)) in *.
  set (D' := D - / t1 * (x1 * w1)) in *. set (E' := E - / t1 * (z1 * w1)) in *. set (m' := m - / t1 * (w1 * w1)) in *.
  assert (X2 : A' + l * D' = x2) by (unfold A', D', x2; replace (A - / t1 * (x1 * x1) + l * (D - / t1 * (x1 * w1))) with (A + l * D - / t1 * x1 * (x1 + l * w1)) by ring; rewrite O1; ring).
  assert (Z2 : B' + l * E' = z2) by (unfold B', E', z2; replace (B - / t1 * (x1 * z1) + l * (E - / t1 * (z1 * w1))) with (B + l * E - / t1 * z1 * (x1 + l * w1)) by ring; rewrite O1; ring).
  assert (W2 : D' + l * m' = w2) by (unfold D', m', w2; replace (D - / t1 * (x1 * w1) + l * (m - / t1 * (w1 * w1))) with (D + l * m - / t1 * w1 * (x1 + l * w1)) by ring; rewrite O1; ring).
  assert (X1 : - A' + l * D' = 0) by (unfold A', D'; replace (- (A - / t1 * (x1 * x1)) + l * (D - / t1 * (x1 * w1))) with (x1 - / t1 * x1 * (- x1 + l * w1)) by (unfold x1; ring); rewrite D1; field; lra).
  assert (Z1 : - B' + l * E' = 0) by (unfold B', E'; replace (- (B - / t1 * (x1 * z1)) + l * (E - / t1 * (z1 * w1))) with (z1 - / t1 * z1 * (- x1 + l * w1)) by (unfold z1; ring); rewrite D1; field; lra).
  assert (W1 : - D' + l * m' = 0) by (unfold D', m'; replace (- (D - / t1 * (x1 * w1)) + l * (m - / t1 * (w1 * w1))) with (w1 - / t1 * w1 * (- x1 + l * w1)) by (unfold w1; ring); rewrite D1; field; lra).
  assert (F2 : form A' B' C' D' E' m' 1 0 l = t2) by (rewrite <- D2, <- X2, <- W2; unfold form; ring).
  pose proof (psd3_sub A' B' C' D' E' m' 1 0 l (/ t2) P1 (Rlt_le _ _ (Rinv_0_lt_compat _ T2))) as P2. rewrite F2, Rinv_l in P2 by lra. specialize (P2 (Rle_refl 1)). cbv zeta in P2.
  replace (A' * 1 + B' * 0 + D' * l) with x2 in P2 by (rewrite <- X2; ring). replace (B' * 1 + C' * 0 + E' * l) with z2 in P2 by (rewrite <- Z2; ring).
  replace (D' * 1 + E' * 0 + m' * l) with w2 in P2 by (rewrite <- W2; ring).
  set (A2 := A' - / t2 * (x2 * x2)) in *. set (B2 := B' - / t2 * (x2 * z2)) in *. set (C2 := C' - / t2 * (z2 * z2)) in *.
  set (D2' := D' - / t2 * (x2 * w2)) in *. set (E2 := E' - / t2 * (z2 * w2)) in *. set (m2 := m' - / t2 * (w2 * w2)) in *.
  assert (Pc : 0 <= C2) by (specialize (P2 0 1 0); unfold form in P2; lra).
  assert (G1 : - D2' + l * m2 = 0).
  { unfold D2', m2. replace (- (D' - / t2 * (x2 * w2)) + l * (m' - / t2 * (w2 * w2))) with (- D' + l * m' - / t2 * w2 * (- x2 + l * w2)) by ring. rewrite O2, W1. ring. }
  assert (G2 : - B2 + l * E2 = 0).
  { unfold B2, E2. replace (- (B' - / t2 * (x2 * z2)) + l * (E' - / t2 * (z2 * w2))) with (- B' + l * E' - / t2 * z2 * (- x2 + l * w2)) by ring. rewrite O2, Z1. ring. }
  assert (G3 : - A2 + l * D2' = 0).
  { unfold A2, D2'. replace (- (A' - / t2 * (x2 * x2)) + l * (D' - / t2 * (x2 * w2))) with (- A' + l * D' - / t2 * x2 * (- x2 + l * w2)) by ring. rewrite O2, X1. ring. }
  assert (G4 : D2' + l * m2 = 0).
  { unfold D2', m2. replace (D' - / t2 * (x2 * w2) + l * (m' - / t2 * (w2 * w2))) with (D' + l * m' - / t2 * w2 * (x2 + l * w2)) by ring. rewrite D2, W2. field; lra. }
  assert (G5 : B2 + l * E2 = 0).
  { unfold B2, E2. replace (B' - / t2 * (x2 * z2) + l * (E' - / t2 * (z2 * w2))) with (B' + l * E' - / t2 * z2 * (x2 + l * w2)) by ring. rewrite D2, Z2. field; lra. }
  assert (ZD : D2' = 0) by lra. assert (ZB : B2 = 0) by lra. assert (ZA : A2 = 0) by (rewrite ZD in G3; lra).
  assert (Zm : m2 = 0) by (apply (Rmult_eq_reg_l l); lra). assert (ZE : E2 = 0) by (apply (Rmult_eq_reg_l l); lra).
  pose proof (inrect_add _ _ _ _ _ _ _ _ _ _ _ _ _ _ R1 R2) as R12. apply inrect_swap.
  eapply inrect_eq; [apply (inrect_spread h l _ _ _ _ _ _ C2 Hh (inrect_swap _ _ _ _ _ _ _ _ R12) Pc)|..].
  - replace (/ t1 * (z1 * z1) + / t2 * ((- - B + l * E) * (- - B + l * E)) + C2) with C by (unfold C2, C', z2; ring).
    replace (/ t1 * (w1 * w1) + / t2 * ((- - D + l * m) * (- - D + l * m))) with m; [exact HC|]. replace (- - D + l * m) with w2 by (unfold w2; ring).
    replace m with (m2 + (/ t1 * (w1 * w1) + / t2 * (w2 * w2))) at 1 by (unfold m2, m'; ring). rewrite Zm. ring.
  - unfold C2, C', z2. ring.
  - transitivity (/ t1 * (x1 * z1) + / t2 * (x2 * z2)); [unfold x2, z2; ring|unfold B2, B' in ZB; lra].
  - transitivity (/ t1 * (x1 * x1) + / t2 * (x2 * x2)); [unfold x2; ring|unfold A2, A' in ZA; lra].
  - transitivity (/ t1 * (z1 * w1) + / t2 * (z2 * w2)); [unfold z2, w2; ring|unfold E2, E' in ZE; lra].
  - transitivity (/ t1 * (x1 * w1) + / t2 * (x2 * w2)); [unfold x2, w2; ring|unfold D2', D' in ZD; lra].
  - transitivity (/ t1 * (w1 * w1) + / t2 * (w2 * w2)); [unfold w2; ring|unfold m2, m' in Zm; lra].
Qed.
(** the largest admissible step *)
Lemma max_step T a1 b1 a2 b2 a3 b3 : 0 < T -> 0 <= a1 -> 0 <= b1 -> 0 <= a2 -> 0 <= b2 -> 0 <= a3 -> 0 <= b3 ->
  exists t, 0 <= t <= T /\ 0 <= a1 - t * b1 /\ 0 <= a2 - t * b2 /\ 0 <= a3 - t * b3 /\ (t = T \/ a1 - t * b1 = 0 \/ a2 - t * b2 = 0 \/ a3 - t * b3 = 0).
Proof.
  intros HT A1 B1 A2 B2 A3 B3.
  assert (G : forall T a b, 0 <= T -> 0 <= a -> 0 <= b -> exists t, 0 <= t <= T /\ 0 <= a - t * b /\ (t = T \/ a - t * b = 0)).
  { clear. intros T a b HT Ha Hb. destruct (Rle_dec (T * b) a) as [H|H].
    - exists T. split; [lra|]. split; [lra|auto].
    - assert (Pb : 0 < b) by nra. exists (a / b). assert (Q : a / b * b = a) by (field; lra). split; [split|].
      + apply Rmult_le_pos; [auto|]. apply Rlt_le, Rinv_0_lt_compat, Pb.
      + apply Rmult_le_reg_r with b; auto. lra.
      + split; [lra|right; lra]. }
  destruct (G T a1 b1 ltac:(lra) A1 B1) as (u1 & U1 & V1 & W1). destruct (G u1 a2 b2 ltac:(lra) A2 B2) as (u2 & U2 & V2 & W2). destruct (G u2 a3 b3 ltac:(lra) A3 B3) as (u3 & U3 & V3 & W3).
  exists u3. split; [lra|]. split; [nra|]. split; [nra|]. split; [lra|].
  destruct W3 as [->|W3]; [|auto]. destruct W2 as [->|W2]; [|auto]. destruct W1 as [->|W1]; auto.
Qed.
(** sides and signs *)
Lemma rect_side_any l h A B C D E m : 0 <= l -> 0 <= h -> rect_ok l h A B C D E m ->
  form A B C D E m (-1) 0 l <= 0 \/ form A B C D E m 1 0 l <= 0 \/ form A B C D E m 0 (-1) h <= 0 \/ form A B C D E m 0 1 h <= 0 -> inrect l h A B C D E m.
Proof.
  intros Hl Hh HR [H|[H|[H|H]]].
  - apply rect_side; auto. apply Rle_antisym; [auto|]. apply HR.
  - rewrite <- (Ropp_involutive B), <- (Ropp_involutive D). apply inrect_flip, rect_side; auto; [now apply rect_ok_flip|].
    pose proof (proj1 HR 1 0 l) as P. unfold form in *. lra.
  - apply inrect_swap, rect_side; auto; [now apply rect_ok_swap|]. pose proof (proj1 HR 0 (-1) h) as P. unfold form in *. lra.
  - apply inrect_swap. rewrite <- (Ropp_involutive B), <- (Ropp_involutive E). apply inrect_flip, rect_side; auto; [now apply rect_ok_flip, rect_ok_swap|].
    pose proof (proj1 HR 0 1 h) as P. unfold form in *. lra.
Qed.
Lemma rect_zero l h A B C D E m : 0 <= l -> 0 <= h -> rect_ok l h A B C D E m ->
  l * h * m - l * E + h * D - B = 0 \/ l * h * m + l * E + h * D + B = 0 \/ h * h * m - C = 0 -> inrect l h A B C D E m.
Proof.
  intros Hl Hh HR Hz.
  destruct (Rle_dec (form A B C D E m (-1) 0 l) 0) as [S1|S1]; [apply rect_side_any; auto|]. destruct (Rle_dec (form A B C D E m 1 0 l) 0) as [S2|S2]; [apply rect_side_any; auto|].
  destruct (Rle_dec (form A B C D E m 0 (-1) h) 0) as [S3|S3]; [apply rect_side_any; auto|]. destruct (Rle_dec (form A B C D E m 0 1 h) 0) as [S4|S4]; [apply rect_side_any; auto|].
  unfold form in *. destruct Hz as [Hz|[Hz|Hz]].
  - rewrite <- (Ropp_involutive B), <- (Ropp_involutive D). apply inrect_flip, rect_corner; auto; try (now apply rect_ok_flip); unfold form; lra.
  - rewrite <- (Ropp_involutive B), <- (Ropp_involutive D). apply inrect_flip, inrect_swap. rewrite <- (Ropp_involutive (- B)), <- (Ropp_involutive E). apply inrect_flip, rect_corner; auto.
    + apply rect_ok_flip, rect_ok_swap, rect_ok_flip, HR.
    + unfold form; lra.
    + unfold form; lra.
    + lra.
  - apply inrect_swap, rect_opposite; auto; try (now apply rect_ok_swap); unfold form; lra.
Qed.
(** point masses in a rectangle have every second moment that the products of the sides allow *)
Lemma rect_exact l h A B C D E m : 0 <= l -> 0 <= h -> rect_ok l h A B C D E m -> inrect l h A B C D E m.
Proof.
  intros Hl Hh HR. destruct (Rle_dec (form A B C D E m (-1) 0 l) 0) as [S1|S1]; [apply rect_side_any; auto|]. assert (T1 : 0 < form A B C D E m (-1) 0 l) by lra. clear S1.
  pose proof HR as (HP & H1 & H2 & H3 & H4 & H5 & H6).
  set (N12 := l * l * m - A). set (N13 := l * h * m - l * E - h * D + B). set (N14 := l * h * m + l * E - h * D - B).
  destruct (max_step (/ form A B C D E m (-1) 0 l) (l * h * m - l * E + h * D - B) (N12 * N13) (l * h * m + l * E + h * D + B) (N12 * N14) (h * h * m - C) (N13 * N14)) as (t & Ht & K1 & K2 & K3 & HZ);
    try (apply Rmult_le_pos); unfold N12, N13, N14; try lra; [now apply Rinv_0_lt_compat|].
  pose proof (rect_ray l h A B C D E m t Hl Hh HR ltac:(lra)) as R1. cbv zeta in R1.
  set (t1 := form A B C D E m (-1) 0 l) in *. assert (Et : t * t1 <= 1). { apply Rmult_le_reg_r with (/ t1); [now apply Rinv_0_lt_compat|]. rewrite Rmult_assoc, Rinv_r by lra. lra. }
  pose proof (psd3_sub A B C D E m (-1) 0 l t HP ltac:(lra) Et) as P1. cbv zeta in P1.
  set (x := - A + l * D) in *. set (z := - B + l * E) in *. set (w := - D + l * m) in *.
  replace (A * -1 + B * 0 + D * l) with x in P1 by (unfold x; ring). replace (B * -1 + C * 0 + E * l) with z in P1 by (unfold z; ring). replace (D * -1 + E * 0 + m * l) with w in P1 by (unfold w; ring).
  assert (F1 : - x + l * w = t1) by (unfold x, w, t1, form; ring). assert (F2 : x + l * w = N12) by (unfold x, w, N12; ring).
  assert (F3 : - z + h * w = N13) by (unfold z, w, N13; ring). assert (F4 : z + h * w = N14) by (unfold z, w, N14; ring).
  assert (OK : rect_ok l h (A - t * (x * x)) (B - t * (x * z)) (C - t * (z * z)) (D - t * (x * w)) (E - t * (z * w)) (m - t * (w * w))).
  { split; [exact P1|]. assert (Q : forall n, 0 <= n -> 0 <= n - t * (t1 * n)) by (intros n Hn; replace (n - t * (t1 * n)) with (n * (1 - t * t1)) by ring; apply Rmult_le_pos; lra).
    assert (Q2 : 0 <= N12 - t * (t1 * N12)) by (apply Q; unfold N12; lra). assert (Q3 : 0 <= N13 - t * (t1 * N13)) by (apply Q; unfold N13; lra). assert (Q4 : 0 <= N14 - t * (t1 * N14)) by (apply Q; unfold N14; lra).
    clear Q. split; [|split; [|split; [|split; [|split]]]].
    - apply Rminus_le. replace (A - t * (x * x) - l * l * (m - t * (w * w))) with (- (N12 - t * ((- x + l * w) * (x + l * w)))) by (unfold N12; ring). rewrite F1, F2. lra.
    - apply Rminus_le. replace (C - t * (z * z) - h * h * (m - t * (w * w))) with (- (h * h * m - C - t * ((- z + h * w) * (z + h * w)))) by ring. rewrite F3, F4. lra.
    - replace (l * h * (m - t * (w * w)) - l * (E - t * (z * w)) - h * (D - t * (x * w)) + (B - t * (x * z))) with (N13 - t * ((- x + l * w) * (- z + h * w))) by (unfold N13; ring). rewrite F1, F3. lra.
    - replace (l * h * (m - t * (w * w)) + l * (E - t * (z * w)) - h * (D - t * (x * w)) - (B - t * (x * z))) with (N14 - t * ((- x + l * w) * (z + h * w))) by (unfold N14; ring). rewrite F1, F4. lra.
    - replace (l * h * (m - t * (w * w)) - l * (E - t * (z * w)) + h * (D - t * (x * w)) - (B - t * (x * z))) with (l * h * m - l * E + h * D - B - t * ((x + l * w) * (- z + h * w))) by ring. rewrite F2, F3. lra.
    - replace (l * h * (m - t * (w * w)) + l * (E - t * (z * w)) + h * (D - t * (x * w)) + (B - t * (x * z))) with (l * h * m + l * E + h * D + B - t * ((x + l * w) * (z + h * w))) by ring. rewrite F2, F4. lra. }
  assert (R2 : inrect l h (A - t * (x * x)) (B - t * (x * z)) (C - t * (z * z)) (D - t * (x * w)) (E - t * (z * w)) (m - t * (w * w))).
  { destruct HZ as [HZ|HZ].
    - apply rect_side_any; auto. left.
      replace (form (A - t * (x * x)) (B - t * (x * z)) (C - t * (z * z)) (D - t * (x * w)) (E - t * (z * w)) (m - t * (w * w)) (-1) 0 l) with (t1 - t * ((- x + l * w) * (- x + l * w))) by (unfold form, t1, form; ring).
      rewrite F1, HZ. right. field. lra.
    - apply rect_zero; auto. destruct HZ as [HZ|[HZ|HZ]]; [left|right; left|right; right]; rewrite <- HZ.
      + rewrite <- F2, <- F3. ring.
      + rewrite <- F2, <- F4. ring.
      + rewrite <- F3, <- F4. ring. }
  eapply inrect_eq; [exact (inrect_add _ _ _ _ _ _ _ _ _ _ _ _ _ _ R2 R1)|ring..].
Qed.
