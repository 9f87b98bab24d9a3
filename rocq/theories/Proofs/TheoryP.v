(** scripts/theory: thin layers, faces, edges and corners. *)
From Verif Require Import Base.Vec Base.VecFacts Spec.Basic Spec.Objects Spec.Shapes Spec.ShapeObjects Spec.Realizable Spec.Limit
  Model.Util Model.Inertial Model.Polydd Model.Poly Model.Ellipsoid Model.Box Model.Theory
  Proofs.Coord Proofs.InertialP Proofs.InertialT Proofs.BoxP Proofs.EllP Proofs.DensityP.

(** ** limits *)
Lemma tends_cont f g l : (forall d, 0 < d -> f d = g d) -> continuity_pt g 0 -> g 0 = l -> tends_to_0r f l.
Proof.
  intros E C <- e He. destruct (C e He) as (t & Ht & K). exists t. split; [exact Ht|]. intros d (D1 & D2). rewrite (E d D1).
  apply (K d). split; [split; [exact I|lra]|]. simpl. unfold R_dist. rewrite Rminus_0_r, Rabs_pos_eq; lra.
Qed.
Lemma tends_const k : tends_to_0r (fun _ => k) k.
Proof. intros e He. exists 1. split; [lra|]. intros d _. rewrite Rminus_diag_eq, Rabs_R0; lra. Qed.
Lemma tends_plus f g l k : tends_to_0r f l -> tends_to_0r g k -> tends_to_0r (fun d => f d + g d) (l + k).
Proof.
  intros F G e He. destruct (F (e / 2) ltac:(lra)) as (t & Ht & A). destruct (G (e / 2) ltac:(lra)) as (u & Hu & B).
  exists (Rmin t u). split; [now apply Rmin_pos|]. intros d (D1 & D2).
  pose proof (Rmin_l t u). pose proof (Rmin_r t u). specialize (A d ltac:(lra)). specialize (B d ltac:(lra)).
  replace (f d + g d - (l + k)) with ((f d - l) + (g d - k)) by ring. eapply Rle_lt_trans; [apply Rabs_triang|]. lra.
Qed.
Lemma tends_scal f l k : tends_to_0r f l -> tends_to_0r (fun d => k * f d) (k * l).
Proof.
  intros F e He. pose proof (Rabs_pos k). destruct (F (e / (Rabs k + 1))) as (t & Ht & A).
  { apply Rdiv_lt_0_compat; lra. }
  exists t. split; [exact Ht|]. intros d D. specialize (A d D). replace (k * f d - k * l) with (k * (f d - l)) by ring. rewrite Rabs_mult.
  apply Rle_lt_trans with ((Rabs k) * (e / (Rabs k + 1))); [apply Rmult_le_compat_l; lra|].
  apply (Rmult_lt_reg_r (Rabs k + 1)); [lra|]. replace (Rabs k * (e / (Rabs k + 1)) * (Rabs k + 1)) with (Rabs k * e) by (field; lra). lra.
Qed.
Lemma tends_ext f g l : (forall d, 0 < d -> f d = g d) -> tends_to_0r g l -> tends_to_0r f l.
Proof. intros E G e He. destruct (G e He) as (t & Ht & A). exists t. split; [exact Ht|]. intros d D. rewrite E by lra. auto. Qed.
Lemma tends_eq f l k : tends_to_0r f l -> l = k -> tends_to_0r f k.
Proof. now intros H <-. Qed.

(** ** the layer between half extents (a, b, c) and (a + d, b + d, c + d) *)
(** V2 a2² - V1 a² over V2 - V1 *)
Definition lay (a b c d : R) : R := ((a + d) * (b + d) * (c + d) * ((a + d) * (a + d)) - a * b * c * (a * a)) / ((a + d) * (b + d) * (c + d) - a * b * c).
Lemma lay_den a b c d : 0 <= a -> 0 <= b -> 0 <= c -> 0 < d -> 0 < (a + d) * (b + d) * (c + d) - a * b * c.
Proof.
  intros. replace ((a + d) * (b + d) * (c + d) - a * b * c) with (d * (a * b + a * c + b * c + d * (a + b + c) + d * d)) by ring.
  apply Rmult_lt_0_compat; [lra|]. pose proof (Rmult_le_pos a b). pose proof (Rmult_le_pos a c). pose proof (Rmult_le_pos b c).
  pose proof (Rmult_le_pos d (a + b + c)). pose proof (Rmult_lt_0_compat d d). lra.
Qed.
Lemma lay_limit a b c : 0 <= a -> 0 <= b -> 0 <= c -> 0 < a * b + a * c + b * c ->
  tends_to_0r (lay a b c) (a * a * (a * b + a * c + 3 * b * c) / (a * b + a * c + b * c)).
Proof.
  intros Ha Hb Hc Hd. set (q := fun d => a * b + a * c + b * c + d * (a + b + c) + d * d).
  apply tends_cont with (g := fun d => ((a + d) * (a + d) * (a * b + a * c + b * c + d * (a + b + c) + d * d) + a * b * c * (2 * a + d))
    / (a * b + a * c + b * c + d * (a + b + c) + d * d)).
  - intros d D. unfold lay.
    assert (Q : 0 < a * b + a * c + b * c + d * (a + b + c) + d * d). { pose proof (Rmult_le_pos d (a + b + c)). pose proof (Rmult_lt_0_compat d d). lra. }
    pose proof (lay_den a b c d Ha Hb Hc D). field. split; lra.
  - clear q. apply continuity_pt_div.
    + reg.
    + reg.
    + lra.
  - field. lra.
Qed.
Lemma lay_2 a b c d : lay b a c d = ((a + d) * (b + d) * (c + d) * ((b + d) * (b + d)) - a * b * c * (b * b)) / ((a + d) * (b + d) * (c + d) - a * b * c).
Proof. unfold lay. replace ((b + d) * (a + d) * (c + d)) with ((a + d) * (b + d) * (c + d)) by ring. now replace (b * a * c) with (a * b * c) by ring. Qed.
Lemma lay_3 a b c d : lay c a b d = ((a + d) * (b + d) * (c + d) * ((c + d) * (c + d)) - a * b * c * (c * c)) / ((a + d) * (b + d) * (c + d) - a * b * c).
Proof. unfold lay. replace ((c + d) * (a + d) * (b + d)) with ((a + d) * (b + d) * (c + d)) by ring. now replace (c * a * b) with (a * b * c) by ring. Qed.

Definition shell_moment (a b c : R) : mat :=
  let d := a * b + a * c + b * c in
  diag [a * a * (a * b + a * c + 3 * b * c) / d; b * b * (a * b + 3 * a * c + b * c) / d; c * c * (3 * a * b + a * c + b * c) / d].

Lemma layer_eq a b c d : 0 <= a -> 0 <= b -> 0 <= c -> 0 < d ->
  th_layer a b c d = diag [lay b a c d + lay c a b d; lay a b c d + lay c a b d; lay a b c d + lay b a c d].
Proof.
  intros Ha Hb Hc Hd. pose proof (lay_den a b c d Ha Hb Hc Hd). rewrite lay_2, lay_3. unfold lay. unfold th_layer, th_S. cbn. list_eq; field; lra.
Qed.
Lemma layer_limit a b c : 0 <= a -> 0 <= b -> 0 <= c -> 0 < a * b + a * c + b * c ->
  mat_tends_to_0r 3 3 (th_layer a b c) (th_dual (shell_moment a b c)).
Proof.
  intros Ha Hb Hc Hd.
  pose proof (lay_limit a b c Ha Hb Hc Hd) as La. pose proof (lay_limit b a c Hb Ha Hc ltac:(lra)) as Lb. pose proof (lay_limit c a b Hc Ha Hb ltac:(lra)) as Lc.
  split; [split; [reflexivity|repeat constructor]|]. intros i j Hi Hj.
  apply tends_ext with (g := fun d => entry (diag [lay b a c d + lay c a b d; lay a b c d + lay c a b d; lay a b c d + lay b a c d]) i j).
  { intros d D. now rewrite layer_eq. }
  destruct i as [|[|[|i]]]; try lia; destruct j as [|[|[|j]]]; try lia; unfold entry; cbn;
  try (eapply tends_eq; [apply tends_const|field; lra]);
  eapply tends_eq; try (apply tends_plus; eassumption); field; repeat split; lra.
Qed.
