(** Riemann integrability of indicators of intervals and of monotone functions. *)
From Coquelicot Require Import Coquelicot.
From Coq Require Import Classical.
From Verif Require Import Base.Vec Spec.Basic Spec.Integrals Proofs.IntegralP.

Lemma em (P : Prop) : {P} + {~ P}.
Proof. destruct (ClassicalDedekindReals.sig_not_dec P) as [H|H]; [left; now apply NNPP|now right]. Qed.
Definition ind (P : Prop) : R := if em P then 1 else 0.
Lemma ind_true (P : Prop) : P -> ind P = 1.
Proof. unfold ind. destruct em; tauto. Qed.
Lemma ind_false (P : Prop) : ~ P -> ind P = 0.
Proof. unfold ind. destruct em; tauto. Qed.
Lemma ind_bounds P : 0 <= ind P <= 1.
Proof. unfold ind. destruct em; lra. Qed.
Lemma ind_le (P Q : Prop) : (P -> Q) -> ind P <= ind Q.
Proof. unfold ind. do 2 destruct em; try lra; tauto. Qed.
Lemma ind_iff (P Q : Prop) : (P <-> Q) -> ind P = ind Q.
Proof. unfold ind. do 2 destruct em; tauto. Qed.

Definition exI (f : R -> R) (a b : R) : Prop := @ex_RInt R_NormedModule f a b.
Lemma const_ex x a b : exI (fun _ : R => x) a b.
Proof. apply (ex_RInt_const (V := R_NormedModule)). Qed.
(** indicators of sets closed downwards *)
Lemma down_ex (P : R -> Prop) a b : a <= b -> (forall x y, x <= y -> P y -> P x) -> exI (fun x => ind (P x)) a b.
Proof.
  intros Hab HP. destruct (classic (exists x, a <= x <= b /\ P x)) as [(x0 & B0 & P0)|N].
  - destruct (completeness (fun x => a <= x <= b /\ P x)) as (c & U & L).
    + exists b. intros x [[_ H] _]. exact H.
    + now exists x0.
    + assert (Ca : a <= c) by (apply Rle_trans with x0; [lra|apply U; auto]). assert (Cb : c <= b) by (apply L; intros x [[_ H] _]; exact H).
      apply (ex_RInt_Chasles (V := R_NormedModule) _ a c b).
      * eapply (ex_RInt_ext (V := R_NormedModule)); [|apply (const_ex 1 a c)]. intros x Hx. rewrite Rmin_left, Rmax_right in Hx by lra. symmetry. apply ind_true. apply NNPP. intro NP.
        assert (c <= x); [|lra]. apply L. intros y [By Py]. apply Rnot_lt_le. intro. apply NP. apply (HP x y); [lra|exact Py].
      * eapply (ex_RInt_ext (V := R_NormedModule)); [|apply (const_ex 0 c b)]. intros x Hx. rewrite Rmin_left, Rmax_right in Hx by lra. symmetry. apply ind_false. intro Px. assert (x <= c); [|lra]. apply U. split; [lra|exact Px].
  - eapply (ex_RInt_ext (V := R_NormedModule)); [|apply (const_ex 0 a b)]. intros x Hx. rewrite Rmin_left, Rmax_right in Hx by lra. symmetry. apply ind_false. intro Px. apply N. exists x. split; [lra|exact Px].
Qed.
(** of intervals *)
Definition convex1 (P : R -> Prop) : Prop := forall x y z, x <= y <= z -> P x -> P z -> P y.
Lemma convex_ex (P : R -> Prop) a b : a <= b -> convex1 P -> exI (fun x => ind (P x)) a b.
Proof.
  intros Hab HP. set (D := fun x => exists y, x <= y /\ P y). set (E := fun x => D x /\ ~ P x).
  apply (ex_RInt_ext (V := R_NormedModule) (fun x => minus (ind (D x)) (ind (E x)))).
  - intros x _. unfold minus, plus, opp. cbn. destruct (classic (P x)) as [Px|Nx].
    + rewrite (ind_true (P x) Px), (ind_true (D x)), (ind_false (E x)); [change (@eq R (1 + - 0) 1); ring|unfold E; tauto|exists x; split; [lra|auto]].
    + rewrite (ind_false (P x) Nx). destruct (classic (D x)) as [Dx|Ndx].
      * rewrite (ind_true (D x) Dx), (ind_true (E x)); [change (@eq R (1 + - 1) 0); ring|now split].
      * rewrite (ind_false (D x) Ndx), (ind_false (E x)); [change (@eq R (0 + - 0) 0); ring|unfold E; tauto].
  - apply (ex_RInt_minus (V := R_NormedModule)); apply down_ex; auto.
    + intros x y Hxy (w & H1 & H2). exists w. split; [lra|auto].
    + intros x y Hxy [(w & H1 & H2) NP]. split; [exists w; split; [lra|auto]|]. intro Px. apply NP. apply (HP x y w); auto; lra.
Qed.
Lemma ind_or P Q : ind (P \/ Q) = ind P + ind Q - ind (P /\ Q).
Proof. unfold ind. repeat destruct em; try lra; tauto. Qed.
Lemma ex_plus f g a b : exI f a b -> exI g a b -> exI (fun x => f x + g x) a b.
Proof. intros H K. exact (ex_RInt_plus (V := R_NormedModule) f g a b H K). Qed.
Lemma ex_minus f g a b : exI f a b -> exI g a b -> exI (fun x => f x - g x) a b.
Proof. intros H K. exact (ex_RInt_minus (V := R_NormedModule) f g a b H K). Qed.
Lemma ex_scal k f a b : exI f a b -> exI (fun x => k * f x) a b.
Proof. intros H. exact (ex_RInt_scal (V := R_NormedModule) f a b k H). Qed.
Lemma ex_ext f g a b : a <= b -> (forall x, a < x < b -> f x = g x) -> exI f a b -> exI g a b.
Proof. intros H E. apply (ex_RInt_ext (V := R_NormedModule)). intros x Hx. rewrite Rmin_left, Rmax_right in Hx by lra. auto. Qed.
Lemma union3_ex (P Q S : R -> Prop) a b : a <= b -> convex1 P -> convex1 Q -> convex1 S -> exI (fun x => ind (P x \/ Q x \/ S x)) a b.
Proof.
  intros Hab HP HQ HS. assert (CC : forall A B, convex1 A -> convex1 B -> convex1 (fun x => A x /\ B x)).
  { intros A B HA HB x y z Hx [A1 B1] [A2 B2]. split; [apply (HA x y z)|apply (HB x y z)]; auto. }
  assert (E2 : forall A B, convex1 A -> convex1 B -> exI (fun x => ind (A x \/ B x)) a b).
  { intros A B HA HB. apply (ex_ext (fun x => ind (A x) + ind (B x) - ind (A x /\ B x))); [exact Hab|intros; now rewrite ind_or|]. apply ex_minus; [apply ex_plus; apply convex_ex; auto|apply (convex_ex (fun x => A x /\ B x)); auto]. }
  apply (ex_ext (fun x => ind (P x) + ind (Q x \/ S x) - ind ((P x /\ Q x) \/ (P x /\ S x)))); auto.
  - intros x _. rewrite (ind_or (P x)). f_equal. apply ind_iff. tauto.
  - apply ex_minus; [apply ex_plus; [apply convex_ex|apply E2]; auto|]. apply (E2 (fun x => P x /\ Q x) (fun x => P x /\ S x)); auto.
Qed.
(** of functions that decrease on the interval *)
Fixpoint stairs (f : R -> R) (d : R) (n : nat) (x : R) : R := match n with O => 0 | S n => stairs f d n x + d * ind (INR (S n) * d <= f x) end.
Lemma stairs_near f d n x : 0 < d -> 0 <= f x -> (INR n * d <= f x -> stairs f d n x = INR n * d) /\ (f x < INR n * d -> f x - d <= stairs f d n x <= f x).
Proof.
  intros Hd Hf. induction n as [|n [IH1 IH2]].
  - change (INR 0) with 0. cbn. split; intros; lra.
  - cbn [stairs]. rewrite S_INR in *. split; intro H.
    + rewrite ind_true by auto. rewrite IH1 by lra. ring.
    + rewrite ind_false by lra. destruct (Rle_lt_dec (INR n * d) (f x)) as [K|K]; [rewrite IH1 by auto; lra|]. specialize (IH2 K). lra.
Qed.
Lemma decreasing_ex f a b : a <= b -> (forall x y, a <= x -> x <= y -> y <= b -> f y <= f x) -> exI f a b.
Proof.
  intros Hab HF. set (cl := fun x => Rmax a (Rmin x b)).
  assert (Ccl : forall x, a <= cl x <= b) by (intro x; unfold cl, Rmax, Rmin; repeat destruct Rle_dec; lra).
  assert (Mcl : forall x y, x <= y -> cl x <= cl y) by (intros x y; unfold cl, Rmax, Rmin; repeat destruct Rle_dec; lra).
  set (M := f a - f b + 1). assert (PM : 0 < M) by (pose proof (HF a b ltac:(lra) Hab ltac:(lra)); unfold M; lra).
  set (g := fun x => f (cl x) - f b).
  assert (Bg : forall x, 0 <= g x < M). { intro x. destruct (Ccl x). unfold g, M. pose proof (HF a (cl x) ltac:(lra) ltac:(lra) ltac:(lra)). pose proof (HF (cl x) b ltac:(lra) ltac:(lra) ltac:(lra)). lra. }
  assert (Dg : forall x y, x <= y -> g y <= g x). { intros x y H. unfold g. pose proof (HF (cl x) (cl y) ltac:(apply Ccl) ltac:(auto) ltac:(apply Ccl)). lra. }
  assert (EG : exI g a b).
  { set (fn := fun n : nat => stairs g (M / INR (S n)) (S n)).
    assert (E : forall n, exI (fn n) a b).
    { intro n. unfold fn. generalize (S n) at 2 as k. induction k as [|k IH]; cbn [stairs]; [apply const_ex|]. apply ex_plus; [exact IH|]. apply ex_scal. apply down_ex; auto. intros x y H K. specialize (Dg x y H). lra. }
    assert (L : filterlim fn Hierarchy.eventually (@locally (fct_UniformSpace R R_UniformSpace) g)).
    { apply (proj2 (filterlim_locally (U := fct_UniformSpace R R_UniformSpace) fn g)). intros eps. destruct (archimed_cor1 (pos eps / M)) as (N & H1 & H2); [apply Rdiv_lt_0_compat; [apply eps|exact PM]|].
      exists N. intros n Hn x. assert (PN : 0 < INR (S n)) by (apply lt_0_INR; lia). set (d := M / INR (S n)). assert (Pd : 0 < d) by now apply Rdiv_lt_0_compat.
      assert (En : INR (S n) * d = M) by (unfold d; field; lra). destruct (stairs_near g d (S n) x Pd ltac:(apply Bg)) as [_ K]. rewrite En in K. specialize (K ltac:(apply Bg)).
      assert (De : d < eps). { unfold d. assert (I1 : / INR (S n) <= / INR N) by (apply Rinv_le_contravar; [apply lt_0_INR; lia|apply le_INR; lia]).
        apply Rle_lt_trans with (M * / INR N); [apply Rmult_le_compat_l; lra|]. replace (pos eps) with (M * (pos eps / M)) by (field; lra). apply Rmult_lt_compat_l; lra. }
      change (Rabs (fn n x - g x) < eps). unfold fn. fold d. apply Rabs_def1; lra. }
    destruct (filterlim_RInt (V := R_CompleteNormedModule) fn a b Hierarchy.eventually _ g (fun n => RInt (V := R_CompleteNormedModule) (fn n) a b) (fun n => RInt_correct (V := R_CompleteNormedModule) (fn n) a b (E n)) L) as (I & _ & HI). now exists I. }
  apply (ex_ext (fun x => g x + f b)); auto; [|apply ex_plus; [exact EG|apply const_ex]].
  intros x Hx. unfold g. replace (cl x) with x by (unfold cl, Rmax, Rmin; repeat destruct Rle_dec; lra). ring.
Qed.
Lemma increasing_ex f a b : a <= b -> (forall x y, a <= x -> x <= y -> y <= b -> f x <= f y) -> exI f a b.
Proof.
  intros H F. apply (ex_ext (fun x => -1 * (- f x))); auto; [intros; ring|]. apply ex_scal. apply decreasing_ex; auto. intros x y H1 H2 H3. specialize (F x y H1 H2 H3). lra.
Qed.
Lemma even_ex f w : 0 <= w -> (forall x y, Rabs x <= Rabs y -> Rabs y <= w -> f y <= f x) -> exI f (- w) w.
Proof.
  intros Hw F. apply (ex_RInt_Chasles (V := R_NormedModule) _ (- w) 0 w).
  - apply increasing_ex; [lra|]. intros x y H1 H2 H3. apply F; rewrite ?(Rabs_left1 x), ?(Rabs_left1 y) by lra; lra.
  - apply decreasing_ex; [lra|]. intros x y H1 H2 H3. apply F; rewrite ?(Rabs_pos_eq x), ?(Rabs_pos_eq y) by lra; lra.
Qed.
Definition itg (f : R -> R) (a b : R) : R := RInt (V := R_CompleteNormedModule) f a b.
Lemma itg_ok f a b : exI f a b -> integral f a b (itg f a b).
Proof. exact (RInt_correct (V := R_CompleteNormedModule) f a b). Qed.
Lemma itg_le f g a b : a <= b -> exI f a b -> exI g a b -> (forall x, a < x < b -> f x <= g x) -> itg f a b <= itg g a b.
Proof. intros. now apply RInt_le. Qed.
Lemma itg_const k a b : itg (fun _ => k) a b = k * (b - a).
Proof. unfold itg. rewrite (RInt_const (V := R_CompleteNormedModule)). change ((b - a) * k = k * (b - a)). ring. Qed.
(** an integral of a function that is not negative is at least what an inner interval contributes *)
Lemma itg_inner f w w' k : 0 <= w' <= w -> exI f (- w) w -> (forall x, - w < x < w -> 0 <= f x) -> (forall x, - w' < x < w' -> k <= f x) -> k * (2 * w') <= itg f (- w) w.
Proof.
  intros Hw E P K.
  assert (E1 : exI f (- w) (- w')) by (apply (ex_RInt_Chasles_1 (V := R_CompleteNormedModule) f (- w) (- w') w); [lra|exact E]).
  assert (E0 : exI f (- w') w) by (apply (ex_RInt_Chasles_2 (V := R_CompleteNormedModule) f (- w) (- w') w); [lra|exact E]).
  assert (E2 : exI f (- w') w') by (apply (ex_RInt_Chasles_1 (V := R_CompleteNormedModule) f (- w') w' w); [lra|exact E0]).
  assert (E3 : exI f w' w) by (apply (ex_RInt_Chasles_2 (V := R_CompleteNormedModule) f (- w') w' w); [lra|exact E0]).
  assert (C1 : itg f (- w) (- w') + itg f (- w') w = itg f (- w) w) by exact (RInt_Chasles (V := R_CompleteNormedModule) f (- w) (- w') w E1 E0).
  assert (C2 : itg f (- w') w' + itg f w' w = itg f (- w') w) by exact (RInt_Chasles (V := R_CompleteNormedModule) f (- w') w' w E2 E3).
  assert (A1 : 0 <= itg f (- w) (- w')). { rewrite <- (Rmult_0_l (- w' - - w)), <- itg_const. apply itg_le; auto; [lra|apply const_ex|]. intros x Hx. apply P. lra. }
  assert (A3 : 0 <= itg f w' w). { rewrite <- (Rmult_0_l (w - w')), <- itg_const. apply itg_le; auto; [lra|apply const_ex|]. intros x Hx. apply P. lra. }
  assert (A2 : k * (2 * w') <= itg f (- w') w'). { replace (k * (2 * w')) with (k * (w' - - w')) by ring. rewrite <- itg_const. apply itg_le; auto; [lra|apply const_ex]. }
  lra.
Qed.
Lemma sq_abs x y : Rabs x <= Rabs y -> x * x <= y * y.
Proof. intro H. rewrite <- (Rabs_pos_eq (x * x)), <- (Rabs_pos_eq (y * y)), !Rabs_mult by apply Rle_0_sqr. pose proof (Rabs_pos x). apply Rmult_le_compat; lra. Qed.
(** the volume of a body whose sections shrink with the distance from the axis exists *)
Lemma radial_volume (S : R -> R -> Prop) w h h' : 0 <= w -> 0 <= h' <= h -> (forall q q' z, q <= q' -> S q' z -> S q z) ->
  (forall q, exI (fun z => ind (S q z)) (- h) h) -> (forall q z, q <= w * w / 2 -> - h' <= z <= h' -> S q z) ->
  exists A, integral3 (- w) w (fun _ => - w) (fun _ => w) (fun _ _ => - h) (fun _ _ => h) (fun x y z => ind (S (x * x + y * y) z)) A /\ w * w * (2 * h') <= A.
Proof.
  intros Hw Hh D E L. set (m := fun q => itg (fun z => ind (S q z)) (- h) h).
  assert (M1 : forall q q', q <= q' -> m q' <= m q). { intros q q' H. apply itg_le; auto; [lra|]. intros z _. apply ind_le. now apply D. }
  assert (M0 : forall q, 0 <= m q). { intro q. unfold m. rewrite <- (Rmult_0_l (h - - h)), <- itg_const. apply itg_le; auto; [lra|apply const_ex|]. intros z _. apply ind_bounds. }
  assert (M2 : forall q, q <= w * w / 2 -> 1 * (2 * h') <= m q). { intros q Hq. apply itg_inner; auto; [intros; apply ind_bounds|]. intros z Hz. rewrite ind_true; [lra|]. apply L; [auto|lra]. }
  assert (EF : forall x, exI (fun y => m (x * x + y * y)) (- w) w). { intro x. apply even_ex; auto. intros y y' H _. apply M1. pose proof (sq_abs y y' H). lra. }
  set (F := fun x => itg (fun y => m (x * x + y * y)) (- w) w).
  assert (ES : exI F (- w) w). { apply even_ex; auto. intros x x' H _. apply itg_le; auto; [lra|]. intros y _. apply M1. pose proof (sq_abs x x' H). lra. }
  exists (itg F (- w) w). split.
  - exists F. split; [|now apply itg_ok]. intros x _. exists (fun y => m (x * x + y * y)). split; [|now apply itg_ok]. intros y _. now apply itg_ok.
  - replace (w * w * (2 * h')) with ((2 * h' * (2 * (w / 2))) * (2 * (w / 2))) by field. apply itg_inner; [lra|exact ES| |].
    + intros x _. unfold F. rewrite <- (Rmult_0_l (w - - w)), <- itg_const. apply itg_le; auto; [lra|apply const_ex].
    + intros x Hx. apply itg_inner; auto; [lra|]. intros y Hy. rewrite <- (Rmult_1_l (2 * h')). apply M2.
      assert (x * x <= w / 2 * (w / 2)) by (apply sq_abs; rewrite (Rabs_pos_eq (w / 2)) by lra; apply Rabs_le; lra).
      assert (y * y <= w / 2 * (w / 2)) by (apply sq_abs; rewrite (Rabs_pos_eq (w / 2)) by lra; apply Rabs_le; lra). lra.
Qed.
Lemma lin_int k : integral (fun x => k * x) 0 1 (k / 2).
Proof.
  apply (integral_primitive (fun x => k / 2 * (x * x))); [intro x; auto_derive; [exact I|field]| |field]. intro x. apply (continuous_scal_r k (fun x : R => x)). apply continuous_id.
Qed.
