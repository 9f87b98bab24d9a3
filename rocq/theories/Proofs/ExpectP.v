(** Means over independent draws: linearity, polynomials, sums over rows. *)
From Coquelicot Require Import Coquelicot.
From Verif Require Import Base.Vec Base.VecFacts Spec.Basic Spec.Integrals Spec.RandomSpec Spec.Expect Proofs.IntegralP.

(** ** uniform draws *)
Lemma mean_u_ext n : forall F G I, (forall l, draws_of n (uniform_draw (-1) 1) l -> F l = G l) -> mean_u n F I -> mean_u n G I.
Proof.
  induction n; intros F G I H; cbn; [intros ->; apply H; now split|].
  intros (K & H1 & H2). exists K. split; [|exact H2]. intros x Hx. apply (IHn (fun l => F (x :: l))); [|now apply H1].
  intros l [L Hl]. apply H. split; [cbn; lia|]. intros y [<-|Hy]; auto.
Qed.
Lemma mean_u_eq n F I J : mean_u n F I -> I = J -> mean_u n F J.
Proof. now intros H <-. Qed.
Lemma integral_lin f g a b c k l I J : integral f a b I -> integral g a b J -> integral (fun x => c + k * f x + l * g x) a b (c * (b - a) + k * I + l * J).
Proof.
  intros H1 H2. unfold integral in *.
  pose proof (@is_RInt_const R_NormedModule a b c) as H0.
  pose proof (is_RInt_scal _ _ _ k _ H1) as K1. pose proof (is_RInt_scal _ _ _ l _ H2) as K2.
  pose proof (is_RInt_plus _ _ _ _ _ _ (is_RInt_plus _ _ _ _ _ _ H0 K1) K2) as H.
  unfold plus, scal in H; cbn in H; unfold mult in H; cbn in H. replace (c * (b - a)) with ((b - a) * c) by ring. exact H.
Qed.
Lemma mean_u_lin n : forall F G c k l I J, mean_u n F I -> mean_u n G J -> mean_u n (fun v => c + k * F v + l * G v) (c + k * I + l * J).
Proof.
  induction n; intros F G c k l I J; cbn; [now intros -> ->|].
  intros (K1 & H1 & E1) (K2 & H2 & E2). exists (fun x => c + k * K1 x + l * K2 x). split.
  - intros x Hx. apply (IHn (fun v => F (x :: v)) (fun v => G (x :: v))); auto.
  - eapply integral_eq; [exact (integral_lin _ _ _ _ c k l _ _ E1 E2)|]. ring.
Qed.
Lemma mean_u_const n c : mean_u n (fun _ => c) c.
Proof.
  induction n; cbn; [reflexivity|]. exists (fun _ => c). split; [auto|].
  eapply integral_eq; [exact (@is_RInt_const R_NormedModule (-1) 1 c)|]. unfold scal; cbn; unfold mult; cbn. ring.
Qed.
Lemma mean_u_scal n F k I : mean_u n F I -> mean_u n (fun v => k * F v) (k * I).
Proof.
  intro H. eapply mean_u_eq; [eapply mean_u_ext; [|exact (mean_u_lin n F F 0 k 0 I I H H)]|]; [intros|]; cbn; ring.
Qed.
Lemma mean_u_plus n F G I J : mean_u n F I -> mean_u n G J -> mean_u n (fun v => F v + G v) (I + J).
Proof.
  intros H K. eapply mean_u_eq; [eapply mean_u_ext; [|exact (mean_u_lin n F G 0 1 1 I J H K)]|]; [intros|]; cbn; ring.
Qed.
Lemma mean_u_le n : forall F G I J, (forall l, draws_of n (uniform_draw (-1) 1) l -> F l <= G l) -> mean_u n F I -> mean_u n G J -> I <= J.
Proof.
  induction n; intros F G I J H; cbn; [intros -> ->; apply H; now split|].
  intros (K1 & H1 & E1) (K2 & H2 & E2). enough (2 * I <= 2 * J) by lra.
  apply (is_RInt_le K1 K2 (-1) 1); auto; [lra|]. intros x Hx. assert (Dx : uniform_draw (-1) 1 x) by (unfold uniform_draw; lra).
  apply (IHn (fun l => F (x :: l)) (fun l => G (x :: l))); auto. intros l [L Hl]. apply H. split; [cbn; lia|]. intros y [<-|Hy]; auto.
Qed.

(** ** monomials and polynomials *)
Definition mom (a : nat) : R := (1 - (-1) ^ S a) / (2 * INR (S a)).
Lemma integral_pow a : integral (fun x => x ^ a) (-1) 1 (2 * mom a).
Proof.
  apply (integral_primitive (fun x => x ^ S a / INR (S a))).
  - intro x. auto_derive; [easy|]. assert (H : INR (S a) <> 0) by (apply not_0_INR; lia). cbn [pred]. rewrite Rmult_1_l. unfold Rdiv. rewrite Rmult_comm, <- Rmult_assoc, Rinv_l by exact H. ring.
  - intro x. apply (ex_derive_continuous (fun x => x ^ a)). auto_derive. easy.
  - unfold mom. rewrite pow1. assert (H : INR (S a) <> 0) by (apply not_0_INR; lia). field. exact H.
Qed.

Fixpoint mono (e : list nat) (v : vec) : R :=
  match e, v with a :: e, x :: v => x ^ a * mono e v | _, _ => 1 end.
Lemma mono_mean e : mean_u (length e) (mono e) (fold_right (fun a r => mom a * r) 1 e).
Proof.
  induction e as [|a e IH]; cbn [length]; [reflexivity|].
  exists (fun x => x ^ a * fold_right (fun a r => mom a * r) 1 e). split.
  - intros x _. cbn [mono]. now apply mean_u_scal.
  - cbn [fold_right]. set (c := fold_right (fun a r => mom a * r) 1 e).
    eapply integral_eq; [eapply integral_ext; [|exact (integral_lin _ _ (-1) 1 0 c 0 _ _ (integral_pow a) (integral_pow a))]|]; [intros; cbn|]; ring.
Qed.
(** polynomials in d variables *)
Definition poly (d : nat) (f : vec -> R) : Type := { l : list (R * list nat) |
  (forall t, In t l -> length (snd t) = d) /\ forall v, length v = d -> f v = lsum (map (fun t => fst t * mono (snd t) v) l) }.
Lemma poly_mean d f : poly d f -> { I | mean_u d f I }.
Proof.
  intros (l & Hl & E). assert (K : { I | mean_u d (fun v => lsum (map (fun t => fst t * mono (snd t) v) l)) I }).
  { clear E. induction l as [|[c e] l IH]; [exists 0; exact (mean_u_const d 0)|].
    destruct IH as [I HI]; [intros; apply Hl; now right|]. pose proof (Hl (c, e) (or_introl eq_refl)) as Le. cbn in Le.
    exists (c * fold_right (fun a r => mom a * r) 1 e + I). cbn [map]. apply (mean_u_plus d (fun v => c * mono e v)); [|exact HI].
    apply mean_u_scal. rewrite <- Le. apply mono_mean. }
  destruct K as [I HI]. exists I. eapply mean_u_ext; [|exact HI]. intros v [L _]. now rewrite E.
Qed.
Lemma mono_zero d v : mono (repeat 0%nat d) v = 1.
Proof. revert v. induction d; intros [|x v]; cbn; auto. rewrite IHd. ring. Qed.
Lemma poly_const d c : poly d (fun _ => c).
Proof.
  exists [(c, repeat 0%nat d)]. split; [intros t [<-|[]]; apply repeat_length|]. intros v _. unfold lsum. cbn. rewrite mono_zero. ring.
Qed.
Lemma poly_plus d f g : poly d f -> poly d g -> poly d (fun v => f v + g v).
Proof.
  intros (l & Hl & E) (m & Hm & E'). exists (l ++ m). split; [intros t H; apply in_app_or in H as []; auto|].
  intros v Lv. rewrite map_app, lsum_app, E, E' by auto. reflexivity.
Qed.
Lemma mono_mult e : forall e' v, length e = length e' -> length v = length e -> mono (map2 Nat.add e e') v = mono e v * mono e' v.
Proof.
  induction e as [|a e IH]; intros [|a' e'] [|x v] L L'; try discriminate; cbn; [ring|].
  injection L as L. injection L' as L'. change (map2 Nat.add e e') with (map2 Nat.add e e'). rewrite pow_add. fold (map2 Nat.add). rewrite IH by auto. ring.
Qed.
Lemma poly_mult d f g : poly d f -> poly d g -> poly d (fun v => f v * g v).
Proof.
  intros (l & Hl & E) (m & Hm & E'). exists (flat_map (fun t => map (fun t' => (fst t * fst t', map2 Nat.add (snd t) (snd t'))) m) l). split.
  - intros t H. apply in_flat_map in H as (t1 & I1 & H). apply in_map_iff in H as (t2 & <- & I2). cbn [snd].
    rewrite map2_length, Hl, Hm by auto. apply Nat.min_id.
  - intros v Lv. rewrite E, E' by auto. clear E E'. induction l as [|t l IH]; [unfold lsum; cbn; ring|].
    cbn [flat_map]. rewrite map_app, lsum_app, <- IH by (intros; apply Hl; now right).
    cbn [map]. assert (LC : forall a l, lsum (a :: l) = a + lsum l) by reflexivity. rewrite LC.
    rewrite Rmult_plus_distr_r. f_equal. pose proof (Hl t (or_introl eq_refl)) as Lt. clear IH Hl.
    induction m as [|t' m IH]; [unfold lsum; cbn; ring|]. cbn [map]. rewrite !LC, <- IH by (intros; apply Hm; now right). cbn [fst snd].
    rewrite mono_mult by (rewrite ?Lt, ?(Hm t' (or_introl eq_refl)); auto). ring.
Qed.
Lemma mono_unit d : forall i v, (i < d)%nat -> length v = d -> mono (map (fun k => if Nat.eqb k i then 1%nat else 0%nat) (seq 0 d)) v = nth i v 0.
Proof.
  assert (G : forall d s i v, length v = d -> mono (map (fun k => if Nat.eqb k i then 1%nat else 0%nat) (seq s d)) v = if (Nat.leb s i && Nat.ltb i (s + d))%bool then nth (i - s) v 0 else 1).
  { clear d. induction d; intros s i [|x v] L; try discriminate L.
    - destruct (Nat.leb_spec s i), (Nat.ltb_spec i (s + 0)); cbn [andb seq map mono]; auto; lia.
    - cbn [seq map mono]. injection L as L. rewrite IHd by auto.
      destruct (Nat.eqb_spec s i) as [->|N].
      + rewrite Nat.leb_refl, (proj2 (Nat.ltb_lt i (i + S d))), Nat.sub_diag by lia. rewrite (proj2 (Nat.leb_gt (S i) i)) by lia. cbn. ring.
      + destruct (Nat.leb_spec s i), (Nat.leb_spec (S s) i), (Nat.ltb_spec i (s + S d)), (Nat.ltb_spec i (S s + d)); cbn [andb]; try lia; try (cbn; ring).
        replace (i - s)%nat with (S (i - S s)) by lia. cbn. ring. }
  intros i v Hi L. rewrite G by auto. rewrite Nat.add_0_l, (proj2 (Nat.ltb_lt i d)) by auto. rewrite Nat.sub_0_r. reflexivity.
Qed.
Lemma poly_nth d i : (i < d)%nat -> poly d (fun v => nth i v 0).
Proof.
  intro Hi. exists [(1, map (fun k => if Nat.eqb k i then 1%nat else 0%nat) (seq 0 d))]. split.
  - intros t [<-|[]]. cbn. now rewrite map_length, seq_length.
  - intros v L. unfold lsum. cbn [map fold_right fst snd]. rewrite mono_unit by auto. ring.
Qed.

(** ** products of two coordinates *)
Lemma integral_id : integral (fun x => x) (-1) 1 (2 * 0).
Proof. eapply integral_eq; [eapply integral_ext; [|exact (integral_pow 1)]|]; [intros; cbn; ring|]. unfold mom. try change (INR 2) with (1 + 1); try change (INR 3) with (1 + 1 + 1). field. Qed.
Lemma integral_sq : integral (fun x => x * x) (-1) 1 (2 * (1 / 3)).
Proof. eapply integral_eq; [eapply integral_ext; [|exact (integral_pow 2)]|]; [intros; cbn; ring|]. unfold mom. try change (INR 2) with (1 + 1); try change (INR 3) with (1 + 1 + 1). field. Qed.
Lemma integral_zero : integral (fun _ => 0) (-1) 1 (2 * 0).
Proof. eapply integral_eq; [eapply integral_ext; [|exact (integral_lin _ _ _ _ 0 0 0 _ _ integral_id integral_id)]|]; [intros; cbn; ring|ring]. Qed.
Lemma coord_mean d : forall a, (a < d)%nat -> mean_u d (fun v => nth a v 0) 0.
Proof.
  induction d; intros [|a] Ha; try lia; cbn.
  - exists (fun x => x). split; [intros; apply mean_u_const|exact integral_id].
  - exists (fun _ => 0). split; [intros; apply IHd; lia|exact integral_zero].
Qed.
Lemma coord_mean2 d : forall a b, (a < d)%nat -> (b < d)%nat -> mean_u d (fun v => nth a v 0 * nth b v 0) (if Nat.eqb a b then 1 / 3 else 0).
Proof.
  induction d; intros [|a] [|b] Ha Hb; try lia; cbn [Nat.eqb mean_u nth].
  - exists (fun x => x * x). split; [intros; apply mean_u_const|exact integral_sq].
  - exists (fun _ => 0). split; [|exact integral_zero]. intros x _. apply mean_u_eq with (x * 0); [|ring]. apply mean_u_scal, coord_mean. lia.
  - exists (fun _ => 0). split; [|exact integral_zero]. intros x _. eapply mean_u_eq; [eapply mean_u_ext; [|exact (mean_u_scal d _ x _ (coord_mean d a ltac:(lia)))]|]; [intros; cbn; ring|ring].
  - exists (fun _ => if Nat.eqb a b then 1 / 3 else 0). split; [intros; apply IHd; lia|].
    eapply integral_eq; [eapply integral_ext; [|exact (integral_lin _ _ _ _ (if Nat.eqb a b then 1 / 3 else 0) 0 0 _ _ integral_id integral_id)]|]; [intros; cbn; ring|ring].
Qed.
Lemma affine_mean d a b A B C D : (a < d)%nat -> (b < d)%nat ->
  mean_u d (fun v => (A + B * nth a v 0) * (C + D * nth b v 0)) (A * C + B * D * (if Nat.eqb a b then 1 / 3 else 0)).
Proof.
  intros Ha Hb. pose proof (mean_u_lin d _ _ (A * C) (A * D) (B * C) _ _ (coord_mean d b Hb) (coord_mean d a Ha)) as H1.
  pose proof (mean_u_plus d _ _ _ _ H1 (mean_u_scal d _ (B * D) _ (coord_mean2 d a b Ha Hb))) as H2.
  eapply mean_u_eq; [eapply mean_u_ext; [|exact H2]|]; [intros; cbn; ring|ring].
Qed.

(** ** sums over independent rows *)
Lemma mean_rows_ext d n : forall F G I, (forall M, rows_of n d (uniform_draw (-1) 1) M -> F M = G M) -> mean_rows d n F I -> mean_rows d n G I.
Proof.
  induction n; intros F G I H; cbn; [intros ->; apply H; split; [split; [reflexivity|constructor]|intros r x []]|].
  intros (K & H1 & H2). exists K. split; [|exact H2]. intros r [Lr Hr]. apply (IHn (fun l => F (r :: l))); [|now apply H1; split].
  intros M [[LM HM] HM']. apply H. split; [split; [cbn; lia|constructor; auto]|]. intros r' x [<-|I']; eauto.
Qed.
Lemma mean_rows_eq d n F I J : mean_rows d n F I -> I = J -> mean_rows d n F J.
Proof. now intros H <-. Qed.
Definition msum (f : nat -> vec -> R) (ks : list nat) (M : mat) : R := lsum (map2 f ks M).
Lemma rows_mean d f m : (forall k, mean_u d (f k) (m k)) -> forall ks a c,
  mean_rows d (length ks) (fun M => a + c * msum f ks M) (a + c * lsum (map m ks)).
Proof.
  intros Hm ks. assert (LC : forall a l, lsum (a :: l) = a + lsum l) by reflexivity.
  induction ks as [|k ks IH]; intros a c; cbn [length mean_rows]; [reflexivity|].
  exists (fun r => (a + c * f k r) + c * lsum (map m ks)). split.
  - intros r _. eapply mean_rows_ext; [|exact (IH (a + c * f k r) c)]. intros M _. unfold msum. cbn [map2]. rewrite LC. ring.
  - cbn [map]. rewrite LC. eapply mean_u_eq; [eapply mean_u_ext; [|exact (mean_u_lin d _ _ (a + c * lsum (map m ks)) c 0 _ _ (Hm k) (Hm k))]|]; [intros; cbn; ring|ring].
Qed.
Lemma rows_mean_sq d f m q : (forall k, mean_u d (f k) (m k)) -> (forall k, mean_u d (fun r => f k r * f k r) (q k)) -> forall ks a c,
  mean_rows d (length ks) (fun M => (a + c * msum f ks M) ^ 2) ((a + c * lsum (map m ks)) ^ 2 + c * c * lsum (map (fun k => q k - m k * m k) ks)).
Proof.
  intros Hm Hq ks. assert (LC : forall a l, lsum (a :: l) = a + lsum l) by reflexivity.
  induction ks as [|k ks IH]; intros a c; cbn [length mean_rows]; [cbn; ring|].
  exists (fun r => (a + c * f k r + c * lsum (map m ks)) ^ 2 + c * c * lsum (map (fun k => q k - m k * m k) ks)). split.
  - intros r _. eapply mean_rows_ext; [|exact (IH (a + c * f k r) c)]. intros M _. unfold msum. cbn [map2]. rewrite LC. ring.
  - cbn [map]. rewrite !LC. set (S1 := lsum (map m ks)). set (S2 := lsum (map (fun k => q k - m k * m k) ks)).
    eapply mean_u_eq; [eapply mean_u_ext; [|exact (mean_u_lin d _ _ ((a + c * S1) ^ 2 + c * c * S2) (2 * c * (a + c * S1)) (c * c) _ _ (Hm k) (Hq k))]|]; [intros; cbn; ring|ring].
Qed.
(** rows of one draw *)
Lemma rows1 n : forall F I, mean_rows 1 n (fun M => F (map (fun r => nth 0 r 0) M)) I -> mean_u n F I.
Proof.
  induction n; intros F I; cbn [mean_rows mean_u]; [auto|].
  intros (G & H & K & HK & E). exists K. split; [|exact E]. intros x Hx. specialize (HK x Hx). cbn in HK. rewrite HK.
  apply IHn. apply (H [x]). split; [reflexivity|]. now intros y [<-|[]].
Qed.

(** ** independent outcomes *)
Lemma cat_ext pv n : forall F G, (forall s, length s = n -> (forall k, In k s -> (k < length pv)%nat) -> F s = G s) -> cat_mean pv n F = cat_mean pv n G.
Proof.
  induction n; intros F G H; cbn [cat_mean]; [apply H; [reflexivity|intros k []]|].
  assert (E : forall l m, (forall k, In k m -> (k < length pv)%nat) ->
    map2 (fun p k => p * cat_mean pv n (fun s => F (k :: s))) l m = map2 (fun p k => p * cat_mean pv n (fun s => G (k :: s))) l m).
  { induction l as [|p l IH]; intros [|k m] Hk; cbn [map2]; auto. f_equal; [f_equal|apply IH; intros; apply Hk; now right].
    apply IHn. intros s Ls Hs. apply H; [cbn; lia|]. intros k' [<-|I]; auto. apply Hk. now left. }
  rewrite E; [reflexivity|]. intros k Hk. apply in_seq in Hk. lia.
Qed.
Definition wsum (pv : vec) (g : nat -> R) : R := lsum (map2 (fun p k => p * g k) pv (seq 0 (length pv))).
Lemma wsum_lin pv f g c k l : lsum pv = 1 -> wsum pv (fun j => c + k * f j + l * g j) = c + k * wsum pv f + l * wsum pv g.
Proof.
  intro H. assert (G : forall v s, lsum (map2 (fun p j => p * (c + k * f j + l * g j)) v (seq s (length v))) =
    c * lsum v + k * lsum (map2 (fun p j => p * f j) v (seq s (length v))) + l * lsum (map2 (fun p j => p * g j) v (seq s (length v)))).
  { assert (LC : forall a l, lsum (a :: l) = a + lsum l) by reflexivity.
    induction v as [|p v IH]; intro s; [unfold lsum; cbn; ring|]. cbn [length seq map2]. rewrite !LC, IH. ring. }
  unfold wsum. rewrite G, H. ring.
Qed.
Lemma wsum_ext pv f g : (forall k, f k = g k) -> wsum pv f = wsum pv g.
Proof. intro H. unfold wsum. generalize (seq 0 (length pv)). induction pv as [|p v IH]; intros [|k s]; cbn; auto. rewrite H. f_equal. apply IH. Qed.
Lemma cat_step pv n F : cat_mean pv (S n) F = wsum pv (fun k => cat_mean pv n (fun s => F (k :: s))).
Proof. reflexivity. Qed.
Lemma cat_sum pv m : lsum pv = 1 -> forall n a c, cat_mean pv n (fun s => a + c * lsum (map m s)) = a + c * (INR n * wsum pv m).
Proof.
  intros H n. assert (LC : forall a l, lsum (a :: l) = a + lsum l) by reflexivity. induction n; intros a c; [cbn [cat_mean map]; change (lsum []) with 0; change (INR 0) with 0; ring|].
  rewrite cat_step. transitivity (wsum pv (fun k => (a + c * (INR n * wsum pv m)) + c * m k + 0 * m k)).
  - apply wsum_ext. intro k. transitivity (cat_mean pv n (fun s => (a + c * m k) + c * lsum (map m s))); [apply cat_ext; intros; cbn [map]; rewrite LC; ring|]. rewrite IHn. ring.
  - rewrite wsum_lin by exact H. rewrite S_INR. ring.
Qed.
Lemma cat_sum_sq pv m v : lsum pv = 1 -> forall n a c e,
  cat_mean pv n (fun s => (a + c * lsum (map m s)) ^ 2 + e * lsum (map v s)) =
  (a + c * (INR n * wsum pv m)) ^ 2 + INR n * (c * c * (wsum pv (fun k => m k * m k) - wsum pv m * wsum pv m) + e * wsum pv v).
Proof.
  intros H n. assert (LC : forall a l, lsum (a :: l) = a + lsum l) by reflexivity.
  assert (G : forall n a c e z, cat_mean pv n (fun s => (a + c * lsum (map m s)) ^ 2 + e * lsum (map v s) + z) =
    (a + c * (INR n * wsum pv m)) ^ 2 + INR n * (c * c * (wsum pv (fun k => m k * m k) - wsum pv m * wsum pv m) + e * wsum pv v) + z).
  2:{ intros a c e. transitivity (cat_mean pv n (fun s => (a + c * lsum (map m s)) ^ 2 + e * lsum (map v s) + 0)); [apply cat_ext; intros; ring|]. rewrite G. ring. }
  clear n. induction n; intros a c e z; [cbn [cat_mean map]; change (lsum []) with 0; change (INR 0) with 0; ring|].
  rewrite cat_step. set (w := wsum pv m) in *. set (W := wsum pv (fun k => m k * m k)) in *.
  set (A := a + c * (INR n * w)). set (Z := INR n * (c * c * (W - w * w) + e * wsum pv v) + z).
  transitivity (wsum pv (fun k => (A ^ 2 + Z) + 1 * (2 * A * c * m k + 0 * m k) + 1 * (c * c * (m k * m k) + e * v k))).
  - apply wsum_ext. intro k. transitivity (cat_mean pv n (fun s => (a + c * m k + c * lsum (map m s)) ^ 2 + e * lsum (map v s) + (e * v k + z))); [apply cat_ext; intros; cbn [map]; rewrite !LC; ring|]. rewrite IHn. unfold A, Z. ring.
  - rewrite wsum_lin by exact H.
    rewrite (wsum_ext pv (fun j => 2 * A * c * m j + 0 * m j) (fun j => 0 + 2 * A * c * m j + 0 * m j)) by (intros; ring).
    rewrite (wsum_ext pv (fun j => c * c * (m j * m j) + e * v j) (fun j => 0 + c * c * (m j * m j) + e * v j)) by (intros; ring).
    rewrite (wsum_lin pv m m), (wsum_lin pv (fun k => m k * m k) v) by exact H. fold w W. unfold A, Z. rewrite S_INR. ring.
Qed.
