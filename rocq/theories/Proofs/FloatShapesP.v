(** Lemmas about Model/FloatShapes.v (C83, C84). *)
From Coq Require Import Permutation.
From Verif Require Import Base.Vec Base.VecFacts Spec.Basic Spec.Floats Spec.Rounding Model.Util Model.FloatUtil Model.Box Model.FloatShapes Proofs.Coord Proofs.Decomp Proofs.FloatP.
From Flocq Require Import Core Relative.

Lemma u64_pos : 0 < u64.
Proof. unfold u64. lra. Qed.
Lemma eta64_pos : 0 < eta64.
Proof. unfold eta64. rewrite bpow_p2. apply bpow_gt_0. Qed.
Lemma b64_err x : Rabs (b64 x - x) <= u64 * Rabs x + eta64.
Proof.
  destruct (error_N_FLT radix2 (-1074) 53 ltac:(lia) (fun z => negb (Z.even z)) x) as (eps & eta & H1 & H2 & _ & H3). assert (E : b64 x = x * (1 + eps) + eta) by exact H3. rewrite E.
  replace (x * (1 + eps) + eta - x) with (x * eps + eta) by ring. eapply Rle_trans; [apply Rabs_triang|]. rewrite Rabs_mult.
  assert (Rabs eps <= u64). { eapply Rle_trans; [exact H1|]. replace (- (53) + 1)%Z with (- (52))%Z by lia. rewrite bpn by lia. change (IZR (2 ^ 52)) with 4503599627370496. unfold u64. lra. }
  assert (Rabs eta <= eta64). { eapply Rle_trans; [exact H2|]. unfold eta64. rewrite bpow_p2. replace (bpow radix2 (-1074)) with (2 * bpow radix2 (-1075)) by (change 2 with (bpow radix2 1); rewrite <- bpow_plus; reflexivity). lra. }
  pose proof (Rabs_pos x). nra.
Qed.

(** ** the error of an inner product *)
Definition pdot (l : list (R * R)) : R := lsum (map (fun p => fst p * snd p) l).
Definition pabs (l : list (R * R)) : R := lsum (map (fun p => Rabs (fst p * snd p)) l).
Lemma pabs_pos l : 0 <= pabs l.
Proof. apply lsum_nonneg. intros x Hx. apply in_map_iff in Hx as (p & <- & _). apply Rabs_pos. Qed.
Lemma pdot_abs l : Rabs (pdot l) <= pabs l.
Proof.
  induction l as [|p l IH]; [cbn; rewrite Rabs_R0; lra|]. change (pdot (p :: l)) with (fst p * snd p + pdot l). change (pabs (p :: l)) with (Rabs (fst p * snd p) + pabs l).
  pose proof (Rabs_triang (fst p * snd p) (pdot l)). lra.
Qed.
Lemma pow_u n : 1 <= (1 + u64) ^ n.
Proof. pose proof u64_pos. apply pow_R1_Rle. lra. Qed.
Lemma pow_u_le n m : (n <= m)%nat -> (1 + u64) ^ n <= (1 + u64) ^ m.
Proof. pose proof u64_pos. intro H1. apply Rle_pow; [lra|auto]. Qed.
Lemma round_step v S T c k p : Rabs (v - S) <= (p - 1) * T + k * p * eta64 -> Rabs S <= T -> Rabs c <= T -> 1 <= p -> 0 <= k -> c = S ->
  Rabs (b64 v - S) <= ((1 + u64) * p - 1) * T + (k + 1) * ((1 + u64) * p) * eta64.
Proof.
  intros H1 H2 _ Hp Hk _. pose proof (b64_err v) as E. pose proof u64_pos as U. pose proof eta64_pos as N.
  assert (T0 : 0 <= T) by (pose proof (Rabs_pos S); lra).
  assert (V : Rabs v <= Rabs (v - S) + Rabs S) by (replace v with ((v - S) + S) at 1 by ring; apply Rabs_triang).
  assert (W : Rabs (b64 v - S) <= Rabs (b64 v - v) + Rabs (v - S)) by (replace (b64 v - S) with ((b64 v - v) + (v - S)) by ring; apply Rabs_triang).
  assert (X : u64 * Rabs v <= u64 * ((p - 1) * T + k * p * eta64 + T)) by (apply Rmult_le_compat_l; lra).
  assert (Z : 1 <= (1 + u64) * p) by (replace 1 with (1 * 1) at 1 by ring; apply Rmult_le_compat; lra).
  assert (Y : 1 * eta64 <= (1 + u64) * p * eta64) by (apply Rmult_le_compat_r; lra). lra.
Qed.
Lemma fl_dot_err_ne l v : fl_dot l v -> l <> [] -> Rabs (v - pdot l) <= ((1 + u64) ^ length l - 1) * pabs l + (2 * INR (length l) - 1) * (1 + u64) ^ length l * eta64.
Proof.
  pose proof u64_pos as U. pose proof eta64_pos as N.
  induction 1 as [|a x|l v a x Hl H IH|l1 l2 v1 v2 N1 N2 H1 IH1 H2 IH2|l l' v HP H IH]; intro NE.
  - congruence.
  - pose proof (b64_err (a * x)) as E. cbn -[u64 eta64]. rewrite !Rplus_0_r, !Rmult_1_r. pose proof (Rabs_pos (a * x)). nra.
  - specialize (IH Hl). assert (Ll : (1 <= length l)%nat) by (destruct l; [congruence|cbn; lia]).
    assert (K : 1 <= INR (length l)) by (change 1 with (INR 1); now apply le_INR).
    pose proof (pow_u (length l)) as P. pose proof (pabs_pos l) as T. pose proof (Rabs_pos (a * x)) as Tx.
    assert (E1 : pdot (l ++ [(a, x)]) = pdot l + a * x) by (unfold pdot; rewrite map_app, lsum_app; cbn; ring). assert (E2 : pabs (l ++ [(a, x)]) = pabs l + Rabs (a * x)) by (unfold pabs; rewrite map_app, lsum_app; cbn; ring).
    rewrite app_length. cbn [length]. replace (length l + 1)%nat with (S (length l)) by lia. rewrite S_INR.
    pose proof (round_step (v + a * x) (pdot (l ++ [(a, x)])) (pabs (l ++ [(a, x)])) (pdot (l ++ [(a, x)])) (2 * INR (length l) - 1) ((1 + u64) ^ length l)) as Q.
    change ((1 + u64) ^ S (length l)) with ((1 + u64) * (1 + u64) ^ length l). eapply Rle_trans; [apply Q|]; auto using pdot_abs; try lra.
    + rewrite E1, E2. replace (v + a * x - (pdot l + a * x)) with (v - pdot l) by ring. nra.
    + pose proof (pow_u (S (length l))) as P'. change ((1 + u64) ^ S (length l)) with ((1 + u64) * (1 + u64) ^ length l) in P'. nra.
  - specialize (IH1 N1). specialize (IH2 N2). assert (L1 : (1 <= length l1)%nat) by (destruct l1; [congruence|cbn; lia]). assert (L2 : (1 <= length l2)%nat) by (destruct l2; [congruence|cbn; lia]).
    assert (K1 : 1 <= INR (length l1)) by (change 1 with (INR 1); now apply le_INR). assert (K2 : 1 <= INR (length l2)) by (change 1 with (INR 1); now apply le_INR).
    rewrite app_length. set (n := (length l1 + length l2)%nat). assert (En : exists k, n = S k /\ (length l1 <= k)%nat /\ (length l2 <= k)%nat) by (exists (n - 1)%nat; unfold n; lia). destruct En as (k & En & Hk1 & Hk2).
    pose proof (pow_u k) as P. pose proof (pow_u_le _ _ Hk1) as P1. pose proof (pow_u_le _ _ Hk2) as P2. pose proof (pow_u (length l1)) as P3. pose proof (pow_u (length l2)) as P4.
    assert (E1 : pdot (l1 ++ l2) = pdot l1 + pdot l2) by (unfold pdot; rewrite map_app, lsum_app; reflexivity). assert (E2 : pabs (l1 ++ l2) = pabs l1 + pabs l2) by (unfold pabs; rewrite map_app, lsum_app; reflexivity).
    pose proof (pabs_pos l1) as T1. pose proof (pabs_pos l2) as T2.
    assert (EI : INR n = INR (length l1) + INR (length l2)) by (unfold n; apply plus_INR).
    pose proof (round_step (v1 + v2) (pdot (l1 ++ l2)) (pabs (l1 ++ l2)) (pdot (l1 ++ l2)) (2 * INR n - 2) ((1 + u64) ^ k)) as Q.
    rewrite En. change ((1 + u64) ^ S k) with ((1 + u64) * (1 + u64) ^ k). rewrite <- En. eapply Rle_trans; [apply Q|]; auto using pdot_abs; try lra.
    rewrite E1, E2, EI. replace (v1 + v2 - (pdot l1 + pdot l2)) with ((v1 - pdot l1) + (v2 - pdot l2)) by ring. eapply Rle_trans; [apply Rabs_triang|].
    assert (B1 : Rabs (v1 - pdot l1) <= ((1 + u64) ^ k - 1) * pabs l1 + (2 * INR (length l1) - 1) * (1 + u64) ^ k * eta64).
    { eapply Rle_trans; [exact IH1|]. apply Rplus_le_compat; [apply Rmult_le_compat_r; lra|]. apply Rmult_le_compat_r; [lra|]. apply Rmult_le_compat_l; lra. }
    assert (B2 : Rabs (v2 - pdot l2) <= ((1 + u64) ^ k - 1) * pabs l2 + (2 * INR (length l2) - 1) * (1 + u64) ^ k * eta64).
    { eapply Rle_trans; [exact IH2|]. apply Rplus_le_compat; [apply Rmult_le_compat_r; lra|]. apply Rmult_le_compat_r; [lra|]. apply Rmult_le_compat_l; lra. }
    lra.
  - assert (NE' : l <> []) by (intros ->; apply Permutation_nil in HP; congruence). specialize (IH NE').
    assert (E1 : pdot l' = pdot l) by (unfold pdot; symmetry; apply lsum_perm, Permutation_map, HP). assert (E2 : pabs l' = pabs l) by (unfold pabs; symmetry; apply lsum_perm, Permutation_map, HP).
    rewrite E1, E2, <- (Permutation_length HP). exact IH.
Qed.
Lemma fl_dot_nil l v : fl_dot l v -> l = [] -> v = 0.
Proof. induction 1 as [|a x|l v a x Hl H IH|l1 l2 v1 v2 N1 N2 H1 IH1 H2 IH2|l l' v HP H IH]; intro E; try congruence; [destruct l; discriminate|destruct l1; [congruence|discriminate]|]. apply IH. subst. apply Permutation_nil. now apply Permutation_sym. Qed.
Lemma fl_dot_err a x v : length a = length x -> fl_dot (combine a x) v -> Rabs (v - dot a x) <= dot_margin (length a) (abs_dot a x).
Proof.
  intros L H. pose proof eta64_pos as N. pose proof (pow_u (length a)) as P. assert (LC : length (combine a x) = length a) by (rewrite combine_length; lia).
  assert (E1 : pdot (combine a x) = dot a x). { unfold pdot, dot. clear - L. revert x L. induction a as [|s a IH]; intros [|y x] L; try discriminate L; [reflexivity|]. cbn in L. cbn. f_equal. apply IH. lia. }
  assert (E2 : pabs (combine a x) = abs_dot a x). { unfold pabs, abs_dot, dot. clear - L. revert x L. induction a as [|s a IH]; intros [|y x] L; try discriminate L; [reflexivity|]. cbn in L. cbn. rewrite Rabs_mult. f_equal. apply IH. lia. }
  destruct a as [|s a].
  - cbn in *. apply fl_dot_nil in H; [|reflexivity]. subst v. unfold dot, dot_margin, abs_dot. cbn. change (INR 0) with 0. replace (0 - 0) with 0 by ring. rewrite Rabs_R0. lra.
  - pose proof (fl_dot_err_ne _ _ H) as E. rewrite LC, E1, E2 in E. eapply Rle_trans; [apply E|]; [destruct x; discriminate|]. unfold dot_margin.
    assert (0 <= (1 + u64) ^ length (s :: a) * eta64) by (apply Rmult_le_pos; lra). lra.
Qed.
Lemma rabs_le x b : Rabs x <= b -> - b <= x <= b.
Proof. intro H. pose proof (Rle_abs x). pose proof (Rle_abs (- x)). rewrite Rabs_Ropp in *. lra. Qed.
Lemma fl_contains_spec A b tol p ans : (forall a, In a A -> length a = length p) -> length b = length A -> fl_contains A b tol p ans ->
  ((forall i, (i < length A)%nat -> dot (nth i A []) p <= nth i b 0 + tol - face_margin (nth i A []) p (nth i b 0) tol) -> ans = true) /\
  (ans = true -> forall i, (i < length A)%nat -> dot (nth i A []) p <= nth i b 0 + tol + face_margin (nth i A []) p (nth i b 0) tol).
Proof.
  intros LA Lb (y & Hy & ->).
  assert (Ly : length y = length A) by (clear - Hy; induction Hy; cbn; congruence).
  assert (G : forall i, (i < length A)%nat -> Rabs (nth i y 0 - dot (nth i A []) p) <= dot_margin (length (nth i A [])) (abs_dot (nth i A []) p)).
  { intros i Hi. apply fl_dot_err; [apply LA, nth_In, Hi|]. clear - Hy Hi. revert i Hi. induction Hy as [|a v A y H Hy IH]; intros [|i] Hi; cbn in *; try lia; [exact H|]. apply IH. lia. }
  assert (F : forallb (fun yb => Rleb (fst yb) (b64 (snd yb + tol))) (combine y b) = true <-> forall i, (i < length A)%nat -> nth i y 0 <= b64 (nth i b 0 + tol)).
  { rewrite forallb_forall. split.
    - intros H i Hi. specialize (H (nth i (combine y b) (0, 0))). rewrite combine_nth in H by lia. cbn in H. apply Rleb_iff, H. rewrite <- combine_nth by lia. apply nth_In. rewrite combine_length. lia.
    - intros H yb Hin. apply (In_nth _ _ (0, 0)) in Hin as (i & Hi & <-). rewrite combine_length in Hi. rewrite combine_nth by lia. cbn. apply Rleb_iff, H. lia. }
  assert (B : forall i, - (u64 * (Rabs (nth i b 0) + Rabs tol) + eta64) <= b64 (nth i b 0 + tol) - (nth i b 0 + tol) <= u64 * (Rabs (nth i b 0) + Rabs tol) + eta64).
  { intro i. apply rabs_le. eapply Rle_trans; [apply b64_err|]. pose proof u64_pos. pose proof (Rabs_triang (nth i b 0) tol). assert (u64 * Rabs (nth i b 0 + tol) <= u64 * (Rabs (nth i b 0) + Rabs tol)) by (apply Rmult_le_compat_l; lra). lra. }
  unfold face_margin. split.
  - intro H. apply F. intros i Hi. specialize (H i Hi). specialize (B i). pose proof (rabs_le _ _ (G i Hi)). lra.
  - intros H i Hi. pose proof (proj1 F H i Hi). specialize (B i). pose proof (rabs_le _ _ (G i Hi)). lra.
Qed.
(** ** ordinary magnitudes *)
Lemma u64_small : u64 <= / 9000000000000000.
Proof. unfold u64. lra. Qed.
Lemma eta64_small : eta64 <= / 1000000000000000000000000000000.
Proof.
  unfold eta64. rewrite bpow_p2. apply Rle_trans with (bpow radix2 (- (100))); [apply bpow_le; lia|]. rewrite bpn by lia.
  change (IZR (2 ^ 100)) with 1267650600228229401496703205376. lra.
Qed.
Lemma pow_small n : (n <= 3)%nat -> (1 + u64) ^ n <= 1 + 4 * u64.
Proof.
  intro H. apply Rle_trans with ((1 + u64) ^ 3); [now apply pow_u_le|]. pose proof u64_pos. pose proof u64_small. replace ((1 + u64) ^ 3) with (1 + 3 * u64 + u64 * (3 * u64 + u64 * u64)) by ring. nra.
Qed.
Lemma abs_dot_le a x B : length a = length x -> (forall s, In s a -> Rabs s <= 1) -> (forall s, In s x -> Rabs s <= B) -> abs_dot a x <= INR (length a) * B.
Proof.
  unfold abs_dot, dot. revert x. induction a as [|s a IH]; intros [|y x] L Ha Hx; try discriminate L; [cbn; change (INR 0) with 0; lra|]. cbn in L. injection L as L.
  specialize (IH x L (fun t H => Ha t (or_intror H)) (fun t H => Hx t (or_intror H))). cbn [length]. rewrite S_INR. cbn.
  pose proof (Ha s (or_introl eq_refl)). pose proof (Hx y (or_introl eq_refl)). pose proof (Rabs_pos s). pose proof (Rabs_pos y).
  change (fold_right Rplus 0 (map2 Rmult (map Rabs a) (map Rabs x))) with (lsum (map2 Rmult (map Rabs a) (map Rabs x))). nra.
Qed.
Lemma abs_dot_pos a x : 0 <= abs_dot a x.
Proof. unfold abs_dot, dot. revert x. induction a as [|s a IH]; intros [|y x]; cbn; try lra. pose proof (Rabs_pos s). pose proof (Rabs_pos y). specialize (IH x). unfold lsum in IH. pose proof (Rmult_le_pos _ _ H H0). lra. Qed.
Lemma contains_default A b p ans : (forall a, In a A -> length a = length p) -> length b = length A -> (length p <= 3)%nat ->
  (forall a s, In a A -> In s a -> Rabs s <= 1) -> (forall s, In s p -> Rabs s <= 1000000) -> (forall s, In s b -> Rabs s <= 10000000) ->
  fl_contains A b (b64 (/ 100000000)) p ans ->
  ((forall i, (i < length A)%nat -> dot (nth i A []) p <= nth i b 0) -> ans = true) /\
  (ans = true -> forall i, (i < length A)%nat -> dot (nth i A []) p <= nth i b 0 + / 50000000).
Proof.
  intros LA Lb Lp HA Hp Hb H. pose proof (fl_contains_spec _ _ _ _ _ LA Lb H) as (H1 & H2). clear H. pose proof u64_pos as U. pose proof u64_small as U'. pose proof eta64_pos as N. pose proof eta64_small as N'.
  set (tol := b64 (/ 100000000)) in *. assert (T : Rabs (tol - / 100000000) <= / 10000000000000).
  { eapply Rle_trans; [apply b64_err|]. rewrite (Rabs_pos_eq (/ 100000000)) by lra. lra. }
  apply rabs_le in T. assert (T1 : Rabs tol <= / 10000000) by (apply Rabs_le; lra).
  assert (M : forall i, (i < length A)%nat -> face_margin (nth i A []) p (nth i b 0) tol <= / 200000000).
  { intros i Hi. assert (Ha : In (nth i A []) A) by (apply nth_In; auto). set (a := nth i A []) in *. unfold face_margin, dot_margin. rewrite (LA a Ha).
    assert (Hbi : Rabs (nth i b 0) <= 10000000) by (apply Hb, nth_In; lia).
    pose proof (abs_dot_le a p 1000000 (LA a Ha) (fun s => HA a s Ha) Hp) as D. pose proof (abs_dot_pos a p) as D0. rewrite (LA a Ha) in D.
    assert (K : 0 <= INR (length p) <= 3) by (split; [apply pos_INR|replace 3 with (INR 3) by (rewrite INR_IZR_INZ; reflexivity); now apply le_INR]).
    pose proof (pow_small (length p) Lp) as P. pose proof (pow_u (length p)) as P1.
    assert (X1 : ((1 + u64) ^ length p - 1) * abs_dot a p <= 4 * u64 * 3000000) by (apply Rmult_le_compat; lra).
    assert (X2 : 2 * INR (length p) * (1 + u64) ^ length p * eta64 <= 2 * 3 * 2 * eta64) by (apply Rmult_le_compat_r; [lra|]; apply Rmult_le_compat; lra).
    assert (X3 : u64 * (Rabs (nth i b 0) + Rabs tol) <= u64 * 10000001) by (apply Rmult_le_compat_l; lra).
    lra. }
  split.
  - intro G. apply H1. intros i Hi. specialize (M i Hi). specialize (G i Hi). lra.
  - intros E i Hi. specialize (H2 E i Hi). specialize (M i Hi). lra.
Qed.
(** ** large magnitudes *)
Lemma b64_tie_up y e m : (-1021 <= e)%Z -> bpow radix2 (e - 1) <= y < bpow radix2 e -> Z.even m = false ->
  y * bpow radix2 (53 - e) = IZR m + / 2 -> b64 y = IZR (m + 1) * bpow radix2 (e - 53).
Proof.
  intros He Hy Hev Hm.
  unfold b64, round, F2R, scaled_mantissa, cexp. cbn [Fnum Fexp].
  rewrite (mag_unique_pos radix2 y e Hy). unfold FLT_exp. replace (Z.max (e - 53) (-1074)) with (e - 53)%Z by lia.
  replace (- (e - 53))%Z with (53 - e)%Z by lia. rewrite Hm. f_equal. f_equal.
  assert (F : Zfloor (IZR m + / 2) = m) by (apply Zfloor_imp; rewrite plus_IZR; lra).
  unfold Znearest. rewrite F. rewrite Rcompare_Eq by lra. rewrite Hev. cbn [negb].
  apply Zceil_imp. replace (m + 1 - 1)%Z with m by lia. rewrite plus_IZR. lra.
Qed.
Lemma b64_big3 : b64 9007199254740995 = 9007199254740996.
Proof.
  rewrite (b64_tie_up 9007199254740995 54 4503599627370497); [|lia| |reflexivity|].
  - change (54 - 53)%Z with 1%Z. change (bpow radix2 1) with 2. change (4503599627370497 + 1)%Z with 4503599627370498%Z. lra.
  - change (54 - 1)%Z with 53%Z. rewrite !bp by lia. change (2 ^ 53)%Z with 9007199254740992%Z. change (2 ^ 54)%Z with 18014398509481984%Z. lra.
  - change (53 - 54)%Z with (- (1))%Z. rewrite bpn by lia. change (2 ^ 1)%Z with 2%Z. lra.
Qed.
Lemma fmt_big2 : fmt 9007199254740994.
Proof. replace 9007199254740994 with (IZR 4503599627370497 * bpow radix2 1) by (change (bpow radix2 1) with 2; lra). apply fmt_scaled; lia. Qed.
Lemma contains_large : exists A b p, is_mat 1 3 A /\ length b = 1%nat /\ length p = 3%nat /\ (forall a s, In a A -> In s a -> is_b64 s /\ Rabs s <= 1) /\ (forall s, In s p -> is_b64 s) /\ (forall s, In s b -> is_b64 s) /\
  dot (nth 0 A []) p <= nth 0 b 0 /\ fl_contains A b (b64 (/ 100000000)) p false /\ fl_contains A b (b64 (/ 100000000)) p true.
Proof.
  exists [[1; 1; 1]], [9007199254740994], [9007199254740994; 1; -1]. assert (F2 := fmt_big2).
  assert (I1 : is_b64 1) by (apply is_b64_fmt, (fmt_int 1); lia). assert (Im : is_b64 (-1)) by (apply is_b64_fmt, (fmt_int (-1)); lia). assert (I2 : is_b64 9007199254740994) by now apply is_b64_fmt.
  assert (B : b64 (9007199254740994 + b64 (/ 100000000)) = 9007199254740994).
  { assert (T : Rabs (b64 (/ 100000000) - / 100000000) <= / 10000000000000).
    { eapply Rle_trans; [apply b64_err|]. rewrite (Rabs_pos_eq (/ 100000000)) by lra. pose proof u64_small. pose proof eta64_small. lra. }
    apply rabs_le in T. rewrite (b64_known _ 54 4503599627370497); [change (54 - 53)%Z with 1%Z; change (bpow radix2 1) with 2; lra|lia| |].
    - change (54 - 1)%Z with 53%Z. rewrite !bp by lia. change (2 ^ 53)%Z with 9007199254740992%Z. change (2 ^ 54)%Z with 18014398509481984%Z. lra.
    - change (53 - 54)%Z with (- (1))%Z. rewrite bpn by lia. change (2 ^ 1)%Z with 2%Z. apply Rabs_def1; lra. }
  split; [repeat constructor|]. split; [reflexivity|]. split; [reflexivity|]. split; [|split; [|split; [|split; [|split]]]].
  - intros a s [<-|[]] [<-|[<-|[<-|[]]]]; (split; [auto|rewrite Rabs_R1; lra]).
  - intros s [<-|[<-|[<-|[]]]]; auto.
  - intros s [<-|[]]; auto.
  - cbn. unfold dot. cbn. lra.
  - exists [9007199254740996]. split.
    + constructor; [|constructor]. cbn [combine]. pose proof (fl_fma [(1, 9007199254740994); (1, 1)] _ 1 (-1) ltac:(discriminate) (fl_fma [(1, 9007199254740994)] _ 1 1 ltac:(discriminate) (fl_mul 1 9007199254740994))) as D. cbn [app] in D.
      rewrite Rmult_1_l, (b64_fix 9007199254740994 F2) in D. replace (9007199254740994 + 1 * 1) with 9007199254740995 in D by lra. rewrite b64_big3 in D. replace (9007199254740996 + 1 * -1) with 9007199254740995 in D by lra. rewrite b64_big3 in D. exact D.
    + cbn [combine forallb fst snd]. rewrite B. symmetry. rewrite andb_true_r. apply Rleb_false. lra.
  - exists [9007199254740994]. split.
    + constructor; [|constructor]. cbn [combine]. pose proof (fl_add [(1, 9007199254740994)] [(1, 1); (1, -1)] _ _ ltac:(discriminate) ltac:(discriminate) (fl_mul 1 9007199254740994) (fl_fma [(1, 1)] _ 1 (-1) ltac:(discriminate) (fl_mul 1 1))) as D. cbn [app] in D.
      rewrite !Rmult_1_l, (b64_fix 9007199254740994 F2), (b64_int 1) in D by lia. replace (1 + -1) with 0 in D by lra. rewrite (b64_int 0) in D by lia. rewrite Rplus_0_r, (b64_fix 9007199254740994 F2) in D. exact D.
    + cbn [combine forallb fst snd]. rewrite B. symmetry. rewrite andb_true_r. apply Rleb_iff. lra.
Qed.
(** ** products with signed unit vectors are exact *)
Definition nz (p : R * R) : bool := if Req_EM_T (fst p * snd p) 0 then false else true.
Lemma pdot_none l : filter nz l = [] -> pdot l = 0.
Proof.
  unfold pdot. induction l as [|p l IH]; [reflexivity|]. cbn [filter map]. unfold nz at 1. destruct (Req_EM_T (fst p * snd p) 0) as [E|E]; [|discriminate]. intro H.
  change (lsum (fst p * snd p :: map (fun p => fst p * snd p) l)) with (fst p * snd p + lsum (map (fun p => fst p * snd p) l)). rewrite (IH H), E. ring.
Qed.
Lemma pdot_filter l : pdot l = pdot (filter nz l).
Proof.
  unfold pdot. induction l as [|p l IH]; [reflexivity|]. cbn [filter map]. change (lsum (fst p * snd p :: map (fun p => fst p * snd p) l)) with (fst p * snd p + lsum (map (fun p => fst p * snd p) l)).
  unfold nz at 1. destruct (Req_EM_T (fst p * snd p) 0) as [E|E]; [rewrite E, Rplus_0_l; exact IH|]. rewrite IH. reflexivity.
Qed.
Lemma pdot_fmt l : (length (filter nz l) <= 1)%nat -> (forall p, In p l -> fmt (fst p * snd p)) -> fmt (pdot l).
Proof.
  intros L H. rewrite pdot_filter. destruct (filter nz l) as [|p [|q r]] eqn:E; [apply (fmt_int 0); lia| |cbn in L; lia].
  unfold pdot. cbn. rewrite Rplus_0_r. apply H. assert (I : In p (filter nz l)) by (rewrite E; now left). apply filter_In in I. apply I.
Qed.
Lemma perm_filter {X} (f : X -> bool) l l' : Permutation l l' -> Permutation (filter f l) (filter f l').
Proof.
  induction 1 as [|x l l' H IH|x y l|l l' l'' H1 IH1 H2 IH2]; cbn; [constructor|destruct (f x); auto|destruct (f x), (f y); auto; constructor|now transitivity (filter f l')].
Qed.
Lemma fl_dot_exact l v : fl_dot l v -> (length (filter nz l) <= 1)%nat -> (forall p, In p l -> fmt (fst p * snd p)) -> v = pdot l.
Proof.
  induction 1 as [|a x|l v a x Hl H IH|l1 l2 v1 v2 N1 N2 H1 IH1 H2 IH2|l l' v HP H IH]; intros L F.
  - reflexivity.
  - unfold pdot. cbn. rewrite Rplus_0_r. apply b64_fix, (F (a, x)). now left.
  - assert (E1 : pdot (l ++ [(a, x)]) = pdot l + a * x) by (unfold pdot; rewrite map_app, lsum_app; cbn; ring). rewrite E1.
    rewrite filter_app, app_length in L. rewrite (IH ltac:(lia) (fun p Hp => F p (in_or_app _ _ _ (or_introl Hp)))). rewrite <- E1. apply b64_fix, pdot_fmt; [rewrite filter_app, app_length; exact L|exact F].
  - assert (E1 : pdot (l1 ++ l2) = pdot l1 + pdot l2) by (unfold pdot; rewrite map_app, lsum_app; reflexivity). rewrite E1.
    rewrite filter_app, app_length in L. rewrite (IH1 ltac:(lia) (fun p Hp => F p (in_or_app _ _ _ (or_introl Hp)))), (IH2 ltac:(lia) (fun p Hp => F p (in_or_app _ _ _ (or_intror Hp)))).
    rewrite <- E1. apply b64_fix, pdot_fmt; [rewrite filter_app, app_length; exact L|exact F].
  - assert (E1 : pdot l' = pdot l) by (unfold pdot; symmetry; apply lsum_perm, Permutation_map, HP). rewrite E1. apply IH.
    + rewrite (Permutation_length (perm_filter nz _ _ HP)). exact L.
    + intros p Hp. apply F. now apply (Permutation_in _ HP).
Qed.
Lemma fl_dot3_unit q1 q2 q3 n1 n2 n3 v : fmt q1 -> fmt q2 -> fmt q3 -> In [n1; n2; n3] box_normals -> fl_dot [(q1, n1); (q2, n2); (q3, n3)] v -> v = q1 * n1 + q2 * n2 + q3 * n3.
Proof.
  intros F1 F2 F3 HI H. assert (O : forall q, fmt q -> fmt (- q)) by (intros; now apply generic_format_opp). assert (Z : fmt 0) by (apply (fmt_int 0); lia).
  assert (E : v = pdot [(q1, n1); (q2, n2); (q3, n3)]); [|rewrite E; unfold pdot; cbn; ring].
  assert (NZ : forall q, nz (q, 0) = false) by (intro q; unfold nz; cbn; rewrite Rmult_0_r; destruct (Req_EM_T 0 0); congruence).
  apply fl_dot_exact; [exact H| |].
  - cbn in HI. repeat destruct HI as [HI|HI]; try (injection HI as <- <- <-); [..|destruct HI]; cbn [filter]; rewrite ?NZ; repeat match goal with |- context[nz ?p] => destruct (nz p) end; cbn; lia.
  - intros p [<-|[<-|[<-|[]]]]; cbn [fst snd]; cbn in HI; repeat destruct HI as [HI|HI]; try (injection HI as <- <- <-); try destruct HI; rewrite ?Rmult_0_r, ?Rmult_1_r; auto;
      (replace (q1 * -1) with (- q1) by ring) || (replace (q2 * -1) with (- q2) by ring) || (replace (q3 * -1) with (- q3) by ring); auto.
Qed.
(** ** three terms *)
Lemma fl_dot3_err a1 a2 a3 x1 x2 x3 v K X : Rabs a1 <= K -> Rabs a2 <= K -> Rabs a3 <= K -> Rabs x1 <= X -> Rabs x2 <= X -> Rabs x3 <= X ->
  fl_dot [(a1, x1); (a2, x2); (a3, x3)] v -> Rabs (v - (a1 * x1 + a2 * x2 + a3 * x3)) <= 12 * (u64 * (K * X)) + 8 * eta64.
Proof.
  intros A1 A2 A3 X1 X2 X3 H. pose proof (fl_dot_err [a1; a2; a3] [x1; x2; x3] v eq_refl H) as E. pose proof u64_pos as U. pose proof u64_small as U'. pose proof eta64_pos as N.
  replace (dot [a1; a2; a3] [x1; x2; x3]) with (a1 * x1 + a2 * x2 + a3 * x3) in E by (unfold dot; cbn; ring). eapply Rle_trans; [exact E|]. unfold dot_margin. cbn [length].
  replace (INR 3) with 3 by (rewrite INR_IZR_INZ; reflexivity). pose proof (pow_small 3 ltac:(lia)) as P. pose proof (pow_u 3) as P1.
  assert (T : abs_dot [a1; a2; a3] [x1; x2; x3] <= 3 * (K * X)).
  { unfold abs_dot, dot. cbn. pose proof (Rabs_pos a1). pose proof (Rabs_pos a2). pose proof (Rabs_pos a3). pose proof (Rabs_pos x1). pose proof (Rabs_pos x2). pose proof (Rabs_pos x3).
    pose proof (Rmult_le_compat _ _ _ _ H0 H3 A1 X1). pose proof (Rmult_le_compat _ _ _ _ H1 H4 A2 X2). pose proof (Rmult_le_compat _ _ _ _ H2 H5 A3 X3). lra. }
  pose proof (abs_dot_pos [a1; a2; a3] [x1; x2; x3]) as T0.
  assert (Y1 : ((1 + u64) ^ 3 - 1) * abs_dot [a1; a2; a3] [x1; x2; x3] <= 4 * u64 * (3 * (K * X))) by (apply Rmult_le_compat; lra).
  assert (Y2 : 2 * 3 * (1 + u64) ^ 3 * eta64 <= 8 * eta64) by (apply Rmult_le_compat_r; lra). lra.
Qed.
Lemma b64_err_le x B : Rabs x <= B -> Rabs (b64 x - x) <= u64 * B + eta64.
Proof. intro H. eapply Rle_trans; [apply b64_err|]. pose proof u64_pos. assert (u64 * Rabs x <= u64 * B) by (apply Rmult_le_compat_l; lra). lra. Qed.
(** ** a box contains its vertices *)
Lemma vertex_err q1 q2 q3 s1 s2 s3 c w M : 0 <= M -> Rabs q1 <= 101 / 100 -> Rabs q2 <= 101 / 100 -> Rabs q3 <= 101 / 100 -> Rabs s1 <= M -> Rabs s2 <= M -> Rabs s3 <= M -> Rabs c <= M ->
  fl_dot [(q1, s1); (q2, s2); (q3, s3)] w -> Rabs (b64 (w + c) - (q1 * s1 + q2 * s2 + q3 * s3 + c)) <= 17 * (u64 * M) + 10 * eta64 /\ Rabs (q1 * s1 + q2 * s2 + q3 * s3) <= 303 / 100 * M.
Proof.
  intros HM Q1 Q2 Q3 S1 S2 S3 C H. pose proof (fl_dot3_err _ _ _ _ _ _ _ _ _ Q1 Q2 Q3 S1 S2 S3 H) as E. pose proof u64_pos as U. pose proof u64_small as U'. pose proof eta64_pos as N.
  assert (P : forall q s, Rabs q <= 101 / 100 -> Rabs s <= M -> - (101 / 100 * M) <= q * s <= 101 / 100 * M).
  { intros q s Hq Hs. apply rabs_le. rewrite Rabs_mult. apply Rmult_le_compat; auto using Rabs_pos. }
  pose proof (P _ _ Q1 S1) as P1. pose proof (P _ _ Q2 S2) as P2. pose proof (P _ _ Q3 S3) as P3. apply rabs_le in E. pose proof (rabs_le _ _ C) as C'.
  assert (m0 : 0 <= u64 * M) by (apply Rmult_le_pos; lra). assert (m1 : u64 * M <= / 1000 * M) by (apply Rmult_le_compat_r; lra). assert (n1 : u64 * eta64 <= / 1000 * eta64) by (apply Rmult_le_compat_r; lra).
  assert (m2 : u64 * (u64 * M) <= / 1000 * (u64 * M)) by (apply Rmult_le_compat_r; lra).
  split; [|apply Rabs_le; lra].
  assert (W : Rabs (w + c) <= 405 / 100 * M + 8 * eta64) by (apply Rabs_le; lra). pose proof (rabs_le _ _ (b64_err_le _ _ W)) as B. rewrite Rmult_plus_distr_l in B. apply Rabs_le. lra.
Qed.
Lemma face_ok a1 a2 a3 t1 t2 t3 c1 c2 c3 v1 v2 v3 h y z M e tol : 0 <= M -> 0 <= e -> Rabs a1 <= 101 / 100 -> Rabs a2 <= 101 / 100 -> Rabs a3 <= 101 / 100 ->
  Rabs t1 <= 303 / 100 * M -> Rabs t2 <= 303 / 100 * M -> Rabs t3 <= 303 / 100 * M -> Rabs c1 <= M -> Rabs c2 <= M -> Rabs c3 <= M -> 0 <= h <= M ->
  Rabs (v1 - (t1 + c1)) <= 17 * (u64 * M) + 10 * eta64 -> Rabs (v2 - (t2 + c2)) <= 17 * (u64 * M) + 10 * eta64 -> Rabs (v3 - (t3 + c3)) <= 17 * (u64 * M) + 10 * eta64 ->
  a1 * t1 + a2 * t2 + a3 * t3 <= h + 3 * (e * M) -> fl_dot [(a1, c1); (a2, c2); (a3, c3)] y -> fl_dot [(a1, v1); (a2, v2); (a3, v3)] z ->
  8 * (e * M) + 256 * (u64 * M) + 256 * eta64 <= tol -> z <= b64 (b64 (h + y) + tol).
Proof.
  intros HM He A1 A2 A3 T1 T2 T3 C1 C2 C3 Hh V1 V2 V3 HT Hy Hz Htol. pose proof u64_pos as U. pose proof u64_small as U'. pose proof eta64_pos as N.
  assert (m0 : 0 <= u64 * M) by (apply Rmult_le_pos; lra). assert (m1 : u64 * M <= / 1000000 * M) by (apply Rmult_le_compat_r; lra). assert (n1 : u64 * eta64 <= / 1000000 * eta64) by (apply Rmult_le_compat_r; lra).
  assert (m2 : u64 * (u64 * M) <= / 1000000 * (u64 * M)) by (apply Rmult_le_compat_r; lra). assert (e0 : 0 <= e * M) by (apply Rmult_le_pos; lra).
  pose proof (rabs_le _ _ T1) as T1'. pose proof (rabs_le _ _ T2) as T2'. pose proof (rabs_le _ _ T3) as T3'. pose proof (rabs_le _ _ C1) as C1'. pose proof (rabs_le _ _ C2) as C2'. pose proof (rabs_le _ _ C3) as C3'.
  pose proof (rabs_le _ _ V1) as V1'. pose proof (rabs_le _ _ V2) as V2'. pose proof (rabs_le _ _ V3) as V3'.
  set (B := 41 / 10 * M + 10 * eta64). assert (B1 : Rabs v1 <= B) by (apply Rabs_le; unfold B; lra). assert (B2 : Rabs v2 <= B) by (apply Rabs_le; unfold B; lra). assert (B3 : Rabs v3 <= B) by (apply Rabs_le; unfold B; lra).
  pose proof (rabs_le _ _ (fl_dot3_err _ _ _ _ _ _ _ _ _ A1 A2 A3 B1 B2 B3 Hz)) as Ez. pose proof (rabs_le _ _ (fl_dot3_err _ _ _ _ _ _ _ _ _ A1 A2 A3 C1 C2 C3 Hy)) as Ey.
  replace (u64 * (101 / 100 * B)) with (101 / 100 * (41 / 10) * (u64 * M) + 101 / 10 * (u64 * eta64)) in Ez by (unfold B; field).
  replace (u64 * (101 / 100 * M)) with (101 / 100 * (u64 * M)) in Ey by ring.
  assert (P : forall a d X, Rabs a <= 101 / 100 -> Rabs d <= X -> - (101 / 100 * X) <= a * d <= 101 / 100 * X).
  { intros a d X Ha Hd. apply rabs_le. rewrite Rabs_mult. apply Rmult_le_compat; auto using Rabs_pos. }
  pose proof (P _ _ _ A1 V1) as D1. pose proof (P _ _ _ A2 V2) as D2. pose proof (P _ _ _ A3 V3) as D3.
  pose proof (P _ _ _ A1 C1) as F1. pose proof (P _ _ _ A2 C2) as F2. pose proof (P _ _ _ A3 C3) as F3.
  assert (Y : Rabs (h + y) <= 41 / 10 * M + 8 * eta64) by (apply Rabs_le; lra). pose proof (rabs_le _ _ (b64_err_le _ _ Y)) as EB. rewrite Rmult_plus_distr_l in EB.
  assert (Z : Rabs (b64 (h + y) + tol) <= 42 / 10 * M + 10 * eta64 + tol) by (apply Rabs_le; lra). pose proof (rabs_le _ _ (b64_err_le _ _ Z)) as EC. rewrite !Rmult_plus_distr_l in EC.
  assert (tl : u64 * tol <= / 1000 * tol) by (apply Rmult_le_compat_r; lra).
  lra.
Qed.
Lemma unit_bound q1 q2 q3 e : 0 <= e <= / 100 -> Rabs (q1 * q1 + q2 * q2 + q3 * q3 - 1) <= e -> Rabs q1 <= 101 / 100 /\ Rabs q2 <= 101 / 100 /\ Rabs q3 <= 101 / 100.
Proof. intros He H. apply rabs_le in H. repeat split; apply Rabs_le; split; nra. Qed.
Lemma axis_le g1 g2 g3 s1 s2 s3 h M e : 0 <= e -> 0 <= M -> Rabs s1 <= M -> Rabs s2 <= M -> Rabs s3 <= M -> Rabs (g1 - 1) <= e -> Rabs g2 <= e -> Rabs g3 <= e -> s1 <= h ->
  g1 * s1 + g2 * s2 + g3 * s3 <= h + 3 * (e * M).
Proof.
  intros He HM S1 S2 S3 G1 G2 G3 H. assert (P : forall a d, Rabs a <= e -> Rabs d <= M -> a * d <= e * M).
  { intros a d Ha Hd. eapply Rle_trans; [apply Rle_abs|]. rewrite Rabs_mult. apply Rmult_le_compat; auto using Rabs_pos. }
  pose proof (P _ _ G1 S1). pose proof (P _ _ G2 S2). pose proof (P _ _ G3 S3). lra.
Qed.
Lemma in_vertices x y z s : In s (box_vertices [x; y; z]) -> 0 <= x -> 0 <= y -> 0 <= z -> exists s1 s2 s3, s = [s1; s2; s3] /\ - x <= s1 <= x /\ - y <= s2 <= y /\ - z <= s3 <= z.
Proof. cbn. intros H X Y Z. repeat destruct H as [<-|H]; try destruct H; do 3 eexists; (split; [reflexivity|]); repeat split; lra. Qed.
Lemma box_vertices_contained half Q c vs A b tol M e r : length half = 3%nat -> (forall h, In h half -> 0 <= h <= M) -> is_mat 3 3 Q -> (forall q s, In q Q -> In s q -> is_b64 s) ->
  near_orthogonal e Q -> 0 <= e <= / 100 -> length c = 3%nat -> (forall s, In s c -> Rabs s <= M) -> 8 * (e * M) + 256 * (u64 * M) + 256 * eta64 <= tol ->
  fl_box_vertices half Q c vs -> fl_box_inequalities half Q c A b -> fl_contains_all A b tol vs r -> forall ans, In ans r -> ans = true.
Proof.
  intros Lh Hh MQ FQ NQ He Lc Hc Ht HV HI HC ans Ha.
  assert (HX : exists v s w, In s (box_vertices half) /\ fl_mat_vec Q s w /\ v = fl_vadd w c /\ fl_contains A b tol v ans).
  { clear - HV HC Ha. unfold fl_box_vertices, fl_contains_all in *. revert r HC Ha. induction HV as [|s v ss vs (w & W1 & W2) HV IH]; intros r HC Ha; inversion HC; subst; [destruct Ha|]. destruct Ha as [<-|Ha].
    - exists (fl_vadd w c), s, w. split; [now left|auto].
    - destruct (IH _ H3 Ha) as (v & s' & w' & I & K). exists v, s', w'. split; [now right|exact K]. }
  destruct HX as (v & s & w & Is & Hw & -> & y & Hy & ->). clear HV HC Ha vs r.
  destruct (len3_inv _ Lh) as (x1 & x2 & x3 & ->). destruct (len3_inv _ Lc) as (c1 & c2 & c3 & ->).
  pose proof (Hh x1 ltac:(cbn; auto)) as X1. pose proof (Hh x2 ltac:(cbn; auto)) as X2. pose proof (Hh x3 ltac:(cbn; auto)) as X3.
  pose proof (Hc c1 ltac:(cbn; auto)) as C1. pose proof (Hc c2 ltac:(cbn; auto)) as C2. pose proof (Hc c3 ltac:(cbn; auto)) as C3.
  destruct (in_vertices _ _ _ _ Is ltac:(lra) ltac:(lra) ltac:(lra)) as (s1 & s2 & s3 & -> & S1 & S2 & S3). clear Is Hh Hc Lh Lc.
  destruct_vecs. rename x into q11, x0 into q12, x4 into q13, x5 into q21, x6 into q22, x7 into q23, x8 into q31, x9 into q32, x10 into q33.
  assert (F : forall s, In s [q11; q12; q13; q21; q22; q23; q31; q32; q33] -> fmt s).
  { intros s Hs. apply is_b64_fmt. cbn in Hs. repeat destruct Hs as [<-|Hs]; try destruct Hs; [apply (FQ [q11; q12; q13])|apply (FQ [q11; q12; q13])|apply (FQ [q11; q12; q13])|apply (FQ [q21; q22; q23])|apply (FQ [q21; q22; q23])|apply (FQ [q21; q22; q23])|apply (FQ [q31; q32; q33])|apply (FQ [q31; q32; q33])|apply (FQ [q31; q32; q33])]; cbn; auto. }
  pose proof (NQ 0 0 ltac:(lia) ltac:(lia))%nat as N00. pose proof (NQ 0 1 ltac:(lia) ltac:(lia))%nat as N01. pose proof (NQ 0 2 ltac:(lia) ltac:(lia))%nat as N02.
  pose proof (NQ 1 0 ltac:(lia) ltac:(lia))%nat as N10. pose proof (NQ 1 1 ltac:(lia) ltac:(lia))%nat as N11. pose proof (NQ 1 2 ltac:(lia) ltac:(lia))%nat as N12.
  pose proof (NQ 2 0 ltac:(lia) ltac:(lia))%nat as N20. pose proof (NQ 2 1 ltac:(lia) ltac:(lia))%nat as N21. pose proof (NQ 2 2 ltac:(lia) ltac:(lia))%nat as N22.
  unfold dot in N00, N01, N02, N10, N11, N12, N20, N21, N22. cbn in N00, N01, N02, N10, N11, N12, N20, N21, N22. clear NQ FQ.
  destruct HI as (HA & wc & Hwc & ->). unfold fl_mat_vec, box_normals in *.
  assert (M0 : 0 <= M) by lra. rewrite Rminus_0_r in N01, N02, N10, N12, N20, N21.
  assert (L1p : q11 * (q11 * s1 + q12 * s2 + q13 * s3) + q21 * (q21 * s1 + q22 * s2 + q23 * s3) + q31 * (q31 * s1 + q32 * s2 + q33 * s3) <= x1 + 3 * (e * M)).
  { pose proof (axis_le _ _ _ s1 s2 s3 x1 M e (proj1 He) M0 ltac:(apply Rabs_le; lra) ltac:(apply Rabs_le; lra) ltac:(apply Rabs_le; lra) N00 N01 N02 ltac:(lra)) as W. lra. }
  assert (L1n : - q11 * (q11 * s1 + q12 * s2 + q13 * s3) + - q21 * (q21 * s1 + q22 * s2 + q23 * s3) + - q31 * (q31 * s1 + q32 * s2 + q33 * s3) <= x1 + 3 * (e * M)).
  { pose proof (axis_le _ _ _ (- s1) (- s2) (- s3) x1 M e (proj1 He) M0 ltac:(apply Rabs_le; lra) ltac:(apply Rabs_le; lra) ltac:(apply Rabs_le; lra) N00 N01 N02 ltac:(lra)) as W. lra. }
  assert (L2p : q12 * (q11 * s1 + q12 * s2 + q13 * s3) + q22 * (q21 * s1 + q22 * s2 + q23 * s3) + q32 * (q31 * s1 + q32 * s2 + q33 * s3) <= x2 + 3 * (e * M)).
  { pose proof (axis_le _ _ _ s2 s1 s3 x2 M e (proj1 He) M0 ltac:(apply Rabs_le; lra) ltac:(apply Rabs_le; lra) ltac:(apply Rabs_le; lra) N11 N10 N12 ltac:(lra)) as W. lra. }
  assert (L2n : - q12 * (q11 * s1 + q12 * s2 + q13 * s3) + - q22 * (q21 * s1 + q22 * s2 + q23 * s3) + - q32 * (q31 * s1 + q32 * s2 + q33 * s3) <= x2 + 3 * (e * M)).
  { pose proof (axis_le _ _ _ (- s2) (- s1) (- s3) x2 M e (proj1 He) M0 ltac:(apply Rabs_le; lra) ltac:(apply Rabs_le; lra) ltac:(apply Rabs_le; lra) N11 N10 N12 ltac:(lra)) as W. lra. }
  assert (L3p : q13 * (q11 * s1 + q12 * s2 + q13 * s3) + q23 * (q21 * s1 + q22 * s2 + q23 * s3) + q33 * (q31 * s1 + q32 * s2 + q33 * s3) <= x3 + 3 * (e * M)).
  { pose proof (axis_le _ _ _ s3 s1 s2 x3 M e (proj1 He) M0 ltac:(apply Rabs_le; lra) ltac:(apply Rabs_le; lra) ltac:(apply Rabs_le; lra) N22 N20 N21 ltac:(lra)) as W. lra. }
  assert (L3n : - q13 * (q11 * s1 + q12 * s2 + q13 * s3) + - q23 * (q21 * s1 + q22 * s2 + q23 * s3) + - q33 * (q31 * s1 + q32 * s2 + q33 * s3) <= x3 + 3 * (e * M)).
  { pose proof (axis_le _ _ _ (- s3) (- s1) (- s2) x3 M e (proj1 He) M0 ltac:(apply Rabs_le; lra) ltac:(apply Rabs_le; lra) ltac:(apply Rabs_le; lra) N22 N20 N21 ltac:(lra)) as W. lra. }
  repeat match goal with H : Forall2 _ (_ :: _) _ |- _ => inversion H; clear H; subst | H : Forall2 _ [] _ |- _ => inversion H; clear H; subst end. unfold fl_vadd in *. cbn [map2 combine forallb fst snd] in *.
  assert (U1 : Rabs q11 <= 101 / 100 /\ Rabs q21 <= 101 / 100 /\ Rabs q31 <= 101 / 100) by (apply (unit_bound _ _ _ e He); replace (q11 * q11 + q21 * q21 + q31 * q31 - 1) with (q11 * q11 + (q21 * q21 + (q31 * q31 + 0)) - 1) by ring; exact N00).
  assert (U2 : Rabs q12 <= 101 / 100 /\ Rabs q22 <= 101 / 100 /\ Rabs q32 <= 101 / 100) by (apply (unit_bound _ _ _ e He); replace (q12 * q12 + q22 * q22 + q32 * q32 - 1) with (q12 * q12 + (q22 * q22 + (q32 * q32 + 0)) - 1) by ring; exact N11).
  assert (U3 : Rabs q13 <= 101 / 100 /\ Rabs q23 <= 101 / 100 /\ Rabs q33 <= 101 / 100) by (apply (unit_bound _ _ _ e He); replace (q13 * q13 + q23 * q23 + q33 * q33 - 1) with (q13 * q13 + (q23 * q23 + (q33 * q33 + 0)) - 1) by ring; exact N22).
  destruct U1 as (U11 & U21 & U31). destruct U2 as (U12 & U22 & U32). destruct U3 as (U13 & U23 & U33).
  assert (Z1 : Rabs s1 <= M) by (apply Rabs_le; lra). assert (Z2 : Rabs s2 <= M) by (apply Rabs_le; lra). assert (Z3 : Rabs s3 <= M) by (apply Rabs_le; lra).
  repeat match goal with H : fl_dot [(?a, ?n1); (?b, ?n2); (?c, ?n3)] ?v |- _ =>
    let E := fresh "E" in let E' := fresh "E" in
    is_var v; match goal with |- _ => tryif is_var n1 then fail else idtac end;
    assert (E : v = a * n1 + b * n2 + c * n3) by (apply fl_dot3_unit; [apply F; cbn; auto 12|apply F; cbn; auto 12|apply F; cbn; auto 12|unfold box_normals; repeat (first [left; reflexivity|right])|exact H]);
    first [assert (E' : v = a) by (rewrite E; ring)|assert (E' : v = b) by (rewrite E; ring)|assert (E' : v = c) by (rewrite E; ring)|assert (E' : v = - a) by (rewrite E; ring)|assert (E' : v = - b) by (rewrite E; ring)|assert (E' : v = - c) by (rewrite E; ring)];
    clear H E; subst v end.
  repeat match goal with H : fl_dot [(q11, s1); _; _] _ |- _ => destruct (vertex_err _ _ _ _ _ _ c1 _ M M0 U11 U12 U13 Z1 Z2 Z3 C1 H) as (V1 & T1); clear H end.
  repeat match goal with H : fl_dot [(q21, s1); _; _] _ |- _ => destruct (vertex_err _ _ _ _ _ _ c2 _ M M0 U21 U22 U23 Z1 Z2 Z3 C2 H) as (V2 & T2); clear H end.
  repeat match goal with H : fl_dot [(q31, s1); _; _] _ |- _ => destruct (vertex_err _ _ _ _ _ _ c3 _ M M0 U31 U32 U33 Z1 Z2 Z3 C3 H) as (V3 & T3); clear H end.
  rewrite !andb_true_iff. repeat split; try reflexivity; apply Rleb_iff;
  match goal with |- ?z <= b64 (b64 (?h + ?y) + tol) => match goal with Hc : fl_dot [(?a1, c1); (?a2, c2); (?a3, c3)] y, Hz : fl_dot _ z |- _ =>
    eapply (face_ok a1 a2 a3 (q11 * s1 + q12 * s2 + q13 * s3) (q21 * s1 + q22 * s2 + q23 * s3) (q31 * s1 + q32 * s2 + q33 * s3) c1 c2 c3 _ _ _ h y z M e tol M0 (proj1 He)); [..|exact V1|exact V2|exact V3| |exact Hc|exact Hz|exact Ht] end end; rewrite ?Rabs_Ropp; assumption.
Qed.
Lemma box_same_self half Q c tol M e ans : length half = 3%nat -> (forall h, In h half -> 0 <= h <= M) -> is_mat 3 3 Q -> (forall q s, In q Q -> In s q -> is_b64 s) ->
  near_orthogonal e Q -> 0 <= e <= / 100 -> length c = 3%nat -> (forall s, In s c -> Rabs s <= M) -> 8 * (e * M) + 256 * (u64 * M) + 256 * eta64 <= tol ->
  fl_box_is_same_self half Q c tol ans -> ans = true.
Proof.
  intros Lh Hh MQ FQ NQ He Lc Hc Ht (vs & A & b & r & HV & HI & HC & ->).
  pose proof (box_vertices_contained half Q c vs A b tol M e r Lh Hh MQ FQ NQ He Lc Hc Ht HV HI HC) as H.
  assert (E : forallb (fun x => x) r = true) by (apply forallb_forall; auto). now rewrite E.
Qed.
Lemma default_tol : / 200000000 <= b64 (/ 100000000).
Proof.
  pose proof (rabs_le _ _ (b64_err (/ 100000000))) as T. rewrite (Rabs_pos_eq (/ 100000000)) in T by lra. pose proof u64_small. pose proof eta64_small. lra.
Qed.
Lemma box_same_default half Q c ans : length half = 3%nat -> (forall h, In h half -> 0 <= h <= 1000) -> is_mat 3 3 Q -> (forall q s, In q Q -> In s q -> is_b64 s) ->
  near_orthogonal (/ 10000000000000) Q -> length c = 3%nat -> (forall s, In s c -> Rabs s <= 1000) -> fl_box_is_same_self half Q c (b64 (/ 100000000)) ans -> ans = true.
Proof.
  intros. apply (box_same_self half Q c (b64 (/ 100000000)) 1000 (/ 10000000000000)); auto; [lra|]. pose proof default_tol. pose proof u64_small. pose proof eta64_small. lra.
Qed.
(** ** every expression has a value *)
Lemma fl_dot_total l : exists v, fl_dot l v.
Proof.
  induction l as [|[a x] l (v & IH)] using rev_ind; [exists 0; constructor|]. destruct l as [|p l]; [eexists; apply fl_mul|]. eexists. apply fl_fma; [discriminate|exact IH].
Qed.
Lemma fl_mat_vec_total A x : exists y, fl_mat_vec A x y.
Proof. unfold fl_mat_vec. induction A as [|a A (y & IH)]; [exists []; constructor|]. destruct (fl_dot_total (combine a x)) as (v & Hv). exists (v :: y). now constructor. Qed.
Lemma fl_contains_total A b tol p : exists ans, fl_contains A b tol p ans.
Proof. destruct (fl_mat_vec_total A p) as (y & Hy). eexists. exists y. split; [exact Hy|reflexivity]. Qed.
Lemma fl_box_total half Q c tol : length half = 3%nat -> exists ans, fl_box_is_same_self half Q c tol ans.
Proof.
  intro Lh. assert (HV : exists vs, fl_box_vertices half Q c vs).
  { unfold fl_box_vertices. induction (box_vertices half) as [|s S (vs & IH)]; [exists []; constructor|]. destruct (fl_mat_vec_total Q s) as (w & Hw). exists (fl_vadd w c :: vs). constructor; [eauto|exact IH]. }
  destruct HV as (vs & HV). assert (HI : exists A b, fl_box_inequalities half Q c A b).
  { destruct (len3_inv _ Lh) as (x & y & z & ->). assert (HA : exists A, Forall2 (fl_mat_vec Q) box_normals A).
    { induction box_normals as [|s S (A & IH)]; [exists []; constructor|]. destruct (fl_mat_vec_total Q s) as (w & Hw). exists (w :: A). now constructor. }
    destruct HA as (A & HA). destruct (fl_mat_vec_total A c) as (w & Hw). exists A. eexists. split; [exact HA|]. exists w. split; [exact Hw|reflexivity]. }
  destruct HI as (A & b & HI). assert (HC : exists r, fl_contains_all A b tol vs r).
  { unfold fl_contains_all. clear. induction vs as [|v vs (r & IH)]; [exists []; constructor|]. destruct (fl_contains_total A b tol v) as (x & Hx). exists (x :: r). now constructor. }
  destruct HC as (r & HC). eexists. exists vs, A, b, r. split; [exact HV|]. split; [exact HI|]. split; [exact HC|reflexivity].
Qed.
(** ** inaccurate rotations *)
Definition q20 : R := 1048577 / 1048576.
Lemma fmt_q20 : fmt q20.
Proof. replace q20 with (IZR 1048577 * bpow radix2 (- (20))) by (rewrite bpn by lia; change (IZR (2 ^ 20)) with 1048576; unfold q20; lra). apply fmt_scaled; lia. Qed.
Lemma fmt_q20_2 : fmt (q20 * q20).
Proof. replace (q20 * q20) with (IZR 1099513724929 * bpow radix2 (- (40))) by (rewrite bpn by lia; change (IZR (2 ^ 40)) with 1099511627776; unfold q20; lra). apply fmt_scaled; lia. Qed.
Lemma lone_dot a1 x1 x2 x3 v : fmt (a1 * x1) -> fl_dot [(a1, x1); (0, x2); (0, x3)] v -> v = a1 * x1.
Proof.
  intros F H. assert (Z : fmt 0) by (apply (fmt_int 0); lia). apply fl_dot_exact in H.
  - rewrite H. unfold pdot. cbn. ring.
  - assert (NZ : forall q, nz (0, q) = false) by (intro q; unfold nz; cbn; rewrite Rmult_0_l; destruct (Req_EM_T 0 0); congruence). cbn [filter]. rewrite !NZ. destruct (nz (a1, x1)); cbn; lia.
  - intros p [<-|[<-|[<-|[]]]]; cbn; rewrite ?Rmult_0_l; auto.
Qed.
Lemma F2_cons {A B : Type} (P : A -> B -> Prop) a l r : Forall2 P (a :: l) r -> exists b r', r = b :: r' /\ P a b /\ Forall2 P l r'.
Proof. intro H. inversion H; subst. eauto. Qed.
Lemma zero_dot l v : (forall p, In p l -> fst p = 0 \/ snd p = 0) -> fl_dot l v -> v = 0.
Proof.
  intros H D. assert (Z : fmt 0) by (apply (fmt_int 0); lia). assert (E : forall p, In p l -> fst p * snd p = 0) by (intros p Hp; destruct (H p Hp) as [->| ->]; ring). apply fl_dot_exact in D.
  - rewrite D. clear H D. induction l as [|p l IH]; [reflexivity|]. change (pdot (p :: l)) with (fst p * snd p + pdot l). rewrite IH by (intros; apply E; now right). rewrite (E p) by (now left). ring.
  - replace (filter nz l) with (@nil (R * R)); [cbn; lia|]. clear H D. induction l as [|p l IH]; [reflexivity|]. cbn. unfold nz at 1. rewrite (E p) by (now left). destruct (Req_EM_T 0 0); [|congruence]. apply IH. intros. apply E. now right.
  - intros p Hp. now rewrite E.
Qed.
Lemma box_inaccurate : exists Q, is_mat 3 3 Q /\ (forall q s, In q Q -> In s q -> is_b64 s) /\ near_orthogonal (/ 100000) Q /\
  forall ans, fl_box_is_same_self [1; 1; 1] Q [0; 0; 0] (b64 (/ 100000000)) ans -> ans = false.
Proof.
  exists [[q20; 0; 0]; [0; q20; 0]; [0; 0; q20]]. pose proof fmt_q20 as F. pose proof fmt_q20_2 as F2. assert (Z : fmt 0) by (apply (fmt_int 0); lia). split; [repeat constructor|]. split; [|split].
  - intros q s Hq Hs. apply is_b64_fmt. cbn in Hq. repeat destruct Hq as [<-|Hq]; try destruct Hq; cbn in Hs; repeat destruct Hs as [<-|Hs]; try destruct Hs; auto.
  - intros [|[|[|i]]] [|[|[|j]]] Hi Hj; try lia; unfold dot; cbn; apply Rabs_le; unfold q20; lra.
  - intros ans (vs & A & b & r & HV & (HA & wc & Hw & ->) & HC & ->). unfold fl_box_vertices, fl_contains_all in *. cbn in HV. unfold box_normals in HA.
    destruct (F2_cons _ _ _ _ HV) as (v & vs' & -> & (w & W & ->) & _). destruct (F2_cons _ _ _ _ HC) as (x & r' & -> & (y & Y & ->) & _).
    destruct (F2_cons _ _ _ _ HA) as (a & A' & -> & HA1 & _). destruct (F2_cons _ _ _ _ Hw) as (c0 & wc' & -> & C0 & _). destruct (F2_cons _ _ _ _ Y) as (y0 & y' & -> & Y0 & _).
    destruct (F2_cons _ _ _ _ W) as (w0 & ? & -> & W0 & W'). destruct (F2_cons _ _ _ _ W') as (w1 & ? & -> & W1 & W''). destruct (F2_cons _ _ _ _ W'') as (w2 & ? & -> & W2 & W3). inversion W3; subst.
    destruct (F2_cons _ _ _ _ HA1) as (a0 & ? & -> & A0 & HA2). destruct (F2_cons _ _ _ _ HA2) as (a1 & ? & -> & A1 & HA3). destruct (F2_cons _ _ _ _ HA3) as (a2 & ? & -> & A2 & HA4). inversion HA4; subst.
    cbn [combine] in *. apply lone_dot in W0; [|now replace (q20 * (1 * 1)) with q20 by ring]. apply lone_dot in A0; [|now rewrite Rmult_1_r].
    apply zero_dot in A1; [|intros p [<-|[<-|[<-|[]]]]; cbn; auto]. apply zero_dot in A2; [|intros p [<-|[<-|[<-|[]]]]; cbn; auto]. apply zero_dot in C0; [|intros p [<-|[<-|[<-|[]]]]; cbn; auto].
    subst a1 a2 c0 w0 a0. unfold fl_vadd in *. cbn [map2 combine] in *. assert (E0 : b64 (q20 * (1 * 1) + 0) = q20) by (replace (q20 * (1 * 1) + 0) with q20 by ring; now apply b64_fix).
    rewrite E0 in Y0. apply lone_dot in Y0; [|now rewrite Rmult_1_r]. subst y0. cbn [forallb fst snd]. rewrite (proj2 (Rleb_false _ _)); [reflexivity|].
    assert (E1 : b64 (1 + 0) = 1) by (rewrite Rplus_0_r; apply b64_fix, (fmt_int 1); lia). rewrite E1. rewrite Rmult_1_r.
    set (t := b64 (/ 100000000)). assert (Ht : Rabs t <= 2 * / 100000000).
    { pose proof (rabs_le _ _ (b64_err (/ 100000000))) as T. rewrite (Rabs_pos_eq (/ 100000000)) in T by lra. pose proof u64_small. pose proof eta64_small. unfold t. apply Rabs_le. lra. }
    apply rabs_le in Ht. pose proof (rabs_le _ _ (b64_err (1 + t))) as T. rewrite (Rabs_pos_eq (1 + t)) in T by lra. pose proof u64_small. pose proof u64_pos. pose proof eta64_small.
    assert (q20 * q20 >= 1 + / 1000000) by (unfold q20; lra). nra.
Qed.
Lemma rot_near : near_orthogonal (/ 10000000000000) [[b64 (3 / 5); - b64 (4 / 5); 0]; [b64 (4 / 5); b64 (3 / 5); 0]; [0; 0; 1]].
Proof.
  assert (H : forall x, 0 <= x <= 1 -> Rabs (b64 x - x) <= / 1000000000000000).
  { intros x Hx. eapply Rle_trans; [apply b64_err|]. rewrite (Rabs_pos_eq x) by lra. pose proof u64_small. pose proof u64_pos. pose proof eta64_small. nra. }
  pose proof (rabs_le _ _ (H (3 / 5) ltac:(lra))) as H1. pose proof (rabs_le _ _ (H (4 / 5) ltac:(lra))) as H2. set (s := b64 (3 / 5)) in *. set (c := b64 (4 / 5)) in *.
  intros [|[|[|i]]] [|[|[|j]]] Hi Hj; try lia; unfold dot; cbn; apply Rabs_le; nra.
Qed.
Lemma box_same_rot ans : fl_box_is_same_self [1; 2; 3] [[b64 (3 / 5); - b64 (4 / 5); 0]; [b64 (4 / 5); b64 (3 / 5); 0]; [0; 0; 1]] [10; -20; 30] (b64 (/ 100000000)) ans -> ans = true.
Proof.
  apply box_same_default; try reflexivity.
  - intros h [<-|[<-|[<-|[]]]]; lra.
  - repeat constructor.
  - intros q s Hq Hs. apply is_b64_fmt. assert (Z : fmt 0) by (apply (fmt_int 0); lia). assert (O : fmt 1) by (apply (fmt_int 1); lia). assert (M : fmt (- b64 (4 / 5))) by (apply generic_format_opp, fmt_b64).
    cbn in Hq. repeat destruct Hq as [<-|Hq]; try destruct Hq; cbn in Hs; repeat destruct Hs as [<-|Hs]; try destruct Hs; auto using fmt_b64.
  - exact rot_near.
  - intros s [<-|[<-|[<-|[]]]]; apply Rabs_le; lra.
Qed.
Lemma contains_case ans : fl_contains [[3 / 5; 4 / 5; 0]] [-200] (b64 (/ 100000000)) [1000; -1000; 5] ans -> ans = true.
Proof.
  intro H. apply contains_default in H as (H & _); try reflexivity.
  - apply H. intros [|i] Hi; [|cbn in Hi; lia]. unfold dot. cbn. lra.
  - now intros a [<-|[]].
  - intros a s [<-|[]] [<-|[<-|[<-|[]]]]; apply Rabs_le; lra.
  - intros s [<-|[<-|[<-|[]]]]; apply Rabs_le; lra.
  - intros s [<-|[]]; apply Rabs_le; lra.
Qed.
