(** Lemmas about Model/FloatUtil.v (C17 and C18 in binary64). *)
From Verif Require Import Proofs.Coord Proofs.UtilP Model.Util Model.FloatUtil Spec.Floats.
From Flocq Require Import Core Relative.

Notation fexp64 := (FLT_exp (-1074) 53).
Notation fmt := (generic_format radix2 fexp64).

Local Instance prec53 : Prec_gt_0 53. Proof. unfold Prec_gt_0. lia. Qed.

Lemma bpow_p2 e : powerRZ 2 e = bpow radix2 e.
Proof. now rewrite bpow_powerRZ. Qed.
Lemma is_b64_fmt x : is_b64 x <-> fmt x.
Proof.
  split.
  - intros (m & e & Hm & He & ->). apply generic_format_FLT. rewrite bpow_p2.
    apply FLT_spec with (Float radix2 m e); auto.
  - intros H. apply FLT_format_generic in H; [|exact prec53]. destruct H as [f H1 H2 H3].
    exists (Fnum f), (Fexp f). repeat split; auto. rewrite bpow_p2. exact H1.
Qed.
Lemma fmt_b64 x : fmt (b64 x).
Proof. unfold b64. apply generic_format_round; auto with typeclass_instances. Qed.
Lemma b64_nearest x : is_b64 (b64 x) /\ forall y, is_b64 y -> Rabs (b64 x - x) <= Rabs (y - x).
Proof.
  split; [apply is_b64_fmt, fmt_b64|]. intros y Hy. apply is_b64_fmt in Hy.
  destruct (round_N_pt radix2 fexp64 (fun z => negb (Z.even z)) x) as [_ H]. now apply H.
Qed.
Lemma b64_fix x : fmt x -> b64 x = x.
Proof. intros H. unfold b64. apply round_generic; auto with typeclass_instances. Qed.
Lemma b64_le x y : x <= y -> b64 x <= b64 y.
Proof. intros H. unfold b64. apply round_le; auto with typeclass_instances. Qed.
Lemma fmt_scaled m e : (Z.abs m < 2 ^ 53)%Z -> (-1074 <= e)%Z -> fmt (IZR m * bpow radix2 e).
Proof. intros H1 H2. apply generic_format_FLT. apply FLT_spec with (Float radix2 m e); auto. Qed.
Lemma fmt_int z : (Z.abs z < 2 ^ 53)%Z -> fmt (IZR z).
Proof.
  intros H. replace (IZR z) with (IZR z * bpow radix2 0) by (cbn; ring). apply fmt_scaled; [auto|lia].
Qed.
Lemma b64_int z : (Z.abs z < 2 ^ 53)%Z -> b64 (IZR z) = IZR z.
Proof. intros H. now apply b64_fix, fmt_int. Qed.

(** rounding a number of known magnitude to a known significand *)
Lemma b64_known y e m : (-1021 <= e)%Z -> bpow radix2 (e - 1) <= y < bpow radix2 e ->
  Rabs (y * bpow radix2 (53 - e) - IZR m) < / 2 -> b64 y = IZR m * bpow radix2 (e - 53).
Proof.
  intros He Hy Hm. assert (Py : 0 < y) by (pose proof (bpow_gt_0 radix2 (e - 1)); lra).
  unfold b64, round, F2R, scaled_mantissa, cexp. cbn [Fnum Fexp].
  rewrite (mag_unique_pos radix2 y e Hy). unfold FLT_exp. replace (Z.max (e - 53) (-1074)) with (e - 53)%Z by lia.
  replace (- (e - 53))%Z with (53 - e)%Z by lia. f_equal. f_equal.
  apply Znearest_imp. exact Hm.
Qed.

Lemma b64_tie y e m : (-1021 <= e)%Z -> bpow radix2 (e - 1) <= y < bpow radix2 e -> Z.even m = true ->
  y * bpow radix2 (53 - e) = IZR m + / 2 -> b64 y = IZR m * bpow radix2 (e - 53).
Proof.
  intros He Hy Hev Hm.
  unfold b64, round, F2R, scaled_mantissa, cexp. cbn [Fnum Fexp].
  rewrite (mag_unique_pos radix2 y e Hy). unfold FLT_exp. replace (Z.max (e - 53) (-1074)) with (e - 53)%Z by lia.
  replace (- (e - 53))%Z with (53 - e)%Z by lia. rewrite Hm. f_equal. f_equal.
  assert (F : Zfloor (IZR m + / 2) = m) by (apply Zfloor_imp; rewrite plus_IZR; lra).
  unfold Znearest. rewrite F. rewrite Rcompare_Eq by lra. now rewrite Hev.
Qed.

Lemma bp n : (0 <= n)%Z -> bpow radix2 n = IZR (2 ^ n).
Proof. intros H. rewrite (IZR_Zpower radix2); auto. Qed.
Lemma bpn n : (0 <= n)%Z -> bpow radix2 (- n) = / IZR (2 ^ n).
Proof. intros H. rewrite bpow_opp, bp; auto. Qed.

(** relative error *)
Lemma b64_rel x : bpow radix2 (-1022) <= Rabs x -> Rabs (b64 x - x) <= / IZR (2 ^ 53) * Rabs x.
Proof.
  intros H. pose proof (relative_error_N_FLT radix2 (-1074) 53 prec53 (fun z => negb (Z.even z)) x) as E.
  eapply Rle_trans; [apply E; exact H|]. apply Rmult_le_compat_r; [apply Rabs_pos|].
  replace (- (53) + 1)%Z with (-(52))%Z by lia. rewrite bpn by lia. apply Req_le.
  change (2 ^ 53)%Z with (2 * 2 ^ 52)%Z. rewrite mult_IZR. field. apply IZR_neq. lia.
Qed.
Lemma normal1 x : 1 <= x -> bpow radix2 (-1022) <= Rabs x.
Proof.
  intros H. rewrite Rabs_pos_eq by lra. apply Rle_trans with 1; auto. change 1 with (bpow radix2 0).
  apply bpow_le. lia.
Qed.

(** q - 1 and its half are exact when 1 <= q <= 2 ^ 30 *)
Lemma fmt_sub1 q : fmt q -> 1 <= q <= IZR (2 ^ 32) ->
  b64 (q - 1) = q - 1 /\ b64 (1 / 2 * (q - 1)) = 1 / 2 * (q - 1).
Proof.
  intros F [H1 H2]. pose proof F as F'.
  unfold generic_format in F'. set (m := Ztrunc (scaled_mantissa radix2 fexp64 q)) in F'.
  set (e := cexp radix2 fexp64 q) in F'. unfold F2R in F'. cbn [Fnum Fexp] in F'.
  assert (M1 : (1 <= mag radix2 q)%Z).
  { apply (mag_ge_bpow radix2 q 1). cbn. rewrite Rabs_pos_eq; lra. }
  assert (M2 : (mag radix2 q <= 33)%Z).
  { apply mag_le_bpow; [lra|]. rewrite Rabs_pos_eq by lra. rewrite bp by lia.
    eapply Rle_lt_trans; [exact H2|]. apply IZR_lt. lia. }
  assert (Ee : e = (mag radix2 q - 53)%Z) by (unfold e, cexp, FLT_exp; lia).
  assert (Hm : (Z.abs m < 2 ^ 53)%Z).
  { apply FLT_format_generic in F; [|exact prec53].
    apply lt_IZR. rewrite abs_IZR. apply Rmult_lt_reg_r with (bpow radix2 e); [apply bpow_gt_0|].
    rewrite <- (Rabs_pos_eq (bpow radix2 e)) at 1 by apply bpow_ge_0. rewrite <- Rabs_mult, <- F'.
    change (2 ^ 53)%Z with (Zpower radix2 53). rewrite IZR_Zpower by lia. rewrite <- bpow_plus.
    replace (53 + e)%Z with (mag radix2 q : Z) by lia. apply bpow_mag_gt. }
  assert (E1 : q - 1 = IZR (m - 2 ^ (- e)) * bpow radix2 e).
  { rewrite minus_IZR, Rmult_minus_distr_r, <- F'. f_equal. rewrite <- bp by lia. rewrite <- bpow_plus.
    replace (- e + e)%Z with 0%Z by lia. reflexivity. }
  assert (Hm' : (Z.abs (m - 2 ^ (- e)) < 2 ^ 53)%Z).
  { assert (0 <= m - 2 ^ (- e))%Z.
    { apply le_IZR. apply Rmult_le_reg_r with (bpow radix2 e); [apply bpow_gt_0|]. rewrite <- E1. lra. }
    assert (0 < 2 ^ (- e))%Z by (apply Z.pow_pos_nonneg; lia). lia. }
  split.
  - apply b64_fix. rewrite E1. apply fmt_scaled; auto. lia.
  - apply b64_fix. replace (1 / 2 * (q - 1)) with (IZR (m - 2 ^ (- e)) * bpow radix2 (e - 1)).
    + apply fmt_scaled; auto. lia.
    + rewrite E1. replace (e - 1)%Z with (e + -(1))%Z by lia. rewrite bpow_plus, (bpn 1) by lia.
      change (2 ^ 1)%Z with 2%Z. field.
Qed.

(** ** C17 *)
Definition tri_root (s : R) : bool * Z :=
  let n := b64 ((1 / 2) * b64 (b64 (sqrt s) - 1)) in (is_integer n, py_int n).

Lemma is_integer_false x : (forall z, x <> IZR z) -> is_integer x = false.
Proof.
  intros H. destruct (is_integer x) eqn:E; auto. apply is_integer_iff in E as (z & E). now destruct (H z).
Qed.

Lemma tri_root_agrees z : (1 <= z < 2 ^ 49)%Z ->
  tri_root (IZR (1 + 8 * z)) =
  (is_integer ((1 / 2) * (sqrt (IZR (1 + 8 * z)) - 1)), py_int ((1 / 2) * (sqrt (IZR (1 + 8 * z)) - 1))).
Proof.
  intros Hz. set (s := IZR (1 + 8 * z)). set (y := sqrt s).
  assert (S1 : 9 <= s) by (apply IZR_le; lia).
  assert (S2 : s <= 4503599627370489) by (apply IZR_le; lia).
  assert (Ys : y * y = s) by (apply sqrt_sqrt; lra).
  assert (Y1 : 3 <= y). { rewrite <- (sqrt_square 3) by lra. apply sqrt_le_1; lra. }
  assert (Y2 : y < IZR (2 ^ 26)).
  { rewrite <- (sqrt_square (IZR (2 ^ 26))) by (apply IZR_le; lia). apply sqrt_lt_1; lra. }
  set (q := b64 y).
  assert (Q1 : 3 <= q). { rewrite <- (b64_int 3) by lia. apply b64_le. exact Y1. }
  assert (Q2 : q <= IZR (2 ^ 26)). { rewrite <- (b64_int (2 ^ 26)) by lia. apply b64_le. lra. }
  assert (Eq : Rabs (q - y) <= / IZR (2 ^ 53) * y).
  { rewrite <- (Rabs_pos_eq y) at 2 by lra. apply b64_rel, normal1. lra. }
  assert (Hint : forall k, q = IZR k -> y = IZR k).
  { intros k Hk. assert (Ek : (k * k = 1 + 8 * z)%Z).
    { assert (A : Rabs (IZR (k * k - (1 + 8 * z))) < 1).
      { rewrite minus_IZR, mult_IZR. fold s. rewrite <- Hk, <- Ys.
        replace (q * q - y * y) with ((q - y) * (q + y)) by ring. rewrite Rabs_mult.
        rewrite (Rabs_pos_eq (q + y)) by lra.
        assert (I : / IZR (2 ^ 53) * y <= / 2).
        { apply Rmult_le_reg_l with (IZR (2 ^ 53)); [apply IZR_lt; lia|].
          rewrite <- Rmult_assoc, Rinv_r by (apply IZR_neq; lia).
          rewrite Rmult_1_l. lra. }
        apply Rabs_le_inv in Eq as Eq'.
        apply Rle_lt_trans with (/ IZR (2 ^ 53) * y * (2 * y + / IZR (2 ^ 53) * y)).
        { apply Rmult_le_compat; try lra. apply Rabs_pos. }
        replace (/ IZR (2 ^ 53) * y * (2 * y + / IZR (2 ^ 53) * y))
          with ((2 + / IZR (2 ^ 53)) * s * / IZR (2 ^ 53)) by (rewrite <- Ys; ring).
        apply Rmult_lt_reg_r with (IZR (2 ^ 53)); [apply IZR_lt; lia|].
        rewrite Rmult_assoc, Rinv_l by (apply IZR_neq; lia).
        assert (J : / IZR (2 ^ 53) * s <= 1).
        { apply Rmult_le_reg_l with (IZR (2 ^ 53)); [apply IZR_lt; lia|].
          rewrite <- Rmult_assoc, Rinv_r by (apply IZR_neq; lia). lra. }
        lra. }
      rewrite <- abs_IZR in A. apply lt_IZR in A. lia. }
    unfold y, s. rewrite <- Ek, mult_IZR. apply sqrt_square. apply IZR_le.
    apply le_IZR. rewrite <- Hk. lra. }
  destruct (fmt_sub1 q (fmt_b64 y)) as [B1 B2].
  { split; [lra|]. eapply Rle_trans; [exact Q2|]. apply IZR_le. lia. }
  unfold tri_root. fold s y q. rewrite B1, B2.
  destruct (is_integer y) eqn:Ei.
  - apply is_integer_iff in Ei as (k & Ek). assert (q = y) as ->; auto.
    unfold q. rewrite Ek. apply b64_int. rewrite Ek in Y1, Y2. apply le_IZR in Y1. apply lt_IZR in Y2. lia.
  - assert (Ny : forall k, y <> IZR k). { intros k E. rewrite E, is_integer_IZR in Ei. discriminate. }
    assert (Nq : forall k, q <> IZR k). { intros k E. apply (Ny k). auto. }
    assert (N2 : forall x, (forall k, x <> IZR k) -> is_integer (1 / 2 * (x - 1)) = false).
    { intros x Hx. apply is_integer_false. intros k Hk. apply (Hx (2 * k + 1)%Z). rewrite plus_IZR, mult_IZR. lra. }
    rewrite (N2 y Ny), (N2 q Nq). f_equal. unfold py_int.
    rewrite (proj2 (Rleb_iff 0 (1 / 2 * (q - 1)))) by lra.
    rewrite (proj2 (Rleb_iff 0 (1 / 2 * (y - 1)))) by lra.
    set (N := Zfloor (1 / 2 * (y - 1))). apply Zfloor_imp.
    pose proof (Zfloor_lb (1 / 2 * (y - 1))) as L. pose proof (Zfloor_ub (1 / 2 * (y - 1))) as U.
    fold N in L, U.
    assert (N0 : (0 <= N < 2 ^ 26)%Z).
    { split; [apply Zfloor_lub; lra|]. apply lt_IZR. lra. }
    assert (A1 : IZR (2 * N + 1) <= q).
    { unfold q. rewrite <- (b64_int (2 * N + 1)) by lia. apply b64_le. rewrite plus_IZR, mult_IZR. lra. }
    assert (A2 : q <= IZR (2 * N + 3)).
    { unfold q. rewrite <- (b64_int (2 * N + 3)) by lia. apply b64_le. rewrite plus_IZR, mult_IZR. lra. }
    pose proof (Nq (2 * N + 3)%Z). rewrite plus_IZR, mult_IZR in *. lra.
Qed.

Lemma tri_f_agrees z : (z < 2 ^ 49)%Z ->
  is_triangular_number_f (PyInt z) = Ok (is_triangular_number (IZR z)) /\
  is_triangular_number_f (PyFloat (IZR z)) = Ok (is_triangular_number (IZR z)).
Proof.
  intros Hz. unfold is_triangular_number_f, is_triangular_number. cbn [value]. rewrite is_integer_IZR. cbn [negb orb].
  destruct (Rltb (IZR z) 1) eqn:E; [auto|].
  assert (H1 : (1 <= z)%Z). { apply le_IZR. apply Rnot_lt_le. intros H. apply Rltb_iff in H. congruence. }
  destruct (Z.leb_spec (2 ^ 64) (1 + 8 * z)); [lia|].
  pose proof (tri_root_agrees z ltac:(lia)) as T. unfold tri_root in T.
  assert (E8 : 8 * IZR z = IZR (8 * z)) by (now rewrite mult_IZR).
  assert (E9 : 1 + 8 * IZR z = IZR (1 + 8 * z)) by (now rewrite plus_IZR, mult_IZR).
  rewrite E8, (b64_int (8 * z)) by lia. rewrite <- plus_IZR, (b64_int (1 + 8 * z)) by lia.
  split; cbn [bind]; now rewrite T.
Qed.

(** the rounded square root of a rounded odd square is exact *)
Lemma b64_sqrt_square k : (3 <= k < 2 ^ 32)%Z -> Z.odd k = true -> b64 (sqrt (b64 (IZR (k * k)))) = IZR k.
Proof.
  intros Hk Ho. set (s := IZR (k * k)). set (t := b64 s).
  assert (K3 : 3 <= IZR k) by (apply IZR_le; lia).
  assert (S9 : 9 <= s) by (apply IZR_le; nia).
  assert (Es : s = IZR k * IZR k) by apply mult_IZR.
  set (u := / IZR (2 ^ 53)). assert (U0 : 0 < u) by (apply Rinv_0_lt_compat, IZR_lt; lia).
  assert (U1 : u * IZR (2 ^ 53) = 1) by (apply Rinv_l, IZR_neq; lia).
  assert (Et : Rabs (t - s) <= u * s).
  { rewrite <- (Rabs_pos_eq s) at 2 by lra. apply b64_rel, normal1. lra. }
  apply Rabs_le_inv in Et.
  set (K := IZR k) in *. set (y := sqrt t).
  assert (T0 : 0 <= t) by nra.
  assert (Yy : y * y = t) by (apply sqrt_sqrt; lra).
  assert (Y0 : 0 <= y) by apply sqrt_pos.
  assert (Klt : K <= IZR (2 ^ 32)) by (apply IZR_le; lia).
  assert (U2 : u * K <= / 2 * u * IZR (2 ^ 33)) by nra.
  assert (HU : y <= K * (1 + u / 2)).
  { apply Rnot_lt_le. intros H. 
    assert (A : K * (1 + u / 2) * (K * (1 + u / 2)) < y * y).
    { assert (0 < K * (1 + u / 2)) by (apply Rmult_lt_0_compat; lra).
      apply Rmult_le_0_lt_compat; lra. }
    replace (K * (1 + u / 2) * (K * (1 + u / 2))) with (K * K + u * (K * K) + K * u * (K * u) / 4) in A by field.
    pose proof (Rle_0_sqr (K * u)) as P. unfold Rsqr in P. rewrite <- Es in A. lra. }
  assert (HL : K * (1 - u / 2 * (1 + u)) <= y).
  { apply Rnot_lt_le. intros H.
    assert (u < / 4) by lra.
    set (c := 1 - u / 2 * (1 + u)) in *.
    assert (A : y * y < K * c * (K * c)) by (apply Rmult_le_0_lt_compat; lra).
    assert (P : c * c <= 1 - u) by (unfold c; nra).
    replace (K * c * (K * c)) with (s * (c * c)) in A by (rewrite Es; ring).
    assert (s * (c * c) <= s * (1 - u)) by (apply Rmult_le_compat_l; lra). lra. }
  set (e := (Z.log2 k + 1)%Z).
  destruct (Z.log2_spec k ltac:(lia)) as [L1 L2].
  assert (L0 : (1 <= Z.log2 k < 32)%Z).
  { split; [apply Z.log2_le_pow2; lia|apply Z.log2_lt_pow2; lia]. }
  assert (L3 : (2 ^ Z.log2 k + 1 <= k)%Z).
  { destruct (Z.eq_dec k (2 ^ Z.log2 k)) as [E|]; [|lia]. exfalso. rewrite E in Ho.
    rewrite Z.odd_pow in Ho by lia. discriminate. }
  assert (L4 : (k <= 2 ^ e - 1)%Z) by (unfold e; rewrite <- Z.add_1_r in *; lia).
  apply IZR_le in L3. rewrite plus_IZR in L3. apply IZR_le in L4. rewrite minus_IZR in L4. fold K in L3, L4.
  assert (UK : u * K <= / 1000) by lra.
  assert (Ee : IZR (2 ^ Z.log2 k) = bpow radix2 (e - 1)).
  { unfold e. rewrite bp by lia. do 2 f_equal. lia. }
  assert (Ee' : IZR (2 ^ e) = bpow radix2 e) by (rewrite bp by lia; reflexivity).
  rewrite (b64_known y e (k * 2 ^ (53 - e))%Z).
  - rewrite mult_IZR, <- bp by lia. rewrite Rmult_assoc, <- bpow_plus.
    replace (53 - e + (e - 53))%Z with 0%Z by lia. cbn. fold K. ring.
  - lia.
  - rewrite <- Ee, <- Ee'. nra.
  - rewrite mult_IZR, <- bp by lia. fold K. rewrite <- Rmult_minus_distr_r, Rabs_mult.
    rewrite (Rabs_pos_eq (bpow radix2 (53 - e))) by apply bpow_ge_0.
    apply Rmult_lt_reg_r with (bpow radix2 e * u); [apply Rmult_lt_0_compat; [apply bpow_gt_0|auto]|].
    replace (Rabs (y - K) * bpow radix2 (53 - e) * (bpow radix2 e * u))
      with (Rabs (y - K) * (bpow radix2 (53 - e) * bpow radix2 e * u)) by ring.
    rewrite <- bpow_plus. replace (53 - e + e)%Z with 53%Z by lia. rewrite (bp 53) by lia.
    rewrite (Rmult_comm (IZR (2 ^ 53))), U1, Rmult_1_r. rewrite <- Ee'.
    apply Rabs_lt. nra.
Qed.

Lemma tri_f_complete n : (1 <= n)%Z -> (4 * n * (n + 1) + 1 < 2 ^ 64)%Z ->
  is_triangular_number_f (PyInt (n * (n + 1) / 2)) = Ok (true, n).
Proof.
  intros H1 H2. unfold is_triangular_number_f. cbn [value]. rewrite is_integer_IZR. cbn [negb orb].
  set (z := (n * (n + 1) / 2)%Z).
  assert (Ez : (2 * z = n * (n + 1))%Z).
  { unfold z. rewrite <- Z.divide_div_mul_exact; try lia.
    - rewrite Z.mul_comm. apply Z.div_mul. lia.
    - destruct (Z.Even_or_Odd n) as [[m ->]|[m ->]]; [exists (m * (2 * m + 1))%Z|exists ((2 * m + 1) * (m + 1))%Z]; ring. }
  destruct (Rltb (IZR z) 1) eqn:E.
  { apply Rltb_iff in E. apply lt_IZR in E. nia. }
  destruct (Z.leb_spec (2 ^ 64) (1 + 8 * z)); [lia|].
  assert (E9 : 1 + 8 * IZR z = IZR ((2 * n + 1) * (2 * n + 1))).
  { rewrite <- mult_IZR, <- plus_IZR. f_equal. lia. }
  assert (B : (2 * n + 1 < 2 ^ 32)%Z) by nia.
  rewrite E9. cbn [bind]. rewrite b64_sqrt_square; [|lia|now rewrite Z.add_comm, Z.odd_add_mul_2].
  rewrite <- minus_IZR. rewrite (b64_int (2 * n + 1 - 1)) by lia.
  replace (1 / 2 * IZR (2 * n + 1 - 1)) with (IZR n) by (rewrite minus_IZR, plus_IZR, mult_IZR; field).
  rewrite (b64_int n) by lia. now rewrite is_integer_IZR, py_int_IZR.
Qed.

(** ** false positives beyond 2 ^ 49 *)
Lemma big_root t : Rabs (t - IZR ((2 ^ 30 + 1) * (2 ^ 30 + 1))) <= 255 -> b64 (sqrt t) = IZR (2 ^ 30 + 1).
Proof.
  intros H. apply Rabs_le_inv in H. change ((2 ^ 30 + 1) * (2 ^ 30 + 1))%Z with 1152921506754330625%Z in H.
  set (y := sqrt t). assert (Yy : y * y = t) by (apply sqrt_sqrt; lra).
  assert (Y0 : 0 <= y) by apply sqrt_pos.
  assert (Y1 : 1073741825 - / 2 ^ 23 < y).
  { apply Rnot_le_lt. intros A.
    assert (y * y <= (1073741825 - / 2 ^ 23) * (1073741825 - / 2 ^ 23)) by (apply Rmult_le_compat; lra). lra. }
  assert (Y2 : y < 1073741825 + / 2 ^ 23).
  { apply Rnot_le_lt. intros A.
    assert ((1073741825 + / 2 ^ 23) * (1073741825 + / 2 ^ 23) <= y * y) by (apply Rmult_le_compat; lra). lra. }
  rewrite (b64_known y 31 ((2 ^ 30 + 1) * 2 ^ 22)).
  - change (31 - 53)%Z with (-(22))%Z. rewrite bpn, mult_IZR by lia. rewrite Rmult_assoc, Rinv_r by (apply IZR_neq; lia). ring.
  - lia.
  - rewrite !bp by lia. change (2 ^ (31 - 1))%Z with 1073741824%Z. change (2 ^ 31)%Z with 2147483648%Z. lra.
  - rewrite bp by lia. change (2 ^ (53 - 31))%Z with 4194304%Z. change ((2 ^ 30 + 1) * 2 ^ 22)%Z with 4503599631564800%Z.
    apply Rabs_lt. lra.
Qed.
Lemma big_tail : (is_integer (b64 (1 / 2 * b64 (IZR (2 ^ 30 + 1) - 1))), py_int (b64 (1 / 2 * b64 (IZR (2 ^ 30 + 1) - 1)))) =
  (true, (2 ^ 29)%Z).
Proof.
  rewrite <- minus_IZR, b64_int by lia.
  replace (1 / 2 * IZR (2 ^ 30 + 1 - 1)) with (IZR (2 ^ 29)).
  - rewrite b64_int by lia. now rewrite is_integer_IZR, py_int_IZR.
  - change (2 ^ 30 + 1 - 1)%Z with (2 * 2 ^ 29)%Z. rewrite mult_IZR. field.
Qed.
Lemma not_tri z : (2 ^ 29 * (2 ^ 29 + 1) < 2 * z < (2 ^ 29 + 1) * (2 ^ 29 + 2))%Z -> forall m, (1 <= m)%Z -> (2 * z <> m * (m + 1))%Z.
Proof. intros H m Hm E. destruct (Z.le_gt_cases m (2 ^ 29)); nia. Qed.

Lemma tri_f_false_int : exists z, is_triangular_number_f (PyInt z) = Ok (true, (2 ^ 29)%Z) /\
  forall m, (1 <= m)%Z -> (2 * z <> m * (m + 1))%Z.
Proof.
  exists (2 ^ 28 * (2 ^ 29 + 1) + 1)%Z. split; [|apply not_tri; lia].
  unfold is_triangular_number_f. cbn [value]. rewrite is_integer_IZR. cbn [negb orb].
  set (z := (2 ^ 28 * (2 ^ 29 + 1) + 1)%Z).
  destruct (Rltb (IZR z) 1) eqn:E; [apply Rltb_iff, lt_IZR in E; lia|].
  destruct (Z.leb_spec (2 ^ 64) (1 + 8 * z)); [lia|]. cbn [bind].
  rewrite big_root; [now rewrite big_tail|].
  rewrite (b64_known (1 + 8 * IZR z) 61 (2 ^ 52 + 2 ^ 23)).
  - change (61 - 53)%Z with 8%Z. rewrite bp, <- mult_IZR, <- minus_IZR, <- abs_IZR by lia. apply IZR_le. vm_compute. discriminate.
  - lia.
  - rewrite !bp, <- mult_IZR, <- plus_IZR by lia. split; [apply IZR_le|apply IZR_lt]; vm_compute; try discriminate; reflexivity.
  - change (53 - 61)%Z with (-(8))%Z. rewrite bpn, <- mult_IZR, <- plus_IZR by lia.
    change (1 + 8 * z)%Z with 1152921506754330633%Z. change (2 ^ 8)%Z with 256%Z.
    change (2 ^ 52 + 2 ^ 23)%Z with 4503599635759104%Z. apply Rabs_lt. lra.
Qed.
Lemma tri_f_false_float : exists z, is_b64 (IZR z) /\ is_triangular_number_f (PyFloat (IZR z)) = Ok (true, (2 ^ 29)%Z) /\
  forall m, (1 <= m)%Z -> (2 * z <> m * (m + 1))%Z.
Proof.
  exists (2 ^ 28 * (2 ^ 29 + 1) + 32)%Z. split; [|split; [|apply not_tri; lia]].
  { exists (2 ^ 52 + 2 ^ 23 + 1)%Z, 5%Z. split; [lia|]. split; [lia|].
    change (powerRZ 2 5) with (powerRZ 2 5). rewrite bpow_p2, bp, <- mult_IZR by lia. reflexivity. }
  unfold is_triangular_number_f. cbn [value]. rewrite is_integer_IZR. cbn [negb orb].
  set (z := (2 ^ 28 * (2 ^ 29 + 1) + 32)%Z).
  destruct (Rltb (IZR z) 1) eqn:E; [apply Rltb_iff, lt_IZR in E; lia|]. cbn [bind].
  rewrite (b64_fix (8 * IZR z)).
  2:{ rewrite <- mult_IZR. replace (IZR (8 * z)) with (IZR (2 ^ 52 + 2 ^ 23 + 1) * bpow radix2 8)
        by (rewrite bp, <- mult_IZR by lia; reflexivity). apply fmt_scaled; lia. }
  rewrite big_root; [now rewrite big_tail|].
  rewrite (b64_known (1 + 8 * IZR z) 61 (2 ^ 52 + 2 ^ 23 + 1)).
  - change (61 - 53)%Z with 8%Z. rewrite bp, <- mult_IZR, <- minus_IZR, <- abs_IZR by lia. apply IZR_le. vm_compute. discriminate.
  - lia.
  - rewrite !bp, <- mult_IZR, <- plus_IZR by lia. split; [apply IZR_le|apply IZR_lt]; vm_compute; try discriminate; reflexivity.
  - change (53 - 61)%Z with (-(8))%Z. rewrite bpn, <- mult_IZR, <- plus_IZR by lia.
    change (1 + 8 * z)%Z with 1152921506754330881%Z. change (2 ^ 8)%Z with 256%Z.
    change (2 ^ 52 + 2 ^ 23 + 1)%Z with 4503599635759105%Z. apply Rabs_lt. lra.
Qed.
Lemma tri_f_big z : (2 ^ 61 <= z)%Z -> is_triangular_number_f (PyInt z) = Raise TypeError.
Proof.
  intros H. unfold is_triangular_number_f. cbn [value]. rewrite is_integer_IZR. cbn [negb orb].
  destruct (Rltb (IZR z) 1) eqn:E; [apply Rltb_iff, lt_IZR in E; lia|].
  destruct (Z.leb_spec (2 ^ 64) (1 + 8 * z)); [auto|lia].
Qed.
Lemma tri_f_reject x : (forall z, value x <> IZR z) \/ value x < 1 -> is_triangular_number_f x = Ok (false, (-1)%Z).
Proof.
  intros H. unfold is_triangular_number_f. destruct H as [H|H].
  - now rewrite (is_integer_false _ H).
  - apply Rltb_iff in H. rewrite H, orb_true_r. auto.
Qed.

(** ** C18 *)
Lemma b64_rel_int s k : fmt s -> (0 <= k < 2 ^ 53)%Z -> Rabs (b64 (s * IZR k) - s * IZR k) <= / IZR (2 ^ 53) * Rabs (s * IZR k).
Proof.
  intros F Hk. destruct (Rle_or_lt (bpow radix2 (-1022)) (Rabs (s * IZR k))) as [H|H]; [now apply b64_rel|].
  rewrite b64_fix.
  - rewrite Rminus_eq_0, Rabs_R0. apply Rmult_le_pos; [|apply Rabs_pos].
    apply Rlt_le, Rinv_0_lt_compat, IZR_lt. lia.
  - apply is_b64_fmt in F as (m & e & Hm & He & E). rewrite bpow_p2 in E.
    assert (E' : s * IZR k = IZR (m * 2 ^ (e + 1074) * k) * bpow radix2 (-1074)).
    { rewrite E, !mult_IZR, <- bp by lia. replace e with (e + 1074 + -1074)%Z at 1 by lia. rewrite bpow_plus. ring. }
    rewrite E'. apply fmt_scaled; [|lia].
    apply lt_IZR. rewrite abs_IZR. apply Rmult_lt_reg_r with (bpow radix2 (-1074)); [apply bpow_gt_0|].
    rewrite <- (Rabs_pos_eq (bpow radix2 (-1074))) at 1 by apply bpow_ge_0. rewrite <- Rabs_mult, <- E'.
    eapply Rlt_trans; [exact H|]. rewrite <- (bp 53), <- bpow_plus by lia. apply bpow_lt. lia.
Qed.

Lemma times_f_spec d s : 0 < d -> 0 < s -> is_b64 s ->
  powerRZ 2 (-1022) <= d / s <= 2 ^ 53 - 1 ->
  exists n ts, compute_evaluation_times_f d s = Ok (n, ts) /\ (1 <= n)%Z /\ length ts = Z.to_nat n /\
    (forall k, (k < length ts)%nat ->
       Rabs (nth k ts 0 - INR k * s) <= / 2 ^ 53 * (INR k * s) /\
       0 <= nth k ts 0 < d * (1 + / 2 ^ 53) ^ 2) /\
    (forall j k, (j <= k < length ts)%nat -> nth j ts 0 <= nth k ts 0) /\
    d * (1 - / 2 ^ 53) <= IZR n * s.
Proof.
  intros Hd Hs Fs [D1 D2]. apply is_b64_fmt in Fs. rewrite bpow_p2 in D1.
  assert (E53 : IZR (2 ^ 53) = 2 ^ 53) by (change (2 ^ 53)%Z with 9007199254740992%Z; lra).
  unfold compute_evaluation_times_f. rewrite (proj2 (Rltb_iff 0 d) Hd), (proj2 (Rltb_iff 0 s) Hs). cbn [assert_ bind].
  set (q := b64 (d / s)). set (n := Zceil q).
  set (u := / 2 ^ 53). assert (U0 : 0 < u < / 1000) by (unfold u; lra).
  assert (P : 0 < d / s) by (apply Rdiv_lt_0_compat; auto).
  assert (Eq : Rabs (q - d / s) <= u * (d / s)).
  { pose proof (b64_rel (d / s)) as A. rewrite (Rabs_pos_eq (d / s)), E53 in A by lra. now apply A. }
  apply Rabs_le_inv in Eq.
  assert (Q0 : 0 < q) by nra.
  assert (Q1 : q <= IZR (2 ^ 53 - 1)).
  { rewrite <- (b64_int (2 ^ 53 - 1)) by lia. apply b64_le. rewrite minus_IZR, E53. lra. }
  assert (N1 : (1 <= n)%Z). { assert (0 < n)%Z; [|lia]. apply lt_IZR. pose proof (Zceil_ub q). unfold n. lra. }
  assert (N2 : (n <= 2 ^ 53 - 1)%Z) by (now apply Zceil_glb).
  assert (N3 : IZR n - 1 < q).
  { apply Rnot_le_lt. intros A. assert (n <= n - 1)%Z; [|lia]. apply Zceil_glb. rewrite minus_IZR. lra. }
  assert (N4 : q <= IZR n) by apply Zceil_ub.
  set (ts := map (fun k => b64 (s * b64 (INR k))) (seq 0 (Z.to_nat n))).
  assert (L : length ts = Z.to_nat n) by (unfold ts; now rewrite map_length, seq_length).
  assert (Ek : forall k, (k < length ts)%nat -> nth k ts 0 = b64 (s * INR k)).
  { intros k Hk. unfold ts. rewrite (nth_indep _ 0 (b64 (s * b64 (INR 0)))) by (rewrite map_length, seq_length; lia).
    rewrite (map_nth (fun k => b64 (s * b64 (INR k)))). rewrite seq_nth by lia. cbn [plus].
    f_equal. f_equal. rewrite INR_IZR_INZ. apply b64_int. lia. }
  exists n, ts. repeat split; auto.
  - rewrite Ek by auto. rewrite (Rmult_comm (INR k)). rewrite INR_IZR_INZ.
    pose proof (b64_rel_int s (Z.of_nat k) Fs ltac:(lia)) as A. rewrite (Rabs_pos_eq (s * IZR (Z.of_nat k))) in A.
    + rewrite E53 in A. exact A.
    + apply Rmult_le_pos; [lra|]. apply IZR_le. lia.
  - rewrite Ek by auto. rewrite <- (b64_int 0) by lia. apply b64_le. apply Rmult_le_pos; [lra|apply pos_INR].
  - rewrite Ek by auto. rewrite INR_IZR_INZ.
    pose proof (b64_rel_int s (Z.of_nat k) Fs ltac:(lia)) as A.
    assert (K0 : 0 <= IZR (Z.of_nat k)) by (apply IZR_le; lia).
    assert (K1 : IZR (Z.of_nat k) <= IZR n - 1) by (rewrite <- minus_IZR; apply IZR_le; lia).
    assert (K2 : 0 <= s * IZR (Z.of_nat k)) by (apply Rmult_le_pos; lra).
    rewrite (Rabs_pos_eq (s * IZR (Z.of_nat k))), E53 in A by auto. fold u in A. apply Rabs_le_inv in A.
    assert (K3 : s * IZR (Z.of_nat k) < d * (1 + u)).
    { apply Rle_lt_trans with (s * (IZR n - 1)); [apply Rmult_le_compat_l; lra|].
      apply Rlt_le_trans with (s * q); [apply Rmult_lt_compat_l; lra|].
      replace (d * (1 + u)) with (s * (d / s + u * (d / s))) by (field; lra). apply Rmult_le_compat_l; lra. }
    assert (K4 : s * IZR (Z.of_nat k) * (1 + u) < d * (1 + u) * (1 + u)) by (apply Rmult_lt_compat_r; lra).
    fold u. cbn [pow]. lra.
  - intros j k Hjk. rewrite !Ek by lia. apply b64_le. apply Rmult_le_compat_l; [lra|]. apply le_INR. lia.
  - apply Rle_trans with (q * s); [|apply Rmult_le_compat_r; lra].
    replace (d * (1 - u)) with ((d / s - u * (d / s)) * s) by (field; lra). apply Rmult_le_compat_r; lra.
Qed.
Lemma times_f_raise d s : d <= 0 \/ s <= 0 -> compute_evaluation_times_f d s = Raise AssertionError.
Proof.
  intros H. unfold compute_evaluation_times_f. destruct (Rltb 0 d) eqn:E; cbn [assert_ bind]; auto.
  apply Rltb_iff in E. destruct (Rltb 0 s) eqn:E2; auto. apply Rltb_iff in E2. lra.
Qed.

Lemma ceil_known q z : IZR z - 1 < q <= IZR z -> Zceil q = z.
Proof. intros H. apply Zceil_imp. rewrite minus_IZR. lra. Qed.

Lemma is_b64_scaled m n : (Z.abs m < 2 ^ 53)%Z -> (n <= 1074)%nat -> is_b64 (IZR m * / 2 ^ n).
Proof.
  intros H1 H2. exists m, (- Z.of_nat n)%Z. repeat split; auto; try lia. f_equal.
  rewrite powerRZ_neg', <- pow_powerRZ. reflexivity.
Qed.

(** 2.1 / 0.3: the last time equals the duration *)
Lemma times_f_not_strict : exists d s n ts, is_b64 d /\ is_b64 s /\ 0 < d /\ 0 < s /\
  compute_evaluation_times_f d s = Ok (n, ts) /\ exists k, (k < length ts)%nat /\ nth k ts 0 = d.
Proof.
  set (d := 4728779608739021 * / 2 ^ 51). set (s := 5404319552844595 * / 2 ^ 54).
  exists d, s, 8%Z, (map (fun k => b64 (s * b64 (INR k))) (seq 0 8)).
  split; [apply (is_b64_scaled 4728779608739021 51); lia|].
  split; [apply (is_b64_scaled 5404319552844595 54); lia|].
  split; [unfold d; lra|]. split; [unfold s; lra|]. split.
  - unfold compute_evaluation_times_f. rewrite (proj2 (Rltb_iff 0 d)) by (unfold d; lra).
    rewrite (proj2 (Rltb_iff 0 s)) by (unfold s; lra). cbn [assert_ bind].
    replace (d / s) with (37830236869912168 / 5404319552844595) by (unfold d, s; field).
    rewrite (b64_known _ 3 (7 * 2 ^ 50 + 1)); [rewrite (ceil_known _ 8); [reflexivity|]| | |].
    + change (3 - 53)%Z with (-(50))%Z. rewrite bpn by lia. change (2 ^ 50)%Z with 1125899906842624%Z.
      change (7 * 1125899906842624 + 1)%Z with 7881299347898369%Z. lra.
    + lia.
    + rewrite !bp by lia. change (2 ^ (3 - 1))%Z with 4%Z. change (2 ^ 3)%Z with 8%Z. lra.
    + rewrite bp by lia. change (2 ^ (53 - 3))%Z with 1125899906842624%Z.
      change (7 * 2 ^ 50 + 1)%Z with 7881299347898369%Z. apply Rabs_lt. lra.
  - exists 7%nat. split; [cbn; lia|]. cbn [map seq nth].
    replace (INR 7) with 7 by (rewrite INR_IZR_INZ; reflexivity). rewrite (b64_int 7) by lia.
    rewrite (b64_known _ 2 4728779608739021); [| lia | |].
    + change (2 - 53)%Z with (-(51))%Z. rewrite bpn by lia. unfold d. change (2 ^ 51)%Z with 2251799813685248%Z. lra.
    + rewrite !bp by lia. change (2 ^ (2 - 1))%Z with 2%Z. change (2 ^ 2)%Z with 4%Z. unfold s. lra.
    + rewrite bp by lia. change (2 ^ (53 - 2))%Z with 2251799813685248%Z. unfold s. apply Rabs_lt. lra.
Qed.

(** 0.9 / 0.3: the time after the last one is still before the end *)
Lemma times_f_not_covering : exists d s n ts, is_b64 d /\ is_b64 s /\ 0 < d /\ 0 < s /\
  compute_evaluation_times_f d s = Ok (n, ts) /\ IZR n * s < d /\ b64 (s * IZR n) < d.
Proof.
  set (d := 8106479329266893 * / 2 ^ 53). set (s := 5404319552844595 * / 2 ^ 54).
  exists d, s, 3%Z, (map (fun k => b64 (s * b64 (INR k))) (seq 0 3)).
  split; [apply (is_b64_scaled 8106479329266893 53); lia|].
  split; [apply (is_b64_scaled 5404319552844595 54); lia|].
  split; [unfold d; lra|]. split; [unfold s; lra|]. split; [|split].
  - unfold compute_evaluation_times_f. rewrite (proj2 (Rltb_iff 0 d)) by (unfold d; lra).
    rewrite (proj2 (Rltb_iff 0 s)) by (unfold s; lra). cbn [assert_ bind].
    replace (d / s) with (16212958658533786 / 5404319552844595) by (unfold d, s; field).
    rewrite (b64_known _ 2 (3 * 2 ^ 51)); [rewrite (ceil_known _ 3); [reflexivity|]| | |].
    + change (2 - 53)%Z with (-(51))%Z. rewrite bpn by lia. change (2 ^ 51)%Z with 2251799813685248%Z.
      change (3 * 2251799813685248)%Z with 6755399441055744%Z. lra.
    + lia.
    + rewrite !bp by lia. change (2 ^ (2 - 1))%Z with 2%Z. change (2 ^ 2)%Z with 4%Z. lra.
    + rewrite bp by lia. change (2 ^ (53 - 2))%Z with 2251799813685248%Z.
      change (3 * 2 ^ 51)%Z with 6755399441055744%Z. apply Rabs_lt. lra.
  - unfold d, s. lra.
  - apply Rle_lt_trans with (8106479329266892 * / 2 ^ 53); [|unfold d; lra].
    rewrite <- (b64_fix (8106479329266892 * / 2 ^ 53)).
    + destruct (Rle_or_lt (b64 (s * 3)) (b64 (8106479329266892 * / 2 ^ 53))) as [|A]; auto. exfalso.
      revert A. rewrite (b64_tie (s * 3) 0 8106479329266892);
        [rewrite (b64_fix (8106479329266892 * / 2 ^ 53))| lia | |reflexivity|].
      * change (0 - 53)%Z with (-(53))%Z. rewrite bpn by lia. change (2 ^ 53)%Z with 9007199254740992%Z. lra.
      * apply is_b64_fmt. apply (is_b64_scaled 8106479329266892 53); lia.
      * change (0 - 1)%Z with (-(1))%Z. rewrite bpn, bp by lia. change (2 ^ 1)%Z with 2%Z. change (2 ^ 0)%Z with 1%Z. unfold s. lra.
      * rewrite bp by lia. change (2 ^ (53 - 0))%Z with 9007199254740992%Z. unfold s. lra.
    + apply is_b64_fmt. apply (is_b64_scaled 8106479329266892 53); lia.
Qed.

(** the quotient underflows: no time at all *)
Lemma times_f_empty : exists d s, is_b64 d /\ is_b64 s /\ 0 < d /\ 0 < s /\
  compute_evaluation_times_f d s = Ok (0%Z, []).
Proof.
  exists (bpow radix2 (-1074)), 4.
  split; [exists 1%Z, (-1074)%Z; rewrite bpow_p2, Rmult_1_l; repeat split; lia|].
  split; [exists 4%Z, 0%Z; cbn; split; [lia|split; [lia|lra]]|].
  split; [apply bpow_gt_0|]. split; [lra|].
  unfold compute_evaluation_times_f. rewrite (proj2 (Rltb_iff 0 _) (bpow_gt_0 radix2 (-1074))).
  rewrite (proj2 (Rltb_iff 0 4)) by lra. cbn [assert_ bind].
  replace (bpow radix2 (-1074) / 4) with (bpow radix2 (-1076)).
  2:{ replace (-1076)%Z with (-1074 + -(2))%Z by lia. rewrite bpow_plus, (bpn 2) by lia. change (2 ^ 2)%Z with 4%Z. reflexivity. }
  assert (E : b64 (bpow radix2 (-1076)) = 0).
  { unfold b64. apply (round_N_small_pos radix2 fexp64 _ _ (-1075)).
    - split; [apply Req_le; reflexivity|apply bpow_lt; lia].
    - reflexivity. }
  rewrite E. replace (Zceil 0) with 0%Z by (symmetry; apply (Zceil_IZR 0)). reflexivity.
Qed.
Lemma tri_f_iff x z n : (z < 2 ^ 49)%Z -> x = PyInt z \/ x = PyFloat (IZR z) ->
  (is_triangular_number_f x = Ok (true, n) <-> (1 <= n)%Z /\ (2 * z = n * (n + 1))%Z).
Proof.
  intros Hz Hx. destruct (tri_f_agrees z Hz) as [A B].
  assert (E : is_triangular_number_f x = Ok (is_triangular_number (IZR z))) by (destruct Hx; subst; auto).
  rewrite E. transitivity (is_triangular_number (IZR z) = (true, n)).
  { split; congruence. }
  rewrite is_triangular_iff. split; intros [H1 H2]; split; auto.
  - apply eq_IZR. rewrite !mult_IZR, plus_IZR, H2. lra.
  - apply (f_equal IZR) in H2. rewrite !mult_IZR, plus_IZR in H2. lra.
Qed.
Lemma times_f_case : 0 < 1 /\ 0 < 1 / 4 /\ is_b64 (1 / 4) /\ powerRZ 2 (-1022) <= 1 / (1 / 4) <= 2 ^ 53 - 1.
Proof.
  split; [lra|]. split; [lra|]. split.
  - replace (1 / 4) with (IZR 1 * / 2 ^ 2) by lra. apply is_b64_scaled; lia.
  - split; [|lra]. rewrite bpow_p2. apply Rle_trans with (bpow radix2 0); [apply bpow_le; lia|cbn; lra].
Qed.
