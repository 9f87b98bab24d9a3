(** Membership in an ellipsoid in binary64 (C86). *)
From Coq Require Import Permutation.
From Verif Require Import Base.Vec Base.VecFacts Spec.Basic Spec.Floats Spec.Rounding Model.Util Model.FloatUtil Model.Box Model.FloatShapes Proofs.Coord Proofs.Decomp Proofs.FloatP Proofs.FloatShapesP Proofs.FloatBoundP.
From Flocq Require Import Core Relative.

(** eta is negligible *)
Lemma eta_big M : 0 <= M <= powerRZ 2 300 -> eta64 * (M * M) <= u64 / 1000 /\ eta64 * M <= u64 / 1000 /\ eta64 <= u64 / 1000.
Proof.
  intro HM. pose proof eta64_pos as N. set (B := powerRZ 2 300) in *.
  assert (B1 : 1 <= B) by (unfold B; rewrite bpow_p2; change 1 with (bpow radix2 0); apply bpow_le; lia).
  assert (E : eta64 * (B * B) <= u64 / 1000).
  { unfold eta64, B, u64. rewrite !bpow_p2, <- !bpow_plus. replace (-1075 + (300 + 300))%Z with (-475)%Z by lia.
    apply Rle_trans with (bpow radix2 (-(63))); [apply bpow_le; lia|]. rewrite bpn by lia. change (IZR (2 ^ 63)) with 9223372036854775808. lra. }
  assert (M * M <= B * B) by (apply Rmult_le_compat; lra). assert (M <= B * B) by nra. assert (1 <= B * B) by nra.
  repeat split.
  - eapply Rle_trans; [|exact E]. apply Rmult_le_compat_l; lra.
  - eapply Rle_trans; [|exact E]. apply Rmult_le_compat_l; lra.
  - eapply Rle_trans; [|exact E]. rewrite <- (Rmult_1_r eta64) at 1. apply Rmult_le_compat_l; lra.
Qed.
(** the weight 1 / h^2 *)
Lemma weight_err h m M : 0 < m -> m <= h <= M -> M <= powerRZ 2 300 -> let r := b64 (1 / h) in let s := b64 (r * r) in Rabs (s * (h * h) - 1) <= 8 * u64 /\ 0 <= s.
Proof.
  intros Hm Hh HM r s. pose proof u64_pos as U. pose proof u64_small as U'. pose proof eta64_pos as N. assert (H0 : 0 < h) by lra.
  destruct (eta_big h ltac:(split; lra)) as (E2 & E1 & E0).
  assert (R1 : Rabs (r * h - 1) <= 1001 / 1000 * u64).
  { pose proof (b64_err (1 / h)) as E. fold r in E. rewrite (Rabs_pos_eq (1 / h)) in E by (apply Rlt_le, Rdiv_lt_0_compat; lra).
    replace (r * h - 1) with ((r - 1 / h) * h) by (field; lra). rewrite Rabs_mult, (Rabs_pos_eq h) by lra.
    apply Rle_trans with ((u64 * (1 / h) + eta64) * h); [apply Rmult_le_compat_r; lra|]. replace ((u64 * (1 / h) + eta64) * h) with (u64 + eta64 * h) by (field; lra). lra. }
  apply rabs_le in R1. set (a := r * h) in *. assert (Ea : r = a / h) by (unfold a; field; lra).
  assert (A2 : Rabs (a * a - 1) <= 201 / 100 * u64) by (apply Rabs_le; nra). apply rabs_le in A2.
  assert (SS : Rabs (s * (h * h) - a * a) <= 102 / 100 * u64).
  { pose proof (b64_err (r * r)) as E. fold s in E. rewrite (Rabs_pos_eq (r * r)) in E by nra.
    replace (s * (h * h) - a * a) with ((s - r * r) * (h * h)) by (unfold a; ring). rewrite Rabs_mult, (Rabs_pos_eq (h * h)) by nra.
    apply Rle_trans with ((u64 * (r * r) + eta64) * (h * h)); [apply Rmult_le_compat_r; nra|]. replace ((u64 * (r * r) + eta64) * (h * h)) with (u64 * (a * a) + eta64 * (h * h)) by (unfold a; ring). nra. }
  apply rabs_le in SS. split; [apply Rabs_le; lra|]. apply b64_nonneg. nra.
Qed.
(** one term of the sum; x is the computed coordinate *)
Lemma term_err h m M x : 0 < m -> m <= h <= M -> M <= powerRZ 2 300 -> Rabs x <= 8 * M -> let s := let r := b64 (1 / h) in b64 (r * r) in
  let t := b64 (b64 (s * x) * x) in Rabs (t - Rsqr (x / h)) <= 11 * u64 * (Rsqr (x / h) + 1).
Proof.
  intros Hm Hh HM Hx s t. pose proof u64_pos as U. pose proof u64_small as U'. pose proof eta64_pos as N. assert (H0 : 0 < h) by lra.
  destruct (eta_big M ltac:(split; lra)) as (E2 & E1 & E0). destruct (weight_err h m M Hm Hh HM) as (W & S0). fold s in W, S0. apply rabs_le in W.
  set (z := x / h). assert (Ex : x = z * h) by (unfold z; field; lra). set (q := Rsqr z). assert (Q0 : 0 <= q) by apply Rle_0_sqr.
  set (w := s * (h * h)) in *. assert (SX : s * x * x = w * q) by (unfold w, q, Rsqr; rewrite Ex; ring).
  set (a := b64 (s * x)) in *. pose proof (b64_err (s * x)) as A1. fold a in A1. pose proof (b64_err (a * x)) as A2. fold t in A2.
  assert (AX : Rabs (a * x - w * q) <= u64 * (w * q) + eta64 * (8 * M)).
  { rewrite <- SX. replace (a * x - s * x * x) with ((a - s * x) * x) by ring. rewrite Rabs_mult.
    apply Rle_trans with ((u64 * Rabs (s * x) + eta64) * Rabs x); [apply Rmult_le_compat_r; auto using Rabs_pos|].
    replace ((u64 * Rabs (s * x) + eta64) * Rabs x) with (u64 * (Rabs (s * x) * Rabs x) + eta64 * Rabs x) by ring. rewrite <- (Rabs_mult (s * x) x), SX, (Rabs_pos_eq (w * q)) by (apply Rmult_le_pos; lra).
    assert (eta64 * Rabs x <= eta64 * (8 * M)) by (apply Rmult_le_compat_l; lra). lra. }
  apply rabs_le in AX. assert (WQ : (1 - 8 * u64) * q <= w * q <= (1 + 8 * u64) * q) by (split; apply Rmult_le_compat_r; lra).
  assert (UQ : 0 <= u64 * q) by (apply Rmult_le_pos; lra). assert (UQ2 : u64 * (u64 * q) <= / 1000 * (u64 * q)) by (apply Rmult_le_compat_r; lra).
  assert (UWQ : 0 <= u64 * (w * q) <= 101 / 100 * (u64 * q)) by (split; [apply Rmult_le_pos; [lra|apply Rmult_le_pos; lra]|apply Rle_trans with (u64 * ((1 + 8 * u64) * q)); [apply Rmult_le_compat_l; lra|lra]]).
  assert (AXa : Rabs (a * x) <= 101 / 100 * q + u64) by (apply Rabs_le; assert (u64 * q <= / 10000 * q) by (apply Rmult_le_compat_r; lra); lra).
  assert (UA : u64 * Rabs (a * x) <= u64 * (101 / 100 * q + u64)) by (apply Rmult_le_compat_l; lra). assert (UU : u64 * u64 <= / 1000 * u64) by (apply Rmult_le_compat_r; lra).
  apply rabs_le in A2. fold q. apply Rabs_le. split; lra.
Qed.
(** at most three terms *)
Lemma sum_err l v : (length l <= 3)%nat -> fl_sum l v -> Rabs (v - lsum l) <= 4 * u64 * lsum (map Rabs l) + 8 * eta64.
Proof.
  intros L H. unfold fl_sum in H. assert (E : map (fun t => (t, 1)) l = combine l (map (fun _ => 1) l)) by (clear; induction l as [|a l IH]; [reflexivity|cbn; now rewrite IH]).
  rewrite E in H. apply fl_dot_err in H; [|now rewrite map_length].
  assert (E1 : dot l (map (fun _ => 1) l) = lsum l) by (clear; induction l as [|a l IH]; [reflexivity|]; change (a * 1 + dot l (map (fun _ => 1) l) = a + lsum l); lra).
  assert (E2 : abs_dot l (map (fun _ => 1) l) = lsum (map Rabs l)) by (clear; induction l as [|a l IH]; [reflexivity|]; change (Rabs a * Rabs 1 + abs_dot l (map (fun _ => 1) l) = Rabs a + lsum (map Rabs l)); rewrite Rabs_R1; lra).
  rewrite E1, E2 in H. eapply Rle_trans; [exact H|]. unfold dot_margin. assert (T : 0 <= lsum (map Rabs l)) by (apply lsum_nonneg; intros x Hx; apply in_map_iff in Hx as (y & <- & _); apply Rabs_pos).
  set (T' := lsum (map Rabs l)) in *. clearbody T'. clear H E1 E2 E. pose proof u64_pos as U. pose proof u64_small as U'. pose proof eta64_pos as N.
  assert (P3 : (1 + u64) ^ length l <= 1 + 4 * u64) by (eapply Rle_trans; [apply (pow_u_le (length l) 3); exact L|]; cbn; nra). pose proof (pow_u (length l)) as P1.
  assert (I : 0 <= INR (length l) <= 3). { split; [apply pos_INR|]. replace 3 with (INR 3) by (rewrite INR_IZR_INZ; reflexivity). now apply le_INR. }
  set (P := (1 + u64) ^ length l) in *. clearbody P. set (n := INR (length l)) in *. clearbody n. assert ((P - 1) * T' <= 4 * u64 * T') by (apply Rmult_le_compat_r; lra).
  assert (n * P <= 3 * (1 + 4 * u64)) by (apply Rmult_le_compat; lra). assert (n * P * eta64 <= 3 * (1 + 4 * u64) * eta64) by (apply Rmult_le_compat_r; lra). nra.
Qed.
(** one coordinate: the contribution T to the sum, the exact contribution is the square of z *)
Lemma coord_err h m M x y E : 0 < m -> m <= h <= M -> M <= powerRZ 2 300 -> Rabs (y - x) <= E -> Rabs y <= 8 * M -> let s := let r := b64 (1 / h) in b64 (r * r) in
  exists z w, Rsqr (x / h) = Rsqr z /\ Rabs (b64 (b64 (s * y) * y) - Rsqr w) <= 11 * u64 * (Rsqr w + 1) /\ Rabs (w - z) * m <= E.
Proof.
  intros Hm Hh HM Hxy Hy s. exists (x / h), (y / h). split; [reflexivity|]. split; [apply (term_err h m M y); auto|].
  replace (y / h - x / h) with ((y - x) * / h) by (field; lra). rewrite Rabs_mult, (Rabs_pos_eq (/ h)) by (apply Rlt_le, Rinv_0_lt_compat; lra).
  assert (m * / h <= 1) by (rewrite <- (Rinv_r h) by lra; apply Rmult_le_compat_r; [apply Rlt_le, Rinv_0_lt_compat; lra|lra]). pose proof (Rabs_pos (y - x)). nra.
Qed.
Lemma sq_near z w d B : Rabs z <= B -> Rabs (w - z) <= d -> Rsqr w <= Rsqr z + 2 * (B * d) + d * d.
Proof.
  intros Hz Hw. replace (Rsqr w) with (Rsqr z + 2 * (z * (w - z)) + (w - z) * (w - z)) by (unfold Rsqr; ring).
  assert (z * (w - z) <= B * d) by (eapply Rle_trans; [apply Rle_abs|]; rewrite Rabs_mult; apply Rmult_le_compat; auto using Rabs_pos).
  assert ((w - z) * (w - z) <= d * d) by (eapply Rle_trans; [apply Rle_abs|]; rewrite Rabs_mult; apply Rmult_le_compat; auto using Rabs_pos). lra.
Qed.
Lemma three_terms T1 T2 T3 z1 z2 z3 w1 w2 w3 v d tol : Rabs (T1 - Rsqr w1) <= 11 * u64 * (Rsqr w1 + 1) -> Rabs (T2 - Rsqr w2) <= 11 * u64 * (Rsqr w2 + 1) -> Rabs (T3 - Rsqr w3) <= 11 * u64 * (Rsqr w3 + 1) ->
  Rabs (w1 - z1) <= d -> Rabs (w2 - z2) <= d -> Rabs (w3 - z3) <= d -> 40 * u64 <= d -> 16 * d <= tol -> tol <= 1 ->
  Rabs (v - (T1 + T2 + T3)) <= 4 * u64 * (Rabs T1 + Rabs T2 + Rabs T3) + 8 * eta64 ->
  (Rsqr z1 + Rsqr z2 + Rsqr z3 <= 1 -> v <= b64 (1 + tol)) /\ (v <= b64 (1 + tol) -> Rsqr z1 + Rsqr z2 + Rsqr z3 <= 1 + 2 * tol).
Proof.
  intros H1 H2 H3 D1 D2 D3 Hd Ht Ht1 HV. pose proof u64_pos as U. pose proof u64_small as U'. pose proof eta64_pos as N. pose proof eta64_small as N'. destruct (eta_big 0) as (_ & _ & N0). { split; [lra|]. rewrite bpow_p2. apply bpow_ge_0. }
  pose proof (rabs_le _ _ (b64_err_le (1 + tol) 2 ltac:(apply Rabs_le; lra))) as B.
  apply rabs_le in H1. apply rabs_le in H2. apply rabs_le in H3. apply rabs_le in D1. apply rabs_le in D2. apply rabs_le in D3. apply rabs_le in HV.
  pose proof (Rle_0_sqr w1) as W1. pose proof (Rle_0_sqr w2) as W2. pose proof (Rle_0_sqr w3) as W3. pose proof (Rle_0_sqr z1) as Z1. pose proof (Rle_0_sqr z2) as Z2. pose proof (Rle_0_sqr z3) as Z3.
  assert (A : forall T q, 0 <= q -> - (11 * u64 * (q + 1)) <= T - q <= 11 * u64 * (q + 1) -> u64 * Rabs T <= 1001 / 1000 * (u64 * q) + u64 / 1000).
  { intros T q Hq HT. assert (u64 * q <= / 100000 * q) by (apply Rmult_le_compat_r; lra). assert (Rabs T <= 1001 / 1000 * q + / 1000) by (apply Rabs_le; lra).
    apply Rle_trans with (u64 * (1001 / 1000 * q + / 1000)); [apply Rmult_le_compat_l; lra|lra]. }
  pose proof (A T1 _ W1 H1) as A1. pose proof (A T2 _ W2 H2) as A2. pose proof (A T3 _ W3 H3) as A3. clear A.
  set (q1 := Rsqr w1) in *. set (q2 := Rsqr w2) in *. set (q3 := Rsqr w3) in *.
  assert (V : Rabs (v - (q1 + q2 + q3)) <= 16 * (u64 * (q1 + q2 + q3)) + 35 * u64) by (apply Rabs_le; lra). apply rabs_le in V.
  split; intro G.
  - assert (Q : forall z w, Rsqr z <= 1 -> - d <= w - z <= d -> Rsqr w <= Rsqr z + 21 / 10 * d).
    { intros z w Hz Hw. assert (Bz : Rabs z <= 1). { rewrite <- Rabs_R1. apply Rsqr_le_abs_0. rewrite Rsqr_1. exact Hz. }
      pose proof (sq_near z w d 1 Bz ltac:(apply Rabs_le; lra)). assert (d * d <= / 16 * d) by (apply Rmult_le_compat_r; lra). lra. }
    pose proof (Q z1 w1 ltac:(lra) D1) as Q1. pose proof (Q z2 w2 ltac:(lra) D2) as Q2. pose proof (Q z3 w3 ltac:(lra) D3) as Q3. fold q1 in Q1. fold q2 in Q2. fold q3 in Q3.
    assert (u64 * (q1 + q2 + q3) <= u64 * 2) by (apply Rmult_le_compat_l; lra). lra.
  - assert (u64 * (q1 + q2 + q3) <= / 100000 * (q1 + q2 + q3)) by (apply Rmult_le_compat_r; lra). assert (QS : q1 + q2 + q3 <= 3) by lra.
    assert (u64 * (q1 + q2 + q3) <= u64 * 3) by (apply Rmult_le_compat_l; lra).
    assert (Q : forall z w, Rsqr w <= 3 -> - d <= w - z <= d -> Rsqr z <= Rsqr w + 4 * d).
    { intros z w Hw Hz. assert (Bw : Rabs w <= 9 / 5). { rewrite <- (Rabs_pos_eq (9 / 5)) by lra. apply Rsqr_le_abs_0. unfold Rsqr in *. lra. }
      pose proof (sq_near w z d (9 / 5) Bw ltac:(apply Rabs_le; lra)). assert (d * d <= / 16 * d) by (apply Rmult_le_compat_r; lra). lra. }
    pose proof (Q z1 w1 ltac:(fold q1; lra) D1) as Q1. pose proof (Q z2 w2 ltac:(fold q2; lra) D2) as Q2. pose proof (Q z3 w3 ltac:(fold q3; lra) D3) as Q3. fold q1 in Q1. fold q2 in Q2. fold q3 in Q3. lra.
Qed.
Lemma local_err q1 q2 q3 p1 p2 p3 c1 c2 c3 y M m : Rabs q1 <= 101 / 100 -> Rabs q2 <= 101 / 100 -> Rabs q3 <= 101 / 100 -> Rabs p1 <= M -> Rabs p2 <= M -> Rabs p3 <= M -> Rabs c1 <= M -> Rabs c2 <= M -> Rabs c3 <= M ->
  0 < m <= M -> eta64 <= m / 320 -> fl_dot [(q1, b64 (p1 - c1)); (q2, b64 (p2 - c2)); (q3, b64 (p3 - c3))] y ->
  Rabs (y - (q1 * (p1 - c1) + q2 * (p2 - c2) + q3 * (p3 - c3))) <= 40 * (u64 * M) + 20 * eta64 /\ Rabs y <= 8 * M.
Proof.
  intros Q1 Q2 Q3 P1 P2 P3 C1 C2 C3 Hm He H. pose proof u64_pos as U. pose proof u64_small as U'. pose proof eta64_pos as N.
  assert (UM : 0 <= u64 * M) by (apply Rmult_le_pos; lra). assert (UM' : u64 * M <= / 100000 * M) by (apply Rmult_le_compat_r; lra). assert (UN : 0 <= u64 * eta64 <= / 100000 * eta64) by (split; [apply Rmult_le_pos; lra|apply Rmult_le_compat_r; lra]).
  assert (UUM : u64 * (u64 * M) <= / 100000 * (u64 * M)) by (apply Rmult_le_compat_r; lra).
  assert (D : forall p c, Rabs p <= M -> Rabs c <= M -> - (2 * M) <= p - c <= 2 * M /\ - (2 * (u64 * M) + eta64) <= b64 (p - c) - (p - c) <= 2 * (u64 * M) + eta64).
  { intros p c Hp Hc. apply rabs_le in Hp. apply rabs_le in Hc. split; [lra|]. pose proof (rabs_le _ _ (b64_err_le (p - c) (2 * M) ltac:(apply Rabs_le; lra))). lra. }
  destruct (D p1 c1 P1 C1) as (X1 & D1). destruct (D p2 c2 P2 C2) as (X2 & D2). destruct (D p3 c3 P3 C3) as (X3 & D3). clear D.
  set (d1 := b64 (p1 - c1)) in *. set (d2 := b64 (p2 - c2)) in *. set (d3 := b64 (p3 - c3)) in *. clearbody d1 d2 d3.
  assert (A1 : Rabs d1 <= 203 / 100 * M + 2 * eta64) by (apply Rabs_le; lra). assert (A2 : Rabs d2 <= 203 / 100 * M + 2 * eta64) by (apply Rabs_le; lra). assert (A3 : Rabs d3 <= 203 / 100 * M + 2 * eta64) by (apply Rabs_le; lra).
  pose proof (fl_dot3_err _ _ _ _ _ _ _ _ _ Q1 Q2 Q3 A1 A2 A3 H) as E. apply rabs_le in E.
  assert (P : forall q a B, Rabs q <= 101 / 100 -> - B <= a <= B -> - (101 / 100 * B) <= q * a <= 101 / 100 * B).
  { intros q a B Hq Ha. apply rabs_le. rewrite Rabs_mult. apply Rmult_le_compat; auto using Rabs_pos. apply Rabs_le. lra. }
  pose proof (P q1 (d1 - (p1 - c1)) _ Q1 D1). pose proof (P q2 (d2 - (p2 - c2)) _ Q2 D2). pose proof (P q3 (d3 - (p3 - c3)) _ Q3 D3).
  pose proof (P q1 (p1 - c1) _ Q1 X1). pose proof (P q2 (p2 - c2) _ Q2 X2). pose proof (P q3 (p3 - c3) _ Q3 X3).
  assert (G : Rabs (y - (q1 * (p1 - c1) + q2 * (p2 - c2) + q3 * (p3 - c3))) <= 40 * (u64 * M) + 20 * eta64) by (apply Rabs_le; lra).
  split; [exact G|]. apply rabs_le in G. apply Rabs_le. lra.
Qed.
Lemma ell_contains_spec half Q c tol p ans m M : length half = 3%nat -> (forall h, In h half -> 0 <= h) -> (forall h, In h half -> b64 (/ 100000000) < h -> m <= h <= M) -> 0 < m <= 1 -> m <= M <= powerRZ 2 300 ->
  is_mat 3 3 Q -> (forall q s, In q Q -> In s q -> Rabs s <= 101 / 100) -> length c = 3%nat -> (forall s, In s c -> Rabs s <= M) -> length p = 3%nat -> (forall s, In s p -> Rabs s <= M) ->
  640 * (u64 * M) + 320 * eta64 <= tol * m -> tol <= 1 -> fl_ell_contains half Q c tol p ans ->
  (ell_near (b64 (/ 100000000)) half Q c 0 0 p -> ans = true) /\ (ans = true -> ell_near (b64 (/ 100000000)) half Q c (2 * tol) (2 * tol) p).
Proof.
  intros Lh Hh0 Hh Hm HM MQ FQ Lc Hc Lp Hp Ht Ht1 (ps & v & HP & HS & ->).
  set (th := b64 (/ 100000000)) in *. pose proof u64_pos as U. pose proof u64_small as U'. pose proof eta64_pos as N.
  destruct (len3_inv _ Lh) as (h1 & h2 & h3 & ->). destruct (len3_inv _ Lc) as (c1 & c2 & c3 & ->). destruct (len3_inv _ Lp) as (p1 & p2 & p3 & ->).
  assert (exists q11 q12 q13 q21 q22 q23 q31 q32 q33, Q = [[q11; q12; q13]; [q21; q22; q23]; [q31; q32; q33]]) as (q11 & q12 & q13 & q21 & q22 & q23 & q31 & q32 & q33 & ->).
  { destruct MQ as (L & FR). rewrite Forall_forall in FR. destruct (len3_inv _ L) as (r1 & r2 & r3 & ->). destruct (len3_inv r1) as (? & ? & ? & ->); [apply FR; cbn; auto|]. destruct (len3_inv r2) as (? & ? & ? & ->); [apply FR; cbn; auto|]. destruct (len3_inv r3) as (? & ? & ? & ->); [apply FR; cbn; auto|]. repeat eexists. }
  assert (FE : forall s, In s [q11; q12; q13; q21; q22; q23; q31; q32; q33] -> Rabs s <= 101 / 100).
  { intros s Hs. cbn in Hs. repeat destruct Hs as [<-|Hs]; [apply (FQ [q11; q12; q13])|apply (FQ [q11; q12; q13])|apply (FQ [q11; q12; q13])|apply (FQ [q21; q22; q23])|apply (FQ [q21; q22; q23])|apply (FQ [q21; q22; q23])|apply (FQ [q31; q32; q33])|apply (FQ [q31; q32; q33])|apply (FQ [q31; q32; q33])|destruct Hs]; cbn; auto. }
  clear FQ. cbn [map2] in HP. unfold fl_mat_vec in HP. cbn in HP.
  destruct (F2_cons _ _ _ _ HP) as (y1 & ? & -> & Y1 & HP1). destruct (F2_cons _ _ _ _ HP1) as (y2 & ? & -> & Y2 & HP2). destruct (F2_cons _ _ _ _ HP2) as (y3 & ? & -> & Y3 & HP3). inversion HP3; subst. clear HP HP1 HP2 HP3.
  assert (UM : 0 <= u64 * M) by (apply Rmult_le_pos; lra). assert (TM : tol * m <= 1 * m) by (apply Rmult_le_compat_r; lra). assert (T0 : 0 < tol) by (assert (0 < tol * m) by lra; nra). assert (TM' : tol * m <= tol * 1) by (apply Rmult_le_compat_l; lra).
  assert (K : forall a b c y, Rabs a <= 101 / 100 -> Rabs b <= 101 / 100 -> Rabs c <= 101 / 100 -> fl_dot [(a, b64 (p1 - c1)); (b, b64 (p2 - c2)); (c, b64 (p3 - c3))] y ->
    Rabs (y - (a * (p1 - c1) + b * (p2 - c2) + c * (p3 - c3))) <= 40 * (u64 * M) + 20 * eta64 /\ Rabs y <= 8 * M).
  { intros a b e y A B C H. apply (local_err a b e p1 p2 p3 c1 c2 c3 y M m); auto; try (apply Hp; cbn; auto; fail); try (apply Hc; cbn; auto; fail); lra. }
  pose proof (K q11 q21 q31 y1 ltac:(apply FE; cbn; auto 12) ltac:(apply FE; cbn; auto 12) ltac:(apply FE; cbn; auto 12) Y1) as (E1 & B1).
  pose proof (K q12 q22 q32 y2 ltac:(apply FE; cbn; auto 12) ltac:(apply FE; cbn; auto 12) ltac:(apply FE; cbn; auto 12) Y2) as (E2 & B2).
  pose proof (K q13 q23 q33 y3 ltac:(apply FE; cbn; auto 12) ltac:(apply FE; cbn; auto 12) ltac:(apply FE; cbn; auto 12) Y3) as (E3 & B3). clear K Y1 Y2 Y3 FE.
  unfold ell_near, local_coord. cbn [map nth lsum fold_right].
  replace (dot (col 0 [[q11; q12; q13]; [q21; q22; q23]; [q31; q32; q33]]) (vsub [p1; p2; p3] [c1; c2; c3])) with (q11 * (p1 - c1) + q21 * (p2 - c2) + q31 * (p3 - c3)) by (unfold dot; cbn; ring).
  replace (dot (col 1 [[q11; q12; q13]; [q21; q22; q23]; [q31; q32; q33]]) (vsub [p1; p2; p3] [c1; c2; c3])) with (q12 * (p1 - c1) + q22 * (p2 - c2) + q32 * (p3 - c3)) by (unfold dot; cbn; ring).
  replace (dot (col 2 [[q11; q12; q13]; [q21; q22; q23]; [q31; q32; q33]]) (vsub [p1; p2; p3] [c1; c2; c3])) with (q13 * (p1 - c1) + q23 * (p2 - c2) + q33 * (p3 - c3)) by (unfold dot; cbn; ring).
  assert (XS : forall e, (forall j, (j < 3)%nat -> nth j [h1; h2; h3] 0 <= th -> Rabs (dot (col j [[q11; q12; q13]; [q21; q22; q23]; [q31; q32; q33]]) (vsub [p1; p2; p3] [c1; c2; c3])) <= e) <->
    (h1 <= th -> Rabs (q11 * (p1 - c1) + q21 * (p2 - c2) + q31 * (p3 - c3)) <= e) /\ (h2 <= th -> Rabs (q12 * (p1 - c1) + q22 * (p2 - c2) + q32 * (p3 - c3)) <= e) /\ (h3 <= th -> Rabs (q13 * (p1 - c1) + q23 * (p2 - c2) + q33 * (p3 - c3)) <= e)).
  { intro e. assert (EQ : forall j a, (j < 3)%nat -> a = dot (col j [[q11; q12; q13]; [q21; q22; q23]; [q31; q32; q33]]) (vsub [p1; p2; p3] [c1; c2; c3]) -> a = a) by reflexivity. clear EQ. split.
    - intro H. repeat split; intro Hx; [specialize (H 0%nat ltac:(lia) Hx)|specialize (H 1%nat ltac:(lia) Hx)|specialize (H 2%nat ltac:(lia) Hx)]; unfold dot in H; cbn in H; (eapply Rle_trans; [|exact H]); right; f_equal; ring.
    - intros (G1 & G2 & G3) [|[|[|j]]] Hj Hx; [specialize (G1 Hx); eapply Rle_trans; [|exact G1]|specialize (G2 Hx); eapply Rle_trans; [|exact G2]|specialize (G3 Hx); eapply Rle_trans; [|exact G3]|lia]; right; f_equal; unfold dot; cbn; ring. }
  rewrite !XS. clear XS.
  set (x1 := q11 * (p1 - c1) + q21 * (p2 - c2) + q31 * (p3 - c3)) in *. set (x2 := q12 * (p1 - c1) + q22 * (p2 - c2) + q32 * (p3 - c3)) in *. set (x3 := q13 * (p1 - c1) + q23 * (p2 - c2) + q33 * (p3 - c3)) in *. clearbody x1 x2 x3.
  set (d := (40 * (u64 * M) + 20 * eta64) / m). assert (Ed : d * m = 40 * (u64 * M) + 20 * eta64) by (unfold d; field; lra).
  assert (Hd : 40 * u64 <= d). { apply Rmult_le_reg_r with m; [lra|]. rewrite Ed. assert (u64 * m <= u64 * M) by (apply Rmult_le_compat_l; lra). lra. }
  assert (Hd2 : 16 * d <= tol). { apply Rmult_le_reg_r with m; [lra|]. lra. }
  assert (CF : forall h x y, In h [h1; h2; h3] -> Rabs (y - x) <= 40 * (u64 * M) + 20 * eta64 -> Rabs y <= 8 * M -> exists T z w,
    T = (if fl_zero h then 0 else let s := let r := b64 (1 / h) in b64 (r * r) in b64 (b64 (s * y) * y)) /\ Rsqr z = (if Rle_dec h th then 0 else Rsqr (x / h)) /\ Rabs (T - Rsqr w) <= 11 * u64 * (Rsqr w + 1) /\ Rabs (w - z) <= d).
  { intros h x y Ih Exy By. pose proof (Hh0 h Ih) as P0. pose proof (Hh h Ih) as PB. unfold fl_zero. fold th. rewrite (Rabs_pos_eq h) by lra. destruct (Rle_dec h th) as [Hz|Hz].
    - rewrite (proj2 (Rleb_iff _ _) Hz). exists 0, 0, 0. rewrite Rsqr_0. repeat split; auto; [replace (0 - 0) with 0 by ring; rewrite Rabs_R0; lra|replace (0 - 0) with 0 by ring; rewrite Rabs_R0; lra].
    - rewrite (proj2 (Rleb_false _ _)) by lra. destruct (coord_err h m M x y _ ltac:(lra) (PB ltac:(lra)) ltac:(lra) Exy By) as (z & w & Z1 & Z2 & Z3). eexists _, z, w. split; [reflexivity|]. split; [now rewrite Z1|]. split; [exact Z2|].
      apply Rmult_le_reg_r with m; [lra|]. rewrite Ed. exact Z3. }
  destruct (CF h1 x1 y1 ltac:(cbn; auto) E1 B1) as (T1 & z1 & w1 & ET1 & EZ1 & A1 & D1). destruct (CF h2 x2 y2 ltac:(cbn; auto) E2 B2) as (T2 & z2 & w2 & ET2 & EZ2 & A2 & D2). destruct (CF h3 x3 y3 ltac:(cbn; auto) E3 B3) as (T3 & z3 & w3 & ET3 & EZ3 & A3 & D3). clear CF.
  assert (VS : Rabs (v - (T1 + T2 + T3)) <= 4 * u64 * (Rabs T1 + Rabs T2 + Rabs T3) + 8 * eta64).
  { clear - HS ET1 ET2 ET3. cbn [combine filter fst] in HS. subst T1 T2 T3. cbv zeta in *. destruct (fl_zero h1), (fl_zero h2), (fl_zero h3); cbn [negb map fst snd] in HS; (apply sum_err in HS; [|cbn; lia]); cbn [map lsum fold_right] in HS; rewrite ?Rabs_R0;
      match type of HS with Rabs ?p <= ?q => match goal with |- Rabs ?r <= ?s => replace r with p by ring; replace s with q by ring; exact HS end end. }
  rewrite <- EZ1, <- EZ2, <- EZ3. destruct (three_terms T1 T2 T3 z1 z2 z3 w1 w2 w3 v d tol A1 A2 A3 D1 D2 D3 Hd Hd2 Ht1 VS) as (R1 & R2).
  assert (FZ : forall h, In h [h1; h2; h3] -> fl_zero h = true <-> h <= th) by (intros h Ih; unfold fl_zero; rewrite (Rabs_pos_eq h) by (now apply Hh0); apply Rleb_iff).
  pose proof (FZ h1 ltac:(cbn; auto)) as F1. pose proof (FZ h2 ltac:(cbn; auto)) as F2. pose proof (FZ h3 ltac:(cbn; auto)) as F3. clear FZ.
  apply rabs_le in E1. apply rabs_le in E2. apply rabs_le in E3. cbn [combine forallb fst snd].
  split.
  - intros ((G1 & G2 & G3) & G). rewrite (proj2 (Rleb_iff v _)) by (apply R1; lra).
    assert (W : forall h x y, (fl_zero h = true <-> h <= th) -> (h <= th -> Rabs x <= 0) -> - (40 * (u64 * M) + 20 * eta64) <= y - x <= 40 * (u64 * M) + 20 * eta64 -> implb (fl_zero h) (Rleb (Rabs y) tol) = true).
    { intros h x y Fz Gz Exy. destruct (fl_zero h) eqn:E; [|reflexivity]. cbn. apply Rleb_iff. pose proof (rabs_le _ _ (Gz (proj1 Fz eq_refl))). apply Rabs_le. lra. }
    rewrite (W h1 x1 y1), (W h2 x2 y2), (W h3 x3 y3); auto.
  - intro G. apply andb_prop in G as (G & GV). apply andb_prop in G as (G1 & G). apply andb_prop in G as (G2 & G). apply andb_prop in G as (G3 & _). apply Rleb_iff in GV. specialize (R2 GV).
    assert (W : forall h x y, (fl_zero h = true <-> h <= th) -> - (40 * (u64 * M) + 20 * eta64) <= y - x <= 40 * (u64 * M) + 20 * eta64 -> implb (fl_zero h) (Rleb (Rabs y) tol) = true -> h <= th -> Rabs x <= 2 * tol).
    { intros h x y Fz Exy Gz Hz. rewrite (proj2 Fz Hz) in Gz. cbn in Gz. apply Rleb_iff in Gz. apply rabs_le in Gz. apply Rabs_le. lra. }
    split; [|lra]. split; [|split]; eapply W; eauto.
Qed.
Lemma ell_default half Q c p ans m M : length half = 3%nat -> (forall h, In h half -> 0 <= h) -> (forall h, In h half -> b64 (/ 100000000) < h -> m <= h <= M) -> / 100000000 <= m <= 1 -> m <= M <= 50000 * m ->
  is_mat 3 3 Q -> (forall q s, In q Q -> In s q -> Rabs s <= 101 / 100) -> length c = 3%nat -> (forall s, In s c -> Rabs s <= M) -> length p = 3%nat -> (forall s, In s p -> Rabs s <= M) ->
  fl_ell_contains half Q c (b64 (/ 100000000)) p ans ->
  (ell_near (b64 (/ 100000000)) half Q c 0 0 p -> ans = true) /\ (ans = true -> ell_near (b64 (/ 100000000)) half Q c (/ 40000000) (/ 40000000) p).
Proof.
  intros Lh Hh0 Hh Hm HM MQ FQ Lc Hc Lp Hp H. pose proof default_tol as T. assert (T' : b64 (/ 100000000) <= / 80000000).
  { pose proof (rabs_le _ _ (b64_err (/ 100000000))) as E. rewrite (Rabs_pos_eq (/ 100000000)) in E by lra. pose proof u64_small. pose proof eta64_small. lra. }
  assert (P : 50000 <= powerRZ 2 300) by (rewrite bpow_p2; apply Rle_trans with (bpow radix2 16); [rewrite bp by lia; change (IZR (2 ^ 16)) with 65536; lra|apply bpow_le; lia]).
  destruct (ell_contains_spec half Q c (b64 (/ 100000000)) p ans m M) as (A & B); auto; try lra.
  { pose proof u64_small. pose proof u64_pos. pose proof eta64_small. assert (u64 * M <= / 9000000000000000 * M) by (apply Rmult_le_compat_r; lra). assert (/ 200000000 * m <= b64 (/ 100000000) * m) by (apply Rmult_le_compat_r; lra). lra. }
  split; [exact A|]. intro E. destruct (B E) as (B1 & B2). split; [|lra]. intros j Hj Hx. specialize (B1 j Hj Hx). lra.
Qed.
Lemma fl_ell_total half Q c tol p : exists ans, fl_ell_contains half Q c tol p ans.
Proof.
  destruct (fl_mat_vec_total (transpose Q) (map2 (fun s t => b64 (s - t)) p c)) as (ps & Hps).
  destruct (fl_dot_total (map (fun t => (t, 1)) (map (fun q => let s := let r := b64 (1 / fst q) in b64 (r * r) in b64 (b64 (s * snd q) * snd q)) (filter (fun q => negb (fl_zero (fst q))) (combine half ps))))) as (v & Hv).
  eexists. exists ps, v. split; [exact Hps|]. split; [exact Hv|reflexivity].
Qed.
Lemma ell_case ans : fl_ell_contains [2; 1; 0] [[b64 (3 / 5); - b64 (4 / 5); 0]; [b64 (4 / 5); b64 (3 / 5); 0]; [0; 0; 1]] [10; -20; 30] (b64 (/ 100000000)) [11; -19; 30] ans -> ans = true.
Proof.
  assert (H : forall x, 0 <= x <= 1 -> Rabs (b64 x - x) <= / 1000000000000000).
  { intros x Hx. eapply Rle_trans; [apply b64_err|]. rewrite (Rabs_pos_eq x) by lra. pose proof u64_small. pose proof u64_pos. pose proof eta64_small. nra. }
  pose proof (rabs_le _ _ (H (3 / 5) ltac:(lra))) as H1. pose proof (rabs_le _ _ (H (4 / 5) ltac:(lra))) as H2. set (s := b64 (3 / 5)) in *. set (c := b64 (4 / 5)) in *. clearbody s c.
  pose proof (rabs_le _ _ (H (/ 100000000) ltac:(lra))) as H3. intro G. apply (ell_default _ _ _ _ _ 1 100) in G as (G & _); try reflexivity; try lra.
  - apply G. clear G. set (th := b64 (/ 100000000)) in *. clearbody th. split.
    + intros [|[|[|j]]] Hj Hx; cbn in Hx; try lra; [|lia]. unfold local_coord, dot. cbn. apply Rabs_le. lra.
    + unfold local_coord, dot. cbn. destruct (Rle_dec 2 th); [lra|]. destruct (Rle_dec 1 th); [lra|]. destruct (Rle_dec 0 th); [|lra]. unfold Rsqr. nra.
  - intros h [<-|[<-|[<-|[]]]]; lra.
  - intros h [<-|[<-|[<-|[]]]]; lra.
  - repeat constructor.
  - intros q x [<-|[<-|[<-|[]]]] [<-|[<-|[<-|[]]]]; apply Rabs_le; lra.
  - intros x [<-|[<-|[<-|[]]]]; apply Rabs_le; lra.
  - intros x [<-|[<-|[<-|[]]]]; apply Rabs_le; lra.
Qed.
