(** C95: the matrices accepted by the second order moment relaxation of a polytope are closed under limits. *)
From Coq Require Import Classical.
From Verif Require Import Base.Vec Base.VecFacts Spec.Basic Spec.Objects Spec.Realizable Spec.Moments Spec.Shapes Spec.ShapeObjects Spec.PolySpec Spec.Bodies Spec.Cone
  Model.Util Model.Constraint Model.Inertial Model.Moment Model.Polydd Model.Poly Model.Box Model.Cylinder Model.Ellipsoid Model.Realize
  Proofs.Coord Proofs.LinAlg Proofs.UtilP Proofs.InertialP Proofs.Hull Proofs.BoxP Proofs.CylP Proofs.PolynomialP Proofs.BasisP Proofs.MomentP
  Proofs.Decomp Proofs.PimP Proofs.SdpP Proofs.SdpSound Proofs.SdpGap Proofs.QModule Proofs.QMeasure Proofs.QConc Proofs.Carath Proofs.Farkas Proofs.PolyP Proofs.CylExact Proofs.Compact Proofs.SdpLimit Proofs.SdpLimitB.

(** ** the localizing matrix of an affine polynomial *)
Definition Qw (ell : idx -> R) (w : idx) (z : vec) : R := quad (hmat (fun u => ell (iadd w u)) (basis_list 3 1)) z.
Definition QF (ell : idx -> R) (a : vec) (b : R) (z : vec) : R :=
  b * Qw ell [0; 0; 0]%nat z - (nth 0 a 0 * Qw ell [1; 0; 0]%nat z + nth 1 a 0 * Qw ell [0; 1; 0]%nat z + nth 2 a 0 * Qw ell [0; 0; 1]%nat z).
Lemma QF_lmat ell a b z : length a = 3%nat -> length z = 4%nat -> quad (lmat ell (pol_affine a b 0) (basis_list 3 1)) z = QF ell a b z.
Proof.
  intros La Lz. destruct (len4_inv _ Lz) as (z0 & z1 & z2 & z3 & ->). unfold QF, Qw, quad, lmat, hmat. rewrite basis_31. cbn [map]. rewrite !functional_affine by exact La. unfold dot. cbn. ring.
Qed.
Definition idx3 : list idx := [[3;0;0]; [2;1;0]; [2;0;1]; [1;2;0]; [1;1;1]; [1;0;2]; [0;3;0]; [0;2;1]; [0;1;2]; [0;0;3]]%nat.
Definition idx23 : list idx := map toidx mons2 ++ idx3.
Lemma Qw_dot ell w z : In w [[0;0;0]; [1;0;0]; [0;1;0]; [0;0;1]]%nat -> length z = 4%nat ->
  Qw ell w z = dot (map (fun u => Qw (fun v => if idx_eqb v u then 1 else 0) w z) idx23) (map ell idx23).
Proof.
  intros Hw Lz. destruct (len4_inv _ Lz) as (z0 & z1 & z2 & z3 & ->). unfold Qw, quad, hmat. rewrite basis_31. 
  destruct Hw as [<-|[<-|[<-|[<-|[]]]]]; unfold dot; cbn; ring.
Qed.
(** ** extending moments of degree three to degree four *)
Definition ext (J : mat) (v : vec) (T : R) (u : idx) : R := match u with
  | [3;0;0] => nth 0 v R0 | [2;1;0] => nth 1 v R0 | [2;0;1] => nth 2 v R0 | [1;2;0] => nth 3 v R0 | [1;1;1] => nth 4 v R0
  | [1;0;2] => nth 5 v R0 | [0;3;0] => nth 6 v R0 | [0;2;1] => nth 7 v R0 | [0;1;2] => nth 8 v R0 | [0;0;3] => nth 9 v R0
  | [4;0;0] | [0;4;0] | [0;0;4] => (3 * T)%R
  | [3;1;0] | [3;0;1] | [1;3;0] | [0;3;1] | [1;0;3] | [0;1;3] | [2;2;0] | [2;0;2] | [0;2;2] => T
  | [a; b; c] => TJ J (a, b, c) | _ => R0 end%nat.
Lemma ext_psd J v T r : 0 < r ->
  (forall z, length z = 4%nat -> 0 <= Qw (ext J v T) [0;0;0]%nat z) ->
  (forall k z, In k [[1;0;0]; [0;1;0]; [0;0;1]]%nat -> length z = 4%nat -> 0 <= r * Qw (ext J v T) [0;0;0]%nat z + Qw (ext J v T) k z /\ 0 <= r * Qw (ext J v T) [0;0;0]%nat z - Qw (ext J v T) k z) ->
  T = 21 * (r * r) * (entry J 0 0 + entry J 1 1 + entry J 2 2) -> PSD (length (basis_list 3 2)) (hmat (ext J v T) (basis_list 3 2)).
Proof.
  intros Hr H0 HK ET. split; [apply is_mat_square|]. split; [apply hmat_sym|]. rewrite basis_32. intros z Lz. cbn [length] in Lz.
  destruct z as [|a0 [|a1 [|a2 [|a3 [|q1 [|q2 [|q3 [|q4 [|q5 [|q6 [|]]]]]]]]]]]; try discriminate Lz. clear Lz.
  set (l := / (3 * r)). assert (Hl : 0 < l) by (apply Rinv_0_lt_compat; lra). assert (El : 3 * r * l = 1) by (unfold l; field; lra). clearbody l.
  set (Q := Qw (ext J v T)) in *. set (M := entry J 0 0 + entry J 1 1 + entry J 2 2) in *.
  set (Q4 := q1 * q1 + q4 * q4 + q6 * q6 + (q1 + q4 + q2) * (q1 + q4 + q2) + (q1 + q6 + q3) * (q1 + q6 + q3) + (q4 + q6 + q5) * (q4 + q6 + q5)).
  assert (P : forall k b1 b2 b3, In k [[1;0;0]; [0;1;0]; [0;0;1]]%nat ->
     - (2 * r * (l * l * Q [0;0;0]%nat [a0; a1; a2; a3] + M * (b1 * b1 + b2 * b2 + b3 * b3))) <= Q k [l * a0; l * a1 + b1; l * a2 + b2; l * a3 + b3] - Q k [l * a0; l * a1 - b1; l * a2 - b2; l * a3 - b3]).
  { intros k b1 b2 b3 Hk. destruct (HK k [l * a0; l * a1 + b1; l * a2 + b2; l * a3 + b3] Hk eq_refl) as (K1 & _). destruct (HK k [l * a0; l * a1 - b1; l * a2 - b2; l * a3 - b3] Hk eq_refl) as (_ & K2).
    assert (E : Q [0;0;0]%nat [l * a0; l * a1 + b1; l * a2 + b2; l * a3 + b3] + Q [0;0;0]%nat [l * a0; l * a1 - b1; l * a2 - b2; l * a3 - b3] = 2 * (l * l * Q [0;0;0]%nat [a0; a1; a2; a3] + Q [0;0;0]%nat [0; b1; b2; b3])).
    { unfold Q, Qw, quad, hmat. rewrite basis_31. unfold dot. cbn. ring. }
    assert (U : Q [0;0;0]%nat [0; b1; b2; b3] <= M * (b1 * b1 + b2 * b2 + b3 * b3)).
    { pose proof (H0 [0; b2; - b1; 0] eq_refl) as U1. pose proof (H0 [0; b3; 0; - b1] eq_refl) as U2. pose proof (H0 [0; 0; b3; - b2] eq_refl) as U3.
      unfold M, Q, Qw, quad, hmat in *. rewrite basis_31 in *. unfold dot in *. cbn in *. lra. }
    apply (Rmult_le_compat_l (2 * r)) in U; [|lra]. assert (E2 : r * Q [0;0;0]%nat [l * a0; l * a1 + b1; l * a2 + b2; l * a3 + b3] + r * Q [0;0;0]%nat [l * a0; l * a1 - b1; l * a2 - b2; l * a3 - b3] = 2 * r * (l * l * Q [0;0;0]%nat [a0; a1; a2; a3] + Q [0;0;0]%nat [0; b1; b2; b3])) by (rewrite <- Rmult_plus_distr_l, E; ring).
    lra. }
  assert (ID : quad (hmat (ext J v T) [[0;0;0]; [1;0;0]; [0;1;0]; [0;0;1]; [2;0;0]; [1;1;0]; [1;0;1]; [0;2;0]; [0;1;1]; [0;0;2]]%nat) [a0; a1; a2; a3; q1; q2; q3; q4; q5; q6] =
    Q [0;0;0]%nat [a0; a1; a2; a3] + T * Q4
    + (Q [1;0;0]%nat [l * a0; l * a1 + q1; l * a2 + q2; l * a3 + q3] - Q [1;0;0]%nat [l * a0; l * a1 - q1; l * a2 - q2; l * a3 - q3]) * (3 * r / 2)
    + (Q [0;1;0]%nat [l * a0; l * a1 + 0; l * a2 + q4; l * a3 + q5] - Q [0;1;0]%nat [l * a0; l * a1 - 0; l * a2 - q4; l * a3 - q5]) * (3 * r / 2)
    + (Q [0;0;1]%nat [l * a0; l * a1 + 0; l * a2 + 0; l * a3 + q6] - Q [0;0;1]%nat [l * a0; l * a1 - 0; l * a2 - 0; l * a3 - q6]) * (3 * r / 2)).
  { assert (Er : 3 * r / 2 = / (2 * l)) by (apply (Rmult_eq_reg_l (2 * l)); [|lra]; rewrite Rinv_r by lra; lra). rewrite Er. unfold Q, Q4, Qw, quad, hmat. rewrite basis_31. unfold dot. cbn. field. lra. }
  rewrite ID. pose proof (P [1;0;0]%nat q1 q2 q3 ltac:(cbn; auto)) as P1. pose proof (P [0;1;0]%nat 0 q4 q5 ltac:(cbn; auto)) as P2. pose proof (P [0;0;1]%nat 0 0 q6 ltac:(cbn; auto)) as P3.
  apply (Rmult_le_compat_r (3 * r / 2)) in P1, P2, P3; try lra. assert (MP : 0 <= M).
  { pose proof (H0 [0; 1; 0; 0] eq_refl) as U1. pose proof (H0 [0; 0; 1; 0] eq_refl) as U2. pose proof (H0 [0; 0; 0; 1] eq_refl) as U3. unfold M, Q, Qw, quad, hmat in *. rewrite basis_31 in *. unfold dot in *. cbn in *. lra. }
  assert (K : q1 * q1 + q2 * q2 + q3 * q3 + q4 * q4 + q5 * q5 + q6 * q6 <= 7 * Q4).
  { assert (S : forall x y w, x * x <= 3 * ((y + w + x) * (y + w + x) + y * y + w * w)) by (intros x y w; pose proof (Rle_0_sqr (y + w + x + y)); pose proof (Rle_0_sqr (y + w + x + w)); pose proof (Rle_0_sqr (y - w)); unfold Rsqr in *; lra).
    unfold Q4. pose proof (S q2 q1 q4). pose proof (S q3 q1 q6). pose proof (S q5 q4 q6). pose proof (Rle_0_sqr (q1 + q4 + q2)). pose proof (Rle_0_sqr (q1 + q6 + q3)). pose proof (Rle_0_sqr (q4 + q6 + q5)). unfold Rsqr in *. lra. }
  apply (Rmult_le_compat_l (3 * (r * r) * M)) in K; [|apply Rmult_le_pos; nra]. rewrite ET. set (Q0 := Q [0;0;0]%nat [a0; a1; a2; a3]) in *.
  assert (E1 : 2 * r * (l * l * Q0) * (3 * r / 2) * 3 = Q0) by (replace (2 * r * (l * l * Q0) * (3 * r / 2) * 3) with ((3 * r * l) * (3 * r * l) * Q0) by field; rewrite El; ring).
  lra.
Qed.

(** ** passing to the limit *)
Lemma Qw_limit ell0 w z : In w [[0;0;0]; [1;0;0]; [0;1;0]; [0;0;1]]%nat -> length z = 4%nat -> forall d, 0 < d -> exists e, 0 < e /\ forall ell, near 20 e (map ell idx23) (map ell0 idx23) -> Rabs (Qw ell w z - Qw ell0 w z) <= d.
Proof.
  intros Hw Lz d Hd. destruct (contR_dot_const 20 (map (fun u => Qw (fun v => if idx_eqb v u then 1 else 0) w z) idx23) eq_refl (map ell0 idx23) d eq_refl Hd) as (e & He & H).
  exists e. split; [exact He|]. intros ell Hn. rewrite !(Qw_dot _ w z Hw Lz). now apply H.
Qed.
Lemma QF_limit ell0 a b z : length z = 4%nat -> (forall e, 0 < e -> exists ell, near 20 e (map ell idx23) (map ell0 idx23) /\ 0 <= QF ell a b z) -> 0 <= QF ell0 a b z.
Proof.
  intros Lz H. destruct (Rle_lt_dec 0 (QF ell0 a b z)) as [|N]; [auto|exfalso]. set (S := 1 + Rabs b + Rabs (nth 0 a 0) + Rabs (nth 1 a 0) + Rabs (nth 2 a 0)).
  pose proof (Rabs_pos b) as B0. pose proof (Rabs_pos (nth 0 a 0)) as B1. pose proof (Rabs_pos (nth 1 a 0)) as B2. pose proof (Rabs_pos (nth 2 a 0)) as B3.
  assert (HS : 1 <= S) by (unfold S; lra). set (d := - QF ell0 a b z / (2 * S)). assert (Hd : 0 < d) by (unfold d; apply Rdiv_lt_0_compat; lra).
  destruct (Qw_limit ell0 [0;0;0]%nat z ltac:(cbn; auto) Lz d Hd) as (e0 & P0 & L0). destruct (Qw_limit ell0 [1;0;0]%nat z ltac:(cbn; auto) Lz d Hd) as (e1 & P1 & L1).
  destruct (Qw_limit ell0 [0;1;0]%nat z ltac:(cbn; auto) Lz d Hd) as (e2 & P2 & L2). destruct (Qw_limit ell0 [0;0;1]%nat z ltac:(cbn; auto) Lz d Hd) as (e3 & P3 & L3).
  destruct (H (Rmin (Rmin e0 e1) (Rmin e2 e3))) as (ell & Hn & HQ); [repeat apply Rmin_pos; auto|].
  pose proof (Rmin_l (Rmin e0 e1) (Rmin e2 e3)). pose proof (Rmin_r (Rmin e0 e1) (Rmin e2 e3)). pose proof (Rmin_l e0 e1). pose proof (Rmin_r e0 e1). pose proof (Rmin_l e2 e3). pose proof (Rmin_r e2 e3).
  assert (NE : forall e', Rmin (Rmin e0 e1) (Rmin e2 e3) <= e' -> near 20 e' (map ell idx23) (map ell0 idx23)) by (intros e' He'; now apply (near_le _ _ _ _ _ He')).
  assert (D : forall x y k, Rabs (x - y) <= d -> k * (x - y) <= Rabs k * d). { intros x y k Hxy. eapply Rle_trans; [apply Rle_abs|]. rewrite Rabs_mult. apply Rmult_le_compat_l; [apply Rabs_pos|auto]. }
  pose proof (D _ _ b (L0 ell (NE e0 ltac:(lra)))) as D0. pose proof (D _ _ (- nth 0 a 0) (L1 ell (NE e1 ltac:(lra)))) as D1.
  pose proof (D _ _ (- nth 1 a 0) (L2 ell (NE e2 ltac:(lra)))) as D2. pose proof (D _ _ (- nth 2 a 0) (L3 ell (NE e3 ltac:(lra)))) as D3. rewrite Rabs_Ropp in D1, D2, D3.
  assert (ES : S * d = - QF ell0 a b z / 2) by (unfold d; field; lra). unfold S in ES. unfold QF in *. lra.
Qed.
Lemma feasible_Q0 ell polys z : feasible_ell ell polys 2 -> length z = 4%nat -> 0 <= Qw ell [0;0;0]%nat z.
Proof.
  intros ((_ & _ & HP) & _) Lz. rewrite basis_32 in HP. destruct (len4_inv _ Lz) as (z0 & z1 & z2 & z3 & ->). specialize (HP [z0; z1; z2; z3; 0; 0; 0; 0; 0; 0] eq_refl).
  unfold Qw, quad, hmat in *. rewrite basis_31. unfold dot in *. cbn in *. lra.
Qed.
Lemma cone_QF ell S a b z : sys_len 3 S -> (forall a b, In (a, b) S -> 0 <= QF ell a b z) -> Farkas.cone 3 S a b -> 0 <= QF ell a b z.
Proof.
  intros LS HS. induction 1 as [|a b H|a b a' b' C1 IH1 C2 IH2|k a b Hk C1 IH].
  - unfold QF. cbn. lra.
  - auto.
  - replace (QF ell (vadd a a') (b + b') z) with (QF ell a b z + QF ell a' b' z); [lra|]. unfold QF. rewrite !nth_vadd by (rewrite (cone_len 3 S a b), (cone_len 3 S a' b'); auto). ring.
  - replace (QF ell (vscale k a) (k * b) z) with (k * QF ell a b z); [now apply Rmult_le_pos|]. unfold QF. rewrite !nth_vscale. ring.
Qed.
Lemma faces_bound A b B : (forall a, In a A -> length a = 3%nat) -> length b = length A -> (exists x, length x = 3%nat /\ halfspaces A b x) ->
  (forall x i, length x = 3%nat -> halfspaces A b x -> Rabs (nth i x 0) <= B) ->
  exists r, 0 < r /\ forall ell z, 0 <= Qw ell [0;0;0]%nat z -> (forall a c, In (a, c) (combine A b) -> 0 <= QF ell a c z) ->
    forall k, In k [[1;0;0]; [0;1;0]; [0;0;1]]%nat -> 0 <= r * Qw ell [0;0;0]%nat z + Qw ell k z /\ 0 <= r * Qw ell [0;0;0]%nat z - Qw ell k z.
Proof.
  intros HA HL (x0 & Lx0 & Hx0) HB. assert (B0 : 0 <= B) by (eapply Rle_trans; [apply Rabs_pos|exact (HB x0 0%nat Lx0 Hx0)]). exists (B + 1). split; [lra|]. intros ell z H0 HS k Hk.
  assert (LS : sys_len 3 (combine A b)) by (intros [a c] Hin; apply in_combine_l in Hin; cbn; auto).
  assert (SX : exists x, length x = 3%nat /\ sol (combine A b) x) by (exists x0; split; [exact Lx0|now apply halfspaces_sol]).
  assert (Get : forall c, length c = 3%nat -> (forall x, length x = 3%nat -> halfspaces A b x -> dot c x <= B) -> 0 <= QF ell c (B + 1) z).
  { intros c Lc Hc. destruct (farkas_affine 3 (combine A b) c B (B + 1) LS Lc SX) as (b0 & CC & Hb); [intros x Lx Hx; apply Hc; [exact Lx|now apply halfspaces_sol]|lra|].
    pose proof (cone_QF ell _ c b0 z LS HS CC) as HC. apply (Rle_trans _ _ _ HC). unfold QF. apply (Rmult_le_compat_r _ _ _ H0) in Hb. lra. }
  assert (D : forall x, length x = 3%nat -> halfspaces A b x -> - B <= nth 0 x 0 <= B /\ - B <= nth 1 x 0 <= B /\ - B <= nth 2 x 0 <= B) by (intros x Lx Hx; pose proof (abs_le_inv _ _ (HB x 0%nat Lx Hx)); pose proof (abs_le_inv _ _ (HB x 1%nat Lx Hx)); pose proof (abs_le_inv _ _ (HB x 2%nat Lx Hx)); tauto).
  destruct Hk as [<-|[<-|[<-|[]]]].
  - pose proof (Get [1;0;0] eq_refl) as G1. pose proof (Get [-1;0;0] eq_refl) as G2. unfold QF in G1, G2. cbn [nth] in G1, G2. split.
    + apply (Rle_trans _ _ _ (G2 ltac:(intros x Lx Hx; destruct (D x Lx Hx); destruct_vecs; cbn in *; lra))). lra.
    + apply (Rle_trans _ _ _ (G1 ltac:(intros x Lx Hx; destruct (D x Lx Hx); destruct_vecs; cbn in *; lra))). lra.
  - pose proof (Get [0;1;0] eq_refl) as G1. pose proof (Get [0;-1;0] eq_refl) as G2. unfold QF in G1, G2. cbn [nth] in G1, G2. split.
    + apply (Rle_trans _ _ _ (G2 ltac:(intros x Lx Hx; destruct (D x Lx Hx); destruct_vecs; cbn in *; lra))). lra.
    + apply (Rle_trans _ _ _ (G1 ltac:(intros x Lx Hx; destruct (D x Lx Hx); destruct_vecs; cbn in *; lra))). lra.
  - pose proof (Get [0;0;1] eq_refl) as G1. pose proof (Get [0;0;-1] eq_refl) as G2. unfold QF in G1, G2. cbn [nth] in G1, G2. split.
    + apply (Rle_trans _ _ _ (G2 ltac:(intros x Lx Hx; destruct (D x Lx Hx); destruct_vecs; cbn in *; lra))). lra.
    + apply (Rle_trans _ _ _ (G1 ltac:(intros x Lx Hx; destruct (D x Lx Hx); destruct_vecs; cbn in *; lra))). lra.
Qed.
Lemma zero_or (a : vec) : length a = 3%nat -> (exists i, (i < 3)%nat /\ nth i a 0 <> 0) \/ a = zeros 3.
Proof.
  intros La. destruct (len3_inv _ La) as (x & y & w & ->). destruct (Req_dec x 0) as [->|]; [|left; exists 0%nat; split; [lia|auto]]. destruct (Req_dec y 0) as [->|]; [|left; exists 1%nat; split; [lia|auto]].
  destruct (Req_dec w 0) as [->|]; [|left; exists 2%nat; split; [lia|auto]]. now right.
Qed.
Lemma face_half a b deg : length a = 3%nat -> (deg <= 2)%nat -> pol_degree (pol_affine a b 0) = Ok deg -> half_up deg = 1%nat \/ half_up deg = 0%nat /\ a = zeros 3.
Proof.
  intros La Hd E. destruct (zero_or a La) as [H|H]; [left; eapply affine_half; eauto|]. pose proof (proj2 (half_up_le deg 1) ltac:(lia)). destruct (half_up deg) as [|[|]]; [auto|auto|lia].
Qed.
Lemma faces_QF ell A b a c z : (forall a, In a A -> length a = 3%nat) -> length b = length A -> faces_ok A b -> (exists x, length x = 3%nat /\ halfspaces A b x) ->
  feasible_ell ell (map2 (fun a b => pol_affine a b 0) A b) 2 -> In (a, c) (combine A b) -> length z = 4%nat -> 0 <= QF ell a c z.
Proof.
  intros HA HL HF (x0 & Lx0 & Hx0) Hf Hin Lz. assert (La : length a = 3%nat) by (apply in_combine_l in Hin; auto). pose proof Hin as Hin2.
  apply (In_nth _ _ ([], 0)) in Hin as (i & Hi & E). rewrite combine_length in Hi. rewrite combine_nth in E by auto. injection E as Ea Ec.
  assert (HP : In (pol_affine a c 0) (map2 (fun a b => pol_affine a b 0) A b)) by (apply p_polys_in; [auto|]; exists i; split; [lia|congruence]).
  destruct (affine_small a c La) as (_ & deg & Ed & Dd); [rewrite <- Ea, <- Ec; apply HF; lia|]. pose proof (proj2 Hf _ deg HP Ed) as (_ & _ & HL').
  destruct (face_half a c deg La Dd Ed) as [E1|(_ & ->)].
  - rewrite E1 in HL'. change (2 - 1)%nat with 1%nat in HL'. rewrite <- QF_lmat by auto. apply HL'. rewrite basis_31. exact Lz.
  - unfold QF. rewrite !nth_zeros. pose proof (feasible_Q0 ell _ z Hf Lz) as Q0. assert (0 <= c); [|nra]. specialize (Hx0 i ltac:(lia)). rewrite Ea, Ec in Hx0. rewrite dot_zeros_l in Hx0. lra.
Qed.
Lemma cubic_bound J ell r E : 0 < r -> moments_match J (hmat ell (basis_list 3 2)) -> (forall i, (i < 3)%nat -> entry J i i <= E) -> 0 <= E ->
  (forall k z, In k [[1;0;0]; [0;1;0]; [0;0;1]]%nat -> length z = 4%nat -> 0 <= r * Qw ell [0;0;0]%nat z + Qw ell k z /\ 0 <= r * Qw ell [0;0;0]%nat z - Qw ell k z) ->
  forall i, (i < 10)%nat -> Rabs (nth i (map ell idx3) 0) <= r * E.
Proof.
  intros Hr HM HE E0 H i Hi. assert (M : forall j, (j < 3)%nat -> entry J j j = entry (hmat ell (basis_list 3 2)) (1 + j) (1 + j)) by (intros; now apply HM). rewrite basis_32 in M.
  pose proof (HE 0%nat ltac:(lia)) as X0. pose proof (HE 1%nat ltac:(lia)) as X1. pose proof (HE 2%nat ltac:(lia)) as X2. rewrite (M 0%nat ltac:(lia)) in X0. rewrite (M 1%nat ltac:(lia)) in X1. rewrite (M 2%nat ltac:(lia)) in X2.
  cbn in X0, X1, X2. apply (Rmult_le_compat_l r) in X0, X1, X2; try lra. clear M HM HE.
  assert (V : forall k z, In k [[1;0;0]; [0;1;0]; [0;0;1]]%nat -> length z = 4%nat -> 0 <= r * Qw ell [0;0;0]%nat z + Qw ell k z /\ 0 <= r * Qw ell [0;0;0]%nat z - Qw ell k z) by exact H. clear H.
  unfold Qw, quad, hmat in V. rewrite basis_31 in V. apply Rabs_le. unfold idx3.
  destruct i as [|[|[|[|[|[|[|[|[|[|i]]]]]]]]]]; [..|lia]; cbn [map nth].
  - pose proof (V [1;0;0]%nat [0;1;0;0] ltac:(cbn; auto) eq_refl) as W. unfold dot in W. cbn in W. lra.
  - pose proof (V [0;1;0]%nat [0;1;0;0] ltac:(cbn; auto) eq_refl) as W. unfold dot in W. cbn in W. lra.
  - pose proof (V [0;0;1]%nat [0;1;0;0] ltac:(cbn; auto) eq_refl) as W. unfold dot in W. cbn in W. lra.
  - pose proof (V [1;0;0]%nat [0;0;1;0] ltac:(cbn; auto) eq_refl) as W. unfold dot in W. cbn in W. lra.
  - pose proof (V [0;0;1]%nat [0;1;1;0] ltac:(cbn; auto) eq_refl) as W. pose proof (V [0;0;1]%nat [0;1;-1;0] ltac:(cbn; auto) eq_refl) as W'. unfold dot in W, W'. cbn in W, W'. lra.
  - pose proof (V [1;0;0]%nat [0;0;0;1] ltac:(cbn; auto) eq_refl) as W. unfold dot in W. cbn in W. lra.
  - pose proof (V [0;1;0]%nat [0;0;1;0] ltac:(cbn; auto) eq_refl) as W. unfold dot in W. cbn in W. lra.
  - pose proof (V [0;0;1]%nat [0;0;1;0] ltac:(cbn; auto) eq_refl) as W. unfold dot in W. cbn in W. lra.
  - pose proof (V [0;1;0]%nat [0;0;0;1] ltac:(cbn; auto) eq_refl) as W. unfold dot in W. cbn in W. lra.
  - pose proof (V [0;0;1]%nat [0;0;0;1] ltac:(cbn; auto) eq_refl) as W. unfold dot in W. cbn in W. lra.
Qed.
Lemma map_mons2 J ell : moments_match J (hmat ell (basis_list 3 2)) -> map ell (map toidx mons2) = map (TJ J) mons2.
Proof. intro H. rewrite map_map. apply map_ext_in. intros u Hu. apply (match_TJ 2 J ell u); [lia|exact H|exact Hu]. Qed.
Lemma ext_near J J' v T ell e : moments_match J' (hmat ell (basis_list 3 2)) -> closeJ e J' J -> length v = 10%nat -> near 10 e (map ell idx3) v ->
  near 20 e (map ell idx23) (map (ext J v T) idx23).
Proof.
  intros HM HJ Lv Hn i Hi. unfold idx23. rewrite !map_app, (map_mons2 J' ell HM). destruct (Nat.lt_ge_cases i 10) as [L|L].
  - rewrite !app_nth1 by (cbn; lia). rewrite (map_map toidx (ext J v T)). rewrite (nth_map_0 (TJ J') _ _ (0,0,0)%nat), (nth_map_0 _ _ _ (0,0,0)%nat) by (cbn; lia).
    assert (EX : forall u, In u mons2 -> ext J v T (toidx u) = TJ J u) by (intros u Hu; unfold mons2 in Hu; cbn [In] in Hu; repeat (destruct Hu as [<-|Hu]; [reflexivity|]); destruct Hu).
    rewrite EX by (apply nth_In; cbn; lia). apply TJ_close; [auto|apply nth_In; cbn; lia].
  - rewrite !app_nth2 by (cbn; lia). change (length (map (TJ J') mons2)) with 10%nat. change (length (map (ext J v T) (map toidx mons2))) with 10%nat.
    replace (map (ext J v T) idx3) with v; [apply Hn; lia|]. clear - Lv. do 11 (destruct v as [|? v]; try discriminate). reflexivity.
Qed.
Lemma ext_match J v T : is_mat 4 4 J -> symmetric 4 J -> moments_match J (hmat (ext J v T) (basis_list 3 2)).
Proof.
  intros HJ SJ. rewrite basis_32. split; [reflexivity|]. split.
  - intros i Hi. destruct i as [|[|[|i]]]; try lia; reflexivity.
  - intros i j Hi Hj. destruct i as [|[|[|i]]], j as [|[|[|j]]]; try lia; try reflexivity; cbn; apply SJ; lia.
Qed.
Lemma faces_closed A b B J : (forall a, In a A -> length a = 3%nat) -> length b = length A -> faces_ok A b -> (exists x, length x = 3%nat /\ halfspaces A b x) ->
  (forall x i, length x = 3%nat -> halfspaces A b x -> Rabs (nth i x 0) <= B) -> is_mat 4 4 J -> symmetric 4 J ->
  (forall e, 0 < e -> exists J', closeJ e J' J /\ accepts (sdp_for J' (map2 (fun a b => pol_affine a b 0) A b) 2)) -> accepts (sdp_for J (map2 (fun a b => pol_affine a b 0) A b) 2).
Proof.
  intros HA HL HF HX HB HJ SJ HS. destruct (faces_bound A b B HA HL HX HB) as (r & Hr & HQ). set (polys := map2 (fun a b => pol_affine a b 0) A b) in *.
  assert (HP : forall p, In p polys -> poly_small 2 p).
  { intros p Hp. apply p_polys_in in Hp as (i & Hi & ->); [|exact HL]. destruct (affine_small (nth i A []) (nth i b 0)) as (O & deg & E1 & E2); [apply HA, nth_In, Hi|apply HF, Hi|]. split; [exact O|]. exists deg. split; [exact E1|lia]. }
  assert (HB' : forall ell, feasible_ell ell polys 2 -> forall k z, In k [[1;0;0]; [0;1;0]; [0;0;1]]%nat -> length z = 4%nat -> 0 <= r * Qw ell [0;0;0]%nat z + Qw ell k z /\ 0 <= r * Qw ell [0;0;0]%nat z - Qw ell k z).
  { intros ell Hf k z Hk Lz. apply HQ; [now apply (feasible_Q0 ell polys)| |exact Hk]. intros a c Hin. now apply (faces_QF ell A b). }
  set (E := Rabs (entry J 0 0) + Rabs (entry J 1 1) + Rabs (entry J 2 2) + 1).
  assert (P0 : forall x, 0 <= Rabs x) by apply Rabs_pos. pose proof (P0 (entry J 0 0)) as A0. pose proof (P0 (entry J 1 1)) as A1. pose proof (P0 (entry J 2 2)) as A2.
  destruct (pickn (fun e v => exists ell J', feasible_ell ell polys 2 /\ moments_match J' (hmat ell (basis_list 3 2)) /\ closeJ (Rmin e 1) J' J /\ v = map ell idx3) 10 (r * E)) as (v & Lv & Hv).
  - intros e e' z He (ell & J' & H1 & H2 & H3 & H4). exists ell, J'. split; [auto|]. split; [auto|]. split; [|auto]. intros i j Hi Hj. eapply Rle_trans; [now apply H3|]. apply Rle_min_compat_r. lra.
  - intros e He. destruct (HS (Rmin e 1) ltac:(apply Rmin_pos; lra)) as (J' & C' & P & EP & HPP). destruct (sdp_for_inv J' polys 2 P ltac:(lia) HP EP HPP) as (ell & Hf & Hm). exists (map ell idx3), ell, J'. auto.
  - intros e z i He (ell & J' & H1 & H2 & H3 & ->) Hi. apply (cubic_bound J' ell r E); auto; [|unfold E; lra]. intros j Hj. pose proof (Rmin_r e 1). specialize (H3 j j ltac:(lia) ltac:(lia)). apply abs_le_inv in H3.
    pose proof (Rle_abs (entry J 0 0)). pose proof (Rle_abs (entry J 1 1)). pose proof (Rle_abs (entry J 2 2)). unfold E. destruct j as [|[|[|j]]]; try lia; lra.
  - set (T := 21 * (r * r) * (entry J 0 0 + entry J 1 1 + entry J 2 2)). set (ell := ext J v T).
    assert (Near : forall e, 0 < e -> exists ell', feasible_ell ell' polys 2 /\ near 20 e (map ell' idx23) (map ell idx23)).
    { intros e He. destruct (Hv e He) as (z & (ell' & J' & H1 & H2 & H3 & ->) & Hn). exists ell'. split; [auto|]. apply (ext_near J J'); auto. intros i j Hi Hj. eapply Rle_trans; [now apply H3|]. apply Rmin_l. }
    assert (L0 : forall z, length z = 4%nat -> 0 <= Qw ell [0;0;0]%nat z).
    { intros z Lz. assert (QE : forall l, QF l (zeros 3) 1 z = Qw l [0;0;0]%nat z) by (intro l; unfold QF; rewrite !nth_zeros; ring). rewrite <- QE. apply QF_limit; [exact Lz|]. intros e He. destruct (Near e He) as (ell' & Hf & Hn). exists ell'. split; [exact Hn|]. rewrite QE. now apply (feasible_Q0 ell' polys). }
    assert (LF : forall a c z, In (a, c) (combine A b) -> length z = 4%nat -> 0 <= QF ell a c z).
    { intros a c z Hin Lz. apply QF_limit; [exact Lz|]. intros e He. destruct (Near e He) as (ell' & Hf & Hn). exists ell'. split; [exact Hn|]. now apply (faces_QF ell' A b). }
    assert (PM : PSD (length (basis_list 3 2)) (hmat ell (basis_list 3 2))).
    { apply (ext_psd J v T r); auto. }
    apply (sdp_functional J polys 2 ell); auto; [now apply ext_match|].
    intros p deg Hp Ed. pose proof (HP p Hp) as (_ & deg' & Ed' & Dd). rewrite Ed in Ed'. injection Ed' as <-.
    apply p_polys_in in Hp as (i & Hi & ->); [|exact HL]. set (a := nth i A []) in *. set (c := nth i b 0) in *. assert (La : length a = 3%nat) by (apply HA, nth_In, Hi).
    assert (Hin : In (a, c) (combine A b)) by (unfold a, c; rewrite <- combine_nth by auto; apply nth_In; rewrite combine_length; lia).
    destruct (affine_small a c La (HF i Hi)) as (_ & deg' & Ed' & Dd'). rewrite Ed in Ed'. injection Ed' as <-.
    split; [apply (is_mat_square (fun x y => functional (fun u => ell (iadd u (iadd x y))) (pol_affine a c 0)))|]. split; [apply lmat_sym|].
    destruct (face_half a c deg La Dd' Ed) as [E1|(E1 & Ea)]; rewrite E1.
    + change (2 - 1)%nat with 1%nat. intros z Lz. rewrite QF_lmat; [now apply LF|exact La|rewrite basis_31 in Lz; exact Lz].
    + change (2 - 0)%nat with 2%nat. intros z Lz. assert (C0 : 0 <= c). { destruct HX as (x & Lx & Hx). specialize (Hx i Hi). fold a in Hx. fold c in Hx. rewrite Ea, dot_zeros_l in Hx. lra. }
      assert (EL : lmat ell (pol_affine a c 0) (basis_list 3 2) = mscale c (hmat ell (basis_list 3 2))).
      { unfold lmat, hmat, mscale. rewrite map_map. apply map_ext_in. intros x Hx. unfold vscale. rewrite map_map. apply map_ext_in. intros y Hy. rewrite functional_affine by exact La. rewrite Ea, !nth_zeros.
        apply basis_in in Hx as (Lx & _). apply basis_in in Hy as (Ly & _). rewrite (iadd_zero_l 3) by (apply iadd_length; auto). ring. }
      rewrite EL, quad_mscale. apply Rmult_le_pos; [exact C0|]. now apply PM.
Qed.
