(** Extremal ellipsoids of affinely mapped points. *)
From Verif Require Import Base.Vec Base.VecFacts Base.Ext Spec.Basic Spec.Shapes Spec.ShapeObjects Spec.DoubleDesc Spec.PolySpec Spec.ExtremalSpec Spec.Geodesic Spec.John Model.Util Model.Polydd Model.Constraint Model.Ellipsoid Model.Poly Model.Extremal
  Proofs.LinAlg Proofs.Hull Proofs.EllP Proofs.ConstructP Proofs.MatAlg Proofs.Coord Proofs.Decomp Proofs.Spectral Proofs.GeodesicP Proofs.ExtremalP Proofs.ExtremalOpt Proofs.LogDet Proofs.JohnU Proofs.JohnE Proofs.JohnX Proofs.JohnR Proofs.JohnM Proofs.JohnEx Proofs.OracleP Proofs.SimilarP Proofs.ExtremalEx.

(** * A function with quadratically small increments is constant *)
Lemma exp_quad u c : Rabs u <= c -> exp u - 1 - u <= u * u * exp c.
Proof.
  intros Hu. assert (E : forall v, v <> 0 -> 1 + v < exp v) by (intros; now apply exp_ineq1).
  assert (E' : forall v, 1 + v <= exp v) by (intro v; destruct (Req_dec v 0) as [->|N]; [rewrite exp_0; lra|left; auto]).
  assert (Hc : 0 <= c) by (pose proof (Rabs_pos u); lra). pose proof (E' c) as Ec.
  assert (I : exp u * exp (- u) = 1) by (rewrite <- exp_plus, Rplus_opp_r; apply exp_0). pose proof (E' (- u)) as En. pose proof (E' u) as Eu. pose proof (exp_pos u) as Pu.
  assert (B : exp u - 1 <= u * exp u) by nra.
  destruct (Rle_dec 0 u) as [P|N].
  - assert (exp u <= exp c). { rewrite Rabs_right in Hu by lra. destruct Hu as [H| ->]; [left; now apply exp_increasing|lra]. }
    assert (exp u - 1 - u <= u * (exp u - 1)) by lra. assert (u * (exp u - 1) <= u * (u * exp u)) by (apply Rmult_le_compat_l; lra). assert (u * (u * exp u) <= u * (u * exp c)) by (apply Rmult_le_compat_l; [lra|apply Rmult_le_compat_l; lra]). lra.
  - assert (exp u - 1 - u <= u * (exp u - 1)) by lra. assert (u * (exp u - 1) <= u * u) by nra. nra.
Qed.
Lemma quad_const (k : R -> R) C : (forall x y, Rabs (y - x) <= 1 -> k y - k x <= C * ((y - x) * (y - x))) -> k 1 = k 0.
Proof.
  intros H. assert (HC : 0 <= C). { pose proof (H 0 1) as A. pose proof (H 1 0) as B. rewrite Rabs_right in A by lra. rewrite Rabs_left in B by lra. specialize (A ltac:(lra)). specialize (B ltac:(lra)). lra. }
  assert (G : forall N, (0 < N)%nat -> Rabs (k 1 - k 0) <= C / INR N).
  { intros N HN. assert (HN' : 0 < INR N) by now apply lt_0_INR. assert (H1 : 1 <= INR N) by (apply (le_INR 1); lia). set (h := / INR N). assert (Hh : 0 < h) by now apply Rinv_0_lt_compat.
    assert (h1 : h <= 1) by (unfold h; rewrite <- Rinv_1; apply Rinv_le_contravar; lra).
    assert (J : forall j, Rabs (k (INR j * h) - k 0) <= INR j * (C * (h * h))).
    { induction j as [|j IH]; [change (INR 0) with 0; rewrite !Rmult_0_l, Rminus_diag_eq, Rabs_R0 by auto; lra|]. rewrite S_INR.
      pose proof (H (INR j * h) ((INR j + 1) * h)) as A. pose proof (H ((INR j + 1) * h) (INR j * h)) as B.
      replace ((INR j + 1) * h - INR j * h) with h in A by ring. replace (INR j * h - (INR j + 1) * h) with (- h) in B by ring. rewrite Rabs_Ropp in B. rewrite Rabs_right in A, B by lra.
      specialize (A h1). specialize (B h1). apply Rabs_le. revert IH. unfold Rabs. destruct (Rcase_abs _); intros; split; nra. }
    specialize (J N). replace (INR N * h) with 1 in J by (unfold h; field; lra). replace (INR N * (C * (h * h))) with (C / INR N) in J by (unfold h; field; lra). exact J. }
  destruct (Req_dec (k 1) (k 0)) as [E|N]; auto. exfalso. assert (P : 0 < Rabs (k 1 - k 0)) by (apply Rabs_pos_lt; lra).
  destruct (archimed (C / Rabs (k 1 - k 0))) as (Hm0 & _). set (m := Z.to_nat (up (C / Rabs (k 1 - k 0)))). assert (Hm : C / Rabs (k 1 - k 0) < INR m). { assert (0 <= C / Rabs (k 1 - k 0)) by (unfold Rdiv; apply Rmult_le_pos; [auto|left; now apply Rinv_0_lt_compat]). unfold m. rewrite INR_IZR_INZ, Z2Nat.id; [exact Hm0|]. apply le_IZR. lra. } specialize (G (S m) ltac:(lia)). rewrite S_INR in G. pose proof (pos_INR m) as Pm.
  assert (C < INR m * Rabs (k 1 - k 0)). { apply (Rmult_lt_compat_r (Rabs (k 1 - k 0))) in Hm; auto. unfold Rdiv in Hm. rewrite Rmult_assoc, Rinv_l in Hm by lra. lra. }
  apply (Rmult_le_compat_r (INR m + 1)) in G; [|lra]. unfold Rdiv in G. rewrite Rmult_assoc, Rinv_l in G by lra. lra.
Qed.

Lemma rsum_le m (f g : nat -> R) : (forall i, (i < m)%nat -> f i <= g i) -> rsum m f <= rsum m g.
Proof. induction m as [|m IH]; intros H; [change (0 <= 0); lra|]. change (rsum m f + f m <= rsum m g + g m). pose proof (IH ltac:(intros; apply H; lia)). pose proof (H m ltac:(lia)). lra. Qed.
Lemma rsum_lin m (f g : nat -> R) c : rsum m (fun i => f i + c * g i) = rsum m f + c * rsum m g.
Proof. induction m as [|m IH]; [change (0 = 0 + c * 0); ring|]. change (rsum m (fun i => f i + c * g i) + (f m + c * g m) = rsum m f + f m + c * (rsum m g + g m)). rewrite IH. ring. Qed.
Lemma rsum_minus_one m (f : nat -> R) : rsum m (fun i => f i - 1) = rsum m f - INR m.
Proof. induction m as [|m IH]; [change (0 = 0 - 0); ring|]. rewrite S_INR. change (rsum m (fun i => f i - 1) + (f m - 1) = rsum m f + f m - (INR m + 1)). rewrite IH. ring. Qed.
Lemma rsum_factor m (f : nat -> R) c : rsum m (fun i => c * f i) = c * rsum m f.
Proof. induction m as [|m IH]; [change (0 = c * 0); ring|]. change (rsum m (fun i => c * f i) + c * f m = c * (rsum m f + f m)). rewrite IH. ring. Qed.
(** * log_det of a congruent matrix *)
Section D.
Context (n : nat) (Hn : (0 < n)%nat) (ld : mat -> R) (HL : log_det_spec n ld).
Local Notation M := (is_mat n n).
#[local] Hint Resolve mm_ok tr_ok dg_ok is_mat_eye : mat.
Ltac mok := auto 20 with mat.
Local Notation mm_assoc := (MatAlg.mm_assoc n Hn).
Local Notation mm_eye_l := (MatAlg.mm_eye_l n Hn).
Local Notation mm_eye_r := (MatAlg.mm_eye_r n Hn).

Lemma cong_step G G' w v : inverse n G G' -> length w = n -> length v = n -> all_pos w -> all_pos v ->
  ld (congruent G v) - ld (congruent G w) <= rsum n (fun i => nth i v 0 / nth i w 0 - 1).
Proof.
  intros IG Lw Lv Pw Pv. pose proof IG as (MG & MG' & E1 & E2). pose proof (inv_tr n Hn _ _ IG) as IT. pose proof IT as (MT & MT' & E3 & E4).
  assert (Lr : length (map Rinv w) = n) by now rewrite map_length.
  assert (IY : inverse n (congruent G w) (mat_mul (transpose G') (mat_mul (diag (map Rinv w)) G'))).
  { unfold congruent. apply inv_mul; auto. apply inv_mul; auto. now apply inv_dg_pos. }
  pose proof (congruent_SPD n Hn G G' v IG Lv Pv) as S1. pose proof (congruent_SPD n Hn G G' w IG Lw Pw) as S2.
  destruct (log_det_support n Hn ld HL _ _ _ S1 S2 IY) as (B & _).
  assert (T : trace (mat_mul (mat_mul (transpose G') (mat_mul (diag (map Rinv w)) G')) (congruent G v)) = rsum n (fun i => nth i v 0 / nth i w 0)).
  { assert (D1 : M (diag (map Rinv w))) by mok. assert (D2 : M (diag v)) by mok. unfold congruent. rewrite mm_assoc by mok. rewrite (trace_comm n Hn) by mok.
    replace (mat_mul (mat_mul (mat_mul (diag (map Rinv w)) G') (mat_mul (mat_mul G (diag v)) (transpose G))) (transpose G')) with (diag (vmul (map Rinv w) v)).
    - rewrite (trace_rsum n) by (apply dg_ok; auto; rewrite vmul_length; congruence). apply rsum_ext. intros i Hi. rewrite entry_diag by (rewrite vmul_length; lia). rewrite Nat.eqb_refl, nth_vmul by congruence. rewrite nth_map_in by lia. unfold Rdiv. ring.
    - rewrite !mm_assoc by mok. rewrite E3, mm_eye_r by mok. rewrite <- (mm_assoc G' G) by mok. rewrite E2, mm_eye_l by mok. symmetry. now apply (dg_mul n Hn). }
  rewrite T in B. assert (E : rsum n (fun i => nth i v 0 / nth i w 0 - 1) = rsum n (fun i => nth i v 0 / nth i w 0) - INR n).
  { apply rsum_minus_one. }
  lra.
Qed.
Let ray (w : vec) (s : R) : vec := map (fun a => exp (s * ln a)) w.
Lemma ray_nth w s i : (i < length w)%nat -> nth i (ray w s) 0 = exp (s * ln (nth i w 0)).
Proof. intros. unfold ray. now rewrite (nth_map_in (fun a => exp (s * ln a))). Qed.
Lemma cong_value G G' w : inverse n G G' -> length w = n -> all_pos w -> ld (congruent G w) = ld (congruent G (ones n)) + rsum n (fun i => ln (nth i w 0)).
Proof.
  intros IG Lw Pw. set (C := rsum n (fun i => ln (nth i w 0) * ln (nth i w 0) * exp (Rabs (ln (nth i w 0))))).
  assert (LR : forall s, length (ray w s) = n) by (intros; unfold ray; now rewrite map_length). assert (PR : forall s, all_pos (ray w s)) by (intros s a Ha; apply in_map_iff in Ha as (b & <- & _); apply exp_pos).
  pose proof (quad_const (fun s => ld (congruent G (ray w s)) - s * rsum n (fun i => ln (nth i w 0))) C) as Q. cbv beta in Q.
  assert (R1 : ray w 1 = w). { unfold ray. transitivity (map (fun a : R => a) w); [|apply map_id]. apply map_ext_in. intros a Ha. rewrite Rmult_1_l. apply exp_ln. now apply Pw. }
  assert (R0 : ray w 0 = ones n). { apply (vec_ext n); auto; [apply repeat_length|]. intros i Hi. rewrite ray_nth by lia. rewrite Rmult_0_l, exp_0. symmetry. now apply nth_ones. }
  rewrite R1, R0 in Q. assert (QQ : forall x y : R, Rabs (y - x) <= 1 -> ld (congruent G (ray w y)) - y * rsum n (fun i => ln (nth i w 0)) - (ld (congruent G (ray w x)) - x * rsum n (fun i => ln (nth i w 0))) <= C * ((y - x) * (y - x))).
  2:{ specialize (Q QQ). lra. }
  intros x y Hxy. pose proof (cong_step G G' (ray w x) (ray w y) IG (LR x) (LR y) (PR x) (PR y)) as B.
  assert (U : rsum n (fun i => nth i (ray w y) 0 / nth i (ray w x) 0 - 1) <= rsum n (fun i => (y - x) * ln (nth i w 0) + ((y - x) * (y - x)) * (ln (nth i w 0) * ln (nth i w 0) * exp (Rabs (ln (nth i w 0)))))).
  { apply rsum_le. intros i Hi. rewrite !ray_nth by lia. set (l := ln (nth i w 0)). replace (exp (y * l) / exp (x * l)) with (exp ((y - x) * l)).
    - pose proof (exp_quad ((y - x) * l) (Rabs l)) as E. rewrite Rabs_mult in E. pose proof (Rabs_pos l). specialize (E ltac:(nra)). lra.
    - unfold Rdiv. rewrite <- exp_Ropp, <- exp_plus. f_equal. ring. }
  rewrite rsum_lin in U. fold C in U. replace (rsum n (fun i => (y - x) * ln (nth i w 0))) with ((y - x) * rsum n (fun i => ln (nth i w 0))) in U; [lra|]. now rewrite rsum_factor.
Qed.
(** the change of log_det under a congruence does not depend on the matrix *)
Lemma cong_shift K K' X Y : inverse n K K' -> SPD n X -> SPD n Y -> ld (congruence K Y) - ld Y = ld (congruence K X) - ld X.
Proof.
  intros IK HX HY. destruct (simdiag n Hn X Y HX HY) as (G & G' & w & IG & Lw & Pw & EX & EY). pose proof IK as (MK & MK' & _). pose proof IG as (MG & MG' & _).
  assert (EX' : X = congruent G (ones n)) by (rewrite congruent_ones; auto).
  assert (CC : forall v, length v = n -> congruence K (congruent G v) = congruent (mat_mul K G) v).
  { intros v Lv. assert (M (diag v)) by mok. unfold congruence, congruent. rewrite (MatAlg.tr_mm n Hn) by mok. rewrite !mm_assoc by mok. reflexivity. }
  assert (L1 : length (ones n) = n) by apply repeat_length. pose proof (inv_mul n Hn _ _ _ _ IK IG) as IKG.
  rewrite EX', EY, !CC by auto. rewrite (cong_value (mat_mul K G) _ w IKG Lw Pw), (cong_value G _ w IG Lw Pw). ring.
Qed.
Lemma SPD_eye : SPD n (eye n).
Proof.
  pose proof (eye_orthogonal n Hn) as HO. pose proof (congruent_SPD n Hn (eye n) (eye n) (ones n) (inv_eye n Hn) (ones_length n)) as H. rewrite congruent_ones in H by mok. rewrite transpose_eye, mm_eye_l in H by mok. apply H.
  intros a Ha. apply repeat_spec in Ha. lra.
Qed.
Lemma SPD_tr A : SPD n A -> transpose A = A.
Proof. intros (MA & SA & _). now apply (symmetric_transpose n). Qed.
(** A K = U P with U orthogonal and P positive definite *)
Lemma carry A K K' : SPD n A -> inverse n K K' ->
  exists U P, orthogonal n U /\ SPD n P /\ mat_mul A K = mat_mul U P /\ 2 * ld P = 2 * ld A + (ld (mat_mul (transpose K) K) - ld (eye n)).
Proof.
  intros HA IK. pose proof (inv_tr n Hn _ _ IK) as IT. pose proof IK as (MK & MK' & _). pose proof (proj1 HA) as MA.
  destruct (square_log_det n Hn ld HL A HA) as (EA & SA). pose proof (congruence_SPD n Hn _ _ _ IT SA) as SX.
  destruct (square_root n Hn _ SX) as (P & SP & EP). pose proof (proj1 SP) as MP. destruct (square_log_det n Hn ld HL P SP) as (EL & _).
  pose proof (cong_shift (transpose K) (transpose K') (eye n) (mat_mul A A) IT SPD_eye SA) as CS. rewrite <- EP, EL, EA in CS.
  assert (EC : congruence (transpose K) (eye n) = mat_mul (transpose K) K) by (unfold congruence; rewrite mm_eye_r, (MatAlg.tr_tr n Hn) by mok; reflexivity). rewrite EC in CS.
  destruct (SPD_inverse n Hn P SP) as (P' & IP). destruct (SPD_inverse n Hn A HA) as (A' & IA). pose proof IP as (_ & MP' & P1 & P2).
  assert (IP' : inverse n P' P) by now apply inv_sym. assert (TP' : transpose P' = P'). { apply (inv_unique n Hn P); auto. rewrite <- (SPD_tr P SP) at 1. now apply inv_tr. }
  exists (mat_mul (mat_mul A K) P'), P. pose proof (inv_mul n Hn _ _ _ _ (inv_mul n Hn _ _ _ _ IA IK) IP') as IU. set (U := mat_mul (mat_mul A K) P') in *. pose proof IU as (MU & MU' & U1 & U2).
  assert (UU : mat_mul (transpose U) U = eye n).
  { unfold U. rewrite !(MatAlg.tr_mm n Hn) by mok. rewrite TP', (SPD_tr A HA). rewrite !mm_assoc by mok. unfold congruence in EP. rewrite (MatAlg.tr_tr n Hn) in EP by mok.
    replace (mat_mul (transpose K) (mat_mul A (mat_mul A (mat_mul K P')))) with (mat_mul (mat_mul P P) P') by (rewrite EP, !mm_assoc by mok; reflexivity).
    rewrite mm_assoc by mok. rewrite P1, mm_eye_r by mok. exact P2. }
  split.
  - split; auto. split; auto. replace (transpose U) with (mat_mul P (mat_mul K' A')); auto.
    rewrite <- (mm_eye_l (mat_mul P (mat_mul K' A'))) by auto. rewrite <- UU, mm_assoc by mok. rewrite U1, mm_eye_r by mok. reflexivity.
  - split; auto. split; [|lra]. unfold U. rewrite !mm_assoc by mok. rewrite P2, mm_eye_r by mok. reflexivity.
Qed.
Lemma shift_back K K' : inverse n K K' -> ld (mat_mul (transpose K) K) - ld (eye n) + (ld (mat_mul (transpose K') K') - ld (eye n)) = 0.
Proof.
  intros IK. pose proof IK as (MK & MK' & K1 & K2). pose proof (inv_sym n _ _ IK) as IK'. pose proof (inv_tr n Hn _ _ IK) as IT. pose proof (inv_tr n Hn _ _ IK') as IT'. pose proof IT as (MT & MT' & T1 & T2).
  pose proof (congruence_SPD n Hn _ _ _ IT SPD_eye) as S1. pose proof (cong_shift (transpose K') (transpose K) (eye n) _ IT' SPD_eye S1) as CS.
  assert (E1 : congruence (transpose K) (eye n) = mat_mul (transpose K) K) by (unfold congruence; rewrite mm_eye_r, (MatAlg.tr_tr n Hn) by mok; reflexivity).
  assert (E2 : congruence (transpose K') (eye n) = mat_mul (transpose K') K') by (unfold congruence; rewrite mm_eye_r, (MatAlg.tr_tr n Hn) by mok; reflexivity).
  rewrite E1, E2 in CS. replace (congruence (transpose K') (mat_mul (transpose K) K)) with (eye n) in CS; [lra|].
  unfold congruence. rewrite (MatAlg.tr_tr n Hn) by mok. rewrite <- (mm_assoc (transpose K')) by mok. rewrite T2, mm_eye_l by mok. now rewrite K1.
Qed.
End D.

(** * Points *)
Section P.
Context (d : nat) (Hd : (0 < d)%nat) (T T' : mat) (HT : inverse d T T') (t : vec) (Lt : length t = d).
Let am (p : vec) : vec := move T t p.
Lemma am_len p : length (am p) = d.
Proof. unfold am, move. destruct HT as (MT & _). rewrite vadd_length; rewrite mat_vec_length; [apply MT|rewrite Lt; apply MT]. Qed.
Lemma am_sub p r : length p = d -> length r = d -> vsub (am p) (am r) = mat_vec T (vsub p r).
Proof.
  intros Lp Lr. destruct HT as (MT & _). pose proof (is_mat_length _ _ _ MT) as LT. rewrite mat_vec_vsub by congruence. unfold am, move.
  assert (L1 : length (mat_vec T p) = d) by (rewrite mat_vec_length; auto). assert (L2 : length (mat_vec T r) = d) by (rewrite mat_vec_length; auto). vring d.
Qed.
Lemma T_back u : length u = d -> mat_vec T' (mat_vec T u) = u.
Proof. intros Lu. destruct HT as (MT & MT' & _ & E). rewrite <- (mat_vec_mat_mul d d d) by auto. rewrite E. now apply mat_vec_eye. Qed.
(** T W = W' S with W' orthonormal and S positive definite *)
Lemma image_frame k W : (0 < k)%nat -> orthonormal d k W ->
  exists W' S S', orthonormal d k W' /\ inverse k S S' /\ SPD k S /\ forall y, length y = k -> mat_vec T (mat_vec W y) = mat_vec W' (mat_vec S y).
Proof.
  intros Hk HW. pose proof HW as (MW & EW). pose proof HT as (MT & MT' & _). set (B := mat_mul T W). assert (MB : is_mat d k B) by (apply (is_mat_mat_mul _ _ _ _ d); auto; now apply (is_mat_ncols d)).
  pose proof (is_mat_transpose _ _ _ MB Hd) as TB. assert (MG : is_mat k k (mat_mul (transpose B) B)) by (apply (is_mat_mat_mul _ _ _ _ d); auto; now apply (is_mat_ncols d)).
  assert (BV : forall y, length y = k -> mat_vec B y = mat_vec T (mat_vec W y)) by (intros; unfold B; now rewrite (mat_vec_mat_mul d d k)).
  assert (LB : forall y, length (mat_vec B y) = d) by (intros; rewrite mat_vec_length; apply MB).
  assert (SG : SPD k (mat_mul (transpose B) B)).
  { split; auto. split.
    - apply transpose_symmetric; auto. rewrite (transpose_mat_mul k d k) by auto. now rewrite (transpose_involutive d k).
    - intros x Lx N. unfold quad. rewrite (mat_vec_mat_mul k d k) by auto. rewrite dot_comm, <- (dot_mat_vec_t d k) by auto.
      pose proof (dot_self_nonneg (mat_vec B x)) as P. destruct (Req_dec (dot (mat_vec B x) (mat_vec B x)) 0) as [Z|Z]; [|lra]. exfalso. apply N.
      apply dot_self_zero in Z. rewrite LB in Z. rewrite BV in Z by auto. assert (LW : length (mat_vec W x) = d) by (rewrite mat_vec_length; apply MW). pose proof (T_back _ LW) as K. rewrite Z, mat_vec_zeros in K. pose proof (orthonormal_apply d k W x Hd HW Lx) as K2. rewrite <- K, mat_vec_zeros in K2. rewrite <- K2. f_equal. apply (is_mat_length _ _ _ (is_mat_transpose _ _ _ MW Hd)). }
  destruct (square_root k Hk _ SG) as (S & SS & ES). destruct (SPD_inverse k Hk S SS) as (S' & IS). pose proof IS as (MS & MS' & S1 & S2).
  assert (TS' : transpose S' = S'). { apply (inv_unique k Hk S); auto. rewrite <- (SPD_tr k S SS) at 1. now apply inv_tr. }
  assert (MW' : is_mat d k (mat_mul B S')) by (apply (is_mat_mat_mul _ _ _ _ k); auto; now apply (is_mat_ncols k)). pose proof (is_mat_transpose _ _ _ MW' Hd) as TW'.
  exists (mat_mul B S'), S, S'. split; [|split; [auto|split; [auto|]]].
  - split; auto. apply (mat_eq_by_vec k k); [apply (is_mat_mat_mul _ _ _ _ d); auto; now apply (is_mat_ncols d)|apply is_mat_eye|]. intros x Lx.
    assert (LS : forall v, length (mat_vec S' v) = k) by (intros; rewrite mat_vec_length; apply MS'). assert (LS2 : forall v, length (mat_vec S v) = k) by (intros; rewrite mat_vec_length; apply MS).
    rewrite (mat_vec_mat_mul k d k), (mat_vec_mat_mul d k k) by auto. rewrite (transpose_mat_mul d k k) by auto. rewrite TS'. rewrite (mat_vec_mat_mul k k d) by auto. rewrite <- (mat_vec_mat_mul k d k (transpose B) B) by auto. rewrite <- ES, (mat_vec_mat_mul k k k) by auto.
    rewrite <- (mat_vec_mat_mul k k k S S') by auto. rewrite S1, mat_vec_eye by auto. rewrite <- (mat_vec_mat_mul k k k) by auto. rewrite S2. now rewrite ?mat_vec_eye by auto.
  - intros y Ly. rewrite (mat_vec_mat_mul d k k) by (auto; rewrite mat_vec_length; apply MS). rewrite <- (mat_vec_mat_mul k k k S' S) by auto. rewrite S2, mat_vec_eye by auto. symmetry. now apply BV.
Qed.
Lemma affine_run k orth null_space eigh lstsq solver points : (forall x, In x points -> length x = d) -> mbe_oracles d k orth null_space eigh lstsq solver points ->
  exists orth' null' eigh' lstsq' solver' e e', mbe_oracles d k orth' null' eigh' lstsq' solver' (map am points) /\
    mbe_of_points orth null_space eigh lstsq solver points = Ok e /\ mbe_of_points orth' null' eigh' lstsq' solver' (map am points) = Ok e' /\
    forall x, length x = d -> (ell_set (e_half e') (e_rot e') (e_center e') (am x) <-> ell_set (e_half e) (e_rot e) (e_center e) x).
Proof.
  intros HP (r & Er & H). cbv zeta in H. destruct H as (Hk & HO & (ld & HL & OP) & HE & HLS & HN). set (D := map (fun p => vsub p r) points) in *. set (W := orth (transpose D)) in *.
  destruct (solver _) as [A b] eqn:ES. cbn [fst snd] in *. destruct (eigh A) as [w V] eqn:EE. cbn [fst snd] in *. pose proof OP as (HF & HPD & HMAX). pose proof HF as (HV & Lb & HB & _).
  assert (K0 : (0 < k)%nat) by lia. pose proof (psd_var_SPD k K0 A HV HPD) as HSPD. pose proof (proj1 HSPD) as MA.
  assert (Lr : length r = d) by (apply HP; destruct points; [discriminate|]; injection Er as ->; now left).
  destruct (mbe_of_points_set d k points orth null_space eigh lstsq solver r A b w V) as (e & X1 & X2 & X3); auto.
  pose proof HO as (HW & HF2). pose proof (proj1 HW) as MW. pose proof (is_mat_transpose _ _ _ MW Hd) as TW. pose proof (is_mat_length _ _ _ MW) as LW. pose proof (is_mat_length _ _ _ TW) as LTW.
  destruct (image_frame k W K0 HW) as (W' & S & S' & HW' & IS & SS & FR). pose proof (proj1 HW') as MW'. pose proof (is_mat_length _ _ _ MW') as LW'. pose proof IS as (MS & MS' & S1 & S2).
  pose proof HT as (MT & MT' & _). pose proof (is_mat_length _ _ _ MT) as LT. pose proof (is_mat_length _ _ _ MS) as LS. pose proof (is_mat_length _ _ _ MS') as LS'.
  set (points' := map am points). set (r' := am r). set (D' := map (fun p => vsub p r') points').
  assert (HD : forall z, In z D -> length z = d) by (intros z Hz; apply in_map_iff in Hz as (p & <- & Hp); rewrite vsub_length; rewrite (HP p Hp); auto).
  assert (ED : D' = map (mat_vec T) D) by (unfold D', points', D; rewrite !map_map; apply map_ext_in; intros p Hp; apply am_sub; auto).
  assert (WT : forall z, In z D -> mat_vec (transpose W') (mat_vec T z) = mat_vec S (mat_vec (transpose W) z)).
  { intros z Hz. rewrite <- (HF2 z Hz) at 1. rewrite FR by (rewrite mat_vec_length; auto). apply (orthonormal_apply d k); auto. rewrite mat_vec_length; auto. }
  assert (EP : mat_mul D' W' = map (mat_vec S) (mat_mul D W)).
  { rewrite ED. unfold mat_mul at 1 2. rewrite !map_map. apply map_ext_in. intros z Hz. rewrite !vec_mat_mat_vec. now apply WT. }
  assert (LP : forall y, In y (mat_mul D W) -> length y = k) by (intros y Hy; unfold mat_mul in Hy; apply in_map_iff in Hy as (z & <- & Hz); rewrite vec_mat_mat_vec, mat_vec_length; auto).
  assert (HO' : orth_spec d k D' W').
  { split; auto. intros p Hp. rewrite ED in Hp. apply in_map_iff in Hp as (z & <- & Hz). rewrite WT by auto. rewrite <- FR by (rewrite mat_vec_length; auto). now rewrite HF2. }
  pose proof (inv_sym k _ _ IS) as IS'. pose proof (shift_back k K0 ld HL S S' IS) as SB.
  destruct (carry k K0 ld HL A S' S HSPD IS') as (U & A' & HU & HSPD' & EUA & LDA). pose proof HU as (MU & U1 & U2). pose proof (proj1 HSPD') as MA'. pose proof (is_mat_transpose _ _ _ MU K0) as TU.
  assert (NT : forall P v, orthogonal k P -> length v = k -> norm (mat_vec P v) = norm v). { intros P v HP0 Lv. unfold norm. rewrite (orthonormal_dot k k) by (auto using orthogonal_orthonormal). reflexivity. }
  set (b' := mat_vec (transpose U) b). assert (Lb' : length b' = k) by (unfold b'; rewrite mat_vec_length; apply TU).
  assert (MOVE : forall K K1 A1 A2 b1 U1, inverse k K K1 -> SPD k A1 -> SPD k A2 -> length b1 = k -> orthogonal k U1 -> mat_mul A1 K1 = mat_mul U1 A2 ->
    forall y, length y = k -> norm (vadd (mat_vec A2 (mat_vec K y)) (mat_vec (transpose U1) b1)) = norm (vadd (mat_vec A1 y) b1)).
  { intros K K1 A1 A2 b1 U1' (MK & MK1 & _ & KK) (M1 & _) (M2 & _) Lb1 HU1 E y Ly. pose proof HU1 as (MU1 & Ua & Ub). pose proof (is_mat_transpose _ _ _ MU1 K0) as TU1.
    assert (LK : length (mat_vec K y) = k) by (rewrite mat_vec_length; apply MK). assert (L2 : length (mat_vec A2 (mat_vec K y)) = k) by (rewrite mat_vec_length; apply M2). assert (L3 : length (mat_vec (transpose U1') b1) = k) by (rewrite mat_vec_length; apply TU1).
    rewrite <- (NT U1') by (auto; rewrite vadd_length; congruence). rewrite mat_vec_vadd by congruence. rewrite <- (mat_vec_mat_mul k k k U1' (transpose U1')) by auto. rewrite Ub, mat_vec_eye by auto.
    rewrite <- (mat_vec_mat_mul k k k U1' A2) by auto. rewrite <- E. rewrite (mat_vec_mat_mul k k k) by auto. rewrite <- (mat_vec_mat_mul k k k K1 K) by auto. rewrite KK, mat_vec_eye by auto. reflexivity. }
  assert (PR : forall y, length y = k -> norm (vadd (mat_vec A' (mat_vec S y)) b') = norm (vadd (mat_vec A y) b)) by (intros y Ly; unfold b'; apply (MOVE S S' A A' b U); auto).
  destruct (SPD_psd_var k A' HSPD') as (HV' & HPD').
  assert (HF' : mbe_points_constraints k (mat_mul D' W') false A' b').
  { split; auto. split; auto. split; [|discriminate]. intros x Hx. rewrite EP in Hx. apply in_map_iff in Hx as (z & <- & Hz). rewrite PR by auto. now apply HB. }
  assert (SBK : forall y, length y = k -> mat_vec S' (mat_vec S y) = y) by (intros y Ly; rewrite <- (mat_vec_mat_mul k k k) by auto; rewrite S2; now apply mat_vec_eye).
  assert (OP' : log_det_optimal k ld (mbe_points_constraints k (mat_mul D' W') false) A' b').
  { split; auto. split; auto. intros A2 b2 (HV2 & Lb2 & HB2 & _) HPD2. pose proof (psd_var_SPD k K0 A2 HV2 HPD2) as HS2.
    destruct (carry k K0 ld HL A2 S S' HS2 IS) as (U4 & A4 & HU4 & HS4 & E4 & LD4). destruct (SPD_psd_var k A4 HS4) as (HV4 & HPD4). pose proof HU4 as (MU4 & _). pose proof (is_mat_transpose _ _ _ MU4 K0) as TU4.
    assert (G : ld A4 <= ld A).
    { apply (HMAX _ (mat_vec (transpose U4) b2)); auto. split; auto. split; [rewrite mat_vec_length; apply TU4|]. split; [|discriminate]. intros x Hx. rewrite <- (SBK x) by auto.
      rewrite (MOVE S' S A2 A4 b2 U4) by (auto; rewrite mat_vec_length; auto). apply HB2. rewrite EP. now apply in_map. }
    lra. }
  destruct (spectral k A' K0 (proj1 HSPD') (proj1 (proj2 HSPD'))) as (wV & HE'). destruct (lstsq_exists A' (vneg b')) as (c & Hc).
  assert (HWV : orthonormal d k (mat_mul W' (snd wV))) by (apply orthonormal_mul; auto; apply HE'). destruct (null_exists d Hd k _ ltac:(lia) HWV) as (N & HN').
  destruct wV as [w' V']. cbn [fst snd] in *.
  assert (ER' : hd_error points' = Some r') by (unfold points'; destruct points; [discriminate|]; injection Er as ->; reflexivity).
  assert (HP' : forall x, In x points' -> length x = d) by (intros x Hx; apply in_map_iff in Hx as (p & <- & Hp); apply am_len).
  destruct (mbe_of_points_set d k points' (fun _ => W') (fun _ => N) (fun _ => (w', V')) (fun _ _ => c) (fun _ => (A', b')) r' A' b' w' V') as (e' & Y1 & Y2 & Y3); auto.
  exists (fun _ => W'), (fun _ => N), (fun _ => (w', V')), (fun _ _ => c), (fun _ => (A', b')), e, e'. split.
  { exists r'. split; auto. cbv zeta. cbn [fst snd]. split; [lia|]. split; auto. split; [exists ld; auto|]. auto. }
  split; auto. split; auto. intros x Lx. rewrite Y3, X3.
  assert (MV : forall y, length y = k -> move W' r' (mat_vec S y) = am (move W r y)).
  { intros y Ly. assert (L1 : length (mat_vec W y) = d) by (rewrite mat_vec_length; auto). assert (L2 : length (mat_vec T (mat_vec W y)) = d) by (rewrite mat_vec_length; auto). assert (L3 : length (mat_vec T r) = d) by (rewrite mat_vec_length; auto).
    unfold r', am, move. rewrite <- FR by auto. rewrite mat_vec_vadd by congruence. vring d. }
  assert (INJ : forall u v, length u = d -> length v = d -> am u = am v -> u = v).
  { intros u v Lu Lv E. pose proof (am_sub u v Lu Lv) as F. rewrite E in F. assert (L0 : length (vsub u v) = d) by (rewrite vsub_length; congruence). pose proof (T_back _ L0) as G. rewrite <- F in G.
    assert (Z : vsub (am v) (am v) = zeros d) by (pose proof (am_len v); vring d). rewrite Z, mat_vec_zeros in G. apply (vec_ext d); auto. intros i Hi. pose proof (f_equal (fun z => nth i z 0) G) as K. cbn beta in K. rewrite nth_zeros, nth_vsub in K by congruence. lra. }
  assert (ML : forall y, length (move W r y) = d) by (intros y; unfold move; rewrite vadd_length; rewrite mat_vec_length; congruence).
  split.
  - intros (y & Ly & E & HB'). exists (mat_vec S' y). split; [rewrite mat_vec_length; auto|]. assert (EY : y = mat_vec S (mat_vec S' y)) by (rewrite <- (mat_vec_mat_mul k k k) by auto; rewrite S1; now rewrite mat_vec_eye).
    assert (L' : length (mat_vec S' y) = k) by (rewrite mat_vec_length; auto). split.
    + apply INJ; auto. rewrite E. rewrite EY at 1. now apply MV.
    + unfold ball_preimage in *. rewrite EY in HB'. now rewrite PR in HB'.
  - intros (y & Ly & E & HB'). exists (mat_vec S y). split; [rewrite mat_vec_length; auto|]. split; [rewrite MV by auto; now rewrite E|]. unfold ball_preimage in *. now rewrite PR.
Qed.
End P.
Lemma mbe_affine_all d T T' t points k1 orth1 null1 eigh1 lstsq1 solver1 k2 orth2 null2 eigh2 lstsq2 solver2 :
  (0 < d)%nat -> inverse d T T' -> length t = d -> (forall x, In x points -> length x = d) ->
  mbe_oracles d k1 orth1 null1 eigh1 lstsq1 solver1 points ->
  mbe_oracles d k2 orth2 null2 eigh2 lstsq2 solver2 (map (move T t) points) ->
  exists e1 e2, mbe_of_points orth1 null1 eigh1 lstsq1 solver1 points = Ok e1 /\
    mbe_of_points orth2 null2 eigh2 lstsq2 solver2 (map (move T t) points) = Ok e2 /\
    forall x, length x = d -> (ell_set (e_half e2) (e_rot e2) (e_center e2) (move T t x) <-> ell_set (e_half e1) (e_rot e1) (e_center e1) x).
Proof.
  intros Hd HT Lt HP H1 H2. destruct (affine_run d Hd T T' HT t Lt k1 orth1 null1 eigh1 lstsq1 solver1 points HP H1) as (orth & null & eigh & lstsq & solver & e & e' & H' & E1 & E2 & E3).
  assert (HP' : forall x, In x (map (move T t) points) -> length x = d) by (intros x Hx; apply in_map_iff in Hx as (p & <- & Hp); apply (am_len d T T' HT t Lt)).
  destruct (mbe_of_points_function d (map (move T t) points) (map (move T t) points) k1 orth null eigh lstsq solver k2 orth2 null2 eigh2 lstsq2 solver2) as (f & f' & F1 & F2 & _ & _ & F3); auto; [intros x; tauto|].
  change (map (fun p => move T t p) points) with (map (move T t) points) in E2. rewrite E2 in F1. injection F1 as <-. exists e, f'. split; auto. split; auto. intros x Lx. rewrite <- F3. now apply E3.
Qed.
(** the same for ConvexPolyhedron.mbe *)
Lemma poly_mbe_affine d T T' t p1 p2 k1 orth1 null1 eigh1 lstsq1 solver1 k2 orth2 null2 eigh2 lstsq2 solver2 :
  (0 < d)%nat -> inverse d T T' -> length t = d -> (forall x, In x (p_vertices p1) -> length x = d) -> (forall x, In x (p_vertices p2) -> length x = d) ->
  (forall x, in_hull d (p_vertices p2) x <-> in_hull d (map (move T t) (p_vertices p1)) x) ->
  mbe_oracles d k1 orth1 null1 eigh1 lstsq1 solver1 (p_vertices p1) -> mbe_oracles d k2 orth2 null2 eigh2 lstsq2 solver2 (p_vertices p2) ->
  exists e1 e2, poly_mbe orth1 null1 eigh1 lstsq1 solver1 p1 = Ok e1 /\ poly_mbe orth2 null2 eigh2 lstsq2 solver2 p2 = Ok e2 /\
    forall x, length x = d -> (ell_set (e_half e2) (e_rot e2) (e_center e2) (move T t x) <-> ell_set (e_half e1) (e_rot e1) (e_center e1) x).
Proof.
  intros Hd HT Lt HP1 HP2 HH H1 H2. destruct (affine_run d Hd T T' HT t Lt k1 orth1 null1 eigh1 lstsq1 solver1 (p_vertices p1) HP1 H1) as (orth & null & eigh & lstsq & solver & e & e' & H' & E1 & E2 & E3).
  assert (HP' : forall x, In x (map (move T t) (p_vertices p1)) -> length x = d) by (intros x Hx; apply in_map_iff in Hx as (p & <- & Hp); apply (am_len d T T' HT t Lt)).
  destruct (mbe_of_points_function d (map (move T t) (p_vertices p1)) (p_vertices p2) k1 orth null eigh lstsq solver k2 orth2 null2 eigh2 lstsq2 solver2) as (f & f' & F1 & F2 & _ & _ & F3); auto; [intros x; symmetry; apply HH|].
  change (map (fun p => move T t p) (p_vertices p1)) with (map (move T t) (p_vertices p1)) in E2. rewrite E2 in F1. injection F1 as <-. exists e, f'. split; [exact E1|]. split; [exact F2|]. intros x Lx. rewrite <- F3. now apply E3.
Qed.
(** * Halfspaces *)
Section H.
Context (n : nat) (Hn : (0 < n)%nat).
Lemma carry_image ld T T' B : log_det_spec n ld -> inverse n T T' -> SPD n B ->
  exists P, SPD n P /\ 2 * ld P = 2 * ld B + (ld (mat_mul T (transpose T)) - ld (eye n)) /\
    forall t c x, length t = n -> length c = n -> (ball_image n P (move T t c) x <-> exists y, ball_image n B c y /\ x = move T t y).
Proof.
  intros HL IT HB. pose proof (inv_tr n Hn _ _ IT) as ITT. destruct (carry n Hn ld HL B (transpose T) (transpose T') HB ITT) as (U & P & HU & HP & E & LD). pose proof IT as (MT & MT' & _). pose proof HU as (MU & U1 & U2). pose proof (proj1 HB) as MB. pose proof (proj1 HP) as MP.
  pose proof (is_mat_transpose _ _ _ MT Hn) as TT. pose proof (is_mat_transpose _ _ _ MU Hn) as TU. rewrite (MatAlg.tr_tr n Hn) in LD by auto. exists P. split; auto. split; auto. intros t c x Lt Lc.
  apply (f_equal transpose) in E. rewrite !(MatAlg.tr_mm n Hn) in E by auto. rewrite (MatAlg.tr_tr n Hn), (SPD_tr n B HB), (SPD_tr n P HP) in E by auto.
  assert (EV : forall u, length u = n -> mat_vec T (mat_vec B u) = mat_vec P (mat_vec (transpose U) u)) by (intros u Lu; rewrite <- !(mat_vec_mat_mul n n n) by auto; now rewrite E).
  pose proof (is_mat_length _ _ _ MT) as LT. pose proof (is_mat_length _ _ _ MB) as LB. pose proof (is_mat_length _ _ _ TU) as LU. pose proof (is_mat_length _ _ _ MU) as LU'.
  assert (EQ : forall u, length u = n -> vadd (mat_vec P (mat_vec (transpose U) u)) (move T t c) = move T t (vadd (mat_vec B u) c)).
  { intros u Lu. rewrite <- EV by auto. unfold move. assert (L1 : length (mat_vec B u) = n) by (rewrite mat_vec_length; auto). rewrite mat_vec_vadd by congruence. assert (L2 : length (mat_vec T (mat_vec B u)) = n) by (rewrite mat_vec_length; auto). assert (L3 : length (mat_vec T c) = n) by (rewrite mat_vec_length; auto). vring n. }
  assert (NT : forall P v, orthogonal n P -> length v = n -> norm (mat_vec P v) = norm v). { intros P0 v HP0 Lv. unfold norm. rewrite (orthonormal_dot n n) by (auto using orthogonal_orthonormal). reflexivity. }
  split.
  - intros (u & Lu & Nu & ->). assert (Lv : length (mat_vec U u) = n) by (rewrite mat_vec_length; auto). exists (vadd (mat_vec B (mat_vec U u)) c). split.
    + exists (mat_vec U u). split; auto. split; [rewrite NT; auto|reflexivity].
    + rewrite <- EQ by auto. do 2 f_equal. symmetry. apply (orthonormal_apply n n); auto using orthogonal_orthonormal.
  - intros (y & (u & Lu & Nu & ->) & ->). exists (mat_vec (transpose U) u). split; [rewrite mat_vec_length; auto|]. split; [rewrite NT; auto using orthogonal_tr|]. symmetry. now apply EQ.
Qed.
Lemma feas_affine T t A1 b1 A2 b2 B c P : length T = n -> length t = n -> is_mat (length b1) n A1 -> is_mat (length b2) n A2 -> SPD n P ->
  (forall x, ball_image n P (move T t c) x <-> exists y, ball_image n B c y /\ x = move T t y) -> length B = n ->
  (forall x, length x = n -> halfspaces A1 b1 x -> halfspaces A2 b2 (move T t x)) -> mie_constraints n A1 b1 false B c -> mie_constraints n A2 b2 false P (move T t c).
Proof.
  intros LT Lt M1 M2 HP BI LB HE F0. pose proof F0 as (_ & Lc & _). destruct (proj1 (mie_feasible n A1 b1 B c M1) F0) as (PB & _ & IN).
  apply mie_feasible; auto. split; [now apply JohnM.SPD_is_PSD|]. split; [unfold move; rewrite vadd_length; rewrite mat_vec_length; congruence|]. intros x Hx. apply BI in Hx as (y & Hy & ->). apply HE; [|now apply IN]. destruct Hy as (u & Lu & _ & ->). rewrite vadd_length; rewrite mat_vec_length; congruence.
Qed.
Lemma move_back T T' t x : inverse n T T' -> length t = n -> length x = n -> move T' (vneg (mat_vec T' t)) (move T t x) = x.
Proof.
  intros IT Lt Lx. pose proof IT as (MT & MT' & _ & E). pose proof (is_mat_length _ _ _ MT) as LT. pose proof (is_mat_length _ _ _ MT') as LT'. unfold move. assert (L1 : length (mat_vec T x) = n) by (rewrite mat_vec_length; auto).
  rewrite mat_vec_vadd by congruence. rewrite <- (mat_vec_mat_mul n n n) by auto. rewrite E, mat_vec_eye by auto. assert (L2 : length (mat_vec T' t) = n) by (rewrite mat_vec_length; auto). vring n.
Qed.
Lemma move_forth T T' t x : inverse n T T' -> length t = n -> length x = n -> move T t (move T' (vneg (mat_vec T' t)) x) = x.
Proof.
  intros IT Lt Lx. pose proof IT as (MT & MT' & E & _). pose proof (is_mat_length _ _ _ MT) as LT. pose proof (is_mat_length _ _ _ MT') as LT'. unfold move. assert (L1 : length (mat_vec T' x) = n) by (rewrite mat_vec_length; auto). assert (L2 : length (mat_vec T' t) = n) by (rewrite mat_vec_length; auto).
  replace (vneg (mat_vec T' t)) with (vscale (-1) (mat_vec T' t)) by vring n. rewrite mat_vec_vadd by (rewrite vscale_length; congruence). rewrite mat_vec_vscale. rewrite <- !(mat_vec_mat_mul n n n) by auto. rewrite E, !mat_vec_eye by auto. vring n.
Qed.
End H.
Lemma mie_affine n T T' t A1 b1 A2 b2 eigh1 inv1 solver1 eigh2 inv2 solver2 :
  (0 < n)%nat -> inverse n T T' -> length t = n -> (0 < length b1)%nat -> (0 < length b2)%nat -> is_mat (length b1) n A1 -> is_mat (length b2) n A2 ->
  (forall x, length x = n -> (halfspaces A2 b2 (move T t x) <-> halfspaces A1 b1 x)) ->
  mie_oracles n eigh1 inv1 solver1 A1 b1 false -> mie_oracles n eigh2 inv2 solver2 A2 b2 false ->
  exists e1 e2, mie_inequality_form eigh1 inv1 solver1 A1 b1 false = Ok e1 /\ mie_inequality_form eigh2 inv2 solver2 A2 b2 false = Ok e2 /\
    forall x, length x = n -> (ell_set (e_half e2) (e_rot e2) (e_center e2) (move T t x) <-> ell_set (e_half e1) (e_rot e1) (e_center e1) x).
Proof.
  intros Hn IT Lt N1 N2 M1 M2 HE Q1 Q2. unfold mie_oracles in *. cbv zeta in Q1, Q2. destruct Q1 as ((ld1 & HL1 & OP1) & I1 & E1 & W1). destruct Q2 as ((ld2 & HL2 & OP2) & I2 & E2 & W2).
  destruct (solver1 _) as [B1 c1] eqn:S1. destruct (solver2 _) as [B2 c2] eqn:S2. cbn [fst snd] in *. pose proof OP1 as (F1 & D1 & O1). pose proof OP2 as (F2 & D2 & O2).
  destruct (eigh1 (inv1 _)) as [w1 V1] eqn:G1. destruct (eigh2 (inv2 _)) as [w2 V2] eqn:G2. cbn [fst snd] in *.
  destruct (mie_form_ball n A1 b1 false eigh1 inv1 solver1 B1 c1 w1 V1) as (e1 & X1 & X2 & X3 & X4 & X5 & X6 & X7 & X8 & X9); auto.
  destruct (mie_form_ball n A2 b2 false eigh2 inv2 solver2 B2 c2 w2 V2) as (e2 & Y1 & Y2 & Y3 & Y4 & Y5 & Y6 & Y7 & Y8 & Y9); auto.
  exists e1, e2. split; auto. split; auto. pose proof F1 as (VB1 & Lc1 & _). pose proof F2 as (VB2 & Lc2 & _). pose proof (psd_var_SPD n Hn B1 VB1 D1) as P1. pose proof (psd_var_SPD n Hn B2 VB2 D2) as P2.
  assert (LD : forall B, SPD n B -> ld1 B = ld2 B). { intros B PB. destruct (SPD_diag n Hn B PB) as (V & w & HV & Lw & Pw & ->). unfold congruent. rewrite HL1, HL2 by auto. reflexivity. }
  destruct (carry_image n Hn ld2 T T' B1 HL2 IT P1) as (B3 & P3 & L3 & BI3). set (t' := vneg (mat_vec T' t)). pose proof IT as (MT & MT' & _). pose proof (is_mat_length _ _ _ MT) as LT. pose proof (is_mat_length _ _ _ MT') as LT'.
  assert (Lt' : length t' = n) by (unfold t'; rewrite vneg_length, mat_vec_length; auto). pose proof (inv_sym n _ _ IT) as IT'. pose proof (shift_back n Hn ld2 HL2 _ _ (inv_tr n Hn _ _ IT)) as SB. rewrite !(MatAlg.tr_tr n Hn) in SB by auto.
  assert (LB : forall B, SPD n B -> length B = n) by (intros B PB; apply PB).
  destruct (JohnX.mie_optimal_unique n Hn ld2 HL2 A2 b2 false B2 c2 B3 (move T t c1) M2 OP2) as (EB & Ec).
  { split; [|split; [apply (SPD_psd_var n B3 P3)|]].
    - apply (feas_affine n T t A1 b1 A2 b2 B1); auto. intros x Lx Hx. now apply HE.
    - intros B' c' F' D'. pose proof F' as (V' & Lc' & _). pose proof (psd_var_SPD n Hn B' V' D') as P'. destruct (carry_image n Hn ld2 T' T B' HL2 IT' P') as (B4 & P4 & L4 & BI4).
      assert (F4 : mie_constraints n A1 b1 false B4 (move T' t' c')).
      { apply (feas_affine n T' t' A2 b2 A1 b1 B'); auto. intros x Lx Hx. apply HE; [unfold move; rewrite vadd_length; rewrite mat_vec_length; congruence|]. unfold t'. now rewrite (move_forth n T T' t x). }
      pose proof (O1 _ _ F4 (proj2 (SPD_psd_var n _ P4))) as G. rewrite !LD in G by auto. lra. }
  intros x Lx. specialize (Ec eq_refl). rewrite EB, Ec in Y8. assert (LM : length (move T t x) = n) by (unfold move; rewrite vadd_length; rewrite mat_vec_length; congruence). rewrite Y8, X8 by auto. rewrite BI3 by auto. split.
  - intros (y & Hy & E). replace x with y; auto. assert (Ly : length y = n) by (destruct Hy as (u & Lu & _ & ->); rewrite vadd_length; rewrite mat_vec_length; rewrite (LB B1 P1); auto).
    rewrite <- (move_back n T T' t x), <- (move_back n T T' t y) by auto. f_equal. symmetry. exact E.
  - intros Hx. exists x. split; auto.
Qed.
(** * A concrete case: a shear *)
Lemma shear_premises : inverse 2 [[1; 1]; [0; 1]] [[1; -1]; [0; 1]] /\ ~ orthogonal 2 [[1; 1]; [0; 1]] /\
  map (move [[1; 1]; [0; 1]] [1; 0]) [[0; 0]; [2; 0]; [0; 1]] = [[1; 0]; [3; 0]; [2; 1]] /\
  (exists k orth null_space eigh lstsq solver, mbe_oracles 2 k orth null_space eigh lstsq solver [[0; 0]; [2; 0]; [0; 1]]) /\
  exists k orth null_space eigh lstsq solver, mbe_oracles 2 k orth null_space eigh lstsq solver [[1; 0]; [3; 0]; [2; 1]].
Proof.
  assert (L : forall P : mat, Forall (fun x => length x = 2%nat) P -> forall x, In x P -> length x = 2%nat) by (intros P H; now apply Forall_forall). split; [|split; [|split; [|split]]].
  - split; [split; [reflexivity|repeat constructor]|]. split; [split; [reflexivity|repeat constructor]|]. split; (apply (mat_ext 2 2); [split; [reflexivity|repeat constructor]|split; [reflexivity|repeat constructor]|]; intros i j Hi Hj; destruct i as [|[|i]], j as [|[|j]]; try lia; unfold entry; cbn; ring).
  - intros (_ & E & _). apply (f_equal (fun A => entry A 0 1)) in E. unfold entry in E. cbn in E. lra.
  - unfold move, mat_vec, vadd, dot. cbn. repeat (f_equal; try ring).
  - apply mbe_oracles_exist; [lia|apply L; repeat constructor|]. exists [0; 0], [2; 0]. split; [now left|]. split; [right; now left|]. intro E. injection E. lra.
  - apply mbe_oracles_exist; [lia|apply L; repeat constructor|]. exists [1; 0], [3; 0]. split; [now left|]. split; [right; now left|]. intro E. injection E. lra.
Qed.
(** the interval [-1, 3] is the image of [-1, 1] under x -> 2 x + 1 *)
Lemma stretch_solver : mie_oracles 1 (fun _ => ([/ 4], [[1]])) (fun _ => [[/ 4]]) (fun _ => ([[2]], [1])) [[1]; [-1]] [3; 1] false.
Proof.
  assert (MA : is_mat (length [3; 1]) 1 [[1]; [-1]]) by (split; [reflexivity|repeat constructor]).
  assert (HE : forall x, length x = 1%nat -> (halfspaces [[1]; [-1]] [3; 1] x <-> -1 <= nth 0 x 0 <= 3)).
  { intros x Lx. destruct (len1_inv _ Lx) as (a & ->). split.
    - intros H. pose proof (H 0%nat ltac:(cbn; lia)) as H0. pose proof (H 1%nat ltac:(cbn; lia)) as H1. cbn in H0, H1 |- *. lra.
    - intros H [|[|i]] Hi; cbn in Hi, H |- *; try lia; lra. }
  unfold mie_oracles. cbv zeta. cbn [fst snd].
  assert (MI : mat_mul [[2]] [[2]] = [[4]]) by (cbn; repeat (f_equal; try ring)). rewrite MI. split; [|split; [|split]].
  - exists (fun M => ln (entry M 0 0)). split; [apply log_det_1|]. split; [|split; [apply pd_one; lra|]].
    + apply (mie_feasible 1 _ [3; 1]); auto. split; [apply SPD_is_PSD; split; [split; [reflexivity|repeat constructor]|split; [|apply pd_one; lra]]|].
      * intros i j Hi Hj. now replace i with 0%nat by lia; replace j with 0%nat by lia.
      * split; [reflexivity|]. intros x (u & Lu & Hu & ->). destruct (len1_inv _ Lu) as (v & ->). apply HE; [reflexivity|]. rewrite norm1 in Hu. apply abs_bound in Hu. cbn. lra.
    + intros B c F PB. destruct (proj1 (mie_feasible 1 _ [3; 1] B c MA) F) as ((MB & _) & Lc & IN). destruct (one_by_one B MB) as (a & ->). destruct (len1_inv _ Lc) as (c0 & ->). unfold entry. cbn [nth].
      specialize (PB [1] eq_refl ltac:(unfold zeros; cbn; intro K; injection K; lra)). unfold quad in PB. cbn in PB.
      assert (P1 : halfspaces [[1]; [-1]] [3; 1] [a + c0]). { apply IN. exists [1]. split; [reflexivity|]. split; [rewrite norm1, Rabs_pos_eq; lra|cbn; repeat (f_equal; try ring)]. }
      assert (P2 : halfspaces [[1]; [-1]] [3; 1] [- a + c0]). { apply IN. exists [-1]. split; [reflexivity|]. split; [rewrite norm1, Rabs_left; lra|cbn; repeat (f_equal; try ring)]. }
      apply HE in P1; [|reflexivity]. apply HE in P2; [|reflexivity]. cbn in P1, P2. destruct (Req_dec a 2) as [->|N]; [lra|left; apply ln_increasing; lra].
  - split; [split; [reflexivity|repeat constructor]|]. split; cbn; repeat (f_equal; try field).
  - split; [reflexivity|]. split.
    + split; [split; [reflexivity|repeat constructor]|]. split; cbn; repeat (f_equal; try ring).
    + cbn. repeat (f_equal; try ring).
  - intros a [<-|[]]. unfold np_atol. rewrite Rinv_mult, !Rinv_inv. lra.
Qed.
Lemma stretch_interval : inverse 1 [[2]] [[/ 2]] /\
  (forall x, length x = 1%nat -> (halfspaces [[1]; [-1]] [3; 1] (move [[2]] [1] x) <-> halfspaces [[1]; [-1]] [1; 1] x)) /\
  mie_oracles 1 (fun _ => ([1], [[1]])) (fun _ => [[1]]) (fun _ => ([[1]], [0])) [[1]; [-1]] [1; 1] false /\
  mie_oracles 1 (fun _ => ([/ 4], [[1]])) (fun _ => [[/ 4]]) (fun _ => ([[2]], [1])) [[1]; [-1]] [3; 1] false.
Proof.
  assert (M1 : is_mat 2 1 [[1]; [-1]]) by (split; [reflexivity|repeat constructor]). split; [|split; [|split; [|exact stretch_solver]]].
  - split; [split; [reflexivity|repeat constructor]|]. split; [split; [reflexivity|repeat constructor]|]. split; cbn; repeat (f_equal; try field).
  - intros x Lx. destruct (len1_inv _ Lx) as (a & ->). rewrite interval_a by reflexivity. split.
    + intros H. pose proof (H 0%nat ltac:(cbn; lia)) as H0. pose proof (H 1%nat ltac:(cbn; lia)) as H1. cbn in H0, H1 |- *. lra.
    + intros H [|[|i]] Hi; cbn in Hi, H |- *; try lia; lra.
  - apply interval_solver; auto. apply interval_a.
Qed.
