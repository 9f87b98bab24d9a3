(** C95: the identification problems have a solution whenever some parameters are feasible. *)
From Coq Require Import Classical.
From Verif Require Import Base.Vec Base.VecFacts Spec.Basic Spec.Objects Spec.Realizable Spec.Shapes Spec.ShapeObjects Spec.PolySpec Spec.Bodies Spec.ExtremalSpec Spec.Geodesic Spec.Identify Spec.Cone
  Model.Util Model.Constraint Model.Inertial Model.Polydd Model.Poly Model.Box Model.Cylinder Model.Ellipsoid Model.Realize Model.RigidBody Model.Identify
  Proofs.Coord Proofs.LinAlg Proofs.MatAlg Proofs.UtilP Proofs.InertialP Proofs.BoxP Proofs.CylP Proofs.EllP Proofs.PolyP Proofs.PimP Proofs.LogDet Proofs.GeodesicP Proofs.MomentP Proofs.IdentifyP Proofs.Cone Proofs.ConeId
  Proofs.Compact Proofs.ClosestE Proofs.JohnX Proofs.EllMore Proofs.QMeasure Proofs.QConc Proofs.SdpLimit Proofs.SdpLimitB Proofs.DualPoly.

Notation len10 := (Forall (fun t : vec => length t = 10%nat)).
Lemma F2_impl {A B : Type} (P Q : A -> B -> Prop) l m : (forall a b, P a b -> Q a b) -> Forall2 P l m -> Forall2 Q l m.
Proof. induction 2; constructor; auto. Qed.
(** ** limits of lists of parameter vectors *)
Lemma split10 n z : length z = (10 * n)%nat -> exists l, length l = n /\ len10 l /\ concat l = z.
Proof.
  revert z. induction n as [|n IH]; intros z L; [exists []; destruct z; [auto|discriminate]|].
  destruct (IH (skipn 10 z)) as (l & H1 & H2 & H3); [rewrite skipn_length; lia|]. exists (firstn 10 z :: l).
  split; [cbn; lia|]. split; [constructor; [rewrite firstn_length; lia|auto]|]. cbn [concat]. rewrite H3. apply firstn_skipn.
Qed.
Lemma near_concat e l m : len10 l -> len10 m -> length l = length m -> (Forall2 (near 10 e) l m <-> near (10 * length l) e (concat l) (concat m)).
Proof.
  revert m. induction l as [|x l IH]; intros [|y m] Hl Hm L; try discriminate; [split; [intros _ i Hi; cbn in Hi; lia|constructor]|].
  apply Forall_cons_iff in Hl as (Lx & Hl). apply Forall_cons_iff in Hm as (Ly & Hm). specialize (IH m Hl Hm ltac:(cbn in L; lia)). cbn [concat]. split.
  - intros H i Hi. inversion H as [|? ? ? ? H1 H2]; subst. destruct (Nat.lt_ge_cases i 10) as [C|C].
    + rewrite !app_nth1 by lia. now apply H1.
    + rewrite !app_nth2 by lia. rewrite Lx, Ly. apply IH; auto. cbn [length] in Hi. lia.
  - intros H. constructor.
    + intros i Hi. specialize (H i ltac:(cbn [length]; lia)). now rewrite !app_nth1 in H by lia.
    + apply IH. intros i Hi. specialize (H (10 + i)%nat ltac:(cbn [length]; lia)). rewrite !app_nth2 in H by lia. rewrite Lx, Ly in H. now replace (10 + i - 10)%nat with i in H by lia.
Qed.
Lemma min_list n (C : list vec -> Prop) (f : list vec -> R) L B l0 :
  (forall l, C l -> length l = n /\ len10 l) -> C l0 ->
  (forall l, C l -> f l <= f l0 -> L <= f l /\ Forall (fun t => forall i, (i < 10)%nat -> Rabs (nth i t 0) <= B) l) ->
  (forall a, length a = n -> len10 a -> (forall e, 0 < e -> exists l, C l /\ f l <= f l0 /\ Forall2 (near 10 e) l a) ->
     C a /\ forall d, 0 < d -> exists e, 0 < e /\ forall l, C l -> f l <= f l0 -> Forall2 (near 10 e) l a -> f a <= f l + d) ->
  exists a, C a /\ forall l, C l -> f a <= f l.
Proof.
  intros HC H0 HB HX. set (E := fun r => forall l, C l -> f l <= f l0 -> r <= f l).
  destruct (completeness E) as (m & M1 & M2).
  - exists (f l0). intros r Hr. apply Hr; auto. lra.
  - exists L. intros l Hl Hf. now apply HB.
  - assert (ME : E m) by (intros l Hl Hf; apply M2; intros r Hr; now apply Hr).
    assert (Hm0 : m <= f l0) by (apply ME; auto; lra).
    destruct (pickn (fun e z => exists l, concat l = z /\ C l /\ f l <= f l0 /\ f l <= m + e) (10 * n) B) as (z & Lz & Hz).
    + intros e e' z He (l & E1 & E2 & E3 & E4). exists l. split; [auto|]. split; [auto|]. split; [auto|lra].
    + intros e He. apply NNPP. intros HY. assert (m + e <= m); [|lra]. apply M1. intros l Hl Hf. destruct (Rle_lt_dec (m + e) (f l)); auto. exfalso. apply HY. exists (concat l), l. split; [auto|]. split; [auto|]. split; [auto|lra].
    + intros e z i He (l & <- & Cl & Fl & _) Hi. destruct (HB l Cl Fl) as (_ & HBl). destruct (HC l Cl) as (Ll & Tl).
      assert (N : near (10 * length l) B (concat l) (concat (map (fun _ => zeros 10) l))).
      { apply near_concat; [auto|apply Forall_forall; intros t Ht; apply in_map_iff in Ht as (? & <- & _); apply zeros_length|now rewrite map_length|]. clear - HBl. induction HBl as [|t l Ht Hl IH]; cbn; constructor; auto. now apply near_zeros. }
      rewrite Ll in N. specialize (N i Hi). replace (nth i (concat (map (fun _ => zeros 10) l)) 0) with 0 in N; [now rewrite Rminus_0_r in N|].
      assert (Z : forall x, In x (concat (map (fun _ : vec => zeros 10) l)) -> x = 0) by (intros x Hx; apply in_concat in Hx as (u & Hu & Hx); apply in_map_iff in Hu as (? & <- & _); now apply repeat_spec in Hx).
      destruct (Nat.lt_ge_cases i (length (concat (map (fun _ : vec => zeros 10) l)))) as [Hl|Hl]; [symmetry; apply Z; now apply nth_In|now rewrite nth_overflow].
    + destruct (split10 n z Lz) as (a & La & Ta & <-).
      assert (HN : forall e, 0 < e -> exists l, C l /\ f l <= f l0 /\ f l <= m + e /\ Forall2 (near 10 e) l a).
      { intros e He. destruct (Hz e He) as (z' & (l & <- & Cl & Fl & Fm) & Nz). exists l. split; [auto|]. split; [auto|]. split; [auto|]. destruct (HC l Cl) as (Ll & Tl). apply near_concat; auto; [congruence|]. now rewrite Ll. }
      destruct (HX a La Ta) as (Ca & Lsc). { intros e He. destruct (HN e He) as (l & A1 & A2 & _ & A3). eauto. }
      assert (Hfa : f a <= m).
      { destruct (Rle_lt_dec (f a) m) as [|P]; [auto|exfalso]. destruct (Lsc ((f a - m) / 3) ltac:(lra)) as (e & He & Hl). destruct (HN (Rmin e ((f a - m) / 3)) ltac:(apply Rmin_pos; lra)) as (l & A1 & A2 & A3 & A4).
        pose proof (Rmin_l e ((f a - m) / 3)). pose proof (Rmin_r e ((f a - m) / 3)). assert (N : Forall2 (near 10 e) l a) by (eapply F2_impl; [|exact A4]; intros u v; apply near_le; lra).
        specialize (Hl l A1 A2 N). lra. }
      exists a. split; [auto|]. intros l Cl. destruct (Rle_lt_dec (f l) (f l0)) as [P|P]; [specialize (ME l Cl P)|]; lra.
Qed.
(** ** the pseudo-inertia matrix as a function of the parameters *)
Definition Jof (t : vec) : mat := msum 4 4 (map2 (fun A p => mscale p A) pim_sum_vec_matrices t).
Lemma Jof_ok t : length t = 10%nat -> pim_must_equal_vec t = Ok (Jof t) /\ is_mat 4 4 (Jof t) /\ symmetric 4 (Jof t).
Proof.
  intros L. destruct (pmev_ok t L) as (J & E & MJ & _ & SJ). assert (E' : pim_must_equal_vec t = Ok (Jof t)) by (unfold pim_must_equal_vec, is_vecb; rewrite L; reflexivity).
  rewrite E in E'. injection E' as <-. auto.
Qed.
Definition e10 (i : nat) : vec := map (fun j => if Nat.eqb i j then 1 else 0) (seq 0 10).
Lemma tr_lin M t : is_mat 4 4 M -> length t = 10%nat -> trace (mat_mul M (Jof t)) = dot (map (fun i => trace (mat_mul M (Jof (e10 i)))) (seq 0 10)) t.
Proof. intros HM L. do 11 (destruct t as [|? t]; try discriminate). destruct_vecs. cbn. field. Qed.
Lemma quad_lin z t : length z = 4%nat -> length t = 10%nat -> quad (Jof t) z = dot (map (fun i => quad (Jof (e10 i)) z) (seq 0 10)) t.
Proof. intros HM L. do 11 (destruct t as [|? t]; try discriminate). destruct_vecs. cbn. field. Qed.
Lemma contR_tr M : is_mat 4 4 M -> contR 10 (fun t => trace (mat_mul M (Jof t))).
Proof. intro HM. eapply contR_ext; [intros; now apply tr_lin|]. now apply contR_dot_const. Qed.
Lemma contR_quad z : length z = 4%nat -> contR 10 (fun t => quad (Jof t) z).
Proof. intro HM. eapply contR_ext; [intros; now apply quad_lin|]. now apply contR_dot_const. Qed.
Lemma theta_bound t i : length t = 10%nat -> PSD 4 (Jof t) -> (i < 10)%nat -> Rabs (nth i t 0) <= trace (Jof t).
Proof.
  intros L (_ & _ & HP) Hi. do 11 (destruct t as [|? t]; try discriminate).
  assert (Q : forall z, length z = 4%nat -> 0 <= quad (Jof [r; r0; r1; r2; r3; r4; r5; r6; r7; r8]) z) by exact HP. clear HP L.
  pose proof (Q [1;0;0;0] eq_refl) as A0. pose proof (Q [0;1;0;0] eq_refl) as A1. pose proof (Q [0;0;1;0] eq_refl) as A2. pose proof (Q [0;0;0;1] eq_refl) as A3.
  pose proof (Q [1;1;0;0] eq_refl) as B0. pose proof (Q [1;-1;0;0] eq_refl) as B1. pose proof (Q [1;0;1;0] eq_refl) as B2. pose proof (Q [1;0;-1;0] eq_refl) as B3.
  pose proof (Q [0;1;1;0] eq_refl) as B4. pose proof (Q [0;1;-1;0] eq_refl) as B5. pose proof (Q [1;0;0;1] eq_refl) as C0. pose proof (Q [1;0;0;-1] eq_refl) as C1.
  pose proof (Q [0;1;0;1] eq_refl) as C2. pose proof (Q [0;1;0;-1] eq_refl) as C3. pose proof (Q [0;0;1;1] eq_refl) as C4. pose proof (Q [0;0;1;-1] eq_refl) as C5. clear Q.
  apply Rabs_le. cbn in *. do 10 (destruct i as [|i]; [cbn; lra|]). lia.
Qed.
(** ** the regularizer bounds the parameters and keeps them away from singular matrices *)
Lemma log_barrier b C x : 0 < b -> 0 < x -> x / b - ln x <= C -> exp (- C) <= x <= 2 * b * (C + ln (2 * b)).
Proof.
  intros Hb Hx H. assert (0 <= x / b) by (apply Rlt_le, Rdiv_lt_0_compat; auto). split.
  - rewrite <- (exp_ln x Hx). destruct (Rle_lt_dec (- C) (ln x)) as [[L|E]|L]; [left; now apply exp_increasing|rewrite E; lra|lra].
  - assert (P : 0 < x / (2 * b)) by (apply Rdiv_lt_0_compat; lra). destruct (ln_le_sub (x / (2 * b)) P) as (L & _).
    assert (E : ln x = ln (x / (2 * b)) + ln (2 * b)) by (rewrite <- ln_mult by lra; f_equal; field; lra).
    assert (E2 : x / b = 2 * (x / (2 * b))) by (field; lra). assert (E3 : x = 2 * b * (x / (2 * b))) by (field; lra). rewrite E3. apply Rmult_le_compat_l; lra.
Qed.
Lemma log_floor b x : 0 < b -> 0 < x -> 1 - ln b <= x / b - ln x.
Proof.
  intros Hb Hx. assert (P : 0 < x / b) by (apply Rdiv_lt_0_compat; lra). destruct (ln_le_sub (x / b) P) as (L & _). assert (E : ln x = ln (x / b) + ln b) by (rewrite <- ln_mult by lra; f_equal; field; lra). lra.
Qed.
Lemma reg_bound log_det J0 J0' C : log_det_spec 4 log_det -> SPD 4 J0 -> inverse 4 J0 J0' ->
  exists c T, 0 < c /\ forall J, SPD 4 J -> reg_term log_det J J0' <= C -> forall z, length z = 4%nat -> c * dot z z <= quad J z <= T * dot z z.
Proof.
  intros HL H0 HI. assert (H4 : (0 < 4)%nat) by lia. destruct (SPD_diag 4 H4 J0 H0) as (U & b & HU & Lb & Pb & E0). subst J0.
  rewrite (inv_unique 4 H4 _ _ _ HI (congruent_inverse 4 H4 U b HU Lb Pb)). clear HI J0'.
  assert (Pn : forall i, (i < 4)%nat -> 0 < nth i b 0) by (intros; now apply (pos_nth 4)).
  set (be := rsum 4 (fun i => nth i b 0)). assert (Hbe : forall i, (i < 4)%nat -> nth i b 0 <= be) by (intros i Hi; apply (rsum_term_le 4 (fun i => nth i b 0)); auto; intros; now apply Rlt_le, Pn).
  assert (Pbe : 0 < be) by (apply Rlt_le_trans with (nth 0 b 0); [apply Pn; lia|apply Hbe; lia]). clearbody be.
  set (C' := C - 3 * (1 - ln be)). exists (exp (- C')), (2 * be * (C' + ln (2 * be))). split; [apply exp_pos|]. intros J HJ HR z Lz.
  destruct (SPD_diag 4 H4 J HJ) as (V & a & HV & La & Pa & EJ). subst J. assert (Qn : forall i, (i < 4)%nat -> 0 < nth i a 0) by (intros; now apply (pos_nth 4)).
  unfold reg_term in HR. rewrite (log_det_congruent 4 H4 log_det HL V a HV La Pa) in HR. rewrite (trace_pair 4) in HR by (auto; try lia; now rewrite map_length).
  set (P := mat_mul (transpose U) V) in *.
  assert (HP : orthogonal 4 P).
  { pose proof HV as (HVm & V1 & V2). pose proof HU as (HUm & U1 & U2). unfold P. split; [apply (mm_ok 4 H4); auto; apply (tr_ok 4 H4); auto|].
    assert (MT : is_mat 4 4 (transpose U)) by (apply (tr_ok 4 H4); auto). assert (MV : is_mat 4 4 (transpose V)) by (apply (tr_ok 4 H4); auto).
    rewrite (tr_mm 4 H4), (tr_tr 4 H4) by auto. split.
    - rewrite (mm_assoc 4 H4) by (auto; now apply (mm_ok 4 H4)). rewrite <- (mm_assoc 4 H4 U) by auto. rewrite U2, (mm_eye_l 4 H4) by auto. exact V1.
    - rewrite (mm_assoc 4 H4) by (auto; now apply (mm_ok 4 H4)). rewrite <- (mm_assoc 4 H4 V) by auto. rewrite V2, (mm_eye_l 4 H4) by auto. exact U1. }
  assert (HS : rsum 4 (fun j => nth j a 0 / be - ln (nth j a 0)) <= C).
  { eapply Rle_trans; [|exact HR]. rewrite rsum_minus. apply Rplus_le_reg_l with (rsum 4 (fun i => ln (nth i a 0))).
    replace (rsum 4 (fun i => ln (nth i a 0)) + (rsum 4 (fun i => nth i a 0 / be) - rsum 4 (fun i => ln (nth i a 0)))) with (rsum 4 (fun i => nth i a 0 / be)) by ring.
    match goal with |- _ <= ?x + (- ?x + ?y) => replace (x + (- x + y)) with y by ring end.
    rewrite rsum_swap. apply rsum_le. intros j Hj. specialize (Qn j Hj).
    apply Rle_trans with (rsum 4 (fun i => entry P i j * entry P i j * (nth j a 0 / be))).
    - rewrite rsum_scal_r, (orth_cols 4) by (auto; lia). lra.
    - apply rsum_le. intros i Hi. apply Rmult_le_compat_l; [apply Rle_0_sqr|]. rewrite nth_map_in by lia. specialize (Pn i Hi). specialize (Hbe i Hi).
      unfold Rdiv. rewrite Rmult_comm. apply Rmult_le_compat_r; [lra|]. apply Rinv_le_contravar; lra. }
  assert (HE : forall j, (j < 4)%nat -> nth j a 0 / be - ln (nth j a 0) <= C').
  { intros j Hj. assert (F : forall i, (i < 4)%nat -> 0 <= nth i a 0 / be - ln (nth i a 0) - (1 - ln be)) by (intros i Hi; pose proof (log_floor be (nth i a 0) Pbe (Qn i Hi)); lra).
    pose proof (rsum_term_le 4 (fun i => nth i a 0 / be - ln (nth i a 0) - (1 - ln be)) j F Hj) as X. cbn beta in X. rewrite rsum_minus, rsum_const in X. unfold C'. change (INR 4) with (1 + 1 + 1 + 1) in X. lra. }
  rewrite (quad_congruent 4) by (auto; try lia; apply HV).
  assert (Z : dot z z = rsum 4 (fun i => (nth i (mat_vec (transpose V) z) 0) ^ 2)).
  { assert (HT : orthogonal 4 (transpose V)). { destruct HV as (HVm & V1 & V2). split; [now apply (tr_ok 4 H4)|]. rewrite (tr_tr 4 H4) by auto. auto. }
    rewrite <- (orthogonal_dot 4 _ z z HT Lz Lz) by lia. assert (LT : length (mat_vec (transpose V) z) = 4%nat) by (rewrite mat_vec_length; apply HT). rewrite (dot_rsum 4) by auto. apply rsum_ext. intros; ring. }
  rewrite Z, <- !rsum_scal. split; apply rsum_le; intros i Hi; (apply Rmult_le_compat_r; [apply pow2_ge_0|]); apply (log_barrier be C' (nth i a 0) Pbe (Qn i Hi) (HE i Hi)).
Qed.
Lemma reg_list_bound log_det J0s J0s' C : log_det_spec 4 log_det -> Forall2 (fun J0 J0' => SPD 4 J0 /\ inverse 4 J0 J0') J0s J0s' ->
  exists c T, 0 < c /\ forall Js, length Js = length J0s -> (forall J, In J Js -> SPD 4 J) -> lsum (map2 (reg_term log_det) Js J0s') <= C ->
    forall J z, In J Js -> length z = 4%nat -> c * dot z z <= quad J z <= T * dot z z.
Proof.
  intros HL F. revert C. induction F as [|J0 J0' J0s J0s' (HS & HI) F IH]; intro C.
  - exists 1, 1. split; [lra|]. intros [|J Js] L; [intros _ _ J z []|discriminate].
  - destruct (IH (C - reg_term log_det J0 J0')) as (c2 & T2 & P2 & H2). destruct (reg_bound log_det J0 J0' (C - lsum (map2 (reg_term log_det) J0s J0s')) HL HS HI) as (c1 & T1 & P1 & H1).
    exists (Rmin c1 c2), (Rmax T1 T2). split; [now apply Rmin_pos|]. intros [|J Js] L HJ HC; [discriminate|]. cbn [map2] in HC.
    change (reg_term log_det J J0' + lsum (map2 (reg_term log_det) Js J0s') <= C) in HC.
    assert (L' : length Js = length J0s) by (cbn in L; lia). assert (SJ : SPD 4 J) by (apply HJ; now left). assert (SJs : forall J, In J Js -> SPD 4 J) by (intros; apply HJ; now right).
    destruct (reg_terms_min log_det Js J0s J0s' HL L' F SJs) as (M1 & _).
    destruct (reg_terms_min log_det [J] [J0] [J0'] HL eq_refl) as (M2 & _); [constructor; [auto|constructor]|intros ? [<-|[]]; auto|]. cbn in M2.
    pose proof (Rmin_l c1 c2). pose proof (Rmin_r c1 c2). pose proof (Rmax_l T1 T2). pose proof (Rmax_r T1 T2).
    intros A z HA Lz. pose proof (dot_self_nonneg z) as D. assert (Q : forall c T, c * dot z z <= quad A z <= T * dot z z -> Rmin c1 c2 <= c -> T <= Rmax T1 T2 -> Rmin c1 c2 * dot z z <= quad A z <= Rmax T1 T2 * dot z z).
    { intros c T (Q1 & Q2) Hc HT. pose proof (Rmult_le_compat_r _ _ _ D Hc). pose proof (Rmult_le_compat_r _ _ _ D HT). lra. }
    destruct HA as [<-|HA]; [apply (Q c1 T1); auto; apply H1; auto; lra|apply (Q c2 T2); auto; apply (H2 Js); auto; lra].
Qed.
Lemma reg_lsc log_det a J0' d : log_det_spec 4 log_det -> is_mat 4 4 J0' -> length a = 10%nat -> SPD 4 (Jof a) -> 0 < d ->
  exists e, 0 < e /\ forall t, length t = 10%nat -> SPD 4 (Jof t) -> near 10 e t a -> reg_term log_det (Jof a) J0' <= reg_term log_det (Jof t) J0' + d.
Proof.
  intros HL M0 La Sa Hd. assert (H4 : (0 < 4)%nat) by lia. destruct (SPD_inverse 4 H4 (Jof a) Sa) as (Y & IY). pose proof IY as (_ & MY & _).
  destruct (contR_plus 10 _ _ (contR_opp 10 _ (contR_tr Y MY)) (contR_tr J0' M0) a d La Hd) as (e & He & N). exists e. split; [auto|]. intros t Lt St Nt. specialize (N t Lt Nt).
  destruct (log_det_support 4 H4 log_det HL (Jof t) (Jof a) Y St Sa IY) as (B & _). pose proof (trace_inv_self 4 _ _ IY) as T. apply abs_le_inv in N. unfold reg_term. lra.
Qed.
Lemma reg_list_lsc log_det la J0s' d : log_det_spec 4 log_det -> length la = length J0s' -> len10 la -> (forall t, In t la -> SPD 4 (Jof t)) -> (forall A, In A J0s' -> is_mat 4 4 A) -> 0 < d ->
  exists e, 0 < e /\ forall l, len10 l -> (forall t, In t l -> SPD 4 (Jof t)) -> Forall2 (near 10 e) l la ->
    lsum (map2 (reg_term log_det) (map Jof la) J0s') <= lsum (map2 (reg_term log_det) (map Jof l) J0s') + d.
Proof.
  intros HL. revert J0s' d. induction la as [|a la IH]; intros [|J0' J0s'] d L Ta Sa M0 Hd; try discriminate.
  - exists 1. split; [lra|]. intros l _ _ F. inversion F; subst. cbn. lra.
  - apply Forall_cons_iff in Ta as (La & Ta). destruct (reg_lsc log_det a J0' (d / 2) HL) as (e1 & P1 & H1); [apply M0; now left|auto|apply Sa; now left|lra|].
    destruct (IH J0s' (d / 2)) as (e2 & P2 & H2); [cbn in L; lia|auto|intros; apply Sa; now right|intros; apply M0; now right|lra|].
    exists (Rmin e1 e2). split; [now apply Rmin_pos|]. intros l Tl Sl F. inversion F as [|t ? l' ? N F']; subst. apply Forall_cons_iff in Tl as (Lt & Tl).
    specialize (H1 t Lt (Sl t (or_introl eq_refl)) (near_le _ _ _ _ _ (Rmin_l _ _) N)). specialize (H2 l' Tl (fun x Hx => Sl x (or_intror Hx)) (F2_impl _ _ _ _ (fun u v => near_le _ _ _ u v (Rmin_r e1 e2)) F')).
    cbn [map map2]. repeat match goal with |- context [lsum (?a :: ?l)] => change (lsum (a :: l)) with (a + lsum l) end. lra.
Qed.
(** ** limits of constraints *)
Lemma psd_closed c a : length a = 10%nat -> (forall e, 0 < e -> exists t, length t = 10%nat /\ near 10 e t a /\ forall z, length z = 4%nat -> c * dot z z <= quad (Jof t) z) ->
  forall z, length z = 4%nat -> c * dot z z <= quad (Jof a) z.
Proof.
  intros La H z Lz. assert (Q : c * dot z z + - quad (Jof a) z <= 0); [|lra]. apply (limit_le 10 (fun t => c * dot z z + - quad (Jof t) z)); auto.
  - apply contR_plus; [apply contR_const|]. apply contR_opp. now apply contR_quad.
  - intros e He. destruct (H e He) as (t & Lt & Nt & Ht). exists t. split; [auto|]. split; [specialize (Ht z Lz); lra|auto].
Qed.
Lemma com_Jof s t : length t = 10%nat -> com_constraint s (Jof t) = shp_must_contain_scaled s [nth 1 t 0; nth 2 t 0; nth 3 t 0] (nth 0 t 0).
Proof.
  intros L. unfold com_constraint. f_equal; do 11 (destruct t as [|? t]; try discriminate); cbn; [list_eq; ring|ring].
Qed.
Lemma compact_limit K c : compact 3 K -> length c = 3%nat -> (forall e, 0 < e -> exists x, length x = 3%nat /\ K x /\ near 3 e x c) -> K c.
Proof. intros HK Lc H. apply (proj2 (closes_compact K HK)); auto. intros e He. destruct (H e He) as (x & A & B & C). exists x. auto. Qed.
Lemma psd_massless t : length t = 10%nat -> PSD 4 (Jof t) -> 0 <= nth 0 t 0 /\ (nth 0 t 0 = 0 -> nth 1 t 0 = 0 /\ nth 2 t 0 = 0 /\ nth 3 t 0 = 0).
Proof.
  intros L (_ & _ & HP). do 11 (destruct t as [|? t]; try discriminate). assert (Q : forall z, length z = 4%nat -> 0 <= quad (Jof [r; r0; r1; r2; r3; r4; r5; r6; r7; r8]) z) by exact HP. clear HP L.
  cbn [nth]. split; [pose proof (Q [0;0;0;1] eq_refl) as A3; cbn in A3; lra|]. intros ->.
  assert (G : forall H h, (forall y, 0 <= H + 2 * h * y) -> h = 0).
  { intros H h X. destruct (Req_dec h 0) as [|N]; [auto|]. specialize (X (- (H + 1) / (2 * h))). replace (2 * h * (- (H + 1) / (2 * h))) with (- (H + 1)) in X by (field; auto). lra. }
  split; [|split].
  - apply (G ((- r3 + r6 + r8) / 2)). intros y. pose proof (Q [1;0;0;y] eq_refl) as A. cbn in A. lra.
  - apply (G ((r3 - r6 + r8) / 2)). intros y. pose proof (Q [0;1;0;y] eq_refl) as A. cbn in A. lra.
  - apply (G ((r3 + r6 - r8) / 2)). intros y. pose proof (Q [0;0;1;y] eq_refl) as A. cbn in A. lra.
Qed.
Lemma com_closed s K a : shape_is s K -> length a = 10%nat -> PSD 4 (Jof a) ->
  (forall e, 0 < e -> exists t, length t = 10%nat /\ com_constraint s (Jof t) /\ near 10 e t a) -> com_constraint s (Jof a).
Proof.
  intros HS La Pa H. pose proof (shape_compact s K HS) as HK. destruct (psd_massless a La Pa) as (M0 & Mz). rewrite com_Jof by auto. destruct M0 as [M0|M0].
  - set (c := vscale (/ nth 0 a 0) [nth 1 a 0; nth 2 a 0; nth 3 a 0]).
    replace [nth 1 a 0; nth 2 a 0; nth 3 a 0] with (vscale (nth 0 a 0) c) by (unfold c; cbn; list_eq; field; lra).
    apply (must_contain_scaled s K c _ HS eq_refl M0). destruct (compact_cube_bound K HK) as (B & HB & Bd). apply compact_limit; [auto|reflexivity|]. intros e He.
    set (m := nth 0 a 0) in *. set (e' := Rmin (m / 2) (e * m / (1 + B))).
    assert (He' : 0 < e') by (apply Rmin_pos; [lra|]; apply Rdiv_lt_0_compat; [now apply Rmult_lt_0_compat|lra]).
    destruct (H e' He') as (t & Lt & Ct & Nt). rewrite com_Jof in Ct by auto. assert (E1 : e' <= m / 2) by apply Rmin_l. assert (E2 : e' <= e * m / (1 + B)) by apply Rmin_r.
    assert (E3 : e' * (1 + B) <= e * m) by (replace (e * m) with (e * m / (1 + B) * (1 + B)) by (field; lra); apply Rmult_le_compat_r; lra).
    pose proof (Nt 0%nat ltac:(lia)) as N0. fold m in N0. apply abs_le_inv in N0. set (mt := nth 0 t 0) in *. assert (Mt : 0 < mt) by lra.
    set (x := vscale (/ mt) [nth 1 t 0; nth 2 t 0; nth 3 t 0]).
    replace [nth 1 t 0; nth 2 t 0; nth 3 t 0] with (vscale mt x) in Ct by (unfold x; cbn; list_eq; field; lra).
    apply (must_contain_scaled s K x mt HS eq_refl Mt) in Ct. exists x. split; [reflexivity|]. split; [auto|]. intros i Hi.
    specialize (Bd x eq_refl Ct i Hi). unfold QConc.vf in Bd. apply abs_le_inv in Bd.
    assert (G : forall h ht xi, ht = mt * xi -> - B <= xi <= B -> - e' <= ht - h <= e' -> Rabs (xi - h / m) <= e).
    { intros h ht xi -> Bx Nx. replace (xi - h / m) with (((mt * xi - h) - xi * (mt - m)) * / m) by (field; lra).
      rewrite Rabs_mult, (Rabs_pos_eq (/ m)) by (left; now apply Rinv_0_lt_compat). apply Rmult_le_reg_r with m; [auto|]. rewrite Rmult_assoc, Rinv_l, Rmult_1_r by lra.
      apply Rle_trans with (e' * (1 + B)); [|lra]. assert (Rabs (xi * (mt - m)) <= B * e').
      { rewrite Rabs_mult. apply Rmult_le_compat; try apply Rabs_pos; apply Rabs_le; lra. }
      apply abs_le_inv in H0. apply Rabs_le. lra. }
    pose proof (Nt 1%nat ltac:(lia)) as N1. pose proof (Nt 2%nat ltac:(lia)) as N2. pose proof (Nt 3%nat ltac:(lia)) as N3. apply abs_le_inv in N1, N2, N3.
    unfold c, x in *. destruct i as [|[|[|i]]]; [| | |lia]; cbn [nth vscale map] in *.
    + rewrite (Rmult_comm (/ m)). apply (G _ (nth 1 t 0)); auto; field; lra.
    + rewrite (Rmult_comm (/ m)). apply (G _ (nth 2 t 0)); auto; field; lra.
    + rewrite (Rmult_comm (/ m)). apply (G _ (nth 3 t 0)); auto; field; lra.
  - destruct (Mz (eq_sym M0)) as (-> & -> & ->). rewrite <- M0. destruct (H 1 ltac:(lra)) as (t & Lt & Ct & _). rewrite com_Jof in Ct by auto.
    pose proof (must_mix s K 0 0 [nth 1 t 0; nth 2 t 0; nth 3 t 0] [nth 1 t 0; nth 2 t 0; nth 3 t 0] _ _ HS eq_refl eq_refl (Rle_refl 0) (Rle_refl 0) Ct Ct) as X. replace (0 * nth 0 t 0 + 0 * nth 0 t 0) with 0 in X by ring.
    replace (vmix 0 0 [nth 1 t 0; nth 2 t 0; nth 3 t 0] [nth 1 t 0; nth 2 t 0; nth 3 t 0]) with [0; 0; 0] in X by (unfold vmix; cbn; list_eq; ring). exact X.
Qed.
(** ** the least-squares objective *)
Definition energy (W : mat) (As : list mat) (z : vec) : R := lsum (map (fun A => quad W (mat_vec A z)) As).
Lemma contR_residual r c W A b : is_mat r r W -> is_mat r c A -> length b = r -> contR c (fun z => quad W (vsub (mat_vec A z) b)).
Proof.
  intros MW MA Lb. assert (L : forall z, length (vsub (mat_vec A z) b) = r) by (intro; rewrite vsub_length; rewrite mat_vec_length; destruct MA; lia).
  assert (C1 : contV c r (fun z => vsub (mat_vec A z) b)).
  { intros i Hi. apply contR_ext with (g := fun z => dot (nth i A []) z + - nth i b 0).
    - intros z Lz. rewrite nth_vsub by (rewrite mat_vec_length; destruct MA; lia). rewrite nth_mat_vec by (destruct MA; lia). ring.
    - apply contR_plus; [apply contR_dot_const; eapply is_mat_row; eauto|apply contR_const]. }
  unfold quad. apply (contR_dot c _ _ r); auto.
  - intros i Hi. apply contR_ext with (g := fun z => dot (nth i W []) (vsub (mat_vec A z) b)).
    + intros z Lz. now rewrite nth_mat_vec by (destruct MW; lia).
    + apply (contR_dot c (fun _ => nth i W []) (fun z => vsub (mat_vec A z) b) r); auto using contV_const. intros z _. eapply is_mat_row; eauto.
  - intros z _. rewrite mat_vec_length. apply MW.
Qed.
Lemma weight_pd r W0 : weight_ok r W0 -> is_mat r r (weight r W0) /\ pos_def r (weight r W0).
Proof. destruct W0; [auto|intros _; apply eye_weight]. Qed.
Lemma contR_fit r c W0 As bs : data_ok r c As bs -> weight_ok r W0 -> contR c (fun z => fit_error W0 As bs z).
Proof.
  intros HD HW. eapply contR_ext; [intros; now apply (weight_fit r c)|]. destruct (weight_pd r W0 HW) as (MW & _). pose proof (data_Forall2 _ _ _ _ HD) as F. unfold weighted_squares. clear HD HW.
  induction F as [|A b As bs (MA & Lb) F IH]; [apply (contR_const c 0)|]. cbn [map2]. eapply contR_ext; [intros z Lz; match goal with |- lsum (?a :: ?l) = _ => change (lsum (a :: l)) with (a + lsum l) end; reflexivity|].
  apply contR_plus; [now apply (contR_residual r)|exact IH].
Qed.
Lemma contR_energy r c W As : is_mat r r W -> (forall A, In A As -> is_mat r c A) -> contR c (fun z => energy W As z).
Proof.
  intros MW. unfold energy. induction As as [|A As IH]; intros HA; [apply (contR_const c 0)|]. cbn [map]. eapply contR_ext; [intros z Lz; match goal with |- lsum (?a :: ?l) = _ => change (lsum (a :: l)) with (a + lsum l) end; reflexivity|].
  apply contR_plus; [|apply IH; intros; apply HA; now right]. assert (MA : is_mat r c A) by (apply HA; now left).
  eapply contR_ext; [|apply (contR_residual r c W A (zeros r) MW MA (zeros_length r))]. intros z Lz. cbn beta. symmetry. apply (f_equal (quad W)). apply (vec_ext r); [rewrite vsub_length; rewrite mat_vec_length; rewrite ?zeros_length; destruct MA; lia|rewrite mat_vec_length; apply MA|].
  intros i Hi. rewrite nth_vsub by (rewrite mat_vec_length, ?zeros_length; destruct MA; lia). rewrite nth_zeros. ring.
Qed.
Lemma energy_scale W As t z : energy W As (vscale t z) = t * t * energy W As z.
Proof.
  unfold energy. induction As as [|A As IH]; [cbn; ring|]. cbn [map]. repeat match goal with |- context [lsum (?a :: ?l)] => change (lsum (a :: l)) with (a + lsum l) end. rewrite IH.
  rewrite mat_vec_vscale. unfold quad. rewrite mat_vec_vscale, dot_vscale_l, dot_vscale_r. ring.
Qed.
Lemma energy_zero r W As z : pos_def r W -> (forall A, In A As -> length A = r) -> 0 <= energy W As z /\ (energy W As z = 0 -> forall A, In A As -> mat_vec A z = zeros r).
Proof.
  intros PW HA. assert (H : forall x, In x (map (fun A => quad W (mat_vec A z)) As) -> 0 <= x).
  { intros x Hx. apply in_map_iff in Hx as (A & <- & Hi). apply (pos_def_quad r); auto. rewrite mat_vec_length. auto. }
  destruct (lsum_zero_iff _ H) as (H1 & H2). split; [exact H1|]. intros E A Hi. apply (pos_def_quad r W); auto; [rewrite mat_vec_length; auto|]. apply H2; auto. now apply (in_map (fun A => quad W (mat_vec A z))).
Qed.
Lemma energy_lower r c W As : (0 < c)%nat -> is_mat r r W -> pos_def r W -> (forall A, In A As -> is_mat r c A) -> determining c As ->
  exists mu, 0 < mu /\ forall z, length z = c -> mu * dot z z <= energy W As z.
Proof.
  intros Hc MW PW HA HD. assert (HL : forall A, In A As -> length A = r) by (intros A Hi; apply (HA A Hi)).
  destruct (compact_min c (fun z => dot z z = 1) (energy W As) 0 (sphere_compact c) (contR_energy r c W As MW HA)) as (a & La & Ea & Ha).
  - exists (1 :: zeros (c - 1)). split; [cbn; rewrite zeros_length; lia|]. unfold dot. cbn. change (1 * 1 + dot (zeros (c - 1)) (zeros (c - 1)) = 1). rewrite dot_zeros_l. ring.
  - intros z Lz _. now apply (energy_zero r).
  - destruct (energy_zero r W As a PW HL) as (N & Z). exists (energy W As a). split.
    + destruct N as [|E]; [auto|exfalso]. apply (unit_nonzero c a La Ea). apply (vec_ext c); [auto|apply zeros_length|]. intros i Hi. rewrite nth_zeros. apply HD; auto. intros A Hi' j. rewrite (Z (eq_sym E) A Hi'). apply nth_zeros.
    + intros z Lz. destruct (classic (z = zeros c)) as [->|NZ].
      * rewrite dot_zeros_l, Rmult_0_r. now apply (energy_zero r).
      * destruct (normalise c z Lz NZ) as (t & Ht & E1). specialize (Ha (vscale t z) ltac:(now rewrite vscale_length) E1). rewrite energy_scale in Ha. rewrite dot_vscale_l, dot_vscale_r in E1.
        assert (Ht2 : 0 < t * t) by (now apply Rmult_lt_0_compat). apply (Rmult_le_reg_l (t * t)); [auto|]. replace (t * t * (energy W As a * dot z z)) with (energy W As a * (t * (t * dot z z))) by ring. rewrite E1. lra.
Qed.
Lemma fit_energy r c W0 As bs x y : data_ok r c As bs -> weight_ok r W0 -> length x = c -> length y = c ->
  energy (weight r W0) As (vsub x y) <= 2 * fit_error W0 As bs x + 2 * fit_error W0 As bs y.
Proof.
  intros HD HW Lx Ly. rewrite !(weight_fit r c W0 As bs _ HD). destruct (weight_pd r W0 HW) as (MW & PW). generalize dependent (weight r W0). intros W MW PW. pose proof (data_Forall2 _ _ _ _ HD) as F. clear HD HW. unfold weighted_squares, energy.
  induction F as [|A b As bs ((LA & RA) & Hb) F IH]; [cbn; lra|]. cbn [map map2]. repeat match goal with |- context [lsum (?a :: ?l)] => change (lsum (a :: l)) with (a + lsum l) end.
  assert (L : forall z, length (mat_vec A z) = r) by (intro; rewrite mat_vec_length; exact LA).
  set (u := vsub (mat_vec A x) b). set (v := vsub (mat_vec A y) b). assert (Lu : length u = r) by (unfold u; rewrite vsub_length; rewrite L; auto). assert (Lv : length v = r) by (unfold v; rewrite vsub_length; rewrite L; auto).
  assert (E : mat_vec A (vsub x y) = vsub u v).
  { unfold u, v. rewrite mat_vec_vsub by congruence. pose proof (L x) as Lx'. pose proof (L y) as Ly'. apply (vec_ext r); [len|len|]. intros i Hi. rewrite !nth_vsub by len. ring. }
  rewrite E. pose proof (quad_vmix r W (/ 2) (/ 2) u v MW Lu Lv ltac:(lra)) as Q. destruct (pos_def_quad r W (vmix (/ 2) (/ 2) u v) PW) as (Q0 & _); [rewrite vmix_length; congruence|]. lra.
Qed.
Lemma near_closeJ e t a : length t = 10%nat -> length a = 10%nat -> near 10 e t a -> closeJ (2 * e) (Jof t) (Jof a).
Proof.
  intros Lt La N. assert (He : 0 <= e) by (pose proof (N 0%nat ltac:(lia)); pose proof (Rabs_pos (nth 0 t 0 - nth 0 a 0)); lra).
  pose proof (N 0%nat ltac:(lia)) as N0. pose proof (N 1%nat ltac:(lia)) as N1. pose proof (N 2%nat ltac:(lia)) as N2. pose proof (N 3%nat ltac:(lia)) as N3. pose proof (N 4%nat ltac:(lia)) as N4.
  pose proof (N 5%nat ltac:(lia)) as N5. pose proof (N 6%nat ltac:(lia)) as N6. pose proof (N 7%nat ltac:(lia)) as N7. pose proof (N 8%nat ltac:(lia)) as N8. pose proof (N 9%nat ltac:(lia)) as N9. clear N.
  do 11 (destruct t as [|? t]; try discriminate). do 11 (destruct a as [|? a]; try discriminate). cbn [nth] in *. apply abs_le_inv in N0, N1, N2, N3, N4, N5, N6, N7, N8, N9.
  intros i j Hi Hj. apply Rabs_le. destruct i as [|[|[|[|i]]]]; [| | | |lia]; (destruct j as [|[|[|[|j]]]]; [| | | |lia]); unfold entry; cbn; lra.
Qed.
(** ** feasible parameters in terms of the vectors *)
Lemma F2_nth {A B : Type} (P : A -> B -> Prop) da db l m i : Forall2 P l m -> (i < length l)%nat -> P (nth i l da) (nth i m db).
Proof. intro F. revert i. induction F as [|a b l m H F IH]; intros i Hi; [cbn in Hi; lia|]. destruct i; [exact H|]. apply IH. cbn in Hi. lia. Qed.
Lemma mapM_Jof l : len10 l -> mapM pim_must_equal_vec l = Ok (map Jof l).
Proof. intro T. apply mapM_Forall2. induction T as [|t l L T IH]; constructor; auto. now apply Jof_ok. Qed.
Lemma feasible_Jof ut P bodies mr coms l : 0 <= id_eps P -> Forall (body_ok mr) bodies -> (forall cs, coms = Some cs -> length cs = length bodies) -> length l = length bodies -> len10 l ->
  (id_feasible ut P bodies mr coms l <->
    (0 < id_gamma P -> forall t, In t l -> SPD 4 (Jof t)) /\
    (forall t z, In t l -> length z = 4%nat -> id_eps P * dot z z <= quad (Jof t) z) /\
    (mr = true -> Forall2 (fun b t => accepts (rb_moment_sdp_constraints ut b (PVmat (Jof t)) 0 2)) bodies l) /\
    (forall cs, coms = Some cs -> Forall2 (fun s t => com_constraint s (Jof t)) cs l)).
Proof.
  intros He HB HC L T. destruct (feasible_inv ut P bodies mr coms l He HB L T) as (Js & F & MJ & I).
  assert (Js = map Jof l) as ->. { apply mapM_Forall2 in F. rewrite mapM_Jof in F by auto. now injection F as <-. }
  rewrite I. clear I F. rewrite Forall_forall in T.
  assert (I1 : id_domain P l <-> (0 < id_gamma P -> forall t, In t l -> SPD 4 (Jof t))).
  { split.
    - intros H G t Ht. destruct (Jof_ok t (T t Ht)) as (E & M & S). split; [auto|]. split; [auto|]. apply (H G t _ Ht E).
    - intros H G t J Ht E. destruct (Jof_ok t (T t Ht)) as (E' & _). rewrite E in E'. injection E' as ->. apply (H G t Ht). }
  assert (I2 : Forall (fun J => PSD 4 (msub J (mscale (id_eps P) (eye 4)))) (map Jof l) <-> (forall t z, In t l -> length z = 4%nat -> id_eps P * dot z z <= quad (Jof t) z)).
  { rewrite Forall_map, Forall_forall. split.
    - intros H t z Ht Lz. destruct (H t Ht) as (_ & _ & Q). specialize (Q z Lz). destruct (Jof_ok t (T t Ht)) as (_ & M & _). rewrite (quad_msub 4 4), quad_mscale, (quad_eye 4) in Q by (auto; apply is_mat_mscale, is_mat_eye). lra.
    - intros H t Ht. destruct (Jof_ok t (T t Ht)) as (_ & M & S). destruct (sub_eye_ok (id_eps P) (Jof t) M S) as (M' & S'). split; [auto|]. split; [auto|]. intros z Lz.
      rewrite (quad_msub 4 4), quad_mscale, (quad_eye 4) by (auto; apply is_mat_mscale, is_mat_eye). specialize (H t z Ht Lz). lra. }
  assert (I3 : Forall2 (fun b J => accepts (rb_moment_sdp_constraints ut b (PVmat J) 0 2)) bodies (map Jof l) <-> Forall2 (fun b t => accepts (rb_moment_sdp_constraints ut b (PVmat (Jof t)) 0 2)) bodies l).
  { clear. revert bodies. induction l as [|t l IH]; intros [|b bodies]; cbn [map]; (split; intro H; inversion H; subst; constructor; auto; now apply IH). }
  assert (I4 : forall cs, length cs = length l -> Forall (fun sJ => com_constraint (fst sJ) (snd sJ)) (combine cs (map Jof l)) <-> Forall2 (fun s t => com_constraint s (Jof t)) cs l).
  { clear. induction l as [|t l IH]; intros [|s cs] E; try discriminate; cbn [map combine]; [split; constructor|]. rewrite Forall_cons_iff. specialize (IH cs ltac:(cbn in E; lia)). split; [intros (H1 & H2); constructor; [auto|now apply IH]|intro H; inversion H; subst; split; [auto|now apply IH]]. }
  rewrite I1, I2, I3. split; intros (A & B & C & D); (split; [exact A|]; split; [exact B|]; split; [exact C|]); intros cs E; specialize (D cs E); apply I4; auto; rewrite (HC cs E); auto.
Qed.
(** the parameters accepted by the realizability constraints of the bodies are closed under limits *)
Definition realize_closed (ut mr : bool) (bodies : list Body) : Prop := mr = true -> forall b J, In b bodies -> is_mat 4 4 J -> symmetric 4 J ->
  (forall e, 0 < e -> exists J', closeJ e J' J /\ is_mat 4 4 J' /\ symmetric 4 J' /\ accepts (rb_moment_sdp_constraints ut b (PVmat J') 0 2)) -> accepts (rb_moment_sdp_constraints ut b (PVmat J) 0 2).
Lemma entries_bounded (l : list vec) : exists B, forall t i, In t l -> Rabs (nth i t 0) <= B.
Proof.
  assert (V : forall t : vec, exists B, 0 <= B /\ forall i, Rabs (nth i t 0) <= B).
  { induction t as [|x t (B & B0 & H)]; [exists 0; split; [lra|]; intro i; destruct i; cbn; rewrite Rabs_R0; lra|]. exists (Rmax (Rabs x) B). pose proof (Rmax_l (Rabs x) B). pose proof (Rmax_r (Rabs x) B). split; [lra|].
    intros [|i]; cbn [nth]; [lra|]. specialize (H i). lra. }
  induction l as [|t l (B & H)]; [exists 0; intros t i []|]. destruct (V t) as (B' & _ & H'). exists (Rmax B' B). pose proof (Rmax_l B' B). pose proof (Rmax_r B' B). intros u i [<-|Hu]; [specialize (H' i)|specialize (H u i Hu)]; lra.
Qed.
Lemma trace_quads t : length t = 10%nat -> trace (Jof t) = quad (Jof t) [1;0;0;0] + quad (Jof t) [0;1;0;0] + quad (Jof t) [0;0;1;0] + quad (Jof t) [0;0;0;1].
Proof. intros L. do 11 (destruct t as [|? t]; try discriminate). cbn. ring. Qed.
Section Min.
Context (ut : bool) (log_det : mat -> R) (inv : mat -> res mat) (r : nat) (P : IdProblem) (bodies : list Body) (mr : bool) (coms : option (list shp)).
Hypothesis HLD : log_det_spec 4 log_det.
Hypothesis Hg : 0 <= id_gamma P.
Hypothesis He : 0 <= id_eps P.
Hypothesis HD : data_ok r (10 * length bodies) (id_As P) (id_bs P).
Hypothesis HW : weight_ok r (id_W0 P).
Hypothesis HN : 0 < id_gamma P -> forall b, In b bodies -> nominal_ok inv (ip_J (bd_params b)).
Hypothesis HB : Forall (body_ok mr) bodies.
Hypothesis HC : forall c, coms = Some c -> length c = length bodies /\ shapes_ok c.
Hypothesis HR : realize_closed ut mr bodies.
Let C := id_feasible ut P bodies mr coms.
Let fit l := fit_error (id_W0 P) (id_As P) (id_bs P) (concat l).
Let k := 1 / 2 / INR (length (id_As P)).
Lemma C_len l : C l -> length l = length bodies /\ len10 l.
Proof. intros (A & B & _). auto. Qed.
Lemma C_iff l : length l = length bodies -> len10 l -> (C l <->
    (0 < id_gamma P -> forall t, In t l -> SPD 4 (Jof t)) /\
    (forall t z, In t l -> length z = 4%nat -> id_eps P * dot z z <= quad (Jof t) z) /\
    (mr = true -> Forall2 (fun b t => accepts (rb_moment_sdp_constraints ut b (PVmat (Jof t)) 0 2)) bodies l) /\
    (forall cs, coms = Some cs -> Forall2 (fun s t => com_constraint s (Jof t)) cs l)).
Proof. intros. apply feasible_Jof; auto. intros cs E. now apply HC. Qed.
Lemma fit_pos l : C l -> 0 <= fit l.
Proof. intros H. apply C_len in H as (L & T). destruct (lso_ok r _ _ _ (id_W0 P) l HD HW (concat10 _ _ T L)) as (v & -> & _ & H & _). exact H. Qed.
Lemma k_pos : 0 < k.
Proof. exact (no_pos _ _ _ _ HD). Qed.
Lemma C_psd l t : C l -> In t l -> PSD 4 (Jof t).
Proof.
  intros H Ht. destruct (C_len l H) as (L & T). apply C_iff in H as (_ & H & _); auto. rewrite Forall_forall in T. destruct (Jof_ok t (T t Ht)) as (_ & M & S). split; [auto|]. split; [auto|]. intros z Lz. specialize (H t z Ht Lz).
  pose proof (dot_self_nonneg z). pose proof (Rmult_le_pos _ _ He H0). lra.
Qed.
(** the limit of feasible parameters whose matrices stay above c is feasible *)
Lemma C_closed c a : length a = length bodies -> len10 a -> (0 < id_gamma P -> 0 < c) ->
  (forall e, 0 < e -> exists l, C l /\ (0 < id_gamma P -> forall t z, In t l -> length z = 4%nat -> c * dot z z <= quad (Jof t) z) /\ Forall2 (near 10 e) l a) -> C a.
Proof.
  intros La Ta Hc H.
  assert (Lim : forall i, (i < length bodies)%nat -> forall e, 0 < e -> exists l, C l /\ length l = length bodies /\ len10 l /\ (0 < id_gamma P -> forall t z, In t l -> length z = 4%nat -> c * dot z z <= quad (Jof t) z) /\
    length (nth i l []) = 10%nat /\ In (nth i l []) l /\ near 10 e (nth i l []) (nth i a [])).
  { intros i Hi e Hpe. destruct (H e Hpe) as (l & Cl & Ql & N). exists l. destruct (C_len l Cl) as (Ll & Tl). split; [auto|]. split; [auto|]. split; [auto|]. split; [auto|].
    assert (Ii : In (nth i l []) l) by (apply nth_In; lia). rewrite Forall_forall in Tl. split; [auto|]. split; [auto|]. apply (F2_nth _ [] [] l a i N). lia. }
  assert (La' : forall i, (i < length bodies)%nat -> length (nth i a []) = 10%nat) by (intros i Hi; rewrite Forall_forall in Ta; apply Ta, nth_In; lia).
  assert (PS : forall i z, (i < length bodies)%nat -> length z = 4%nat -> id_eps P * dot z z <= quad (Jof (nth i a [])) z).
  { intros i z Hi Lz. apply psd_closed; auto. intros e Hpe. destruct (Lim i Hi e Hpe) as (l & Cl & Ll & Tl & _ & Ln & In' & N). exists (nth i l []). split; [auto|]. split; [auto|]. intros z' Lz'. apply C_iff in Cl as (_ & Q & _); auto. }
  assert (PA : forall i, (i < length bodies)%nat -> PSD 4 (Jof (nth i a []))).
  { intros i Hi. destruct (Jof_ok _ (La' i Hi)) as (_ & M & S). split; [auto|]. split; [auto|]. intros z Lz. specialize (PS i z Hi Lz). pose proof (Rmult_le_pos _ _ He (dot_self_nonneg z)). lra. }
  assert (EI : forall t, In t a -> exists i, (i < length bodies)%nat /\ t = nth i a []) by (intros t Ht; apply (In_nth _ _ []) in Ht as (i & Hi & <-); exists i; split; [lia|auto]).
  apply C_iff; auto. split; [|split; [|split]].
  - intros G t Ht. destruct (EI t Ht) as (i & Hi & ->). destruct (PA i Hi) as (M & S & _). split; [auto|]. split; [auto|]. intros z Lz Nz.
    assert (Q : c * dot z z <= quad (Jof (nth i a [])) z).
    { apply psd_closed; auto. intros e Hpe. destruct (Lim i Hi e Hpe) as (l & Cl & Ll & Tl & Q & Ln & In' & N). exists (nth i l []). split; [auto|]. split; [auto|]. intros z' Lz'. now apply Q. }
    assert (0 < dot z z). { destruct (dot_self_nonneg z) as [|E]; [auto|]. exfalso. apply Nz. symmetry in E. apply dot_self_zero in E. congruence. }
    pose proof (Rmult_lt_0_compat _ _ (Hc G) H0). lra.
  - intros t z Ht Lz. destruct (EI t Ht) as (i & Hi & ->). now apply PS.
  - intros Emr. assert (X0 : bodies = [] \/ exists b0 : Body, True) by (generalize bodies as bb; intros [|b0 bb]; eauto). destruct X0 as [X0|(b0 & _)]; [rewrite X0 in *; destruct a; [constructor|discriminate]|]. apply (Forall2_nth_intro _ b0 []); [auto|]. intros i Hi. destruct (PA i Hi) as (M & S & _). apply HR; auto; [now apply nth_In|].
    intros e Hpe. destruct (Lim i Hi (e / 2) ltac:(lra)) as (l & Cl & Ll & Tl & Q & Ln & In' & N). exists (Jof (nth i l [])). destruct (Jof_ok _ Ln) as (_ & M' & S').
    split; [|split; [auto|split; [auto|]]]. { replace e with (2 * (e / 2)) by field. apply near_closeJ; auto. }
    apply C_iff in Cl as (_ & _ & X & _); auto. exact (F2_nth _ b0 [] bodies l i (X Emr) Hi).
  - intros cs E. destruct (HC cs E) as (Lc & Ks & HK). assert (X0 : cs = [] \/ exists s0 : shp, True) by (generalize cs as bb; intros [|b0 bb]; eauto). destruct X0 as [X0|(s0 & _)]; [rewrite X0 in *; destruct a; [constructor|cbn in Lc; rewrite <- La in Lc; discriminate]|].
    apply (Forall2_nth_intro _ s0 []); [congruence|]. intros i Hi. pose proof (F2_nth _ s0 (fun _ => True) cs Ks i HK Hi) as HS. rewrite Lc in Hi.
    apply (com_closed _ _ _ HS); auto. intros e Hpe. destruct (Lim i Hi e Hpe) as (l & Cl & Ll & Tl & Q & Ln & In' & N). exists (nth i l []). split; [auto|]. split; [|auto].
    apply C_iff in Cl as (_ & _ & _ & X); auto. apply (F2_nth _ s0 [] cs l i (X cs E)). lia.
Qed.
Lemma fit_lsc a d : length a = length bodies -> len10 a -> 0 < d -> exists e, 0 < e /\ forall l, C l -> Forall2 (near 10 e) l a -> fit a <= fit l + d.
Proof.
  intros La Ta Hd. destruct (contR_fit r _ _ _ _ HD HW (concat a) d (concat10 _ _ Ta La) Hd) as (e & Hpe & N). exists e. split; [auto|]. intros l Cl Nl. destruct (C_len l Cl) as (Ll & Tl).
  specialize (N (concat l) (concat10 _ _ Tl Ll)). apply near_concat in Nl; auto; [|congruence]. rewrite Ll in Nl. specialize (N Nl). apply abs_le_inv in N. unfold fit. lra.
Qed.
(** without the regularizer *)
Lemma exists_plain l0 : id_gamma P <= 0 -> determining (10 * length bodies) (id_As P) -> C l0 -> exists a, optimal (id_cost log_det inv P bodies) C a.
Proof.
  intros G Det C0. assert (cost : forall l, C l -> id_cost log_det inv P bodies l = Ok (k * fit l)).
  { intros l Cl. destruct (C_len l Cl) as (L & T). destruct (id_cost_ok log_det inv P bodies l r HD HW L T HN) as (v & Js & V & _ & _ & _ & A & _). unfold fit. rewrite <- V. now apply A. }
  destruct (weight_pd r (id_W0 P) HW) as (MW & PW). pose proof HD as (_ & Pc & _ & _ & MA & _).
  destruct (energy_lower r _ (weight r (id_W0 P)) (id_As P) Pc MW PW MA Det) as (mu & Hmu & Hlow). destruct (entries_bounded l0) as (B0 & HB0). destruct (C_len l0 C0) as (L0 & T0).
  set (B1 := sqrt (4 * fit l0 / mu)).
  destruct (min_list (length bodies) C fit 0 (B0 + B1) l0 C_len C0) as (a & Ca & Ha).
  - intros l Cl Fl. split; [now apply fit_pos|]. destruct (C_len l Cl) as (L & T).
    assert (Lx : length (vsub (concat l) (concat l0)) = (10 * length bodies)%nat) by (rewrite vsub_length; rewrite (concat10 l _ T L); auto; rewrite (concat10 l0 _ T0 L0); auto).
    assert (N : near (10 * length bodies) B1 (concat l) (concat l0)).
    { intros i Hi. rewrite <- nth_vsub by (rewrite (concat10 l _ T L), (concat10 l0 _ T0 L0); auto). apply Rle_trans with (norm (vsub (concat l) (concat l0))); [apply abs_nth_le_norm|].
      unfold norm, B1. apply sqrt_le_1_alt. pose proof (Hlow _ Lx) as H1. pose proof (fit_energy r _ (id_W0 P) _ _ (concat l) (concat l0) HD HW (concat10 l _ T L) (concat10 l0 _ T0 L0)) as H2. fold (fit l) in H2. fold (fit l0) in H2.
      apply (Rmult_le_reg_l mu); [auto|]. replace (mu * (4 * fit l0 / mu)) with (4 * fit l0) by (field; lra). lra. }
    rewrite <- L in N at 1. apply near_concat in N; auto; [|congruence]. clearbody B1. clear - N HB0. induction N as [|t u l l0 H N IH]; constructor.
    + intros i Hi. specialize (H i Hi). specialize (HB0 u i (or_introl eq_refl)). apply abs_le_inv in H, HB0. apply Rabs_le. lra.
    + apply IH. intros. apply HB0. now right.
  - intros a La Ta H. split.
    + apply (C_closed 1); auto; [lra|]. intros e Hpe. destruct (H e Hpe) as (l & A1 & A2 & A3). exists l. split; [auto|]. split; [lra|auto].
    + intros d Hd. destruct (fit_lsc a d La Ta Hd) as (e & Hpe & N). exists e. split; [auto|]. intros l Cl _ Nl. now apply N.
  - exists a. split; [auto|]. intros y c Cy Ey. rewrite cost in Ey by auto. injection Ey as <-. exists (k * fit a). split; [now apply cost|]. apply Rmult_le_compat_l; [apply Rlt_le, k_pos|now apply Ha].
Qed.
Lemma exists_regularized l0 : 0 < id_gamma P -> C l0 -> exists a, optimal (id_cost log_det inv P bodies) C a.
Proof.
  intros G C0. set (J0s := map (fun b => ip_J (bd_params b)) bodies).
  assert (H0 : forall J, In J J0s -> nominal_ok inv J) by (intros J HJ; apply in_map_iff in HJ as (b & <- & Hb); auto).
  destruct (nominal_list inv J0s H0) as (J0s' & F1 & F2). assert (L0s : length J0s = length bodies) by apply map_length. pose proof (IdentifyP.Forall2_len _ _ _ F2) as L0s'.
  assert (NB : bodies <> []) by (intros Eb; destruct HD as (_ & X & _); rewrite Eb in X; cbn in X; lia).
  set (reg := fun l => lsum (map2 (reg_term log_det) (map Jof l) J0s')). set (f := fun l => k * fit l + id_gamma P * reg l).
  assert (SP : forall l, C l -> forall J, In J (map Jof l) -> SPD 4 J).
  { intros l Cl J HJ. apply in_map_iff in HJ as (t & <- & Ht). destruct (C_len l Cl) as (L & T). apply C_iff in Cl as (X & _); auto. }
  assert (cost : forall l, C l -> id_cost log_det inv P bodies l = Ok (f l)).
  { intros l Cl. destruct (C_len l Cl) as (L & T). destruct (id_cost_ok log_det inv P bodies l r HD HW L T HN) as (v & Js & V & _ & _ & EJ & _ & A). destruct (A G) as (g & Eg & ->). unfold f, fit. rewrite <- V.
    rewrite mapM_Jof in EJ by auto. injection EJ as <-. fold J0s in Eg. rewrite (reg_value log_det inv _ _ J0s') in Eg; auto.
    - injection Eg as <-. reflexivity.
    - intros E. apply NB. apply map_eq_nil in E. rewrite E in L. apply length_zero_iff_nil. now symmetry.
    - rewrite map_length. congruence.
    - intros J HJ. now apply (SP l).
    - intros J HJ. apply H0; auto. }
  destruct (reg_list_bound log_det J0s J0s' (f l0 / id_gamma P) HLD F2) as (c & T & Pc & HT).
  assert (KF : forall l, C l -> 0 <= k * fit l) by (intros l Cl; apply Rmult_le_pos; [apply Rlt_le, k_pos|now apply fit_pos]).
  assert (Bd : forall l, C l -> f l <= f l0 -> forall t z, In t l -> length z = 4%nat -> c * dot z z <= quad (Jof t) z <= T * dot z z).
  { intros l Cl Fl t z Ht Lz. destruct (C_len l Cl) as (L & Tl). apply (HT (map Jof l)); auto; [rewrite map_length; congruence|now apply SP| |now apply in_map].
    fold (reg l). specialize (KF l Cl). apply (Rmult_le_reg_l (id_gamma P)); [auto|]. replace (id_gamma P * (f l0 / id_gamma P)) with (f l0) by (field; lra). unfold f in Fl at 1. lra. }
  destruct (min_list (length bodies) C f (id_gamma P * lsum (map2 (reg_term log_det) J0s J0s')) (4 * T) l0 C_len C0) as (a & Ca & Ha).
  - intros l Cl Fl. destruct (C_len l Cl) as (L & Tl). split.
    + destruct (reg_terms_min log_det (map Jof l) J0s J0s' HLD) as (M & _); auto; [rewrite map_length; congruence|now apply SP|]. fold (reg l) in M. pose proof (Rmult_le_compat_l _ _ _ Hg M). specialize (KF l Cl). unfold f. lra.
    + apply Forall_forall. intros t Ht i Hi. assert (Lt : length t = 10%nat) by (rewrite Forall_forall in Tl; auto). eapply Rle_trans; [apply theta_bound; auto; now apply (C_psd l)|]. rewrite trace_quads by auto.
      pose proof (Bd l Cl Fl t) as Q. pose proof (Q [1;0;0;0] Ht eq_refl) as Q1. pose proof (Q [0;1;0;0] Ht eq_refl) as Q2. pose proof (Q [0;0;1;0] Ht eq_refl) as Q3. pose proof (Q [0;0;0;1] Ht eq_refl) as Q4.
      replace (dot [1;0;0;0] [1;0;0;0]) with 1 in Q1 by (cbn; ring). replace (dot [0;1;0;0] [0;1;0;0]) with 1 in Q2 by (cbn; ring). replace (dot [0;0;1;0] [0;0;1;0]) with 1 in Q3 by (cbn; ring). replace (dot [0;0;0;1] [0;0;0;1]) with 1 in Q4 by (cbn; ring). lra.
  - intros a La Ta H. assert (Ca : C a).
    { apply (C_closed c); auto. intros e Hpe. destruct (H e Hpe) as (l & A1 & A2 & A3). exists l. split; [auto|]. split; [|auto]. intros _ t z Ht Lz. now apply (Bd l). }
    split; [exact Ca|]. intros d Hd. pose proof k_pos as Pk.
    destruct (fit_lsc a (d / 2 / k) La Ta) as (e1 & P1 & N1); [apply Rdiv_lt_0_compat; lra|].
    destruct (reg_list_lsc log_det a J0s' (d / 2 / id_gamma P) HLD) as (e2 & P2 & N2); [congruence|auto|intros t Ht; apply (SP a Ca); now apply in_map| |apply Rdiv_lt_0_compat; lra|].
    { intros A HA. destruct (Forall2_in_r _ _ _ _ F2 HA) as (J0 & _ & _ & HI). apply HI. }
    exists (Rmin e1 e2). split; [now apply Rmin_pos|]. intros l Cl _ Nl. destruct (C_len l Cl) as (L & Tl).
    specialize (N1 l Cl (F2_impl _ _ _ _ (fun u v => near_le _ _ _ u v (Rmin_l e1 e2)) Nl)). specialize (N2 l Tl (fun t Ht => SP l Cl _ (in_map Jof l t Ht)) (F2_impl _ _ _ _ (fun u v => near_le _ _ _ u v (Rmin_r e1 e2)) Nl)).
    fold (reg a) in N2. fold (reg l) in N2. pose proof (Rmult_le_compat_l _ _ _ (Rlt_le _ _ Pk) N1) as M1. pose proof (Rmult_le_compat_l _ _ _ Hg N2) as M2.
    replace (k * (fit l + d / 2 / k)) with (k * fit l + d / 2) in M1 by (field; lra). replace (id_gamma P * (reg l + d / 2 / id_gamma P)) with (id_gamma P * reg l + d / 2) in M2 by (field; lra). unfold f. lra.
  - exists a. split; [auto|]. intros y v Cy Ey. rewrite cost in Ey by auto. injection Ey as <-. exists (f a). split; [now apply cost|now apply Ha].
Qed.
End Min.
