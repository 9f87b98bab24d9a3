(** Distance between positive definite matrices. *)
From Verif Require Import Base.Vec Base.VecFacts Model.Geodesic Model.Util Model.Inertial Spec.Basic Spec.Objects Spec.Shapes Spec.Geodesic
  Proofs.LinAlg Proofs.BoxP Proofs.Spectral Proofs.MatAlg Proofs.Coord Proofs.Dynamics Proofs.InertialT.

Section S.
Context (n : nat) (Hn : (0 < n)%nat).
Local Notation M := (is_mat n n).
#[local] Hint Resolve mm_ok tr_ok dg_ok is_mat_eye : mat.
Ltac mok := auto with mat.
Local Notation mm_assoc := (MatAlg.mm_assoc n Hn).
Local Notation mm_eye_l := (MatAlg.mm_eye_l n Hn).
Local Notation mm_eye_r := (MatAlg.mm_eye_r n Hn).
Local Notation tr_tr := (MatAlg.tr_tr n Hn).
Local Notation tr_mm := (MatAlg.tr_mm n Hn).
Local Notation tr_dg := (MatAlg.tr_dg n Hn).
Local Notation entry_mm := (MatAlg.entry_mm n Hn).
Local Notation entry_dg_l := (MatAlg.entry_dg_l n Hn).
Local Notation entry_dg_r := (MatAlg.entry_dg_r n Hn).
Local Notation dg_mul := (MatAlg.dg_mul n Hn).
Local Notation dg_ones := (MatAlg.dg_ones n Hn).
Local Notation inv_cancel_l := (MatAlg.inv_cancel_l n Hn).
Local Notation inv_cancel_r := (MatAlg.inv_cancel_r n Hn).
Local Notation inv_mul := (MatAlg.inv_mul n Hn).
Local Notation inv_unique := (MatAlg.inv_unique n Hn).
Local Notation inv_orth := (MatAlg.inv_orth n Hn).
Local Notation inv_dg := (MatAlg.inv_dg n Hn).
Local Notation inv_tr := (MatAlg.inv_tr n Hn).
Local Notation inv_sym := (MatAlg.inv_sym n).

Lemma pos_nth w i : length w = n -> all_pos w -> (i < n)%nat -> 0 < nth i w 0.
Proof. intros L H Hi. apply H, nth_In. lia. Qed.

Lemma congr_ok G w : M G -> length w = n -> M (congruent G w).
Proof. intros. unfold congruent. mok. Qed.

(** the form of a congruent matrix *)
Lemma quad_congruent G w y : M G -> length w = n -> length y = n ->
  quad (congruent G w) y = rsum n (fun i => nth i w 0 * (nth i (mat_vec (transpose G) y) 0) ^ 2).
Proof.
  intros HG Hw Hy. unfold congruent. rewrite (quad_congr n n) by (auto using dg_ok).
  rewrite vec_mat_mat_vec. set (z := mat_vec (transpose G) y).
  assert (Hz : length z = n) by (unfold z; rewrite mat_vec_length, transpose_length; eapply is_mat_ncols; eauto).
  unfold quad. rewrite mat_vec_diag by lia. rewrite (dot_rsum n) by (rewrite ?vmul_length; lia).
  apply rsum_ext. intros i Hi. rewrite nth_vmul by lia. ring.
Qed.

Lemma eigh_congruent A w V : M A -> eigh_spec n A (w, V) -> A = congruent V w.
Proof.
  intros HA (Hw & HV & E). cbn [fst snd] in *. pose proof HV as (HVm & _ & H2).
  unfold congruent. rewrite <- E. symmetry. apply inv_cancel_r; auto. now apply inv_orth.
Qed.

Lemma congruent_sym G w : M G -> length w = n -> transpose (congruent G w) = congruent G w.
Proof.
  intros HG Hw. unfold congruent. rewrite tr_mm, tr_tr, tr_mm, tr_dg by mok. symmetry. apply mm_assoc; mok.
Qed.

Lemma unit_vec i : (i < n)%nat -> exists e, length e = n /\ forall k, nth k e 0 = if Nat.eqb k i then 1 else 0.
Proof.
  intros Hi. exists (map (fun k => if Nat.eqb k i then 1 else 0) (seq 0 n)). split; [now rewrite map_length, seq_length|].
  intros k. destruct (Nat.lt_ge_cases k n) as [H|H]; [now rewrite nth_map_seq|].
  rewrite nth_overflow by (rewrite map_length, seq_length; lia). destruct (Nat.eqb_spec k i); [lia|reflexivity].
Qed.

(** positive entries from a positive form, through an invertible G *)
Lemma congruent_pos G G' w : inverse n G G' -> length w = n ->
  (forall x, length x = n -> x <> zeros n -> 0 < quad (congruent G w) x) -> all_pos w.
Proof.
  intros IG Hw H x Hx. destruct (In_nth w x 0 Hx) as (i & Hi & <-). rewrite Hw in Hi.
  pose proof IG as (HG & HG' & _ & _). pose proof (inv_tr _ _ IG) as IT. pose proof IT as (HT & HT' & T1 & T2).
  destruct (unit_vec i Hi) as (e & He & Ee).
  set (y := mat_vec (transpose G') e).
  assert (Hy : length y = n) by (unfold y; rewrite mat_vec_length; eapply is_mat_length; eauto).
  assert (Ey : mat_vec (transpose G) y = e).
  { unfold y. rewrite <- (mat_vec_mat_mul n n n) by auto. rewrite T1. now apply mat_vec_eye. }
  assert (Q : quad (congruent G w) y = nth i w 0).
  { rewrite quad_congruent by auto. rewrite Ey.
    rewrite (rsum_ext n _ (fun k => if Nat.eqb k i then nth k w 0 else 0)).
    - now rewrite rsum_delta.
    - intros k Hk. rewrite Ee. destruct (Nat.eqb k i); ring. }
  rewrite <- Q. apply H; auto. intros Z. assert (E0 : e = zeros n).
  { rewrite <- Ey, Z, mat_vec_zeros. f_equal. eapply is_mat_length; eauto. }
  assert (F : nth i e 0 = 1) by (rewrite Ee, Nat.eqb_refl; reflexivity). rewrite E0, nth_zeros in F. lra.
Qed.
Lemma congruent_SPD G G' w : inverse n G G' -> length w = n -> all_pos w -> SPD n (congruent G w).
Proof.
  intros IG Hw HP. pose proof IG as (HG & HG' & _ & _). split; [now apply congr_ok|]. split.
  - apply sym_transpose; auto using congr_ok. now apply congruent_sym.
  - intros x Hx Hx0. rewrite quad_congruent by auto. set (z := mat_vec (transpose G) x).
    assert (P : forall i, (i < n)%nat -> 0 <= nth i w 0 * nth i z 0 ^ 2).
    { intros i Hi. apply Rmult_le_pos; [left; now apply pos_nth|apply pow2_ge_0]. }
    destruct (Req_dec (rsum n (fun i => nth i w 0 * nth i z 0 ^ 2)) 0) as [Z|Z]; [|pose proof (rsum_nonneg _ _ P); lra].
    exfalso. apply Hx0. apply (inv_kernel n _ _ x (inv_tr _ _ IG) Hx). fold z.
    apply (vec_ext n); [unfold z; rewrite mat_vec_length, transpose_length; eapply is_mat_ncols; eauto|apply zeros_length|].
    intros i Hi. rewrite nth_zeros. pose proof (rsum_nonneg_zero _ _ P Z i Hi) as W. pose proof (pos_nth w i Hw HP Hi).
    apply Rmult_integral in W. destruct W as [W|W]; [lra|]. cbn in W. nra.
Qed.

(** square roots of the entries *)
Lemma dg_sqrt w : length w = n -> all_pos w -> mat_mul (diag (map sqrt w)) (diag (map sqrt w)) = diag w.
Proof.
  intros Hw HP. rewrite dg_mul by (auto; now rewrite map_length). f_equal.
  apply (vec_ext n); auto; [rewrite vmul_length; now rewrite map_length|]. intros i Hi.
  rewrite nth_vmul by auto. rewrite nth_map_in by lia. apply sqrt_sqrt. left. now apply pos_nth.
Qed.
Lemma inv_dg_pos w : length w = n -> all_pos w -> inverse n (diag w) (diag (map Rinv w)).
Proof. intros Hw HP. apply inv_dg; auto. intros i Hi. pose proof (pos_nth w i Hw HP Hi). lra. Qed.
Lemma sqrt_pos w : all_pos w -> all_pos (map sqrt w).
Proof. intros H x Hx. apply in_map_iff in Hx. destruct Hx as (y & <- & Hy). apply sqrt_lt_R0. auto. Qed.
Lemma inv_pos w : all_pos w -> all_pos (map Rinv w).
Proof. intros H x Hx. apply in_map_iff in Hx. destruct Hx as (y & <- & Hy). apply Rinv_0_lt_compat. auto. Qed.

Lemma SPD_factor A : SPD n A -> exists G G', inverse n G G' /\ A = mat_mul G (transpose G).
Proof.
  intros (HA & HS & HP). destruct (spectral n A Hn HA HS) as ([w V] & HE).
  pose proof HE as (Hw & HV & _). cbn [fst snd] in *. pose proof (eigh_congruent A w V HA HE) as EA.
  assert (Hpos : all_pos w) by (apply (congruent_pos V (transpose V)); auto; [now apply inv_orth|now rewrite <- EA]).
  assert (Ls : length (map sqrt w) = n) by now rewrite map_length.
  exists (mat_mul V (diag (map sqrt w))), (mat_mul (diag (map Rinv (map sqrt w))) (transpose V)). split.
  - apply inv_mul; auto; [now apply inv_orth|]. apply inv_dg_pos; auto. now apply sqrt_pos.
  - pose proof HV as (HVm & _). rewrite tr_mm, tr_dg by mok. rewrite <- mm_assoc by mok.
    rewrite (mm_assoc V) by mok. rewrite dg_sqrt by auto. exact EA.
Qed.

(** simultaneous diagonalisation *)
Lemma simdiag A B : SPD n A -> SPD n B ->
  exists G G' w, inverse n G G' /\ length w = n /\ all_pos w /\ A = mat_mul G (transpose G) /\ B = congruent G w.
Proof.
  intros HA HB. destruct (SPD_factor A HA) as (S & S' & IS & EA). pose proof IS as (HS & HS' & _ & _).
  pose proof (inv_tr _ _ IS) as IT. pose proof IT as (HT & HT' & _ & _).
  pose proof HB as (HBm & HBs & HBp).
  set (N := mat_mul (mat_mul S' B) (transpose S')).
  assert (HN : M N) by (unfold N; mok).
  assert (HNs : symmetric n N).
  { apply sym_transpose; auto. unfold N. rewrite tr_mm, tr_tr, tr_mm by mok.
    rewrite (proj1 (sym_transpose n B HBm Hn) HBs). symmetry. apply mm_assoc; mok. }
  destruct (spectral n N Hn HN HNs) as ([w U] & HE). pose proof HE as (Hw & HU & _). cbn [fst snd] in *.
  pose proof (eigh_congruent N w U HN HE) as EN. pose proof HU as (HUm & HU1 & HU2).
  assert (IG : inverse n (mat_mul S U) (mat_mul (transpose U) S')) by (apply inv_mul; auto; now apply inv_orth).
  assert (EB : B = congruent (mat_mul S U) w).
  { transitivity (mat_mul (mat_mul S N) (transpose S)).
    - unfold N. rewrite (mm_assoc S') by mok.
      pose proof (inv_cancel_l _ _ (mat_mul B (transpose S')) (inv_sym _ _ IS)) as E. rewrite E by mok. symmetry.
      apply inv_cancel_r; auto. now apply inv_sym.
    - rewrite EN. unfold congruent. rewrite tr_mm by mok. rewrite <- !mm_assoc by mok. reflexivity. }
  exists (mat_mul S U), (mat_mul (transpose U) S'), w. split; [|split; [|split; [|split]]]; auto.
  - apply (congruent_pos _ _ w IG Hw). now rewrite <- EB.
  - rewrite tr_mm by mok. rewrite <- mm_assoc by mok. rewrite (mm_assoc S) by mok. rewrite HU2, mm_eye_r by mok. exact EA.
Qed.

Lemma mapM_log w : all_pos w -> mapM np_log w = Ok (map ln w).
Proof.
  induction w as [|a w IH]; intros H; [reflexivity|]. cbn. unfold np_log at 1.
  assert (0 < a) by (apply H; now left). destruct (Rltb 0 a) eqn:E; [|apply Rltb_false in E; lra].
  cbn. rewrite IH by (intros x Hx; apply H; now right). reflexivity.
Qed.
Lemma eigenlist_pos C w w' : M C -> eigenlist n C w -> eigenlist n C w' -> all_pos w -> all_pos w'.
Proof.
  intros HC E E' HP x Hx.
  set (f := fun x => if Rlt_dec 0 x then 0 else 1).
  assert (S : lsum (map f w) = lsum (map f w')) by (apply (eigenlist_sum n Hn C); auto).
  rewrite (lsum_map_zero f w) in S.
  - assert (N : forall y, In y (map f w') -> 0 <= y).
    { intros y Hy. apply in_map_iff in Hy. destruct Hy as (z & <- & _). unfold f. destruct (Rlt_dec 0 z); lra. }
    pose proof (lsum_nonneg_zero _ N (eq_sym S) (f x) (in_map f _ _ Hx)) as Z. unfold f in Z.
    destruct (Rlt_dec 0 x); lra.
  - intros y Hy. unfold f. destruct (Rlt_dec 0 y); auto. exfalso. auto.
Qed.


Lemma distance_value linsolve eigvals A B G G' w :
  numpy_for n linsolve eigvals A B ->
  inverse n G G' -> length w = n -> all_pos w -> A = mat_mul G (transpose G) -> B = congruent G w ->
  positive_definite_distance linsolve eigvals A B = Ok (log_distance w).
Proof.
  intros HE IG Hw HP EA EB. pose proof IG as (HG & HG' & G1 & G2).
  pose proof (inv_tr _ _ IG) as IT. pose proof IT as (HT & HT' & T1 & T2).
  assert (HA : M A) by (subst A; mok). assert (HB : M B) by (subst B; now apply congr_ok).
  assert (IA : inverse n A (mat_mul (transpose G') G')) by (rewrite EA; now apply inv_mul).
  unfold positive_definite_distance.
  assert (SS : same_shape A B = true).
  { unfold same_shape. rewrite (is_mat_length _ _ _ HA), (is_mat_length _ _ _ HB), (is_mat_ncols _ _ _ HA), (is_mat_ncols _ _ _ HB) by auto.
    now rewrite !Nat.eqb_refl. }
  rewrite SS. cbn [assert_ bind]. destruct HE as (HS & HE).
  destruct (linsolve A B) as [X|e|]; [|exfalso; destruct HS as (_ & HS); apply HS; eexists; exact IA|contradiction].
  destruct HS as (HX & EX). cbn [bind].
  assert (EL : eigenlist n X w).
  { split; auto. exists (transpose G'), (transpose G). split; [now apply inv_sym|].
    assert (EXv : X = mat_mul (mat_mul (transpose G') (diag w)) (transpose G)).
    { rewrite <- (inv_cancel_l A _ X IA HX), EX, EB. unfold congruent.
      rewrite (mm_assoc G), (mm_assoc (transpose G')) by mok.
      rewrite (inv_cancel_l G G') by mok. symmetry. apply mm_assoc; mok. }
    rewrite EXv. apply inv_cancel_r; auto using inv_sym with mat. }
  pose proof (HE X HX EX (ex_intro _ w EL)) as EL'.
  rewrite mapM_log by exact (eigenlist_pos X w _ HX EL EL' HP). cbn [bind]. f_equal. unfold log_distance. do 2 f_equal.
  rewrite map_map. apply (eigenlist_sum n Hn X); auto.
Qed.

Lemma lsum_sq_nonneg w : 0 <= lsum (map (fun x => ln x ^ 2) w).
Proof. apply lsum_nonneg. intros x Hx. apply in_map_iff in Hx. destruct Hx as (y & <- & _). apply pow2_ge_0. Qed.

Lemma distance_total linsolve eigvals A B : numpy_for n linsolve eigvals A B -> SPD n A -> SPD n B ->
  exists d, positive_definite_distance linsolve eigvals A B = Ok d /\ 0 <= d.
Proof.
  intros HE HA HB. destruct (simdiag A B HA HB) as (G & G' & w & IG & Hw & HP & EA & EB).
  exists (log_distance w). split; [now apply (distance_value linsolve eigvals A B G G')|]. apply sqrt_pos_le || apply sqrt_positivity.
  pose proof (lsum_sq_nonneg w). lra.
Qed.
Lemma congruent_ones G : M G -> congruent G (ones n) = mat_mul G (transpose G).
Proof. intros HG. unfold congruent. rewrite dg_ones by auto. rewrite mm_eye_r by auto. reflexivity. Qed.

Lemma distance_zero linsolve eigvals A B : numpy_for n linsolve eigvals A B -> SPD n A -> SPD n B ->
  positive_definite_distance linsolve eigvals A B = Ok 0 <-> A = B.
Proof.
  intros HE HA HB. destruct (simdiag A B HA HB) as (G & G' & w & IG & Hw & HP & EA & EB).
  rewrite (distance_value linsolve eigvals A B G G' w) by auto. pose proof IG as (HG & _). split.
  - intros E. injection E as E. unfold log_distance in E. apply sqrt_eq_0 in E; [|pose proof (lsum_sq_nonneg w); lra].
    assert (Z : lsum (map (fun x => ln x ^ 2) w) = 0) by lra.
    assert (W : w = ones n).
    { apply (vec_ext n); auto using ones_length. intros i Hi. rewrite nth_ones by auto.
      assert (N : forall y, In y (map (fun x => ln x ^ 2) w) -> 0 <= y).
      { intros y Hy. apply in_map_iff in Hy. destruct Hy as (y' & <- & _). apply pow2_ge_0. }
      pose proof (lsum_nonneg_zero _ N Z (ln (nth i w 0) ^ 2)) as K.
      rewrite <- (exp_ln (nth i w 0)) by now apply pos_nth. rewrite <- exp_0. f_equal.
      assert (Hi' : (i < length w)%nat) by lia.
      specialize (K (in_map (fun x => ln x ^ 2) w _ (nth_In w 0 Hi'))). cbn in K. nra. }
    rewrite EB, W, congruent_ones by auto. exact EA.
  - intros E. f_equal.
    assert (W : diag w = eye n).
    { rewrite <- (inv_cancel_l G G' (diag w)) by mok. rewrite <- (inv_cancel_r (transpose G) (transpose G') (mat_mul G (diag w))) by (auto using inv_tr with mat).
      fold (congruent G w). rewrite <- EB, <- E, EA. rewrite (inv_cancel_r) by (auto using inv_tr with mat).
      now destruct IG as (_ & _ & _ & ?). }
    unfold log_distance. rewrite lsum_map_zero; [rewrite Rmult_0_r; apply sqrt_0|].
    intros x Hx. destruct (In_nth w x 0 Hx) as (i & Hi & <-).
    assert (F : entry (diag w) i i = entry (eye n) i i) by now rewrite W.
    rewrite entry_diag, entry_eye, Nat.eqb_refl in F by lia. rewrite F, ln_1. ring.
Qed.


Lemma distance_symmetric linsolve eigvals A B : numpy_for n linsolve eigvals A B -> numpy_for n linsolve eigvals B A ->
  SPD n A -> SPD n B -> positive_definite_distance linsolve eigvals B A = positive_definite_distance linsolve eigvals A B.
Proof.
  intros HE HE' HA HB. destruct (simdiag A B HA HB) as (G & G' & w & IG & Hw & HP & EA & EB). pose proof IG as (HG & HG' & _ & _).
  rewrite (distance_value linsolve eigvals A B G G' w) by auto.
  assert (Ls : length (map sqrt w) = n) by now rewrite map_length.
  assert (Li : length (map Rinv w) = n) by now rewrite map_length.
  assert (IH : inverse n (mat_mul G (diag (map sqrt w))) (mat_mul (diag (map Rinv (map sqrt w))) G')).
  { apply inv_mul; auto. apply inv_dg_pos; auto. now apply sqrt_pos. }
  rewrite (distance_value linsolve eigvals B A _ _ (map Rinv w) HE' IH Li (inv_pos w HP)).
  - f_equal. unfold log_distance. do 2 f_equal. rewrite map_map. apply lsum_map_ext. intros x Hx. rewrite ln_Rinv by auto. ring.
  - rewrite EB. unfold congruent. rewrite tr_mm, tr_dg by mok. rewrite <- mm_assoc by mok.
    rewrite (mm_assoc G (diag (map sqrt w))) by mok. now rewrite dg_sqrt.
  - unfold congruent. rewrite tr_mm, tr_dg by mok.
    rewrite <- !mm_assoc by mok. rewrite !(mm_assoc G) by mok.
    rewrite dg_mul by auto. rewrite dg_mul by (auto; rewrite vmul_length; lia).
    replace (vmul (vmul (map sqrt w) (map Rinv w)) (map sqrt w)) with (ones n).
    + rewrite dg_ones by auto. rewrite mm_eye_l by mok. exact EA.
    + apply (vec_ext n); auto using ones_length; [rewrite !vmul_length; rewrite ?vmul_length; lia|]. intros i Hi.
      rewrite nth_ones, !nth_vmul by (rewrite ?vmul_length; lia). rewrite !nth_map_in by lia.
      pose proof (pos_nth w i Hw HP Hi). rewrite Rmult_comm, <- Rmult_assoc, sqrt_sqrt by lra. field. lra.
Qed.

Lemma congruence_SPD K K' A : inverse n K K' -> SPD n A -> SPD n (congruence K A).
Proof.
  intros IK HA. destruct (SPD_factor A HA) as (G & G' & IG & EA). pose proof IG as (HG & _). pose proof IK as (HK & _).
  assert (E : congruence K A = congruent (mat_mul K G) (ones n)).
  { rewrite congruent_ones by mok. unfold congruence. rewrite EA, tr_mm by mok. rewrite <- !mm_assoc by mok. reflexivity. }
  rewrite E. apply (congruent_SPD _ (mat_mul G' K')); auto using ones_length; [now apply inv_mul|].
  intros x Hx. apply repeat_spec in Hx. subst. lra.
Qed.

Lemma distance_invariant linsolve eigvals A B K K' : numpy_for n linsolve eigvals A B -> inverse n K K' ->
  numpy_for n linsolve eigvals (congruence K A) (congruence K B) -> SPD n A -> SPD n B ->
  positive_definite_distance linsolve eigvals (congruence K A) (congruence K B) = positive_definite_distance linsolve eigvals A B.
Proof.
  intros HE IK HE' HA HB. destruct (simdiag A B HA HB) as (G & G' & w & IG & Hw & HP & EA & EB). pose proof IG as (HG & HG' & _ & _).
  pose proof IK as (HK & HK' & _ & _).
  rewrite (distance_value linsolve eigvals A B G G' w) by auto.
  apply (distance_value linsolve eigvals _ _ (mat_mul K G) (mat_mul G' K') w); auto.
  - now apply inv_mul.
  - unfold congruence. rewrite EA, tr_mm by mok. rewrite <- !mm_assoc by mok. reflexivity.
  - unfold congruence. rewrite EB. unfold congruent. rewrite tr_mm by mok. rewrite <- !mm_assoc by mok. reflexivity.
Qed.

Lemma distance_inverse linsolve eigvals A B A' B' : numpy_for n linsolve eigvals A B -> numpy_for n linsolve eigvals A' B' ->
  SPD n A -> SPD n B -> inverse n A A' -> inverse n B B' ->
  positive_definite_distance linsolve eigvals A' B' = positive_definite_distance linsolve eigvals A B.
Proof.
  intros HE HE' HA HB IA IB. destruct (simdiag A B HA HB) as (G & G' & w & IG & Hw & HP & EA & EB). pose proof IG as (HG & HG' & _ & _).
  pose proof (inv_tr _ _ IG) as IT. pose proof IT as (HT & HT' & T1 & T2).
  rewrite (distance_value linsolve eigvals A B G G' w) by auto.
  assert (Li : length (map Rinv w) = n) by now rewrite map_length.
  rewrite (distance_value linsolve eigvals A' B' (transpose G') (transpose G) (map Rinv w)); auto using inv_sym, inv_pos.
  - f_equal. unfold log_distance. do 2 f_equal. rewrite map_map. apply lsum_map_ext. intros x Hx. rewrite ln_Rinv by auto. ring.
  - rewrite tr_tr by auto. apply (inv_unique A); auto. rewrite EA. now apply inv_mul.
  - apply (inv_unique B); auto. rewrite EB. unfold congruent. rewrite tr_tr by auto.
    rewrite (mm_assoc (transpose G')) by mok. apply inv_mul; auto. apply inv_mul; auto. now apply inv_dg_pos.
Qed.

Lemma distance_scaled linsolve eigvals A c : numpy_for n linsolve eigvals A (mscale c A) -> SPD n A -> 0 < c ->
  positive_definite_distance linsolve eigvals A (mscale c A) = Ok (sqrt (INR n / 2) * Rabs (ln c)).
Proof.
  intros HE HA Hc. destruct (SPD_factor A HA) as (G & G' & IG & EA). pose proof IG as (HG & HG' & _ & _).
  rewrite (distance_value linsolve eigvals A _ G G' (repeat c n)); auto using repeat_length.
  - f_equal. unfold log_distance. replace (map (fun x => ln x ^ 2) (repeat c n)) with (repeat (ln c ^ 2) n).
    + rewrite lsum_repeat. rewrite <- (sqrt_Rsqr_abs (ln c)). rewrite <- sqrt_mult; [f_equal; unfold Rsqr; field| |apply Rle_0_sqr].
      pose proof (pos_INR n). lra.
    + clear. induction n; cbn; [reflexivity|]. now f_equal.
  - intros x Hx. apply repeat_spec in Hx. now subst.
  - assert (HAm : M A) by apply HA.
    apply (mat_ext n n); auto using is_mat_mscale; [now apply congr_ok; rewrite ?repeat_length|]. intros i j Hi Hj.
    rewrite entry_mscale. rewrite EA. unfold congruent. rewrite (entry_mm (mat_mul G _)) by (try apply mm_ok; try apply dg_ok; auto using repeat_length with mat).
    rewrite (entry_mm G) by mok. rewrite <- rsum_scal. apply rsum_ext. intros k Hk.
    rewrite entry_dg_r by (auto using repeat_length). rewrite (nth_indep _ 0 c) by (rewrite repeat_length; lia). rewrite nth_repeat. ring.
Qed.

(** the promises of numpy can be kept for any two positive definite matrices *)
Lemma numpy_for_exists A B : SPD n A -> SPD n B -> exists linsolve eigvals, numpy_for n linsolve eigvals A B.
Proof.
  intros HA HB. destruct (simdiag A B HA HB) as (G & G' & w & IG & Hw & HP & EA & EB). pose proof IG as (HG & HG' & _ & _).
  pose proof (inv_tr _ _ IG) as IT. pose proof IT as (HT & HT' & T1 & T2).
  assert (IA : inverse n A (mat_mul (transpose G') G')) by (rewrite EA; now apply inv_mul).
  pose proof IA as (HAm & HAm' & A1 & A2). pose proof HB as (HBm & _).
  set (X := mat_mul (mat_mul (transpose G') G') B).
  assert (HX : is_mat n n X) by (unfold X; mok).
  assert (EX : mat_mul A X = B) by (unfold X; apply (inv_cancel_l _ _ B (inv_sym _ _ IA)); auto).
  exists (fun _ _ => Ok X), (fun _ => w). split; [cbn; auto|]. intros Y HY EY _.
  assert (Y = X) as ->.
  { rewrite <- (inv_cancel_l A _ Y IA HY), EY. reflexivity. }
  split; auto. exists (transpose G'), (transpose G). split; [now apply inv_sym|].
  assert (EXv : X = mat_mul (mat_mul (transpose G') (diag w)) (transpose G)).
  { unfold X. rewrite EB. unfold congruent.
    rewrite (mm_assoc G), (mm_assoc (transpose G')) by mok.
    rewrite (inv_cancel_l G G') by mok. symmetry. apply mm_assoc; mok. }
  rewrite EXv. apply inv_cancel_r; auto using inv_sym with mat.
Qed.
Lemma distance_singular linsolve eigvals A B : is_mat n n A -> is_mat n n B -> solve_spec n A B (linsolve A B) ->
  (forall X, is_mat n n X -> mat_mul A X <> B) ->
  positive_definite_distance linsolve eigvals A B = Raise LinAlgError.
Proof.
  intros HA HB HS HN. unfold positive_definite_distance.
  assert (SS : same_shape A B = true).
  { unfold same_shape. rewrite (is_mat_length _ _ _ HA), (is_mat_length _ _ _ HB), (is_mat_ncols _ _ _ HA), (is_mat_ncols _ _ _ HB) by auto.
    now rewrite !Nat.eqb_refl. }
  rewrite SS. cbn [assert_ bind]. destruct (linsolve A B) as [X|e|]; cbn in *.
  - destruct HS as (HX & EX). exfalso. eapply HN; eauto.
  - now destruct HS as (-> & _).
  - contradiction.
Qed.
End S.

Lemma distance_shape linsolve eigvals A B : length A <> length B \/ ncols A <> ncols B ->
  positive_definite_distance linsolve eigvals A B = Raise AssertionError.
Proof.
  intros H. unfold positive_definite_distance, same_shape.
  destruct (Nat.eqb_spec (length A) (length B)); destruct (Nat.eqb_spec (ncols A) (ncols B)); cbn; auto. tauto.
Qed.

Lemma transform_matrix_of r t : transform_matrix r t 3 = transform_matrix (Some (rot_of r)) (Some (tr_of t)) 3.
Proof. destruct r, t; reflexivity. Qed.

Lemma distance_frame linsolve eigvals p q r t p' q' : ip_ok p -> ip_ok q -> 0 <= ip_mass p -> 0 <= ip_mass q ->
  orthogonal 3 (rot_of r) -> length (tr_of t) = 3%nat -> ip_transform p r t = Ok p' -> ip_transform q r t = Ok q' ->
  numpy_for 4 linsolve eigvals (ip_J p) (ip_J q) -> numpy_for 4 linsolve eigvals (ip_J p') (ip_J q') ->
  SPD 4 (ip_J p) -> SPD 4 (ip_J q) ->
  positive_definite_distance linsolve eigvals (ip_J p') (ip_J q') = positive_definite_distance linsolve eigvals (ip_J p) (ip_J q).
Proof.
  intros Hp Hq Mp Mq HQ Ht Ep Eq N N' SP SQ.
  pose proof (orthogonal_is_mat _ _ HQ) as HQm.
  destruct (ip_transform_J p r t Hp HQm Ht Mp) as (p1 & T & E1 & ET & HT & J1). rewrite Ep in E1. injection E1 as <-.
  destruct (ip_transform_J q r t Hq HQm Ht Mq) as (q1 & T' & E2 & ET' & _ & J2). rewrite Eq in E2. injection E2 as <-.
  rewrite ET in ET'. injection ET' as <-.
  destruct (transform_matrix_inv_3 _ _ HQ Ht) as (T1 & Ti & F & Fi & I1 & I2).
  rewrite transform_matrix_of in ET. rewrite F in ET. injection ET as ->.
  assert (HTi : is_mat 4 4 Ti).
  { unfold transform_matrix_inv in Fi. rewrite clean_transform_ok in Fi by auto. cbn [bind fst snd] in Fi.
    unfold transform_matrix in Fi. rewrite clean_transform_ok in Fi; cycle 1.
    - apply is_mat_transpose; auto; lia.
    - rewrite mat_vec_length, mneg_length, transpose_length. eapply is_mat_ncols; eauto; lia.
    - injection Fi as <-. cbn [fst snd].
      destruct (mat33_inv _ HQm) as (a & b & c & d & e & f & g & h & i & ->).
      destruct (len3_inv _ Ht) as (x & y & z & ->). apply is_matb_iff. reflexivity. }
  rewrite J1, J2. change (mat_mul (mat_mul T (ip_J p)) (transpose T)) with (congruence T (ip_J p)).
  change (mat_mul (mat_mul T (ip_J q)) (transpose T)) with (congruence T (ip_J q)).
  apply (distance_invariant 4 ltac:(lia) linsolve eigvals _ _ T Ti); auto.
  - split; [|split; [|split]]; auto.
  - unfold congruence. now rewrite <- J1, <- J2.
Qed.

(** a case in dimension 2 *)
Definition geoA : mat := [[1; 0]; [0; 1]].
Definition geoB : mat := [[52 / 25; 36 / 25]; [36 / 25; 73 / 25]].
Lemma geo_G : inverse 2 [[3 / 5; - (4 / 5)]; [4 / 5; 3 / 5]] [[3 / 5; 4 / 5]; [- (4 / 5); 3 / 5]].
Proof.
  split; [apply is_matb_iff; reflexivity|]. split; [apply is_matb_iff; reflexivity|].
  split; cbn; list_eq; field.
Qed.
Lemma geo_case : exists linsolve eigvals, SPD 2 geoA /\ SPD 2 geoB /\ geoA <> geoB /\ numpy_for 2 linsolve eigvals geoA geoB /\
  positive_definite_distance linsolve eigvals geoA geoB = Ok (log_distance [4; 1]).
Proof.
  assert (EA : geoA = mat_mul [[3 / 5; - (4 / 5)]; [4 / 5; 3 / 5]] (transpose [[3 / 5; - (4 / 5)]; [4 / 5; 3 / 5]])).
  { unfold geoA. cbn. list_eq; field. }
  assert (EB : geoB = congruent [[3 / 5; - (4 / 5)]; [4 / 5; 3 / 5]] [4; 1]).
  { unfold geoB. cbn. list_eq; field. }
  assert (P : all_pos [4; 1]) by (intros x [<-|[<-|[]]]; lra).
  assert (P1 : all_pos (ones 2)) by (intros x [<-|[<-|[]]]; lra).
  assert (SA : SPD 2 geoA).
  { rewrite EA, <- (congruent_ones 2 ltac:(lia)) by apply geo_G. apply (congruent_SPD 2 ltac:(lia) _ _ _ geo_G); auto. }
  assert (SB : SPD 2 geoB) by (rewrite EB; apply (congruent_SPD 2 ltac:(lia) _ _ _ geo_G); auto).
  destruct (numpy_for_exists 2 ltac:(lia) _ _ SA SB) as (ls & ev & N). exists ls, ev.
  split; [exact SA|]. split; [exact SB|]. split; [unfold geoA, geoB; intros E; injection E; lra|]. split; [exact N|].
  apply (distance_value 2 ltac:(lia) ls ev geoA geoB _ _ [4; 1] N geo_G); auto.
Qed.
