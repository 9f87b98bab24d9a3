(** The logarithm of the determinant: existence, its supporting planes, concavity. *)
From Coq Require Import Classical.
From Verif Require Import Base.Vec Base.VecFacts Spec.Basic Spec.Shapes Spec.ExtremalSpec Spec.Geodesic
  Proofs.LinAlg Proofs.BoxP Proofs.Spectral Proofs.MatAlg Proofs.Coord Proofs.Decomp Proofs.GeodesicP Proofs.SpectralUse.

Section S.
Context (n : nat) (Hn : (0 < n)%nat).
Local Notation M := (is_mat n n).
#[local] Hint Resolve mm_ok tr_ok dg_ok is_mat_eye : mat.
Ltac mok := auto 20 with mat.
Local Notation mm_assoc := (MatAlg.mm_assoc n Hn).
Local Notation mm_eye_l := (MatAlg.mm_eye_l n Hn).
Local Notation mm_eye_r := (MatAlg.mm_eye_r n Hn).
Local Notation tr_tr := (MatAlg.tr_tr n Hn).
Local Notation tr_mm := (MatAlg.tr_mm n Hn).
Local Notation entry_mm := (MatAlg.entry_mm n Hn).
Local Notation entry_dg_l := (MatAlg.entry_dg_l n Hn).
Local Notation entry_dg_r := (MatAlg.entry_dg_r n Hn).

Lemma SPD_diag A : SPD n A -> exists V w, orthogonal n V /\ length w = n /\ all_pos w /\ A = congruent V w.
Proof.
  intros (HA & HS & HP). destruct (spectral n A Hn HA HS) as ([w V] & HE).
  pose proof HE as (Hw & HV & _). cbn [fst snd] in *. pose proof (eigh_congruent n Hn A w V HA HE) as EA.
  exists V, w. split; [auto|]. split; [auto|]. split; [|auto]. apply (congruent_pos n Hn V (transpose V)); auto; [now apply inv_orth|now rewrite <- EA].
Qed.
Lemma congruent_eigenlist V w : orthogonal n V -> length w = n -> eigenlist n (congruent V w) w.
Proof.
  intros HV Hw. split; [auto|]. exists V, (transpose V). split; [now apply inv_orth|]. pose proof HV as (HVm & V1 & V2).
  unfold congruent. rewrite mm_assoc, V1, mm_eye_r by mok. reflexivity.
Qed.
Lemma log_sum_unique V w V' w' : orthogonal n V -> length w = n -> orthogonal n V' -> length w' = n -> congruent V w = congruent V' w' ->
  lsum (map ln w) = lsum (map ln w').
Proof.
  intros HV Hw HV' Hw' E. apply (eigenlist_sum n Hn (congruent V w)).
  - apply congr_ok; auto. apply HV.
  - now apply congruent_eigenlist.
  - rewrite E. now apply congruent_eigenlist.
Qed.

(** * There is such a function *)
Definition ld_below (X : mat) (r : R) : Prop :=
  (exists V w, orthogonal n V /\ length w = n /\ all_pos w /\ X = congruent V w /\ r <= lsum (map ln w)) \/
  (~ (exists V w, orthogonal n V /\ length w = n /\ all_pos w /\ X = congruent V w) /\ r <= 0).
Lemma ld_bound X : bound (ld_below X) /\ exists r, ld_below X r.
Proof.
  destruct (classic (exists V w, orthogonal n V /\ length w = n /\ all_pos w /\ X = congruent V w)) as [(V & w & HV & Hw & HP & E)|N].
  - split.
    + exists (lsum (map ln w)). intros r [(V' & w' & HV' & Hw' & HP' & E' & Hr)|(N & _)].
      * rewrite (log_sum_unique V w V' w'); auto. congruence.
      * exfalso. apply N. exists V, w. auto.
    + exists (lsum (map ln w)). left. exists V, w. repeat (split; auto). lra.
  - split.
    + exists 0. intros r [(V & w & HV & Hw & HP & E & _)|(_ & Hr)]; auto. exfalso. apply N. exists V, w. auto.
    + exists 0. right. split; auto. lra.
Qed.
Definition log_det0 (X : mat) : R := proj1_sig (completeness (ld_below X) (proj1 (ld_bound X)) (proj2 (ld_bound X))).
Lemma log_det_exists : exists log_det, log_det_spec n log_det.
Proof.
  exists log_det0. intros V w HV Hw HP. unfold log_det0. destruct (completeness _ _ _) as (m & M1 & M2). cbn.
  change (mat_mul (mat_mul V (diag w)) (transpose V)) with (congruent V w) in *. apply Rle_antisym.
  - apply M2. intros r [(V' & w' & HV' & Hw' & HP' & E' & Hr)|(N & _)].
    + rewrite (log_sum_unique V w V' w'); auto.
    + exfalso. apply N. exists V, w. auto.
  - apply M1. left. exists V, w. repeat (split; auto). lra.
Qed.

(** * Supporting planes *)
Lemma ln_le_sub x : 0 < x -> ln x <= x - 1 /\ (ln x = x - 1 -> x = 1).
Proof.
  intros Hx. destruct (Req_dec x 1) as [->|N]; [rewrite ln_1; lra|].
  assert (L : ln x < x - 1); [|lra]. rewrite <- (ln_exp (x - 1)). apply ln_increasing; auto.
  pose proof (exp_ineq1 (x - 1) ltac:(lra)). lra.
Qed.
Lemma entry_tr A i j : M A -> (i < n)%nat -> entry (transpose A) i j = entry A j i.
Proof. intros HA Hi. apply entry_transpose. now rewrite (is_mat_ncols _ _ _ HA). Qed.
Lemma orth_rows P i : orthogonal n P -> (i < n)%nat -> rsum n (fun j => entry P i j * entry P i j) = 1.
Proof.
  intros (HP & _ & H) Hi. pose proof (f_equal (fun A => entry A i i) H) as E. cbn in E. rewrite entry_mm in E by mok.
  rewrite entry_eye, Nat.eqb_refl in E by auto. rewrite <- E. apply rsum_ext. intros j Hj. rewrite entry_tr by auto. reflexivity.
Qed.
Lemma orth_cols P j : orthogonal n P -> (j < n)%nat -> rsum n (fun i => entry P i j * entry P i j) = 1.
Proof.
  intros (HP & H & _) Hj. pose proof (f_equal (fun A => entry A j j) H) as E. cbn in E. rewrite entry_mm in E by mok.
  rewrite entry_eye, Nat.eqb_refl in E by auto. rewrite <- E. apply rsum_ext. intros i Hi. rewrite entry_tr by auto. reflexivity.
Qed.
Lemma trace_comm A B : M A -> M B -> trace (mat_mul A B) = trace (mat_mul B A).
Proof.
  intros HA HB. rewrite !(trace_rsum n) by mok.
  rewrite (rsum_ext n _ (fun i => rsum n (fun k => entry A i k * entry B k i))) by (intros; now apply entry_mm).
  rewrite rsum_swap. apply rsum_ext. intros k Hk. rewrite entry_mm by auto. apply rsum_ext. intros i Hi. ring.
Qed.
Lemma trace_pair V a U b : orthogonal n V -> orthogonal n U -> length a = n -> length b = n ->
  trace (mat_mul (congruent U b) (congruent V a)) =
  rsum n (fun i => rsum n (fun j => entry (mat_mul (transpose U) V) i j * entry (mat_mul (transpose U) V) i j * (nth i b 0 * nth j a 0))).
Proof.
  intros (HV & _) (HU & _) Ha Hb. set (P := mat_mul (transpose U) V). assert (HP : M P) by (unfold P; mok).
  assert (E : trace (mat_mul (congruent U b) (congruent V a)) = trace (mat_mul (mat_mul (diag b) P) (mat_mul (diag a) (transpose P)))).
  { unfold congruent, P. rewrite tr_mm, tr_tr by mok. rewrite !mm_assoc by mok. rewrite trace_comm by mok. rewrite !mm_assoc by mok. reflexivity. }
  rewrite E, (trace_rsum n) by mok. apply rsum_ext. intros i Hi. rewrite entry_mm by mok. apply rsum_ext. intros j Hj.
  rewrite entry_dg_l, entry_dg_l, entry_tr by mok. ring.
Qed.
Lemma congruent_inverse U b : orthogonal n U -> length b = n -> all_pos b -> inverse n (congruent U b) (congruent U (map Rinv b)).
Proof.
  intros HU Hb HP. pose proof HU as (HUm & _). assert (Lb : length (map Rinv b) = n) by now rewrite map_length.
  unfold congruent at 2. rewrite mm_assoc by mok. unfold congruent. apply inv_mul; auto.
  - apply inv_mul; auto; [now apply inv_orth|]. now apply inv_dg_pos.
  - apply inv_sym. now apply inv_orth.
Qed.

Section L.
Context (log_det : mat -> R) (HL : log_det_spec n log_det).
Lemma log_det_congruent V w : orthogonal n V -> length w = n -> all_pos w -> log_det (congruent V w) = rsum n (fun i => ln (nth i w 0)).
Proof.
  intros HV Hw HP. unfold congruent. rewrite HL by auto. rewrite lsum_rsum, map_length, Hw.
  apply rsum_ext. intros i Hi. now rewrite nth_map_in by lia.
Qed.
Lemma support_eq V a U b : orthogonal n V -> orthogonal n U -> length a = n -> length b = n -> all_pos a -> all_pos b ->
  trace (mat_mul (congruent U (map Rinv b)) (congruent V a)) - INR n - (log_det (congruent V a) - log_det (congruent U b)) =
  rsum n (fun i => rsum n (fun j => entry (mat_mul (transpose U) V) i j * entry (mat_mul (transpose U) V) i j *
     (nth j a 0 / nth i b 0 - 1 - ln (nth j a 0 / nth i b 0)))).
Proof.
  intros HV HU La Lb Pa Pb. set (P := mat_mul (transpose U) V).
  assert (HP : orthogonal n P).
  { pose proof HV as (HVm & V1 & V2). pose proof HU as (HUm & U1 & U2). unfold P. split; [mok|]. rewrite tr_mm, tr_tr by mok. split.
    - rewrite mm_assoc by mok. rewrite <- (mm_assoc U) by mok. rewrite U2, mm_eye_l by mok. exact V1.
    - rewrite mm_assoc by mok. rewrite <- (mm_assoc V) by mok. rewrite V2, mm_eye_l by mok. exact U1. }
  rewrite trace_pair by (auto; now rewrite map_length). fold P. rewrite !log_det_congruent by auto.
  assert (E1 : rsum n (fun j => ln (nth j a 0)) = rsum n (fun i => rsum n (fun j => entry P i j * entry P i j * ln (nth j a 0)))).
  { rewrite rsum_swap. apply rsum_ext. intros j Hj. rewrite rsum_scal_r, orth_cols by auto. ring. }
  assert (E2 : rsum n (fun j => ln (nth j b 0)) = rsum n (fun i => rsum n (fun j => entry P i j * entry P i j * ln (nth i b 0)))).
  { apply rsum_ext. intros j Hj. rewrite rsum_scal_r, orth_rows by auto. ring. }
  assert (E3 : INR n = rsum n (fun i => rsum n (fun j => entry P i j * entry P i j))).
  { rewrite (rsum_ext n _ (fun _ => 1)) by (intros i Hi; now apply orth_rows). rewrite rsum_const. ring. }
  rewrite E1, E2, E3. rewrite <- !rsum_minus. apply rsum_ext. intros i Hi. rewrite <- !rsum_minus. apply rsum_ext. intros j Hj.
  rewrite nth_map_in by lia. pose proof (pos_nth n Hn a j La Pa Hj). pose proof (pos_nth n Hn b i Lb Pb Hi).
  unfold Rdiv. rewrite ln_mult, ln_Rinv by (auto; now apply Rinv_0_lt_compat). ring.
Qed.
Lemma log_det_support X Y Y' : SPD n X -> SPD n Y -> inverse n Y Y' ->
  log_det X <= log_det Y + trace (mat_mul Y' X) - INR n /\
  (log_det X = log_det Y + trace (mat_mul Y' X) - INR n -> X = Y).
Proof.
  intros HX HY IY. destruct (SPD_diag X HX) as (V & a & HV & La & Pa & ->). destruct (SPD_diag Y HY) as (U & b & HU & Lb & Pb & ->).
  rewrite (inv_unique n Hn _ _ _ IY (congruent_inverse U b HU Lb Pb)).
  pose proof (support_eq V a U b HV HU La Lb Pa Pb) as E. set (P := mat_mul (transpose U) V) in *.
  assert (T : forall i j, (i < n)%nat -> (j < n)%nat ->
     0 <= entry P i j * entry P i j * (nth j a 0 / nth i b 0 - 1 - ln (nth j a 0 / nth i b 0))).
  { intros i j Hi Hj. pose proof (pos_nth n Hn a j La Pa Hj). pose proof (pos_nth n Hn b i Lb Pb Hi).
    apply Rmult_le_pos; [apply sqr_nonneg|]. destruct (ln_le_sub (nth j a 0 / nth i b 0)); [now apply Rdiv_lt_0_compat|lra]. }
  assert (S : forall i, (i < n)%nat -> 0 <= rsum n (fun j => entry P i j * entry P i j * (nth j a 0 / nth i b 0 - 1 - ln (nth j a 0 / nth i b 0))))
    by (intros i Hi; apply rsum_nonneg; auto).
  pose proof (rsum_nonneg n _ S) as S2. split; [lra|]. intros EQ. rewrite EQ in E.
  assert (Z : rsum n (fun i => rsum n (fun j => entry P i j * entry P i j * (nth j a 0 / nth i b 0 - 1 - ln (nth j a 0 / nth i b 0)))) = 0) by lra.
  pose proof HV as (HVm & V1 & V2). pose proof HU as (HUm & U1 & U2). assert (HP : M P) by (unfold P; mok).
  assert (C : mat_mul P (diag a) = mat_mul (diag b) P).
  { apply (mat_ext n n); mok. intros i j Hi Hj. rewrite entry_dg_l, entry_dg_r by auto.
    pose proof (rsum_nonneg_zero n _ S Z i Hi) as Z1. pose proof (rsum_nonneg_zero n _ (fun j => T i j Hi) Z1 j Hj) as Z2. cbn in Z2.
    pose proof (pos_nth n Hn a j La Pa Hj). pose proof (pos_nth n Hn b i Lb Pb Hi).
    apply Rmult_integral in Z2 as [Z2|Z2]; [apply Rmult_integral in Z2 as [->| ->]; ring|].
    destruct (ln_le_sub (nth j a 0 / nth i b 0)) as [_ L]; [now apply Rdiv_lt_0_compat|]. specialize (L ltac:(lra)).
    assert (nth j a 0 = nth i b 0); [|nra]. apply (f_equal (Rmult (nth i b 0))) in L. field_simplify in L; lra. }
  assert (EV : V = mat_mul U P) by (unfold P; rewrite <- mm_assoc, U2, mm_eye_l by mok; reflexivity).
  unfold congruent. rewrite EV at 1. rewrite (mm_assoc U) by mok. rewrite C. unfold P. rewrite !mm_assoc by mok. rewrite V2, mm_eye_r by mok. reflexivity.
Qed.

Lemma trace_inv_self Y Y' : inverse n Y Y' -> trace (mat_mul Y' Y) = INR n.
Proof.
  intros (_ & _ & _ & ->). rewrite (trace_rsum n) by mok. rewrite (rsum_ext n _ (fun _ => 1)).
  - rewrite rsum_const. ring.
  - intros i Hi. now rewrite entry_eye, Nat.eqb_refl by auto.
Qed.
(** log_det is concave *)
#[local] Hint Resolve is_mat_madd is_mat_mscale : mat.
Lemma SPD_mix t X Y : 0 <= t <= 1 -> SPD n X -> SPD n Y -> SPD n (madd (mscale (1 - t) X) (mscale t Y)).
Proof.
  intros Ht (HX & SX & PX) (HY & SY & PY). split; [mok|]. split.
  - intros i j Hi Hj. rewrite !(entry_madd _ _ n n) by mok. rewrite !entry_mscale. rewrite (SX i j), (SY i j) by auto. reflexivity.
  - intros x Lx Nx. rewrite (quad_madd n n) by mok. rewrite !quad_mscale. specialize (PX x Lx Nx). specialize (PY x Lx Nx). 
    destruct (Req_dec t 0) as [->|]; [lra|]. assert (0 < t * quad Y x) by (apply Rmult_lt_0_compat; lra).
    assert (0 <= (1 - t) * quad X x) by (apply Rmult_le_pos; lra). lra.
Qed.
Lemma trace_mix t A X Y : M A -> M X -> M Y ->
  trace (mat_mul A (madd (mscale (1 - t) X) (mscale t Y))) = (1 - t) * trace (mat_mul A X) + t * trace (mat_mul A Y).
Proof.
  intros HA HX HY. rewrite !(trace_rsum n) by mok. rewrite <- !rsum_scal, <- rsum_plus. apply rsum_ext. intros i Hi.
  rewrite !entry_mm by mok. rewrite <- !rsum_scal, <- rsum_plus. apply rsum_ext. intros k Hk.
  rewrite (entry_madd _ _ n n) by mok. rewrite !entry_mscale. ring.
Qed.
Lemma SPD_inverse X : SPD n X -> exists X', inverse n X X'.
Proof.
  intros HX. destruct (SPD_diag X HX) as (V & a & HV & La & Pa & ->). exists (congruent V (map Rinv a)). now apply congruent_inverse.
Qed.
Lemma log_det_concave t X Y : 0 <= t <= 1 -> SPD n X -> SPD n Y ->
  (1 - t) * log_det X + t * log_det Y <= log_det (madd (mscale (1 - t) X) (mscale t Y)).
Proof.
  intros Ht HX HY. set (Z := madd (mscale (1 - t) X) (mscale t Y)). assert (HZ : SPD n Z) by now apply SPD_mix.
  destruct (SPD_inverse Z HZ) as (Z' & IZ). pose proof IZ as (_ & HZ' & _).
  destruct (log_det_support X Z Z' HX HZ IZ) as [B1 _]. destruct (log_det_support Y Z Z' HY HZ IZ) as [B2 _].
  assert (E : (1 - t) * trace (mat_mul Z' X) + t * trace (mat_mul Z' Y) = INR n).
  { rewrite <- trace_mix by (auto; (apply HX || apply HY)). now apply trace_inv_self. }
  apply (Rmult_le_compat_l (1 - t)) in B1; [|lra]. apply (Rmult_le_compat_l t) in B2; [|lra]. lra.
Qed.
End L.
End S.
