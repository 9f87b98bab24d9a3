(** A log_det maximum over a closed bounded family of matrices is attained. *)
From Coq Require Import Classical.
From Verif Require Import Base.Vec Base.VecFacts Spec.Basic Spec.Shapes Spec.ExtremalSpec Spec.Geodesic Model.Ellipsoid Model.Constraint
  Proofs.LinAlg Proofs.BoxP Proofs.MatAlg Proofs.Coord Proofs.Compact Proofs.ExtremalP Proofs.ExtremalOpt Proofs.LogDet.

Section E.
Context (n : nat) (Hn : (0 < n)%nat).
#[local] Hint Resolve mm_ok tr_ok dg_ok is_mat_eye : mat.
Ltac mok := auto 20 with mat.
Local Notation Nz := (n * n + n + n)%nat.
Definition Vof (z : vec) : mat := map (fun i => map (fun j => nth (i * n + j) z 0) (seq 0 n)) (seq 0 n).
Definition wof (z : vec) : vec := map (fun i => nth (n * n + i) z 0) (seq 0 n).
Definition bof (z : vec) : vec := map (fun i => nth (n * n + n + i) z 0) (seq 0 n).
Definition pack (V : mat) (w b : vec) : vec := map (fun k => if (k <? n * n)%nat then entry V (k / n) (k mod n) else
   if (k <? n * n + n)%nat then nth (k - n * n) w 0 else nth (k - n * n - n) b 0) (seq 0 Nz).
Lemma Vof_ok z : is_mat n n (Vof z).
Proof. split; [unfold Vof; now rewrite map_length, seq_length|]. apply Forall_forall. intros r Hr. unfold Vof in Hr. apply in_map_iff in Hr as (i & <- & _). now rewrite map_length, seq_length. Qed.
Lemma wof_length z : length (wof z) = n. Proof. unfold wof. now rewrite map_length, seq_length. Qed.
Lemma bof_length z : length (bof z) = n. Proof. unfold bof. now rewrite map_length, seq_length. Qed.
Lemma entry_Vof z i j : (i < n)%nat -> (j < n)%nat -> entry (Vof z) i j = nth (i * n + j) z 0.
Proof. intros Hi Hj. unfold entry, Vof. rewrite (nth_indep _ [] (map (fun j => nth (0 * n + j) z 0) (seq 0 n))) by now rewrite map_length, seq_length.
  rewrite (map_nth (fun i => map (fun j => nth (i * n + j) z 0) (seq 0 n))), seq_nth by auto. rewrite nth_map_seq by auto. reflexivity. Qed.
Lemma nth_wof z i : (i < n)%nat -> nth i (wof z) 0 = nth (n * n + i) z 0.
Proof. intros Hi. unfold wof. now rewrite nth_map_seq. Qed.
Lemma nth_bof z i : (i < n)%nat -> nth i (bof z) 0 = nth (n * n + n + i) z 0.
Proof. intros Hi. unfold bof. now rewrite nth_map_seq. Qed.
Lemma pack_length V w b : length (pack V w b) = Nz. Proof. unfold pack. now rewrite map_length, seq_length. Qed.
Lemma Vof_pack V w b : is_mat n n V -> Vof (pack V w b) = V.
Proof.
  intros HV. apply (mat_ext n n); [apply Vof_ok|auto|]. intros i j Hi Hj. rewrite entry_Vof by auto. assert (i * n + j < n * n)%nat by nia.
  unfold pack. rewrite nth_map_seq by nia. destruct (Nat.ltb_spec (i * n + j) (n * n)); [|lia].
  replace ((i * n + j) / n)%nat with i; [replace ((i * n + j) mod n)%nat with j; auto|].
  - rewrite Nat.add_comm, Nat.mod_add by lia. symmetry. now apply Nat.mod_small.
  - rewrite Nat.div_add_l by lia. rewrite Nat.div_small by auto. lia.
Qed.
Lemma wof_pack V w b : length w = n -> wof (pack V w b) = w.
Proof.
  intros Lw. apply (vec_ext n); [apply wof_length|auto|]. intros i Hi. rewrite nth_wof by auto. unfold pack. rewrite nth_map_seq by nia.
  destruct (Nat.ltb_spec (n * n + i) (n * n)); [lia|]. destruct (Nat.ltb_spec (n * n + i) (n * n + n)); [|lia]. f_equal. lia.
Qed.
Lemma bof_pack V w b : length b = n -> bof (pack V w b) = b.
Proof.
  intros Lw. apply (vec_ext n); [apply bof_length|auto|]. intros i Hi. rewrite nth_bof by auto. unfold pack. rewrite nth_map_seq by nia.
  destruct (Nat.ltb_spec (n * n + n + i) (n * n)); [lia|]. destruct (Nat.ltb_spec (n * n + n + i) (n * n + n)); [lia|]. f_equal. lia.
Qed.
(** matrices whose entries depend continuously on the variables *)
Definition contM (N : nat) (X : vec -> mat) : Prop := (forall z, is_mat n n (X z)) /\ forall i j, (i < n)%nat -> (j < n)%nat -> contR N (fun z => entry (X z) i j).
Lemma contM_mul N X Y : contM N X -> contM N Y -> contM N (fun z => mat_mul (X z) (Y z)).
Proof.
  intros (MX & CX) (MY & CY). split; [intros; mok|]. intros i j Hi Hj. apply (contR_ext _ _ (fun z => rsum n (fun k => entry (X z) i k * entry (Y z) k j))).
  - intros z _. now apply (MatAlg.entry_mm n Hn).
  - apply contR_rsum. intros k Hk. apply contR_mult; auto.
Qed.
Lemma contM_tr N X : contM N X -> contM N (fun z => transpose (X z)).
Proof.
  intros (MX & CX). split; [intros; mok|]. intros i j Hi Hj. apply (contR_ext _ _ (fun z => entry (X z) j i)); auto.
  intros z _. apply (entry_tr n); auto.
Qed.
Lemma contM_diag N (y : vec -> vec) : (forall z, length (y z) = n) -> contV N n y -> contM N (fun z => diag (y z)).
Proof.
  intros L C. split; [intros z; now apply dg_ok|]. intros i j Hi Hj. apply (contR_ext _ _ (fun z => if Nat.eqb i j then nth i (y z) 0 else 0)).
  - intros z _. rewrite entry_diag by (rewrite L; auto). reflexivity.
  - destruct (Nat.eqb i j); [now apply C|apply contR_const].
Qed.
Lemma contM_Vof : contM Nz Vof.
Proof. split; [apply Vof_ok|]. intros i j Hi Hj. apply (contR_ext _ _ (fun z => nth (i * n + j) z 0)); [intros; now apply entry_Vof|apply contR_nth]. Qed.
Lemma contV_wof : contV Nz n wof.
Proof. intros i Hi. apply (contR_ext _ _ (fun z => nth (n * n + i) z 0)); [intros; now apply nth_wof|apply contR_nth]. Qed.
Lemma contV_bof : contV Nz n bof.
Proof. intros i Hi. apply (contR_ext _ _ (fun z => nth (n * n + n + i) z 0)); [intros; now apply nth_bof|apply contR_nth]. Qed.
Lemma contV_mat_vec N X (y : vec -> vec) : contM N X -> contV N n y -> (forall z, length (y z) = n) -> contV N n (fun z => mat_vec (X z) (y z)).
Proof.
  intros (MX & CX) Cy Ly i Hi. apply (contR_ext _ _ (fun z => rsum n (fun j => entry (X z) i j * nth j (y z) 0))).
  - intros z _. rewrite nth_mat_vec. apply dot_rsum; auto. apply (is_mat_row n n); auto.
  - apply contR_rsum. intros j Hj. apply contR_mult; auto.
Qed.
Lemma contR_vprod N (y : vec -> vec) : (forall z, length (y z) = n) -> contV N n y -> contR N (fun z => vprod (y z)).
Proof.
  intros L C. apply (contR_ext _ _ (fun z => fold_right Rmult 1 (map (fun i => nth i (y z) 0) (seq 0 n)))).
  - intros z _. unfold vprod. f_equal. apply (vec_ext n); [auto|now rewrite map_length, seq_length|]. intros i Hi. now rewrite nth_map_seq.
  - assert (G : forall l, (forall i, In i l -> (i < n)%nat) -> contR N (fun z => fold_right Rmult 1 (map (fun i => nth i (y z) 0) l))).
    { induction l as [|i l IH]; intros H; cbn; [apply contR_const|]. apply contR_mult; [apply C, H; now left|apply IH; intros; apply H; now right]. }
    apply G. intros i Hi. apply in_seq in Hi. lia.
Qed.
Lemma vprod_bound B v : 0 <= B -> (forall a, In a v -> 0 <= a <= B) -> 0 <= vprod v <= B ^ length v.
Proof.
  intros HB. induction v as [|a v IH]; intros H; cbn; [lra|]. fold (vprod v). specialize (IH ltac:(intros; apply H; now right)). specialize (H a ltac:(now left)).
  split; [apply Rmult_le_pos; lra|]. apply Rmult_le_compat; lra.
Qed.
Lemma vprod_pos_inv v : (forall a, In a v -> 0 <= a) -> 0 < vprod v -> forall a, In a v -> 0 < a.
Proof.
  induction v as [|b v IH]; intros H P a Ha; [easy|]. cbn in P. fold (vprod v) in P. assert (Hb : 0 <= b) by (apply H; now left).
  assert (0 < b). { destruct (Req_dec b 0) as [->|]; [lra|lra]. } destruct Ha as [<-|Ha]; auto. apply IH; auto; [intros; apply H; now right|].
  destruct (Rle_lt_dec (vprod v) 0); auto. nra.
Qed.

Context (T : Type) (g : T -> mat -> vec -> R) (Bd : R).
Hypothesis Hg : forall t N X y, contM N X -> contV N n y -> (forall z, length (y z) = n) -> contR N (fun z => g t (X z) (y z)).
Hypothesis HB : forall V w b, orthogonal n V -> length w = n -> (forall a, In a w -> 0 <= a) -> length b = n -> (forall t, g t (congruent V w) b <= 0) ->
  (forall a, In a w -> a <= Bd) /\ forall i, (i < n)%nat -> Rabs (nth i b 0) <= Bd.

Definition K (z : vec) : Prop := orthogonal n (Vof z) /\ (forall a, In a (wof z) -> 0 <= a) /\ forall t, g t (congruent (Vof z) (wof z)) (bof z) <= 0.
Lemma contM_congruent : contM Nz (fun z => congruent (Vof z) (wof z)).
Proof. unfold congruent. apply contM_mul; [apply contM_mul; [apply contM_Vof|apply contM_diag; [apply wof_length|apply contV_wof]]|apply contM_tr, contM_Vof]. Qed.
Lemma orth_entry V i j : orthogonal n V -> (i < n)%nat -> (j < n)%nat -> Rabs (entry V i j) <= 1.
Proof.
  intros HV Hi Hj. pose proof (orth_rows n Hn V i HV Hi) as E. pose proof (rsum_term_le n (fun k => entry V i k * entry V i k) j) as B. cbn in B.
  assert (entry V i j * entry V i j <= 1) by (rewrite <- E; apply B; auto; intros; apply sqr_nonneg). apply Rabs_le. split; nra.
Qed.
Lemma K_compact : compact Nz K.
Proof.
  apply (compact_closed Nz (Rmax 1 (Rabs Bd))).
  - intros z Lz (HV & Hw & Ht) k Hk. rewrite nth_zeros, Rminus_0_r. destruct (HB (Vof z) (wof z) (bof z)) as (B1 & B2); auto using wof_length, bof_length.
    destruct (lt_dec k (n * n)) as [C|C].
    + apply Rle_trans with 1; [|apply Rmax_l]. pose proof (Nat.div_mod k n ltac:(lia)) as E. assert (k mod n < n)%nat by (apply Nat.mod_upper_bound; lia).
      assert (k / n < n)%nat by (apply Nat.div_lt_upper_bound; lia). replace k with (k / n * n + k mod n)%nat by lia. rewrite <- entry_Vof by auto. now apply orth_entry.
    + apply Rle_trans with Bd; [|apply Rle_trans with (Rabs Bd); [apply Rle_abs|apply Rmax_r]]. destruct (lt_dec k (n * n + n)) as [C2|C2].
      * assert (I : In (nth (k - n * n) (wof z) 0) (wof z)) by (apply nth_In; rewrite wof_length; lia). specialize (B1 _ I). specialize (Hw _ I).
        rewrite nth_wof in * by lia. replace (n * n + (k - n * n))%nat with k in * by lia. rewrite Rabs_right; lra.
      * specialize (B2 (k - n * n - n)%nat ltac:(lia)). rewrite nth_bof in B2 by lia. now replace (n * n + n + (k - n * n - n))%nat with k in B2 by lia.
  - intros a La H. assert (L : forall f, contR Nz f -> (forall z, length z = Nz -> K z -> f z <= 0) -> f a <= 0).
    { intros f Cf Hf. apply (limit_le Nz); auto. intros e He. destruct (H e He) as (z & Lz & Kz & Nz'). exists z. auto. }
    assert (O : forall X, contM Nz X -> (forall z, K z -> X z = eye n) -> X a = eye n).
    { intros X (MX & CX) HX. apply (mat_ext n n); mok. intros i j Hi Hj. assert (Rabs (entry (X a) i j - entry (eye n) i j) <= 0).
      - apply (L (fun z => Rabs (entry (X z) i j - entry (eye n) i j))); [apply contR_abs; unfold Rminus; apply contR_plus; [auto|apply contR_const]|].
        intros z _ Kz. rewrite (HX z Kz), Rminus_diag_eq, Rabs_R0 by auto. lra.
      - apply abs_le_inv in H0. lra. }
    split; [split; [apply Vof_ok|split]|split].
    + apply (O (fun z => mat_mul (transpose (Vof z)) (Vof z))); [apply contM_mul; [apply contM_tr|]; apply contM_Vof|]. intros z (HV & _). apply HV.
    + apply (O (fun z => mat_mul (Vof z) (transpose (Vof z)))); [apply contM_mul; [|apply contM_tr]; apply contM_Vof|]. intros z (HV & _). apply HV.
    + intros x Hx. destruct (In_nth _ _ 0 Hx) as (i & Hi & <-). rewrite wof_length in Hi. assert (- nth i (wof a) 0 <= 0); [|lra].
      apply (L (fun z => - nth i (wof z) 0)); [apply contR_opp, contV_wof; auto|]. intros z _ (_ & Hw & _). specialize (Hw (nth i (wof z) 0) ltac:(apply nth_In; now rewrite wof_length)). lra.
    + intros t. apply (L (fun z => g t (congruent (Vof z) (wof z)) (bof z))); [apply Hg; [apply contM_congruent|apply contV_bof|apply bof_length]|]. intros z _ (_ & _ & Ht). apply Ht.
Qed.
Context (log_det : mat -> R) (HL : log_det_spec n log_det).
Lemma log_det_max A0 b0 : SPD n A0 -> length b0 = n -> (forall t, g t A0 b0 <= 0) ->
  exists A b, SPD n A /\ length b = n /\ (forall t, g t A b <= 0) /\
    forall A' b', SPD n A' -> length b' = n -> (forall t, g t A' b' <= 0) -> log_det A' <= log_det A.
Proof.
  intros P0 L0 F0.
  assert (KP : forall V w b, orthogonal n V -> length w = n -> all_pos w -> length b = n -> (forall t, g t (congruent V w) b <= 0) -> K (pack V w b)).
  { intros V w b HV Lw Pw Lb Ht. unfold K. rewrite Vof_pack, wof_pack, bof_pack by (auto; apply HV). split; auto. split; auto. intros a Ha. apply Rlt_le. now apply Pw. }
  destruct (SPD_diag n Hn A0 P0) as (V0 & w0 & HV0 & Lw0 & Pw0 & E0). subst A0.
  destruct (compact_min Nz K (fun z => - vprod (wof z)) (- (Rmax 0 Bd) ^ n) K_compact) as (z & Lz & Kz & Mz).
  - apply contR_opp, contR_vprod; [apply wof_length|apply contV_wof].
  - exists (pack V0 w0 b0). split; [apply pack_length|]. now apply KP.
  - intros z Lz (HV & Hw & Ht). destruct (HB (Vof z) (wof z) (bof z)) as (B1 & _); auto using wof_length, bof_length. apply Ropp_le_contravar.
    rewrite <- (wof_length z). apply vprod_bound; [apply Rmax_l|]. intros a Ha. split; auto. apply Rle_trans with Bd; [auto|apply Rmax_r].
  - destruct Kz as (HV & Hw & Ht).
    assert (Pz : all_pos (wof z)).
    { intros a Ha. apply (vprod_pos_inv (wof z)); auto. specialize (Mz (pack V0 w0 b0) (pack_length _ _ _) (KP V0 w0 b0 HV0 Lw0 Pw0 L0 F0)). cbn in Mz. rewrite wof_pack in Mz by auto. pose proof (vprod_pos w0 Pw0). lra. }
    exists (congruent (Vof z) (wof z)), (bof z). split.
    + destruct (congd_psd n (Vof z) (wof z) Hn HV (wof_length z) Pz) as (C1 & C2 & _). split; [exact C1|]. split; [now apply transpose_symmetric|]. apply (congd_pos_def n); auto using wof_length.
    + split; [apply bof_length|]. split; [exact Ht|]. intros A' b' PA Lb' F'. destruct (SPD_diag n Hn A' PA) as (V & w & HV' & Lw' & Pw' & ->).
      unfold congruent. rewrite !HL by auto using wof_length. rewrite <- !ln_vprod by auto.
      specialize (Mz (pack V w b') (pack_length _ _ _) (KP V w b' HV' Lw' Pw' Lb' F')). cbn in Mz. rewrite wof_pack in Mz by auto.
      pose proof (vprod_pos w Pw'). destruct (Rle_lt_or_eq_dec (vprod w) (vprod (wof z)) ltac:(lra)) as [Lt|Eq]; [apply Rlt_le; now apply ln_increasing|rewrite Eq; lra].
Qed.
End E.
