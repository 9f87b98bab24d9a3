(** Algebra of square matrices: associativity, inverses, transposes, traces. *)
From Verif Require Import Base.Vec Base.VecFacts Spec.Basic Spec.Shapes Spec.Geodesic Proofs.LinAlg Proofs.BoxP Proofs.Spectral.

Lemma nth_map_in f w i : (i < length w)%nat -> nth i (map f w) 0 = f (nth i w 0).
Proof. intros H. rewrite (nth_indep _ 0 (f 0)) by now rewrite map_length. apply map_nth. Qed.

Section S.
Context (n : nat) (Hn : (0 < n)%nat).
Local Notation M := (is_mat n n).
Lemma mm_ok A B : M A -> M B -> M (mat_mul A B).
Proof. intros; now apply mul_ok. Qed.
Lemma tr_ok A : M A -> M (transpose A).
Proof. intros; now apply is_mat_transpose. Qed.
Lemma dg_ok w : length w = n -> M (diag w).
Proof. intros <-. apply is_mat_diag. Qed.
Lemma mm_assoc A B C : M A -> M B -> M C -> mat_mul (mat_mul A B) C = mat_mul A (mat_mul B C).
Proof. intros. now apply (mat_mul_assoc n n n n). Qed.
Lemma mm_eye_l A : M A -> mat_mul (eye n) A = A.
Proof. intros. now apply (mat_mul_eye_l n n). Qed.
Lemma mm_eye_r A : M A -> mat_mul A (eye n) = A.
Proof. intros. now apply (mat_mul_eye_r n n). Qed.
Lemma tr_tr A : M A -> transpose (transpose A) = A.
Proof. intros. now apply (transpose_involutive n n). Qed.
Lemma tr_mm A B : M A -> M B -> transpose (mat_mul A B) = mat_mul (transpose B) (transpose A).
Proof. intros. now apply (transpose_mat_mul n n n). Qed.
Lemma tr_dg w : length w = n -> transpose (diag w) = diag w.
Proof.
  intros Hw. apply (sym_transpose n (diag w)); auto using dg_ok. intros i j Hi Hj.
  rewrite !entry_diag by lia. rewrite (Nat.eqb_sym j i). destruct (Nat.eqb i j) eqn:E; auto.
  apply Nat.eqb_eq in E. now subst.
Qed.
Lemma entry_mm A B i j : M A -> M B -> (i < n)%nat -> (j < n)%nat ->
  entry (mat_mul A B) i j = rsum n (fun k => entry A i k * entry B k j).
Proof.
  intros HA HB Hi Hj. rewrite entry_mat_mul.
  - rewrite (dot_rsum n); [|eapply is_mat_row; eauto|rewrite col_length; eapply is_mat_length; eauto].
    apply rsum_ext. intros k Hk. now rewrite nth_col.
  - rewrite (is_mat_length _ _ _ HA). auto.
  - rewrite (is_mat_ncols _ _ _ HB); auto.
Qed.
Lemma entry_dg_l w A i j : length w = n -> M A -> (i < n)%nat -> (j < n)%nat ->
  entry (mat_mul (diag w) A) i j = nth i w 0 * entry A i j.
Proof.
  intros Hw HA Hi Hj. rewrite entry_mm by auto using dg_ok.
  rewrite (rsum_ext n _ (fun k => if Nat.eqb k i then nth i w 0 * entry A k j else 0)).
  - now rewrite (rsum_delta n i (fun k => nth i w 0 * entry A k j)).
  - intros k Hk. rewrite entry_diag by lia. rewrite (Nat.eqb_sym k i). destruct (Nat.eqb i k) eqn:E; [|ring].
    apply Nat.eqb_eq in E. now subst.
Qed.
Lemma entry_dg_r w A i j : length w = n -> M A -> (i < n)%nat -> (j < n)%nat ->
  entry (mat_mul A (diag w)) i j = entry A i j * nth j w 0.
Proof.
  intros Hw HA Hi Hj. rewrite entry_mm by auto using dg_ok.
  rewrite (rsum_ext n _ (fun k => if Nat.eqb k j then entry A i k * nth j w 0 else 0)).
  - now rewrite (rsum_delta n j (fun k => entry A i k * nth j w 0)).
  - intros k Hk. rewrite entry_diag by lia. destruct (Nat.eqb k j) eqn:E; [|ring].
    apply Nat.eqb_eq in E. now subst.
Qed.
Lemma dg_mul w w' : length w = n -> length w' = n -> mat_mul (diag w) (diag w') = diag (vmul w w').
Proof.
  intros H H'. assert (L : length (vmul w w') = n) by (rewrite vmul_length; lia).
  apply (mat_ext n n); auto using dg_ok, mm_ok. intros i j Hi Hj.
  rewrite entry_dg_l by auto using dg_ok. rewrite !entry_diag by lia. destruct (Nat.eqb i j); [|ring].
  now rewrite nth_vmul by lia.
Qed.
Lemma dg_ones : diag (ones n) = eye n.
Proof.
  apply (mat_ext n n); auto using dg_ok, ones_length, is_mat_eye. intros i j Hi Hj.
  rewrite entry_diag, entry_eye by (rewrite ?ones_length; auto). destruct (Nat.eqb i j); auto. now rewrite nth_ones.
Qed.

Lemma inv_sym A A' : inverse n A A' -> inverse n A' A.
Proof. unfold inverse. tauto. Qed.
Lemma inv_eye : inverse n (eye n) (eye n).
Proof. split; [|split; [|split]]; try apply is_mat_eye; apply mm_eye_l, is_mat_eye. Qed.
Lemma inv_tr A A' : inverse n A A' -> inverse n (transpose A) (transpose A').
Proof.
  intros (HA & HA' & H1 & H2). split; [now apply tr_ok|split; [now apply tr_ok|split]].
  - rewrite <- tr_mm by auto. rewrite H2. apply transpose_eye.
  - rewrite <- tr_mm by auto. rewrite H1. apply transpose_eye.
Qed.
Lemma inv_cancel_l A A' B : inverse n A A' -> M B -> mat_mul A' (mat_mul A B) = B.
Proof. intros (HA & HA' & _ & H) HB. rewrite <- mm_assoc, H by auto. now apply mm_eye_l. Qed.
Lemma inv_cancel_r A A' B : inverse n A A' -> M B -> mat_mul (mat_mul B A) A' = B.
Proof. intros (HA & HA' & H & _) HB. rewrite mm_assoc, H by auto. now apply mm_eye_r. Qed.
Lemma inv_mul A A' B B' : inverse n A A' -> inverse n B B' -> inverse n (mat_mul A B) (mat_mul B' A').
Proof.
  intros IA IB. pose proof IA as (HA & HA' & H1 & H2). pose proof IB as (HB & HB' & H3 & H4).
  split; [now apply mm_ok|split; [now apply mm_ok|split]].
  - rewrite <- (mm_assoc _ B' A') by auto using mm_ok. rewrite (inv_cancel_r B B') by auto. exact H1.
  - rewrite <- (mm_assoc _ A B) by auto using mm_ok. rewrite (inv_cancel_r A' A) by (auto using inv_sym). exact H4.
Qed.
Lemma inv_unique A A' A'' : inverse n A A' -> inverse n A A'' -> A' = A''.
Proof.
  intros (HA & HA' & H1 & H2) (_ & HA'' & H3 & H4).
  rewrite <- (mm_eye_r A') by auto. rewrite <- H3, <- mm_assoc, H2 by auto. now apply mm_eye_l.
Qed.
Lemma inv_orth Q : orthogonal n Q -> inverse n Q (transpose Q).
Proof. intros (H & H1 & H2). split; [|split; [|split]]; auto using tr_ok. Qed.
Lemma inv_dg w : length w = n -> (forall i, (i < n)%nat -> nth i w 0 <> 0) -> inverse n (diag w) (diag (map Rinv w)).
Proof.
  intros Hw H0. assert (L : length (map Rinv w) = n) by now rewrite map_length.
  assert (E : vmul w (map Rinv w) = ones n /\ vmul (map Rinv w) w = ones n).
  { split; apply (vec_ext n); try (rewrite vmul_length; lia); auto using ones_length; intros i Hi;
      rewrite nth_vmul, nth_ones, nth_map_in by lia;
      field; auto. }
  split; [|split; [|split]]; try (now apply dg_ok); rewrite dg_mul by auto.
  - rewrite (proj1 E). apply dg_ones.
  - rewrite (proj2 E). apply dg_ones.
Qed.
(** an injective square matrix with symmetric positive form is invertible; kernel of an invertible matrix *)
Lemma inv_kernel A A' x : inverse n A A' -> length x = n -> mat_vec A x = zeros n -> x = zeros n.
Proof.
  intros (HA & HA' & H1 & H2) Hx H0. rewrite <- (mat_vec_eye n x Hx), <- H2.
  rewrite (mat_vec_mat_mul n n n) by auto. rewrite H0. rewrite mat_vec_zeros. f_equal. eapply is_mat_length; eauto.
Qed.
(** eigenvalue lists are unique up to order: every symmetric function of them agrees *)
Lemma eigenlist_sum C w w' f : M C -> eigenlist n C w -> eigenlist n C w' -> lsum (map f w) = lsum (map f w').
Proof.
  intros HC (Lw & P & P' & IP & E) (Lw' & Q & Q' & IQ & E').
  pose proof IP as (HP & HP' & _ & _). pose proof IQ as (HQ & HQ' & _ & _).
  set (S := mat_mul P' Q). set (T := mat_mul Q' P).
  assert (IS : inverse n S T) by (unfold S, T; apply inv_mul; auto using inv_sym).
  pose proof IS as (HS & HT & ST & TS).
  assert (K : mat_mul (diag w) S = mat_mul S (diag w')).
  { assert (E1 : mat_mul (diag w) P' = mat_mul P' C).
    { rewrite <- (inv_cancel_l P P' (mat_mul (diag w) P')) by auto using mm_ok, dg_ok. f_equal.
      rewrite <- mm_assoc, <- E by auto using dg_ok. now apply inv_cancel_r. }
    unfold S. rewrite <- mm_assoc, E1, !mm_assoc by auto using dg_ok, mm_ok. now rewrite E'. }
  assert (KE : forall i j, (i < n)%nat -> (j < n)%nat -> f (nth i w 0) * entry S i j = entry S i j * f (nth j w' 0)).
  { intros i j Hi Hj. assert (F : entry (mat_mul (diag w) S) i j = entry (mat_mul S (diag w')) i j) by now rewrite K.
    rewrite entry_dg_l, entry_dg_r in F by auto.
    destruct (Req_dec (entry S i j) 0) as [Z|Z]; [rewrite Z; ring|].
    assert (nth i w 0 = nth j w' 0) by (apply (Rmult_eq_reg_r (entry S i j)); auto; lra).
    rewrite H. ring. }
  assert (L : forall v, length v = n -> lsum (map f v) = rsum n (fun i => f (nth i v 0))).
  { intros v Hv. rewrite lsum_rsum, map_length, Hv. apply rsum_ext. intros i Hi.
    rewrite (nth_indep _ 0 (f 0)) by (rewrite map_length; lia). apply map_nth. }
  rewrite !L by auto.
  transitivity (rsum n (fun i => rsum n (fun j => f (nth i w 0) * entry S i j * entry T j i))).
  - apply rsum_ext. intros i Hi. rewrite (rsum_ext n _ (fun j => f (nth i w 0) * (entry S i j * entry T j i))) by (intros; ring).
    rewrite rsum_scal. rewrite <- entry_mm by auto. rewrite ST, entry_eye, Nat.eqb_refl by auto. ring.
  - rewrite rsum_swap. apply rsum_ext. intros j Hj.
    rewrite (rsum_ext n _ (fun i => f (nth j w' 0) * (entry T j i * entry S i j))).
    + rewrite rsum_scal. rewrite <- entry_mm by auto. rewrite TS, entry_eye, Nat.eqb_refl by auto. ring.
    + intros i Hi. rewrite KE by auto. ring.
Qed.
End S.
