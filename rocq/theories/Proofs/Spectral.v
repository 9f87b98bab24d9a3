(** The spectral theorem for real symmetric matrices in every dimension: the promise of
    np.linalg.eigh can be kept. *)
From Verif Require Import Base.Vec Base.VecFacts Spec.Basic Spec.Shapes Proofs.LinAlg Proofs.BoxP.
Require Import Lia Lra.

Definition bdiag (n : nat) (a : R) (A : mat) : mat := (a :: zeros n) :: map (cons 0) A.
Definition e1 (n : nat) : vec := 1 :: zeros n.

Lemma bdiag_is_mat n a A : is_mat n n A -> is_mat (S n) (S n) (bdiag n a A).
Proof.
  intros HA. pose proof (is_mat_length _ _ _ HA) as L. split.
  - unfold bdiag. cbn. rewrite map_length. lia.
  - unfold bdiag. constructor; [cbn; now rewrite zeros_length|]. apply Forall_forall. intros r Hr.
    apply in_map_iff in Hr. destruct Hr as (s & <- & Hs). cbn. f_equal. eapply is_mat_in; eauto.
Qed.
Lemma bdiag_vec n a A x0 x : is_mat n n A -> length x = n -> mat_vec (bdiag n a A) (x0 :: x) = a * x0 :: mat_vec A x.
Proof.
  intros HA Hx. unfold bdiag, mat_vec. cbn [map]. f_equal.
  - rewrite dot_cons, dot_zeros_l. ring.
  - rewrite map_map. apply map_ext. intros r. rewrite dot_cons. ring.
Qed.
Lemma bdiag_mul n a b A B : (0 < n)%nat -> is_mat n n A -> is_mat n n B ->
  mat_mul (bdiag n a A) (bdiag n b B) = bdiag n (a * b) (mat_mul A B).
Proof.
  intros Hn HA HB. pose proof (bdiag_is_mat n a A HA) as HA'. pose proof (bdiag_is_mat n b B HB) as HB'.
  assert (HAB : is_mat n n (mat_mul A B)) by (eapply is_mat_mat_mul; [exact HA|]; eapply is_mat_ncols; eauto).
  apply (mat_eq_by_vec (S n) (S n)).
  - eapply is_mat_mat_mul; [exact HA'|]. eapply is_mat_ncols; eauto; lia.
  - now apply bdiag_is_mat.
  - intros [|x0 x] Hx; [discriminate|]. injection Hx as Hx.
    rewrite (mat_vec_mat_mul (S n) (S n) (S n)) by (auto; cbn; lia).
    rewrite !bdiag_vec; auto.
    + rewrite (mat_vec_mat_mul n n n) by auto. f_equal. ring.
    + rewrite mat_vec_length. eapply is_mat_length; eauto.
Qed.
Lemma bdiag_eye n : bdiag n 1 (eye n) = eye (S n).
Proof.
  apply (mat_eq_by_vec (S n) (S n)); [apply bdiag_is_mat, is_mat_eye|apply is_mat_eye|].
  intros [|x0 x] Hx; [discriminate|]. injection Hx as Hx. rewrite bdiag_vec by (auto using is_mat_eye).
  rewrite !mat_vec_eye by (cbn; auto). f_equal. ring.
Qed.
Lemma bdiag_diag l w : diag (l :: w) = bdiag (length w) l (diag w).
Proof.
  apply (mat_eq_by_vec (S (length w)) (S (length w))); [apply (is_mat_diag (l :: w))|apply bdiag_is_mat, is_mat_diag|].
  intros [|x0 x] Hx; [discriminate|]. injection Hx as Hx. rewrite bdiag_vec by (auto using is_mat_diag).
  rewrite !mat_vec_diag by (cbn; auto). reflexivity.
Qed.
Lemma entry_bdiag n a A i j : is_mat n n A -> (i < S n)%nat -> (j < S n)%nat ->
  entry (bdiag n a A) i j = match i, j with O, O => a | S i', S j' => entry A i' j' | _, _ => 0 end.
Proof.
  intros HA Hi Hj. pose proof (is_mat_length _ _ _ HA) as L. unfold entry, bdiag.
  destruct i as [|i]; cbn [nth].
  - destruct j as [|j]; cbn; [reflexivity|]. apply nth_zeros.
  - rewrite (nth_indep _ _ (0 :: [])) by (rewrite map_length; lia).
    rewrite map_nth. destruct j; reflexivity.
Qed.
Lemma bdiag_transpose n a A : (0 < n)%nat -> is_mat n n A -> transpose (bdiag n a A) = bdiag n a (transpose A).
Proof.
  intros Hn HA. pose proof (is_mat_transpose n n A HA Hn) as HT. pose proof (bdiag_is_mat n a A HA) as HB.
  apply (mat_ext (S n) (S n)).
  - apply is_mat_transpose; auto; lia.
  - now apply bdiag_is_mat.
  - intros i j Hi Hj. rewrite entry_transpose by (rewrite (is_mat_ncols _ _ _ HB); lia).
    rewrite !entry_bdiag by auto.
    destruct i, j; auto. rewrite entry_transpose by (rewrite (is_mat_ncols _ _ _ HA); lia). reflexivity.
Qed.
Lemma bdiag_orth n Q : (0 < n)%nat -> orthogonal n Q -> orthogonal (S n) (bdiag n 1 Q).
Proof.
  intros Hn (HQ & H1 & H2). pose proof (is_mat_transpose n n Q HQ Hn) as HT. repeat split.
  - now apply bdiag_is_mat.
  - apply bdiag_is_mat, HQ.
  - rewrite bdiag_transpose, bdiag_mul, H1 by auto. rewrite Rmult_1_l. apply bdiag_eye.
  - rewrite bdiag_transpose, bdiag_mul, H2 by auto. rewrite Rmult_1_l. apply bdiag_eye.
Qed.

(** Householder reflection that takes the first basis vector to a given unit vector *)
Lemma householder n v : length v = S n -> dot v v = 1 ->
  exists H, orthogonal (S n) H /\ mat_vec H (e1 n) = v.
Proof.
  intros Hv Hvv.
  assert (He : length (e1 n) = S n) by (cbn; now rewrite zeros_length).
  assert (Hee : dot (e1 n) (e1 n) = 1) by (unfold e1; rewrite dot_cons, dot_zeros_l; ring).
  set (d := vsub v (e1 n)).
  assert (Hd : length d = S n) by (unfold d; rewrite vsub_length; lia).
  assert (Hdd : dot d d = 2 - 2 * dot v (e1 n)).
  { unfold d. rewrite dot_vsub_l, !dot_vsub_r by (rewrite ?vsub_length; lia). rewrite Hvv, Hee, (dot_comm (e1 n) v). ring. }
  destruct (Req_dec (dot d d) 0) as [Z|Z].
  - exists (eye (S n)). split; [apply orthogonal_eye; lia|]. rewrite mat_vec_eye by auto.
    symmetry. apply vsub_eq_zero; [lia|]. fold d. apply dot_self_zero in Z. rewrite Z. f_equal. lia.
  - set (c := 2 / dot d d). set (H := msub (eye (S n)) (mscale c (outer d d))).
    assert (HO : is_mat (S n) (S n) (outer d d)) by (rewrite <- Hd; apply is_mat_outer).
    assert (HH : is_mat (S n) (S n) H).
    { apply is_mat_msub; [apply is_mat_eye|]. apply is_mat_mscale. exact HO. }
    assert (HV : forall x, length x = S n -> mat_vec H x = vsub x (vscale (c * dot d x) d)).
    { intros x Hx. unfold H. rewrite (mat_vec_msub (S n) (S n)) by (auto using is_mat_eye, is_mat_mscale).
      rewrite mat_vec_eye, mat_vec_mscale, mat_vec_outer, vscale_vscale by auto. reflexivity. }
    assert (HVV : forall x, length x = S n -> mat_vec H (mat_vec H x) = x).
    { intros x Hx. rewrite HV by (rewrite mat_vec_length; eapply is_mat_length; eauto). rewrite HV by auto.
      rewrite dot_vsub_r by (rewrite vscale_length; lia). rewrite dot_vscale_r.
      apply (vec_ext (S n)); auto; [rewrite !vsub_length; rewrite ?vscale_length, ?vsub_length; rewrite ?vscale_length; lia|].
      intros i Hi. rewrite !nth_vsub by (rewrite ?vsub_length, ?vscale_length; rewrite ?vscale_length; lia).
      rewrite !nth_vscale. assert (E : c * dot d d = 2) by (unfold c; field; auto).
      replace (c * (dot d x - c * dot d x * dot d d)) with (c * dot d x - (c * dot d d) * (c * dot d x)) by ring.
      rewrite E. ring. }
    assert (HT : transpose H = H).
    { apply (mat_ext (S n) (S n)); auto; [apply is_mat_transpose; auto; lia|]. intros i j Hi Hj.
      rewrite entry_transpose by (rewrite (is_mat_ncols _ _ _ HH); lia).
      unfold H. rewrite !(entry_msub _ _ (S n) (S n)) by (auto using is_mat_eye, is_mat_mscale).
      rewrite !entry_mscale, !entry_outer, !entry_eye by auto. rewrite (Nat.eqb_sym j i). ring. }
    assert (HI : mat_mul H H = eye (S n)).
    { apply (mat_eq_by_vec (S n) (S n)); [|apply is_mat_eye|].
      - eapply is_mat_mat_mul; eauto. eapply is_mat_ncols; eauto; lia.
      - intros x Hx. rewrite (mat_vec_mat_mul (S n) (S n) (S n)) by auto. rewrite HVV, mat_vec_eye; auto. }
    exists H. split.
    + repeat split; try apply HH; rewrite HT; exact HI.
    + rewrite HV by auto.
      assert (E : c * dot d (e1 n) = -1).
      { assert (E : dot d (e1 n) = - (dot d d) / 2).
        { rewrite Hdd. unfold d. rewrite dot_vsub_l by lia. rewrite Hee. field. }
        rewrite E. unfold c. field. auto. }
      rewrite E. apply (vec_ext (S n)); auto; [rewrite vsub_length; rewrite ?vscale_length; lia|]. intros i Hi.
      rewrite nth_vsub by (rewrite vscale_length; lia). rewrite nth_vscale. unfold d. rewrite nth_vsub by lia. ring.
Qed.

Lemma sym_transpose n M : is_mat n n M -> (0 < n)%nat -> symmetric n M <-> transpose M = M.
Proof.
  intros HM Hn. split; intros H.
  - apply (mat_ext n n); auto; [apply is_mat_transpose; auto|]. intros i j Hi Hj.
    rewrite entry_transpose by (rewrite (is_mat_ncols _ _ _ HM); lia). now apply H.
  - intros i j Hi Hj. rewrite <- H at 2. rewrite entry_transpose by (rewrite (is_mat_ncols _ _ _ HM); lia). reflexivity.
Qed.

Lemma mul_ok n A B : is_mat n n A -> is_mat n n B -> (0 < n)%nat -> is_mat n n (mat_mul A B).
Proof. intros HA HB Hn. eapply is_mat_mat_mul; eauto. eapply is_mat_ncols; eauto. Qed.

(** a symmetric matrix that fixes the first axis up to a factor splits *)
Lemma split_first n N l : (0 < n)%nat -> is_mat (S n) (S n) N -> symmetric (S n) N -> mat_vec N (e1 n) = vscale l (e1 n) ->
  exists M, is_mat n n M /\ symmetric n M /\ N = bdiag n l M.
Proof.
  intros Hn HN HS HE.
  assert (HC : forall i, (i < S n)%nat -> entry N i 0 = nth i (vscale l (e1 n)) 0).
  { intros i Hi. rewrite <- HE, nth_mat_vec. rewrite (dot_rsum (S n)).
    - rewrite rsum_S_l. cbn [nth e1]. rewrite (rsum_zero n).
      + unfold entry. ring.
      + intros k Hk. unfold e1. cbn [nth]. rewrite nth_zeros. ring.
    - eapply is_mat_row; eauto.
    - cbn. now rewrite zeros_length. }
  set (M := map (fun i => map (fun j => entry N (S i) (S j)) (seq 0 n)) (seq 0 n)).
  assert (EM : forall i j, (i < n)%nat -> (j < n)%nat -> entry M i j = entry N (S i) (S j)).
  { intros i j Hi Hj. unfold entry at 1, M. rewrite nth_map_seq by auto. now rewrite nth_map_seq. }
  assert (HM : is_mat n n M).
  { apply is_mat_intro; [unfold M; now rewrite map_length, seq_length|]. intros i Hi. unfold M.
    rewrite nth_map_seq by auto. now rewrite map_length, seq_length. }
  exists M. split; [|split]; auto.
  - intros i j Hi Hj. rewrite !EM by auto. apply HS; lia.
  - apply (mat_ext (S n) (S n)); auto; [now apply bdiag_is_mat|]. intros i j Hi Hj. rewrite entry_bdiag by auto.
    destruct i as [|i], j as [|j].
    + rewrite HC by lia. cbn. ring.
    + rewrite HS by lia. rewrite HC by lia. cbn. replace (nth j (map (Rmult l) (zeros n)) 0) with (nth j (vscale l (zeros n)) 0) by reflexivity.
      rewrite nth_vscale, nth_zeros. ring.
    + rewrite HC by lia. cbn. replace (nth i (map (Rmult l) (zeros n)) 0) with (nth i (vscale l (zeros n)) 0) by reflexivity.
      rewrite nth_vscale, nth_zeros. ring.
    + rewrite EM by lia. reflexivity.
Qed.

Theorem spectral : forall n M, (0 < n)%nat -> is_mat n n M -> symmetric n M -> exists wV, eigh_spec n M wV.
Proof.
  induction n as [|n IH]; [lia|]. intros M _ HM HS.
  destruct (Nat.eq_dec n 0) as [->|Hn].
  - destruct HM as (L & HF). destruct (len1_inv M L) as [r ->]. inversion HF as [|? ? Hr _]; subst.
    destruct (len1_inv r Hr) as [a ->]. exists ([a], [[1]]). split; [reflexivity|]. split.
    + assert (is_mat 1 1 [[1]]) by (split; [reflexivity|repeat constructor]).
      split; [|split]; auto; cbn; unfold eye, mat_mul, vec_mat, dot; cbn; do 2 f_equal; ring.
    + cbn. unfold mat_mul, vec_mat, dot; cbn. do 2 f_equal; ring.
  - assert (Hn' : (0 < n)%nat) by lia.
    destruct (min_eigenvalue (S n) M ltac:(lia) HM HS) as (l & (x & Hx & Hx0 & Hl) & _).
    assert (Hxx : 0 < dot x x).
    { destruct (Req_dec (dot x x) 0) as [Z|Z]; [|pose proof (dot_self_nonneg x); lra].
      apply dot_self_zero in Z. rewrite Hx in Z. contradiction. }
    set (v := vscale (/ norm x) x).
    assert (Hnx : 0 < norm x) by (unfold norm; now apply sqrt_lt_R0).
    assert (Hv : length v = S n) by (unfold v; now rewrite vscale_length).
    assert (Hvv : dot v v = 1).
    { unfold v. rewrite dot_vscale_l, dot_vscale_r, <- norm_sqr. field. lra. }
    assert (Hlv : mat_vec M v = vscale l v).
    { unfold v. rewrite mat_vec_vscale, Hl, !vscale_vscale. f_equal. ring. }
    destruct (householder n v Hv Hvv) as (H & HO & HH). pose proof HO as (HHm & HtH & HHt).
    assert (HT : is_mat (S n) (S n) (transpose H)) by (apply is_mat_transpose; auto; lia).
    assert (He : length (e1 n) = S n) by (cbn; now rewrite zeros_length).
    set (N := mat_mul (mat_mul (transpose H) M) H).
    assert (HtM : is_mat (S n) (S n) (mat_mul (transpose H) M)) by (apply mul_ok; auto; lia).
    assert (HN : is_mat (S n) (S n) N) by (apply mul_ok; auto; lia).
    assert (HNS : symmetric (S n) N).
    { apply (proj2 (sym_transpose (S n) N HN ltac:(lia))). unfold N.
      rewrite (transpose_mat_mul (S n) (S n) (S n)) by (auto; lia).
      rewrite (transpose_mat_mul (S n) (S n) (S n)) by (auto; lia).
      rewrite (transpose_involutive (S n) (S n)) by (auto; lia).
      apply (proj1 (sym_transpose (S n) M HM ltac:(lia))) in HS. rewrite HS. symmetry.
      apply (mat_mul_assoc (S n) (S n) (S n) (S n)); auto; lia. }
    assert (HNe : mat_vec N (e1 n) = vscale l (e1 n)).
    { unfold N. rewrite (mat_vec_mat_mul (S n) (S n) (S n)) by auto. rewrite HH.
      rewrite (mat_vec_mat_mul (S n) (S n) (S n)) by auto. rewrite Hlv, mat_vec_vscale. f_equal.
      rewrite <- HH. rewrite <- (mat_vec_mat_mul (S n) (S n) (S n)) by auto. rewrite HtH. now apply mat_vec_eye. }
    destruct (split_first n N l Hn' HN HNS HNe) as (M' & HM' & HS' & EN).
    destruct (IH M' Hn' HM' HS') as ([w' V'] & Hw' & HV' & HE'). cbn [fst snd] in *.
    pose proof HV' as (HVm' & _).
    assert (HB : is_mat (S n) (S n) (bdiag n 1 V')) by now apply bdiag_is_mat.
    exists (l :: w', mat_mul H (bdiag n 1 V')). split; [|split]; cbn [fst snd].
    + cbn. now rewrite Hw'.
    + apply (orthogonal_mul (S n)); [exact HO| |lia]. now apply bdiag_orth.
    + assert (ED : mat_mul N (bdiag n 1 V') = mat_mul (bdiag n 1 V') (diag (l :: w'))).
      { rewrite EN, bdiag_diag, Hw'. assert (is_mat n n (diag w')) by (rewrite <- Hw'; apply is_mat_diag).
        rewrite !bdiag_mul by auto. rewrite HE'. f_equal. ring. }
      assert (EM : mat_mul M H = mat_mul H N).
      { unfold N. rewrite (mat_mul_assoc (S n) (S n) (S n) (S n) (transpose H)) by (auto; lia).
        rewrite <- (mat_mul_assoc (S n) (S n) (S n) (S n) H) by (auto; try apply mul_ok; auto; lia).
        rewrite HHt. symmetry. apply (mat_mul_eye_l (S n) (S n)); [apply mul_ok; auto; lia|lia]. }
      assert (HD : is_mat (S n) (S n) (diag (l :: w'))).
      { rewrite <- Hw'. apply (is_mat_diag (l :: w')). }
      rewrite <- (mat_mul_assoc (S n) (S n) (S n) (S n) M) by (auto; lia). rewrite EM.
      rewrite (mat_mul_assoc (S n) (S n) (S n) (S n) H N) by (auto; lia). rewrite ED.
      symmetry. apply (mat_mul_assoc (S n) (S n) (S n) (S n)); auto; lia.
Qed.
