(** Symmetric matrices in every dimension: decomposition of positive semidefinite matrices into
    outer products, margins of positive definite ones, the smallest eigenvalue. *)
From Verif Require Import Proofs.Coord.

Lemma pow2_nonneg (x : R) : 0 <= x * x.
Proof. apply sqr_nonneg. Qed.

(** ** quadratic forms on functions *)
Definition q (n : nat) (F : nat -> nat -> R) (x : nat -> R) : R :=
  rsum n (fun i => rsum n (fun j => x i * F i j * x j)).
Definition fsym (n : nat) (F : nat -> nat -> R) : Prop :=
  forall i j, (i < n)%nat -> (j < n)%nat -> F i j = F j i.
Definition fpsd (n : nat) (F : nat -> nat -> R) : Prop := fsym n F /\ forall x, 0 <= q n F x.

Definition shift {A} (f : nat -> A) : nat -> A := fun i => f (S i).
Definition fcons (a : R) (x : nat -> R) : nat -> R := fun i => match i with O => a | S j => x j end.
(** Schur complement of the (0, 0) entry *)
Definition fschur (F : nat -> nat -> R) : nat -> nat -> R :=
  fun i j => F (S i) (S j) - F O (S i) * F O (S j) / F O O.

Lemma q_ext n F G x y : (forall i j, (i < n)%nat -> (j < n)%nat -> F i j = G i j) ->
  (forall i, (i < n)%nat -> x i = y i) -> q n F x = q n G y.
Proof.
  intros HF Hx. apply rsum_ext. intros i Hi. apply rsum_ext. intros j Hj.
  rewrite HF, !Hx by auto. reflexivity.
Qed.
Lemma q_S n F x : fsym (S n) F ->
  q (S n) F x = F O O * x O * x O + 2 * x O * rsum n (fun j => F O (S j) * x (S j))
                + q n (fun i j => F (S i) (S j)) (shift x).
Proof.
  intros HS. unfold q. rewrite rsum_S_l. rewrite rsum_S_l.
  rewrite (rsum_ext n (fun i => rsum (S n) (fun j => x (S i) * F (S i) j * x j))
     (fun i => x O * (F O (S i) * x (S i)) + rsum n (fun j => x (S i) * F (S i) (S j) * x (S j)))).
  2:{ intros i Hi. rewrite rsum_S_l. rewrite (HS (S i) O) by lia. ring. }
  rewrite rsum_plus, rsum_scal.
  rewrite (rsum_ext n (fun i => x O * F O (S i) * x (S i)) (fun i => x O * (F O (S i) * x (S i))))
    by (intros; ring).
  rewrite rsum_scal. unfold shift. ring.
Qed.
Lemma rsum_sqr n f : rsum n f * rsum n f = rsum n (fun i => rsum n (fun j => f i * f j)).
Proof.
  rewrite <- rsum_scal_r. apply rsum_ext. intros i Hi. now rewrite rsum_scal.
Qed.
Lemma q_schur n F x : fsym (S n) F -> F O O <> 0 ->
  q (S n) F x =
  F O O * ((x O + rsum n (fun j => F O (S j) * x (S j)) / F O O)
           * (x O + rsum n (fun j => F O (S j) * x (S j)) / F O O))
  + q n (fschur F) (shift x).
Proof.
  intros HS Ha. rewrite q_S by auto. set (b := rsum n (fun j => F O (S j) * x (S j))).
  assert (E : q n (fschur F) (shift x) = q n (fun i j => F (S i) (S j)) (shift x) - b * b / F O O).
  { unfold b. rewrite rsum_sqr. unfold Rdiv. rewrite <- rsum_scal_r. unfold q. rewrite <- rsum_minus.
    apply rsum_ext. intros i Hi. rewrite <- rsum_scal_r, <- rsum_minus. apply rsum_ext. intros j Hj.
    unfold fschur, shift. field. auto. }
  rewrite E. field. auto.
Qed.
Lemma fschur_sym n F : fsym (S n) F -> fsym n (fschur F).
Proof.
  intros HS i j Hi Hj. unfold fschur. rewrite (HS (S i) (S j)) by lia. unfold Rdiv. ring.
Qed.
Lemma fschur_psd n F : fpsd (S n) F -> 0 < F O O -> fpsd n (fschur F).
Proof.
  intros [HS HP] Ha. split; [now apply fschur_sym|]. intros x.
  pose proof (HP (fcons (- (rsum n (fun j => F O (S j) * x j) / F O O)) x)) as H.
  rewrite q_schur in H by (auto; lra). cbn [fcons] in H.
  replace (- (rsum n (fun j => F O (S j) * x j) / F O O) + rsum n (fun j => F O (S j) * x j) / F O O)
    with 0 in H by ring.
  unfold shift in H. change (fun i => fcons _ x (S i)) with x in H. cbn in H. lra.
Qed.
Lemma q_delta n F k : (k < n)%nat -> q n F (fun i => if Nat.eqb i k then 1 else 0) = F k k.
Proof.
  intros Hk. unfold q.
  rewrite (rsum_ext n _ (fun i => if Nat.eqb i k then F i k else 0)).
  - now rewrite rsum_delta.
  - intros i Hi. destruct (Nat.eqb i k).
    + rewrite (rsum_ext n _ (fun j => if Nat.eqb j k then F i j else 0)).
      * now rewrite rsum_delta.
      * intros j Hj. destruct (Nat.eqb j k); ring.
    + apply rsum_zero. intros; ring.
Qed.
Lemma fpsd_diag n F k : fpsd n F -> (k < n)%nat -> 0 <= F k k.
Proof. intros [_ HP] Hk. rewrite <- (q_delta n F k Hk). apply HP. Qed.
Lemma fpsd_sub n F : fpsd (S n) F -> fpsd n (fun i j => F (S i) (S j)).
Proof.
  intros [HS HP]. split.
  - intros i j Hi Hj. apply HS; lia.
  - intros x. pose proof (HP (fcons 0 x)) as H. rewrite q_S in H by auto. cbn [fcons] in H.
    change (shift (fcons 0 x)) with x in H. lra.
Qed.
Lemma fpsd_zero_row n F : fpsd (S n) F -> F O O = 0 -> forall j, (j < n)%nat -> F O (S j) = 0.
Proof.
  intros [HS HP] H0 j Hj. destruct (Req_dec (F O (S j)) 0) as [|Hne]; auto. exfalso.
  set (d := F (S j) (S j)).
  assert (Hd : forall t, 0 <= 2 * t * F O (S j) + d).
  { intros t. pose proof (HP (fcons t (fun i => if Nat.eqb i j then 1 else 0))) as H.
    rewrite q_S in H by auto. cbn [fcons] in H. rewrite H0 in H.
    change (shift (fcons t ?f)) with f in H. rewrite (q_delta n (fun i j => F (S i) (S j)) j Hj) in H.
    rewrite (rsum_ext n _ (fun i => if Nat.eqb i j then F O (S i) else 0)) in H.
    - rewrite rsum_delta in H by auto. unfold d. lra.
    - intros i Hi. destruct (Nat.eqb i j); ring. }
  specialize (Hd (- (d + 1) / (2 * F O (S j)))).
  replace (2 * (- (d + 1) / (2 * F O (S j))) * F O (S j)) with (- (d + 1)) in Hd by (field; auto). lra.
Qed.

(** every PSD matrix is a sum of n outer products *)
Lemma fpsd_decompose n F : fpsd n F ->
  exists vs : list (nat -> R), length vs = n /\
    forall i j, (i < n)%nat -> (j < n)%nat -> F i j = lsum (map (fun v => v i * v j) vs).
Proof.
  revert F; induction n as [|n IH]; intros F HF.
  - exists []. split; auto. intros; lia.
  - pose proof (fpsd_diag _ _ O HF ltac:(lia)) as Ha. destruct (Req_dec (F O O) 0) as [E|E].
    + destruct (IH _ (fpsd_sub _ _ HF)) as (vs & Hl & Hv).
      exists ((fun _ => 0) :: map (fcons 0) vs). split; [cbn; rewrite map_length; auto|].
      assert (Z : forall f : (nat -> R) -> R, (forall v, f (fcons 0 v) = 0) -> lsum (map f (map (fcons 0) vs)) = 0).
      { intros f Hf. rewrite map_map. apply lsum_map_zero. intros; apply Hf. }
      assert (K : forall f v, lsum (map f (v :: map (fcons 0) vs)) = f v + lsum (map f (map (fcons 0) vs)))
        by reflexivity.
      intros [|i] [|j] Hi Hj; rewrite K.
      * rewrite Z; [lra|intros; cbn; ring].
      * rewrite Z; [|intros; cbn; ring]. rewrite (fpsd_zero_row n F) by (auto; lia). ring.
      * rewrite Z; [|intros; cbn; ring]. destruct HF as [HS HP].
        rewrite (HS (S i) O) by lia. rewrite (fpsd_zero_row n F) by (try split; auto; lia). ring.
      * rewrite map_map. cbn [fcons]. rewrite <- Hv by lia. ring.
    + assert (Ha' : 0 < F O O) by lra.
      destruct (IH _ (fschur_psd _ _ HF Ha')) as (vs & Hl & Hv).
      set (s := sqrt (F O O)).
      assert (Hs : s * s = F O O) by (apply sqrt_sqrt; lra).
      assert (Hs0 : 0 < s) by (apply sqrt_lt_R0; auto).
      exists ((fun i => F O i / s) :: map (fcons 0) vs). split; [cbn; rewrite map_length; auto|].
      assert (Z : forall f : (nat -> R) -> R, (forall v, f (fcons 0 v) = 0) -> lsum (map f (map (fcons 0) vs)) = 0).
      { intros f Hf. rewrite map_map. apply lsum_map_zero. intros; apply Hf. }
      assert (K : forall f v, lsum (map f (v :: map (fcons 0) vs)) = f v + lsum (map f (map (fcons 0) vs)))
        by reflexivity.
      intros [|i] [|j] Hi Hj; rewrite K.
      * rewrite Z; [|intros; cbn; ring]. rewrite <- Hs. field. lra.
      * rewrite Z; [|intros; cbn; ring]. rewrite <- Hs. field. lra.
      * rewrite Z; [|intros; cbn; ring]. destruct HF as [HS HP].
        rewrite (HS (S i) O) by lia. rewrite <- Hs. field. lra.
      * rewrite map_map. cbn [fcons]. rewrite <- Hv by lia. unfold fschur. rewrite <- Hs. field. lra.
Qed.

(** positive definite matrices have a margin *)
Definition fpd (n : nat) (F : nat -> nat -> R) : Prop :=
  fsym n F /\ forall x, (exists i, (i < n)%nat /\ x i <> 0) -> 0 < q n F x.

Lemma rsum_cs n f g :
  rsum n (fun i => f i * g i) * rsum n (fun i => f i * g i) <=
  rsum n (fun i => f i * f i) * rsum n (fun i => g i * g i).
Proof.
  pose proof (cauchy_schwarz (map f (seq 0 n)) (map g (seq 0 n))) as H.
  rewrite !(dot_rsum n) in H by (rewrite map_length, seq_length; auto).
  rewrite (rsum_ext n (fun i => nth i (map f (seq 0 n)) 0 * nth i (map g (seq 0 n)) 0)
     (fun i => f i * g i)) in H by (intros; rewrite !nth_map_seq by auto; auto).
  rewrite (rsum_ext n (fun i => nth i (map f (seq 0 n)) 0 * nth i (map f (seq 0 n)) 0)
     (fun i => f i * f i)) in H by (intros; rewrite !nth_map_seq by auto; auto).
  rewrite (rsum_ext n (fun i => nth i (map g (seq 0 n)) 0 * nth i (map g (seq 0 n)) 0)
     (fun i => g i * g i)) in H by (intros; rewrite !nth_map_seq by auto; auto).
  exact H.
Qed.

Lemma fpd_margin n F : fpd n F -> exists d, 0 < d /\ forall x, d * rsum n (fun i => x i * x i) <= q n F x.
Proof.
  revert F; induction n as [|n IH]; intros F [HS HP].
  - exists 1. split; [lra|]. intros x. unfold q. cbn. lra.
  - assert (Ha : 0 < F O O).
    { rewrite <- (q_delta (S n) F O) by lia. apply HP. exists O. split; [lia|]. cbn. lra. }
    destruct (IH (fschur F)) as (d' & Hd' & H').
    { split; [now apply fschur_sym|]. intros x (i & Hi & Hx).
      pose proof (HP (fcons (- (rsum n (fun j => F O (S j) * x j) / F O O)) x)) as H.
      rewrite q_schur in H by (auto; lra). cbn [fcons] in H.
      replace (- (rsum n (fun j => F O (S j) * x j) / F O O) + rsum n (fun j => F O (S j) * x j) / F O O)
        with 0 in H by ring.
      change (shift (fcons _ x)) with x in H.
      assert (0 < F O O * (0 * 0) + q n (fschur F) x); [|lra].
      apply H. exists (S i). split; [lia|]. exact Hx. }
    set (a := F O O) in *. set (B := rsum n (fun j => F O (S j) * F O (S j))).
    assert (HB : 0 <= B) by (apply rsum_nonneg; intros; apply sqr_nonneg).
    set (K := 2 * B / (a * a) + 1).
    assert (HK : 1 <= K).
    { unfold K. assert (0 <= 2 * B / (a * a)); [|lra]. apply Rmult_le_pos; [lra|]. left.
      apply Rinv_0_lt_compat. nra. }
    exists (Rmin (a / 2) (d' / K)). split.
    { apply Rmin_pos; [lra|]. apply Rdiv_lt_0_compat; lra. }
    assert (Hne : F O O <> 0) by (apply Rgt_not_eq; exact Ha).
    intros x. rewrite q_schur by auto. fold a. rewrite rsum_S_l.
    set (w := rsum n (fun j => F O (S j) * x (S j))). set (N := rsum n (fun i => x (S i) * x (S i))).
    assert (HN : 0 <= N) by (apply rsum_nonneg; intros; apply sqr_nonneg).
    assert (Hw : w * w <= B * N) by apply rsum_cs.
    specialize (H' (shift x)). change (rsum n (fun i => shift x i * shift x i)) with N in H'.
    set (u := x O + w / a). set (Q := q n (fschur F) (shift x)) in *.
    set (d := Rmin (a / 2) (d' / K)).
    assert (Hd1 : d <= a / 2) by apply Rmin_l. assert (Hd2 : d <= d' / K) by apply Rmin_r.
    assert (Hd0 : 0 < d). { apply Rmin_pos; [lra|]. apply Rdiv_lt_0_compat; lra. }
    assert (Hx0 : x O * x O + N <= 2 * (u * u) + K * N).
    { assert (E : x O = u - w / a) by (unfold u; ring).
      assert (x O * x O <= 2 * (u * u) + 2 * ((w / a) * (w / a))).
      { rewrite E. pose proof (sqr_nonneg (u + w / a)). lra. }
      assert ((w / a) * (w / a) <= B / (a * a) * N).
      { replace ((w / a) * (w / a)) with ((w * w) * / (a * a)) by (field; lra).
        replace (B / (a * a) * N) with ((B * N) * / (a * a)) by (field; lra).
        apply Rmult_le_compat_r; auto. left. apply Rinv_0_lt_compat. nra. }
      unfold K. lra. }
    assert (d * (x O * x O + N) <= d * (2 * (u * u) + K * N)) by (apply Rmult_le_compat_l; lra).
    assert (d * (2 * (u * u)) <= a * (u * u)). { pose proof (sqr_nonneg u). replace (d * (2 * (u * u))) with ((2 * d) * (u * u)) by ring.
      apply Rmult_le_compat_r; lra. }
    assert (d * (K * N) <= d' * N).
    { replace (d' * N) with ((d' / K) * (K * N)) by (field; lra).
      apply Rmult_le_compat_r; auto. apply Rmult_le_pos; lra. }
    lra.
Qed.

(** ** bridge to list matrices *)
Lemma quad_q n M x : is_mat n n M -> length x = n -> quad M x = q n (entry M) (fun i => nth i x 0).
Proof.
  intros HM Hx. unfold quad. pose proof (is_mat_length _ _ _ HM).
  rewrite (dot_rsum n) by len. unfold q. apply rsum_ext. intros i Hi.
  rewrite nth_mat_vec, (dot_rsum n) by (auto; eapply is_mat_row; eauto).
  rewrite <- rsum_scal. apply rsum_ext. intros j Hj. unfold entry. ring.
Qed.
Lemma fpsd_of_PSD n M : PSD n M -> fpsd n (entry M).
Proof.
  intros (HM & HS & HP). split; auto. intros x.
  specialize (HP (map x (seq 0 n))). rewrite map_length, seq_length in HP. specialize (HP eq_refl).
  rewrite (quad_q n) in HP by (auto; rewrite map_length, seq_length; auto).
  erewrite q_ext; [exact HP|auto|]. intros i Hi. cbv beta. now rewrite nth_map_seq.
Qed.
Lemma PSD_of_fpsd n M : is_mat n n M -> fpsd n (entry M) -> PSD n M.
Proof.
  intros HM [HS HP]. split; auto. split; auto. intros x Hx. rewrite (quad_q n) by auto. apply HP.
Qed.

Lemma PSD_decompose n M : PSD n M -> exists vs : list vec, length vs = n /\
  (forall v, In v vs -> length v = n) /\
  forall i j, (i < n)%nat -> (j < n)%nat -> entry M i j = lsum (map (fun v => nth i v 0 * nth j v 0) vs).
Proof.
  intros H. destruct (fpsd_decompose n _ (fpsd_of_PSD _ _ H)) as (vs & Hl & Hv).
  exists (map (fun v => map v (seq 0 n)) vs). split; [now rewrite map_length|]. split.
  - intros v Hin. apply in_map_iff in Hin as (f & <- & _). now rewrite map_length, seq_length.
  - intros i j Hi Hj. rewrite Hv, map_map by auto. apply lsum_map_ext. intros f _.
    now rewrite !nth_map_seq.
Qed.

Lemma PSD_of_decomposition n M vs : is_mat n n M -> (forall v, In v vs -> length v = n) ->
  (forall i j, (i < n)%nat -> (j < n)%nat -> entry M i j = lsum (map (fun v => nth i v 0 * nth j v 0) vs)) ->
  PSD n M /\ forall x, length x = n -> quad M x = lsum (map (fun v => dot v x * dot v x) vs).
Proof.
  intros HM Hvs HE.
  assert (K : forall x, length x = n -> quad M x = lsum (map (fun v => dot v x * dot v x) vs)).
  { intros x Hx. rewrite (quad_q n) by auto. unfold q.
    rewrite (rsum_ext n _ (fun i => rsum n (fun j =>
      lsum (map (fun v => (nth i v 0 * nth i x 0) * (nth j v 0 * nth j x 0)) vs)))).
    2:{ intros i Hi. apply rsum_ext. intros j Hj. rewrite HE by auto.
        transitivity (nth i x 0 * nth j x 0 * lsum (map (fun v => nth i v 0 * nth j v 0) vs)); [ring|].
        rewrite <- lsum_map_scal. apply lsum_map_ext. intros; ring. }
    clear HE. induction vs as [|v vs IH].
    - cbn. apply rsum_zero. intros; apply rsum_zero; auto.
    - cbn [map lsum fold_right]. change (fold_right Rplus 0) with lsum.
      rewrite <- IH by (intros; apply Hvs; right; auto).
      rewrite (dot_rsum n v x) by (auto; apply Hvs; left; auto). rewrite rsum_sqr, <- rsum_plus.
      apply rsum_ext. intros i Hi. rewrite <- rsum_plus. reflexivity. }
  split; auto. split; auto. split.
  - intros i j Hi Hj. rewrite !HE by auto. apply lsum_map_ext. intros; ring.
  - intros x Hx. rewrite K by auto. apply lsum_nonneg. intros y Hy.
    apply in_map_iff in Hy as (v & <- & _). apply sqr_nonneg.
Qed.

(** Cauchy-Schwarz for a PSD form, and its kernel *)
Lemma sym_bilin n M x y : is_mat n n M -> symmetric n M -> length x = n -> length y = n ->
  dot y (mat_vec M x) = dot x (mat_vec M y).
Proof.
  intros HM HS Hx Hy. rewrite (dot_mat_vec_t n n) by auto.
  rewrite (symmetric_transpose n M) by auto. apply dot_comm.
Qed.
Lemma quad_vadd n M x y : is_mat n n M -> symmetric n M -> length x = n -> length y = n ->
  quad M (vadd x y) = quad M x + 2 * dot x (mat_vec M y) + quad M y.
Proof.
  intros HM HS Hx Hy. pose proof (is_mat_length _ _ _ HM). unfold quad. rewrite mat_vec_vadd by congruence.
  rewrite dot_vadd_l by congruence. rewrite !dot_vadd_r by len.
  rewrite (sym_bilin n M x y) by auto. ring.
Qed.
Lemma PSD_cauchy n M x y : PSD n M -> length x = n -> length y = n ->
  dot x (mat_vec M y) * dot x (mat_vec M y) <= quad M x * quad M y.
Proof.
  intros (HM & HS & HP) Hx Hy.
  set (b := dot x (mat_vec M y)). set (a := quad M x). set (c := quad M y).
  assert (Ha : 0 <= a) by (apply HP; auto). assert (Hc : 0 <= c) by (apply HP; auto).
  assert (Q : forall t, 0 <= a + 2 * t * b + t * t * c).
  { intros t. pose proof (HP (vadd x (vscale t y))) as H. rewrite vadd_length in H by len.
    specialize (H Hx). rewrite (quad_vadd n) in H by (auto; len).
    rewrite mat_vec_vscale, dot_vscale_r, quad_vscale in H. unfold a, b, c. lra. }
  destruct (Req_dec c 0) as [E|E].
  - destruct (Req_dec b 0) as [Eb|Eb]; [rewrite Eb; nra|].
    specialize (Q (- (a + 1) / (2 * b))). rewrite E in Q.
    replace (2 * (- (a + 1) / (2 * b)) * b) with (- (a + 1)) in Q by (field; auto). lra.
  - specialize (Q (- b / c)).
    replace (a + 2 * (- b / c) * b + (- b / c) * (- b / c) * c) with ((a * c - b * b) / c) in Q by (field; auto).
    assert (0 <= a * c - b * b); [|lra].
    apply (Rmult_le_compat_r c) in Q; auto. unfold Rdiv in Q. rewrite Rmult_assoc, Rinv_l in Q by auto. lra.
Qed.
Lemma PSD_kernel n M x : PSD n M -> length x = n -> quad M x = 0 -> mat_vec M x = zeros n.
Proof.
  intros HM Hx H0. pose proof HM as (Hm & HS & HP). pose proof (is_mat_length _ _ _ Hm) as HL.
  assert (Hy : length (mat_vec M x) = n) by len.
  pose proof (PSD_cauchy n M (mat_vec M x) x HM Hy Hx) as H. rewrite H0, Rmult_0_r in H.
  assert (E : dot (mat_vec M x) (mat_vec M x) = 0).
  { pose proof (dot_self_nonneg (mat_vec M x)). nra. }
  apply dot_self_zero in E. now rewrite Hy in E.
Qed.

(** ** smallest eigenvalue *)
Definition shiftm (M : mat) (l : R) (n : nat) : mat := msub M (mscale l (eye n)).
Lemma shiftm_is_mat n M l : is_mat n n M -> is_mat n n (shiftm M l n).
Proof. intros H. apply is_mat_msub; auto. apply is_mat_mscale, is_mat_eye. Qed.
Lemma quad_shiftm n M l x : is_mat n n M -> length x = n ->
  quad (shiftm M l n) x = quad M x - l * dot x x.
Proof.
  intros HM Hx. unfold shiftm. rewrite (quad_msub n n) by (auto using is_mat_mscale, is_mat_eye).
  now rewrite quad_mscale, quad_eye.
Qed.
Lemma shiftm_sym n M l : is_mat n n M -> symmetric n M -> symmetric n (shiftm M l n).
Proof.
  intros HM HS i j Hi Hj. unfold shiftm.
  rewrite !(entry_msub _ _ n n) by (auto using is_mat_mscale, is_mat_eye).
  rewrite !entry_mscale, !entry_eye, (HS i j) by auto. rewrite Nat.eqb_sym. reflexivity.
Qed.
Lemma mat_vec_shiftm n M l x : is_mat n n M -> length x = n ->
  mat_vec (shiftm M l n) x = vsub (mat_vec M x) (vscale l x).
Proof.
  intros HM Hx. unfold shiftm. rewrite (mat_vec_msub n n) by (auto using is_mat_mscale, is_mat_eye).
  now rewrite mat_vec_mscale, mat_vec_eye.
Qed.

Lemma quad_lower n M x : is_mat n n M -> length x = n ->
  - (rsum n (fun i => rsum n (fun j => Rabs (entry M i j)))) * dot x x <= quad M x.
Proof.
  intros HM Hx. rewrite (quad_q n), (dot_rsum n) by auto.
  set (N := rsum n (fun i => nth i x 0 * nth i x 0)).
  assert (HN : forall i, (i < n)%nat -> nth i x 0 * nth i x 0 <= N).
  { intros i Hi. apply (rsum_term_le n (fun i => nth i x 0 * nth i x 0)); auto. intros; apply sqr_nonneg. }
  unfold q.
  replace (- rsum n (fun i => rsum n (fun j => Rabs (entry M i j))) * N)
    with (rsum n (fun i => rsum n (fun j => - N * Rabs (entry M i j)))).
  2:{ rewrite (rsum_ext n _ (fun i => - N * rsum n (fun j => Rabs (entry M i j))))
        by (intros; apply rsum_scal). rewrite rsum_scal. ring. }
  apply rsum_le. intros i Hi. apply rsum_le. intros j Hj.
  pose proof (HN i Hi). pose proof (HN j Hj).
  set (a := nth i x 0) in *. set (b := nth j x 0) in *. set (e := entry M i j).
  assert (Hab : Rabs (a * b) <= N).
  { apply Rabs_le. pose proof (sqr_nonneg (a + b)). pose proof (sqr_nonneg (a - b)). split; nra. }
  assert (Rabs (a * e * b) <= N * Rabs e).
  { replace (a * e * b) with ((a * b) * e) by ring. rewrite Rabs_mult.
    apply Rmult_le_compat_r; auto. apply Rabs_pos. }
  apply abs_le_inv in H1. lra.
Qed.

Lemma min_eigenvalue n M : (0 < n)%nat -> is_mat n n M -> symmetric n M ->
  exists l, is_eigenvalue n M l /\ forall x, length x = n -> l * dot x x <= quad M x.
Proof.
  intros Hn HM HS.
  set (E := fun l => forall x, length x = n -> l * dot x x <= quad M x).
  assert (HE : exists l, E l).
  { exists (- (rsum n (fun i => rsum n (fun j => Rabs (entry M i j))))). intros x Hx. now apply quad_lower. }
  set (e0 := map (fun i => if Nat.eqb i 0 then 1 else 0) (seq 0 n)).
  assert (He0 : length e0 = n) by (unfold e0; now rewrite map_length, seq_length).
  assert (Hd0 : dot e0 e0 = 1).
  { rewrite (dot_rsum n) by auto.
    rewrite (rsum_ext n _ (fun i => if Nat.eqb i 0 then 1 else 0)).
    - now rewrite rsum_delta.
    - intros i Hi. unfold e0. rewrite nth_map_seq by auto. destruct (Nat.eqb i 0); ring. }
  assert (HB : bound E).
  { exists (quad M e0). intros l Hl. specialize (Hl e0 He0). rewrite Hd0 in Hl. lra. }
  destruct (completeness E HB HE) as (l & Hub & Hlub).
  assert (HEl : E l).
  { intros x Hx. pose proof (dot_self_nonneg x) as Hx0. destruct (Req_dec (dot x x) 0) as [Z|Z].
    - rewrite Z. destruct HE as [l' Hl']. specialize (Hl' x Hx). rewrite Z in Hl'. lra.
    - assert (l <= quad M x / dot x x).
      { apply Hlub. intros l' Hl'. specialize (Hl' x Hx).
        apply (Rmult_le_reg_r (dot x x)); [lra|]. unfold Rdiv. rewrite Rmult_assoc, Rinv_l by auto. lra. }
      apply (Rmult_le_compat_r (dot x x)) in H; auto. unfold Rdiv in H.
      rewrite Rmult_assoc, Rinv_l in H by auto. lra. }
  exists l. split; auto.
  (* the shifted matrix is PSD; if it had no kernel it would have a margin *)
  set (N := shiftm M l n).
  assert (HN : is_mat n n N) by (apply shiftm_is_mat; auto).
  assert (HNP : PSD n N).
  { split; auto. split; [apply shiftm_sym; auto|]. intros x Hx. unfold N.
    rewrite quad_shiftm by auto. specialize (HEl x Hx). lra. }
  destruct (Classical_Prop.classic (exists x, length x = n /\ x <> zeros n /\ quad N x = 0))
    as [(x & Hx & Hne & Hq)|Hno].
  - exists x. split; auto. split; auto. apply (PSD_kernel n N x HNP Hx) in Hq.
    unfold N in Hq. rewrite mat_vec_shiftm in Hq by auto.
    pose proof (is_mat_length _ _ _ HM).
    apply vsub_eq_zero; [len|]. rewrite Hq. f_equal. len.
  - exfalso. destruct (fpd_margin n (entry N)) as (d & Hd & Hm).
    { split; [apply HNP|]. intros x (i & Hi & Hxi).
      set (y := map x (seq 0 n)).
      assert (Hy : length y = n) by (unfold y; now rewrite map_length, seq_length).
      assert (Hq : q n (entry N) x = quad N y).
      { rewrite (quad_q n) by auto. apply q_ext; auto. intros k Hk. unfold y. now rewrite nth_map_seq. }
      rewrite Hq. destruct HNP as (_ & _ & HP). specialize (HP y Hy).
      destruct (Req_dec (quad N y) 0) as [Z|Z]; [|lra]. exfalso. apply Hno. exists y.
      repeat split; auto. intros Hz. apply Hxi.
      assert (E1 : nth i y 0 = 0) by (rewrite Hz; apply nth_zeros).
      unfold y in E1. now rewrite nth_map_seq in E1. }
    assert (E (l + d)).
    { intros x Hx. specialize (Hm (fun i => nth i x 0)). rewrite <- (quad_q n), <- (dot_rsum n) in Hm by auto.
      unfold N in Hm. rewrite quad_shiftm in Hm by auto. lra. }
    apply Hub in H. lra.
Qed.
