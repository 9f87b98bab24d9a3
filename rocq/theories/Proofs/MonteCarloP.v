(** C101: the sampled inertia matrices. *)
From Coq Require Import Permutation.
From Verif Require Import Base.Vec Base.VecFacts Spec.Basic Spec.Shapes Spec.ShapeObjects Spec.Integrals Spec.RandomSpec Spec.Uniform Spec.Expect
  Model.Util Model.Polydd Model.Poly Model.Inertial Model.Ellipsoid Model.Box Model.Cylinder Model.Random Model.MonteCarlo
  Proofs.Coord Proofs.Hull Proofs.BoxP Proofs.DensityP Proofs.RandomP Proofs.RandomS Proofs.UniformP Proofs.Decomp Proofs.TheoryR Proofs.ExpectP.

(** ** listing outcomes by kind *)
Fixpoint expand (k : nat) (counts : list nat) : list nat :=
  match counts with [] => [] | c :: r => repeat k c ++ expand (S k) r end.
Lemma expand_length counts : forall k, length (expand k counts) = fold_right Nat.add 0%nat counts.
Proof. induction counts; intro k; cbn; auto. now rewrite app_length, repeat_length, IHcounts. Qed.
Lemma expand_nth counts : forall s k j, (k < length counts)%nat -> of_kind counts k j -> nth j (expand s counts) 0%nat = (s + k)%nat.
Proof.
  unfold of_kind. induction counts as [|c r IH]; intros s k j Hk Hj; cbn in Hk; [lia|]. cbn [expand]. destruct k as [|k].
  - cbn in Hj. rewrite app_nth1 by (rewrite repeat_length; lia). rewrite Nat.add_0_r. rewrite (nth_indep _ 0%nat s) by (rewrite repeat_length; lia). apply nth_repeat.
  - cbn [firstn fold_right] in Hj. rewrite app_nth2 by (rewrite repeat_length; lia). rewrite repeat_length. rewrite (IH (S s) k) by (cbn [firstn fold_right]; lia). lia.
Qed.
Lemma kind_exists counts : forall j, (j < fold_right Nat.add 0 counts)%nat -> exists k, (k < length counts)%nat /\ of_kind counts k j.
Proof.
  unfold of_kind. induction counts as [|c r IH]; intros j Hj; cbn [fold_right] in Hj; [lia|].
  destruct (Nat.lt_ge_cases j c) as [H|H]; [exists 0%nat; cbn; lia|].
  destruct (IH (j - c)%nat ltac:(lia)) as (k & Hk & K). exists (S k). split; [cbn; lia|]. cbn [firstn fold_right] in *. lia.
Qed.
Lemma expand_in counts : forall s k, In k (expand s counts) -> (s <= k < s + length counts)%nat.
Proof.
  induction counts as [|c r IH]; intros s k H; cbn in H; [easy|]. apply in_app_or in H as [H|H]; [apply repeat_spec in H; cbn; lia|].
  apply IH in H. cbn. lia.
Qed.
Lemma expand_sum m counts : forall s, lsum (map m (expand s counts)) = lsum (map2 (fun c k => INR c * m k) counts (seq s (length counts))).
Proof.
  assert (LC : forall a l, lsum (a :: l) = a + lsum l) by reflexivity.
  induction counts as [|c r IH]; intro s; [reflexivity|]. cbn [expand length seq map2]. rewrite map_app, lsum_app, IH, LC. f_equal.
  clear. assert (LC : forall a l, lsum (a :: l) = a + lsum l) by reflexivity. induction c; [cbn [repeat map]; change (lsum []) with 0; change (INR 0) with 0; ring|]. cbn [repeat map]. rewrite LC, IHc, S_INR. ring.
Qed.
Lemma tally_sum m K s : (forall k, In k s -> (k < K)%nat) -> lsum (map m (expand 0 (tally K s))) = lsum (map m s).
Proof.
  intro H. rewrite expand_sum. unfold tally. rewrite map_length, seq_length.
  assert (LC : forall a l, lsum (a :: l) = a + lsum l) by reflexivity.
  assert (E : forall l, lsum (map2 (fun c k => INR c * m k) (map (count_occ Nat.eq_dec s) l) l) = lsum (map (fun k => INR (count_occ Nat.eq_dec s k) * m k) l)).
  { induction l as [|a l IH]; [reflexivity|]. cbn [map map2]. rewrite !LC, IH. reflexivity. }
  rewrite E. clear E. induction s as [|a s IH].
  - cbn [count_occ map]. change (lsum []) with 0. apply lsum_map_zero. intros. change (INR 0) with 0. ring.
  - cbn [map]. rewrite LC, <- IH by (intros; apply H; now right). specialize (H a (or_introl eq_refl)). clear IH.
    assert (G : forall K b, (b <= a)%nat -> (a < b + K)%nat -> lsum (map (fun k => INR (count_occ Nat.eq_dec (a :: s) k) * m k) (seq b K)) = m a + lsum (map (fun k => INR (count_occ Nat.eq_dec s k) * m k) (seq b K))).
    2:{ apply G; lia. }
    clear K H. assert (T : forall K b, (a < b)%nat -> lsum (map (fun k => INR (count_occ Nat.eq_dec (a :: s) k) * m k) (seq b K)) = lsum (map (fun k => INR (count_occ Nat.eq_dec s k) * m k) (seq b K))).
    { induction K; intros b Hb; [reflexivity|]. cbn [seq map]. rewrite !LC, IHK by lia. rewrite count_occ_cons_neq by lia. reflexivity. }
    induction K; intros b H1 H2; [lia|]. cbn [seq map]. rewrite !LC. destruct (Nat.eq_dec a b) as [->|N].
    + rewrite T by lia. rewrite count_occ_cons_eq by reflexivity. rewrite S_INR. ring.
    + rewrite IHK by lia. rewrite count_occ_cons_neq by lia. ring.
Qed.
Lemma tally_draw K s : (forall k, In k s -> (k < K)%nat) -> multinomial_draw (length s) K (tally K s).
Proof.
  intro H. split; [unfold tally; now rewrite map_length, seq_length|]. apply INR_eq.
  pose proof (tally_sum (fun _ => 1) K s H) as E.
  assert (C : forall l : list nat, lsum (map (fun _ => 1) l) = INR (length l)).
  { induction l as [|a l IH]; [reflexivity|]. cbn [map length]. rewrite S_INR, <- IH. unfold lsum. cbn. ring. }
  rewrite !C, expand_length in E. exact E.
Qed.

(** ** the entries of the sampled inertia matrix *)
Definition gI (i j : nat) (p : vec) : R := (if Nat.eqb i j then nth 0 p 0 * nth 0 p 0 + nth 1 p 0 * nth 1 p 0 + nth 2 p 0 * nth 2 p 0 else 0) - nth i p 0 * nth j p 0.
Lemma sampled_entry n P i j : (0 < n)%nat -> length P = n -> (forall p, In p P -> length p = 3%nat) -> (i < 3)%nat -> (j < 3)%nat ->
  exists A, sampled_inertia n P = Ok A /\ entry A i j = / INR n * lsum (map (gI i j) P).
Proof.
  intros Hn LP H3 Hi Hj. unfold sampled_inertia. rewrite (proj2 (Nat.eqb_neq n 0)) by lia. eexists. split; [reflexivity|].
  assert (MP : is_mat n 3 P). { split; [exact LP|]. apply Forall_forall. exact H3. }
  pose proof (is_mat_ncols _ _ _ MP Hn) as NC.
  assert (E : forall a b, (a < 3)%nat -> (b < 3)%nat -> entry (mat_mul (transpose P) P) a b = lsum (map (fun p => nth a p 0 * nth b p 0) P)).
  { intros a b Ha Hb. rewrite entry_mat_mul by (rewrite ?transpose_length, ?NC; auto). rewrite nth_transpose by (rewrite NC; auto).
    unfold dot. clear. assert (LC : forall a l, lsum (a :: l) = a + lsum l) by reflexivity. unfold vmul, col. induction P as [|p P IH]; [reflexivity|]. cbn [map map2]. now rewrite !LC, IH. }
  assert (MT : is_mat 3 3 (mat_mul (transpose P) P)).
  { apply (is_mat_mul 3 n 3); auto. now apply is_mat_transpose. }
  destruct (mat33_inv _ MT) as (q1 & q2 & q3 & q4 & q5 & q6 & q7 & q8 & q9 & EQ). rewrite EQ in *.
  assert (SP : forall w, lsum (map (fun p => w 0%nat * (nth 0 p 0 * nth 0 p 0) + w 1%nat * (nth 1 p 0 * nth 1 p 0) + w 2%nat * (nth 2 p 0 * nth 2 p 0) - nth i p 0 * nth j p 0) P) =
    w 0%nat * q1 + w 1%nat * q5 + w 2%nat * q9 - entry [[q1; q2; q3]; [q4; q5; q6]; [q7; q8; q9]] i j).
  { intro w. rewrite E by auto. pose proof (E 0 0 ltac:(lia) ltac:(lia))%nat as E0. pose proof (E 1 1 ltac:(lia) ltac:(lia))%nat as E1. pose proof (E 2 2 ltac:(lia) ltac:(lia))%nat as E2.
    unfold entry in E0, E1, E2. cbn in E0, E1, E2. rewrite E0, E1, E2. clear.
    assert (LC : forall a l, lsum (a :: l) = a + lsum l) by reflexivity. induction P as [|p P IH]; [unfold lsum; cbn; ring|]. cbn [map]. rewrite !LC, IH. ring. }
  assert (G : lsum (map (gI i j) P) = (if Nat.eqb i j then q1 + q5 + q9 else 0) - entry [[q1; q2; q3]; [q4; q5; q6]; [q7; q8; q9]] i j).
  { transitivity (lsum (map (fun p => (if Nat.eqb i j then 1 else 0) * (nth 0 p 0 * nth 0 p 0) + (if Nat.eqb i j then 1 else 0) * (nth 1 p 0 * nth 1 p 0) + (if Nat.eqb i j then 1 else 0) * (nth 2 p 0 * nth 2 p 0) - nth i p 0 * nth j p 0) P)).
    - f_equal. apply map_ext. intro p. unfold gI. destruct (Nat.eqb i j); ring.
    - rewrite (SP (fun _ => if Nat.eqb i j then 1 else 0)). destruct (Nat.eqb i j); ring. }
  rewrite G. clear -Hi Hj Hn. assert (INR n <> 0) by (apply not_0_INR; lia).
  destruct i as [|[|[|i]]]; try lia; destruct j as [|[|[|j]]]; try lia; unfold entry, trace, diagonal, lsum; cbn; unfold entry; cbn; field; auto.
Qed.

(** ** points whose coordinates are affine in the draws *)
Lemma Rabs_sq x : Rabs x * Rabs x = x * x.
Proof. rewrite <- Rabs_mult. apply Rabs_pos_eq. apply Rle_0_sqr. Qed.
Lemma sq_ge x : 0 <= x * x.
Proof. apply Rle_0_sqr. Qed.
Section Affine.
  Variables (d : nat) (rho : nat -> nat) (al be : nat -> nat -> R) (h : vec) (i j : nat).
  Hypothesis (Hrho : forall a, (a < 3)%nat -> (rho a < d)%nat) (Hi : (i < 3)%nat) (Hj : (j < 3)%nat) (Lh : length h = 3%nat).
  Hypothesis (Hb : forall k a, (a < 3)%nat -> Rabs (al k a) + Rabs (be k a) <= nth a h 0).
  Definition co (k a : nat) (r : vec) : R := al k a + be k a * nth (rho a) r 0.
  Definition pt (k : nat) (r : vec) : vec := [co k 0 r; co k 1 r; co k 2 r].
  Definition mm (k a b : nat) : R := al k a * al k b + be k a * be k b * (if Nat.eqb (rho a) (rho b) then 1 / 3 else 0).
  Definition m1 (k : nat) : R := (if Nat.eqb i j then mm k 0 0 + mm k 1 1 + mm k 2 2 else 0) - mm k i j.
  Lemma nth_pt k r a : (a < 3)%nat -> nth a (pt k r) 0 = co k a r.
  Proof. clear. intro. destruct a as [|[|[|a]]]; try lia; reflexivity. Qed.
  Lemma m1_mean k : mean_u d (fun r => gI i j (pt k r)) (m1 k).
  Proof.
    assert (G : forall a b, (a < 3)%nat -> (b < 3)%nat -> mean_u d (fun r => co k a r * co k b r) (mm k a b)).
    { intros a b Ha Hb'. unfold co, mm. apply affine_mean; auto. }
    pose proof (mean_u_plus d _ _ _ _ (mean_u_plus d _ _ _ _ (G 0 0 ltac:(lia) ltac:(lia))%nat (G 1 1 ltac:(lia) ltac:(lia))%nat) (G 2 2 ltac:(lia) ltac:(lia))%nat) as T.
    pose proof (mean_u_lin d _ _ 0 (if Nat.eqb i j then 1 else 0) (-1) _ _ T (G i j Hi Hj)) as K.
    eapply mean_u_eq; [eapply mean_u_ext; [|exact K]|].
    - intros r _. unfold gI. rewrite !nth_pt by auto. destruct (Nat.eqb i j); ring.
    - unfold m1. destruct (Nat.eqb i j); ring.
  Qed.
  Lemma poly_co k a : (a < 3)%nat -> poly d (co k a).
  Proof. intro Ha. apply poly_plus; [apply poly_const|]. apply poly_mult; [apply poly_const|apply poly_nth; auto]. Qed.
  Lemma poly_ext f g : (forall v, f v = g v) -> poly d f -> poly d g.
  Proof. intros E (l & Hl & H). exists l. split; auto. intros. rewrite <- E. auto. Qed.
  Lemma poly_g k : poly d (fun r => gI i j (pt k r)).
  Proof.
    apply (poly_ext (fun r => (if Nat.eqb i j then 1 else 0) * (co k 0 r * co k 0 r + co k 1 r * co k 1 r + co k 2 r * co k 2 r) + (-1) * (co k i r * co k j r))).
    - intro r. unfold gI. rewrite !nth_pt by auto. destruct (Nat.eqb i j); ring.
    - assert (C : forall a b, (a < 3)%nat -> (b < 3)%nat -> poly d (fun r => co k a r * co k b r)) by (intros; apply poly_mult; apply poly_co; auto).
      exact (poly_plus d _ _ (poly_mult d _ _ (poly_const d (if Nat.eqb i j then 1 else 0)) (poly_plus d _ _ (poly_plus d _ _ (C 0 0 ltac:(lia) ltac:(lia)) (C 1 1 ltac:(lia) ltac:(lia))) (C 2 2 ltac:(lia) ltac:(lia))))%nat
        (poly_mult d _ _ (poly_const d (-1)) (C i j Hi Hj))).
  Qed.
  Definition q1 (k : nat) : R := proj1_sig (poly_mean _ _ (poly_mult _ _ _ (poly_g k) (poly_g k))).
  Lemma q1_mean k : mean_u d (fun r => gI i j (pt k r) * gI i j (pt k r)) (q1 k).
  Proof. exact (proj2_sig (poly_mean _ _ (poly_mult _ _ _ (poly_g k) (poly_g k)))). Qed.
  Lemma co_bound k a r : (a < 3)%nat -> draws_of d (uniform_draw (-1) 1) r -> co k a r * co k a r <= nth a h 0 * nth a h 0.
  Proof.
    intros Ha [Lr Hr]. assert (D : Rabs (nth (rho a) r 0) <= 1). { destruct (Hr (nth (rho a) r 0)); [apply nth_In; rewrite Lr; auto|]. apply Rabs_le. lra. }
    assert (B : Rabs (co k a r) <= nth a h 0).
    { unfold co. eapply Rle_trans; [apply Rabs_triang|]. rewrite Rabs_mult. pose proof (Hb k a Ha). pose proof (Rabs_pos (be k a)). pose proof (Rabs_pos (nth (rho a) r 0)). nra. }
    pose proof (Rabs_pos (co k a r)). rewrite <- (Rabs_sq (co k a r)). nra.
  Qed.
  Lemma gI_bound k r : draws_of d (uniform_draw (-1) 1) r -> gI i j (pt k r) * gI i j (pt k r) <= (dot h h) ^ 2.
  Proof.
    intro Hr. pose proof (fun a => nth_pt k r a) as NP. pose proof (co_bound k 0 r ltac:(lia) Hr) as B0. pose proof (co_bound k 1 r ltac:(lia) Hr) as B1. pose proof (co_bound k 2 r ltac:(lia) Hr) as B2.
    destruct h as [|h0 [|h1 [|h2 [|]]]]; try discriminate Lh. cbn [nth] in B0, B1, B2.
    assert (G : Rabs (gI i j (pt k r)) <= dot [h0; h1; h2] [h0; h1; h2]).
    { replace (dot [h0; h1; h2] [h0; h1; h2]) with (h0 * h0 + h1 * h1 + h2 * h2) by (unfold dot, lsum; cbn; ring). unfold gI. rewrite !NP by auto. clear NP.
      pose proof (sq_ge (co k 0 r)). pose proof (sq_ge (co k 1 r)). pose proof (sq_ge (co k 2 r)).
      set (x := co k 0 r) in *. set (y := co k 1 r) in *. set (z := co k 2 r) in *.
      pose proof (sq_ge (x + y)). pose proof (sq_ge (x - y)). pose proof (sq_ge (x + z)). pose proof (sq_ge (x - z)). pose proof (sq_ge (y + z)). pose proof (sq_ge (y - z)).
      destruct i as [|[|[|i']]]; try lia; destruct j as [|[|[|j']]]; try lia; cbn [Nat.eqb]; fold x y z; apply Rabs_le; lra. }
    pose proof (Rabs_pos (gI i j (pt k r))). rewrite <- (Rabs_sq (gI i j (pt k r))). set (D := dot _ _) in *. set (g := Rabs _) in *. nra.
  Qed.

  Variable (pv : vec).
  Hypothesis (Hpv : lsum pv = 1) (Hp0 : forall x, In x pv -> 0 <= x).
  Definition tt : R := wsum pv m1.
  Definition vv : R := wsum pv q1 - tt * tt.
  Lemma wsum_le f g : (forall k, f k <= g k) -> wsum pv f <= wsum pv g.
  Proof.
    intro H. unfold wsum. clear Hpv. revert Hp0. generalize (seq 0 (length pv)). induction pv as [|p v IH]; intros [|k s] P; cbn [map2]; try (unfold lsum; cbn; lra).
    assert (LC : forall a l, lsum (a :: l) = a + lsum l) by reflexivity. rewrite !LC. apply Rplus_le_compat; [|apply IH; intros; apply P; now right].
    apply Rmult_le_compat_l; auto. apply P. now left.
  Qed.
  Lemma vv_pos : 0 <= vv.
  Proof.
    unfold vv. assert (E : wsum pv (fun k => tt * tt + (-2 * tt) * m1 k + 1 * q1 k) = wsum pv q1 - tt * tt). { rewrite wsum_lin by auto. fold tt. ring. }
    rewrite <- E. assert (Z : wsum pv (fun _ => 0) = 0). { pose proof (wsum_lin pv (fun _ => 0) (fun _ => 0) 0 0 0 Hpv) as Z. rewrite (wsum_ext pv _ (fun _ => 0)) in Z by (intros; ring). lra. }
    rewrite <- Z at 1. apply wsum_le. intro k.
    apply (mean_u_le d (fun _ => 0) (fun r => tt * tt + -2 * tt * gI i j (pt k r) + 1 * (gI i j (pt k r) * gI i j (pt k r)))).
    - intros r _. pose proof (sq_ge (gI i j (pt k r) - tt)). lra.
    - apply mean_u_const.
    - apply mean_u_lin; [apply m1_mean|apply q1_mean].
  Qed.
  Lemma vv_le : vv <= (dot h h) ^ 2.
  Proof.
    unfold vv. pose proof (sq_ge tt). enough (wsum pv q1 <= (dot h h) ^ 2) by lra.
    assert (Z : wsum pv (fun _ => (dot h h) ^ 2) = (dot h h) ^ 2). { pose proof (wsum_lin pv (fun _ => 0) (fun _ => 0) ((dot h h) ^ 2) 0 0 Hpv) as Z. rewrite (wsum_ext pv _ (fun _ => (dot h h) ^ 2)) in Z by (intros; ring). lra. }
    rewrite <- Z. apply wsum_le. intro k. apply (mean_u_le d (fun r => gI i j (pt k r) * gI i j (pt k r)) (fun _ => (dot h h) ^ 2)); [apply gI_bound|apply q1_mean|apply mean_u_const].
  Qed.
  Lemma affine_estimates n run : (0 < n)%nat ->
    (forall counts U, multinomial_draw n (length pv) counts -> rows_of n d (uniform_draw (-1) 1) U ->
      exists A, run counts U = Ok A /\ entry A i j = / INR n * lsum (map (gI i j) (map2 pt (expand 0 counts) U))) ->
    estimates pv n (rows_of n d (uniform_draw (-1) 1)) (mean_rows d n) run i j tt (vv / INR n).
  Proof.
    intros Hn Hrun. set (f := fun k r => gI i j (pt k r)). set (c := / INR n). assert (N0 : INR n <> 0) by (apply not_0_INR; lia).
    exists (fun counts U => c * msum f (expand 0 counts) U), (fun counts => c * lsum (map m1 (expand 0 counts))),
      (fun counts => (- tt + c * lsum (map m1 (expand 0 counts))) ^ 2 + c * c * lsum (map (fun k => q1 k - m1 k * m1 k) (expand 0 counts))).
    split; [|split; [|split]].
    - intros counts U HC HU. destruct (Hrun counts U HC HU) as (A & E & EA). exists A. split; [exact E|]. rewrite EA. unfold c, msum, f. f_equal. f_equal.
      clear. revert U. induction (expand 0 counts) as [|k ks IH]; intros [|r U]; cbn; auto. now rewrite IH.
    - intros counts [HK HC]. assert (LX : length (expand 0 counts) = n) by now rewrite expand_length.
      pose proof (rows_mean d f m1 m1_mean (expand 0 counts) 0 c) as R1. pose proof (rows_mean_sq d f m1 q1 m1_mean q1_mean (expand 0 counts) (- tt) c) as R2. rewrite LX in R1, R2. split.
      + eapply mean_rows_eq; [eapply mean_rows_ext; [|exact R1]|]; [intros; cbn|]; ring.
      + eapply mean_rows_ext; [|exact R2]. intros; cbn. ring.
    - unfold multinomial_mean. transitivity (cat_mean pv n (fun s => 0 + c * lsum (map m1 s))).
      + apply cat_ext. intros s Ls Hs. rewrite tally_sum by exact Hs. ring.
      + rewrite cat_sum by auto. fold tt. unfold c. field. exact N0.
    - unfold multinomial_mean. transitivity (cat_mean pv n (fun s => (- tt + c * lsum (map m1 s)) ^ 2 + c * c * lsum (map (fun k => q1 k - m1 k * m1 k) s))).
      + apply cat_ext. intros s Ls Hs. rewrite !tally_sum by exact Hs. ring.
      + rewrite cat_sum_sq by auto. fold tt.
        rewrite (wsum_ext pv (fun k => q1 k - m1 k * m1 k) (fun k => 0 + 1 * q1 k + (-1) * (m1 k * m1 k))) by (intros; ring).
        rewrite wsum_lin by auto. unfold vv, c. field. exact N0.
  Qed.
End Affine.
