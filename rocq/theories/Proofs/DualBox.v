(** C88: the custom constraints of a box test exactly the quadratics that are convex along its axes. *)
From Verif Require Import Base.Vec Base.VecFacts Spec.Basic Spec.Objects Spec.Realizable Spec.Shapes Spec.ShapeObjects Spec.PolySpec Spec.Bodies Spec.Quadratic
  Model.Util Model.Constraint Model.Inertial Model.Polydd Model.Poly Model.Box Model.Realize
  Proofs.Coord Proofs.LinAlg Proofs.MatAlg Proofs.InertialP Proofs.Hull Proofs.BoxP Proofs.Decomp Proofs.PimP Proofs.SdpP Proofs.VertexP Proofs.SdpSound Proofs.CylExact Proofs.CylP Proofs.Farkas Proofs.Duality.

Definition qsum (S : mat) (A : nat -> nat -> R) : R := rsum 4 (fun i => rsum 4 (fun j => entry S i j * A i j)).
Lemma qint_qsum S J : is_mat 4 4 S -> is_mat 4 4 J -> symmetric 4 J -> qint S J = qsum S (entry J).
Proof.
  intros HS HJ SJ. unfold qint, qsum. rewrite (trace_rsum 4) by (apply (is_mat_mul 4 4 4); auto; lia). apply rsum_ext. intros i Hi. rewrite (entry_mm 4 ltac:(lia)) by auto. apply rsum_ext. intros j Hj. now rewrite (SJ j i).
Qed.
Lemma qval_qsum S u : is_mat 4 4 S -> length u = 3%nat -> qval S u = qsum S (fun i j => mom2 i j u).
Proof. intros HS Lu. unfold qval, qsum, quad, mom2. destruct_vecs. cbn. ring. Qed.
Lemma vsum_rsum n (f : nat -> vec -> R) w V : vsum (fun v => rsum n (fun i => f i v)) w V = rsum n (fun i => vsum (f i) w V).
Proof. induction n as [|n IH]; cbn [rsum]; [|now rewrite vsum_plus, IH]. rewrite (vsum_ext _ (fun v => 0 * 0)) by (intros; ring). rewrite (vsum_scal 0 (fun _ => 0)). ring. Qed.
Lemma vsum_qval S w V : is_mat 4 4 S -> rows_len 3 V -> vsum (qval S) w V = qsum S (fun i j => vsum (mom2 i j) w V).
Proof.
  intros HS HV. unfold qsum. rewrite (vsum_ext _ (fun v => rsum 4 (fun i => rsum 4 (fun j => entry S i j * mom2 i j v)))) by (intros v Hv; apply qval_qsum; auto).
  rewrite vsum_rsum. apply rsum_ext. intros i _. rewrite vsum_rsum. apply rsum_ext. intros j _. apply vsum_scal.
Qed.
Lemma qsum_le S A B : (forall i, (i < 3)%nat -> 0 <= entry S i i) -> (forall i j, (i < 4)%nat -> (j < 4)%nat -> i <> j \/ i = 3%nat -> A i j = B i j) -> (forall i, (i < 3)%nat -> A i i <= B i i) -> qsum S A <= qsum S B.
Proof.
  intros HD HE HI. apply rsum_le. intros i Hi. apply rsum_le. intros j Hj. destruct (Nat.eq_dec i j) as [<-|NE].
  - destruct (Nat.eq_dec i 3) as [->|N3]; [rewrite (HE 3%nat 3%nat); auto; lra|]. apply Rmult_le_compat_l; [apply HD; lia|apply HI; lia].
  - rewrite HE by auto. lra.
Qed.
Lemma vsum_nonpos f w V : (forall i, 0 <= nth i w 0) -> (forall v, In v V -> f v <= 0) -> vsum f w V <= 0.
Proof. intros Hw Hf. pose proof (vsum_nonneg (fun v => -1 * f v) w V Hw ltac:(intros v Hv; specialize (Hf v Hv); cbn; lra)) as H. rewrite vsum_scal in H. lra. Qed.
Definition bt (J : mat) (ij : nat * nat) : tests := [(mom2 (fst ij) (snd ij), entry J (fst ij) (snd ij)); (fun v => - mom2 (fst ij) (snd ij) v, - entry J (fst ij) (snd ij))].
Definition box_tests (J : mat) : tests := flat_map (bt J) [(0, 1); (0, 2); (0, 3); (1, 2); (1, 3); (2, 3); (3, 3)]%nat ++ map (fun i => (mom2 i i, entry J i i)) [0; 1; 2]%nat.
Definition box_S (l : nat -> R) : mat :=
  [[l 14%nat; (l 0%nat - l 1%nat) / 2; (l 2%nat - l 3%nat) / 2; (l 4%nat - l 5%nat) / 2];
   [(l 0%nat - l 1%nat) / 2; l 15%nat; (l 6%nat - l 7%nat) / 2; (l 8%nat - l 9%nat) / 2];
   [(l 2%nat - l 3%nat) / 2; (l 6%nat - l 7%nat) / 2; l 16%nat; (l 10%nat - l 11%nat) / 2];
   [(l 4%nat - l 5%nat) / 2; (l 8%nat - l 9%nat) / 2; (l 10%nat - l 11%nat) / 2; l 12%nat - l 13%nat]].
Lemma box_S_mat l : is_mat 4 4 (box_S l) /\ symmetric 4 (box_S l).
Proof. split; [split; [reflexivity|repeat constructor]|]. intros i j Hi Hj. destruct i as [|[|[|[|]]]], j as [|[|[|[|]]]]; try lia; reflexivity. Qed.
Lemma box_S_val J l v : length v = 3%nat -> tval (box_tests J) l v = qval (box_S l) v.
Proof. intro Lv. destruct_vecs. unfold tval, qval, quad, mom2, box_tests, mom2. cbn. unfold mom2. cbn. field. Qed.
Lemma box_S_goal J l : is_mat 4 4 J -> symmetric 4 J -> tgoal (box_tests J) l = qint (box_S l) J.
Proof.
  intros HJ SJ. rewrite qint_qsum by (auto; apply box_S_mat). unfold tgoal, qsum.
  pose proof (SJ 1%nat 0%nat ltac:(lia) ltac:(lia)) as E1. pose proof (SJ 2%nat 0%nat ltac:(lia) ltac:(lia)) as E2. pose proof (SJ 3%nat 0%nat ltac:(lia) ltac:(lia)) as E3.
  pose proof (SJ 2%nat 1%nat ltac:(lia) ltac:(lia)) as E4. pose proof (SJ 3%nat 1%nat ltac:(lia) ltac:(lia)) as E5. pose proof (SJ 3%nat 2%nat ltac:(lia) ltac:(lia)) as E6.
  clear SJ. destruct_vecs. cbn in *. subst. field.
Qed.
Definition hat (V : mat) : mat := map (fun w => w ++ [1]) V.
Lemma hat_entry mus V i j : rows_len 3 V -> (i < 4)%nat -> (j < 4)%nat -> entry (msum 4 4 (map2 (fun m w => mscale m (outer w w)) mus (hat V))) i j = vsum (mom2 i j) mus V.
Proof.
  intros HV Hi Hj. rewrite outer_sum_entry; auto; [unfold hat; now rewrite vsum_map_rows|]. intros w Hw. apply in_map_iff in Hw as (v & <- & Hv). rewrite app_length, (HV v Hv). reflexivity.
Qed.
Lemma corner_in_cube h v : length h = 3%nat -> (forall i, (i < 3)%nat -> 0 <= nth i h 0) -> In v (box_vertices h) -> in_cube h v.
Proof.
  intros Lh Ph Hv. destruct_vecs. pose proof (Ph 0%nat ltac:(lia)) as P0. pose proof (Ph 1%nat ltac:(lia)) as P1. pose proof (Ph 2%nat ltac:(lia)) as P2. cbn in P0, P1, P2. cbn in Hv.
  repeat (destruct Hv as [<-|Hv]; [split; [reflexivity|]; intros i Hi; cbn in Hi; destruct i as [|[|[|i]]]; try lia; cbn; apply Rabs_le; lra|]). destruct Hv.
Qed.
Lemma box_custom_local h J0 : length h = 3%nat -> (forall i, (i < 3)%nat -> 0 <= nth i h 0) -> is_mat 4 4 J0 -> symmetric 4 J0 ->
  ((exists mus, cp_nonneg_var 8 mus /\ let Jv := msum 4 4 (map2 (fun m w => mscale m (outer w w)) mus (hat (box_vertices h))) in
      entry J0 3 3 = entry Jv 3 3 /\ upper_tri_eq 4 J0 Jv /\ (forall i, (i < 3)%nat -> entry J0 i i <= entry Jv i i)) <->
   forall S, is_mat 4 4 S -> symmetric 4 S -> (forall i, (i < 3)%nat -> 0 <= entry S i i) -> (forall u, in_cube h u -> qval S u <= 0) -> qint S J0 <= 0).
Proof.
  intros Lh Ph HJ SJ. destruct (corners_len h Lh) as (L8 & R3 & R4). split.
  - intros (mus & (Lm & Pm) & E33 & EU & ED) S HS SS HD Hq. cbn zeta in *. rewrite qint_qsum by auto. assert (Pm' : forall i, 0 <= nth i mus 0) by (intro i; destruct (Nat.lt_ge_cases i 8); [now apply Pm|rewrite nth_overflow by lia; lra]).
    apply Rle_trans with (vsum (qval S) mus (box_vertices h)).
    + rewrite vsum_qval by auto. apply qsum_le; [exact HD| |].
      * intros i j Hi Hj Hd. assert (HB : entry J0 i j = entry (msum 4 4 (map2 (fun m w => mscale m (outer w w)) mus (hat (box_vertices h)))) i j); [|now rewrite HB, hat_entry].
        destruct (Nat.lt_trichotomy i j) as [H|[->|H]]; [apply EU; lia|replace j with 3%nat by lia; exact E33|]. rewrite (SJ i j) by auto. rewrite (EU j i) by lia. rewrite !hat_entry by auto. apply vsum_ext. intros v _. unfold mom2. ring.
      * intros i Hi. rewrite <- hat_entry by (auto; lia). now apply ED.
    + apply vsum_nonpos; [exact Pm'|]. intros v Hv. apply Hq. now apply corner_in_cube.
  - intro HD. destruct (lp_dual (box_tests J0) (box_vertices h)) as [(ms & Lm & Pm & HT)|(lam & Pl & Hv & Hg)].
    + exists ms. split; [split; [lia|intros; apply Pm]|]. cbn zeta.
      assert (G : forall i j, In (i, j) [(0, 1); (0, 2); (0, 3); (1, 2); (1, 3); (2, 3); (3, 3)]%nat -> entry J0 i j = vsum (mom2 i j) ms (box_vertices h)).
      { intros i j Hin. apply Rle_antisym.
        - apply HT. unfold box_tests. apply in_or_app. left. apply in_flat_map. exists (i, j). split; [exact Hin|]. left. reflexivity.
        - pose proof (HT (fun v => - mom2 i j v) (- entry J0 i j)) as Q. rewrite (vsum_ext _ (fun v => -1 * mom2 i j v)), vsum_scal in Q by (intros; ring).
          assert (Z : - entry J0 i j <= -1 * vsum (mom2 i j) ms (box_vertices h)); [|lra]. apply Q. unfold box_tests. apply in_or_app. left. apply in_flat_map. exists (i, j). split; [exact Hin|]. right. left. reflexivity. }
      split; [rewrite hat_entry by (auto; lia); apply G; cbn; tauto|]. split.
      * intros i j Hij. rewrite hat_entry by (auto; lia). apply G. destruct i as [|[|[|i]]], j as [|[|[|[|j]]]]; try lia; cbn; tauto.
      * intros i Hi. rewrite hat_entry by (auto; lia). apply HT. unfold box_tests. apply in_or_app. right. apply in_map_iff. exists i. split; [reflexivity|]. destruct i as [|[|[|i]]]; try lia; cbn; tauto.
    + exfalso. destruct (box_S_mat lam) as (MS & SS). rewrite box_S_goal in Hg by auto. assert (Q : qint (box_S lam) J0 <= 0); [|lra].
      assert (D : forall i, (i < 3)%nat -> 0 <= entry (box_S lam) i i) by (intros i Hi; destruct i as [|[|[|i]]]; try lia; apply Pl).
      apply HD; auto. intros u Hu. destruct (corner_weights h u Lh Hu) as (w & Lw & Pw & WE & WI). assert (Lu : length u = 3%nat) by (destruct Hu; congruence).
      rewrite qval_qsum by auto. apply Rle_trans with (vsum (qval (box_S lam)) w (box_vertices h)).
      * rewrite vsum_qval by auto. apply qsum_le; [exact D| |].
        -- intros i j Hi Hj Hd. apply (WE (mom2 i j)). exists i, j. auto.
        -- intros i Hi. apply (WI (mom2 i i)). exists i. auto.
      * apply vsum_nonpos; [exact Pw|]. intros v Hv'. rewrite <- (box_S_val J0) by now apply R3. now apply Hv.
Qed.
(** ** change of frame *)
Definition congm (T S : mat) : mat := mat_mul (mat_mul (transpose T) S) T.
Lemma congm_mat T S : is_mat 4 4 T -> is_mat 4 4 S -> is_mat 4 4 (congm T S).
Proof. intros HT HS. pose proof (is_mat_transpose 4 4 T HT ltac:(lia)). apply (is_mat_mul 4 4 4); [apply (is_mat_mul 4 4 4); auto; lia|auto|lia]. Qed.
Lemma congm_sym T S : is_mat 4 4 T -> is_mat 4 4 S -> symmetric 4 S -> symmetric 4 (congm T S).
Proof.
  intros HT HS SS. pose proof (is_mat_transpose 4 4 T HT ltac:(lia)) as HT'. apply transpose_symmetric; [now apply congm_mat|]. assert (M1 : is_mat 4 4 (mat_mul (transpose T) S)) by (apply (is_mat_mul 4 4 4); auto; lia). unfold congm.
  rewrite (transpose_mat_mul 4 4 4) by (auto; lia). rewrite (transpose_mat_mul 4 4 4 (transpose T) S) by (auto; lia). rewrite (transpose_involutive 4 4) by (auto; lia). rewrite (symmetric_transpose 4 S) by auto.
  symmetry. apply (mat_mul_assoc 4 4 4 4); auto; lia.
Qed.
Lemma congm_quad T S z : is_mat 4 4 T -> is_mat 4 4 S -> length z = 4%nat -> quad (congm T S) z = quad S (mat_vec T z).
Proof.
  intros HT HS Lz. pose proof (is_mat_transpose 4 4 T HT ltac:(lia)) as HT'. assert (M1 : is_mat 4 4 (mat_mul (transpose T) S)) by (apply (is_mat_mul 4 4 4); auto; lia). unfold quad, congm.
  rewrite (mat_vec_mat_mul 4 4 4) by auto. assert (L1 : length (mat_vec T z) = 4%nat) by (rewrite mat_vec_length; apply HT). rewrite (mat_vec_mat_mul 4 4 4) by auto.
  rewrite (dot_mat_vec_t 4 4) by (auto; rewrite mat_vec_length; apply HS). now rewrite (transpose_involutive 4 4) by (auto; lia).
Qed.
Lemma trace_comm4 A B : is_mat 4 4 A -> is_mat 4 4 B -> trace (mat_mul A B) = trace (mat_mul B A).
Proof.
  intros HA HB. rewrite !(trace_rsum 4) by (apply (is_mat_mul 4 4 4); auto; lia). rewrite (rsum_ext 4 _ (fun i => rsum 4 (fun k => entry A i k * entry B k i))) by (intros; now apply (entry_mm 4 ltac:(lia))).
  rewrite rsum_swap. apply rsum_ext. intros k Hk. rewrite (entry_mm 4 ltac:(lia)) by auto. apply rsum_ext. intros i Hi. ring.
Qed.
Lemma congm_int T S J : is_mat 4 4 T -> is_mat 4 4 S -> is_mat 4 4 J -> qint (congm T S) J = qint S (mat_mul (mat_mul T J) (transpose T)).
Proof.
  intros HT HS HJ. pose proof (is_mat_transpose 4 4 T HT ltac:(lia)) as HT'. unfold qint, congm. assert (M1 : is_mat 4 4 (mat_mul S T)) by (apply (is_mat_mul 4 4 4); auto; lia). assert (M2 : is_mat 4 4 (mat_mul T J)) by (apply (is_mat_mul 4 4 4); auto; lia).
  rewrite (mat_mul_assoc 4 4 4 4 (transpose T) S T) by (auto; lia). rewrite (mat_mul_assoc 4 4 4 4 (transpose T) (mat_mul S T) J) by (auto; lia). rewrite trace_comm4 by (auto; apply (is_mat_mul 4 4 4); auto; lia).
  rewrite (mat_mul_assoc 4 4 4 4 S T J) by (auto; lia). rewrite (mat_mul_assoc 4 4 4 4 S (mat_mul T J)) by (auto; lia). reflexivity.
Qed.
Lemma fwd_inv Q c : orthogonal 3 Q -> length c = 3%nat -> mat_mul (inv_T (transpose Q) (to_local Q c (zeros 3))) (inv_T Q c) = eye 4.
Proof.
  intros (MQ & Q1 & Q2) Hc. assert (Ec : mat_vec (mat_mul Q (transpose Q)) c = c) by (rewrite Q2; now apply (mat_vec_eye 3)). revert Q2 Ec. unfold to_local, inv_T. clear - MQ Hc. destruct_vecs. cbn. intros Q2 Ec. injection Q2 as ? ? ? ? ? ? ? ? ?. injection Ec as ? ? ?. list_eq; lra.
Qed.
Lemma inv_fwd Q c : orthogonal 3 Q -> length c = 3%nat -> mat_mul (inv_T Q c) (inv_T (transpose Q) (to_local Q c (zeros 3))) = eye 4.
Proof.
  intros (MQ & Q1 & Q2) Hc. assert (Ec : mat_vec (mat_mul (transpose Q) Q) (to_local Q c (zeros 3)) = to_local Q c (zeros 3)) by (rewrite Q1; apply (mat_vec_eye 3); now apply to_local_length).
  revert Q1 Ec. unfold to_local, inv_T. clear - MQ Hc. destruct_vecs. cbn. intros Q1 Ec. injection Q1 as ? ? ? ? ? ? ? ? ?. injection Ec as ? ? ?. list_eq; lra.
Qed.
Lemma local_back Q c J : orthogonal 3 Q -> length c = 3%nat -> is_mat 4 4 J ->
  mat_mul (mat_mul (inv_T (transpose Q) (to_local Q c (zeros 3))) (local_J Q c J)) (transpose (inv_T (transpose Q) (to_local Q c (zeros 3)))) = J.
Proof.
  intros HQ Hc HJ. pose proof (fwd_inv Q c HQ Hc) as E. pose proof HQ as (MQ & _). pose proof (is_mat_transpose 3 3 Q MQ ltac:(lia)) as MT. set (c' := to_local Q c (zeros 3)) in *. assert (Lc' : length c' = 3%nat) by (apply to_local_length, MQ).
  destruct (transform_inv_ok Q c MQ Hc) as (_ & M1). destruct (transform_inv_ok (transpose Q) c' MT Lc') as (_ & M2). unfold local_J.
  transitivity (mat_mul (mat_mul (mat_mul (inv_T (transpose Q) c') (inv_T Q c)) J) (transpose (mat_mul (inv_T (transpose Q) c') (inv_T Q c)))).
  - pose proof (is_mat_transpose 4 4 _ M1 ltac:(lia)) as M1'. pose proof (is_mat_transpose 4 4 _ M2 ltac:(lia)) as M2'. rewrite (transpose_mat_mul 4 4 4) by (auto; lia).
    assert (X1 : is_mat 4 4 (mat_mul (inv_T Q c) J)) by (apply (is_mat_mul 4 4 4); auto; lia). assert (X2 : is_mat 4 4 (mat_mul (inv_T (transpose Q) c') (inv_T Q c))) by (apply (is_mat_mul 4 4 4); auto; lia).
    rewrite <- (mat_mul_assoc 4 4 4 4 (inv_T (transpose Q) c') (mat_mul (inv_T Q c) J)) by (auto; lia).
    rewrite <- (mat_mul_assoc 4 4 4 4 (inv_T (transpose Q) c') (inv_T Q c) J) by (auto; lia).
    assert (X3 : is_mat 4 4 (mat_mul (mat_mul (inv_T (transpose Q) c') (inv_T Q c)) J)) by (apply (is_mat_mul 4 4 4); auto; lia).
    rewrite (mat_mul_assoc 4 4 4 4 _ (transpose (inv_T Q c))) by (auto; lia). reflexivity.
  - rewrite E, transpose_eye, (mat_mul_eye_l 4 4), (mat_mul_eye_r 4 4) by (auto; lia). reflexivity.
Qed.
Lemma qval_congm Q c S x : is_mat 3 3 Q -> length c = 3%nat -> is_mat 4 4 S -> length x = 3%nat -> qval (congm (inv_T Q c) S) x = qval S (to_local Q c x).
Proof.
  intros MQ Lc HS Lx. destruct (transform_inv_ok Q c MQ Lc) as (_ & MT). unfold qval. rewrite congm_quad by (auto; rewrite app_length, Lx; reflexivity). rewrite inv_T_point by auto. now rewrite vscale_1.
Qed.
Lemma qdir_congm Q c S u : is_mat 3 3 Q -> length c = 3%nat -> is_mat 4 4 S -> length u = 3%nat -> qdir (congm (inv_T Q c) S) u = qdir S (mat_vec (transpose Q) u).
Proof.
  intros MQ Lc HS Lx. destruct (transform_inv_ok Q c MQ Lc) as (_ & MT). unfold qdir. rewrite congm_quad by (auto; rewrite app_length, Lx; reflexivity). rewrite inv_T_point by auto. f_equal. f_equal. f_equal. clear - Lc Lx. destruct_vecs. cbn. list_eq; ring.
Qed.
Lemma col_axis Q i : orthogonal 3 Q -> (i < 3)%nat -> mat_vec (transpose Q) (col i Q) = nth i (eye 3) [].
Proof.
  intros (MQ & Q1 & _) Hi. revert Q1. clear - MQ Hi. destruct_vecs. cbn. intro Q1. injection Q1 as ? ? ? ? ? ? ? ? ?. destruct i as [|[|[|i]]]; try lia; cbn; list_eq; lra.
Qed.
Lemma axis_col Q i : is_mat 3 3 Q -> (i < 3)%nat -> mat_vec Q (nth i (eye 3) []) = col i Q.
Proof. intros MQ Hi. destruct_vecs. destruct i as [|[|[|i]]]; try lia; cbn; list_eq; ring. Qed.
Lemma qdir_axis S i : is_mat 4 4 S -> (i < 3)%nat -> qdir S (nth i (eye 3) []) = entry S i i.
Proof. intros HS Hi. destruct_vecs. unfold qdir, quad. destruct i as [|[|[|i]]]; try lia; cbn; ring. Qed.
Lemma col_length3 Q i : is_mat 3 3 Q -> length (col i Q) = 3%nat.
Proof. intros (H & _). unfold col. now rewrite map_length. Qed.
Theorem box_tests_exact h c r b v J eps : box_init h c r = Ok b -> orthogonal 3 (pose_rot 3 r) -> pv_value v J -> is_mat 4 4 J -> 0 <= eps ->
  exists P, box_moment_custom_vertex_constraints b v eps = Ok P /\
  (P <-> PSD 4 (msub J (mscale eps (eye 4))) /\
    forall S, is_mat 4 4 S -> symmetric 4 S -> (forall i, (i < 3)%nat -> 0 <= qdir S (col i (pose_rot 3 r))) ->
      (forall x, length x = 3%nat -> box_set h (pose_rot 3 r) (pose_tr 3 c) x -> qval S x <= 0) -> qint S J <= 0).
Proof.
  intros Hb HQ Hv HJ Heps. pose proof (box_init_inv h c r b Hb) as (Lh & Ph & Eh & Ec & Er & MQ & Lc & _ & _ & EV & _). rewrite Er in MQ. rewrite Ec in Lc.
  unfold box_moment_custom_vertex_constraints. rewrite (pv_ok v J eps Hv HJ Heps). cbn [bind]. rewrite Er, Ec, Eh.
  destruct (transform_inv_ok _ _ MQ Lc) as (ET & MT). rewrite ET. cbn [bind]. set (Q := pose_rot 3 r) in *. set (t := pose_tr 3 c) in *.
  change (mat_mul (mat_mul (inv_T Q t) J) (transpose (inv_T Q t))) with (local_J Q t J).
  pose proof (local_J_mat Q t J MQ Lc HJ) as M0. pose proof (local_back Q t J HQ Lc HJ) as EB. pose proof (is_mat_transpose 3 3 Q MQ ltac:(lia)) as MQ'. set (t' := to_local Q t (zeros 3)) in *. assert (Lt' : length t' = 3%nat) by (apply to_local_length, MQ).
  destruct (transform_inv_ok _ _ MQ' Lt') as (_ & MF).
  eexists. split; [reflexivity|]. split.
  - intros (mus & Hm & Hp & HR). assert (Hpsd : PSD 4 (msub J (mscale eps (eye 4)))) by now apply psd_shift. split; [exact Hpsd|].
    intros S HS SS HD Hq. assert (SJ : symmetric 4 J) by (apply transpose_symmetric; auto; symmetry; now apply (psd_shift J eps)). pose proof (local_J_sym Q t J MQ Lc HJ SJ) as S0.
    rewrite <- EB, <- congm_int by auto. apply (proj1 (box_custom_local h (local_J Q t J) Lh Ph M0 S0)); [exists mus; auto|now apply congm_mat|now apply congm_sym| |].
    + intros i Hi. rewrite <- qdir_axis by (auto using congm_mat). rewrite qdir_congm by (auto; destruct i as [|[|[|i]]]; try lia; reflexivity). rewrite (transpose_involutive 3 3), axis_col by (auto; lia). now apply HD.
    + intros u Hu. assert (Lu : length u = 3%nat) by (destruct Hu; congruence). rewrite qval_congm by auto. unfold t'. rewrite move_as_local by auto. apply Hq; [now apply move_len|]. exists u. auto.
  - intros (Hpsd & HT). assert (SJ : symmetric 4 J) by (apply transpose_symmetric; auto; symmetry; now apply (psd_shift J eps)). pose proof (local_J_sym Q t J MQ Lc HJ SJ) as S0.
    destruct (proj2 (box_custom_local h (local_J Q t J) Lh Ph M0 S0)) as (mus & Hm & HR).
    + intros S HS SS HD Hq. unfold local_J. rewrite <- congm_int by auto. apply HT; [now apply congm_mat|now apply congm_sym| |].
      * intros i Hi. rewrite qdir_congm by (auto using col_length3). rewrite col_axis by auto. rewrite qdir_axis by auto. now apply HD.
      * intros x Lx Hx. rewrite qval_congm by auto. apply Hq. now apply box_local.
    + exists mus. split; [exact Hm|]. split; [now apply psd_shift|exact HR].
Qed.
