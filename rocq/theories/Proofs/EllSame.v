From Verif Require Import Base.Vec Base.Ext Base.VecFacts Spec.Basic Spec.Shapes Spec.ShapeObjects
  Model.Util Model.Polydd Model.Ellipsoid Model.Constraint Proofs.Coord Proofs.Hull Proofs.BoxP Proofs.EllP
  Proofs.InertialT Proofs.LinAlg Proofs.EllForms.

(** ** Ellipsoid equality *)
Lemma np_rtol_pos : 0 < np_rtol. Proof. unfold np_rtol. lra. Qed.
Lemma eclose_refl r a x : 0 <= r -> 0 <= a -> eclose r a (Fin x) (Fin x) = true.
Proof.
  intros Hr Ha. cbn. apply isclose_iff. unfold Rminus. rewrite Rplus_opp_r, Rabs_R0.
  pose proof (Rabs_pos x). pose proof (Rmult_le_pos _ _ Hr H). lra.
Qed.
Lemma eallclose_refl r a M : 0 <= r -> 0 <= a -> all_fin M = true -> eallclose r a M M = true.
Proof.
  intros Hr Ha H. unfold eallclose, all_fin in *. rewrite forallb_forall in H. apply forallb_forall.
  intros b Hb. apply in_concat in Hb as (l & Hl & Hb).
  induction M as [|row M IH]; [destruct Hl|]. cbn in Hl. destruct Hl as [<-|Hl].
  - specialize (H row (or_introl eq_refl)). rewrite forallb_forall in H. clear IH.
    induction row as [|x row IH]; [destruct Hb|]. cbn in Hb. destruct Hb as [<-|Hb].
    + specialize (H x (or_introl eq_refl)). destruct x; try discriminate. apply eclose_refl; auto.
    + apply IH; auto. intros y Hy. apply H. now right.
  - apply IH; auto. intros x Hx. apply H. now right.
Qed.
Lemma all_fin_fin2 M : all_fin (fin2 M) = true.
Proof.
  unfold all_fin, fin2. apply forallb_forall. intros r Hr. apply in_map_iff in Hr as (v & <- & _).
  apply forallb_forall. intros x Hx. apply in_map_iff in Hx as (y & <- & _). reflexivity.
Qed.
Lemma ell_is_same_refl e tol : all_fin (e_Q e) = true -> 0 <= tol -> ell_is_same e e tol = Ok true.
Proof.
  intros H Ht. unfold ell_is_same. rewrite Nat.eqb_refl. f_equal. apply eallclose_refl; auto.
  pose proof np_rtol_pos; lra.
Qed.
Lemma ell_fat_Q_fin e : is_ell e -> (0 < e_dim e)%nat -> fat (e_half e) -> all_fin (e_Q e) = true.
Proof. intros He Hn Hf. rewrite e_Q_fin by auto. apply all_fin_fin2. Qed.

(** positive definite forms are determined by their unit balls *)
Definition pdef (n : nat) (M : mat) : Prop := forall x, length x = n -> x <> zeros n -> 0 < quad M x.
Lemma pdef_zero n M x : is_mat n n M -> pdef n M -> length x = n -> quad M x <= 0 -> x = zeros n.
Proof.
  intros HM H Hx Hq. destruct (list_eq_dec Req_EM_T x (zeros n)) as [E|E]; auto.
  specialize (H x Hx E). lra.
Qed.
Lemma quad_zeros n M : quad M (zeros n) = 0.
Proof. unfold quad. apply dot_zeros_l. Qed.
Lemma pdef_nonneg n M x : pdef n M -> length x = n -> 0 <= quad M x.
Proof.
  intros H Hx. destruct (list_eq_dec Req_EM_T x (zeros n)) as [->|E]; [rewrite quad_zeros; lra|].
  specialize (H x Hx E). lra.
Qed.
Lemma nat_big (q : R) : 0 < q -> exists k : nat, 1 < 4 * (INR k * INR k) * q.
Proof.
  intro Hq. destruct (archimed (/ q)) as [H _].
  pose proof (Rinv_0_lt_compat q Hq) as Hi.
  assert (Hz : (0 <= up (/ q))%Z) by (apply le_IZR; lra).
  exists (S (Z.to_nat (up (/ q)))). rewrite S_INR, INR_IZR_INZ, Z2Nat.id by auto.
  set (u := IZR (up (/ q))) in *. assert (1 < u * q).
  { apply Rmult_lt_reg_l with (/ q); auto. rewrite (Rmult_comm u), <- Rmult_assoc, Rinv_l, Rmult_1_l by lra. lra. }
  assert (0 < u) by lra. nra.
Qed.
Lemma unit_balls_eq n M N c d : is_mat n n M -> symmetric n M -> pdef n M ->
  is_mat n n N -> symmetric n N -> pdef n N -> length c = n -> length d = n ->
  (forall x, length x = n -> quad M (vsub x c) <= 1 <-> quad N (vsub x d) <= 1) -> c = d /\ M = N.
Proof.
  intros HM SM PM HN SN PN Hc Hd H.
  assert (Ecd : c = d).
  { set (v := vsub d c). assert (Hv : length v = n) by (unfold v; len).
    assert (K : forall k : nat, quad M (vscale (2 * INR k) v) <= 1).
    { induction k as [|k IH].
      - cbn [INR]. rewrite Rmult_0_r, vscale_0, Hv, quad_zeros. lra.
      - set (y := vscale (2 * INR k) v) in *. assert (Hy : length y = n) by (unfold y; len).
        assert (E1 : quad M (vsub (vsub c y) c) <= 1).
        { replace (vsub (vsub c y) c) with (vscale (-1) y) by (vring n). rewrite quad_vscale. lra. }
        apply H in E1; [|len].
        assert (E2 : quad N (vsub (vadd (vadd c y) (vscale 2 v)) d) <= 1).
        { replace (vsub (vadd (vadd c y) (vscale 2 v)) d) with (vscale (-1) (vsub (vsub c y) d))
            by (unfold v; vring n). rewrite quad_vscale. lra. }
        apply H in E2; [|len].
        replace (vscale (2 * INR (S k)) v) with (vsub (vadd (vadd c y) (vscale 2 v)) c); [exact E2|].
        rewrite S_INR. unfold y. vring n. }
    symmetry. apply vsub_eq_zero; [congruence|]. fold v. rewrite Hd.
    apply (pdef_zero n M); auto. destruct (Rle_or_lt (quad M v) 0) as [Hq|Hq]; auto.
    destruct (nat_big _ Hq) as [k Hk]. specialize (K k). rewrite quad_vscale in K. lra. }
  split; [exact Ecd|]. subst d.
  assert (U : forall x, length x = n -> quad M x <= 1 <-> quad N x <= 1).
  { intros x Hx. specialize (H (vadd x c) ltac:(len)). rewrite vsub_vadd in H by congruence. exact H. }
  assert (V : forall A B, pdef n A -> pdef n B -> (forall x, length x = n -> quad A x <= 1 -> quad B x <= 1) ->
     forall x, length x = n -> quad B x <= quad A x).
  { intros A B PA PB HAB x Hx. destruct (list_eq_dec Req_EM_T x (zeros n)) as [->|E]; [rewrite !quad_zeros; lra|].
    pose proof (PA x Hx E) as HA. pose proof (sqrt_lt_R0 _ HA) as Hs.
    specialize (HAB (vscale (/ sqrt (quad A x)) x) ltac:(len)). rewrite !quad_vscale in HAB.
    assert (E2 : / sqrt (quad A x) * / sqrt (quad A x) = / quad A x).
    { rewrite <- Rinv_mult, sqrt_sqrt by lra. reflexivity. }
    rewrite E2, Rinv_l in HAB by lra. specialize (HAB ltac:(lra)).
    apply Rmult_le_reg_l with (/ quad A x); [apply Rinv_0_lt_compat; auto|]. rewrite Rinv_l by lra. lra. }
  assert (Q : forall x, length x = n -> quad M x = quad N x).
  { intros x Hx. apply Rle_antisym; apply V; auto; intros y Hy; apply U; auto. }
  apply (mat_eq_by_vec n n); auto. intros y Hy.
  assert (L1 : length (mat_vec M y) = n) by (rewrite mat_vec_length; apply HM).
  assert (L2 : length (mat_vec N y) = n) by (rewrite mat_vec_length; apply HN).
  assert (B : forall x, length x = n -> dot x (mat_vec M y) = dot x (mat_vec N y)).
  { intros x Hx. pose proof (Q x Hx) as Qx. pose proof (Q y Hy) as Qy. pose proof (Q (vadd x y) ltac:(len)) as Qxy.
    rewrite !(quad_vadd n) in Qxy by auto. lra. }
  apply vsub_eq_zero; [congruence|].
  assert (Z : dot (vsub (mat_vec M y) (mat_vec N y)) (vsub (mat_vec M y) (mat_vec N y)) = 0).
  { rewrite dot_vsub_r by congruence. rewrite B by len. ring. }
  apply dot_self_zero in Z. rewrite Z. f_equal. len.
Qed.

Lemma lsum_zq_zero h u : fat h -> length u = length h -> lsum (map2 zq h u) <= 0 -> u = zeros (length h).
Proof.
  intros Hf Hl Hs. apply (vec_ext (length h)); [auto|apply zeros_length|]. intros i Hi. rewrite nth_zeros.
  assert (Hz : zq (nth i h 0) (nth i u 0) = 0).
  { assert (Hall : lsum (map2 zq h u) = 0).
    { apply Rle_antisym; auto. apply lsum_nonneg. intros x Hx. apply in_map2 in Hx as (a & b & _ & _ & ->). apply zq_nonneg. }
    rewrite <- (nth_map2 zq h u 0 0 (zq 0 0)) by auto.
    eapply lsum_nonneg_zero; [|exact Hall|].
    - intros x Hx. apply in_map2 in Hx as (a & b & _ & _ & ->). apply zq_nonneg.
    - apply nth_In. rewrite map2_length. lia. }
  unfold zq in Hz. rewrite tiny_proper_pos in Hz by auto. specialize (Hf i Hi). pose proof np_atol_pos.
  set (a := nth i h 0) in *. set (b := nth i u 0) in *.
  assert (Ha : 0 < / a) by (apply Rinv_0_lt_compat; lra).
  assert (Hb : (/ a * b) * (/ a * b) = 0) by lra.
  apply Rmult_integral in Hb. destruct Hb as [Hb|Hb]; apply Rmult_integral in Hb; destruct Hb; auto; lra.
Qed.
Lemma orthogonal_back n Q x : orthogonal n Q -> (0 < n)%nat -> length x = n ->
  mat_vec Q (mat_vec (transpose Q) x) = x.
Proof.
  intros (MQ & Q1 & Q2) Hn Hx. rewrite <- (mat_vec_mat_mul n n n) by auto using is_mat_transpose.
  rewrite Q2. apply mat_vec_eye; auto.
Qed.
Lemma orthogonal_forth n Q x : orthogonal n Q -> (0 < n)%nat -> length x = n ->
  mat_vec (transpose Q) (mat_vec Q x) = x.
Proof.
  intros (MQ & Q1 & Q2) Hn Hx. rewrite <- (mat_vec_mat_mul n n n) by auto using is_mat_transpose.
  rewrite Q1. apply mat_vec_eye; auto.
Qed.
Lemma rS_pdef e : is_ell e -> (0 < e_dim e)%nat -> fat (e_half e) -> orthogonal (e_dim e) (e_rot e) ->
  pdef (e_dim e) (rS e).
Proof.
  intros He Hn Hf HQ x Hx Hx0. pose proof HQ as (MQ & _ & _).
  assert (L : length (mat_vec (transpose (e_rot e)) x) = length (e_half e)).
  { rewrite mat_vec_length. apply (is_mat_transpose (e_dim e) (e_dim e)); auto. }
  rewrite rS_quad by auto. destruct (Rle_or_lt (lsum (map2 zq (e_half e) (mat_vec (transpose (e_rot e)) x))) 0) as [H|H]; auto.
  exfalso. apply Hx0. apply lsum_zq_zero in H; auto.
  rewrite <- (orthogonal_back (e_dim e) (e_rot e) x) by auto. rewrite H, mat_vec_zeros. f_equal. apply MQ.
Qed.

(** ellipsoids with the same points have the same S and centre, hence compare equal *)
Lemma same_set_same_forms e f : is_ell e -> is_ell f -> (0 < e_dim e)%nat -> e_dim f = e_dim e ->
  fat (e_half e) -> fat (e_half f) -> orthogonal (e_dim e) (e_rot e) -> orthogonal (e_dim f) (e_rot f) ->
  (forall p, length p = e_dim e -> ell_set (e_half e) (e_rot e) (e_center e) p <->
                                   ell_set (e_half f) (e_rot f) (e_center f) p) ->
  e_center e = e_center f /\ rS e = rS f.
Proof.
  intros He Hf Hn Hd Fe Ff Oe Of H.
  assert (Hnf : (0 < e_dim f)%nat) by lia.
  destruct (form_facts e He) as (_ & Ce & _). destruct (form_facts f Hf) as (_ & Cf & _).
  pose proof (rS_is_mat e He Hn) as M1. pose proof (rS_is_mat f Hf Hnf) as M2.
  pose proof (rS_sym e He Hn) as S1. pose proof (rS_sym f Hf Hnf) as S2.
  pose proof (rS_pdef e He Hn Fe Oe) as P1. pose proof (rS_pdef f Hf Hnf Ff Of) as P2.
  rewrite Hd in *. apply (unit_balls_eq (e_dim e)); auto.
  intros x Hx. rewrite <- ell_set_local by auto. rewrite H by auto. apply ell_set_local; auto; rewrite Hd; auto.
Qed.
Lemma ell_is_same_sets e f tol : is_ell e -> is_ell f -> (0 < e_dim e)%nat -> e_dim f = e_dim e ->
  fat (e_half e) -> fat (e_half f) -> orthogonal (e_dim e) (e_rot e) -> orthogonal (e_dim f) (e_rot f) ->
  (forall p, length p = e_dim e -> ell_set (e_half e) (e_rot e) (e_center e) p <->
                                   ell_set (e_half f) (e_rot f) (e_center f) p) ->
  0 <= tol -> ell_is_same e f tol = Ok true.
Proof.
  intros He Hf Hn Hd Fe Ff Oe Of H Ht.
  destruct (same_set_same_forms e f) as [Ec ES]; auto.
  assert (Hnf : (0 < e_dim f)%nat) by lia.
  assert (EQ : e_Q e = e_Q f).
  { rewrite !e_Q_fin by auto. unfold rQ. rewrite Ec, ES. reflexivity. }
  unfold ell_is_same. rewrite Hd, Nat.eqb_refl, <- EQ. f_equal. apply eallclose_refl; auto.
  - pose proof np_rtol_pos; lra.
  - apply ell_fat_Q_fin; auto.
Qed.
(** with both tolerances zero in mind: equal Q matrices mean equal sets *)
Lemma ell_is_same_close e f tol : is_ell e -> is_ell f -> (0 < e_dim e)%nat ->
  fat (e_half e) -> fat (e_half f) -> ell_is_same e f tol = Ok true ->
  e_dim f = e_dim e /\ forall i j, (i <= e_dim e)%nat -> (j <= e_dim e)%nat ->
    Rabs (entry (rQ e) i j - entry (rQ f) i j) <= tol + np_rtol * Rabs (entry (rQ f) i j).
Proof.
  intros He Hf Hn Fe Ff H. unfold ell_is_same in H. destruct (Nat.eqb_spec (e_dim e) (e_dim f)) as [Hd|]; [|discriminate].
  split; [auto|]. intros i j Hi Hj. injection H as H. assert (Hnf : (0 < e_dim f)%nat) by lia.
  rewrite !e_Q_fin in H by auto. unfold eallclose in H. rewrite forallb_forall in H.
  assert (Hb : eclose np_rtol tol (Fin (entry (rQ e) i j)) (Fin (entry (rQ f) i j)) = true).
  { apply H. apply in_concat.
    assert (Me : is_mat (S (e_dim e)) (S (e_dim e)) (rQ e)).
    { destruct (form_facts e He) as (_ & Ce & _). pose proof (rS_is_mat e He Hn) as M1.
      apply border_is_mat; [apply is_mat_mneg; auto| |]; rewrite mat_vec_length; apply M1. }
    assert (Mf : is_mat (S (e_dim e)) (S (e_dim e)) (rQ f)).
    { rewrite Hd. destruct (form_facts f Hf) as (_ & Ce & _). pose proof (rS_is_mat f Hf Hnf) as M1.
      apply border_is_mat; [apply is_mat_mneg; auto| |]; rewrite mat_vec_length; apply M1. }
    exists (map2 (eclose np_rtol tol) (nth i (fin2 (rQ e)) []) (nth i (fin2 (rQ f)) [])). split.
    - rewrite <- (nth_map2 (map2 (eclose np_rtol tol)) (fin2 (rQ e)) (fin2 (rQ f)) [] [] []).
      + apply nth_In. rewrite map2_length. unfold fin2. rewrite !map_length. destruct Me, Mf. lia.
      + unfold fin2. rewrite !map_length. destruct Me, Mf. congruence.
      + reflexivity.
    - unfold fin2. rewrite !(map_nth fin1 _ []). unfold entry. unfold fin1.
      pose proof (is_mat_row _ _ _ i Me ltac:(lia)) as R1. pose proof (is_mat_row _ _ _ i Mf ltac:(lia)) as R2.
      rewrite map2_map_l, map2_map_r.
      rewrite <- (nth_map2 (fun a b => eclose np_rtol tol (Fin a) (Fin b)) _ _ 0 0 (eclose np_rtol tol (Fin 0) (Fin 0))) by congruence.
      apply nth_In. rewrite map2_length. lia. }
  cbn in Hb. apply isclose_iff in Hb. exact Hb.
Qed.

(** ** Infinities and NaN in the Q of degenerate ellipsoids *)
Lemma eadd_nan_r a : eadd a NaN = NaN. Proof. destruct a; reflexivity. Qed.
Lemma esum_nan l : In NaN l -> esum l = NaN.
Proof.
  induction l as [|a l IH]; [intros []|]. intros [->|H]; [reflexivity|]. unfold esum in *. cbn. rewrite IH by auto. apply eadd_nan_r.
Qed.
Lemma eadd_nonfin a b : is_fin a = false \/ is_fin b = false -> is_fin (eadd a b) = false.
Proof. destruct a, b; cbn; intros [H|H]; try discriminate; reflexivity. Qed.
Lemma esum_nonfin l a : In a l -> is_fin a = false -> is_fin (esum l) = false.
Proof.
  induction l as [|b l IH]; [intros []|]. intros [->|H] E; unfold esum in *; cbn; apply eadd_nonfin; auto.
Qed.
Lemma in_map2_nth {A B C} (f : A -> B -> C) x y da db k : (k < length x)%nat -> (k < length y)%nat ->
  In (f (nth k x da) (nth k y db)) (map2 f x y).
Proof.
  revert y k; induction x as [|a x IH]; intros [|b y] [|k] Hx Hy; cbn in *; try lia; [now left|right].
  apply IH; lia.
Qed.
Lemma edot_nan x y k : (k < length x)%nat -> (k < length y)%nat -> emul (nth k x NaN) (nth k y NaN) = NaN -> edot x y = NaN.
Proof. intros Hx Hy H. unfold edot. apply esum_nan. rewrite <- H. apply in_map2_nth; auto. Qed.
Lemma edot_nonfin x y k : (k < length x)%nat -> (k < length y)%nat ->
  is_fin (emul (nth k x NaN) (nth k y NaN)) = false -> is_fin (edot x y) = false.
Proof. intros Hx Hy H. unfold edot. eapply esum_nonfin; [|exact H]. apply in_map2_nth; auto. Qed.
Lemma emul_nan_l a : emul NaN a = NaN. Proof. reflexivity. Qed.
Lemma emul_nan_r a : emul a NaN = NaN. Proof. destruct a; reflexivity. Qed.
Lemma inf_times_nonfin x : is_fin (inf_times x) = false.
Proof. unfold inf_times. destruct (Rltb 0 x); auto. destruct (Rltb x 0); auto. Qed.
Lemma eneg_fin a : is_fin (eneg a) = is_fin a. Proof. destruct a; reflexivity. Qed.
Lemma emul_nonfin_l a x : is_fin a = false -> is_fin (emul a (Fin x)) = false.
Proof. destruct a; cbn; try discriminate; intros _; rewrite ?eneg_fin; auto using inf_times_nonfin. Qed.
Lemma inf_times_0 : inf_times 0 = NaN.
Proof. unfold inf_times. rewrite !(proj2 (Rltb_false 0 0)) by lra. reflexivity. Qed.
Lemma emul_nonfin_0 a : is_fin a = false -> emul a (Fin 0) = NaN.
Proof. destruct a; cbn; try discriminate; intros _; rewrite ?inf_times_0; reflexivity. Qed.

Lemma nth_emat_mul A B i : (i < length A)%nat -> nth i (emat_mul A B) [] = evec_mat (nth i A []) B.
Proof. intro H. unfold emat_mul. rewrite (nth_map_0 _ _ _ []) by auto. reflexivity. Qed.
Lemma nth_evec_mat x A j : (j < encols A)%nat -> nth j (evec_mat x A) NaN = edot x (ecol j A).
Proof. intro H. unfold evec_mat. rewrite nth_map_seq by auto. reflexivity. Qed.
Lemma nth_ecol j A i : (i < length A)%nat -> nth i (ecol j A) NaN = nth j (nth i A []) NaN.
Proof. intro H. unfold ecol. rewrite (nth_map_0 _ _ _ []) by auto. reflexivity. Qed.
Lemma nth_ediag d i j : (i < length d)%nat -> (j < length d)%nat ->
  nth j (nth i (ediag d) []) NaN = if Nat.eqb i j then nth i d NaN else Fin 0.
Proof. intros Hi Hj. unfold ediag. rewrite nth_map_seq by auto. rewrite nth_map_seq by auto. reflexivity. Qed.
Lemma ediag_length d : length (ediag d) = length d.
Proof. unfold ediag. rewrite map_length, seq_length. reflexivity. Qed.
Lemma encols_ediag d : encols (ediag d) = length d.
Proof. unfold encols, ediag. destruct d; cbn; [reflexivity|]. rewrite map_length, seq_length. reflexivity. Qed.
Lemma evec_mat_length x A : length (evec_mat x A) = encols A.
Proof. unfold evec_mat. rewrite map_length, seq_length. reflexivity. Qed.
Lemma nth_fin1 v i : (i < length v)%nat -> nth i (fin1 v) NaN = Fin (nth i v 0).
Proof. intro H. unfold fin1. rewrite (nth_map_0 _ _ _ 0) by auto. reflexivity. Qed.
Lemma nth_fin2 A i : nth i (fin2 A) [] = fin1 (nth i A []).
Proof. unfold fin2. rewrite (map_nth fin1 A []). reflexivity. Qed.

Section Degenerate.
Variable e : Ell.
Hypothesis He : is_ell e.
Hypothesis Hn : (0 < e_dim e)%nat.
Let n := e_dim e.
Let d := esq (e_half_inv e).
Let RD := emat_mul (fin2 (e_rot e)) (ediag d).

Lemma d_len : length d = n.
Proof. unfold d, esq. rewrite map_length, half_inv_tiny, map_length. reflexivity. Qed.
Lemma d_inf j : (j < n)%nat -> tiny (nth j (e_half e) 0) = true -> nth j d NaN = PInf.
Proof.
  intros Hj Ht. unfold d, esq. rewrite (nth_map_0 _ _ _ NaN) by (rewrite half_inv_tiny, map_length; exact Hj).
  rewrite half_inv_tiny, (nth_map_0 _ _ _ 0) by exact Hj. rewrite Ht. reflexivity.
Qed.
Lemma RD_entry i j : (i < n)%nat -> (j < n)%nat -> tiny (nth j (e_half e) 0) = true ->
  is_fin (nth j (nth i RD []) NaN) = false /\ (entry (e_rot e) i j = 0 -> nth j (nth i RD []) NaN = NaN).
Proof.
  intros Hi Hj Ht. destruct (form_facts e He) as (MR & _ & _). fold n in MR.
  assert (E : nth j (nth i RD []) NaN = edot (fin1 (nth i (e_rot e) [])) (ecol j (ediag d))).
  { unfold RD. rewrite nth_emat_mul by (unfold fin2; rewrite map_length; destruct MR; lia).
    rewrite nth_evec_mat by (rewrite encols_ediag, d_len; auto). rewrite nth_fin2. reflexivity. }
  pose proof (is_mat_row _ _ _ i MR Hi) as LR.
  assert (L1 : (j < length (fin1 (nth i (e_rot e) [])))%nat) by (rewrite fin1_length; lia).
  assert (L2 : (j < length (ecol j (ediag d)))%nat) by (unfold ecol; rewrite map_length, ediag_length, d_len; auto).
  assert (T : emul (nth j (fin1 (nth i (e_rot e) [])) NaN) (nth j (ecol j (ediag d)) NaN) = inf_times (entry (e_rot e) i j)).
  { rewrite nth_fin1 by lia. rewrite nth_ecol by (rewrite ediag_length, d_len; auto).
    rewrite nth_ediag by (rewrite d_len; auto). rewrite Nat.eqb_refl, d_inf by auto. reflexivity. }
  rewrite E. split.
  - apply (edot_nonfin _ _ j); auto. rewrite T. apply inf_times_nonfin.
  - intro Z. apply (edot_nan _ _ j); auto. rewrite T, Z. apply inf_times_0.
Qed.
Lemma RD_len : length RD = n.
Proof. unfold RD, emat_mul. rewrite map_length. unfold fin2. rewrite map_length. destruct (form_facts e He) as (MR & _ & _). apply MR. Qed.
Lemma S_entry i k j : (i < n)%nat -> (k < n)%nat -> (j < n)%nat -> tiny (nth j (e_half e) 0) = true ->
  is_fin (nth k (nth i (e_S e) []) NaN) = false /\ (entry (e_rot e) i j = 0 -> nth k (nth i (e_S e) []) NaN = NaN).
Proof.
  intros Hi Hk Hj Ht. destruct (form_facts e He) as (MR & _ & _). fold n in MR.
  pose proof (is_mat_transpose _ _ _ MR Hn) as MT.
  assert (E : nth k (nth i (e_S e) []) NaN = edot (nth i RD []) (ecol k (fin2 (transpose (e_rot e))))).
  { unfold e_S. fold d. fold RD. rewrite nth_emat_mul by (rewrite RD_len; auto).
    rewrite nth_evec_mat; [reflexivity|]. rewrite encols_fin, (is_mat_ncols n n) by auto. exact Hk. }
  assert (L1 : (j < length (nth i RD []))%nat).
  { unfold RD. rewrite nth_emat_mul by (unfold fin2; rewrite map_length; destruct MR; lia).
    rewrite evec_mat_length, encols_ediag, d_len. exact Hj. }
  assert (L2 : (j < length (ecol k (fin2 (transpose (e_rot e)))))%nat).
  { unfold ecol, fin2. rewrite !map_length. destruct MT; lia. }
  assert (T : nth j (ecol k (fin2 (transpose (e_rot e)))) NaN = Fin (nth k (nth j (transpose (e_rot e)) []) 0)).
  { rewrite nth_ecol by (unfold fin2; rewrite map_length; destruct MT; lia). rewrite nth_fin2.
    apply nth_fin1. rewrite (is_mat_row n n); auto. }
  destruct (RD_entry i j Hi Hj Ht) as [H1 H2]. rewrite E. split.
  - apply (edot_nonfin _ _ j); auto. rewrite T. apply emul_nonfin_l; auto.
  - intro Z. apply (edot_nan _ _ j); auto. rewrite T, H2 by auto. reflexivity.
Qed.
Lemma S_len : length (e_S e) = n.
Proof. unfold e_S, emat_mul at 1. rewrite map_length. apply RD_len. Qed.
Lemma S_row_len i : (i < n)%nat -> length (nth i (e_S e) []) = n.
Proof.
  intro Hi. destruct (form_facts e He) as (MR & _ & _). fold n in MR. pose proof (is_mat_transpose _ _ _ MR Hn) as MT.
  unfold e_S. fold d. fold RD. rewrite nth_emat_mul by (rewrite RD_len; auto).
  rewrite evec_mat_length, encols_fin, (is_mat_ncols n n) by auto. reflexivity.
Qed.
Lemma Q_has_nan i j : (i < n)%nat -> (j < n)%nat -> tiny (nth j (e_half e) 0) = true ->
  entry (e_rot e) i j = 0 \/ (exists k, (k < n)%nat /\ nth k (e_center e) 0 = 0) ->
  exists k, (k <= n)%nat /\ nth k (nth i (e_Q e) []) NaN = NaN.
Proof.
  intros Hi Hj Ht H. destruct (form_facts e He) as (MR & LC & _). fold n in MR, LC.
  assert (LS : length (emat_vec (e_S e) (fin1 (e_center e))) = n) by (unfold emat_vec; rewrite map_length; apply S_len).
  assert (E : nth i (e_Q e) [] = map eneg (nth i (e_S e) []) ++ [edot (nth i (e_S e) []) (fin1 (e_center e))]).
  { unfold e_Q, Q_matrix. rewrite app_nth1 by (rewrite map2_length, LS, S_len; lia).
    rewrite (nth_indep _ [] (map eneg [] ++ [NaN])) by (rewrite map2_length, LS, S_len; lia).
    rewrite (nth_map2 _ _ _ [] NaN) by (auto; rewrite LS, S_len; auto). f_equal. f_equal.
    unfold emat_vec. rewrite (nth_map_0 _ _ _ []) by (rewrite S_len; auto). reflexivity. }
  destruct H as [Z|(k & Hk & Z)].
  - exists j. split; [lia|]. rewrite E, app_nth1 by (rewrite map_length, S_row_len; auto).
    rewrite (nth_map_0 _ _ _ NaN) by (rewrite S_row_len; auto).
    destruct (S_entry i j j Hi Hj Hj Ht) as [_ H2]. rewrite H2 by auto. reflexivity.
  - exists n. split; [lia|]. rewrite E, app_nth2 by (rewrite map_length, S_row_len; auto).
    rewrite map_length, S_row_len, Nat.sub_diag by auto. cbn.
    apply (edot_nan _ _ k); [rewrite S_row_len; auto|rewrite fin1_length; lia|].
    rewrite nth_fin1 by lia. rewrite Z. apply emul_nonfin_0. apply (S_entry i k j); auto.
Qed.
End Degenerate.

Lemma eallclose_nan r a A B i k : (i < length A)%nat -> (i < length B)%nat -> (k < length (nth i A []))%nat ->
  (k < length (nth i B []))%nat -> nth k (nth i A []) NaN = NaN -> eallclose r a A B = false.
Proof.
  intros H1 H2 H3 H4 H. unfold eallclose. apply not_true_is_false. intro F. rewrite forallb_forall in F.
  enough (HH : eclose r a NaN (nth k (nth i B []) NaN) = true) by discriminate HH. apply F.
  apply in_concat. exists (map2 (eclose r a) (nth i A []) (nth i B [])). split; [apply in_map2_nth; auto|].
  rewrite <- H at 1. apply in_map2_nth; auto.
Qed.
Lemma e_Q_shape e i : is_ell e -> (0 < e_dim e)%nat -> (i < e_dim e)%nat ->
  length (e_Q e) = S (e_dim e) /\ length (nth i (e_Q e) []) = S (e_dim e).
Proof.
  intros He Hn Hi. pose proof (S_len e He) as L. unfold e_Q, Q_matrix.
  assert (LS : length (emat_vec (e_S e) (fin1 (e_center e))) = e_dim e) by (unfold emat_vec; rewrite map_length; auto).
  split.
  - rewrite app_length, map2_length, L, LS. cbn. lia.
  - rewrite app_nth1 by (rewrite map2_length, LS, L; lia).
    rewrite (nth_indep _ [] (map eneg [] ++ [NaN])) by (rewrite map2_length, LS, L; lia).
    rewrite (nth_map2 _ _ _ [] NaN) by (auto; rewrite LS, L; auto).
    rewrite app_length, map_length, S_row_len by auto. cbn. lia.
Qed.
Lemma ell_is_same_degenerate e f tol j : is_ell e -> is_ell f -> (0 < e_dim e)%nat -> e_dim f = e_dim e ->
  (j < e_dim e)%nat -> nth j (e_half e) 0 = 0 ->
  (exists i, (i < e_dim e)%nat /\ (entry (e_rot e) i j = 0 \/ nth i (e_center e) 0 = 0)) ->
  ell_is_same e f tol = Ok false.
Proof.
  intros He Hf Hn Hd Hj H0 (i & Hi & H).
  assert (Ht : tiny (nth j (e_half e) 0) = true) by (rewrite H0; apply tiny_0).
  assert (H' : entry (e_rot e) i j = 0 \/ (exists k, (k < e_dim e)%nat /\ nth k (e_center e) 0 = 0)) by (destruct H; eauto).
  destruct (Q_has_nan e He Hn i j Hi Hj Ht H') as (k & Hk & N).
  destruct (e_Q_shape e i) as [L1 L2]; auto. destruct (e_Q_shape f i) as [L3 L4]; auto; try lia.
  unfold ell_is_same. rewrite Hd, Nat.eqb_refl. f_equal. apply (eallclose_nan _ _ _ _ i k); auto; lia.
Qed.

(** ** Ellipsoids rebuilt from matrices *)
Lemma einv_sqrt h : 0 < h -> einv (Fin (sqrt h)) = Fin (/ sqrt h).
Proof. intro H. cbn. rewrite (proj2 (Reqb_false _ _)); [reflexivity|]. apply sqrt_lt_R0 in H. lra. Qed.
(** what the code's inverse makes of the eigenvalues *)
Lemma inv_sqrt_eigs eigs : (forall a, In a eigs -> np_atol * np_atol < a) ->
  inv_with_zeros (map esqrt (fin1 eigs)) = fin1 (map (fun a => / sqrt a) eigs).
Proof.
  intro H. unfold inv_with_zeros, fin1. rewrite !map_map. apply map_ext_in. intros a Ha. specialize (H a Ha).
  pose proof np_atol_pos as P. pose proof (sqr_nonneg np_atol).
  assert (S : np_atol < sqrt a).
  { rewrite <- (sqrt_square np_atol) by lra. apply sqrt_lt_1; lra. }
  cbn [esqrt]. rewrite (proj2 (Rltb_false a 0)) by lra.
  assert (E : eclose 0 np_atol (Fin (sqrt a)) (Fin 0) = false).
  { cbn. rewrite isclose_zero. apply Rleb_false. rewrite Rabs_pos_eq by lra. exact S. }
  rewrite E. apply einv_sqrt. lra.
Qed.
Lemma from_shape_matrix_good eigh n M c eigs Q :
  (0 < n)%nat -> eigh M = (eigs, Q) -> orthogonal n Q -> length eigs = n -> M = congd Q eigs -> length c = n ->
  (forall a, In a eigs -> np_atol * np_atol < a < / (np_atol * np_atol)) ->
  exists e, ell_from_shape_matrix eigh M (Some c) = Ok e /\ is_ell e /\ e_dim e = n /\ e_center e = c /\ orthogonal n (e_rot e) /\ fat (e_half e) /\ rS e = M.
Proof.
  intros Hn Hg HQ Hl HS Hc Hb. unfold ell_from_shape_matrix. rewrite Hg.
  rewrite inv_sqrt_eigs by (intros a Ha; apply Hb; auto).
  pose proof np_atol_pos as P. assert (PP : 0 < np_atol * np_atol) by (apply Rmult_lt_0_compat; auto).
  set (h := map (fun a => / sqrt a) eigs). assert (Lh : length h = n) by (unfold h; rewrite map_length; auto).
  assert (Hh : forall i, (i < n)%nat -> nth i h 0 = / sqrt (nth i eigs 0)).
  { intros i Hi. unfold h. rewrite (nth_map_0 _ _ _ 0) by lia. reflexivity. }
  assert (Hs : forall i, (i < n)%nat -> np_atol < sqrt (nth i eigs 0) /\ np_atol < / sqrt (nth i eigs 0)).
  { intros i Hi. destruct (Hb (nth i eigs 0)) as [B1 B2]; [apply nth_In; lia|].
    assert (B3 : np_atol < sqrt (nth i eigs 0)).
    { rewrite <- (sqrt_square np_atol) by lra. apply sqrt_lt_1; lra. }
    split; [exact B3|].
    assert (B4 : sqrt (nth i eigs 0) < / np_atol).
    { rewrite <- (sqrt_square (/ np_atol)) by (left; apply Rinv_0_lt_compat; lra). apply sqrt_lt_1; [lra|apply sqr_nonneg|].
      rewrite <- Rinv_mult. exact B2. }
    rewrite <- (Rinv_inv np_atol). apply Rinv_lt_contravar; [|exact B4].
    apply Rmult_lt_0_compat; [lra|apply Rinv_0_lt_compat; lra]. }
  assert (Hf : fat h). { intros i Hi. rewrite Lh in Hi. rewrite Hh by auto. apply Hs; auto. }
  assert (E1 : ell_init h (Some Q) (Some c) = Ok {| e_half := h; e_rot := Q; e_center := c |}).
  { apply ell_init_good; cbn; rewrite ?Lh; auto; [|apply HQ].
    intros i Hi. specialize (Hf i ltac:(lia)). lra. }
  - exists {| e_half := h; e_rot := Q; e_center := c |}. split; [exact E1|]. split; [do 3 eexists; exact E1|].
    unfold e_dim. cbn [e_half e_center e_rot]. split; [exact Lh|]. split; [reflexivity|]. split; [exact HQ|]. split; [exact Hf|].
    unfold rS. cbn [e_half e_center e_rot]. rewrite HS. f_equal. unfold vsq, vinv.
    apply (vec_ext n); [rewrite !map_length; auto|auto|]. intros i Hi. rewrite map_map.
    rewrite (nth_map_0 _ _ _ 0) by lia. rewrite Hh, Rinv_inv by auto.
    rewrite sqrt_sqrt; [reflexivity|]. destruct (Hb (nth i eigs 0)) as [B1 B2]; [apply nth_In; lia|]. lra.
Qed.

Lemma classic_exists_nz (y : vec) : y = zeros (length y) \/ exists i, (i < length y)%nat /\ nth i y 0 <> 0.
Proof.
  induction y as [|a y IH]; [left; reflexivity|]. destruct (Req_dec a 0) as [->|Ha].
  - destruct IH as [E|(i & Hi & H)]; [left; cbn; unfold zeros in *; cbn; congruence|]. right. exists (S i). cbn. split; [lia|auto].
  - right. exists 0%nat. cbn. split; [lia|auto].
Qed.
Lemma rsum_lt n f g k : (forall i, (i < n)%nat -> f i <= g i) -> (k < n)%nat -> f k < g k -> rsum n f < rsum n g.
Proof.
  induction n as [|n IH]; intros H Hk Hlt; [lia|]. cbn.
  destruct (Nat.eq_dec k n) as [->|Hne].
  - pose proof (rsum_le n f g ltac:(intros; apply H; lia)). lra.
  - pose proof (H n ltac:(lia)). specialize (IH ltac:(intros; apply H; lia) ltac:(lia) Hlt). lra.
Qed.
(** the eigenvalues of e.S lie between those of the inverse squared half extents *)
Lemma congd_eig n Q eigs j : orthogonal n Q -> (0 < n)%nat -> length eigs = n -> (j < n)%nat ->
  quad (congd Q eigs) (col j Q) = nth j eigs 0 /\ dot (col j Q) (col j Q) = 1.
Proof.
  intros HQ Hn Hl Hj. pose proof HQ as (MQ & Q1 & Q2).
  assert (Lc : length (col j Q) = n) by (rewrite col_length; apply MQ).
  assert (E : mat_vec (transpose Q) (col j Q) = col j (eye n)).
  { rewrite <- Q1. apply (vec_ext n).
    - rewrite mat_vec_length. apply (is_mat_transpose n n); auto.
    - rewrite col_length, mat_mul_length. apply (is_mat_transpose n n); auto.
    - intros i Hi. rewrite nth_mat_vec, nth_col, entry_mat_mul; [reflexivity| |rewrite (is_mat_ncols n n); auto].
      rewrite transpose_length, (is_mat_ncols n n); auto. }
  split.
  - rewrite (congd_quad n) by auto. rewrite E. rewrite lsum_rsum, map2_length, col_length, eye_length, Hl, Nat.min_id.
    rewrite <- (rsum_delta n j (fun i => nth i eigs 0) Hj). apply rsum_ext. intros i Hi.
    rewrite (nth_map2 _ _ _ 0 0) by (rewrite ?col_length, ?eye_length; auto; ring).
    rewrite nth_col, entry_eye by auto. destruct (Nat.eqb i j); ring.
  - assert (EE : entry (mat_mul (transpose Q) Q) j j = 1) by (rewrite Q1, entry_eye, Nat.eqb_refl by auto; reflexivity).
    rewrite entry_mat_mul in EE; [|rewrite transpose_length, (is_mat_ncols n n); auto|rewrite (is_mat_ncols n n); auto].
    rewrite nth_transpose in EE by (rewrite (is_mat_ncols n n); auto). exact EE.
Qed.
Lemma rS_bounds e x : is_ell e -> (0 < e_dim e)%nat -> fat (e_half e) -> orthogonal (e_dim e) (e_rot e) -> length x = e_dim e ->
  (forall i, (i < e_dim e)%nat -> nth i (e_half e) 0 < / np_atol) -> x <> zeros (e_dim e) ->
  np_atol * np_atol * dot x x < quad (rS e) x < / (np_atol * np_atol) * dot x x.
Proof.
  intros He Hn Hf HQ Hx Hb Hx0. pose proof HQ as (MQ & _ & _).
  set (y := mat_vec (transpose (e_rot e)) x).
  assert (Ly : length y = e_dim e) by (unfold y; rewrite mat_vec_length; apply (is_mat_transpose (e_dim e) (e_dim e)); auto).
  assert (Ed : dot x x = dot y y).
  { rewrite <- (orthogonal_back (e_dim e) (e_rot e) x) by auto. fold y. apply (orthogonal_dot (e_dim e)); auto. }
  assert (Hy : exists i, (i < e_dim e)%nat /\ nth i y 0 <> 0).
  { destruct (classic_exists_nz y) as [H|H].
    - exfalso. apply Hx0. rewrite <- (orthogonal_back (e_dim e) (e_rot e) x) by auto. fold y.
      rewrite H, mat_vec_zeros. f_equal. apply MQ.
    - destruct H as (i & Hi & H). exists i. split; auto; lia. }
  rewrite rS_quad by auto. fold y. rewrite Ed. clear Ed.
  pose proof np_atol_pos as P.
  rewrite lsum_rsum, map2_length, Ly. unfold e_dim in *. rewrite Nat.min_id.
  rewrite (dot_rsum (length (e_half e)) y y) by auto. rewrite <- !rsum_scal.
  assert (T : forall i, (i < length (e_half e))%nat ->
     (np_atol < / nth i (e_half e) 0 < / np_atol) /\
     nth i (map2 zq (e_half e) y) 0 = (/ nth i (e_half e) 0 * / nth i (e_half e) 0) * (nth i y 0 * nth i y 0)).
  { intros i Hi. set (a := / nth i (e_half e) 0). specialize (Hf i Hi). specialize (Hb i Hi). split; [split|].
    - unfold a. rewrite <- (Rinv_inv np_atol). apply Rinv_lt_contravar; auto. apply Rmult_lt_0_compat; [lra|apply Rinv_0_lt_compat; lra].
    - unfold a. apply Rinv_lt_contravar; auto. apply Rmult_lt_0_compat; lra.
    - rewrite (nth_map2 zq _ _ 0 0) by (auto; unfold zq; rewrite tiny_0; reflexivity).
      unfold zq. rewrite tiny_proper_pos by auto. fold a. ring. }
  destruct Hy as (k & Hk & Hyk).
  assert (Pk : 0 < nth k y 0 * nth k y 0).
  { destruct (Rtotal_order (nth k y 0) 0) as [L|[L|L]]; [|contradiction|]; nra. }
  split.
  - apply rsum_lt with k; auto.
    + intros i Hi. destruct (T i Hi) as ([A1 A2] & ->). pose proof (sqr_nonneg (nth i y 0)). apply Rmult_le_compat_r; auto. apply Rmult_le_compat; lra.
    + destruct (T k Hk) as ([A1 A2] & ->). apply Rmult_lt_compat_r; auto. apply Rmult_le_0_lt_compat; lra.
  - apply rsum_lt with k; auto.
    + intros i Hi. destruct (T i Hi) as ([A1 A2] & ->). pose proof (sqr_nonneg (nth i y 0)). apply Rmult_le_compat_r; auto.
      rewrite Rinv_mult. apply Rmult_le_compat; lra.
    + destruct (T k Hk) as ([A1 A2] & ->). apply Rmult_lt_compat_r; auto. rewrite Rinv_mult. apply Rmult_le_0_lt_compat; lra.
Qed.

Lemma eigh_congd n M eigs Q : is_mat n n M -> (0 < n)%nat -> eigh_spec n M (eigs, Q) -> M = congd Q eigs.
Proof.
  intros HM Hn (Hl & HQ & H). cbn [fst snd] in *. pose proof HQ as (MQ & Q1 & Q2). unfold congd.
  rewrite <- H. rewrite (mat_mul_assoc n n n n) by auto using is_mat_transpose. rewrite Q2.
  symmetry. apply (mat_mul_eye_r n); auto.
Qed.
Lemma eigs_in_range e eigs Q : is_ell e -> (0 < e_dim e)%nat -> fat (e_half e) -> orthogonal (e_dim e) (e_rot e) ->
  (forall i, (i < e_dim e)%nat -> nth i (e_half e) 0 < / np_atol) ->
  eigh_spec (e_dim e) (rS e) (eigs, Q) ->
  forall a, In a eigs -> np_atol * np_atol < a < / (np_atol * np_atol).
Proof.
  intros He Hn Hf HR Hb Hg a Ha. pose proof (rS_is_mat e He Hn) as HM.
  pose proof (eigh_congd _ _ _ _ HM Hn Hg) as E. destruct Hg as (Hl & HQ & _). cbn in *.
  apply In_nth with (d := 0) in Ha as (j & Hj & <-). rewrite Hl in Hj.
  destruct (congd_eig (e_dim e) Q eigs j) as [E1 E2]; auto. rewrite <- E in E1.
  assert (Lc : length (col j Q) = e_dim e) by (rewrite col_length; apply HQ).
  pose proof (rS_bounds e (col j Q) He Hn Hf HR Lc Hb) as B. rewrite E1, E2 in B.
  rewrite !Rmult_1_r in B. apply B. intro Z. rewrite Z, dot_zeros_l in E2. lra.
Qed.
Lemma from_shape_matrix_roundtrip e eigh : is_ell e -> (0 < e_dim e)%nat -> fat (e_half e) ->
  orthogonal (e_dim e) (e_rot e) -> (forall i, (i < e_dim e)%nat -> nth i (e_half e) 0 < / np_atol) ->
  forall M, e_S e = fin2 M -> eigh_spec (e_dim e) M (eigh M) ->
  exists e', ell_from_shape_matrix eigh M (Some (e_center e)) = Ok e' /\ e_S e' = e_S e /\
    e_center e' = e_center e /\
    forall p, length p = e_dim e -> ell_set (e_half e') (e_rot e') (e_center e') p <-> ell_set (e_half e) (e_rot e) (e_center e) p.
Proof.
  intros He Hn Hf HR Hb M HM Hg. pose proof (e_S_fin e He Hn Hf) as ES.
  assert (EM : M = rS e).
  { rewrite ES in HM. clear -HM. revert HM. generalize (rS e). unfold fin2, fin1. intro A.
    revert M; induction A as [|r A IH]; intros [|s M] H; try discriminate; auto. injection H as H1 H2. f_equal; auto.
    clear -H1. revert s H1; induction r as [|x r IH]; intros [|y s] H; try discriminate; auto. injection H as -> H. f_equal; auto. }
  subst M. destruct (eigh (rS e)) as [eigs Q] eqn:E.
  destruct (form_facts e He) as (_ & Lc & _).
  destruct (from_shape_matrix_good eigh (e_dim e) (rS e) (e_center e) eigs Q) as (e' & F1 & F2 & F3 & F4 & F5 & F6 & F7); auto.
  - apply Hg.
  - apply Hg.
  - apply (eigh_congd (e_dim e)); auto. apply rS_is_mat; auto.
  - eapply eigs_in_range; eauto.
  - exists e'. split; [exact F1|]. split; [rewrite e_S_fin, F7 by (auto; lia); auto|]. split; [exact F4|].
    intros p Hp. rewrite !ell_set_local by (rewrite ?F3; auto). rewrite F7, F4. reflexivity.
Qed.
Lemma from_affine_roundtrip e eigh lstsq : is_ell e -> (0 < e_dim e)%nat -> fat (e_half e) ->
  orthogonal (e_dim e) (e_rot e) -> (forall i, (i < e_dim e)%nat -> nth i (e_half e) 0 < / np_atol) ->
  forall A b, e_A e = fin2 A -> e_b e = fin1 b -> eigh_spec (e_dim e) (mat_mul A A) (eigh (mat_mul A A)) ->
  lstsq_spec A (vneg b) (lstsq A (vneg b)) ->
  exists e', ell_from_affine eigh lstsq A b = Ok e' /\ e_S e' = e_S e /\ e_center e' = e_center e.
Proof.
  intros He Hn Hf HR Hb A b HA Hb' Hg Hs.
  assert (inj1 : forall x y : vec, fin1 x = fin1 y -> x = y).
  { induction x as [|x r IH]; intros [|y s] H; try discriminate; auto. injection H as -> H. f_equal; auto. }
  assert (inj2 : forall x y : mat, fin2 x = fin2 y -> x = y).
  { induction x as [|x r IH]; intros [|y s] H; try discriminate; auto. injection H as H H'. f_equal; auto. }
  rewrite e_A_fin in HA by auto. rewrite e_b_fin in Hb' by auto. apply inj1 in Hb'. apply inj2 in HA. subst A b.
  destruct (form_facts e He) as (MR & Lc & _). pose proof (rA_is_mat e He Hn) as MA.
  rewrite (rA_mul e) in Hg by auto.
  assert (NA : ncols (rA e) = e_dim e) by (apply (is_mat_ncols (e_dim e)); auto).
  assert (Ec : lstsq (rA e) (vneg (rb e)) = e_center e).
  { destruct Hs as [L1 L2]. set (x := lstsq (rA e) (vneg (rb e))) in *. rewrite NA in L1.
    assert (E0 : vneg (rb e) = mat_vec (rA e) (e_center e)).
    { unfold rb. rewrite mat_vec_mneg. apply (vec_ext (e_dim e)).
      - rewrite !vneg_length, mat_vec_length; apply MA.
      - rewrite mat_vec_length; apply MA.
      - intros i Hi. rewrite !nth_vneg. ring. }
    assert (E1 : mat_vec (rA e) x = mat_vec (rA e) (e_center e)).
    { rewrite <- E0. apply L2. exists (e_center e). rewrite NA. auto. }
    apply vsub_eq_zero; [congruence|]. rewrite L1.
    apply (pdef_zero (e_dim e) (rS e)); [apply rS_is_mat; auto|apply rS_pdef; auto|rewrite vsub_length; congruence|].
    rewrite <- (rA_mul e) by auto. unfold quad.
    rewrite (mat_vec_mat_mul (e_dim e) (e_dim e) (e_dim e)) by (auto; rewrite vsub_length; congruence).
    rewrite mat_vec_vsub by congruence. rewrite E1, vsub_diag, mat_vec_zeros, dot_zeros_r. lra. }
  unfold ell_from_affine. rewrite (rA_mul e), Ec by auto.
  destruct (from_shape_matrix_roundtrip e eigh) with (M := rS e) as (e' & F1 & F2 & F3 & _); auto.
  - apply e_S_fin; auto.
  - exists e'. auto.
Qed.
(** singular shape matrices *)
Lemma mapM_assert_fin eigh M c eigs Q : eigh M = (eigs, Q) -> (exists a, In a eigs /\ a <= np_atol * np_atol) ->
  ell_from_shape_matrix eigh M c = Raise AssertionError.
Proof.
  intros Hg (a & Ha & Hs). unfold ell_from_shape_matrix. rewrite Hg. unfold ell_init_ext.
  set (h := inv_with_zeros (map esqrt (fin1 eigs))).
  assert (F : forallb (fun a0 => eleb (Fin 0) a0) h && forallb is_fin h = false).
  { apply not_true_is_false. intro T. apply andb_true_iff in T as [T1 T2].
    rewrite forallb_forall in T1, T2.
    set (x := if eclose 0 np_atol (esqrt (Fin a)) (Fin 0) then PInf else einv (esqrt (Fin a))).
    assert (Hx : In x h). { unfold h, inv_with_zeros, fin1. rewrite !map_map. apply in_map_iff. exists a. split; auto. }
    specialize (T1 x Hx). specialize (T2 x Hx). unfold x in *. cbn [esqrt] in *.
    destruct (Rltb a 0) eqn:E; [cbn in T1; discriminate|]. apply Rltb_false in E.
    assert (C : eclose 0 np_atol (Fin (sqrt a)) (Fin 0) = true).
    { cbn. rewrite isclose_zero. apply Rleb_iff. pose proof (sqrt_pos a). rewrite Rabs_pos_eq by auto.
      rewrite <- (sqrt_square np_atol) by (pose proof np_atol_pos; lra). apply sqrt_le_1; [lra|apply sqr_nonneg|lra]. }
    rewrite C in T2. discriminate. }
  destruct (forallb (fun a0 => eleb (Fin 0) a0) h); cbn [andb bind assert_] in *; [|reflexivity].
  rewrite F. reflexivity.
Qed.
Lemma from_shape_matrix_singular eigh n M c : (0 < n)%nat -> is_mat n n M -> eigh_spec n M (eigh M) ->
  (exists x, length x = n /\ x <> zeros n /\ mat_vec M x = zeros n) ->
  ell_from_shape_matrix eigh M c = Raise AssertionError.
Proof.
  intros Hn HM Hg (x & Hx & Hx0 & H). destruct (eigh M) as [eigs Q] eqn:E.
  apply (mapM_assert_fin eigh M c eigs Q); auto.
  pose proof (eigh_congd _ _ _ _ HM Hn Hg) as EM. destruct Hg as (Hl & HQ & _). cbn in Hl, HQ. pose proof HQ as (MQ & _ & _).
  set (y := mat_vec (transpose Q) x).
  assert (Ly : length y = n) by (unfold y; rewrite mat_vec_length; apply (is_mat_transpose n n); auto).
  destruct (classic_exists_nz y) as [Hy|(j & Hj & Hy)].
  - exfalso. apply Hx0. rewrite <- (orthogonal_back n Q x) by auto. fold y. rewrite Hy, mat_vec_zeros. f_equal. apply MQ.
  - exists (nth j eigs 0). split; [apply nth_In; lia|].
    assert (Z : nth j eigs 0 * nth j y 0 = 0).
    { rewrite <- nth_vmul by lia.
      assert (E2 : vmul eigs y = zeros n).
      { rewrite <- (orthogonal_forth n Q (vmul eigs y)) by (auto; rewrite vmul_length; congruence).
        unfold y at 1. rewrite <- (congd_mat_vec n) by auto. rewrite <- EM, H, mat_vec_zeros. f_equal.
        apply (is_mat_transpose n n); auto. }
      rewrite E2. apply nth_zeros. }
    apply Rmult_integral in Z as [Z|Z]; [|contradiction]. rewrite Z. apply sqr_nonneg.
Qed.
