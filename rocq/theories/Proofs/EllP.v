From Verif Require Import Base.Vec Base.Ext Base.VecFacts Spec.Basic Spec.Shapes Spec.ShapeObjects
  Model.Util Model.Polydd Model.Ellipsoid Proofs.Coord Proofs.Hull Proofs.BoxP.

(** ** extended arithmetic on finite values *)
Lemma esum_fin l : esum (fin1 l) = Fin (lsum l).
Proof.
  induction l as [|a l IH]; [reflexivity|]. change (eadd (Fin a) (esum (fin1 l)) = Fin (a + lsum l)).
  rewrite IH. reflexivity.
Qed.
Lemma map2_emul_fin x y : map2 emul (fin1 x) (fin1 y) = fin1 (vmul x y).
Proof. revert y; induction x as [|a x IH]; intros [|b y]; cbn; auto. f_equal. apply IH. Qed.
Lemma edot_fin x y : edot (fin1 x) (fin1 y) = Fin (dot x y).
Proof. unfold edot. rewrite map2_emul_fin, esum_fin. reflexivity. Qed.
Lemma fin1_length x : length (fin1 x) = length x.
Proof. apply map_length. Qed.
Lemma emat_vec_fin A x : emat_vec (fin2 A) (fin1 x) = fin1 (mat_vec A x).
Proof. unfold emat_vec, fin2, mat_vec, fin1. rewrite !map_map. apply map_ext. intro r. apply edot_fin. Qed.
Lemma encols_fin A : encols (fin2 A) = ncols A.
Proof. destruct A; cbn; [reflexivity|]. apply fin1_length. Qed.
Lemma ecol_fin j A n : is_mat n (ncols A) A -> (j < ncols A)%nat -> ecol j (fin2 A) = fin1 (col j A).
Proof.
  intros HA Hj. unfold ecol, fin2, fin1, col. rewrite !map_map. apply map_ext_in. intros r Hr.
  rewrite (nth_indep _ NaN (Fin 0)); [apply map_nth|]. rewrite map_length.
  destruct HA as [_ HA]. rewrite Forall_forall in HA. rewrite (HA r Hr). exact Hj.
Qed.
Lemma evec_mat_fin n m x A : is_mat n m A -> (0 < n)%nat -> evec_mat (fin1 x) (fin2 A) = fin1 (vec_mat x A).
Proof.
  intros HA Hn. pose proof (is_mat_ncols _ _ _ HA Hn) as E.
  unfold evec_mat, vec_mat. rewrite encols_fin. unfold fin1 at 2. rewrite map_map. apply map_ext_in.
  intros j Hj. apply in_seq in Hj. rewrite (ecol_fin j A n); [apply edot_fin| |lia]. rewrite E. exact HA.
Qed.
Lemma emat_mul_fin n m A B : is_mat n m B -> (0 < n)%nat -> emat_mul (fin2 A) (fin2 B) = fin2 (mat_mul A B).
Proof.
  intros HB Hn. unfold emat_mul, mat_mul, fin2. rewrite !map_map. apply map_ext. intro r. eapply evec_mat_fin; eauto.
Qed.
Lemma ediag_fin d : ediag (fin1 d) = fin2 (diag d).
Proof.
  unfold ediag, diag, fin2. rewrite fin1_length, map_map. apply map_ext_in. intros i Hi. apply in_seq in Hi.
  unfold fin1. rewrite map_map. apply map_ext. intro j. destruct (Nat.eqb i j); [|reflexivity].
  rewrite (nth_indep _ NaN (Fin 0)) by (rewrite map_length; lia). apply map_nth.
Qed.
Lemma esq_fin v : esq (fin1 v) = fin1 (vsq v).
Proof. unfold esq, fin1, vsq. rewrite !map_map. reflexivity. Qed.

(** ** constructor *)
Lemma forallb_fin1 (f : eR -> bool) h : forallb f (fin1 h) = forallb (fun x => f (Fin x)) h.
Proof. induction h as [|a h IH]; [reflexivity|]. cbn. rewrite <- IH. reflexivity. Qed.
Lemma map_to_R_fin h : map to_R (fin1 h) = h.
Proof. unfold fin1. rewrite map_map. apply map_id. Qed.
Lemma ell_init_inv h r c e : ell_init h r c = Ok e ->
  (forall i, (i < length h)%nat -> 0 <= nth i h 0) /\ e_half e = h /\ e_rot e = pose_rot (length h) r /\
  e_center e = pose_tr (length h) c /\ is_mat (length h) (length h) (e_rot e) /\ length (e_center e) = length h.
Proof.
  unfold ell_init, ell_init_ext. rewrite !forallb_fin1. cbn [eleb is_fin]. rewrite fin1_length.
  destruct (forallb (fun x => Rleb 0 x) h) eqn:E1; cbn [bind assert_]; [|discriminate].
  change (fun x => Rleb 0 x) with (Rleb 0) in E1. rewrite forallb_nonneg in E1.
  replace (forallb (fun _ => true) h) with true by (clear; induction h; cbn; auto). cbn [bind assert_].
  fold (pose_rot (length h) r). fold (pose_tr (length h) c).
  destruct (is_matb (length h) (length h) (pose_rot (length h) r)) eqn:E2; cbn [bind assert_]; [|discriminate].
  destruct (is_vecb (length h) (pose_tr (length h) c)) eqn:E3; cbn [bind assert_]; [|discriminate].
  apply is_matb_iff in E2. apply Nat.eqb_eq in E3. intros [= <-]. cbn. rewrite map_to_R_fin. auto 8.
Qed.
Lemma ell_init_good h r c : (forall i, (i < length h)%nat -> 0 <= nth i h 0) ->
  is_mat (length h) (length h) (pose_rot (length h) r) -> length (pose_tr (length h) c) = length h ->
  ell_init h r c = Ok {| e_half := h; e_rot := pose_rot (length h) r; e_center := pose_tr (length h) c |}.
Proof.
  intros H1 H2 H3. unfold ell_init, ell_init_ext. rewrite !forallb_fin1. cbn [eleb is_fin]. rewrite fin1_length.
  change (fun x => Rleb 0 x) with (Rleb 0). rewrite (proj2 (forallb_nonneg h) H1). cbn [bind assert_].
  replace (forallb (fun _ => true) h) with true by (clear; induction h; cbn; auto). cbn [bind assert_].
  fold (pose_rot (length h) r). fold (pose_tr (length h) c).
  rewrite (proj2 (is_matb_iff _ _ _) H2). cbn [bind assert_]. unfold is_vecb. rewrite H3, Nat.eqb_refl.
  cbn [bind assert_]. rewrite map_to_R_fin. reflexivity.
Qed.
Lemma ell_facts e : is_ell e -> (forall i, (i < e_dim e)%nat -> 0 <= nth i (e_half e) 0) /\
  is_mat (e_dim e) (e_dim e) (e_rot e) /\ length (e_center e) = e_dim e.
Proof.
  intros (h & r & c & H). apply ell_init_inv in H as (H1 & H2 & H3 & H4 & H5 & H6). unfold e_dim. rewrite H2. auto.
Qed.

(** ** zero masks *)
Lemma np_atol_pos : 0 < np_atol. Proof. unfold np_atol. lra. Qed.
Definition tiny (h : R) : bool := Rleb (Rabs h) np_atol.
Lemma isclose_zero rt a h : isclose rt a h 0 = Rleb (Rabs h) a.
Proof. unfold isclose. rewrite Rabs_R0, Rmult_0_r, Rplus_0_r, Rminus_0_r. reflexivity. Qed.
Lemma e_z_tiny e : e_z e = map tiny (e_half e).
Proof. unfold e_z, tiny. apply map_ext. intro h. apply isclose_zero. Qed.
Lemma half_inv_tiny e : e_half_inv e = map (fun h => if tiny h then PInf else Fin (/ h)) (e_half e).
Proof.
  unfold e_half_inv, inv_with_zeros, fin1. rewrite map_map. apply map_ext. intro h. cbn [eclose].
  rewrite isclose_zero. fold (tiny h). destruct (tiny h) eqn:E; [reflexivity|].
  cbn [einv]. destruct (Reqb h 0) eqn:E2; [|reflexivity]. apply Reqb_iff in E2. subst.
  unfold tiny in E. rewrite Rabs_R0 in E. apply Rleb_false in E. pose proof np_atol_pos. lra.
Qed.
Lemma tiny_nz h : tiny h = false -> h <> 0.
Proof. intros E ->. unfold tiny in E. rewrite Rabs_R0 in E. apply Rleb_false in E. pose proof np_atol_pos. lra. Qed.

Definition zq (h x : R) : R := if tiny h then 0 else (/ h * / h) * x * x.
Lemma zq_nonneg h x : 0 <= zq h x.
Proof. unfold zq. destruct (tiny h); [lra|]. replace (/ h * / h * x * x) with ((/ h * x) * (/ h * x)) by ring. apply sqr_nonneg. Qed.

Lemma select_cons {A} b m (a : A) l : select (b :: m) (a :: l) = if b then a :: select m l else select m l.
Proof. unfold select. cbn. destruct b; reflexivity. Qed.
Lemma ell_contains_local e p tol : length (vec_mat (vsub p (e_center e)) (e_rot e)) = e_dim e ->
  (ell_contains e p tol = true <->
   (forall i, (i < e_dim e)%nat -> tiny (nth i (e_half e) 0) = true ->
      Rabs (nth i (vec_mat (vsub p (e_center e)) (e_rot e)) 0) <= tol) /\
   lsum (map2 zq (e_half e) (vec_mat (vsub p (e_center e)) (e_rot e))) <= 1 + tol).
Proof.
  unfold ell_contains, e_dim. rewrite e_z_tiny, half_inv_tiny. generalize (vec_mat (vsub p (e_center e)) (e_rot e)) as ps.
  intros ps L. rewrite andb_true_iff.
  assert (A : forall h ps, length ps = length h ->
    (forallb (fun a => isclose 0 tol a 0) (select (map tiny h) ps) = true <->
     forall i, (i < length h)%nat -> tiny (nth i h 0) = true -> Rabs (nth i ps 0) <= tol)).
  { clear. induction h as [|a h IH]; intros [|x ps] L; cbn in L; try discriminate.
    - cbn. split; auto. intros _ i Hi; lia.
    - cbn [map]. rewrite select_cons. cbn [length].
      assert (L' : length ps = length h) by lia. specialize (IH ps L').
      destruct (tiny a) eqn:E.
      + cbn [forallb]. rewrite andb_true_iff, IH, isclose_zero, Rleb_iff. split.
        * intros [H1 H2] [|i] Hi Ht; auto. apply H2; auto. lia.
        * intro H. split; [apply (H 0%nat); auto; lia|]. intros i Hi. apply (H (S i)). lia.
      + rewrite IH. split.
        * intros H [|i] Hi Ht; [cbn in Ht; congruence|]. apply H; auto. lia.
        * intros H i Hi. apply (H (S i)). lia. }
  rewrite A by exact L.
  assert (B : forall h ps, length ps = length h ->
    esum (map2 emul (map2 emul (esq (select (map negb (map tiny h)) (map (fun h => if tiny h then PInf else Fin (/ h)) h)))
                               (fin1 (select (map negb (map tiny h)) ps))) (fin1 (select (map negb (map tiny h)) ps))) =
    Fin (lsum (map2 zq h ps))).
  { clear. induction h as [|a h IH]; intros [|x ps] L; cbn in L; try discriminate; [reflexivity|].
    cbn [map]. rewrite !select_cons. cbn [map2]. unfold zq at 1. destruct (tiny a) eqn:E; cbn [negb].
    - rewrite IH by lia. cbn. change (fold_right Rplus 0) with lsum. rewrite Rplus_0_l. reflexivity.
    - cbn [esq map fin1 map2 emul]. change (map Fin) with fin1. cbn [esum fold_right].
      change (fold_right eadd (Fin 0)) with esum. unfold esq in IH. rewrite IH by lia. cbn.
      change (fold_right Rplus 0) with lsum. reflexivity. }
  rewrite B by exact L. cbn [eleb]. rewrite Rleb_iff. reflexivity.
Qed.


Lemma dot_lsum_zq h u : (forall i, (i < length h)%nat -> nth i h 0 = 0 \/ np_atol < nth i h 0) -> length u = length h ->
  lsum (map2 zq h (vmul h u)) <= dot u u.
Proof.
  unfold dot. revert u; induction h as [|a h IH]; intros [|x u] H L; cbn in L; try discriminate; cbn; [lra|].
  change (fold_right Rplus 0) with lsum. specialize (IH u (fun i Hi => H (S i) ltac:(cbn; lia)) ltac:(lia)).
  assert (zq a (a * x) <= x * x); [|unfold vmul in IH; lra]. unfold zq. destruct (tiny a) eqn:E; [apply sqr_nonneg|].
  apply tiny_nz in E. right. field. exact E.
Qed.
Lemma tiny_proper h : h = 0 \/ np_atol < h -> tiny h = true -> h = 0.
Proof.
  intros [->|H] E; [reflexivity|]. unfold tiny in E. apply Rleb_iff in E. pose proof np_atol_pos.
  rewrite Rabs_pos_eq in E by lra. lra.
Qed.
Lemma tiny_proper_pos h : np_atol < h -> tiny h = false.
Proof. intro H. unfold tiny. apply Rleb_false. pose proof np_atol_pos. rewrite Rabs_pos_eq; lra. Qed.
Lemma tiny_0 : tiny 0 = true.
Proof. unfold tiny. rewrite Rabs_R0. apply Rleb_iff. left. apply np_atol_pos. Qed.

Lemma vec_mat_len n v A : is_mat n n A -> (0 < n)%nat -> length (vec_mat v A) = n.
Proof. intros HA Hn. rewrite vec_mat_length. eapply is_mat_ncols; eauto. Qed.

(** coordinates in the frame of the ellipsoid *)
Definition unscale (h ps : vec) : vec := map2 (fun h x => if tiny h then 0 else / h * x) h ps.
Lemma unscale_spec h ps : length ps = length h -> dot (unscale h ps) (unscale h ps) = lsum (map2 zq h ps).
Proof.
  unfold dot, unscale. revert ps; induction h as [|a h IH]; intros [|x ps] L; cbn in L; try discriminate; cbn; [reflexivity|].
  change (fold_right Rplus 0) with lsum. rewrite IH by lia. f_equal. unfold zq. destruct (tiny a); ring.
Qed.
Lemma unscale_length h ps : length ps = length h -> length (unscale h ps) = length h.
Proof. intro H. unfold unscale. rewrite map2_length. lia. Qed.
Lemma vmul_unscale h ps : length ps = length h ->
  (forall i, (i < length h)%nat -> tiny (nth i h 0) = true -> nth i ps 0 = 0 ) ->
  vmul h (unscale h ps) = ps.
Proof.
  revert ps; induction h as [|a h IH]; intros [|x ps] L H; cbn in L; try discriminate; cbn; [reflexivity|]. f_equal.
  - destruct (tiny a) eqn:E; [specialize (H 0%nat); cbn in H; rewrite H; auto; lra || lia|]. apply tiny_nz in E. field. exact E.
  - apply IH; [lia|]. intros i Hi. apply (H (S i)). cbn. lia.
Qed.

Lemma ell_contains_iff e p : is_ell e -> (0 < e_dim e)%nat -> orthogonal (e_dim e) (e_rot e) ->
  proper_half (e_half e) -> length p = e_dim e ->
  (ell_contains e p 0 = true <-> ell_set (e_half e) (e_rot e) (e_center e) p).
Proof.
  intros He Hn HQ Hpr Hp. apply ell_facts in He as (H1 & H2 & H3).
  pose proof (vec_mat_len _ (vsub p (e_center e)) _ H2 Hn) as L.
  rewrite ell_contains_local by exact L. rewrite vec_mat_mat_vec in *.
  set (ps := mat_vec (transpose (e_rot e)) (vsub p (e_center e))) in *. unfold ell_set. fold (e_dim e).
  split.
  - intros [Hz Hs]. exists (unscale (e_half e) ps). rewrite unscale_length by exact L. split; [reflexivity|]. split.
    + rewrite unscale_spec by exact L. lra.
    + apply (move_inv (e_dim e)); auto.
      * rewrite vmul_length; rewrite ?unscale_length; auto.
      * fold ps. apply vmul_unscale; [exact L|]. intros i Hi Ht. specialize (Hz i Hi Ht).
        apply Rabs_eq_0 || idtac. pose proof (Rabs_pos (nth i ps 0)). destruct (Req_dec (nth i ps 0) 0) as [E|E]; [exact E|].
        apply Rabs_pos_lt in E. lra.
  - intros (u & Lu & Hu & E). apply (move_inv (e_dim e)) in E; auto.
    2:{ rewrite vmul_length; auto. }
    fold ps in E. rewrite <- E. split.
    + intros i Hi Ht. rewrite nth_vmul by auto. apply tiny_proper in Ht; [|apply Hpr, Hi]. rewrite Ht, Rmult_0_l, Rabs_R0. lra.
    + pose proof (dot_lsum_zq (e_half e) u Hpr Lu). lra.
Qed.
