(** Ellipsoids from arbitrary shape matrices and affine maps; answers of eigh. *)
From Coq Require Import Permutation.
From Verif Require Import Base.Vec Base.Ext Base.VecFacts Model.Util Model.Ellipsoid Spec.Basic Spec.Shapes Spec.ShapeObjects Spec.Geodesic
  Proofs.Coord Proofs.LinAlg Proofs.BoxP Proofs.EllP Proofs.EllForms Proofs.EllSame Proofs.Spectral Proofs.MatAlg.

Lemma eigh_eigenlist n M w V : (0 < n)%nat -> eigh_spec n M (w, V) -> eigenlist n M w.
Proof.
  intros Hn (Hw & HV & E). cbn [fst snd] in *. split; auto. exists V, (transpose V). split; auto. now apply inv_orth.
Qed.
Lemma count_sum (x : R) (w : vec) : INR (count_occ Req_EM_T w x) = lsum (map (fun y => if Req_EM_T y x then 1 else 0) w).
Proof.
  induction w as [|y w IH]; [reflexivity|]. cbn [count_occ map]. change (lsum (?a :: ?b)) with (a + lsum b).
  destruct (Req_EM_T y x); [rewrite S_INR|]; rewrite IH; cbn; lra.
Qed.
Lemma eigenlist_perm n C w w' : (0 < n)%nat -> is_mat n n C -> eigenlist n C w -> eigenlist n C w' -> Permutation w w'.
Proof.
  intros Hn HC E E'. apply (Permutation_count_occ Req_EM_T). intros x. apply INR_eq. rewrite !count_sum.
  now apply (eigenlist_sum n Hn C).
Qed.
Lemma eigh_perm n M w V w' V' : (0 < n)%nat -> is_mat n n M -> eigh_spec n M (w, V) -> eigh_spec n M (w', V') -> Permutation w w'.
Proof. intros Hn HM H H'. apply (eigenlist_perm n M); eauto using eigh_eigenlist. Qed.

Lemma eigs_between n M w V lo hi : (0 < n)%nat -> is_mat n n M -> eigh_spec n M (w, V) -> form_between n M lo hi ->
  forall a, In a w -> lo <= a <= hi.
Proof.
  intros Hn HM Hg HB a Ha. pose proof (eigh_congd _ _ _ _ HM Hn Hg) as E. destruct Hg as (Hl & HQ & _). cbn in *.
  apply In_nth with (d := 0) in Ha as (j & Hj & <-). rewrite Hl in Hj.
  destruct (congd_eig n V w j) as [E1 E2]; auto. rewrite <- E in E1.
  specialize (HB (col j V)). rewrite col_length, E1, E2 in HB. destruct HQ as (HVm & _).
  specialize (HB (is_mat_length _ _ _ HVm)). lra.
Qed.

Lemma shape_matrix_any n M c eigh lo hi : (0 < n)%nat -> is_mat n n M -> length c = n ->
  eigh_spec n M (eigh M) -> form_between n M lo hi -> np_atol * np_atol < lo -> hi < / (np_atol * np_atol) ->
  exists e, ell_from_shape_matrix eigh M (Some c) = Ok e /\ e_S e = fin2 M /\ e_center e = c /\
    forall p, length p = n -> (ell_contains e p 0 = true <-> quad M (vsub p c) <= 1).
Proof.
  intros Hn HM Hc Hg HB Hlo Hhi. destruct (eigh M) as [w V] eqn:E.
  destruct (from_shape_matrix_good eigh n M c w V) as (e & F1 & F2 & F3 & F4 & F5 & F6 & F7); auto.
  - apply Hg.
  - apply Hg.
  - now apply (eigh_congd n).
  - intros a Ha. pose proof (eigs_between n M w V lo hi Hn HM Hg HB a Ha). lra.
  - exists e. split; [exact F1|]. assert (0 < e_dim e)%nat by lia. rewrite <- F3 in F5.
    split; [rewrite e_S_fin, F7; auto|]. split; [exact F4|].
    intros p Hp. rewrite ell_contains_iff by (auto using fat_proper; lia).
    rewrite ell_set_local by (auto; lia). now rewrite F7, F4.
Qed.

Lemma quad_square n A x : (0 < n)%nat -> is_mat n n A -> symmetric n A -> length x = n ->
  quad (mat_mul A A) x = dot (mat_vec A x) (mat_vec A x).
Proof.
  intros Hn HA HS Hx. unfold quad. rewrite (mat_vec_mat_mul n n n) by auto.
  rewrite (dot_mat_vec n n) by (auto; rewrite mat_vec_length; eapply is_mat_length; eauto).
  rewrite vec_mat_mat_vec. now rewrite (proj1 (sym_transpose n A HA Hn) HS).
Qed.

Lemma affine_any n A b eigh lstsq lo hi : (0 < n)%nat -> is_mat n n A -> symmetric n A -> length b = n ->
  (exists A', inverse n A A') -> eigh_spec n (mat_mul A A) (eigh (mat_mul A A)) -> lstsq_spec A (vneg b) (lstsq A (vneg b)) ->
  (forall x, length x = n -> lo * dot x x <= dot (mat_vec A x) (mat_vec A x) <= hi * dot x x) ->
  np_atol * np_atol < lo -> hi < / (np_atol * np_atol) ->
  exists e, ell_from_affine eigh lstsq A b = Ok e /\
    forall p, length p = n -> (ell_contains e p 0 = true <-> norm (vadd (mat_vec A p) b) <= 1).
Proof.
  intros Hn HA HS Hb (A' & IA) Hg Hl HB Hlo Hhi. pose proof IA as (_ & HA' & I1 & I2).
  assert (HAA : is_mat n n (mat_mul A A)) by now apply mul_ok.
  set (c := lstsq A (vneg b)) in *. destruct Hl as (Lc & Hl). rewrite (is_mat_ncols _ _ _ HA) in Lc, Hl by auto.
  assert (Ec : mat_vec A c = vneg b).
  { apply Hl. exists (mat_vec A' (vneg b)). rewrite mat_vec_length. split; [eapply is_mat_length; eauto|].
    rewrite <- (mat_vec_mat_mul n n n) by (auto; now rewrite vneg_length). rewrite I1. apply mat_vec_eye. now rewrite vneg_length. }
  destruct (shape_matrix_any n (mat_mul A A) c eigh lo hi Hn HAA Lc Hg) as (e & F1 & _ & _ & F); auto.
  { intros x Hx. rewrite (quad_square n) by auto. now apply HB. }
  exists e. split; [exact F1|]. intros p Hp. rewrite F by auto. rewrite norm_le_iff by lra. rewrite Rmult_1_r.
  rewrite (quad_square n) by (auto; rewrite vsub_length; lia). rewrite mat_vec_vsub, Ec by lia.
  replace (vsub (mat_vec A p) (vneg b)) with (vadd (mat_vec A p) b); [reflexivity|].
  assert (LA : length (mat_vec A p) = n) by (rewrite mat_vec_length; eapply is_mat_length; eauto).
  apply (vec_ext n); [rewrite vadd_length; lia|rewrite vsub_length; rewrite ?vneg_length; lia|]. intros i Hi.
  rewrite nth_vadd, nth_vsub, nth_vneg by (rewrite ?vneg_length; lia). ring.
Qed.

(** a matrix that is not symmetric: |A x| <= 1 is an ellipse, the answer is the unit disc *)
Lemma affine_not_symmetric : exists A b p, is_mat 2 2 A /\ (exists A', inverse 2 A A') /\ length b = 2%nat /\ length p = 2%nat /\
  norm (vadd (mat_vec A p) b) <= 1 /\
  (exists wV c, eigh_spec 2 (mat_mul A A) wV /\ lstsq_spec A (vneg b) c) /\
  forall eigh lstsq, eigh_spec 2 (mat_mul A A) (eigh (mat_mul A A)) -> lstsq_spec A (vneg b) (lstsq A (vneg b)) ->
  exists e, ell_from_affine eigh lstsq A b = Ok e /\ ell_contains e p 0 = false.
Proof.
  assert (HA : is_mat 2 2 [[0; 2]; [1 / 2; 0]]) by (apply is_matb_iff; reflexivity).
  assert (IA : inverse 2 [[0; 2]; [1 / 2; 0]] [[0; 2]; [1 / 2; 0]]).
  { split; [exact HA|]. split; [exact HA|]. split; cbn; unfold dot; cbn; list_eq; field. }
  exists [[0; 2]; [1 / 2; 0]], [0; 0], [2; 0]. split; [exact HA|]. split; [eexists; exact IA|]. split; [reflexivity|]. split; [reflexivity|].
  assert (ES : mat_mul [[0; 2]; [1 / 2; 0]] [[0; 2]; [1 / 2; 0]] = eye 2) by apply IA.
  split; [|split].
  - apply norm_le_iff; [lra|]. cbn. unfold dot. cbn. nra.
  - exists ([1; 1], eye 2), [0; 0]. rewrite ES. split.
    + split; [reflexivity|]. split; [apply orthogonal_eye; lia|]. cbn. unfold dot. cbn. list_eq; lra.
    + split; [reflexivity|]. intros _. cbn. unfold dot. cbn. list_eq; lra.
  - intros eigh lstsq Hg Hl. unfold ell_from_affine. rewrite ES in *.
    destruct Hl as (Lc & Hl). cbn [ncols hd length] in Lc, Hl.
    assert (Ec : lstsq [[0; 2]; [1 / 2; 0]] (vneg [0; 0]) = [0; 0]).
    { apply (inv_kernel 2 _ _ _ IA Lc). rewrite Hl; [cbn; list_eq; lra|].
      exists [0; 0]. split; [reflexivity|]. cbn. unfold dot. cbn. list_eq; lra. }
    rewrite Ec. destruct (shape_matrix_any 2 (eye 2) [0; 0] eigh 1 1) as (e & F1 & _ & _ & F); auto using is_mat_eye.
    + intros x Hx. rewrite quad_eye by auto. lra.
    + unfold np_atol. lra.
    + unfold np_atol. lra.
    + exists e. split; [exact F1|]. destruct (ell_contains e [2; 0] 0) eqn:C; auto. apply F in C; [|reflexivity].
      cbn in C. unfold quad, dot in C. cbn in C. lra.
Qed.

Lemma between_case : exists M V, is_mat 2 2 M /\ entry M 0 1 <> 0 /\ eigh_spec 2 M ([4; 1], V) /\ form_between 2 M 1 4.
Proof.
  exists [[52 / 25; 36 / 25]; [36 / 25; 73 / 25]], [[3 / 5; - (4 / 5)]; [4 / 5; 3 / 5]].
  split; [apply is_matb_iff; reflexivity|]. split; [cbn; lra|]. split.
  - split; [reflexivity|]. split.
    + split; [apply is_matb_iff; reflexivity|]. split; cbn; unfold dot; cbn; list_eq; field.
    + cbn. unfold dot. cbn. list_eq; field.
  - intros x Hx. destruct (len2_inv x Hx) as (a & b & ->). unfold quad. cbn. unfold dot. cbn.
    pose proof (sqr_nonneg (3 * a + 4 * b)). pose proof (sqr_nonneg (4 * a - 3 * b)). split; nra.
Qed.
