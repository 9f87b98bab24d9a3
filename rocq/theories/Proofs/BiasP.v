(** C108: the mean of the points of Box.random_points_on_surface at an arbitrary pose. *)
From Coq Require Import Permutation.
From Coquelicot Require Import Coquelicot.
From Verif Require Import Base.Vec Base.VecFacts Spec.Basic Spec.Shapes Spec.ShapeObjects Spec.Integrals Spec.RandomSpec Spec.Uniform Spec.Expect Spec.Samples
  Model.Util Model.Polydd Model.Poly Model.Inertial Model.Ellipsoid Model.Box Model.Cylinder Model.Random Model.MonteCarlo
  Proofs.Coord Proofs.Hull Proofs.EllP Proofs.BoxP Proofs.IntegralP Proofs.DensityP Proofs.RandomP Proofs.RandomS Proofs.UniformP Proofs.Decomp Proofs.ExpectP Proofs.MonteCarloP Proofs.MonteCarloQ Proofs.MonteCarloR Proofs.VolumeV Proofs.SamplingP Proofs.RejectLaw Proofs.SamplesP.

Lemma quad_int A B C : integral (fun x => A + B * x + C * (x * x)) (-1) 1 (2 * (A + C / 3)).
Proof.
  set (P := fun x => A * x + B / 2 * (x * x) + C / 3 * (x * x * x)).
  eapply IntegralP.integral_eq; [apply (is_RInt_derive P (fun x => A + B * x + C * (x * x)))|].
  - intros x _. unfold P. auto_derive; [auto|]. field.
  - intros x _. apply (ex_derive_continuous (V := R_NormedModule)). auto_derive. auto.
  - unfold P, minus, plus, opp. cbn. field.
Qed.
Lemma affine3 a0 a1 a2 a3 : let f := fun r : vec => a0 + a1 * nth 0 r 0 + a2 * nth 1 r 0 + a3 * nth 2 r 0 in
  mean_u 3 f a0 /\ mean_u 3 (fun r => f r * f r) (a0 * a0 + (a1 * a1 + a2 * a2 + a3 * a3) / 3).
Proof.
  intro f. unfold f. cbn [mean_u nth]. split.
  - exists (fun x => a0 + a1 * x + 0 * (x * x)). split; [|eapply IntegralP.integral_eq; [apply quad_int|field]]. intros x _.
    exists (fun y => (a0 + a1 * x) + a2 * y + 0 * (y * y)). split; [|eapply IntegralP.integral_eq; [apply quad_int|field]]. intros y _.
    eexists. split; [intros; reflexivity|]. eapply IntegralP.integral_eq; [eapply IntegralP.integral_ext; [|apply (quad_int (a0 + a1 * x + a2 * y) a3 0)]|]; [intros; cbv beta; ring|field].
  - exists (fun x => (a0 * a0 + (a2 * a2 + a3 * a3) / 3) + 2 * a0 * a1 * x + a1 * a1 * (x * x)). split; [|eapply IntegralP.integral_eq; [apply quad_int|field]]. intros x _.
    exists (fun y => ((a0 + a1 * x) * (a0 + a1 * x) + a3 * a3 / 3) + 2 * (a0 + a1 * x) * a2 * y + a2 * a2 * (y * y)). split; [|eapply IntegralP.integral_eq; [apply quad_int|field]]. intros y _.
    eexists. split; [intros; reflexivity|]. eapply IntegralP.integral_eq; [eapply IntegralP.integral_ext; [|apply (quad_int ((a0 + a1 * x + a2 * y) * (a0 + a1 * x + a2 * y)) (2 * (a0 + a1 * x + a2 * y) * a3) (a3 * a3))]|]; [intros; cbv beta; ring|field].
Qed.
(** the side on which a point of kind k is projected *)
Definition face_set (h : vec) (k : nat) (p : vec) : vec :=
  match k with
  | O => set_coord 0 (nth 0 h 0) p | S O => set_coord 0 (- nth 0 h 0) p
  | S (S O) => set_coord 1 (nth 1 h 0) p | S (S (S O)) => set_coord 1 (- nth 1 h 0) p
  | S (S (S (S O))) => set_coord 2 (nth 2 h 0) p | _ => set_coord 2 (- nth 2 h 0) p
  end.
Lemma posed_rows h c r b n U counts sh : box_init h c r = Ok b ->
  0 < nth 0 h 0 * nth 1 h 0 + nth 0 h 0 * nth 2 h 0 + nth 1 h 0 * nth 2 h 0 -> n <> 1%nat ->
  rows_of n 3 (uniform_draw (-1) 1) U -> multinomial_draw n 6 counts -> shuffles sh ->
  let Q := pose_rot 3 r in let t := pose_tr 3 c in
  box_random_points_on_surface b n U counts sh = Ok (map (move Q t) (sh (map2 (fun k u => face_set h k (box_pt h Q t u)) (expand 0 counts) U))).
Proof.
  intros Hb HA Hn HU HM HS Q t. destruct HU as [[LU HU3] HU]. rewrite Forall_forall in HU3.
  pose proof HM as [L6 Sn]. apply box_init_inv in Hb as (Lh & Ph & Eh & Ec & Er & MQ & Lc & _). fold Q in Er. fold t in Ec. rewrite Er in MQ. rewrite Ec in Lc.
  assert (EB : box_random_points b U = map (box_pt h Q t) U).
  { unfold box_random_points. rewrite Eh, Er, Ec. rewrite (rows_move_eq 3); auto; [rewrite map_map; reflexivity|]. apply rows_len_of. intros q Hq. apply in_map_iff in Hq as (q' & <- & Hq). rewrite vmul_length; [|rewrite (HU3 q' Hq); auto]. now apply HU3. }
  assert (L3 : forall u, length u = 3%nat -> length (box_pt h Q t u) = 3%nat).
  { intros u Lu. unfold box_pt, move. destruct MQ as [LQ _]. rewrite vadd_length; [|rewrite mat_vec_length; rewrite LQ, Lc; reflexivity]. rewrite mat_vec_length. exact LQ. }
  destruct h as [|x [|y [|z [|]]]]; try discriminate Lh. cbn [nth] in HA.
  unfold box_random_points_on_surface. rewrite Eh, EB. rewrite Reqb_false by lra. rewrite (proj2 (Nat.eqb_neq n 1) Hn).
  set (B := map (box_pt [x; y; z] Q t) U). assert (LB : length B = n) by (unfold B; now rewrite map_length).
  assert (NB : forall k, (k < n)%nat -> nth k B [] = box_pt [x; y; z] Q t (nth k U [])).
  { intros k Hk. unfold B. rewrite (nth_indep _ [] (box_pt [x; y; z] Q t [])) by (rewrite map_length; lia). apply (map_nth (box_pt [x; y; z] Q t)). }
  clearbody B.
  match goal with |- Ok (rows_move _ _ (sh ?X)) = _ => set (P := X) end.
  assert (LP : length P = n) by (unfold P; rewrite !set_rows_length; exact LB).
  assert (EP : P = map2 (fun k u => face_set [x; y; z] k (box_pt [x; y; z] Q t u)) (expand 0 counts) U).
  { apply (rows_by_kind n 6); auto. intros kk k Hkk HK.
    assert (Hk : (k < n)%nat). { destruct HK as [_ HK]. eapply Nat.lt_le_trans; [exact HK|]. rewrite <- Sn. clear. revert kk. induction counts as [|c' r' IH]; intro kk; [rewrite firstn_nil; lia|]. cbn [firstn fold_right]. destruct kk; [cbn; lia|]. specialize (IH kk). lia. }
    unfold P. clear P LP HS HU EB.
    pose proof (NB k Hk) as Eu. clear HU3 NB.
    destruct counts as [|c0 [|c1 [|c2 [|c3 [|c4 [|c5 [|]]]]]]]; try discriminate L6. clear L6 HM. cbn [fold_right] in Sn. cbn [cumsum cumsum_from nth Nat.add] in *.
    remember (c0 + c1)%nat as i2. remember (i2 + c2)%nat as i3. remember (i3 + c3)%nat as i4. remember (i4 + c4)%nat as i5.
    unfold of_kind in HK.
    do 6 (destruct kk as [|kk]; [cbn [firstn fold_right] in HK; segs LB; rewrite Eu; reflexivity|]). lia. }
  rewrite Er, Ec. f_equal. rewrite <- EP. apply (rows_move_eq 3); auto. apply rows_len_of. intros p I. apply (Permutation_in _ (HS P)) in I. rewrite EP in I. apply in_map2 in I as (k & u & _ & Iu & ->).
  specialize (L3 u (HU3 u Iu)). clear - L3. destruct (box_pt [x; y; z] Q t u) as [|p0 [|p1 [|p2 [|]]]]; try discriminate L3. do 6 (destruct k as [|k]; [reflexivity|]). reflexivity.
Qed.

Lemma surface_bias h c r b i : box_init h c r = Ok b -> (forall j, (j < 3)%nat -> 0 < nth j h 0) -> (i < 3)%nat ->
  let Q := pose_rot 3 r in let t := pose_tr 3 c in
  let x := nth 0 h 0 in let y := nth 1 h 0 in let z := nth 2 h 0 in let S := y * z + x * z + x * y in
  let w := [(x * z + x * y) / S; (y * z + x * y) / S; (y * z + x * z) / S] in
  forall n sh, (2 <= n)%nat -> shuffles sh -> exists v,
    estimates_of (box_face_pvals b) n (rows_of n 3 (uniform_draw (-1) 1)) (mean_rows 3 n)
      (fun counts U => box_random_points_on_surface b n U counts sh) (average (fun p => nth i p 0)) (nth i (move Q t (vmul w t)) 0) v.
Proof.
  intros Hb Hp Hi Q t x y z S w n sh Hn HS. pose proof (box_init_inv _ _ _ _ Hb) as (Lh & _ & Eh & Ec & Er & MQ & Lc & _). rewrite Er in MQ. rewrite Ec in Lc. fold Q in MQ. fold t in Lc.
  pose proof (Hp 0 ltac:(lia))%nat as Px. pose proof (Hp 1 ltac:(lia))%nat as Py. pose proof (Hp 2 ltac:(lia))%nat as Pz.
  destruct (box_face_shares h c r b Hb) as (LP & P0 & P1 & _). { assert (0 < nth 0 h 0 * nth 1 h 0) by now apply Rmult_lt_0_compat. assert (0 < nth 0 h 0 * nth 2 h 0) by now apply Rmult_lt_0_compat. assert (0 < nth 1 h 0 * nth 2 h 0) by now apply Rmult_lt_0_compat. lra. }
  fold x in Px. fold y in Py. fold z in Pz. assert (Eh3 : h = [x; y; z]) by (unfold x, y, z; destruct h as [|? [|? [|? [|]]]]; try discriminate Lh; reflexivity).
  assert (Pxy : 0 < x * y) by now apply Rmult_lt_0_compat. assert (Pxz : 0 < x * z) by now apply Rmult_lt_0_compat. assert (Pyz : 0 < y * z) by now apply Rmult_lt_0_compat.
  set (f := fun p : vec => nth i (move Q t p) 0).
  set (row := nth i Q []). set (ti := nth i t 0).
  assert (AFF : forall k, (k < 6)%nat -> exists m q, mean_u 3 (fun u => f (face_set h k (box_pt h Q t u))) m /\ mean_u 3 (fun u => f (face_set h k (box_pt h Q t u)) * f (face_set h k (box_pt h Q t u))) q /\ m = f (face_set h k t)).
  { assert (AF : forall k, (k < 6)%nat -> exists a1 a2 a3, forall u, length u = 3%nat -> f (face_set h k (box_pt h Q t u)) = f (face_set h k t) + a1 * nth 0 u 0 + a2 * nth 1 u 0 + a3 * nth 2 u 0).
    { intros k Hk. rewrite Eh3. unfold f, box_pt. revert MQ Lc Hi Hk. clear. generalize Q t. clear Q t. intros Q t MQ Lc Hi Hk. destruct_vecs.
      do 6 (destruct k as [|k]; [destruct i as [|[|[|i]]]; try lia; cbn -[Rmult Rplus];
        match goal with |- exists a1 a2 a3, forall u, length u = 3%nat -> @?L u = ?E + _ + _ + _ => exists (L [1; 0; 0] - L [0; 0; 0]), (L [0; 1; 0] - L [0; 0; 0]), (L [0; 0; 1] - L [0; 0; 0]) end;
        intros [|u0 [|u1 [|u2 [|]]]] Lu; try discriminate Lu; cbn -[Rmult Rplus]; ring|]). lia. }
    intros k Hk. destruct (AF k Hk) as (a1 & a2 & a3 & E). destruct (affine3 (f (face_set h k t)) a1 a2 a3) as [M1 M2]. eexists _, _. split; [|split; [|reflexivity]].
    - eapply mean_u_ext'; [|exact M1]. intros u Lu. cbv beta. now rewrite E.
    - eapply mean_u_ext'; [|exact M2]. intros u Lu. cbv beta. now rewrite E. }
  destruct (AFF 0 ltac:(lia))%nat as (m0 & q0 & A0 & B0 & E0). destruct (AFF 1 ltac:(lia))%nat as (m1 & q1 & A1 & B1 & E1). destruct (AFF 2 ltac:(lia))%nat as (m2 & q2 & A2 & B2 & E2).
  destruct (AFF 3 ltac:(lia))%nat as (m3 & q3 & A3 & B3 & E3). destruct (AFF 4 ltac:(lia))%nat as (m4 & q4 & A4 & B4 & E4). destruct (AFF 5 ltac:(lia))%nat as (m5 & q5 & A5 & B5 & E5). clear AFF.
  eexists. eapply estimates_of_eq; [|  |reflexivity].
  - apply (kinds_estimate 3 6 (fun k u => face_set h k (box_pt h Q t u)) f [m0; m1; m2; m3; m4; m5] [q0; q1; q2; q3; q4; q5]); auto; [lia| | |].
    + intros k Hk. destruct k as [|[|[|[|[|[|k]]]]]]; try lia; cbn [nth]; assumption.
    + intros k Hk. destruct k as [|[|[|[|[|[|k]]]]]]; try lia; cbn [nth]; assumption.
    + rewrite LP. intros counts U HC HU. eexists. split; [apply (posed_rows h c r b n U counts sh Hb); auto; [fold x y z; lra|lia]|]. fold Q t.
      set (P := map2 _ _ _). assert (LPn : length P = n) by (unfold P; rewrite map2_length, expand_length; destruct HC as [_ ->]; destruct HU as [[-> _] _]; apply Nat.min_id).
      unfold average. rewrite map_map, map_length. rewrite (Permutation_length (HS P)), LPn. rewrite (lsum_map_perm (fun p => nth i (move Q t p) 0) _ _ (HS P)). unfold f, Rdiv. ring.
  - rewrite E0, E1, E2, E3, E4, E5. unfold wsum, box_face_pvals. rewrite Eh, Eh3. unfold f, w, S. revert MQ Lc Hi Px Py Pz Pxy Pxz Pyz. clearbody x y z. clear. generalize Q t. clear Q t. intros Q t MQ Lc Hi Px Py Pz Pxy Pxz Pyz. destruct_vecs.
    destruct i as [|[|[|i]]]; try lia; unfold vdivs, lsum; cbn; field; lra.
Qed.
Lemma translated_bias h c b i n sh m v : box_init h (Some c) None = Ok b -> (forall j, (j < 3)%nat -> 0 < nth j h 0) -> (i < 3)%nat -> (2 <= n)%nat -> shuffles sh ->
  estimates_of (box_face_pvals b) n (rows_of n 3 (uniform_draw (-1) 1)) (mean_rows 3 n)
    (fun counts U => box_random_points_on_surface b n U counts sh) (average (fun p => nth i p 0)) m v ->
  (nth i c 0 <> 0 -> m <> nth i c 0) /\ (nth i c 0 = 0 -> m = 0).
Proof.
  intros Hb Hp Hi Hn HS H. destruct (surface_bias h (Some c) None b i Hb Hp Hi n sh Hn HS) as (v' & H'). destruct (rows_law_unique _ _ _ _ _ _ _ _ H H') as [-> _]. clear H H'.
  pose proof (box_init_inv _ _ _ _ Hb) as (Lh & _ & _ & Ec & _ & _ & Lc & _). rewrite Ec in Lc. unfold pose_rot, pose_tr in *.
  pose proof (Hp 0 ltac:(lia))%nat as Px. pose proof (Hp 1 ltac:(lia))%nat as Py. pose proof (Hp 2 ltac:(lia))%nat as Pz. set (x := nth 0 h 0) in *. set (y := nth 1 h 0) in *. set (z := nth 2 h 0) in *.
  assert (Pxy : 0 < x * y) by now apply Rmult_lt_0_compat. assert (Pxz : 0 < x * z) by now apply Rmult_lt_0_compat. assert (Pyz : 0 < y * z) by now apply Rmult_lt_0_compat.
  set (w := [_; _; _]).
  assert (E : nth i (move (eye 3) c (vmul w c)) 0 = nth i c 0 * (1 + nth i w 0)).
  { clear - Lc Hi. destruct c as [|c0 [|c1 [|c2 [|]]]]; try discriminate Lc. unfold w. destruct i as [|[|[|i]]]; try lia; cbn -[Rdiv]; ring. }
  rewrite E. assert (W : 0 < nth i w 0) by (unfold w; destruct i as [|[|[|i]]]; try lia; cbn [nth]; apply Rdiv_lt_0_compat; lra).
  split; [|intros ->; ring]. intros N Heq. assert (K : nth i c 0 * nth i w 0 = 0) by lra. apply Rmult_integral in K as [K|K]; [now apply N|lra].
Qed.
(** the mean over the surface itself is the centre *)
Lemma surface_centre h c r b i : box_init h c r = Ok b -> (forall j, (j < 3)%nat -> 0 < nth j h 0) -> (i < 3)%nat ->
  exists A, 0 < A /\ box_shell h (fun _ => 1) A /\ box_shell h (fun u => nth i (move (pose_rot 3 r) (pose_tr 3 c) u) 0) (nth i (pose_tr 3 c) 0 * A).
Proof.
  intros Hb Hp Hi. pose proof (box_init_inv _ _ _ _ Hb) as (Lh & _ & _ & Ec & Er & MQ & Lc & _). rewrite Er in MQ. rewrite Ec in Lc.
  destruct h as [|x [|y [|z [|]]]]; try discriminate Lh. pose proof (Hp 0 ltac:(lia))%nat as Px. pose proof (Hp 1 ltac:(lia))%nat as Py. pose proof (Hp 2 ltac:(lia))%nat as Pz. cbn in Px, Py, Pz. clear Hp.
  assert (Pxy : 0 < x * y) by now apply Rmult_lt_0_compat. assert (Pxz : 0 < x * z) by now apply Rmult_lt_0_compat. assert (Pyz : 0 < y * z) by now apply Rmult_lt_0_compat.
  exists (8 * (x * y + x * z + y * z)). split; [lra|]. split; [now apply shell_area|].
  pose proof (box_shell_moments x y z ltac:(lra) (nth i (pose_tr 3 c) 0) (entry (pose_rot 3 r) i 0) (entry (pose_rot 3 r) i 1) (entry (pose_rot 3 r) i 2) 1 0 0 0) as M.
  eapply (dom3_box_shell [x; y; z] (fun u => affine (nth i (pose_tr 3 c) 0) (entry (pose_rot 3 r) i 0) (entry (pose_rot 3 r) i 1) (entry (pose_rot 3 r) i 2) u * affine 1 0 0 0 u)).
  - intros. unfold affine. revert MQ Lc Hi. clear. generalize (pose_rot 3 r) (pose_tr 3 c). intros Q t MQ Lc Hi. destruct_vecs. destruct i as [|[|[|i]]]; try lia; unfold entry; cbn; ring.
  - match type of M with box_shell _ _ ?E => replace (nth i (pose_tr 3 c) 0 * (8 * (x * y + x * z + y * z))) with E end; [exact M|]. cbv zeta. field. lra.
Qed.
Lemma bias_case : exists b v, box_init [1; 2; 3] (Some [1; 0; 2]) None = Ok b /\ shuffles (@rev vec) /\
  estimates_of (box_face_pvals b) 5 (rows_of 5 3 (uniform_draw (-1) 1)) (mean_rows 3 5)
    (fun counts U => box_random_points_on_surface b 5 U counts (@rev vec)) (average (fun p => nth 0 p 0)) (16 / 11) v.
Proof.
  destruct (box_init_good [1; 2; 3] (Some [1; 0; 2]) None) as [b Hb]; auto; [intros [|[|[|i]]] Hi; cbn in *; try lra; lia|apply is_mat_eye|].
  assert (HS : shuffles (@rev vec)) by (intro P; apply Permutation_sym, Permutation_rev).
  destruct (surface_bias _ _ _ _ 0 Hb ltac:(intros [|[|[|i]]] Hi; cbn in *; try lra; lia) ltac:(lia) 5 (@rev vec) ltac:(lia) HS) as (v & H). exists b, v. split; [exact Hb|]. split; [exact HS|].
  eapply estimates_of_eq; [exact H| |reflexivity]. cbn. field.
Qed.
