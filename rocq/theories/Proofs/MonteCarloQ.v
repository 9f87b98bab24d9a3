(** C101: the samplers of the box. *)
From Coq Require Import Permutation.
From Verif Require Import Base.Vec Base.VecFacts Spec.Basic Spec.Shapes Spec.ShapeObjects Spec.Integrals Spec.RandomSpec Spec.Uniform Spec.Expect
  Model.Util Model.Polydd Model.Poly Model.Inertial Model.Ellipsoid Model.Box Model.Cylinder Model.Random Model.MonteCarlo Model.Theory
  Proofs.Coord Proofs.Hull Proofs.BoxP Proofs.DensityP Proofs.RandomP Proofs.RandomS Proofs.UniformP Proofs.Decomp Proofs.TheoryR Proofs.ExpectP Proofs.MonteCarloP.

Definition face_sign (k : nat) : R := if Nat.even k then 1 else -1.
Definition face_al (h : vec) (k a : nat) : R := if Nat.eqb a (k / 2) then face_sign k * nth a h 0 else 0.
Definition face_be (h : vec) (k a : nat) : R := if Nat.eqb a (k / 2) then 0 else nth a h 0.
Definition edge_s (k : nat) : R := if Nat.ltb (k mod 4) 2 then 1 else -1.
Definition edge_s' (k : nat) : R := if Nat.eqb (k mod 4) 0 || Nat.eqb (k mod 4) 3 then 1 else -1.
Definition edge_al (h : vec) (k a : nat) : R :=
  if Nat.eqb a (k / 4) then 0 else (if Nat.eqb a (if Nat.eqb (k / 4) 0 then 1 else 0) then edge_s k else edge_s' k) * nth a h 0.
Definition edge_be (h : vec) (k a : nat) : R := if Nat.eqb a (k / 4) then nth a h 0 else 0.
Lemma sign_abs (c : bool) x : 0 <= x -> Rabs ((if c then 1 else -1) * x) = x.
Proof. intro H. destruct c; [rewrite Rmult_1_l; now apply Rabs_pos_eq|]. replace (-1 * x) with (- x) by ring. rewrite Rabs_Ropp. now apply Rabs_pos_eq. Qed.
Lemma face_bound h : (forall a, (a < 3)%nat -> 0 <= nth a h 0) -> forall k a, (a < 3)%nat -> Rabs (face_al h k a) + Rabs (face_be h k a) <= nth a h 0.
Proof.
  intros H k a Ha. specialize (H a Ha). unfold face_al, face_be, face_sign. destruct (Nat.eqb a (k / 2)).
  - rewrite sign_abs, Rabs_R0 by auto. lra.
  - rewrite Rabs_R0, Rabs_pos_eq by auto. lra.
Qed.
Lemma edge_bound h : (forall a, (a < 3)%nat -> 0 <= nth a h 0) -> forall k a, (a < 3)%nat -> Rabs (edge_al h k a) + Rabs (edge_be h k a) <= nth a h 0.
Proof.
  intros H k a Ha. specialize (H a Ha). unfold edge_al, edge_be, edge_s, edge_s'. destruct (Nat.eqb a (k / 4)).
  - rewrite Rabs_R0, Rabs_pos_eq by auto. lra.
  - destruct (Nat.eqb a (if Nat.eqb (k / 4) 0 then 1 else 0)); rewrite sign_abs, Rabs_R0 by auto; lra.
Qed.

(** ** the rows before the shuffle *)
Lemma rows_by_kind n d counts (U P : mat) (f : nat -> vec -> vec) : length P = n -> length U = n -> multinomial_draw n d counts ->
  (forall k j, (k < d)%nat -> of_kind counts k j -> nth j P [] = f k (nth j U [])) -> P = map2 f (expand 0 counts) U.
Proof.
  intros LP LU [Ld Sn] K. assert (LX : length (expand 0 counts) = n) by now rewrite expand_length.
  apply (nth_ext _ _ [] (f 0%nat [])).
  - rewrite map2_length, LX, LU, LP. lia.
  - intros j Hj. rewrite LP in Hj. destruct (kind_exists counts j) as (k & Hk & KJ); [lia|]. rewrite (K k j) by (auto; lia).
    rewrite (nth_map2 f _ _ 0%nat [] (f 0%nat []) j) by (auto; lia). rewrite (expand_nth counts 0 k j) by auto. reflexivity.
Qed.
Lemma id_move u : length u = 3%nat -> move (eye 3) (zeros 3) u = u.
Proof. intros Lu. unfold move. rewrite mat_vec_eye by auto. destruct u as [|? [|? [|? [|]]]]; try discriminate Lu. cbn. list_eq; ring. Qed.
Lemma id_rows P : (forall p, In p P -> length p = 3%nat) -> rows_move (eye 3) (zeros 3) P = P.
Proof.
  intros H. rewrite (rows_move_eq 3); [|apply is_mat_eye|reflexivity|now apply rows_len_of|lia].
  rewrite <- (map_id P) at 2. apply map_ext_in. intros u I. apply id_move. auto.
Qed.
Lemma id_points h b U : box_init h None None = Ok b -> (forall u, In u U -> length u = 3%nat) -> box_random_points b U = map (fun u => vmul u h) U.
Proof.
  intros Hb HU. apply box_init_inv in Hb as (Lh & Ph & Eh & Ec & Er & _). unfold box_random_points. rewrite Eh, Ec, Er. unfold pose_rot, pose_tr.
  apply id_rows. intros p I. apply in_map_iff in I as (u & <- & I). rewrite vmul_length by (rewrite Lh; auto). auto.
Qed.
Lemma surface_rows h b n U counts sh : box_init h None None = Ok b ->
  0 < nth 0 h 0 * nth 1 h 0 + nth 0 h 0 * nth 2 h 0 + nth 1 h 0 * nth 2 h 0 -> n <> 1%nat ->
  rows_of n 3 (uniform_draw (-1) 1) U -> multinomial_draw n 6 counts -> shuffles sh ->
  box_random_points_on_surface b n U counts sh = Ok (sh (map2 (pt (fun a => a) (face_al h) (face_be h)) (expand 0 counts) U)).
Proof.
  intros Hb HA Hn HU HM HS. destruct HU as [[LU HU3] HU]. rewrite Forall_forall in HU3. pose proof (id_points h b U Hb HU3) as EB.
  pose proof HM as [L6 Sn]. apply box_init_inv in Hb as (Lh & Ph & Eh & Ec & Er & _). unfold pose_rot in Er. unfold pose_tr in Ec.
  destruct h as [|x [|y [|z [|]]]]; try discriminate Lh. pose proof (Ph 0 ltac:(lia))%nat as Hx. pose proof (Ph 1 ltac:(lia))%nat as Hy. pose proof (Ph 2 ltac:(lia))%nat as Hz. cbn in Hx, Hy, Hz. clear Ph. cbn [nth] in HA.
  unfold box_random_points_on_surface. rewrite Eh, EB. rewrite Reqb_false by lra. rewrite (proj2 (Nat.eqb_neq n 1) Hn).
  set (B := map (fun u => vmul u [x; y; z]) U). assert (LB : length B = n) by (unfold B; now rewrite map_length).
  assert (NB : forall k, (k < n)%nat -> nth k B [] = vmul (nth k U []) [x; y; z]).
  { intros k Hk. unfold B. rewrite (nth_indep _ [] (vmul [] [x; y; z])) by (rewrite map_length; lia). apply (map_nth (fun u => vmul u [x; y; z])). }
  clearbody B.
  match goal with |- Ok (rows_move _ _ (sh ?X)) = _ => set (P := X) end.
  assert (LP : length P = n) by (unfold P; rewrite !set_rows_length; exact LB).
  assert (EP : P = map2 (pt (fun a => a) (face_al [x; y; z]) (face_be [x; y; z])) (expand 0 counts) U).
  { apply (rows_by_kind n 6); auto. intros kk k Hkk HK.
    assert (Hk : (k < n)%nat). { destruct HK as [_ HK]. eapply Nat.lt_le_trans; [exact HK|]. rewrite <- Sn. clear. revert kk. induction counts as [|c r IH]; intro kk; [rewrite firstn_nil; lia|]. cbn [firstn fold_right]. destruct kk; [cbn; lia|]. specialize (IH kk). lia. }
    specialize (HU3 (nth k U [])). unfold P. clear P LP HS HU EB.
    pose proof (NB k Hk) as Eu. assert (Lu : length (nth k U []) = 3%nat) by (apply HU3, nth_In; lia). clear HU3 NB.
    destruct (nth k U []) as [|u0 [|u1 [|u2 [|]]]]; try discriminate Lu. cbn [vmul map2] in Eu.
    destruct counts as [|c0 [|c1 [|c2 [|c3 [|c4 [|c5 [|]]]]]]]; try discriminate L6. clear L6 HM. cbn [fold_right] in Sn. cbn [cumsum cumsum_from nth Nat.add] in *.
    remember (c0 + c1)%nat as i2. remember (i2 + c2)%nat as i3. remember (i3 + c3)%nat as i4. remember (i4 + c4)%nat as i5.
    unfold of_kind in HK.
    do 6 (destruct kk as [|kk]; [cbn [firstn fold_right] in HK; segs LB; rewrite Eu; cbn [set_coord firstn skipn app]; unfold pt, co, face_al, face_be, face_sign; cbn -[Rmult Rplus]; list_eq; ring|]). lia. }
  rewrite Er, Ec. f_equal. rewrite <- EP. apply id_rows. intros p I. apply (Permutation_in _ (HS P)) in I. rewrite EP in I. apply in_map2 in I as (k & r & _ & _ & ->). reflexivity.
Qed.
Lemma nth_firstn_lt {A} (l : list A) n k d : (k < n)%nat -> nth k (firstn n l) d = nth k l d.
Proof. revert n k. induction l as [|a l IH]; intros [|n] [|k] H; cbn; auto; try lia. apply IH. lia. Qed.
Lemma nth_skipn_add {A} (l : list A) n k d : nth k (skipn n l) d = nth (n + k) l d.
Proof. revert n. induction l as [|a l IH]; intros [|n]; cbn; auto; now destruct k. Qed.
Lemma edges_rows h c r b n U counts sh : box_init h c r = Ok b -> 0 < nth 0 h 0 + nth 1 h 0 + nth 2 h 0 ->
  rows_of n 1 (uniform_draw (-1) 1) U -> multinomial_draw n 12 counts -> shuffles sh ->
  edge_points_from b n (map (fun r => nth 0 r 0) U) counts sh =
    Ok (map (move (pose_rot 3 r) (pose_tr 3 c)) (sh (map2 (pt (fun _ => 0%nat) (edge_al h) (edge_be h)) (expand 0 counts) U))).
Proof.
  intros Hb HA HU HM HS. unfold edge_points_from. set (u := map (fun r => nth 0 r 0) U). destruct HU as [[LU HU3] HU].
  pose proof HM as [L12 Sn]. apply box_init_inv in Hb as (Lh & Ph & Eh & Ec & Er & MQ & Lc & _).
  destruct h as [|x [|y [|z [|]]]]; try discriminate Lh. pose proof (Ph 0 ltac:(lia))%nat as Hx. pose proof (Ph 1 ltac:(lia))%nat as Hy. pose proof (Ph 2 ltac:(lia))%nat as Hz. cbn in Hx, Hy, Hz. clear Ph. cbn [nth] in HA.
  unfold box_random_points_on_edges. rewrite Eh. rewrite Reqb_false by lra. cbv zeta.
  assert (NU : forall k, (k < n)%nat -> nth k u 0 = nth 0 (nth k U []) 0).
  { intros k Hk. unfold u. rewrite (nth_indep _ 0 (nth 0 [] 0)) by (rewrite map_length; lia). apply (map_nth (fun r : vec => nth 0 r 0)). }
  clearbody u.
  match goal with |- Ok (rows_move _ _ (sh ?X)) = _ => set (P := X) end.
  assert (LP : length P = n). { unfold P. rewrite !set_rows_length. unfold zeros2. apply repeat_length. }
  assert (EP : P = map2 (pt (fun _ => 0%nat) (edge_al [x; y; z]) (edge_be [x; y; z])) (expand 0 counts) U).
  { apply (rows_by_kind n 12); auto. intros kk k Hkk HK.
    assert (Hk : (k < n)%nat). { destruct HK as [_ HK]. eapply Nat.lt_le_trans; [exact HK|]. rewrite <- Sn. clear. revert kk. induction counts as [|c r IH]; intro kk; [rewrite firstn_nil; lia|]. cbn [firstn fold_right]. destruct kk; [cbn; lia|]. specialize (IH kk). lia. }
    unfold P. clear P LP HS HU HU3. assert (L0 : length (zeros2 n 3) = n) by (unfold zeros2; apply repeat_length).
    pose proof (nth_zeros2 n 3 k Hk) as Z. cbn [zeros repeat] in Z. pose proof (NU k Hk) as Eu. clear NU.
    destruct counts as [|c0 [|c1 [|c2 [|c3 [|c4 [|c5 [|c6 [|c7 [|c8 [|c9 [|c10 [|c11 [|]]]]]]]]]]]]]; try discriminate L12. clear L12 HM. cbn [fold_right] in Sn. cbn [cumsum cumsum_from nth Nat.add].
    remember (c0 + c1)%nat as i2. remember (i2 + c2)%nat as i3. remember (i3 + c3)%nat as i4. remember (i4 + c4)%nat as i5. remember (i5 + c5)%nat as i6. remember (i6 + c6)%nat as i7.
    remember (i7 + c7)%nat as i8. remember (i8 + c8)%nat as i9. remember (i9 + c9)%nat as i10. remember (i10 + c10)%nat as i11. remember (i11 + c11)%nat as i12.
    unfold of_kind in HK.
    do 12 (destruct kk as [|kk]; [cbn [firstn fold_right] in HK; segs L0; rewrite Z; cbn [set_coord firstn skipn app];
      unfold pt, co, edge_al, edge_be, edge_s, edge_s'; rewrite <- Eu; clear Eu Z; rewrite ?nth_skipn_add, ?nth_firstn_lt by lia; rewrite ?nth_skipn_add;
      try (match goal with |- context [(?a + (k - ?a))%nat] => replace (a + (k - a))%nat with k by lia end);
      cbn -[Rmult Rplus]; list_eq; ring|]). lia. }
  rewrite Er, Ec in *. f_equal. rewrite <- EP. apply (rows_move_eq 3); auto. apply rows_len_of. intros p I. apply (Permutation_in _ (HS P)) in I. rewrite EP in I. apply in_map2 in I as (k & r' & _ & _ & ->). reflexivity.
Qed.
