(** Concrete objects that meet the hypotheses of the sharing theorems. *)
From Coq Require Import Lra String.
From Verif Require Import Base.Vec Base.VecFacts Model.Util Model.Polydd Model.Poly Model.Inertial Model.Ellipsoid Model.Box Model.Cylinder
  Model.Moment Model.Realize Model.RigidBody Model.MultiBody Model.Store Model.StoreInertial Model.StoreShapes Model.StoreObjects
  Spec.Basic Spec.Sharing Spec.SharingObjects Spec.Shapes Spec.Multi
  Proofs.StoreP Proofs.StoreInertialP Proofs.StoreShapesP Proofs.StoreFinal Proofs.StoreObjectsP Proofs.StoreMultiP Proofs.StoreMiscP Proofs.BoxP Proofs.InertialT Proofs.EllP Proofs.MultiP.
Import ListNotations.

Definition sv : store := [[1; 2; 3; 4]; [3; 0; 0; 1; 0; 0; 2; 0; 0; 5; 0; 6; 0; 7]].
Definition vv : arr1 := {| a1_buf := 1; a1_at := seq 0 10 |}.
Definition ca : arr1 := {| a1_buf := 0; a1_at := [0; 1; 2]%nat |}.
(** parameters from a vector, moved to a centre that the caller's array gives, and added to themselves *)
Lemma ex_params : exists s v t p s1 q s2 r s3, live1 s v /\ live1 s t /\ ips_from_vec v s = Ok (p, s1) /\
  ips_transform p None (Some t) s1 = Ok (q, s2) /\ ips_add q q s2 = Ok (r, s3) /\ s_mass r = 6 /\ (length s < length s3)%nat.
Proof.
  assert (Ev : exists p s1, ips_from_vec vv sv = Ok (p, s1) /\ s_mass p = 3 /\ (length sv < length s1)%nat).
  { unfold ips_from_vec, sbind, ips_init. cbn. rewrite (proj2 (Rleb_iff 0 3)) by lra. cbn. unfold sbind. cbn. rewrite (proj2 (Reqb_false 3 0)) by lra. cbn.
    do 2 eexists. split; [reflexivity|]. split; [reflexivity|]. cbn. lia. }
  destruct Ev as (p & s1 & E1 & M1 & N1).
  assert (Et : exists q s2, ips_transform p None (Some ca) s1 = Ok (q, s2) /\ s_mass q = 3 /\ (length s1 < length s2)%nat).
  { unfold ips_transform, sbind, ips_init. cbn [ret get1 bind fst snd alloc1 alloc2 lift]. rewrite M1, (proj2 (Rleb_iff 0 3)) by lra. cbn [assert_ bind]. unfold sbind. cbn [ret bind fst snd lift get1].
    do 2 eexists. split; [reflexivity|]. split; [reflexivity|]. rewrite !app_length. cbn. lia. }
  destruct Et as (q & s2 & E2 & M2 & N2).
  assert (Ea : exists r s3, ips_add q q s2 = Ok (r, s3) /\ s_mass r = 6 /\ (length s2 < length s3)%nat).
  { unfold ips_add, sbind, ips_init. cbn [ret get1 bind fst snd alloc1 alloc2 lift]. rewrite M2. replace (3 + 3) with 6 by ring. rewrite (proj2 (Rleb_iff 0 6)) by lra. cbn [assert_ bind]. unfold sbind. cbn [ret bind fst snd lift get1].
    rewrite (proj2 (Reqb_false 6 0)) by lra. cbn [ret bind fst snd lift get1 alloc1]. unfold sbind. cbn.
    do 2 eexists. split; [reflexivity|]. split; [reflexivity|]. rewrite !app_length. cbn. lia. }
  destruct Ea as (r & s3 & E3 & M3 & N3).
  exists sv, vv, ca, p, s1, q, s2, r, s3. repeat split; auto; try (unfold live1, vv, ca, sv; cbn; lia).
Qed.
(** a box whose half extents and centre are slices of one array, turned by a rotation in another *)
Definition sb : store := [[1; 2; 3; 4; 5; 6]; [0; -1; 0; 1; 0; 0; 0; 0; 1]].
Definition hb : arr1 := {| a1_buf := 0; a1_at := [0; 1; 2]%nat |}.
Definition cb : arr1 := {| a1_buf := 0; a1_at := [3; 4; 5]%nat |}.
Definition rb : arr2 := {| a2_buf := 1; a2_at := rows_from 0 (eye 3) |}.
Lemma ex_box dd : exists s half cen rot b s', live1 s half /\ live1 s cen /\ live2 s rot /\ orthogonal 3 (rd2 s rot) /\
  bxs_init dd half (Some cen) (Some rot) s = Ok (b, s') /\ b_half (bxs_view s' b) = [1; 2; 3] /\ b_center (bxs_view s' b) = [4; 5; 6].
Proof.
  assert (Lh : live1 sb hb) by (unfold live1, hb, sb; cbn; lia). assert (Lc : live1 sb cb) by (unfold live1, cb, sb; cbn; lia). assert (Lr : live2 sb rb) by (unfold live2, rb, sb; cbn; lia).
  pose proof (bxs_init_fresh dd hb (Some cb) (Some rb) sb Lh Lc Lr) as HB. cbn [option_map] in HB.
  destruct (box_init_good (rd1 sb hb) (Some (rd1 sb cb)) (Some (rd2 sb rb))) as (b0 & E0); [reflexivity|intros [|[|[|i]]] Hi; cbn; try lra; lia|split; [reflexivity|repeat constructor]|reflexivity|].
  rewrite E0 in HB. destruct HB as (b & s' & E & _ & (V & _)). pose proof (box_init_inv _ _ _ _ E0) as (_ & _ & K1 & K2 & _).
  exists sb, hb, cb, rb, b, s'. split; [exact Lh|]. split; [exact Lc|]. split; [exact Lr|]. split; [exact quarter_orthogonal|]. split; [exact E|].
  rewrite V, K1, K2. split; reflexivity.
Qed.
(** the links of an arm: the second shape of the first link is appended to the list of an existing
    body, and the sum of the two bodies has a list of its own *)
Lemma ex_arm dd : exists inertias geoms bodies h', length geoms = 3%nat /\
  mbs_add_geoms dd inertias [] geoms {| o_shapes := []; o_lists := []; o_params := [] |} = Ok (bodies, h') /\
  exists b1 b2, dget bodies 1 = Some b1 /\ dget bodies 2 = Some b2 /\ list_at h' (bs_shapes b1) = [0; 2]%nat /\ list_at h' (bs_shapes b2) = [1]%nat /\
    live_body h' b1 /\ live_body h' b2 /\ bs_shapes b1 <> bs_shapes b2 /\
    exists b h'', bs_add b1 b2 h' = Ok (b, h'') /\ list_at h'' (bs_shapes b) = [0; 2; 1]%nat /\ ip_mass (bd_params (bs_view h'' b)) = 3.
Proof.
  assert (PT : forall g, In g arm_geoms -> exists s, pin_to_shape dd g = Ok s).
  { intros g Hg. apply pin_total; destruct Hg as [<-|[<-|[<-|[]]]]; cbn [go_geometry geom_ok]; try (split; cbn [go_rotation go_translation]; [try apply quarter_orthogonal; try (apply orthogonal_eye; lia)|reflexivity]); try lra.
    split; [reflexivity|]. intros x [<-|[<-|[<-|[]]]]; lra. }
  unfold arm_geoms in PT. destruct (PT _ (or_introl eq_refl)) as (t0 & T0). destruct (PT _ (or_intror (or_introl eq_refl))) as (t1 & T1). destruct (PT _ (or_intror (or_intror (or_introl eq_refl)))) as (t2 & T2).
  assert (PI : forall m c J, 0 <= m -> is_mat 3 3 J -> exists q, ip_init m None (Some c) None (Some J) true = Ok q /\ ip_mass q = m).
  { intros m c J Hm HJ. unfold ip_init. rewrite (proj2 (Rleb_iff 0 m)) by lra. cbn [assert_ bind]. unfold I2H. rewrite (proj2 (is_matb_iff 3 3 J) HJ). cbn [assert_ bind]. eauto. }
  destruct (PI 2 [1; 0; 0] [[1; 0; 0]; [0; 2; 0]; [0; 0; 2]] ltac:(lra) ltac:(split; [reflexivity|repeat constructor])) as (q1 & P1 & M1).
  destruct (PI 1 [0; 0; 1 / 2] (eye 3) ltac:(lra) ltac:(split; [reflexivity|repeat constructor])) as (q2 & P2 & M2). clear PI PT.
  exists arm_inertias, arm_geoms. unfold arm_geoms. cbn [mbs_add_geoms]. unfold mbs_add_geom. rewrite T0, T1, T2. unfold at_index. cbn [go_parent arm_inertias nth_error bind].
  cbn - [ip_init eye]. rewrite P1. cbn - [ip_init eye]. rewrite P2. cbn - [ip_init bs_add].
  do 2 eexists. split; [reflexivity|]. split; [reflexivity|]. do 2 eexists. split; [reflexivity|]. split; [reflexivity|].
  split; [reflexivity|]. split; [reflexivity|]. split; [split; [split; [cbn; lia|cbn; intros r [<-|[<-|[]]]; lia]|cbn; lia]|]. split; [split; [split; [cbn; lia|cbn; intros r [<-|[]]; lia]|cbn; lia]|]. split; [easy|].
  unfold bs_add. cbn - [ip_add]. rewrite ip_add_ok by (rewrite M1, M2; lra). cbn. do 2 eexists. split; [reflexivity|]. split; [reflexivity|]. cbn. rewrite M1, M2. lra.
Qed.
(** a polynomial added to itself *)
Lemma ex_poly : exists h, dict_at (snd (pos_add 0 0 h)) (fst (pos_add 0 0 h)) = [([1; 0]%nat, 4); ([0; 2]%nat, 6)].
Proof.
  exists [[([1; 0]%nat, 2); ([0; 2]%nat, 3)]]. unfold pos_add. cbn - [isclose].
  assert (C : forall x, 0 < x -> isclose 0 0 x 0 = false) by (intros x Hx; destruct (isclose 0 0 x 0) eqn:E; [rewrite isclose_zero in E; apply Rleb_iff in E; revert E; unfold Rabs; destruct Rcase_abs; lra|auto]).
  rewrite !C by lra. cbn - [isclose]. rewrite ?C by lra. cbn. now replace (2 + 2) with 4 by ring; replace (3 + 3) with 6 by ring.
Qed.
(** the moment matrix of degree 1 in one variable, localised at 1 - x *)
Lemma ex_moment : exists h s p M h', (mms_indices s < length h)%nat /\ all_indices h (mms_indices s) /\ index_matrix h (mms_indices s) = [[Index [0]; Index [1]]; [Index [1]; Index [2]]]%nat /\
  mms_localizing_matrix s 0 p h = Ok (M, h') /\ nth 1 (nth 1 (marr_at h' M) []) (CIdx PyZero) = CPol [([2]%nat, 1); ([3]%nat, -1)].
Proof.
  set (h := [map (map CIdx) [[Index [0]; Index [1]]; [Index [1]; Index [2]]]]%nat). set (s := {| mms_n := 1; mms_d := 1; mms_r := 2; mms_indices := 0 |}).
  set (p := [([0]%nat, 1); ([1]%nat, -1)]). exists h, s, p. do 2 eexists. split; [cbn; lia|]. split.
  { intros [|[|i]] [|[|j]] c; cbn; try (intro E; injection E as <-; eauto; fail); try (destruct i; cbn); try (destruct j; cbn); easy. }
  split; [reflexivity|].
  assert (C : forall x, x <> 0 -> isclose 0 0 x 0 = false) by (intros x Hx; destruct (isclose 0 0 x 0) eqn:E; [rewrite isclose_zero in E; apply Rleb_iff in E; revert E; unfold Rabs; destruct Rcase_abs; lra|auto]).
  unfold mms_localizing_matrix. cbn - [isclose]. rewrite !C by lra. cbn - [isclose]. split; reflexivity.
Qed.
Lemma localizing_spec (h : mheap) (s : MMS) (v : nat) (p : list (list nat * R)) : (mms_indices s < length h)%nat -> all_indices h (mms_indices s) ->
  has_outcome (mms_localizing_matrix s v p h)
    (mm_localizing_matrix {| mm_n := mms_n s; mm_d := mms_d s; mm_r := mms_r s; mm_indices := index_matrix h (mms_indices s) |} v p)
    (fun M h' L => marr_at h' M = map (map CPol) L /\ extends h h' /\ (length h <= M)%nat).
Proof. intros H1 H2. exact (localizing_run h s p H1 H2 v). Qed.
Lemma f_sum (p : IPS) (l : list IPS) s : Forall (fun p => live1 s (s_com p) /\ live2 s (s_H p)) (p :: l) ->
  implements (ips_sum p l) s (py_sum (map (ips_view s) (p :: l)))
    (fun a s' q => q = Params (ips_view s' a) /\ (l = [] -> a = p) /\ (l <> [] -> independent s s' (fun t => ips_view t a) [a1_buf (s_com a); a2_buf (s_H a)])).
Proof. exact (ips_sum_spec p l s). Qed.
