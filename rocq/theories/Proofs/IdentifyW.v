(** Sample identification problems. *)
From Verif Require Import Base.Vec Base.VecFacts Spec.Basic Spec.Objects Spec.Samples Spec.Realizable Spec.Shapes Spec.ShapeObjects Spec.PolySpec Spec.Bodies
  Spec.ExtremalSpec Spec.Geodesic Spec.Identify
  Model.Util Model.Constraint Model.Inertial Model.Polydd Model.Poly Model.Ellipsoid Model.Box Model.Cylinder Model.Realize Model.RigidBody Model.Identify
  Proofs.Coord Proofs.LinAlg Proofs.InertialP Proofs.BoxP Proofs.EllP Proofs.ShapesW Proofs.CylP Proofs.PimP Proofs.RealizeP Proofs.SdpP Proofs.RealizeW Proofs.SamplesP Proofs.RigidP Proofs.RigidW
  Proofs.MatAlg Proofs.LogDet Proofs.IdentifyP.

Lemma data_eye n v : (0 < n)%nat -> length v = n -> data_ok n n [eye n] [v].
Proof.
  intros Hn Lv. split; [auto|]. split; [auto|]. split; [discriminate|]. split; [reflexivity|].
  split; intros x [<-|[]]; auto. apply is_mat_eye.
Qed.
Lemma determining_eye n : determining n [eye n].
Proof. intros x Lx H j. specialize (H (eye n) (or_introl eq_refl) j). now rewrite mat_vec_eye in H. Qed.
Lemma explains_eye n v : length v = n -> explains [eye n] [v] v.
Proof. intros Lv. constructor; [now apply mat_vec_eye|constructor]. Qed.
Lemma SPD_scaled_eye n c : (0 < n)%nat -> 0 < c -> SPD n (mscale c (eye n)) /\ inverse n (mscale c (eye n)) (mscale (/ c) (eye n)).
Proof.
  intros Hn Hc. assert (HM : forall a, is_mat n n (mscale a (eye n))) by (intros; apply is_mat_mscale, is_mat_eye). split.
  - split; [auto|]. split.
    + intros i j Hi Hj. rewrite !entry_mscale, !entry_eye by auto. now rewrite Nat.eqb_sym.
    + intros x Lx Nx. rewrite quad_mscale. unfold quad. rewrite mat_vec_eye by auto. apply Rmult_lt_0_compat; auto.
      destruct (Rle_lt_or_eq_dec _ _ (dot_self_nonneg x)) as [|E]; auto. symmetry in E. apply dot_self_zero in E. rewrite Lx in E. contradiction.
  - assert (HP : forall a b, a * b = 1 -> mat_mul (mscale a (eye n)) (mscale b (eye n)) = eye n).
    { intros a b E. apply (mat_ext n n); [now apply (mm_ok n Hn)|apply is_mat_eye|]. intros i j Hi Hj. rewrite (MatAlg.entry_mm n Hn) by auto.
      rewrite (rsum_ext n _ (fun k => if Nat.eqb k i then entry (eye n) k j else 0)).
      - now rewrite rsum_delta.
      - intros k Hk. rewrite !entry_mscale, !entry_eye by auto. rewrite (Nat.eqb_sym i k). destruct (Nat.eqb k i), (Nat.eqb k j); [transitivity (a * b); [ring|auto]|ring|ring|ring]. }
    split; [auto|]. split; [auto|]. split; apply HP; field; lra.
Qed.
Lemma p6_spd : SPD 4 (ip_J p6).
Proof.
  rewrite p6_J. destruct J6_margin as (_ & _ & HP). split; [exact J6_mat|]. split; [exact (fun i j Hi Hj => ltac:(unfold J6; destruct i as [|[|[|[|]]]]; try lia; destruct j as [|[|[|[|]]]]; try lia; cbn; reflexivity))|].
  intros x Lx Nx. specialize (HP x Lx). rewrite (quad_msub 4 4), quad_mscale in HP; [|exact J6_mat|apply is_mat_mscale, is_mat_eye|auto].
  unfold quad at 2 in HP. rewrite mat_vec_eye in HP by auto. pose proof (dot_self_nonneg x) as H0.
  destruct (Rle_lt_or_eq_dec _ _ H0) as [|E]; [lra|]. symmetry in E. apply dot_self_zero in E. rewrite Lx in E. contradiction.
Qed.
Lemma identify_example : forall ut gamma, 0 <= gamma -> exists log_det inv solver As bs Sigma eps P bodies l v,
  log_det_spec 4 log_det /\ id_init inv As bs (Some Sigma) gamma eps = Ok P /\ 0 < eps /\ cov_ok 20 inv (Some Sigma) /\ data_ok 20 (10 * length bodies) As bs /\
  determining (10 * length bodies) As /\ length bodies = 2%nat /\
  (forall b, In b bodies -> nominal_ok inv (ip_J (bd_params b)) /\ allowed eps true b (bd_params b)) /\
  com_allowed (Some l) (map bd_params bodies) /\ stacks (map bd_params bodies) v /\ explains As bs v /\
  solved solver (id_cost log_det inv P bodies) (id_feasible ut P bodies true (Some l)) /\
  id_solve ut log_det inv solver P bodies true (Some l) = Ok (map bd_params bodies).
Proof.
  intros ut gamma Hg. destruct (log_det_exists 4 ltac:(lia)) as (log_det & HLD). destruct sample_three as (b & Ks & A & B & C & D & E & _).
  destruct (SPD_inverse 4 ltac:(lia) (ip_J p6) p6_spd) as (J' & HI). destruct (SPD_scaled_eye 20 4 ltac:(lia) ltac:(lra)) as (HC & HCI).
  destruct s6_shapes as (H1 & (x & Hx) & _).
  set (inv := fun M : mat => if Nat.eqb (length M) 4 then Ok J' else Ok (mscale (/ 4) (eye 20))).
  assert (AL : allowed (1 / 20) true b p6).
  { split; [exact p6_ok|]. split; [intros i j Hi Hj; destruct i as [|[|[|]]]; try lia; destruct j as [|[|[|]]]; try lia; cbn; reflexivity|]. split; [cbn; lra|].
    split; [rewrite p6_J; exact J6_margin|]. intros _. exists Ks. split; [auto|]. split; [auto|]. rewrite p6_J. exact D. }
  assert (NO : nominal_ok inv (ip_J p6)) by (split; [exact p6_spd|]; exists J'; split; [reflexivity|exact HI]).
  set (bodies := [b; b]). assert (EP : map bd_params bodies = [p6; p6]) by (cbn; now rewrite E).
  assert (HA : Forall2 (allowed (1 / 20) true) bodies (map bd_params bodies)) by (rewrite EP; constructor; auto).
  destruct (stack_vecs _ _ _ _ HA) as (vs & V1 & V2 & V3 & V4 & V5).
  set (P := {| id_As := [eye 20]; id_bs := [concat vs]; id_W0 := Some (mscale (/ 4) (eye 20)); id_gamma := gamma; id_eps := 1 / 20 |}).
  assert (EI : id_init inv [eye 20] [concat vs] (Some (mscale 4 (eye 20))) gamma (1 / 20) = Ok P).
  { unfold id_init. cbn [length Nat.eqb assert_ bind]. rewrite (proj2 (Rleb_iff 0 gamma)) by auto. rewrite (proj2 (Rleb_iff 0 (1 / 20))) by lra. reflexivity. }
  assert (CV : cov_ok 20 inv (Some (mscale 4 (eye 20)))) by (split; [exact HC|]; exists (mscale (/ 4) (eye 20)); split; [reflexivity|exact HCI]).
  assert (LV : length (concat vs) = 20%nat) by (rewrite (concat10 vs 2); auto).
  assert (HD : data_ok 20 20 [eye 20] [concat vs]) by (apply data_eye; [lia|auto]).
  assert (CA : com_allowed (Some [SBox x; SBox x]) (map bd_params bodies)).
  { rewrite EP. assert (exists K, shape_is (SBox x) K /\ K (ip_com p6)) as HK.
    { eexists. split; [exact (shape_is_box _ _ _ _ Hx H1)|]. exists (zeros 3). split; [|cbn; list_eq; ring].
      split; [reflexivity|]. intros [|[|[|i]]] Hi; cbn in *; try lia; rewrite Rabs_R0; lra. }
    constructor; [exact HK|]. constructor; [exact HK|constructor]. }
  assert (BN : forall y, In y bodies -> nominal_ok inv (ip_J (bd_params y))) by (intros y [<-|[<-|[]]]; rewrite E; exact NO).
  assert (SO : solved (fun _ _ => Some vs) (id_cost log_det inv P bodies) (id_feasible ut P bodies true (Some [SBox x; SBox x]))).
  { exists vs. split; [reflexivity|]. apply (explaining_optimal ut log_det inv 20); auto.
    - exact (id_init_weight 20 _ _ _ _ _ _ _ EI CV).
    - apply (feasible_of_allowed ut P bodies true _ (map bd_params bodies) vs); auto; [cbn; lra|].
      intros _ p Hp. rewrite EP in Hp. destruct Hp as [<-|[<-|[]]]; exact p6_spd.
    - exact (explains_eye 20 _ LV). }
  exists log_det, inv, (fun _ _ => Some vs), [eye 20], [concat vs], (mscale 4 (eye 20)), (1 / 20), P, bodies, [SBox x; SBox x], (concat vs).
  split; [auto|]. split; [auto|]. split; [lra|]. split; [auto|]. split; [auto|]. split; [apply determining_eye|]. split; [auto|].
  split; [intros y [<-|[<-|[]]]; rewrite E; auto|]. split; [auto|]. split; [exists vs; auto|]. split; [now apply explains_eye|]. split; [auto|].
  rewrite (id_solve_run ut log_det inv (fun _ _ => Some vs) P bodies true (Some [SBox x; SBox x]) 20); auto.
  - cbn; lra.
  - exact (id_init_weight 20 _ _ _ _ _ _ _ EI CV).
  - now apply (allowed_body_ok (1 / 20) true bodies (map bd_params bodies)).
Qed.

(** * Witnesses *)
Definition pt : IP := {| ip_mass := 1; ip_com := [0; 0; 0]; ip_H := zeros2 3 3 |}.
Definition pt_v (m : R) : vec := [m; 0; 0; 0; 0; 0; 0; 0; 0; 0].
Definition row1 : mat := [[1; 0; 0; 0; 0; 0; 0; 0; 0; 0]].
Definition pt_P (m eps : R) : IdProblem := {| id_As := [row1]; id_bs := [[m]]; id_W0 := None; id_gamma := 0; id_eps := eps |}.
Lemma pt_data m : data_ok 1 10 [row1] [[m]].
Proof.
  split; [lia|]. split; [lia|]. split; [discriminate|]. split; [reflexivity|]. split; intros x [<-|[]]; [|reflexivity]. repeat (constructor; try reflexivity).
Qed.
Lemma pt_explains m : explains [row1] [[m]] (pt_v m).
Proof. constructor; [|constructor]. cbn. list_eq; ring. Qed.
Lemma pt_init inv m eps : 0 <= eps -> id_init inv [row1] [[m]] None 0 eps = Ok (pt_P m eps).
Proof. intros H. unfold id_init. cbn [length Nat.eqb assert_ bind]. rewrite (proj2 (Rleb_iff 0 0)) by lra. rewrite (proj2 (Rleb_iff 0 eps)) by auto. reflexivity. Qed.
Lemma pt_from_vec : ip_from_vec (pt_v 1) = Ok pt.
Proof.
  destruct (from_vec_vec (pt_v 1) eq_refl) as (p & E & _); [cbn; lra|]. rewrite E. unfold ip_from_vec, ip_init in E. cbn in E.
  destruct (Rleb 0 1) eqn:E1; cbn in E; [|discriminate]. destruct (Reqb 1 0) eqn:E2; cbn in E; [discriminate|].
  injection E as <-. unfold pt. cbn. f_equal. f_equal; list_eq; field.
Qed.
Lemma pt_not_pd eps : 0 <= eps -> ip_J pt = [[0;0;0;0];[0;0;0;0];[0;0;0;0];[0;0;0;1]].
Proof. intros _. cbn. list_eq; ring. Qed.
Lemma di_margin_refuted : exists solver P points eps p, 0 < eps /\ (forall inv, id_init inv (id_As P) (id_bs P) None 0 eps = Ok P) /\
  data_ok 1 10 (id_As P) (id_bs P) /\ (forall q, In q points -> length q = 3%nat) /\
  solved solver (di_cost P) (di_feasible points None) /\ di_solve solver P points None = Ok [p] /\ ~ PSD 4 (msub (ip_J p) (mscale eps (eye 4))).
Proof.
  exists (fun _ _ => Some (pt_v 1)), (pt_P 1 1), [[0; 0; 0]], 1, pt. assert (H3 : forall q, In q [[0; 0; 0]] -> length q = 3%nat) by (intros q [<-|[]]; reflexivity).
  split; [lra|]. split; [intros; apply pt_init; lra|]. split; [apply pt_data|]. split; [exact H3|]. split; [|split].
  - exists (pt_v 1). split; [reflexivity|]. split.
    + split; [reflexivity|]. destruct (di_constraints_iff [[0; 0; 0]] None (pt_v 1) H3 eq_refl) as (J & c & EJ & Ec & Hc). exists c. split; [auto|]. apply Hc. split; [|auto].
      exists [(1, [0; 0; 0])]. split; [intros mp [<-|[]]; reflexivity|]. split; [intros mp [<-|[]]; cbn; lra|]. split; [intros mp [<-|[]]; now left|].
      cbn in EJ. injection EJ as <-. split; [repeat (constructor; try reflexivity)|]. intros i j Hi Hj. destruct i as [|[|[|[|]]]]; try lia; destruct j as [|[|[|[|]]]]; try lia; cbn; ring.
    + intros y c [Ly _] Ec. destruct (di_cost_ok (pt_P 1 1) (pt_v 1) 1 (pt_data 1) I eq_refl) as (v & Ev & _ & _ & V). rewrite (proj2 V (pt_explains 1)) in Ev.
      destruct (di_cost_ok (pt_P 1 1) y 1 (pt_data 1) I Ly) as (w & Ew & _ & W0 & _). rewrite Ew in Ec. injection Ec as <-. eexists. split; [exact Ev|].
      pose proof (no_pos _ _ _ _ (pt_data 1)) as Hp. change (id_As (pt_P 1 1)) with [row1]. rewrite Rmult_0_r. apply Rmult_le_pos; [exact (Rlt_le _ _ Hp)|lra].
  - rewrite (di_solve_run _ _ _ _ 1); [now rewrite pt_from_vec|apply pt_data|exact I|exact H3].
  - rewrite (pt_not_pd 0) by lra. intros (_ & _ & H). specialize (H [1; 0; 0; 0] eq_refl). cbn in H. lra.
Qed.
Lemma pt_solved ut log_det inv m : 0 <= m -> let b := {| bd_shapes := []; bd_params := pt |} in
  optimal (id_cost log_det inv (pt_P m 0) [b]) (id_feasible ut (pt_P m 0) [b] false None) [pt_v m].
Proof.
  intros Hm b. split.
  - split; [reflexivity|]. split; [constructor; [reflexivity|constructor]|]. split; [intros H; cbn in H; lra|].
    destruct (id_constraints_build ut (pt_P m 0) [b] false None [pt_v m]) as (Js & c2 & E1 & E2 & E3 & E4 & E5); [cbn; lra|reflexivity|constructor; [reflexivity|constructor]|constructor; [intros H; discriminate|constructor]|].
    eexists. split; [exact E5|]. injection E4 as <-. rewrite app_nil_r. apply Forall_map_id. intros J HJ. split; [symmetry; now apply E3|].
    cbn in E1. injection E1 as <-. destruct HJ as [<-|[]]. intros z Lz. destruct_vecs. cbn. match goal with |- 0 <= ?e => replace e with (m * (x2 * x2)) by ring end.
    apply Rmult_le_pos; [auto|]. apply Rle_0_sqr.
  - intros y c HF Ec. pose proof HF as (L1 & L2 & _).
    destruct (id_cost_ok log_det inv (pt_P m 0) [b] [pt_v m] 1 (pt_data m) I) as (v & Js & _ & _ & V & _ & C & _); [reflexivity|constructor; [reflexivity|constructor]|intros H; cbn in H; lra|].
    destruct (id_cost_ok log_det inv (pt_P m 0) [b] y 1 (pt_data m) I L1 L2) as (w & Js' & _ & W0 & _ & _ & C' & _); [intros H; cbn in H; lra|].
    rewrite C' in Ec by (cbn; lra). injection Ec as <-. eexists. split; [apply C; cbn; lra|].
    assert (EX : explains (id_As (pt_P m 0)) (id_bs (pt_P m 0)) (concat [pt_v m])) by (cbn [concat]; rewrite app_nil_r; exact (pt_explains m)).
    rewrite (proj2 V EX). pose proof (no_pos _ _ _ _ (pt_data m)) as Hp. change (id_As (pt_P m 0)) with [row1]. rewrite Rmult_0_r. apply Rmult_le_pos; [exact (Rlt_le _ _ Hp)|lra].
Qed.
Lemma id_definite_refuted : forall ut log_det inv, exists solver P bodies p, id_init inv (id_As P) (id_bs P) None 0 0 = Ok P /\
  data_ok 1 (10 * length bodies) (id_As P) (id_bs P) /\ solved solver (id_cost log_det inv P bodies) (id_feasible ut P bodies false None) /\
  id_solve ut log_det inv solver P bodies false None = Ok [p] /\ ~ pos_def 4 (ip_J p).
Proof.
  intros ut log_det inv. exists (fun _ _ => Some [pt_v 1]), (pt_P 1 0), [{| bd_shapes := []; bd_params := pt |}], pt.
  split; [apply pt_init; lra|]. split; [apply pt_data|]. split; [exists [pt_v 1]; split; [reflexivity|apply pt_solved; lra]|]. split.
  - rewrite (id_solve_run _ _ _ _ _ _ _ _ 1); [cbn [mapM]; now rewrite pt_from_vec|cbn; lra|apply pt_data|exact I|intros H; cbn in H; lra|constructor; [intros H; discriminate|constructor]|exact I].
  - rewrite (pt_not_pd 0) by lra. intros H. specialize (H [1; 0; 0; 0] eq_refl). cbn in H.
    assert (N : [1; 0; 0; 0] <> [0; 0; 0; 0]) by (intros E; injection E; lra). specialize (H N). lra.
Qed.
Lemma id_massless_refuted : forall ut log_det inv, exists solver P bodies, id_init inv (id_As P) (id_bs P) None 0 0 = Ok P /\
  data_ok 1 (10 * length bodies) (id_As P) (id_bs P) /\ solved solver (id_cost log_det inv P bodies) (id_feasible ut P bodies false None) /\
  id_solve ut log_det inv solver P bodies false None = NonFinite.
Proof.
  intros ut log_det inv. exists (fun _ _ => Some [pt_v 0]), (pt_P 0 0), [{| bd_shapes := []; bd_params := pt |}].
  split; [apply pt_init; lra|]. split; [apply pt_data|]. split; [exists [pt_v 0]; split; [reflexivity|apply pt_solved; lra]|].
  rewrite (id_solve_run _ _ _ _ _ _ _ _ 1); [|cbn; lra|apply pt_data|exact I|intros H; cbn in H; lra|constructor; [intros H; discriminate|constructor]|exact I].
  cbn [mapM]. unfold ip_from_vec, ip_init, is_vecb. cbn [length Nat.eqb assert_ bind pt_v nth]. rewrite (proj2 (Rleb_iff 0 0)) by lra. cbn [assert_ bind].
  unfold Reqb. destruct (Req_EM_T 0 0) as [_|N]; [|now destruct N]. reflexivity.
Qed.

Lemma objective_example : exists inv Sigma, cov_ok 20 inv (Some Sigma) /\ (exists J, nominal_ok inv J) /\ data_ok 20 20 [eye 20] [ones 20].
Proof.
  destruct (SPD_inverse 4 ltac:(lia) (ip_J p6) p6_spd) as (J' & HI). destruct (SPD_scaled_eye 20 4 ltac:(lia) ltac:(lra)) as (HC & HCI).
  exists (fun M : mat => if Nat.eqb (length M) 4 then Ok J' else Ok (mscale (/ 4) (eye 20))), (mscale 4 (eye 20)). split; [|split].
  - split; [exact HC|]. exists (mscale (/ 4) (eye 20)). split; [reflexivity|exact HCI].
  - exists (ip_J p6). split; [exact p6_spd|]. exists J'. split; [reflexivity|exact HI].
  - apply data_eye; [lia|reflexivity].
Qed.
Lemma discrete_example : exists solver P points p v, (forall inv, id_init inv (id_As P) (id_bs P) None 0 0 = Ok P) /\ data_ok 10 10 (id_As P) (id_bs P) /\
  determining 10 (id_As P) /\ (forall q, In q points -> length q = 3%nat) /\ length points = 6%nat /\ ip_ok p /\ symmetric 3 (ip_H p) /\ 0 < ip_mass p /\
  realizable_J (fun x => In x points) (ip_J p) /\ ip_vec p = Ok v /\ explains (id_As P) (id_bs P) v /\ solved solver (di_cost P) (di_feasible points None).
Proof.
  assert (HS : symmetric 3 (ip_H p6)) by (intros i j Hi Hj; destruct i as [|[|[|]]]; try lia; destruct j as [|[|[|]]]; try lia; cbn; reflexivity).
  assert (HM : 0 < ip_mass p6) by (cbn; lra). destruct (vec_from_vec p6 p6_ok HM HS) as (v & EV & LV & _).
  set (P := {| id_As := [eye 10]; id_bs := [v]; id_W0 := None; id_gamma := 0; id_eps := 0 |}). set (points := map snd s6).
  assert (H3 : forall q, In q points -> length q = 3%nat) by (intros q Hq; repeat (destruct Hq as [<-|Hq]; [reflexivity|]); destruct Hq).
  assert (HR : realizable_J (fun x => In x points) (ip_J p6)).
  { rewrite p6_J. exists s6. split; [|split; [|split; [|exact J6_pim]]]; intros mp Hm.
    - apply H3. now apply in_map.
    - repeat (destruct Hm as [<-|Hm]; [cbn; lra|]); destruct Hm.
    - now apply in_map. }
  assert (HD : data_ok 10 10 [eye 10] [v]) by (apply data_eye; [lia|auto]). assert (HE : explains [eye 10] [v] v) by now apply explains_eye.
  exists (fun _ _ => Some v), P, points, p6, v. split.
  { intros inv. unfold id_init. cbn [length Nat.eqb assert_ bind id_As id_bs P]. rewrite (proj2 (Rleb_iff 0 0)) by lra. reflexivity. }
  split; [exact HD|]. split; [apply determining_eye|]. split; [exact H3|]. split; [reflexivity|]. split; [exact p6_ok|]. split; [exact HS|]. split; [exact HM|]. split; [exact HR|].
  split; [exact EV|]. split; [exact HE|]. exists v. split; [reflexivity|]. split.
  - split; [auto|]. destruct (di_constraints_iff points None v H3 LV) as (J & c & EJ & Ec & Hc). exists c. split; [auto|]. apply Hc. split; [|auto].
    rewrite (pim_must_equal_vec_J p6 v p6_ok HS EV) in EJ. injection EJ as <-. exact HR.
  - intros y c [Ly _] Ec. destruct (di_cost_ok P v 10 HD I LV) as (a & Ea & _ & _ & A). rewrite (proj2 A HE) in Ea.
    destruct (di_cost_ok P y 10 HD I Ly) as (w & Ew & _ & W0 & _). rewrite Ew in Ec. injection Ec as <-. eexists. split; [exact Ea|].
    pose proof (no_pos _ _ _ _ HD) as Hp. rewrite Rmult_0_r. apply Rmult_le_pos; [exact (Rlt_le _ _ Hp)|lra].
Qed.
