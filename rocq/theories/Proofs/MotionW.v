(** Motions and robots meeting the premises of C98. *)
From Verif Require Import Base.Vec Base.VecFacts Spec.Basic Spec.Objects Spec.Samples Spec.Realizable Spec.Shapes Spec.ShapeObjects Spec.PolySpec Spec.Bodies Spec.ExtremalSpec Spec.Geodesic Spec.Identify Spec.Cone Spec.Exist Spec.Stable Spec.Motion Spec.Multi
  Model.Util Model.Spatial Model.Constraint Model.Inertial Model.Polydd Model.Poly Model.Box Model.Cylinder Model.Ellipsoid Model.Realize Model.RigidBody Model.Identify Model.MultiBody
  Proofs.Coord Proofs.LinAlg Proofs.InertialP Proofs.BoxP Proofs.EllP Proofs.ShapesW Proofs.CylP Proofs.PimP Proofs.RealizeP Proofs.SdpP Proofs.RealizeW Proofs.SamplesP Proofs.RigidP Proofs.RigidW
  Proofs.MatAlg Proofs.LogDet Proofs.IdentifyP Proofs.IdentifyW Proofs.ExistC Proofs.ExistW Proofs.MultiP Proofs.Motion.
Lemma motion_example : forall ut, exists log_det inv solver VAs As bs Sigma eps P b coms p v,
  log_det_spec 4 log_det /\ motions_ok VAs /\ length VAs = 2%nat /\ tells_apart VAs /\ regressors VAs As /\ wrenches p VAs bs /\
  id_init inv As bs (Some Sigma) 0 eps = Ok P /\ 0 < eps /\ cov_ok 6 inv (Some Sigma) /\ allowed eps true b p /\ com_allowed (Some coms) [p] /\ ip_vec p = Ok v /\
  solved solver (id_cost log_det inv P [b]) (id_feasible ut P [b] true (Some coms)).
Proof.
  intro ut. destruct (log_det_exists 4 ltac:(lia)) as (log_det & HLD). destruct sample_two as (b & Ks & A & B & C & N & D & E).
  destruct (SPD_scaled_eye 6 4 ltac:(lia) ltac:(lra)) as (HC & HCI). destruct s6_shapes as (H1 & (x & Hx) & _).
  destruct two_motions as (V1 & A1 & V2 & A2 & HM & HT). set (VAs := [(V1, A1); (V2, A2)]) in *.
  destruct (SPD_inverse 4 ltac:(lia) (ip_J p6) p6_spd) as (J' & HI).
  set (inv := fun M : mat => if Nat.eqb (length M) 4 then Ok J' else Ok (mscale (/ 4) (eye 6))).
  assert (S6 : symmetric 3 (ip_H p6)) by (intros i j Hi Hj; destruct i as [|[|[|]]]; try lia; destruct j as [|[|[|]]]; try lia; cbn; reflexivity).
  assert (AL : allowed (1 / 20) true b p6).
  { split; [exact p6_ok|]. split; [exact S6|]. split; [cbn; lra|]. split; [rewrite p6_J; exact J6_margin|]. intros _. exists Ks. split; [auto|]. split; [auto|]. rewrite p6_J. exact D. }
  destruct (regressors_exist VAs HM) as (As & HR). destruct (wrenches_exist p6 VAs p6_ok S6 HM) as (bs & HW). destruct (motion_data_ok p6 VAs As bs p6_ok S6 HM HR HW) as (HD & HE).
  assert (HA : Forall2 (allowed (1 / 20) true) [b] [p6]) by (constructor; auto).
  destruct (stack_vecs _ _ _ _ HA) as (vs & V & V' & V3 & V4 & V5).
  set (P := {| id_As := As; id_bs := bs; id_W0 := Some (mscale (/ 4) (eye 6)); id_gamma := 0; id_eps := 1 / 20 |}).
  assert (EI : id_init inv As bs (Some (mscale 4 (eye 6))) 0 (1 / 20) = Ok P).
  { unfold id_init. destruct HD as (_ & _ & _ & -> & _). rewrite Nat.eqb_refl. cbn [assert_ bind]. rewrite (proj2 (Rleb_iff 0 0)) by lra. rewrite (proj2 (Rleb_iff 0 (1 / 20))) by lra. reflexivity. }
  assert (CV : cov_ok 6 inv (Some (mscale 4 (eye 6)))) by (split; [exact HC|]; exists (mscale (/ 4) (eye 6)); split; [reflexivity|exact HCI]).
  assert (CA : com_allowed (Some [SBox x]) [p6]).
  { constructor; [|constructor]. eexists. split; [exact (shape_is_box _ _ _ _ Hx H1)|]. exists (zeros 3). split; [|cbn; list_eq; ring].
    split; [reflexivity|]. intros [|[|[|i]]] Hi; cbn in *; try lia; rewrite Rabs_R0; lra. }
  inversion V as [|? v ? l Ev Vl]; subst. inversion Vl; subst.
  exists log_det, inv, (fun _ _ => Some [v]), VAs, As, bs, (mscale 4 (eye 6)), (1 / 20), P, b, [SBox x], p6, v.
  split; [auto|]. split; [auto|]. split; [auto|]. split; [auto|]. split; [auto|]. split; [auto|]. split; [auto|]. split; [lra|]. split; [auto|]. split; [auto|]. split; [auto|]. split; [auto|].
  exists [v]. split; [reflexivity|]. apply (explaining_optimal ut log_det inv 6); auto.
  - cbn; lra.
  - exact (id_init_weight 6 _ _ _ _ _ _ _ EI CV).
  - intros y [<-|[]]. rewrite E. split; [exact p6_spd|]. exists J'. split; [reflexivity|exact HI].
  - apply (feasible_of_allowed ut P [b] true _ [p6] [v]); auto; [cbn; lra|]. intros _ p [<-|[]]; exact p6_spd.
  - cbn [concat]. rewrite app_nil_r. now apply HE.
  - cbn. intros; lra.
Qed.

Definition pinv (p : IP) : vec := match ip_I p with Ok I0 => pin_vector (ip_mass p) (ip_h p) I0 | _ => zeros 10 end.
Lemma pin_stack_inv ps w : pin_stack ps w -> w = concat (map pinv ps).
Proof. intros (vs & F & ->). f_equal. induction F as [|p t ps vs (I0 & EI & ->) F IH]; [reflexivity|]. cbn [map]. rewrite <- IH. f_equal. unfold pinv. now rewrite EI. Qed.
Lemma robot_example : forall ut dd, exists model M log_det inv solver regressor_pin torques states Ys Sigma eps P bodies coms ps rs, mb_init dd model [] None None = Ok M /\ pm_nv (mb_model M) = 2%nat /\
  length bodies = 2%nat /\ length states = 2%nat /\ (forall q v a, In (q, v, a) states -> is_mat 2 20 (regressor_pin q v a) /\
    forall ps w, length ps = 2%nat -> (forall p, In p ps -> ip_ok p) -> pin_stack ps w -> mat_vec (regressor_pin q v a) w = torques (q, v, a) ps) /\
  Forall2 (fun s Y => mb_torque_regressor regressor_pin M (fst (fst s)) (snd (fst s)) (snd s) = Ok Y) states Ys /\
  id_init inv Ys (map (fun s => torques s ps) states) (Some Sigma) 0 eps = Ok P /\ 0 < eps /\ cov_ok 2 inv (Some Sigma) /\ Forall2 (allowed eps true) bodies ps /\ com_allowed (Some coms) ps /\
  solved solver (id_cost log_det inv P bodies) (id_feasible ut P bodies true (Some coms)) /\ id_solve ut log_det inv solver P bodies true (Some coms) = Ok rs /\
  forall s, In s states -> torques s ps <> zeros 2.
Proof.
  intros ut dd. destruct (log_det_exists 4 ltac:(lia)) as (log_det & HLD). destruct sample_two as (b & Ks & A & B & C & N & D & E).
  destruct (SPD_scaled_eye 2 4 ltac:(lia) ltac:(lra)) as (HC & HCI). destruct s6_shapes as (H1 & (x & Hx) & _).
  destruct (SPD_inverse 4 ltac:(lia) (ip_J p6) p6_spd) as (J' & HI).
  set (inv := fun M : mat => if Nat.eqb (length M) 4 then Ok J' else Ok (mscale (/ 4) (eye 2))).
  assert (S6 : symmetric 3 (ip_H p6)) by (intros i j Hi Hj; destruct i as [|[|[|]]]; try lia; destruct j as [|[|[|]]]; try lia; cbn; reflexivity).
  assert (AL : allowed (1 / 20) true b p6).
  { split; [exact p6_ok|]. split; [exact S6|]. split; [cbn; lra|]. split; [rewrite p6_J; exact J6_margin|]. intros _. exists Ks. split; [auto|]. split; [auto|]. rewrite p6_J. exact D. }
  assert (HA : Forall2 (allowed (1 / 20) true) [b; b] [p6; p6]) by (constructor; auto).
  destruct (stack_vecs _ _ _ _ HA) as (vs & V & V' & V3 & V4 & V5).
  set (reg := fun q v a : vec => [[1] ++ zeros 6 ++ [nth 0 q 0] ++ zeros 12; zeros 10 ++ [1] ++ zeros 6 ++ [nth 0 a 0; 2; 0]]).
  set (tq := fun (s : vec * vec * vec) ps => mat_vec (reg (fst (fst s)) (snd (fst s)) (snd s)) (concat (map pinv ps))).
  set (states := [([0; 0], [0; 0], [1; 0]); ([1; 0], [0; 1], [0; 2])]).
  assert (HS : forall q v a, In (q, v, a) states -> is_mat 2 20 (reg q v a) /\ forall ps w, length ps = 2%nat -> (forall p, In p ps -> ip_ok p) -> pin_stack ps w -> mat_vec (reg q v a) w = tq (q, v, a) ps).
  { intros q v a _. split; [split; [reflexivity|]; repeat constructor|]. intros ps w _ _ Hw. apply pin_stack_inv in Hw. now subst w. }
  set (Ys := map (fun s => match mb_torque_regressor reg (bare_mb 2 2) (fst (fst s)) (snd (fst s)) (snd s) with Ok Y => Y | _ => [] end) states).
  assert (RT : forall q v a, In (q, v, a) states -> exists Y, mb_torque_regressor reg (bare_mb 2 2) q v a = Ok Y /\ is_mat 2 20 Y /\
    forall ps x, length ps = 2%nat -> (forall p, In p ps -> ip_ok p) -> stacks ps x -> mat_vec Y x = tq (q, v, a) ps).
  { intros q v a Hs. destruct (HS q v a Hs) as (MY & TY). exact (regressor_torques reg (bare_mb 2 2) q v a (tq (q, v, a)) MY TY). }
  assert (ST : stacks [p6; p6] (concat vs)) by (exists vs; auto). assert (O6 : forall p, In p [p6; p6] -> ip_ok p) by (intros p [<-|[<-|[]]]; exact p6_ok).
  destruct (RT [0; 0] [0; 0] [1; 0]) as (Y1 & E1 & M1 & T1); [now left|]. destruct (RT [1; 0] [0; 1] [0; 2]) as (Y2 & E2 & M2 & T2); [right; now left|].
  set (bs := map (fun s => tq s [p6; p6]) states).
  assert (HE : explains [Y1; Y2] bs (concat vs)) by (constructor; [now apply T1|constructor; [now apply T2|constructor]]).
  assert (HD : data_ok 2 20 [Y1; Y2] bs).
  { split; [lia|]. split; [lia|]. split; [discriminate|]. split; [reflexivity|]. split; [intros Y [<-|[<-|[]]]; auto|]. intros y [<-|[<-|[]]]; reflexivity. }
  set (P := {| id_As := [Y1; Y2]; id_bs := bs; id_W0 := Some (mscale (/ 4) (eye 2)); id_gamma := 0; id_eps := 1 / 20 |}).
  assert (EI : id_init inv [Y1; Y2] bs (Some (mscale 4 (eye 2))) 0 (1 / 20) = Ok P).
  { unfold id_init. replace (length bs) with 2%nat by reflexivity. cbn [length Nat.eqb assert_ bind]. rewrite (proj2 (Rleb_iff 0 0)) by lra. rewrite (proj2 (Rleb_iff 0 (1 / 20))) by lra. reflexivity. }
  assert (CV : cov_ok 2 inv (Some (mscale 4 (eye 2)))) by (split; [exact HC|]; exists (mscale (/ 4) (eye 2)); split; [reflexivity|exact HCI]).
  assert (CA : com_allowed (Some [SBox x; SBox x]) [p6; p6]).
  { assert (exists K, shape_is (SBox x) K /\ K (ip_com p6)) as HK.
    { eexists. split; [exact (shape_is_box _ _ _ _ Hx H1)|]. exists (zeros 3). split; [|cbn; list_eq; ring]. split; [reflexivity|]. intros [|[|[|i]]] Hi; cbn in *; try lia; rewrite Rabs_R0; lra. }
    constructor; [exact HK|]. constructor; [exact HK|constructor]. }
  assert (WO : weight_ok 2 (id_W0 P)) by exact (id_init_weight 2 _ _ _ _ _ _ _ EI CV).
  assert (BN : forall y, In y [b; b] -> nominal_ok inv (ip_J (bd_params y))) by (intros y [<-|[<-|[]]]; rewrite E; (split; [exact p6_spd|]; exists J'; split; [reflexivity|exact HI])).
  assert (SO : solved (fun _ _ => Some vs) (id_cost log_det inv P [b; b]) (id_feasible ut P [b; b] true (Some [SBox x; SBox x]))).
  { exists vs. split; [reflexivity|]. apply (explaining_optimal ut log_det inv 2); auto.
    - cbn; lra.
    - apply (feasible_of_allowed ut P [b; b] true _ [p6; p6] vs); auto; [cbn; lra|]. intros _ p [<-|[<-|[]]]; exact p6_spd.
    - cbn. intros; lra. }
  exists (bare 2 2 []), (bare_mb 2 2), log_det, inv, (fun _ _ => Some vs), reg, tq, states, [Y1; Y2], (mscale 4 (eye 2)), (1 / 20), P, [b; b], [SBox x; SBox x], [p6; p6], [p6; p6].
  split; [reflexivity|]. split; [reflexivity|]. split; [reflexivity|]. split; [reflexivity|]. split; [exact HS|]. split; [constructor; [exact E1|constructor; [exact E2|constructor]]|].
  split; [exact EI|]. split; [lra|]. split; [exact CV|]. split; [exact HA|]. split; [exact CA|]. split; [exact SO|]. split.
  - rewrite (id_solve_run ut log_det inv (fun _ _ => Some vs) P [b; b] true (Some [SBox x; SBox x]) 2); auto.
    + cbn; lra.
    + now apply (allowed_body_ok (1 / 20) true [b; b] [p6; p6]).
  - intros s [<-|[<-|[]]] Z; cbn in Z; injection Z; intros; lra.
Qed.
Lemma kinds_example : exists spin shake push,
  motions_ok spin /\ length spin = 3%nat /\ (forall V A, In (V, A) spin -> exists s t, s <> 0 /\ sv_angular V = vscale s [0; 0; 1] /\ sv_angular A = vscale t [0; 0; 1]) /\ (forall V A, In (V, A) spin -> unaccelerated [0; 0; 2] V A) /\
  motions_ok shake /\ length shake = 2%nat /\ (forall V A, In (V, A) shake -> sv_angular V = zeros 3 /\ sv_angular A = zeros 3) /\
  (exists V1 A1 V2 A2, In (V1, A1) shake /\ In (V2, A2) shake /\ cross (sv_linear A1) (sv_linear A2) <> zeros 3) /\
  motions_ok push /\ length push = 3%nat /\ (forall V A, In (V, A) push -> sv_angular V = zeros 3) /\
  (exists V3 A3 V4 A4 V5 A5, In (V3, A3) push /\ In (V4, A4) push /\ In (V5, A5) push /\ dot (sv_angular A3) (cross (sv_angular A4) (sv_angular A5)) <> 0).
Proof.
  exists [(tw 0 0 1 0 0 0, tw 0 0 0 0 0 0); (tw 0 0 2 0 0 0, tw 0 0 3 0 0 0); (tw 0 0 (-1) 0 0 0, tw 0 0 1 0 0 0)], [(tw 0 0 0 1 0 0, tw 0 0 0 1 0 0); (tw 0 0 0 0 2 0, tw 0 0 0 1 2 0)], [(tw 0 0 0 0 0 0, tw 1 0 0 0 0 0); (tw 0 0 0 0 0 0, tw 1 1 0 0 0 0); (tw 0 0 0 1 0 0, tw 0 0 2 1 0 0)].
  assert (OK : forall a b c d e f, sv_ok (tw a b c d e f)) by reflexivity.
  split; [split; [discriminate|]; intros V A [H|[H|[H|[]]]]; injection H as <- <-; auto|]. split; [reflexivity|].
  split; [intros V A [H|[H|[H|[]]]]; injection H as <- <-; [exists 1, 0|exists 2, 3|exists (-1), 1]; (split; [lra|]; split; cbn; list_eq; ring)|].
  split; [intros V A [H|[H|[H|[]]]]; injection H as <- <-; unfold unaccelerated; cbn; list_eq; ring|].
  split; [split; [discriminate|]; intros V A [H|[H|[]]]; injection H as <- <-; auto|]. split; [reflexivity|]. split; [intros V A [H|[H|[]]]; injection H as <- <-; auto|].
  split; [do 4 eexists; split; [left; reflexivity|]; split; [right; left; reflexivity|]; cbn; intro H; injection H; intros; lra|].
  split; [split; [discriminate|]; intros V A [H|[H|[H|[]]]]; injection H as <- <-; auto|]. split; [reflexivity|]. split; [intros V A [H|[H|[H|[]]]]; injection H as <- <-; auto|].
  do 6 eexists. split; [left; reflexivity|]. split; [right; left; reflexivity|]. split; [right; right; left; reflexivity|]. cbn. lra.
Qed.
