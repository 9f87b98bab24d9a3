(** C105: the law of a point that rejection_sample returns. *)
From Coquelicot Require Import Coquelicot.
From Verif Require Import Base.Vec Base.VecFacts Spec.Basic Spec.Shapes Spec.ShapeObjects Spec.Integrals Spec.RandomSpec Spec.Uniform Spec.Expect
  Model.Util Model.Polydd Model.Poly Model.Inertial Model.Ellipsoid Model.Box Model.Cylinder Model.Random
  Proofs.Coord Proofs.Hull Proofs.EllP Proofs.BoxP Proofs.IntegralP Proofs.DensityP Proofs.RandomP Proofs.RandomS Proofs.UniformP Proofs.ExpectP Proofs.MonteCarloQ Proofs.MonteCarloR Proofs.VolumeV Proofs.SamplingP.

Fixpoint first_in (ins : vec -> bool) (P : mat) : option vec :=
  match P with [] => None | p :: P => if ins p then Some p else first_in ins P end.
Lemma reject_first inside P draw : let ins p := existsb (fun s => s p) inside in
  forall turn, (forall i, (i < length P)%nat -> draw (turn + i)%nat 1%nat = [nth i P []]) ->
  rejection_loop inside draw 1 (length P) turn (zeros2 1 3) 0 = match first_in ins P with Some p => Ok [p] | None => Raise ValueError end.
Proof.
  intro ins. induction P as [|p P IH]; intros turn HD; [reflexivity|]. cbn [length rejection_loop Nat.ltb Nat.leb Nat.sub first_in].
  pose proof (HD 0%nat ltac:(cbn; lia)) as D0. rewrite Nat.add_0_r in D0. rewrite D0. cbn [nth map existsb]. fold (ins p). destruct (ins p) eqn:E; cbn [orb negb].
  - cbn [combine filter snd map fst length Nat.add write_rows firstn app skipn zeros2 repeat]. destruct (length P); reflexivity.
  - apply IH. intros i Hi. specialize (HD (S i) ltac:(cbn; lia)). rewrite Nat.add_succ_comm. rewrite HD. reflexivity.
Qed.
Definition box_pt (h : vec) (Q : mat) (c : vec) (u : vec) : vec := move Q c (vmul u h).
Lemma reject_run inside h c r b U K : box_init h c r = Ok b -> rows_of K 3 (uniform_draw (-1) 1) U ->
  rejection_sample inside (fun k _ => box_random_points b [nth k U []]) 1 K =
  match first_in (fun p => existsb (fun s => s p) inside) (map (box_pt h (pose_rot 3 r) (pose_tr 3 c)) U) with Some p => Ok [p] | None => Raise ValueError end.
Proof.
  intros Hb [[LU HU] _]. pose proof (box_init_inv _ _ _ _ Hb) as (Lh & _ & Eh & Ec & Er & MQ & Lc & _). rewrite Forall_forall in HU.
  unfold rejection_sample. rewrite <- LU. rewrite <- (map_length (box_pt h (pose_rot 3 r) (pose_tr 3 c)) U) at 1.
  apply (reject_first inside (map (box_pt h (pose_rot 3 r) (pose_tr 3 c)) U)). intros i Hi. rewrite map_length in Hi. cbn [Nat.add].
  assert (Lu : length (nth i U []) = 3%nat) by (apply HU, nth_In; exact Hi).
  rewrite (nth_indep (map (box_pt h (pose_rot 3 r) (pose_tr 3 c)) U) [] (box_pt h (pose_rot 3 r) (pose_tr 3 c) [])) by (rewrite map_length; exact Hi). rewrite (map_nth (box_pt h (pose_rot 3 r) (pose_tr 3 c))).
  unfold box_random_points. rewrite Eh. cbn [map]. rewrite (rows_move_eq 3); auto; [|apply rows_len_of; intros p [<-|[]]; rewrite vmul_length; lia]. rewrite Er, Ec. reflexivity.
Qed.
Lemma reject_mean h Q c (ins : vec -> bool) (f : vec -> R) (w : R) a m : a <> 0 ->
  mean_u 3 (fun u => if ins (box_pt h Q c u) then 1 else 0) a -> mean_u 3 (fun u => if ins (box_pt h Q c u) then f (box_pt h Q c u) else 0) m -> forall K,
  mean_rows 3 K (fun U => match first_in ins (map (box_pt h Q c) U) with Some p => f p | None => w end) (m / a * (1 - (1 - a) ^ K) + w * (1 - a) ^ K).
Proof.
  intros Na HA HM. induction K as [|K IH]; [cbn; ring|]. cbn [mean_rows]. set (M := m / a * (1 - (1 - a) ^ K) + w * (1 - a) ^ K) in *.
  exists (fun u => if ins (box_pt h Q c u) then f (box_pt h Q c u) else M). split.
  - intros u Hu. cbn [map first_in]. destruct (ins (box_pt h Q c u)); [|exact IH]. clear. induction K; cbn [mean_rows]; [reflexivity|]. exists (fun _ => f (box_pt h Q c u)). split; [intros; exact IHK|apply mean_u_const].
  - eapply mean_u_eq; [eapply mean_u_ext; [|exact (mean_u_lin 3 _ _ M 1 (- M) _ _ HM HA)]|].
    + intros u Hu. cbv beta. destruct (ins (box_pt h Q c u)); ring.
    + rewrite <- tech_pow_Rmult. unfold M. field. exact Na.
Qed.
Lemma rejection_law f inside h c r b V A B : box_init h c r = Ok b -> (forall i, (i < 3)%nat -> 0 < nth i h 0) ->
  let ins := fun p => existsb (fun s => s p) inside in
  let g := move (pose_rot 3 r) (pose_tr 3 c) in
  box_volume h (fun _ => 1) V -> box_volume h (fun u => if ins (g u) then 1 else 0) A -> 0 < A ->
  box_volume h (fun u => if ins (g u) then f (g u) else 0) B ->
  0 < A / V <= 1 /\ forall K,
    let run := fun U => rejection_sample inside (fun k _ => box_random_points b [nth k U []]) 1 K in
    (forall U, rows_of K 3 (uniform_draw (-1) 1) U -> run U = Raise ValueError \/ exists p, run U = Ok [p] /\ ins p = true) /\
    mean_rows 3 K (fun U => match run U with Raise ValueError => 1 | _ => 0 end) ((1 - A / V) ^ K) /\
    mean_rows 3 K (fun U => match run U with Ok [p] => f p | _ => 0 end) (B / A * (1 - (1 - A / V) ^ K)).
Proof.
  intros Hb Hp ins g HV HA PA HB. pose proof (box_init_inv _ _ _ _ Hb) as (Lh & _).
  destruct h as [|x [|y [|z [|]]]]; try discriminate Lh. pose proof (Hp 0 ltac:(lia))%nat as Px. pose proof (Hp 1 ltac:(lia))%nat as Py. pose proof (Hp 2 ltac:(lia))%nat as Pz. cbn in Px, Py, Pz. clear Hp.
  assert (EV : V = 8 * x * y * z). { eapply (functional_box_volume [x; y; z]); [intros u Iu; cbn in Iu; intuition lra|exact HV|]. eapply whole_of; [apply dom3_box_volume|apply box_volume_moments]. }
  assert (PV : 0 < V) by (rewrite EV; apply Rmult_lt_0_compat; [apply Rmult_lt_0_compat; lra|lra]). clear HV.
  cbn in HA, HB. apply mean_solid in HA; auto. apply mean_solid in HB; auto. rewrite <- EV in HA, HB.
  assert (E : forall u, length u = 3%nat -> g [x * nth 0 u 0; y * nth 1 u 0; z * nth 2 u 0] = box_pt [x; y; z] (pose_rot 3 r) (pose_tr 3 c) u).
  { intros [|u0 [|u1 [|u2 [|]]]] L; try discriminate L. unfold g, box_pt. cbn [nth vmul map2]. f_equal. list_eq; ring. }
  assert (HA' : mean_u 3 (fun u => if ins (box_pt [x; y; z] (pose_rot 3 r) (pose_tr 3 c) u) then 1 else 0) (A / V)). { eapply mean_u_ext'; [|exact HA]. intros u L. cbv beta. now rewrite E. }
  assert (HB' : mean_u 3 (fun u => if ins (box_pt [x; y; z] (pose_rot 3 r) (pose_tr 3 c) u) then f (box_pt [x; y; z] (pose_rot 3 r) (pose_tr 3 c) u) else 0) (B / V)). { eapply mean_u_ext'; [|exact HB]. intros u L. cbv beta. now rewrite E. }
  assert (PQ : 0 < A / V) by now apply Rdiv_lt_0_compat.
  split; [split; [exact PQ|]|].
  - apply (mean_u_le 3 (fun u => if ins (box_pt [x; y; z] (pose_rot 3 r) (pose_tr 3 c) u) then 1 else 0) (fun _ => 1)); auto; [|apply mean_u_const]. intros l _. cbv beta. destruct (ins _); lra.
  - intros K run. split; [|split].
    + intros U HU. unfold run. rewrite (reject_run inside _ c r b U K Hb HU). destruct (first_in _ _) as [p|] eqn:EP; [|now left]. right. exists p. split; [reflexivity|].
      clear - EP. revert EP. generalize (map (box_pt [x; y; z] (pose_rot 3 r) (pose_tr 3 c)) U). intro P. induction P as [|q P IH]; cbn; [discriminate|]. fold (ins q). destruct (ins q) eqn:EQ; [injection 1 as <-; exact EQ|exact IH].
    + assert (Z0 : mean_u 3 (fun u => if ins (box_pt [x; y; z] (pose_rot 3 r) (pose_tr 3 c) u) then (fun _ : vec => 0) (box_pt [x; y; z] (pose_rot 3 r) (pose_tr 3 c) u) else 0) 0).
      { eapply mean_u_ext'; [|apply (mean_u_const 3 0)]. intros u _. cbv beta. destruct (ins _); reflexivity. }
      pose proof (reject_mean [x; y; z] (pose_rot 3 r) (pose_tr 3 c) ins (fun _ => 0) 1 (A / V) 0 ltac:(lra) HA' Z0 K) as M. replace (0 / (A / V) * (1 - (1 - A / V) ^ K) + 1 * (1 - A / V) ^ K) with ((1 - A / V) ^ K) in M by (unfold Rdiv; ring).
      eapply mean_rows_ext; [|exact M]. intros U HU. cbv beta. unfold run. rewrite (reject_run inside _ c r b U K Hb HU). fold ins. destruct (first_in _ _); reflexivity.
    + pose proof (reject_mean [x; y; z] (pose_rot 3 r) (pose_tr 3 c) ins f 0 (A / V) (B / V) ltac:(lra) HA' HB' K) as M. replace (B / V / (A / V) * (1 - (1 - A / V) ^ K) + 0 * (1 - A / V) ^ K) with (B / A * (1 - (1 - A / V) ^ K)) in M by (field; lra).
      eapply mean_rows_ext; [|exact M]. intros U HU. cbv beta. unfold run. rewrite (reject_run inside _ c r b U K Hb HU). fold ins. destruct (first_in _ _); reflexivity.
Qed.
