(** Witnesses for the aliasing findings. *)
From Coq Require Import Lra.
From Verif Require Import Base.Vec Model.Util Model.Inertial Model.Store Model.StoreInertial Spec.Basic Spec.Sharing
  Base.VecFacts Proofs.StoreP Proofs.StoreInertialP.

Definition J0 : mat := [[2; 0; 0; 1]; [0; 1; 0; 0]; [0; 0; 1; 0]; [1; 0; 0; 1]].
Definition s0 : store := [concat J0].
Definition a0 : arr2 := {| a2_buf := 0; a2_at := rows_from 0 J0 |}.
Definition w0 : writes := map (fun i => (0%nat, i, 0)) (seq 0 16).
Lemma rd_a0 : rd2 s0 a0 = J0.
Proof. reflexivity. Qed.
Lemma from_pim_J0 : ip_from_pim J0 = Ok {| ip_mass := 1; ip_com := [1 / 1; 0 / 1; 0 / 1]; ip_H := [[2; 0; 0]; [0; 1; 0]; [0; 0; 1]] |}.
Proof.
  unfold ip_from_pim, ip_init. cbn. rewrite (proj2 (Rleb_iff 0 1)) by lra. cbn. rewrite (proj2 (Reqb_false 1 0)) by lra. reflexivity.
Qed.
Lemma psd4 M : is_mat 4 4 M -> symmetric 4 M -> (forall a b c d, 0 <= quad M [a; b; c; d]) -> PSD 4 M.
Proof. intros H1 H2 H3. split; [exact H1|]. split; [exact H2|]. intros x Hx. destruct x as [|a [|b [|c [|d [|]]]]]; try discriminate. apply H3. Qed.
Ltac sym4 := intros i j Hi Hj; destruct i as [|[|[|[|i]]]], j as [|[|[|[|j]]]]; try lia; cbn; ring.
Ltac mat4 := repeat constructor.
Lemma from_pim_w : exists J s p s' ws,
  live2 s J /\ PSD 4 (rd2 s J) /\ ips_from_pim J s = Ok (p, s') /\ ip_J (ips_view s' p) = rd2 s J /\
  caller_writes s ws /\ PSD 4 (rd2 (wrs s' ws) J) /\ ~ PSD 4 (ip_J (ips_view (wrs s' ws) p)).
Proof.
  assert (L0 : live2 s0 a0) by (unfold live2, a0, s0; cbn; lia).
  pose proof (ips_from_pim_spec a0 s0 L0) as HS. rewrite rd_a0, from_pim_J0 in HS. destruct HS as (p & s' & E & [e ->] & V & W).
  assert (Cw : caller_writes s0 w0) by (intros w Hw; apply in_map_iff in Hw; destruct Hw as (i & <- & _); cbn; lia).
  assert (Ew : rd2 (wrs (s0 ++ e) w0) a0 = zeros2 4 4) by reflexivity.
  exists a0, s0, p, (s0 ++ e), w0. split; [exact L0|]. split; [|split; [exact E|split; [|split; [exact Cw|split]]]].
  - rewrite rd_a0. apply psd4; [mat4|sym4|]. intros a b c d. unfold quad, J0. cbn. nra.
  - rewrite V, rd_a0. unfold ip_J, ip_h. cbn. unfold J0. repeat f_equal; field.
  - rewrite Ew. apply psd4; [mat4|sym4|]. intros a b c d. unfold quad. cbn. nra.
  - rewrite (W w0 Cw), Ew. intros (_ & _ & P). specialize (P [1; 0; 0; -1] eq_refl). unfold quad, ip_J, ip_h in P. cbn in P. lra.
Qed.
Lemma com_w : exists c H s p s' ws,
  live1 s c /\ live2 s H /\ ips_init 1 None (Some c) (Some H) None false s = Ok (p, s') /\ PSD 4 (ip_J (ips_view s' p)) /\
  caller_writes s ws /\ writes_to [a1_buf c] ws /\ ~ PSD 4 (ip_J (ips_view (wrs s' ws) p)).
Proof.
  set (c := {| a1_buf := 0; a1_at := [0; 1; 2]%nat |}). set (A := {| a2_buf := 1; a2_at := rows_from 0 (eye 3) |}). set (s := [zeros 3; concat (eye 3)]).
  assert (Lc : live1 s c) by (unfold live1, c, s; cbn; lia). assert (LA : live2 s A) by (unfold live2, A, s; cbn; lia).
  pose proof (ips_init_spec 1 None (Some c) (Some A) None false s I Lc LA I) as HS. cbn [option_map] in HS.
  assert (E : ip_init 1 None (Some (rd1 s c)) (Some (rd2 s A)) None false = Ok {| ip_mass := 1; ip_com := [0; 0; 0]; ip_H := eye 3 |}).
  { unfold ip_init. rewrite (proj2 (Rleb_iff 0 1)) by lra. reflexivity. }
  rewrite E in HS. destruct HS as (p & s' & Ep & [e ->] & V & W).
  assert (Cw : caller_writes s [(0%nat, 0%nat, 2)]) by (intros w [<-|[]]; cbn; lia).
  exists c, A, s, p, (s ++ e), [(0%nat, 0%nat, 2)]. split; [exact Lc|]. split; [exact LA|]. split; [exact Ep|]. split; [|split; [|split]].
  - rewrite V. apply psd4; [mat4|sym4|]. intros a b x d. unfold quad, ip_J, ip_h. cbn. nra.
  - intros w [<-|[]]; cbn; lia.
  - intros w [<-|[]]; cbn; auto.
  - rewrite W by exact Cw. intros (_ & _ & P). specialize (P [1; 0; 0; -1] eq_refl). unfold quad, ip_J, ip_h in P. cbn in P. lra.
Qed.
