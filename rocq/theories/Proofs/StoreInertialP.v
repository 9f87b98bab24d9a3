(** What InertialParameters objects share with their arguments (C89). *)
From Verif Require Import Base.Vec Base.VecFacts Spec.Basic Spec.Objects Spec.Sharing Model.Util Model.Spatial Model.Inertial Model.Store Model.StoreInertial Proofs.StoreP.

Ltac lv := unfold live1, live2; cbn; rewrite ?app_length; cbn; lia.
Definition tail_prog (mass : R) (com : arr1) (H0 : option arr2) (tfc : bool) : st IPS :=
  do cv <- get1 com;
  do H1 <- match H0 with
           | Some H => ret H
           | None => alloc2 (if tfc then zeros2 3 3 else mscale mass (outer cv cv))
           end;
  do H2 <- if tfc then do Hv <- get2 H1; alloc2 (madd Hv (mscale mass (outer cv cv))) else ret H1;
  ret {| s_mass := mass; s_com := com; s_H := H2 |}.
Definition tail_H (mass : R) (c : vec) (H0 : option mat) (tfc : bool) : mat :=
  let H1 := match H0 with Some H => H | None => if tfc then zeros2 3 3 else mscale mass (outer c c) end in
  if tfc then madd H1 (mscale mass (outer c c)) else H1.
Lemma tail_spec mass com H0 tfc s : live1 s com -> live_opt live2 s H0 ->
  exists p s', tail_prog mass com H0 tfc s = Ok (p, s') /\ grows s s' /\ s_mass p = mass /\ s_com p = com /\ live2 s' (s_H p) /\
    rd2 s' (s_H p) = tail_H mass (rd1 s com) (option_map (rd2 s) H0) tfc /\
    match H0, tfc with Some A, false => s_H p = A | _, _ => (length s <= a2_buf (s_H p))%nat end.
Proof.
  intros Lc LH. unfold tail_prog, tail_H. destruct H0 as [A|], tfc; cbn [live_opt option_map] in *.
  - eexists. eexists. split; [reflexivity|]. cbn [s_mass s_com s_H fst snd]. split; [apply grows_snoc|]. split; [reflexivity|]. split; [reflexivity|].
    split; [lv|]. split; [apply rd_alloc2|]. cbn [a2_buf]. lia.
  - eexists. eexists. split; [reflexivity|]. cbn [s_mass s_com s_H]. split; [apply grows_refl|]. auto.
  - set (Z := zeros2 3 3). eexists. eexists. split; [reflexivity|]. cbn [s_mass s_com s_H fst snd]. split; [eapply grows_trans; apply grows_snoc|]. split; [reflexivity|]. split; [reflexivity|].
    split; [lv|]. split; [|cbn [a2_buf]; rewrite app_length; cbn; lia]. rewrite rd_alloc2, rd_alloc2. reflexivity.
  - eexists. eexists. split; [reflexivity|]. cbn [s_mass s_com s_H fst snd]. split; [apply grows_snoc|]. split; [reflexivity|]. split; [reflexivity|].
    split; [lv|]. split; [apply rd_alloc2|]. cbn [a2_buf]. lia.
Qed.

Definition com_prog (mass : R) (h com : option arr1) : st (option arr1) :=
  match h, com with
  | Some _, Some _ => lift (Raise ValueError)
  | None, None => do c <- alloc1 (zeros 3); ret (Some c)
  | Some h, None => do hv <- get1 h;
      if Reqb mass 0 then ret None else do c <- alloc1 (vdivs hv mass); ret (Some c)
  | None, Some c => ret (Some c)
  end.
Definition com_val (mass : R) (h com : option vec) : res (option vec) :=
  match h, com with
  | Some _, Some _ => Raise ValueError
  | None, None => Ok (Some (zeros 3))
  | Some h, None => Ok (if Reqb mass 0 then None else Some (vdivs h mass))
  | None, Some c => Ok (Some c)
  end.
Lemma com_spec mass h com s : live_opt live1 s h -> live_opt live1 s com ->
  implements (com_prog mass h com) s (com_val mass (option_map (rd1 s) h) (option_map (rd1 s) com))
    (fun o s1 ov => match o, ov with
       | None, None => True
       | Some c, Some v => live1 s1 c /\ rd1 s1 c = v /\ match com with Some c0 => c = c0 | None => (length s <= a1_buf c)%nat end
       | _, _ => False end).
Proof.
  intros Lh Lc. unfold com_prog, com_val. destruct h as [h|], com as [c|]; cbn [option_map implements].
  - reflexivity.
  - destruct (Reqb mass 0) eqn:E.
    + eexists. eexists. split; [reflexivity|]. split; [apply grows_refl|exact I].
    + eexists. eexists. split; [reflexivity|]. split; [apply grows_snoc|]. split; [lv|]. split; [apply rd_alloc1|cbn; lia].
  - eexists. eexists. split; [reflexivity|]. split; [apply grows_refl|]. auto.
  - eexists. eexists. split; [reflexivity|]. split; [apply grows_snoc|]. split; [lv|]. split; [apply (rd_alloc1 s (zeros 3))|cbn; lia].
Qed.
Definition H_prog (H I : option arr2) : st (option arr2) :=
  match H, I with
  | Some _, Some _ => lift (Raise ValueError)
  | Some H, None => ret (Some H)
  | None, Some I0 => do Iv <- get2 I0; do Hv <- lift (I2H Iv); do H <- alloc2 Hv; ret (Some H)
  | None, None => ret None
  end.
Definition H_val (H I : option mat) : res (option mat) :=
  match H, I with
  | Some _, Some _ => Raise ValueError
  | Some H, None => Ok (Some H)
  | None, Some I0 => let* H := I2H I0 in Ok (Some H)
  | None, None => Ok None
  end.
Lemma H_spec H I s : live_opt live2 s H -> live_opt live2 s I ->
  implements (H_prog H I) s (H_val (option_map (rd2 s) H) (option_map (rd2 s) I))
    (fun o s1 ov => match o, ov with
       | None, None => H = None
       | Some A, Some v => live2 s1 A /\ rd2 s1 A = v /\ match H with Some A0 => A = A0 | None => (length s <= a2_buf A)%nat end
       | _, _ => False end).
Proof.
  intros LH LI. unfold H_prog, H_val. destruct H as [A|], I as [B|]; cbn [option_map].
  - reflexivity.
  - eexists. eexists. split; [reflexivity|]. split; [apply grows_refl|]. auto.
  - eapply imp_step; [reflexivity|apply grows_refl|]. apply imp_lift. intros Hv E.
    eexists. eexists. split; [reflexivity|]. split; [apply grows_snoc|]. split; [lv|]. split; [apply rd_alloc2|cbn; lia].
  - eexists. eexists. split; [reflexivity|]. split; [apply grows_refl|]. reflexivity.
Qed.
Lemma imp_bind {A B C D} (m : st A) (f : A -> st B) s (r : res C) (g : C -> res D) Q1 Q : implements m s r Q1 ->
  (forall a s1 c, grows s s1 -> Q1 a s1 c -> implements (f a) s1 (g c) Q) -> implements (sbind m f) s (let* c := r in g c) Q.
Proof.
  intros H1 H2. destruct r as [c|e|]; cbn [bind implements] in *.
  - destruct H1 as (a & s1 & E & G & HQ). eapply imp_step; eauto.
  - now apply sbind_raise.
  - now apply sbind_nf.
Qed.
Definition shares (s s' : store) (com : option arr1) (H : option arr2) (tfc : bool) (p : IPS) : Prop :=
  match com with Some c => s_com p = c | None => (length s <= a1_buf (s_com p))%nat end /\
  match H, tfc with Some A, false => s_H p = A | _, _ => (length s <= a2_buf (s_H p))%nat end /\
  live1 s' (s_com p) /\ live2 s' (s_H p).
Lemma ips_init_int mass h com H I tfc s :
  live_opt live1 s h -> live_opt live1 s com -> live_opt live2 s H -> live_opt live2 s I ->
  implements (ips_init mass h com H I tfc) s
    (ip_init mass (option_map (rd1 s) h) (option_map (rd1 s) com) (option_map (rd2 s) H) (option_map (rd2 s) I) tfc)
    (fun p s' q => ips_view s' p = q /\ shares s s' com H tfc p).
Proof.
  intros Lh Lc LH LI. unfold ips_init, ip_init. apply imp_lift. intros _ _.
  eapply imp_bind; [exact (com_spec mass h com s Lh Lc)|]. intros oc s1 ocv G1 Hc.
  assert (LH1 : live_opt live2 s1 H) by (destruct H; cbn in *; auto; eapply grows_live2; eauto).
  assert (LI1 : live_opt live2 s1 I) by (destruct I; cbn in *; auto; eapply grows_live2; eauto).
  assert (EH : option_map (rd2 s) H = option_map (rd2 s1) H) by (destruct H; cbn in *; auto; f_equal; symmetry; now apply grows_rd2).
  assert (EI : option_map (rd2 s) I = option_map (rd2 s1) I) by (destruct I; cbn in *; auto; f_equal; symmetry; now apply grows_rd2).
  rewrite EH, EI. eapply imp_bind; [exact (H_spec H I s1 LH1 LI1)|]. intros oH s2 oHv G2 HH.
  destruct oc as [c|], ocv as [cv|]; try easy. destruct Hc as (Lc1 & Rc & Kc).
  assert (Lc2 : live1 s2 c) by (eapply grows_live1; eauto).
  assert (Rc2 : rd1 s2 c = cv) by (rewrite (grows_rd1 s1 s2); auto).
  assert (LoH : live_opt live2 s2 oH) by (destruct oH, oHv; cbn in *; try easy; tauto).
  assert (EoH : option_map (rd2 s2) oH = oHv) by (destruct oH, oHv; cbn in *; try easy; f_equal; tauto).
  destruct (tail_spec mass c oH tfc s2 Lc2 LoH) as (p & s3 & E & G3 & Pm & Pc & LP & RP & KP).
  exists p, s3. split; [exact E|]. split; [exact G3|]. rewrite EoH, Rc2 in RP. split.
  - unfold ips_view. rewrite Pm, Pc, RP. unfold tail_H. f_equal. rewrite (grows_rd1 s2 s3); auto.
  - unfold shares. rewrite Pc. pose proof (grows_length _ _ G1) as L1. pose proof (grows_length _ _ G2) as L2. repeat split; auto.
    2:{ eapply grows_live1; eauto. }
    destruct H as [A|].
    + destruct oH as [B|], oHv as [Bv|]; cbn in HH; try easy. destruct HH as (_ & _ & ->). destruct tfc; [lia|exact KP].
    + destruct oH as [B|], oHv as [Bv|]; cbn in HH; try easy.
      * destruct HH as (_ & _ & HB). destruct tfc; [lia|]. rewrite KP. lia.
      * destruct tfc; lia.
Qed.
(** the parameters of an object that holds these arrays, after further assignments *)
Lemma ips_init_spec mass h com H I tfc s :
  live_opt live1 s h -> live_opt live1 s com -> live_opt live2 s H -> live_opt live2 s I ->
  implements (ips_init mass h com H I tfc) s
    (ip_init mass (option_map (rd1 s) h) (option_map (rd1 s) com) (option_map (rd2 s) H) (option_map (rd2 s) I) tfc)
    (fun p s' q => ips_view s' p = q /\
       forall ws, caller_writes s ws ->
         ips_view (wrs s' ws) p =
         {| ip_mass := ip_mass q;
            ip_com := match com with Some c => rd1 (wrs s' ws) c | None => ip_com q end;
            ip_H := match H, tfc with Some A, false => rd2 (wrs s' ws) A | _, _ => ip_H q end |}).
Proof.
  intros Lh Lc LH LI. eapply imp_mono; [|exact (ips_init_int mass h com H I tfc s Lh Lc LH LI)]. intros p s' q G E (V & Kc & KH & _ & _). split; [exact V|].
  intros ws Hws. rewrite <- V. unfold ips_view. cbn [ip_mass ip_com ip_H]. f_equal.
  - destruct com as [c0|]; [now rewrite Kc|]. now rewrite (caller_rd1 s).
  - destruct H as [A|]; [destruct tfc; [|now rewrite KH]|]; now rewrite (caller_rd2 s).
Qed.
(** an object all of whose arrays are new *)
Lemma ips_new s s' p : grows s s' -> (length s <= a1_buf (s_com p))%nat -> (length s <= a2_buf (s_H p))%nat ->
  independent s s' (fun t => ips_view t p) [a1_buf (s_com p); a2_buf (s_H p)].
Proof.
  intros G L1 L2. split.
  - intros ws Hws. unfold ips_view. now rewrite (caller_rd1 s), (caller_rd2 s).
  - intros ws b i W Hb. apply (own_cell s s' [a1_buf (s_com p); a2_buf (s_H p)]); auto. intros o [<-|[<-|[]]]; auto.
Qed.
Notation own p := [a1_buf (s_com p); a2_buf (s_H p)].
Definition fresh_ips (s : store) (p : IPS) (s' : store) (q : IP) : Prop :=
  ips_view s' p = q /\ live1 s' (s_com p) /\ live2 s' (s_H p) /\ (length s <= a1_buf (s_com p))%nat /\ (length s <= a2_buf (s_H p))%nat.
Lemma fresh_final s m r : implements m s r (fun p s' q => fresh_ips s p s' q) ->
  implements m s r (fun p s' q => ips_view s' p = q /\ independent s s' (fun t => ips_view t p) (own p)).
Proof. apply imp_mono. intros p s' q G _ (V & _ & _ & L1 & L2). split; [exact V|]. now apply ips_new. Qed.
Lemma alloc1_ok v s : alloc1 v s = Ok ({| a1_buf := length s; a1_at := seq 0 (length v) |}, s ++ [v]).
Proof. reflexivity. Qed.
Lemma alloc2_ok M s : alloc2 M s = Ok ({| a2_buf := length s; a2_at := rows_from 0 M |}, s ++ [concat M]).
Proof. reflexivity. Qed.

(** ** from_vec *)
Lemma ips_from_vec_fresh v s : live1 s v -> implements (ips_from_vec v) s (ip_from_vec (rd1 s v)) (fresh_ips s).
Proof.
  intro L. unfold ips_from_vec, ip_from_vec. eapply imp_step; [reflexivity|apply grows_refl|]. apply imp_lift. intros _ _. cbv zeta.
  eapply imp_step; [apply alloc2_ok|apply grows_snoc|]. set (I := [[_; _; _]; _; _]). set (s1 := s ++ [concat I]). set (a := {| a2_buf := _; a2_at := _ |}).
  assert (G1 : grows s s1) by apply grows_snoc.
  pose proof (ips_init_int (nth 0 (rd1 s v) 0) (Some (slice1 1 3 v)) None None (Some a) false s1) as HI. cbn [live_opt option_map] in HI.
  assert (E1 : rd1 s1 (slice1 1 3 v) = firstn 3 (skipn 1 (rd1 s v))) by (rewrite rd_slice1, (grows_rd1 s s1); auto).
  assert (E2 : rd2 s1 a = I) by apply rd_alloc2.
  rewrite E1, E2 in HI. eapply imp_mono; [|apply HI; auto].
  - intros p s' q G _ (V & K1 & K2 & K3 & K4). unfold fresh_ips. pose proof (grows_length _ _ G1). repeat split; auto; lia.
  - eapply grows_live1; [exact G1|]. exact L.
  - unfold live2, a, s1. cbn [a2_buf]. rewrite app_length. cbn. lia.
Qed.
(** ** from_pim *)
Lemma ips_from_pim_int J s : live2 s J -> implements (ips_from_pim J) s (ip_from_pim (rd2 s J))
  (fun p s' q => ips_view s' p = q /\ s_H p = slice2 3 3 J /\ (length s <= a1_buf (s_com p))%nat /\ live1 s' (s_com p) /\ live2 s' (s_H p)).
Proof.
  intro L. unfold ips_from_pim, ip_from_pim. eapply imp_step; [reflexivity|apply grows_refl|]. apply imp_lift. intros _ _.
  pose proof (ips_init_int (entry (rd2 s J) 3 3) (Some (row_slice 3 3 J)) None (Some (slice2 3 3 J)) None false s) as HI. cbn [live_opt option_map] in HI.
  rewrite rd_row_slice, rd_slice2 in HI. eapply imp_mono; [|apply HI; auto]. intros p s' q G _ (V & K1 & K2 & K3 & K4). auto.
Qed.
Lemma ips_from_pim_spec J s : live2 s J -> implements (ips_from_pim J) s (ip_from_pim (rd2 s J))
  (fun p s' q => ips_view s' p = q /\ forall ws, caller_writes s ws ->
     ips_view (wrs s' ws) p = {| ip_mass := ip_mass q; ip_com := ip_com q; ip_H := sub_mat 3 3 (rd2 (wrs s' ws) J) |}).
Proof.
  intro L. eapply imp_mono; [|exact (ips_from_pim_int J s L)]. intros p s' q G _ (V & KH & Kc & _ & _). split; [exact V|]. intros ws Hws. rewrite <- V. unfold ips_view. cbn [ip_mass ip_com]. rewrite KH, rd_slice2. f_equal.
  now rewrite (caller_rd1 s).
Qed.
(** ** from_point_masses *)
Lemma ips_from_point_masses_fresh m P s : live1 s m -> live2 s P -> implements (ips_from_point_masses m P) s (ip_from_point_masses (rd1 s m) (rd2 s P)) (fresh_ips s).
Proof.
  intros L1 L2. unfold ips_from_point_masses, ip_from_point_masses.
  eapply imp_step; [reflexivity|apply grows_snoc|]. cbn [fst snd]. set (s1 := s ++ [_]).
  eapply imp_step; [reflexivity|apply grows_snoc|]. cbn [fst snd]. set (s2 := s1 ++ [_]).
  eapply imp_step; [reflexivity|apply grows_refl|]. eapply imp_step; [reflexivity|apply grows_refl|].
  assert (G1 : grows s s1) by apply grows_snoc. assert (G2 : grows s1 s2) by apply grows_snoc.
  assert (E2 : rd2 s2 {| a2_buf := length s1; a2_at := rows_from 0 (rd2 s1 P) |} = rd2 s P).
  { rewrite <- (grows_rd2 s s1 P) by auto. apply rd_alloc2. }
  assert (E1 : rd1 s2 {| a1_buf := length s; a1_at := seq 0 (length (rd1 s m)) |} = rd1 s m).
  { rewrite (grows_rd1 s1 s2); auto; [apply rd_alloc1|]. unfold live1, s1. cbn [a1_buf]. rewrite app_length. cbn. lia. }
  rewrite E1, E2. apply imp_lift. intros _ _. destruct (map2 _ _ _) as [|X Xs]; [reflexivity|].
  set (J := fold_left madd Xs X). eapply imp_step; [apply alloc2_ok|apply grows_snoc|]. set (s3 := s2 ++ [concat J]). set (a := {| a2_buf := _; a2_at := _ |}).
  pose proof (ips_from_pim_int a s3) as HI. assert (E3 : rd2 s3 a = J) by apply (rd_alloc2 s2 J). rewrite E3 in HI. eapply imp_mono; [|apply HI].
  - intros p s' q G _ (V & KH & Kc & K3 & K4). unfold fresh_ips. rewrite KH in *. cbn [slice2 a2_buf a] in *. pose proof (grows_length _ _ G1). pose proof (grows_length _ _ G2). unfold s3 in Kc. rewrite app_length in Kc. repeat split; auto; lia.
  - unfold live2, a, s3. cbn [a2_buf]. rewrite app_length. cbn. lia.
Qed.
(** ** transform, sum *)
Lemma ips_transform_fresh p R t s : live1 s (s_com p) -> live2 s (s_H p) -> live_opt live2 s R -> live_opt live1 s t ->
  implements (ips_transform p R t) s (ip_transform (ips_view s p) (option_map (rd2 s) R) (option_map (rd1 s) t)) (fresh_ips s).
Proof.
  intros Lc LH LR Lt. unfold ips_transform, ip_transform.
  set (rot := match option_map (rd2 s) R with None => eye 3 | Some r => r end). set (tr := match option_map (rd1 s) t with None => zeros 3 | Some t => t end). cbv zeta.
  eapply (imp_step _ _ s rot s); [destruct R; reflexivity|apply grows_refl|]. eapply (imp_step _ _ s tr s); [destruct t; reflexivity|apply grows_refl|].
  eapply imp_step; [reflexivity|apply grows_refl|]. set (com := vadd _ _). eapply imp_step; [apply alloc1_ok|apply grows_snoc|]. set (s1 := s ++ [com]). set (H := madd _ _).
  eapply imp_step; [apply alloc2_ok|apply grows_snoc|]. set (s2 := s1 ++ [concat H]). set (c := {| a1_buf := _; a1_at := _ |}). set (a := {| a2_buf := _; a2_at := _ |}).
  assert (G1 : grows s s1) by apply grows_snoc. assert (G2 : grows s1 s2) by apply grows_snoc.
  assert (Lc1 : live1 s1 c) by (unfold live1, c, s1; cbn [a1_buf]; rewrite app_length; cbn; lia).
  pose proof (ips_init_int (s_mass p) None (Some c) (Some a) None false s2) as HI. cbn [live_opt option_map] in HI.
  assert (Ea : rd2 s2 a = H) by apply (rd_alloc2 s1 H). assert (Ec : rd1 s2 c = com) by (rewrite (grows_rd1 s1 s2 c G2 Lc1); apply (rd_alloc1 s com)). rewrite Ea, Ec in HI.
  eapply imp_mono; [|apply HI; auto].
  - intros p' s' q G _ (V & K1 & K2 & K3 & K4). unfold fresh_ips. rewrite K1, K2 in *. cbn [c a a1_buf a2_buf]. pose proof (grows_length _ _ G1). repeat split; auto; lia.
  - eapply grows_live1; eauto.
  - unfold live2, a, s2. cbn [a2_buf]. rewrite app_length. cbn. lia.
Qed.
Lemma ips_add_fresh p q s : live1 s (s_com p) -> live2 s (s_H p) -> live1 s (s_com q) -> live2 s (s_H q) ->
  implements (ips_add p q) s (ip_add (ips_view s p) (ips_view s q)) (fresh_ips s).
Proof.
  intros Lc LH Lc' LH'. unfold ips_add, ip_add.
  eapply imp_step; [reflexivity|apply grows_refl|]. eapply imp_step; [reflexivity|apply grows_refl|]. set (h := vadd _ _). set (H := madd _ _).
  eapply imp_step; [apply alloc1_ok|apply grows_snoc|]. set (s1 := s ++ [h]). 
  eapply imp_step; [apply alloc2_ok|apply grows_snoc|]. set (s2 := s1 ++ [concat H]). set (c := {| a1_buf := _; a1_at := _ |}). set (a := {| a2_buf := _; a2_at := _ |}).
  assert (G1 : grows s s1) by apply grows_snoc. assert (G2 : grows s1 s2) by apply grows_snoc.
  assert (Lc1 : live1 s1 c) by (unfold live1, c, s1; cbn [a1_buf]; rewrite app_length; cbn; lia).
  pose proof (ips_init_int (s_mass p + s_mass q) (Some c) None (Some a) None false s2) as HI. cbn [live_opt option_map] in HI.
  assert (Ea : rd2 s2 a = H) by apply (rd_alloc2 s1 H). assert (Ec : rd1 s2 c = h) by (rewrite (grows_rd1 s1 s2 c G2 Lc1); apply (rd_alloc1 s h)). rewrite Ea, Ec in HI.
  eapply imp_mono; [|apply HI; auto].
  - intros p' s' r G _ (V & K1 & K2 & K3 & K4). unfold fresh_ips. rewrite K2 in *. cbn [a a2_buf]. pose proof (grows_length _ _ G1). pose proof (grows_length _ _ G2). repeat split; auto; lia.
  - eapply grows_live1; eauto.
  - unfold live2, a, s2. cbn [a2_buf]. rewrite app_length. cbn. lia.
Qed.
(** ** zero, h, J *)
Lemma ips_zero_fresh s : implements ips_zero s ip_zero (fresh_ips s).
Proof.
  unfold ips_zero, ip_zero. eapply imp_step; [apply alloc1_ok|apply grows_snoc|]. set (s1 := s ++ [zeros 3]).
  eapply imp_step; [apply alloc2_ok|apply grows_snoc|]. set (s2 := s1 ++ [_]). set (c := {| a1_buf := _; a1_at := _ |}). set (a := {| a2_buf := _; a2_at := _ |}).
  assert (G1 : grows s s1) by apply grows_snoc. assert (G2 : grows s1 s2) by apply grows_snoc.
  assert (Lc1 : live1 s1 c) by (unfold live1, c, s1; cbn [a1_buf]; rewrite app_length; cbn; lia).
  pose proof (ips_init_int 0 None (Some c) (Some a) None false s2) as HI. cbn [live_opt option_map] in HI.
  assert (Ea : rd2 s2 a = zeros2 3 3) by apply (rd_alloc2 s1 (zeros2 3 3)). assert (Ec : rd1 s2 c = zeros 3) by (rewrite (grows_rd1 s1 s2 c G2 Lc1); apply (rd_alloc1 s (zeros 3))). rewrite Ea, Ec in HI.
  eapply imp_mono; [|apply HI; auto].
  - intros p' s' r G _ (V & K1 & K2 & K3 & K4). unfold fresh_ips. rewrite K1, K2 in *. cbn [c a a1_buf a2_buf]. pose proof (grows_length _ _ G1). repeat split; auto; lia.
  - eapply grows_live1; eauto.
  - unfold live2, a, s2. cbn [a2_buf]. rewrite app_length. cbn. lia.
Qed.
Lemma new1 s v a s' : alloc1 v s = Ok (a, s') -> rd1 s' a = v /\ independent s s' (fun t => rd1 t a) [a1_buf a].
Proof.
  intro E. injection E as <- <-. split; [apply rd_alloc1|]. split.
  - intros ws Hws. apply (caller_rd1 s); auto.
  - intros ws b i W Hb. apply (own_cell s _ [length s]); auto; [apply grows_snoc|]. intros o [<-|[]]. auto.
Qed.
Lemma new2 s M a s' : alloc2 M s = Ok (a, s') -> rd2 s' a = M /\ independent s s' (fun t => rd2 t a) [a2_buf a].
Proof.
  intro E. injection E as <- <-. split; [apply rd_alloc2|]. split.
  - intros ws Hws. apply (caller_rd2 s); auto.
  - intros ws b i W Hb. apply (own_cell s _ [length s]); auto; [apply grows_snoc|]. intros o [<-|[]]. auto.
Qed.
Lemma ips_h_spec p s : implements (ips_h p) s (Ok (ip_h (ips_view s p)))
  (fun a s' v => rd1 s' a = v /\ independent s s' (fun t => rd1 t a) [a1_buf a]).
Proof. do 2 eexists. split; [reflexivity|]. split; [apply grows_snoc|]. now apply new1. Qed.
Lemma ips_J_spec p s : implements (ips_J p) s (Ok (ip_J (ips_view s p)))
  (fun a s' M => rd2 s' a = M /\ independent s s' (fun t => rd2 t a) [a2_buf a]).
Proof. do 2 eexists. split; [reflexivity|]. split; [apply grows_snoc|]. now apply new2. Qed.
(** ** sum *)
Definition live_ips (s : store) (p : IPS) : Prop := live1 s (s_com p) /\ live2 s (s_H p).
Definition py_sum_from (acc : IP) (l : list IP) : res IP := fold_left (fun a p => let* a := a in ip_add a p) l (Ok acc).
Lemma sum_from_raise l : (forall e, fold_left (fun a p => let* a := a in ip_add a p) l (Raise e : res IP) = Raise e) /\
  fold_left (fun a p => let* a := a in ip_add a p) l (NonFinite : res IP) = NonFinite.
Proof. induction l as [|p l [IH1 IH2]]; split; intros; auto; apply IH1. Qed.
Lemma py_sum_eq p l : py_sum (p :: l) = let* q := py_sum_from p l in Ok (Params q).
Proof.
  unfold py_sum, py_sum_from. cbn [fold_left bind ip_radd].
  assert (forall l r, fold_left (fun acc p0 => let* a := acc in let* s := match a with IntZero => ip_radd p0 IntZero | Params q => ip_add q p0 end in Ok (Params s)) l
    (let* q := r in Ok (Params q)) = let* q := fold_left (fun a p => let* a := a in ip_add a p) l r in Ok (Params q)) as K.
  { clear. induction l as [|x l IH]; intro r; cbn [fold_left]; [reflexivity|]. rewrite <- IH. destruct r; reflexivity. }
  exact (K l (Ok p)).
Qed.
Lemma view_grows s s' p : grows s s' -> live_ips s p -> ips_view s' p = ips_view s p.
Proof. intros G [L1 L2]. unfold ips_view. now rewrite (grows_rd1 s s'), (grows_rd2 s s'). Qed.
Lemma sum_from_fresh s0 : forall l acc s, grows s0 s -> (length s0 <= a1_buf (s_com acc))%nat -> (length s0 <= a2_buf (s_H acc))%nat ->
  live_ips s acc -> Forall (live_ips s) l -> implements (ips_sum_from acc l) s (py_sum_from (ips_view s acc) (map (ips_view s) l)) (fresh_ips s0).
Proof.
  induction l as [|p l IH]; intros acc s G L1 L2 [La LA] F.
  - exists acc, s. split; [reflexivity|]. split; [apply grows_refl|]. repeat split; auto.
  - inversion F as [|? ? [Lp LP] F']; subst. cbn [ips_sum_from map]. unfold py_sum_from. cbn [fold_left bind].
    pose proof (ips_add_fresh acc p s La LA Lp LP) as HA. destruct (ip_add (ips_view s acc) (ips_view s p)) as [q|e|] eqn:EA.
    + destruct HA as (a & s1 & E1 & G1 & V & La1 & LA1 & N1 & N2). eapply imp_step; [exact E1|exact G1|].
      pose proof (grows_length _ _ G). specialize (IH a s1). rewrite V in IH.
      replace (map (ips_view s) l) with (map (ips_view s1) l).
      * apply IH; try lia; [eapply grows_trans; eauto|split; auto|]. eapply Forall_impl; [|exact F']. intros x [X1 X2]. split; [eapply grows_live1|eapply grows_live2]; eauto.
      * apply map_ext_in. intros x Hx. apply view_grows; auto. rewrite Forall_forall in F'. now apply F'.
    + rewrite (proj1 (sum_from_raise _)). cbn. now apply sbind_raise.
    + rewrite (proj2 (sum_from_raise _)). cbn. now apply sbind_nf.
Qed.
Lemma ips_sum_spec p l s : Forall (fun p => live1 s (s_com p) /\ live2 s (s_H p)) (p :: l) ->
  implements (ips_sum p l) s (py_sum (map (ips_view s) (p :: l)))
    (fun a s' q => q = Params (ips_view s' a) /\ (l = [] -> a = p) /\ (l <> [] -> independent s s' (fun t => ips_view t a) (own a))).
Proof.
  intro F. inversion F as [|? ? Lp F']; subst. cbn [map]. rewrite py_sum_eq. unfold ips_sum. eapply imp_step; [reflexivity|apply grows_refl|].
  destruct l as [|q l].
  - exists p, s. split; [reflexivity|]. split; [apply grows_refl|]. split; [reflexivity|]. split; [reflexivity|easy].
  - inversion F' as [|? ? Lq F2]; subst. destruct Lp as [Lp LP], Lq as [Lq LQ]. cbn [ips_sum_from map]. unfold py_sum_from. cbn [fold_left bind].
    pose proof (ips_add_fresh p q s Lp LP Lq LQ) as HA. destruct (ip_add (ips_view s p) (ips_view s q)) as [r|e|] eqn:EA.
    + destruct HA as (a & s1 & E1 & G1 & V & La1 & LA1 & N1 & N2). eapply imp_step; [exact E1|exact G1|].
      assert (F3 : Forall (live_ips s1) l) by (eapply Forall_impl; [|exact F2]; intros x [X1 X2]; split; [eapply grows_live1|eapply grows_live2]; eauto).
      pose proof (sum_from_fresh s l a s1 G1 N1 N2 (conj La1 LA1) F3) as HS. rewrite V in HS.
      replace (map (ips_view s1) l) with (map (ips_view s) l) in HS.
      2:{ apply map_ext_in. intros x Hx. symmetry. apply view_grows; auto. rewrite Forall_forall in F2. now apply F2. }
      unfold py_sum_from in HS. destruct (fold_left _ (map (ips_view s) l) (Ok r)) as [z|e|]; cbn [bind]; [|exact HS|exact HS].
      destruct HS as (b & s2 & E2 & G2 & Vz & _ & _ & M1 & M2). exists b, s2. split; [exact E2|]. split; [exact G2|]. split; [now rewrite Vz|]. split; [easy|]. intros _. apply ips_new; auto. eapply grows_trans; eauto.
    + rewrite (proj1 (sum_from_raise _)). cbn. now apply sbind_raise.
    + rewrite (proj2 (sum_from_raise _)). cbn. now apply sbind_nf.
Qed.
(** ** SpatialVector *)
Lemma svs_init_spec lin ang s : implements (svs_init lin ang) s (sv_init (option_map (rd1 s) lin) (option_map (rd1 s) ang))
  (fun v s' q => svs_view s' v = q /\ independent s s' (fun t => svs_view t v) [a1_buf (ss_vec v)]).
Proof.
  unfold svs_init. eapply (imp_step _ _ s (option_map (rd1 s) lin) s); [destruct lin; reflexivity|apply grows_refl|].
  eapply (imp_step _ _ s (option_map (rd1 s) ang) s); [destruct ang; reflexivity|apply grows_refl|].
  destruct (sv_init _ _) as [q|e|] eqn:E; [|reflexivity|reflexivity].
  do 2 eexists. split; [reflexivity|]. split; [apply grows_snoc|]. destruct (new1 s (sv_vec q) _ _ eq_refl) as [E1 [I1 I2]]. split.
  - destruct q as [w]. unfold svs_view. cbn [ss_vec]. f_equal. exact E1.
  - split; [|exact I2]. intros ws Hws. unfold svs_view. cbn [ss_vec]. f_equal. now apply I1.
Qed.
Lemma svs_from_vec_spec v s : implements (svs_from_vec v) s (sv_from_vec (rd1 s v))
  (fun u s' q => svs_view s' u = q /\ independent s s' (fun t => svs_view t u) [a1_buf (ss_vec u)]).
Proof.
  unfold svs_from_vec, sv_from_vec. eapply imp_step; [reflexivity|apply grows_refl|]. destruct (is_vecb 6 (rd1 s v)) eqn:E6; [|reflexivity].
  eapply imp_step; [reflexivity|apply grows_refl|]. cbn [assert_ bind].
  pose proof (svs_init_spec (Some (slice1 3 3 v)) (Some (slice1 0 3 v)) s) as HS. cbn [option_map] in HS. rewrite !rd_slice1 in HS. change (skipn 0 (rd1 s v)) with (rd1 s v) in HS.
  replace (firstn 3 (skipn 3 (rd1 s v))) with (skipn 3 (rd1 s v)) in HS; [exact HS|]. symmetry. apply firstn_all2. rewrite skipn_length. unfold is_vecb in E6. apply Nat.eqb_eq in E6. lia.
Qed.
Lemma svs_views v t : length (rd1 t (ss_vec v)) = 6%nat -> rd1 t (svs_linear v) = sv_linear (svs_view t v) /\ rd1 t (svs_angular v) = sv_angular (svs_view t v).
Proof.
  intro L. unfold svs_linear, svs_angular, sv_linear, sv_angular, svs_view. cbn [sv_vec]. rewrite !rd_slice1. split; [|reflexivity].
  apply firstn_all2. rewrite skipn_length. lia.
Qed.
