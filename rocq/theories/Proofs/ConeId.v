(** C93-C94: convexity of the identification problem and uniqueness of its solution. *)
From Verif Require Import Base.Vec Base.VecFacts Spec.Basic Spec.Objects Spec.Realizable Spec.Shapes Spec.ShapeObjects Spec.PolySpec Spec.Bodies Spec.ExtremalSpec Spec.Geodesic Spec.Identify Spec.Cone
  Model.Util Model.Constraint Model.Inertial Model.Polydd Model.Poly Model.Box Model.Cylinder Model.Ellipsoid Model.Realize Model.RigidBody Model.Identify
  Proofs.Coord Proofs.LinAlg Proofs.MatAlg Proofs.UtilP Proofs.InertialP Proofs.BoxP Proofs.CylP Proofs.EllP Proofs.PolyP Proofs.PimP Proofs.LogDet Proofs.MomentP Proofs.IdentifyP Proofs.Cone.

Lemma vmix_length a b x y : length x = length y -> length (vmix a b x y) = length y.
Proof. intro L. unfold vmix. len. Qed.
Lemma vmix_nth a b x y i : length x = length y -> nth i (vmix a b x y) 0 = a * nth i x 0 + b * nth i y 0.
Proof. intro L. unfold vmix. rewrite nth_vadd by len. now rewrite !nth_vscale. Qed.
Lemma pmev_mix a b t1 t2 J1 J2 : pim_must_equal_vec t1 = Ok J1 -> pim_must_equal_vec t2 = Ok J2 -> pim_must_equal_vec (vmix a b t1 t2) = Ok (mix a b J1 J2).
Proof.
  intros E1 E2. unfold pim_must_equal_vec, is_vecb in *. apply bind_inv in E1 as (u & A1 & E1). apply bind_inv in E2 as (u' & A2 & E2). unfold assert_ in A1, A2.
  destruct (Nat.eqb_spec (length t1) 10) as [L1|]; [|discriminate]. destruct (Nat.eqb_spec (length t2) 10) as [L2|]; [|discriminate].
  rewrite vmix_length, L2 by congruence. cbn [Nat.eqb assert_ bind]. f_equal. injection E1 as <-. injection E2 as <-.
  do 11 (destruct t1 as [|? t1]; try discriminate). do 11 (destruct t2 as [|? t2]; try discriminate). unfold mix, vmix. cbn. list_eq; ring.
Qed.
(** ** [must_contain] *)
Lemma dot_vmix a b r x y : length x = length y -> dot r (vmix a b x y) = a * dot r x + b * dot r y.
Proof.
  revert x y. unfold vmix. induction r as [|c r IH]; intros [|p x] [|q y] L; try discriminate; cbn; try ring. change (fold_right Rplus 0) with lsum. specialize (IH x y ltac:(cbn in L; lia)). unfold dot in IH. unfold vadd, vscale in IH. rewrite IH. ring.
Qed.
Lemma poly_must_mix p a b x y s t : length x = length y -> 0 <= a -> 0 <= b -> poly_must_contain p x s -> poly_must_contain p y t -> poly_must_contain p (vmix a b x y) (a * s + b * t).
Proof.
  unfold poly_must_contain, mat_vec, vscale. intros L Ha Hb. generalize (p_A p) (p_b p). intros A. induction A as [|r A IH]; intros B H1 H2; cbn [map] in *.
  - destruct B; [constructor|inversion H1].
  - destruct B as [|c B]; [inversion H1|]. cbn [map] in *. inversion H1 as [|? ? ? ? I1 F1]; inversion H2 as [|? ? ? ? I2 F2]; subst. constructor; [|apply IH; auto]. rewrite dot_vmix by auto.
    pose proof (Rmult_le_compat_l a _ _ Ha I1). pose proof (Rmult_le_compat_l b _ _ Hb I2). lra.
Qed.
Lemma cp_psd_mix n a b A B : 0 <= a -> 0 <= b -> is_mat n n A -> is_mat n n B -> cp_psd n A -> cp_psd n B -> cp_psd n (mix a b A B).
Proof. intros Ha Hb HA HB PA PB z Lz. rewrite (quad_mix n) by auto. apply mix_nonneg; auto. Qed.
Lemma len1_inv (x : vec) : length x = 1%nat -> exists p, x = [p].
Proof. destruct x as [|p [|]]; try discriminate. eauto. Qed.
Lemma len2_inv (x : vec) : length x = 2%nat -> exists p q, x = [p; q].
Proof. destruct x as [|p [|q [|]]]; try discriminate. eauto. Qed.
Lemma mat11_inv (A : mat) : is_mat 1 1 A -> exists p, A = [[p]].
Proof. intros (L & F). destruct A as [|r [|]]; try discriminate. apply Forall_cons_iff in F as (F & _). destruct (len1_inv r F) as (p & ->). eauto. Qed.
Lemma mat22_inv (A : mat) : is_mat 2 2 A -> exists p q r s, A = [[p; q]; [r; s]].
Proof. intros (L & F). destruct A as [|r [|s [|]]]; try discriminate. apply Forall_cons_iff in F as (F & G). apply Forall_cons_iff in G as (G & _). destruct (len2_inv r F) as (? & ? & ->), (len2_inv s G) as (? & ? & ->). eauto. Qed.
Ltac dv12 := repeat match goal with
  | H : length ?v = 1%nat |- _ => is_var v; destruct (len1_inv v H) as (? & ->); clear H
  | H : length ?v = 2%nat |- _ => is_var v; destruct (len2_inv v H) as (? & ? & ->); clear H
  | H : is_mat 1 1 ?M |- _ => is_var M; destruct (mat11_inv M H) as (? & ->); clear H
  | H : is_mat 2 2 ?M |- _ => is_var M; destruct (mat22_inv M H) as (? & ? & ? & ? & ->); clear H
  end.
Definition ell_dims (n : nat) (e : Ell) : Prop := length (e_half e) = n /\ e_dim e = n /\ is_mat n n (e_rot e) /\ length (e_center e) = n.
Lemma ell_must_mix n e a b x y s t : (n = 1 \/ n = 2 \/ n = 3)%nat -> ell_dims n e -> length x = n -> length y = n -> 0 <= a -> 0 <= b ->
  ell_must_contain e x s -> ell_must_contain e y t -> ell_must_contain e (vmix a b x y) (a * s + b * t).
Proof.
  intros Hn (Lh & Ed & MR & Lc) Lx Ly Ha Hb. unfold ell_must_contain. rewrite Ed. destruct e as [h r c]. cbn [e_half e_rot e_center] in *. clear Ed.
  intros H1 H2.
  match goal with |- cp_psd ?m ?S => match type of H1 with cp_psd _ ?S1 => match type of H2 with cp_psd _ ?S2 => assert (E : S = mix a b S1 S2 /\ is_mat m m S1 /\ is_mat m m S2) end end end.
  { clear H1 H2. unfold mix, vmix. destruct Hn as [-> | [-> | ->]]; dv12; destruct_vecs; cbn; (split; [list_eq; ring|split; (split; [reflexivity|repeat constructor])]). }
  destruct E as (-> & E1 & E2). apply cp_psd_mix; auto.
Qed.
Lemma cap_dims r a : length a = 3%nat -> ell_dims 3 (cap_at r a).
Proof. intro L. split; [reflexivity|]. split; [reflexivity|]. split; [apply is_mat_eye|exact L]. Qed.
Lemma vmix_vadd a b x y x' y' : length x = 3%nat -> length y = 3%nat -> length x' = 3%nat -> length y' = 3%nat -> vmix a b (vadd x y) (vadd x' y') = vadd (vmix a b x x') (vmix a b y y').
Proof. intros. unfold vmix. destruct_vecs. cbn. list_eq; ring. Qed.
Lemma must_mix sh K a b x y s t : shape_is sh K -> length x = 3%nat -> length y = 3%nat -> 0 <= a -> 0 <= b ->
  shp_must_contain_scaled sh x s -> shp_must_contain_scaled sh y t -> shp_must_contain_scaled sh (vmix a b x y) (a * s + b * t).
Proof.
  intros HS Lx Ly Ha Hb H1 H2. destruct HS as [h ce r q Hq HQ|q Hq|h r ce e He Lh HQ|L R r ce q Hq HQ|L R r ce q k Hq Hk HQ]; cbn [shp_must_contain_scaled] in *.
  - apply poly_must_mix; auto. congruence.
  - apply poly_must_mix; auto. congruence.
  - pose proof (ell_init_inv _ _ _ _ He) as (_ & Eh & _ & _ & MR & Lc). rewrite Lh in *. apply (ell_must_mix 3); auto. unfold ell_dims, e_dim. rewrite Eh. auto.
  - apply cyl_init_inv in Hq as (_ & _ & MQ & Lc & ->). destruct H1 as (A1 & A2), H2 as (B1 & B2). cbn [c_rot c_ell1 c_ell2 cyl_of] in *. set (Q := pose_rot 3 r) in *. set (c := pose_tr 3 ce) in *.
    assert (E1 : [dot (vmix a b x y) (longitudinal_axis Q)] = vmix a b [dot x (longitudinal_axis Q)] [dot y (longitudinal_axis Q)]) by (clear - MQ Lx Ly; unfold vmix; destruct_vecs; cbn; list_eq; ring).
    assert (E2 : vec_mat (vmix a b x y) (transverse_axes Q) = vmix a b (vec_mat x (transverse_axes Q)) (vec_mat y (transverse_axes Q))) by (clear - MQ Lx Ly; unfold vmix; destruct_vecs; cbn; list_eq; ring).
    unfold cyl_must_contain. cbn [c_rot c_ell1 c_ell2 cyl_of]. fold Q c. rewrite E1, E2. split.
    + apply (ell_must_mix 1); auto. split; [reflexivity|]. split; [reflexivity|]. split; [apply is_mat_eye|reflexivity].
    + apply (ell_must_mix 2); auto; [|clear - MQ Lx; destruct_vecs; reflexivity|clear - MQ Ly; destruct_vecs; reflexivity].
      split; [reflexivity|]. split; [reflexivity|]. split; [apply is_mat_eye|]. clear - MQ Lc. cbn [e_center]. destruct_vecs. reflexivity.
  - pose proof (caps_inv _ _ _ _ _ _ Hq Hk) as (_ & _ & MQ & Lc & ->). unfold caps_must_contain in *. cbn [k_caps caps_of] in *.
    destruct H1 as (p1 & p2 & w & L1 & L2 & C1 & C2 & T1 & T2 & ->). destruct H2 as (p1' & p2' & w' & L1' & L2' & C1' & C2' & T1' & T2' & ->).
    exists (vmix a b p1 p1'), (vmix a b p2 p2'), (a * w + b * w'). split; [now rewrite vmix_length by congruence|]. split; [now rewrite vmix_length by congruence|].
    split; [apply (ell_must_mix 3); auto; apply cap_dims; now apply end_len|]. split.
    { replace (a * s + b * t - (a * w + b * w')) with (a * (s - w) + b * (t - w')) by ring. apply (ell_must_mix 3); auto; apply cap_dims; now apply end_len. }
    split; [now apply mix_nonneg|]. split; [|now apply vmix_vadd]. pose proof (Rmult_le_compat_l a _ _ Ha T2). pose proof (Rmult_le_compat_l b _ _ Hb T2'). lra.
Qed.
Lemma com_mix s K a b J1 J2 : shape_is s K -> 0 <= a -> 0 <= b -> is_mat 4 4 J1 -> is_mat 4 4 J2 -> com_constraint s J1 -> com_constraint s J2 -> com_constraint s (mix a b J1 J2).
Proof.
  intros HS Ha Hb M1 M2 H1 H2. unfold com_constraint in *. rewrite (entry_mix 4 4) by (auto; lia).
  replace (firstn 3 (col 3 (mix a b J1 J2))) with (vmix a b (firstn 3 (col 3 J1)) (firstn 3 (col 3 J2))) by (clear - M1 M2; unfold mix, vmix; destruct_vecs; cbn; list_eq; ring).
  eapply must_mix; eauto; [clear - M1; destruct_vecs; reflexivity|clear - M2; destruct_vecs; reflexivity].
Qed.
(** ** the feasible parameters *)
Definition shapes_ok (l : list shp) : Prop := exists Ks, Forall2 shape_is l Ks.
Lemma feasible_inv ut P bodies mr coms thetas : 0 <= id_eps P -> Forall (body_ok mr) bodies -> length thetas = length bodies -> Forall (fun t => length t = 10%nat) thetas ->
  exists Js, Forall2 (fun t J => pim_must_equal_vec t = Ok J) thetas Js /\ Forall (fun J => is_mat 4 4 J /\ symmetric 4 J) Js /\
  (id_feasible ut P bodies mr coms thetas <->
    id_domain P thetas /\ Forall (fun J => PSD 4 (msub J (mscale (id_eps P) (eye 4)))) Js /\
    (mr = true -> Forall2 (fun b J => accepts (rb_moment_sdp_constraints ut b (PVmat J) 0 2)) bodies Js) /\
    (forall l, coms = Some l -> Forall (fun sJ => com_constraint (fst sJ) (snd sJ)) (combine l Js))).
Proof.
  intros He HB HL Ht. destruct (id_constraints_build ut P bodies mr coms thetas He HL Ht HB) as (Js & c2 & E1 & L1 & HJ & E2 & E3).
  exists Js. split; [now apply mapM_Forall2|]. split; [apply Forall_forall; intros J Hj; destruct (HJ J Hj) as (A & _ & B); auto|].
  unfold id_feasible. assert (I2 : Forall (fun P => P) c2 <-> (mr = true -> Forall2 (fun b J => accepts (rb_moment_sdp_constraints ut b (PVmat J) 0 2)) bodies Js)).
  { destruct mr; [|injection E2 as <-; split; [discriminate|constructor]]. apply mapM_Forall2 in E2. clear - E2 L1. revert Js c2 E2 L1. induction bodies as [|b l IH]; intros [|J Js] c2 E2 L1; try discriminate.
    - inversion E2; subst. split; [constructor|constructor].
    - inversion E2 as [|? c ? cs Hc Hcs]; subst. cbn [fst snd] in Hc. specialize (IH Js cs Hcs ltac:(cbn in L1; lia)). split.
      + intro F. apply Forall_cons_iff in F as (F1 & F). intros _. constructor; [exists c; auto|apply IH; auto].
      + intro F. specialize (F eq_refl). inversion F as [|? ? ? ? (c' & E' & F1) F2]; subst. rewrite Hc in E'. injection E' as <-. constructor; [exact F1|apply IH; auto]. }
  assert (I1 : Forall (fun P => P) (map (psd_prop (id_eps P)) Js) <-> Forall (fun J => PSD 4 (msub J (mscale (id_eps P) (eye 4)))) Js).
  { rewrite Forall_map_id, Forall_forall. split; intros H J Hj; apply (psd_shift J (id_eps P)); try apply HJ; auto; apply H; auto. }
  split.
  - intros (_ & _ & HD & c & Ec & Hc). rewrite E3 in Ec. apply CylCustom.Ok_eq in Ec. subst c. apply Forall_app in Hc as (C1 & Hc). apply Forall_app in Hc as (C2 & C3).
    split; [exact HD|]. split; [now apply I1|]. split; [now apply I2|]. intros l ->. apply Forall_forall. exact (proj1 (Forall_map_id _ _) C3).
  - intros (HD & C1 & C2 & C3). split; [exact HL|]. split; [exact Ht|]. split; [exact HD|]. eexists. split; [exact E3|]. apply Forall_app. split; [now apply I1|]. apply Forall_app. split; [now apply I2|].
    destruct coms as [l|]; [|constructor]. apply Forall_map_id. apply Forall_forall. now apply C3.
Qed.
Lemma tmix_len a b l m n : length l = n -> length m = n -> length (tmix a b l m) = n.
Proof. intros. unfold tmix. rewrite map2_length. lia. Qed.
Lemma tmix10 a b l m : Forall (fun t => length t = 10%nat) l -> Forall (fun t => length t = 10%nat) m -> Forall (fun t => length t = 10%nat) (tmix a b l m).
Proof.
  intros Hl Hm. apply Forall_forall. intros t Ht. apply in_map2 in Ht as (x & y & Hx & Hy & ->). rewrite Forall_forall in Hl, Hm. rewrite vmix_length; [now apply Hm|rewrite (Hl x Hx); symmetry; now apply Hm].
Qed.
Lemma pmev_tmix a b l m Js Js' : Forall2 (fun t J => pim_must_equal_vec t = Ok J) l Js -> Forall2 (fun t J => pim_must_equal_vec t = Ok J) m Js' ->
  Forall2 (fun t J => pim_must_equal_vec t = Ok J) (tmix a b l m) (map2 (mix a b) Js Js').
Proof.
  intro H. revert m Js'. induction H as [|t J l Js H F IH]; intros m Js' H'; inversion H' as [|t' J' m' Js'' E F']; subst; [constructor|constructor|constructor|]. constructor; [now apply pmev_mix|now apply IH].
Qed.
Lemma quad_pos_mix a b A B z : is_mat 4 4 A -> is_mat 4 4 B -> length z = 4%nat -> 0 <= a -> 0 <= b -> a + b = 1 -> 0 < quad A z -> 0 < quad B z -> 0 < quad (mix a b A B) z.
Proof.
  intros HA HB Lz Ha Hb Hab PA PB. rewrite (quad_mix 4) by auto. pose proof (Rmult_le_pos a (quad A z)). pose proof (Rmult_le_pos b (quad B z)).
  destruct Ha as [Ha|<-]; [pose proof (Rmult_lt_0_compat a (quad A z)); lra|]. replace b with 1 by lra. lra.
Qed.
Lemma feasible_convex ut P bodies mr coms a b l m : 0 <= id_eps P -> Forall (body_ok mr) bodies -> (forall c, coms = Some c -> length c = length bodies /\ shapes_ok c) ->
  0 <= a -> 0 <= b -> a + b = 1 -> id_feasible ut P bodies mr coms l -> id_feasible ut P bodies mr coms m -> id_feasible ut P bodies mr coms (tmix a b l m).
Proof.
  intros He HB HC Ha Hb Hab Hl Hm. pose proof Hl as (L1 & T1 & _). pose proof Hm as (L2 & T2 & _).
  destruct (feasible_inv ut P bodies mr coms l He HB L1 T1) as (Js & F1 & M1 & I1). destruct (feasible_inv ut P bodies mr coms m He HB L2 T2) as (Js' & F2 & M2 & I2).
  apply I1 in Hl as (D1 & A1 & B1 & C1). apply I2 in Hm as (D2 & A2 & B2 & C2). clear I1 I2.
  destruct (feasible_inv ut P bodies mr coms (tmix a b l m) He HB (tmix_len a b l m _ L1 L2) (tmix10 a b l m T1 T2)) as (Jm & F & _ & I). apply I. clear I.
  pose proof (pmev_tmix a b l m Js Js' F1 F2) as F'. assert (EJ : Jm = map2 (mix a b) Js Js') by (apply mapM_Forall2 in F, F'; congruence). subst Jm. clear F.
  assert (LJ : length Js = length Js') by (rewrite <- (Forall2_len _ _ _ F1), <- (Forall2_len _ _ _ F2); congruence).
  split; [|split; [|split]].
  - intros Hg t J Ht EJ z Lz Nz. destruct (Forall2_in_l _ _ _ _ F' Ht) as (J' & HJ' & EJ'). rewrite EJ in EJ'. injection EJ' as ->.
    apply in_map2 in HJ' as (A & B & HA & HB' & ->). rewrite Forall_forall in M1, M2. destruct (Forall2_in_r _ _ _ _ F1 HA) as (tA & HtA & EA). destruct (Forall2_in_r _ _ _ _ F2 HB') as (tB & HtB & EB).
    apply quad_pos_mix; auto; [now apply M1|now apply M2|now apply (D1 Hg tA A)|now apply (D2 Hg tB B)].
  - apply Forall_forall. intros J HJ. apply in_map2 in HJ as (A & B & HA & HB' & ->). rewrite Forall_forall in M1, M2, A1, A2.
    replace (id_eps P) with (a * id_eps P + b * id_eps P) by (rewrite <- Rmult_plus_distr_r, Hab; ring). apply margin_mix; auto; [now apply M1|now apply M2].
  - intro Emr. specialize (B1 Emr). specialize (B2 Emr). clear - HB B1 B2 M1 M2 Ha Hb Emr. revert Js Js' B1 B2 M1 M2. induction bodies as [|bd bodies IH]; intros Js Js' B1 B2 M1 M2; inversion B1 as [|? J ? Js1 X1 Y1]; inversion B2 as [|? J' ? Js2 X2 Y2]; subst; [constructor|].
    apply Forall_cons_iff in HB as (HB1 & HB). apply Forall_cons_iff in M1 as ((N1 & _) & M1). apply Forall_cons_iff in M2 as ((N2 & _) & M2). destruct (HB1 eq_refl) as (Ks & K1 & K2). cbn [map2]. constructor; [|apply IH; auto].
    assert (E0 : a * 0 + b * 0 = 0) by ring. pose proof (body_conic ut bd Ks 2 K1 K2 ltac:(lia) a b (PVmat J) (PVmat J') (PVmat (mix a b J J')) J J' 0 0 Ha Hb (Rle_refl 0) (Rle_refl 0) N1 N2 eq_refl eq_refl eq_refl X1 X2) as X. cbn beta in X. rewrite E0 in X. exact X.
  - intros c Ec. destruct (HC c Ec) as (_ & (Ks & HK)). specialize (C1 c Ec). specialize (C2 c Ec). clear - HK C1 C2 M1 M2 Ha Hb. revert Js Js' C1 C2 M1 M2. induction HK as [|s K c Ks Hs HK IH]; intros [|J Js] [|J' Js'] C1 C2 M1 M2; try constructor; cbn [combine] in *;
      apply Forall_cons_iff in C1 as (X1 & C1); apply Forall_cons_iff in C2 as (X2 & C2); apply Forall_cons_iff in M1 as ((N1 & _) & M1); apply Forall_cons_iff in M2 as ((N2 & _) & M2); [eapply com_mix; eauto|apply IH; auto].
Qed.

(** ** the cost is strictly convex *)
Lemma log_det_strict_mix log_det t X Y : log_det_spec 4 log_det -> 0 < t < 1 -> SPD 4 X -> SPD 4 Y -> log_det (mix (1 - t) t X Y) <= (1 - t) * log_det X + t * log_det Y -> X = Y.
Proof.
  intros HL Ht HX HY HM. unfold mix in *. set (Z := madd _ _) in *. assert (HZ : SPD 4 Z) by (apply SPD_mix; auto; lra).
  destruct (SPD_inverse 4 ltac:(lia) Z HZ) as (Z' & IZ). pose proof IZ as (_ & HZ' & _).
  destruct (log_det_support 4 ltac:(lia) log_det HL X Z Z' HX HZ IZ) as [B1 S1]. destruct (log_det_support 4 ltac:(lia) log_det HL Y Z Z' HY HZ IZ) as [B2 S2].
  assert (E : (1 - t) * trace (mat_mul Z' X) + t * trace (mat_mul Z' Y) = INR 4).
  { rewrite <- (trace_mix 4) by (auto; try lia; (apply HX || apply HY)). apply (trace_inv_self 4). exact IZ. }
  set (p := trace (mat_mul Z' X)) in *. set (q := trace (mat_mul Z' Y)) in *.
  set (u := log_det Z + p - INR 4 - log_det X). set (v := log_det Z + q - INR 4 - log_det Y).
  assert (U : 0 <= u) by (unfold u; lra). assert (V : 0 <= v) by (unfold v; lra).
  assert (W : (1 - t) * u + t * v <= 0) by (unfold u, v; nra).
  assert (U0 : u = 0) by nra. assert (V0 : v = 0) by nra. rewrite S1, S2 by (unfold u, v in *; lra). reflexivity.
Qed.
Lemma reg_mix log_det inv Js Js' J0s t : log_det_spec 4 log_det -> Js <> [] -> length Js = length J0s -> length Js' = length J0s ->
  (forall J, In J J0s -> nominal_ok inv J) -> (forall J, In J Js -> SPD 4 J) -> (forall J, In J Js' -> SPD 4 J) -> 0 <= t <= 1 ->
  exists v v' vt, entropic_regularizer log_det inv Js J0s = Ok v /\ entropic_regularizer log_det inv Js' J0s = Ok v' /\
    entropic_regularizer log_det inv (map2 (mix (1 - t) t) Js Js') J0s = Ok vt /\ vt <= (1 - t) * v + t * v' /\ (0 < t < 1 -> (1 - t) * v + t * v' <= vt -> Js = Js').
Proof.
  intros HD HN HL HL' H0 HJ HJ' Ht. destruct (nominal_list inv J0s H0) as (J0s' & F1 & F2).
  assert (H0m : forall J, In J J0s -> is_mat 4 4 J) by (intros J Hj; apply H0; auto).
  assert (N' : Js' <> []) by (destruct Js'; [|discriminate]; destruct J0s; [|discriminate]; destruct Js; [auto|discriminate]).
  eexists _, _, _. split; [|split; [|split]].
  - apply reg_value; [auto|exact F1|auto|intros J Hj; apply HJ; auto|auto].
  - apply reg_value; [auto|exact F1|auto|intros J Hj; apply HJ'; auto|auto].
  - apply reg_value; [|exact F1| | |auto].
    + destruct Js as [|], Js' as [|]; [now destruct HN|now destruct HN|now destruct N'|discriminate].
    + rewrite map2_length. lia.
    + intros J Hj. apply in_map2 in Hj as (A & B & HA & HB & ->). apply is_mat_madd; apply is_mat_mscale; [apply HJ|apply HJ']; auto.
  - clear F1 H0 H0m HN N'. revert Js Js' HL HL' HJ HJ'. induction F2 as [|J0 J0' J0s J0s' [HS HI] HF IH]; intros [|J Js] [|J' Js'] HL HL' HJ HJ'; try discriminate; [cbn; split; [lra|auto]|].
    specialize (IH Js Js' ltac:(now injection HL) ltac:(now injection HL') (fun x Hx => HJ x (or_intror Hx)) (fun x Hx => HJ' x (or_intror Hx))) as (I1 & I2).
    cbn [map2]. repeat match goal with |- context [lsum (?a :: ?l)] => change (lsum (a :: l)) with (a + lsum l) end.
    assert (SJ : SPD 4 J) by (apply HJ; now left). assert (SJ' : SPD 4 J') by (apply HJ'; now left).
    pose proof (log_det_concave 4 ltac:(lia) log_det HD t J J' Ht SJ SJ') as C.
    pose proof (trace_mix 4 ltac:(lia) t J0' J J' (proj1 (proj2 HI)) (proj1 SJ) (proj1 SJ')) as T. unfold reg_term in *. fold (mix (1 - t) t J J') in C, T. split; [lra|].
    intros Ht' HE. f_equal; [apply (log_det_strict_mix log_det t); auto; lra|apply I2; auto; lra].
Qed.
(** the energy of the difference of the fitted values *)
Lemma quad_vmix r W a b x y : is_mat r r W -> length x = r -> length y = r -> a + b = 1 -> quad W (vmix a b x y) = a * quad W x + b * quad W y - a * b * quad W (vsub x y).
Proof.
  intros MW Lx Ly E. unfold vmix. replace (vsub x y) with (vadd x (vscale (- 1) y)) by (apply (vec_ext r); [len|len|]; intros; rewrite nth_vsub, nth_vadd, nth_vscale by len; ring).
  unfold quad. assert (LA : length (mat_vec W x) = r) by (rewrite mat_vec_length; apply MW). assert (LB : length (mat_vec W y) = r) by (rewrite mat_vec_length; apply MW).
  rewrite !mat_vec_vadd by len. rewrite !mat_vec_vscale. rewrite !dot_vadd_l, !dot_vadd_r by len. rewrite !dot_vscale_l, !dot_vscale_r. replace b with (1 - a) by lra. ring.
Qed.
Lemma eye_weight r : is_mat r r (eye r) /\ pos_def r (eye r).
Proof. split; [apply is_mat_eye|]. intros z Lz Nz. unfold quad. rewrite mat_vec_eye by auto. destruct (Rle_lt_or_eq_dec _ _ (dot_self_nonneg z)) as [H|H]; [exact H|]. exfalso. apply Nz. symmetry in H. apply dot_self_zero in H. now rewrite H, Lz. Qed.
Definition weight (r : nat) (W0 : option mat) : mat := match W0 with Some W => W | None => eye r end.
Lemma weight_fit r c W0 As bs x : data_ok r c As bs -> fit_error W0 As bs x = weighted_squares (weight r W0) As bs x.
Proof.
  intro HD. destruct W0 as [W|]; [reflexivity|]. cbn [fit_error weight]. unfold sum_squares, weighted_squares. f_equal. pose proof (data_Forall2 _ _ _ _ HD) as F. clear HD.
  induction F as [|A b As bs ((LA & _) & Hb) F IH]; [reflexivity|]. cbn [map2]. f_equal; [|exact IH].
  unfold quad. rewrite mat_vec_eye by (rewrite vsub_length; rewrite mat_vec_length; lia). rewrite <- norm_sqr. ring.
Qed.
Lemma pos_def_quad r W e : pos_def r W -> length e = r -> 0 <= quad W e /\ (quad W e = 0 -> e = zeros r).
Proof.
  intros HW He. destruct (list_eq_dec Req_EM_T e (zeros r)) as [->|N]; [rewrite quad_zeros; split; [lra|auto]|]. specialize (HW e He N). split; [lra|intro; lra].
Qed.
Lemma fit_mix r c W0 As bs t x y : data_ok r c As bs -> weight_ok r W0 -> length x = c -> length y = c ->
  exists e, 0 <= e /\ (e = 0 -> forall A, In A As -> mat_vec A (vsub x y) = zeros r) /\
    fit_error W0 As bs (vmix (1 - t) t x y) = (1 - t) * fit_error W0 As bs x + t * fit_error W0 As bs y - (1 - t) * t * e.
Proof.
  intros HD HW Lx Ly. rewrite !(weight_fit r c W0 As bs _ HD). assert (HW' : is_mat r r (weight r W0) /\ pos_def r (weight r W0)) by (destruct W0; [exact HW|apply eye_weight]).
  destruct HW' as (MW & PW). generalize dependent (weight r W0). intros W MW PW. clear HW. pose proof (data_Forall2 _ _ _ _ HD) as F. clear HD. unfold weighted_squares.
  induction F as [|A b As bs ((LA & RA) & Hb) F (e & E0 & E1 & E2)]; [exists 0; split; [lra|]; split; [intros _ A []|cbn; ring]|].
  assert (L : forall z, length (mat_vec A z) = r) by (intro; rewrite mat_vec_length; exact LA). cbn [map2].
  exists (quad W (mat_vec A (vsub x y)) + e). destruct (pos_def_quad r W (mat_vec A (vsub x y)) PW (L _)) as (Q0 & Q1). split; [lra|]. split.
  - intros E A' [<-|HA]; [apply Q1; lra|apply E1; auto; lra].
  - repeat match goal with |- context [lsum (?a :: ?l)] => change (lsum (a :: l)) with (a + lsum l) end. rewrite E2.
    replace (vsub (mat_vec A (vmix (1 - t) t x y)) b) with (vmix (1 - t) t (vsub (mat_vec A x) b) (vsub (mat_vec A y) b)).
    + rewrite (quad_vmix r W) by (auto; try ring; rewrite vsub_length; rewrite L; auto).
      replace (vsub (vsub (mat_vec A x) b) (vsub (mat_vec A y) b)) with (mat_vec A (vsub x y)); [ring|].
      rewrite mat_vec_vsub by congruence. pose proof (L x) as Lx'. pose proof (L y) as Ly'. apply (vec_ext r); [len|len|]. intros i Hi. rewrite !nth_vsub by len. ring.
    + unfold vmix. rewrite mat_vec_vadd, !mat_vec_vscale by len. pose proof (L x) as Lx'. pose proof (L y) as Ly'. apply (vec_ext r); [len|len|]. intros i Hi. rewrite !nth_vsub, !nth_vadd, !nth_vscale, !nth_vsub by len. ring.
Qed.
Lemma vmix_app a b x x' y y' : length x = length y -> vmix a b (x ++ x') (y ++ y') = vmix a b x y ++ vmix a b x' y'.
Proof. unfold vmix, vadd, vscale. intro L. rewrite !map_app. revert y L. induction x as [|u x IH]; intros [|v y] L; try discriminate; [reflexivity|]. cbn. f_equal. apply IH. now injection L. Qed.
Lemma concat_tmix a b l m : Forall (fun t => length t = 10%nat) l -> Forall (fun t => length t = 10%nat) m -> length l = length m -> concat (tmix a b l m) = vmix a b (concat l) (concat m).
Proof.
  intros Hl. revert m. induction Hl as [|u l Hu Hl IH]; intros [|v m] Hm L; try discriminate; [reflexivity|]. inversion Hm; subst. cbn [tmix map2 concat]. unfold tmix in IH. rewrite IH by (auto; now injection L). symmetry. apply vmix_app. congruence.
Qed.
Lemma determined c (As : list mat) r x y : determining c As -> length x = c -> length y = c -> (forall A, In A As -> mat_vec A (vsub x y) = zeros r) -> x = y.
Proof.
  intros HA Lx Ly H. assert (Z : forall j, nth j (vsub x y) 0 = 0) by (apply HA; [len|]; intros A HI i; rewrite (H A HI); apply nth_zeros).
  apply (vec_ext c); auto. intros j Hj. specialize (Z j). rewrite nth_vsub in Z by len. lra.
Qed.
Lemma id_cost_mix ut log_det inv r P bodies mr coms l m t : log_det_spec 4 log_det -> 0 <= id_gamma P -> data_ok r (10 * length bodies) (id_As P) (id_bs P) -> weight_ok r (id_W0 P) ->
  (0 < id_gamma P -> forall b, In b bodies -> nominal_ok inv (ip_J (bd_params b))) -> 0 <= t <= 1 ->
  id_feasible ut P bodies mr coms l -> id_feasible ut P bodies mr coms m ->
  exists c1 c2 c, id_cost log_det inv P bodies l = Ok c1 /\ id_cost log_det inv P bodies m = Ok c2 /\ id_cost log_det inv P bodies (tmix (1 - t) t l m) = Ok c /\
    c <= (1 - t) * c1 + t * c2 /\ (0 < t < 1 -> 0 < id_gamma P \/ determining (10 * length bodies) (id_As P) -> (1 - t) * c1 + t * c2 <= c -> l = m).
Proof.
  intros HLD Hg HD HW HN Ht Hl Hm. pose proof Hl as (L1 & T1 & _). pose proof Hm as (L2 & T2 & _).
  destruct (id_cost_ok log_det inv P bodies l r HD HW L1 T1 HN) as (v1 & Js1 & V1 & _ & _ & E1 & A1 & B1).
  destruct (id_cost_ok log_det inv P bodies m r HD HW L2 T2 HN) as (v2 & Js2 & V2 & _ & _ & E2 & A2 & B2).
  destruct (id_cost_ok log_det inv P bodies (tmix (1 - t) t l m) r HD HW (tmix_len _ _ l m _ L1 L2) (tmix10 _ _ l m T1 T2) HN) as (v & Js & V & _ & _ & E & A & B).
  pose proof (concat10 l _ T1 L1) as C1. pose proof (concat10 m _ T2 L2) as C2.
  rewrite concat_tmix in V by (auto; congruence). destruct (fit_mix r _ (id_W0 P) _ _ t (concat l) (concat m) HD HW C1 C2) as (e & F0 & F1 & F2). rewrite <- V1, <- V2, <- V in F2.
  pose proof (no_pos _ _ _ _ HD) as Hk. set (k := 1 / 2 / INR (length (id_As P))) in *. clearbody k.
  assert (Hke : 0 <= k * ((1 - t) * t * e)) by (repeat apply Rmult_le_pos; lra).
  assert (HDt : 0 < t < 1 -> determining (10 * length bodies) (id_As P) -> k * ((1 - t) * t * e) <= 0 -> l = m).
  { intros Ht' Det Z. apply concat_inj10; auto; [congruence|]. apply (determined _ (id_As P) r _ _ Det C1 C2). apply F1.
    assert (0 < k * ((1 - t) * t)) by (repeat apply Rmult_lt_0_compat; lra). destruct (Rle_lt_or_eq_dec _ _ F0) as [P0|P0]; [|auto]. pose proof (Rmult_lt_0_compat _ _ H P0). lra. }
  assert (EJ : mapM pim_must_equal_vec (tmix (1 - t) t l m) = Ok (map2 (mix (1 - t) t) Js1 Js2)) by (apply mapM_Forall2, pmev_tmix; now apply mapM_Forall2).
  rewrite E in EJ. apply CylCustom.Ok_eq in EJ. subst Js.
  destruct (Rlt_le_dec 0 (id_gamma P)) as [G|G].
  - destruct (B1 G) as (g1 & G1 & ->). destruct (B2 G) as (g2 & G2 & ->). destruct (B G) as (g & G3 & ->). eexists _, _, _. split; [reflexivity|]. split; [reflexivity|]. split; [reflexivity|].
    destruct (reg_mix log_det inv Js1 Js2 (map (fun b => ip_J (bd_params b)) bodies) t HLD) as (w1 & w2 & w & W1 & W2 & W3 & W4 & W5).
    { destruct bodies as [|b bodies]; [destruct HD as (_ & H & _); cbn in H; lia|]. intros ->. apply mapM_length in E1. cbn in E1, L1. lia. }
    { apply mapM_length in E1. rewrite map_length. lia. }
    { apply mapM_length in E2. rewrite map_length. lia. }
    { intros J HJ0. apply in_map_iff in HJ0 as (b & <- & Hb). auto. }
    { apply (feasible_SPD ut P bodies mr coms l); auto. }
    { apply (feasible_SPD ut P bodies mr coms m); auto. }
    { exact Ht. }
    rewrite G1 in W1. rewrite G2 in W2. rewrite G3 in W3. apply CylCustom.Ok_eq in W1, W2, W3. subst w1 w2 w.
    pose proof (Rmult_le_compat_l (id_gamma P) _ _ Hg W4) as W6. rewrite F2. split; [nra|]. intros Ht' _ HE.
    assert (Js1 = Js2) as <-; [|now apply (mapM_pmev_inj l m Js1)]. apply W5; [exact Ht'|]. apply (Rmult_le_reg_l (id_gamma P)); [exact G|]. nra.
  - rewrite (A1 G), (A2 G), (A G). eexists _, _, _. split; [reflexivity|]. split; [reflexivity|]. split; [reflexivity|]. rewrite F2. split; [nra|].
    intros Ht' [G'|Det] HE; [lra|]. apply HDt; auto. nra.
Qed.
(** ** at most one solution *)
Lemma id_unique ut log_det inv r P bodies mr coms l m : log_det_spec 4 log_det -> 0 <= id_gamma P -> 0 <= id_eps P -> data_ok r (10 * length bodies) (id_As P) (id_bs P) -> weight_ok r (id_W0 P) ->
  (0 < id_gamma P -> forall b, In b bodies -> nominal_ok inv (ip_J (bd_params b))) -> Forall (body_ok mr) bodies -> (forall c, coms = Some c -> length c = length bodies /\ shapes_ok c) ->
  0 < id_gamma P \/ determining (10 * length bodies) (id_As P) ->
  optimal (id_cost log_det inv P bodies) (id_feasible ut P bodies mr coms) l -> optimal (id_cost log_det inv P bodies) (id_feasible ut P bodies mr coms) m -> l = m.
Proof.
  intros HLD Hg He HD HW HN HB HC HU (Fl & Ol) (Fm & Om).
  destruct (id_cost_mix ut log_det inv r P bodies mr coms l m (/ 2) HLD Hg HD HW HN ltac:(lra) Fl Fm) as (c1 & c2 & c & E1 & E2 & E & H1 & H2).
  destruct (Ol _ _ Fm E2) as (d1 & D1 & X1). destruct (Om _ _ Fl E1) as (d2 & D2 & X2). rewrite E1 in D1. rewrite E2 in D2. apply CylCustom.Ok_eq in D1, D2. subst d1 d2.
  assert (FM : id_feasible ut P bodies mr coms (tmix (1 - / 2) (/ 2) l m)) by (apply feasible_convex; auto; lra).
  destruct (Ol _ _ FM E) as (d & D & X). rewrite E1 in D. apply CylCustom.Ok_eq in D. subst d. apply H2; auto; lra.
Qed.
Lemma id_solver_independent ut log_det inv r As bs Sigma gamma eps P bodies mr coms solver solver' : log_det_spec 4 log_det -> id_init inv As bs Sigma gamma eps = Ok P -> cov_ok r inv Sigma ->
  data_ok r (10 * length bodies) As bs -> (0 < gamma -> forall b, In b bodies -> nominal_ok inv (ip_J (bd_params b))) -> Forall (body_ok mr) bodies ->
  (forall c, coms = Some c -> length c = length bodies /\ shapes_ok c) -> 0 < gamma \/ determining (10 * length bodies) As ->
  solved solver (id_cost log_det inv P bodies) (id_feasible ut P bodies mr coms) -> solved solver' (id_cost log_det inv P bodies) (id_feasible ut P bodies mr coms) ->
  id_solve ut log_det inv solver P bodies mr coms = id_solve ut log_det inv solver' P bodies mr coms.
Proof.
  intros HLD HI HCov HD HN HB HC HU (x & S1 & O1) (y & S2 & O2). pose proof (id_init_weight _ _ _ _ _ _ _ _ HI HCov) as HW. apply id_init_inv in HI as (_ & Hg & He & EA & Eb & Eg & Ee & _). subst As bs gamma eps.
  assert (HC' : match coms with Some c => length c = length bodies | None => True end) by (destruct coms; [now apply HC|exact I]).
  rewrite !(id_solve_run ut log_det inv _ P bodies mr coms r) by auto. rewrite S1, S2. now rewrite (id_unique ut log_det inv r P bodies mr coms x y).
Qed.
(** ** point masses at given points *)
Lemma realizable_points_mix (K : vec -> Prop) a b J1 J2 : 0 <= a -> 0 <= b -> realizable_J K J1 -> realizable_J K J2 -> realizable_J K (mix a b J1 J2).
Proof. intros. now apply realizable_mix. Qed.
Lemma di_feasible_mix points com a b x y : (forall p, In p points -> length p = 3%nat) -> (forall s, com = Some s -> exists K, shape_is s K) -> 0 <= a -> 0 <= b ->
  di_feasible points com x -> di_feasible points com y -> di_feasible points com (vmix a b x y).
Proof.
  intros HP HC Ha Hb (Lx & cx & Ex & Hx) (Ly & cy & Ey & Hy). assert (L : length (vmix a b x y) = 10%nat) by (rewrite vmix_length; congruence). split; [exact L|].
  destruct (di_constraints_iff points com x HP Lx) as (J1 & c1 & EJ1 & Ec1 & I1). destruct (di_constraints_iff points com y HP Ly) as (J2 & c2 & EJ2 & Ec2 & I2).
  destruct (di_constraints_iff points com (vmix a b x y) HP L) as (J & c & EJ & Ec & I). rewrite Ex in Ec1. rewrite Ey in Ec2. apply CylCustom.Ok_eq in Ec1, Ec2. subst c1 c2.
  pose proof (pmev_mix a b x y J1 J2 EJ1 EJ2) as EM. rewrite EJ in EM. apply CylCustom.Ok_eq in EM. subst J. exists c. split; [exact Ec|]. apply I.
  apply I1 in Hx as (R1 & C1). apply I2 in Hy as (R2 & C2). split; [now apply realizable_mix|]. destruct com as [s|]; [|exact Logic.I]. destruct (HC s eq_refl) as (K & HK).
  destruct (pmev_ok x Lx) as (J1' & Q1 & M1 & _). rewrite EJ1 in Q1. apply CylCustom.Ok_eq in Q1. subst J1'. destruct (pmev_ok y Ly) as (J2' & Q2 & M2 & _). rewrite EJ2 in Q2. apply CylCustom.Ok_eq in Q2. subst J2'.
  now apply (com_mix s K).
Qed.
Lemma di_unique r P points com x y : data_ok r 10 (id_As P) (id_bs P) -> weight_ok r (id_W0 P) -> (forall p, In p points -> length p = 3%nat) -> (forall s, com = Some s -> exists K, shape_is s K) ->
  determining 10 (id_As P) -> optimal (di_cost P) (di_feasible points com) x -> optimal (di_cost P) (di_feasible points com) y -> x = y.
Proof.
  intros HD HW HP HC Det (Fx & Ox) (Fy & Oy). pose proof Fx as (Lx & _). pose proof Fy as (Ly & _).
  assert (FM : di_feasible points com (vmix (1 - / 2) (/ 2) x y)) by (apply di_feasible_mix; auto; lra). pose proof FM as (LM & _).
  destruct (di_cost_ok P x r HD HW Lx) as (v1 & E1 & V1 & _). destruct (di_cost_ok P y r HD HW Ly) as (v2 & E2 & V2 & _). destruct (di_cost_ok P _ r HD HW LM) as (v & E & V & _).
  destruct (fit_mix r _ (id_W0 P) _ _ (/ 2) x y HD HW Lx Ly) as (e & F0 & F1 & F2). rewrite <- V1, <- V2, <- V in F2.
  pose proof (no_pos _ _ _ _ HD) as Hk. set (k := 1 / 2 / INR (length (id_As P))) in *. clearbody k.
  destruct (Ox _ _ Fy E2) as (d1 & D1 & X1). destruct (Oy _ _ Fx E1) as (d2 & D2 & X2). rewrite E1 in D1. rewrite E2 in D2. apply CylCustom.Ok_eq in D1, D2. subst d1 d2.
  destruct (Ox _ _ FM E) as (d & D & X). rewrite E1 in D. apply CylCustom.Ok_eq in D. subst d. apply (determined _ (id_As P) r _ _ Det Lx Ly). apply F1. rewrite F2 in X.
  apply Rmult_le_reg_l in X1, X2, X; auto. lra.
Qed.
Lemma di_solver_independent inv r As bs Sigma gamma eps P points com solver solver' : id_init inv As bs Sigma gamma eps = Ok P -> cov_ok r inv Sigma -> data_ok r 10 As bs ->
  (forall p, In p points -> length p = 3%nat) -> (forall s, com = Some s -> exists K, shape_is s K) -> determining 10 As ->
  solved solver (di_cost P) (di_feasible points com) -> solved solver' (di_cost P) (di_feasible points com) ->
  di_solve solver P points com = di_solve solver' P points com.
Proof.
  intros HI HCov HD HP HC Det (x & S1 & O1) (y & S2 & O2). pose proof (id_init_weight _ _ _ _ _ _ _ _ HI HCov) as HW. apply id_init_inv in HI as (_ & Hg & He & EA & Eb & Eg & Ee & _). subst As bs gamma eps.
  rewrite !(di_solve_run _ P points com r) by auto. rewrite S1, S2. now rewrite (di_unique r P points com x y).
Qed.
(** ** statements about the problems as constructed *)
Lemma bodies_ok_Forall mr bodies : bodies_ok mr bodies -> Forall (body_ok mr) bodies.
Proof. intro H. apply Forall_forall. intros b Hb E. auto. Qed.
Lemma id_convex ut inv As bs Sigma gamma eps P bodies mr coms a b l m : id_init inv As bs Sigma gamma eps = Ok P -> bodies_ok mr bodies -> coms_ok coms bodies -> 0 <= a -> 0 <= b -> a + b = 1 ->
  id_feasible ut P bodies mr coms l -> id_feasible ut P bodies mr coms m -> id_feasible ut P bodies mr coms (tmix a b l m).
Proof. intros HI HB HC. apply id_init_inv in HI as (_ & Hg & He & EA & Eb & Eg & Ee & _). apply feasible_convex; auto using bodies_ok_Forall. now rewrite Ee. Qed.
Lemma id_cost_convex ut log_det inv r As bs Sigma gamma eps P bodies mr coms t l m : log_det_spec 4 log_det -> id_init inv As bs Sigma gamma eps = Ok P -> cov_ok r inv Sigma -> data_ok r (10 * length bodies) As bs -> nominals_ok gamma inv bodies -> 0 <= t <= 1 ->
  id_feasible ut P bodies mr coms l -> id_feasible ut P bodies mr coms m ->
  exists c1 c2 c, id_cost log_det inv P bodies l = Ok c1 /\ id_cost log_det inv P bodies m = Ok c2 /\ id_cost log_det inv P bodies (tmix (1 - t) t l m) = Ok c /\
    c <= (1 - t) * c1 + t * c2 /\ (0 < t < 1 -> 0 < gamma \/ determining (10 * length bodies) As -> l <> m -> c < (1 - t) * c1 + t * c2).
Proof.
  intros HLD HI HCov HD HN Ht Hl Hm. pose proof (id_init_weight _ _ _ _ _ _ _ _ HI HCov) as HW. apply id_init_inv in HI as (_ & Hg & He & EA & Eb & Eg & Ee & _).
  destruct (id_cost_mix ut log_det inv r P bodies mr coms l m t HLD) as (c1 & c2 & c & E1 & E2 & E & H1 & H2); try (rewrite ?EA, ?Eb, ?Eg; assumption); auto.
  exists c1, c2, c. split; [exact E1|]. split; [exact E2|]. split; [exact E|]. split; [exact H1|]. intros Ht' HU N. apply Rnot_le_lt. intro H. apply N. apply H2; auto. now rewrite EA, Eg.
Qed.
Lemma id_at_most_one ut log_det inv r As bs Sigma gamma eps P bodies mr coms l m : log_det_spec 4 log_det -> id_init inv As bs Sigma gamma eps = Ok P -> cov_ok r inv Sigma -> data_ok r (10 * length bodies) As bs -> nominals_ok gamma inv bodies -> bodies_ok mr bodies -> coms_ok coms bodies ->
  0 < gamma \/ determining (10 * length bodies) As ->
  optimal (id_cost log_det inv P bodies) (id_feasible ut P bodies mr coms) l -> optimal (id_cost log_det inv P bodies) (id_feasible ut P bodies mr coms) m -> l = m.
Proof.
  intros HLD HI HCov HD HN HB HC HU. pose proof (id_init_weight _ _ _ _ _ _ _ _ HI HCov) as HW. apply id_init_inv in HI as (_ & Hg & He & EA & Eb & Eg & Ee & _).
  apply (id_unique ut log_det inv r P bodies mr coms l m); rewrite ?EA, ?Eb, ?Eg, ?Ee; auto using bodies_ok_Forall.
Qed.
Lemma id_any_solver ut log_det inv r As bs Sigma gamma eps P bodies mr coms solver solver' : log_det_spec 4 log_det -> id_init inv As bs Sigma gamma eps = Ok P -> cov_ok r inv Sigma -> data_ok r (10 * length bodies) As bs -> nominals_ok gamma inv bodies -> bodies_ok mr bodies -> coms_ok coms bodies ->
  0 < gamma \/ determining (10 * length bodies) As ->
  solved solver (id_cost log_det inv P bodies) (id_feasible ut P bodies mr coms) -> solved solver' (id_cost log_det inv P bodies) (id_feasible ut P bodies mr coms) ->
  id_solve ut log_det inv solver P bodies mr coms = id_solve ut log_det inv solver' P bodies mr coms.
Proof. intros. eapply id_solver_independent; eauto using bodies_ok_Forall. Qed.
Lemma di_at_most_one inv r As bs Sigma gamma eps P points com x y : id_init inv As bs Sigma gamma eps = Ok P -> cov_ok r inv Sigma -> data_ok r 10 As bs -> (forall p, In p points -> length p = 3%nat) -> (forall s, com = Some s -> exists K, shape_is s K) ->
  determining 10 As -> optimal (di_cost P) (di_feasible points com) x -> optimal (di_cost P) (di_feasible points com) y -> x = y.
Proof.
  intros HI HCov HD. pose proof (id_init_weight _ _ _ _ _ _ _ _ HI HCov) as HW. apply id_init_inv in HI as (_ & Hg & He & EA & Eb & Eg & Ee & _). rewrite <- EA, <- Eb in *. now apply di_unique with r.
Qed.
(** without the regularizer and with data that do not determine the parameters, there are several solutions *)
Definition th1 : vec := [1; 0; 0; 0; 2; 0; 0; 2; 0; 2].
Definition th2 : vec := [2; 0; 0; 0; 4; 0; 0; 4; 0; 4].
Lemma th_vec1 : pim_must_equal_vec th1 = Ok (diag [1; 1; 1; 1]).
Proof. cbn. f_equal. list_eq; field. Qed.
Lemma th_vec2 : pim_must_equal_vec th2 = Ok (diag [2; 2; 2; 2]).
Proof. cbn. f_equal. list_eq; field. Qed.
Lemma several_solutions ut log_det inv (b : Body) : exists P l m, id_init inv [zeros2 1 10] [[0]] None 0 0 = Ok P /\ data_ok 1 10 [zeros2 1 10] [[0]] /\
  optimal (id_cost log_det inv P [b]) (id_feasible ut P [b] false None) l /\ optimal (id_cost log_det inv P [b]) (id_feasible ut P [b] false None) m /\ l <> m.
Proof.
  assert (exists P, id_init inv [zeros2 1 10] [[0]] None 0 0 = Ok P) as (P & EP).
  { unfold id_init. cbn [length Nat.eqb assert_ bind]. assert (Rleb 0 0 = true) as -> by (apply Rleb_iff; lra). cbn. eauto. }
  assert (HD : data_ok 1 10 [zeros2 1 10] [[0]]).
  { split; [lia|]. split; [lia|]. split; [discriminate|]. split; [reflexivity|]. split; [intros A [<-|[]]; apply is_mat_zeros2|intros x [<-|[]]; reflexivity]. }
  pose proof (id_init_inv _ _ _ _ _ _ _ EP) as (_ & Hg & He & EA & Eb & Eg & Ee & EW). exists P, [th1], [th2]. split; [exact EP|]. split; [exact HD|].
  assert (HC : forall l, length l = 1%nat -> Forall (fun t => length t = 10%nat) l -> id_cost log_det inv P [b] l = Ok 0).
  { intros l Ll Hl. destruct (id_cost_ok log_det inv P [b] l 1) as (v & Js & Ev & _ & _ & _ & C & _); auto; try (rewrite ?EA, ?Eb, ?EW; auto; fail); [rewrite EW; exact I|rewrite Eg; lra|].
    rewrite C by lra. f_equal. rewrite Ev, EA, Eb, EW. destruct l as [|t [|]]; try discriminate. apply Forall_cons_iff in Hl as (Ht & _). cbn [concat]. rewrite app_nil_r. destruct_vecs. cbn [fit_error]. unfold sum_squares. cbn. rewrite !Rmult_0_l, !Rplus_0_r, Rminus_0_r. unfold norm. cbn. rewrite ?Rmult_0_l, ?Rplus_0_r, sqrt_0. lra. }
  assert (HF : forall k J, length k = 10%nat -> pim_must_equal_vec k = Ok J -> PSD 4 J -> id_feasible ut P [b] false None [k]).
  { intros k J Lk EJ PJ. destruct (feasible_inv ut P [b] false None [k]) as (Js & F1 & _ & I1); auto; [rewrite Ee; lra|constructor; [intro; discriminate|constructor]|]. apply I1.
    split; [intro; lra|]. split; [|split; [discriminate|discriminate]]. inversion F1 as [|? J' ? ? E1 F2]; subst. inversion F2; subst. rewrite EJ in E1. injection E1 as <-. constructor; [|constructor].
    rewrite Ee. replace (msub J (mscale 0 (eye 4))) with J; [exact PJ|]. destruct PJ as (MJ & _). clear - MJ. destruct_vecs. cbn. list_eq; ring. }
  assert (HO : forall k, length k = 10%nat -> id_feasible ut P [b] false None [k] -> optimal (id_cost log_det inv P [b]) (id_feasible ut P [b] false None) [k]).
  { intros k Lk F. split; [exact F|]. intros y c (Ly & Hy & _) Ec. exists 0. rewrite HC in * by (auto; constructor; auto). split; [reflexivity|]. injection Ec as <-. lra. }
  split; [apply HO; [reflexivity|]; eapply HF; [reflexivity|apply th_vec1|]|split; [apply HO; [reflexivity|]; eapply HF; [reflexivity|apply th_vec2|]|intro E; injection E; lra]].
  - split; [repeat constructor|]. split; [intros i j Hi Hj; destruct i as [|[|[|[|]]]]; try lia; destruct j as [|[|[|[|]]]]; try lia; reflexivity|]. intros z Lz. destruct_vecs. cbn. nra.
  - split; [repeat constructor|]. split; [intros i j Hi Hj; destruct i as [|[|[|[|]]]]; try lia; destruct j as [|[|[|[|]]]]; try lia; reflexivity|]. intros z Lz. destruct_vecs. cbn. nra.
Qed.
(** the sum of admissible parameters is admissible for the same body *)
Lemma params_sum ut b Ks d p1 p2 p : Forall2 shape_is (bd_shapes b) Ks -> (forall s, In s (bd_shapes b) -> shape_proper s) -> (0 < d)%nat -> ip_ok p1 -> ip_ok p2 -> 0 < ip_mass p1 + ip_mass p2 -> ip_add p1 p2 = Ok p ->
  accepts (rb_moment_sdp_constraints ut b (PVmat (ip_J p1)) 0 d) -> accepts (rb_moment_sdp_constraints ut b (PVmat (ip_J p2)) 0 d) -> accepts (rb_moment_sdp_constraints ut b (PVmat (ip_J p)) 0 d).
Proof.
  intros HK HP Hd O1 O2 Hm E A1 A2. destruct (InertialT.ip_add_J p1 p2 O1 O2 Hm) as (q & Eq & _ & _ & EJ). rewrite E in Eq. injection Eq as <-.
  destruct (ip_J_h p1 O1) as (_ & _ & M1). destruct (ip_J_h p2 O2) as (_ & _ & M2).
  assert (EM : ip_J p = mix 1 1 (ip_J p1) (ip_J p2)) by (rewrite EJ; unfold mix; clear - M1 M2; destruct_vecs; generalize (ip_J p1) (ip_J p2) M1 M2; clear; intros A B MA MB; destruct_vecs; cbn; list_eq; ring).
  pose proof (body_conic ut b Ks d HK HP Hd 1 1 (PVmat (ip_J p1)) (PVmat (ip_J p2)) (PVmat (ip_J p)) (ip_J p1) (ip_J p2) 0 0 Rle_0_1 Rle_0_1 (Rle_refl 0) (Rle_refl 0) M1 M2 eq_refl eq_refl EM A1 A2) as X. cbn beta in X. rewrite Rmult_0_r, Rplus_0_r in X. exact X.
Qed.
