(** C98: identification from motions. *)
From Verif Require Import Base.Vec Base.VecFacts Spec.Basic Spec.Objects Spec.Realizable Spec.Shapes Spec.ShapeObjects Spec.PolySpec Spec.Bodies Spec.ExtremalSpec Spec.Geodesic Spec.Identify Spec.Cone Spec.Stable Spec.Motion
  Model.Util Model.Spatial Model.Constraint Model.Inertial Model.Polydd Model.Poly Model.Box Model.Cylinder Model.Ellipsoid Model.Realize Model.RigidBody Model.Identify
  Model.MultiBody Spec.Multi Proofs.Coord Proofs.LinAlg Proofs.MatAlg Proofs.UtilP Proofs.InertialP Proofs.Dynamics Proofs.PimP Proofs.IdentifyP Proofs.Cone Proofs.ConeId Proofs.Stable Proofs.MultiP.

(** ** fewer equations than unknowns *)
Lemma kernel_exists n : forall (rows : list vec), (length rows < n)%nat -> (forall r, In r rows -> length r = n) ->
  exists x, length x = n /\ x <> zeros n /\ forall r, In r rows -> dot r x = 0.
Proof.
  induction n as [|n IH]; intros rows HL HR; [lia|].
  assert (D : (forall r, In r rows -> nth 0 r 0 = 0) \/ exists p l1 l2, rows = l1 ++ p :: l2 /\ nth 0 p 0 <> 0).
  { clear. induction rows as [|r rows IH]; [left; intros ? []|]. destruct (Req_dec (nth 0 r 0) 0) as [E|E].
    - destruct IH as [H|(p & l1 & l2 & -> & H)]; [left; intros x [<-|Hx]; auto|right; exists p, (r :: l1), l2; auto].
    - right. exists r, [], rows. auto. }
  destruct D as [H|(p & l1 & l2 & -> & Hp)].
  - exists (1 :: zeros n). split; [cbn; now rewrite zeros_length|]. split; [cbn; intro E; injection E; lra|]. intros r Hr. specialize (H r Hr). specialize (HR r Hr). destruct r as [|a r]; [discriminate|]. cbn in H. subst a.
    cbn [dot map2]. change (dot (0 :: r) (1 :: zeros n)) with (0 * 1 + dot r (zeros n)). rewrite dot_zeros_r. ring.
  - destruct p as [|p0 p]; [cbn in Hp; lra|]. cbn in Hp. assert (Lp : length p = n) by (specialize (HR (p0 :: p) ltac:(apply in_or_app; right; now left)); cbn in HR; lia).
    set (red := fun r : vec => vsub (tl r) (vscale (nth 0 r 0 / p0) p)).
    destruct (IH (map red (l1 ++ l2))) as (y & Ly & Ny & Hy).
    { rewrite map_length. rewrite app_length in *. cbn in HL. lia. }
    { intros r Hr. apply in_map_iff in Hr as (r' & <- & Hr'). specialize (HR r'). unfold red. rewrite vsub_length; [|rewrite vscale_length]; (destruct r' as [|a r']; [discriminate (HR ltac:(apply in_or_app; apply in_app_or in Hr' as [|]; [now left|right; now right]))|]);
      specialize (HR ltac:(apply in_or_app; apply in_app_or in Hr' as [|]; [now left|right; now right])); cbn in *; lia. }
    exists (- dot p y / p0 :: y). split; [cbn; lia|]. split; [cbn; intro E; injection E; auto|]. intros r Hr.
    assert (C : r = p0 :: p \/ In r (l1 ++ l2)) by (apply in_app_or in Hr as [|[|]]; [right; apply in_or_app; auto|left; auto|right; apply in_or_app; auto]). destruct C as [->|C].
    + change (dot (p0 :: p) (- dot p y / p0 :: y)) with (p0 * (- dot p y / p0) + dot p y). field. exact Hp.
    + specialize (Hy (red r) (in_map red _ _ C)). specialize (HR r Hr). destruct r as [|a r]; [discriminate|]. unfold red in Hy. cbn [tl nth] in Hy. rewrite dot_vsub_l, dot_vscale_l in Hy by (rewrite ?vscale_length; cbn in HR; lia).
      change (dot (a :: r) (- dot p y / p0 :: y)) with (a * (- dot p y / p0) + dot r y). replace (dot r y) with (a / p0 * dot p y) by lra. field. exact Hp.
Qed.
(** ** the regressor of a motion *)
Lemma regressor_mat V A : sv_ok V -> sv_ok A -> exists Y, regressor V A = Ok Y /\ is_mat 6 10 Y.
Proof. destruct V as [V], A as [A]. unfold sv_ok. cbn [sv_vec]. intros HV HA. destruct_vecs. eexists. split; [reflexivity|]. repeat (constructor; try reflexivity). Qed.
Lemma wrench_vec p V A Y v : ip_ok p -> symmetric 3 (ip_H p) -> sv_ok V -> sv_ok A -> regressor V A = Ok Y -> ip_vec p = Ok v -> exists f, ip_body_wrench p V A = Ok f /\ mat_vec Y v = sv_vec f.
Proof. intros Hp HS HV HA EY Ev. destruct (regressor_wrench p V A Hp HS HV HA) as (Y' & v' & f & EY' & Ev' & Ef & H). rewrite EY in EY'. rewrite Ev in Ev'. apply CylCustom.Ok_eq in EY', Ev'. subst. eauto. Qed.
Lemma regressors_exist VAs : motions_ok VAs -> exists As, regressors VAs As.
Proof.
  intros (_ & H). induction VAs as [|(V, A) VAs IH]; [exists []; constructor|]. destruct IH as (As & HA); [intros; apply H; now right|]. destruct (H V A (or_introl eq_refl)) as (HV & HA'). destruct (regressor_mat V A HV HA') as (Y & E & _).
  exists (Y :: As). now constructor.
Qed.
Lemma wrenches_exist p VAs : ip_ok p -> symmetric 3 (ip_H p) -> motions_ok VAs -> exists bs, wrenches p VAs bs.
Proof.
  intros Hp HS (_ & H). induction VAs as [|(V, A) VAs IH]; [exists []; constructor|]. destruct IH as (bs & Hb); [intros; apply H; now right|]. destruct (H V A (or_introl eq_refl)) as (HV & HA). destruct (regressor_wrench p V A Hp HS HV HA) as (Y & v & f & _ & _ & E & _).
  exists (sv_vec f :: bs). constructor; [exists f; auto|exact Hb].
Qed.
Lemma regressors_mats VAs As A : motions_ok VAs -> regressors VAs As -> In A As -> is_mat 6 10 A.
Proof. intros (_ & HM) HR HA. destruct (Forall2_in_r _ _ _ _ HR HA) as ((V, A') & Hi & E). cbn in E. destruct (HM V A' Hi) as (HV & HA'). destruct (regressor_mat V A' HV HA') as (Y & EY & MY). rewrite E in EY. apply CylCustom.Ok_eq in EY. now subst. Qed.
Lemma motion_data_ok p VAs As bs : ip_ok p -> symmetric 3 (ip_H p) -> motions_ok VAs -> regressors VAs As -> wrenches p VAs bs -> data_ok 6 10 As bs /\ forall v, ip_vec p = Ok v -> explains As bs v.
Proof.
  intros Hp HS HM HR HW. split.
  - split; [lia|]. split; [lia|]. split; [intros ->; destruct HM as (N & _); inversion HR; subst; now apply N|]. split; [rewrite <- (Forall2_len _ _ _ HR); apply (Forall2_len _ _ _ HW)|]. split; [intros A HA; eapply regressors_mats; eauto|].
    intros b Hb. destruct (Forall2_in_r _ _ _ _ HW Hb) as ((V, A) & Hi & f & Ef & <-). cbn in Ef. destruct HM as (_ & HM). destruct (HM V A Hi) as (HV & HA). destruct (regressor_wrench p V A Hp HS HV HA) as (Y & v & f' & EY & _ & Ef' & E). rewrite Ef in Ef'. apply CylCustom.Ok_eq in Ef'. subst f'.
    rewrite <- E, mat_vec_length. destruct (regressor_mat V A HV HA) as (Y' & EY' & MY). rewrite EY in EY'. apply CylCustom.Ok_eq in EY'. subst. apply MY.
  - intros v Ev. destruct HM as (_ & HM). clear -Hp HS HM HR HW Ev. revert bs HW. induction HR as [|(V, A) Y VAs As EY HR IH]; intros bs HW; inversion HW as [|? b ? bs0 (f & Ef & Eb) HW0]; subst; constructor; [|apply IH; auto; intros; apply HM; now right].
    destruct (HM V A (or_introl eq_refl)) as (HV & HA). cbn in *. destruct (wrench_vec p V A Y v Hp HS HV HA EY Ev) as (f' & Ef' & E). rewrite Ef in Ef'. apply CylCustom.Ok_eq in Ef'. now subst.
Qed.
(** ** motions that tell parameters apart *)
Lemma term_lower a u w s : u * u + w * w <= s -> - (Rabs a * s) <= a * (u * w).
Proof. intros H. assert (0 <= s) by nra. assert (- s <= u * w <= s) by nra. unfold Rabs; destruct (Rcase_abs a); nra. Qed.
Lemma form_lower M : is_mat 4 4 M -> exists C, 0 < C /\ forall z, length z = 4%nat -> - (C * dot z z) <= quad M z.
Proof.
  intro HM. exists (1 + lsum (map (fun r => lsum (map (fun a => 2 * Rabs a) r)) M)). split.
  { assert (forall l : vec, 0 <= lsum (map (fun a => 2 * Rabs a) l)) by (induction l as [|a l IH]; cbn; [lra|]; pose proof (Rabs_pos a); change (fold_right Rplus 0 ?l) with (lsum l) in *; lra).
    assert (0 <= lsum (map (fun r => lsum (map (fun a => 2 * Rabs a) r)) M)); [|lra]. clear HM. induction M as [|r M IH]; cbn; [lra|]. specialize (H r). unfold lsum in *. lra. }
  intros z Lz. destruct_vecs. unfold quad. cbn. 
  match goal with |- context [?x1 * ?x1 + (?x2 * ?x2 + (?x3 * ?x3 + (?x4 * ?x4 + 0)))] => set (n2 := x1 * x1 + (x2 * x2 + (x3 * x3 + (x4 * x4 + 0)))) in *;
    assert (HT : forall a u w, In u [x1; x2; x3; x4] -> In w [x1; x2; x3; x4] -> - (2 * Rabs a * n2) <= a * (u * w));
    [intros a u w Hu Hw; replace (2 * Rabs a * n2) with (Rabs a * (2 * n2)) by ring; apply term_lower; assert (forall u, In u [x1; x2; x3; x4] -> u * u <= n2) as HH by (intros u' Hu'; unfold n2; cbn in Hu'; decompose [or] Hu'; subst; nra || contradiction); pose proof (HH u Hu); pose proof (HH w Hw); lra|];
    assert (0 <= n2) by (unfold n2; nra)
  end. clearbody n2.
  repeat match goal with |- context [?z * (?a * ?y + _)] => idtac end.
  match goal with |- _ <= ?z1 * (?a11 * ?z1 + (?a12 * ?z2 + (?a13 * ?z3 + (?a14 * ?z4 + 0)))) + (?z2 * (?a21 * ?z1 + (?a22 * ?z2 + (?a23 * ?z3 + (?a24 * ?z4 + 0)))) + (?z3 * (?a31 * ?z1 + (?a32 * ?z2 + (?a33 * ?z3 + (?a34 * ?z4 + 0)))) + (?z4 * (?a41 * ?z1 + (?a42 * ?z2 + (?a43 * ?z3 + (?a44 * ?z4 + 0)))) + 0))) =>
   pose proof (HT a11 z1 z1); pose proof (HT a12 z1 z2); pose proof (HT a13 z1 z3); pose proof (HT a14 z1 z4);
   pose proof (HT a21 z2 z1); pose proof (HT a22 z2 z2); pose proof (HT a23 z2 z3); pose proof (HT a24 z2 z4);
   pose proof (HT a31 z3 z1); pose proof (HT a32 z3 z2); pose proof (HT a33 z3 z3); pose proof (HT a34 z3 z4);
   pose proof (HT a41 z4 z1); pose proof (HT a42 z4 z2); pose proof (HT a43 z4 z3); pose proof (HT a44 z4 z4) end.
  cbn [In] in *. clear HT. repeat match goal with H : _ -> _ -> _ |- _ => specialize (H ltac:(auto) ltac:(auto)) end. lra.
Qed.
Lemma base_J : pim_must_equal_vec [1; 0; 0; 0; 2; 0; 0; 2; 0; 2] = Ok (eye 4).
Proof. cbn. repeat f_equal; lra. Qed.
Lemma param_of t J : pim_must_equal_vec t = Ok J -> length t = 10%nat -> SPD 4 J -> exists p, ip_from_vec t = Ok p /\ ip_ok p /\ symmetric 3 (ip_H p) /\ ip_vec p = Ok t /\ ip_J p = J.
Proof.
  intros E L (_ & _ & HP). assert (M : 0 < nth 0 t 0). { specialize (HP [0; 0; 0; 1] eq_refl). destruct_vecs. cbn in E. apply CylCustom.Ok_eq in E. subst J. unfold quad in HP. cbn in HP. cbn. assert (Z : [0; 0; 0; 1] <> zeros 4) by (cbn; intro Z; injection Z; lra). specialize (HP Z). lra. }
  destruct (from_vec_vec t L M) as (p & Ep & Op & _ & Sp & Vp). exists p. repeat (split; [assumption|]). destruct (from_vec_ok_inv t p Ep) as (_ & _ & _ & _ & _ & _ & EJ). rewrite E in EJ. now apply CylCustom.Ok_eq in EJ.
Qed.
Lemma SPD_shift J : is_mat 4 4 J -> symmetric 4 J -> exists e, 0 < e /\ SPD 4 (mix 1 e (eye 4) J).
Proof.
  intros MJ SJ. destruct (form_lower J MJ) as (C & HC & H). exists (/ (2 * C)). assert (He : 0 < / (2 * C)) by (apply Rinv_0_lt_compat; lra). split; [exact He|].
  assert (ME : is_mat 4 4 (mix 1 (/ (2 * C)) (eye 4) J)) by (unfold mix; apply is_mat_madd; apply is_mat_mscale; auto using is_mat_eye). split; [exact ME|]. split.
  - apply mix_sym; auto using is_mat_eye. intros i j Hi Hj. rewrite !entry_eye by auto. now rewrite Nat.eqb_sym.
  - intros z Lz Nz. rewrite (quad_mix 4) by auto using is_mat_eye. specialize (H z Lz). unfold quad at 1. rewrite mat_vec_eye by auto.
    assert (0 < dot z z). { destruct (Rle_lt_or_eq_dec _ _ (dot_self_nonneg z)) as [|E]; auto. symmetry in E. apply dot_self_zero in E. rewrite Lz in E. contradiction. }
    pose proof (Rmult_le_compat_l (/ (2 * C)) _ _ ltac:(lra) H) as X. replace (/ (2 * C) * - (C * dot z z)) with (- (dot z z / 2)) in X by (field; lra). lra.
Qed.
Lemma tells_apart_iff VAs As : motions_ok VAs -> regressors VAs As -> tells_apart VAs <-> determining 10 As.
Proof.
  intros HM HR. split.
  - intros HT x Lx Hx j. assert (C : x = zeros 10 \/ x <> zeros 10) by (destruct (list_eq_dec Req_EM_T x (zeros 10)); auto). destruct C as [->|C]; [apply nth_zeros|]. exfalso.
    destruct (pmev_ok x Lx) as (Jx & EJ & MJ & _ & SJ). destruct (SPD_shift Jx MJ SJ) as (e & He & HS). set (t0 := [1; 0; 0; 0; 2; 0; 0; 2; 0; 2]) in *.
    pose proof (pmev_mix 1 e t0 x (eye 4) Jx base_J EJ) as E1. assert (L1 : length (vmix 1 e t0 x) = 10%nat) by (rewrite vmix_length; auto).
    destruct (param_of _ _ E1 L1 HS) as (q & Eq & Oq & Sq & Vq & Jq). destruct (param_of t0 (eye 4) base_J eq_refl) as (p & Ep & Op & Sp & Vp & Jp); [split; [apply is_mat_eye|]; split; [intros a b Ha Hb; rewrite !entry_eye by auto; now rewrite Nat.eqb_sym|]; apply eye_weight|].
    assert (p = q) as <-.
    { apply HT; auto; [rewrite Jp; split; [apply is_mat_eye|]; split; [intros a b Ha Hb; rewrite !entry_eye by auto; now rewrite Nat.eqb_sym|]; apply eye_weight|now rewrite Jq|].
      intros V A Hi. destruct HM as (_ & HM). destruct (HM V A Hi) as (HV & HA). destruct (Forall2_in_l _ _ _ _ HR Hi) as (Y & HY & EY). cbn in EY.
      destruct (wrench_vec p V A Y t0 Op Sp HV HA EY Vp) as ([f] & Ef & F). destruct (wrench_vec q V A Y _ Oq Sq HV HA EY Vq) as ([g] & Eg & G). rewrite Ef, Eg. do 2 f_equal. cbn [sv_vec] in F, G. rewrite <- F, <- G.
      destruct (regressor_mat V A HV HA) as (Y' & EY' & MY). rewrite EY in EY'. apply CylCustom.Ok_eq in EY'. subst Y'. unfold vmix. rewrite mat_vec_vadd, !mat_vec_vscale by (rewrite !vscale_length; auto).
      apply (vec_ext 6); [rewrite mat_vec_length; apply MY|rewrite vadd_length; rewrite !vscale_length, ?mat_vec_length; auto; apply MY|]. intros i Hi'. rewrite nth_vadd, !nth_vscale by (rewrite !vscale_length, !mat_vec_length; reflexivity). rewrite (Hx Y HY i). ring. }
    apply C. rewrite Vp in Vq. apply CylCustom.Ok_eq in Vq. apply (vec_ext 10); [auto|apply zeros_length|]. intros i Hi. rewrite nth_zeros. assert (E : nth i t0 0 = nth i (vmix 1 e t0 x) 0) by now rewrite <- Vq. rewrite vmix_nth in E by auto. apply (Rmult_eq_reg_l e); lra.
  - intros HD p q Op Oq (_ & SJp & PJp) (_ & SJq & PJq) HW.
    assert (X : forall p, ip_ok p -> symmetric 4 (ip_J p) -> pos_def 4 (ip_J p) -> symmetric 3 (ip_H p) /\ 0 < ip_mass p).
    { clear. intros p Op SJ PJ. destruct p as [m c H]. destruct Op as [L1 L2]. cbn [ip_com ip_H ip_mass] in *. specialize (PJ [0; 0; 0; 1] eq_refl). destruct_vecs. unfold quad in PJ. cbn in *. split.
      - intros i j Hi Hj. specialize (SJ i j ltac:(lia) ltac:(lia)). destruct i as [|[|[|]]]; try lia; destruct j as [|[|[|]]]; try lia; cbn in *; lra.
      - specialize (PJ ltac:(unfold zeros; cbn; intro Z; injection Z; lra)). lra. }
    destruct (X p Op SJp PJp) as (Sp & Mp). destruct (X q Oq SJq PJq) as (Sq & Mq).
    destruct (vec_from_vec p Op Mp Sp) as (v & Ev & Lv & Fv). destruct (vec_from_vec q Oq Mq Sq) as (w & Ew & Lw & Fw). 
    assert (v = w) as <-; [|congruence]. apply (determined 10 As 6 v w HD Lv Lw). intros Y HY. destruct (Forall2_in_r _ _ _ _ HR HY) as ((V, A) & Hi & EY). cbn in EY. destruct HM as (_ & HM). destruct (HM V A Hi) as (HV & HA).
    destruct (wrench_vec p V A Y v Op Sp HV HA EY Ev) as (f & Ef & F). destruct (wrench_vec q V A Y w Oq Sq HV HA EY Ew) as (g & Eg & G). rewrite mat_vec_vsub by congruence. rewrite F, G. rewrite (HW V A Hi), Eg in Ef. apply CylCustom.Ok_eq in Ef. subst f.
    rewrite vsub_self. f_equal. rewrite <- G, mat_vec_length. destruct (regressor_mat V A HV HA) as (Y' & EY' & MY). rewrite EY in EY'. apply CylCustom.Ok_eq in EY'. subst Y'. apply MY.
Qed.
(** ** motions that do not *)
Lemma kernel_not VAs x : motions_ok VAs -> length x = 10%nat -> x <> zeros 10 -> (forall V A Y, In (V, A) VAs -> regressor V A = Ok Y -> mat_vec Y x = zeros 6) -> ~ tells_apart VAs.
Proof.
  intros HM Lx Nx HK HT. destruct (regressors_exist VAs HM) as (As & HR). apply (tells_apart_iff VAs As HM HR) in HT. apply Nx. apply (vec_ext 10); [auto|apply zeros_length|]. intros j _. rewrite nth_zeros. apply HT; [exact Lx|].
  intros Y HY i. destruct (Forall2_in_r _ _ _ _ HR HY) as ((V, A) & Hi & EY). rewrite (HK V A Y Hi EY). apply nth_zeros.
Qed.
Lemma one_motion V A : sv_ok V -> sv_ok A -> ~ tells_apart [(V, A)].
Proof.
  intros HV HA. destruct (regressor_mat V A HV HA) as (Y & EY & (LY & RY)). destruct (kernel_exists 10 Y) as (x & Lx & Nx & Hx); [rewrite LY; lia|rewrite Forall_forall in RY; exact RY|].
  apply (kernel_not _ x); auto.
  - split; [discriminate|]. intros V' A' [E|[]]. injection E as <- <-. auto.
  - intros V' A' Y' [E|[]] EY'. injection E as <- <-. rewrite EY in EY'. apply CylCustom.Ok_eq in EY'. subst Y'. apply (vec_ext 6); [rewrite mat_vec_length; auto|apply zeros_length|]. intros i Hi. rewrite nth_zeros. rewrite nth_mat_vec by lia. apply Hx. apply nth_In. lia.
Qed.
Definition point_theta (c : vec) : vec := match c with [x; y; z] => [1; x; y; z; y * y + z * z; - (x * y); - (x * z); x * x + z * z; - (y * z); x * x + y * y] | _ => [] end.
Lemma regressor_point V A Y c : sv_ok V -> sv_ok A -> regressor V A = Ok Y -> length c = 3%nat ->
  mat_vec Y (point_theta c) = point_wrench (sv_angular V) (sv_linear V) (sv_angular A) (sv_linear A) (1, c).
Proof. destruct V as [V], A as [A]. unfold sv_ok. cbn [sv_vec]. intros HV HA EY Lc. destruct_vecs. cbn in EY. apply CylCustom.Ok_eq in EY. subst Y. cbn. list_eq; ring. Qed.
Lemma fixed_point VAs c : motions_ok VAs -> length c = 3%nat -> (forall V A, In (V, A) VAs -> unaccelerated c V A) -> ~ tells_apart VAs.
Proof.
  intros HM Lc HU. apply (kernel_not _ (point_theta c)); auto.
  - destruct_vecs. reflexivity.
  - destruct_vecs. cbn. intro Z. injection Z. intros. lra.
  - intros V A Y Hi EY. destruct HM as (_ & HM). destruct (HM V A Hi) as (HV & HA). rewrite (regressor_point V A Y c HV HA EY Lc). unfold point_wrench. cbn [fst snd]. rewrite (HU V A Hi). destruct_vecs. cbn. list_eq; ring.
Qed.
Definition rod_theta (u : vec) : vec := match u with [x; y; z] => [0; 0; 0; 0; x * x; x * y; x * z; y * y; y * z; z * z] | _ => [] end.
Lemma normal_to n : length n = 3%nat -> exists u, length u = 3%nat /\ rod_theta u <> zeros 10 /\ dot u n = 0.
Proof.
  intro Ln. destruct_vecs. 
  match goal with |- context [dot _ [?a; ?b; ?c]] => destruct (Req_dec a 0) as [Ea|Ea]; [exists [1; 0; 0]|exists [- b; a; 0]] end.
  - split; [reflexivity|]. split; [cbn; intro Z; injection Z; intros; lra|]. subst. cbn. ring.
  - split; [reflexivity|]. split; [cbn; intro Z; injection Z; intros; nra|]. cbn. ring.
Qed.
Lemma fixed_axis VAs n : motions_ok VAs -> length n = 3%nat -> (forall V A, In (V, A) VAs -> exists s t, sv_angular V = vscale s n /\ sv_angular A = vscale t n) -> ~ tells_apart VAs.
Proof.
  intros HM Ln HA. destruct (normal_to n Ln) as (u & Lu & Nu & Du). apply (kernel_not _ (rod_theta u)); auto; [destruct_vecs; reflexivity|].
  intros [V] [A] Y Hi EY. destruct HM as (_ & HM). destruct (HM _ _ Hi) as (HV & HA'). unfold sv_ok in *. cbn [sv_vec] in *. destruct (HA _ _ Hi) as (s & t & E1 & E2). clear HM HA Hi Nu. unfold sv_angular in *. cbn [sv_vec] in *.
  destruct_vecs. cbn in E1, E2. injection E1 as -> -> ->. injection E2 as -> -> ->. cbn in EY. apply CylCustom.Ok_eq in EY. subst Y. cbn in *.
  match type of Du with ?u1 * ?n1 + (?u2 * ?n2 + (?u3 * ?n3 + 0)) = 0 => list_eq; try ring;
    [transitivity ((t * u1 + s * s * (n2 * u3 - n3 * u2)) * (u1 * n1 + (u2 * n2 + (u3 * n3 + 0)))); [ring|rewrite Du; ring]
    |transitivity ((t * u2 + s * s * (n3 * u1 - n1 * u3)) * (u1 * n1 + (u2 * n2 + (u3 * n3 + 0)))); [ring|rewrite Du; ring]
    |transitivity ((t * u3 + s * s * (n1 * u2 - n2 * u1)) * (u1 * n1 + (u2 * n2 + (u3 * n3 + 0)))); [ring|rewrite Du; ring]] end.
Qed.
(** ** motions that do *)
Lemma translation_rows V A Y x : sv_ok V -> sv_ok A -> sv_angular V = zeros 3 -> sv_angular A = zeros 3 -> regressor V A = Ok Y -> length x = 10%nat ->
  mat_vec Y x = cross (firstn 3 (skipn 1 x)) (sv_linear A) ++ vscale (nth 0 x 0) (sv_linear A).
Proof.
  destruct V as [V], A as [A]. unfold sv_ok, sv_angular, sv_linear. cbn [sv_vec]. intros HV HA E1 E2 EY Lx. destruct_vecs. cbn in E1, E2. injection E1 as -> -> ->. injection E2 as -> -> ->. cbn in EY. apply CylCustom.Ok_eq in EY. subst Y. cbn. list_eq; ring.
Qed.
Lemma spin_rows V A Y x : sv_ok V -> sv_ok A -> sv_angular V = zeros 3 -> regressor V A = Ok Y -> length x = 10%nat -> nth 0 x 0 = 0 -> firstn 3 (skipn 1 x) = zeros 3 ->
  mat_vec Y x = mat_vec [[nth 4 x 0; nth 5 x 0; nth 6 x 0]; [nth 5 x 0; nth 7 x 0; nth 8 x 0]; [nth 6 x 0; nth 8 x 0; nth 9 x 0]] (sv_angular A) ++ zeros 3.
Proof.
  destruct V as [V], A as [A]. unfold sv_ok, sv_angular, sv_linear. cbn [sv_vec]. intros HV HA E1 EY Lx E2 E3. destruct_vecs. cbn in E1, E2, E3. injection E1 as -> -> ->. injection E3 as -> -> ->. subst. cbn in EY. apply CylCustom.Ok_eq in EY. subst Y. cbn. list_eq; ring.
Qed.
Lemma par3 h1 h2 h3 a1 a2 a3 b1 b2 b3 : [a2 * b3 - a3 * b2; a3 * b1 - a1 * b3; a1 * b2 - a2 * b1] <> [0; 0; 0] ->
  h2 * a3 - h3 * a2 = 0 -> h3 * a1 - h1 * a3 = 0 -> h1 * a2 - h2 * a1 = 0 -> h2 * b3 - h3 * b2 = 0 -> h3 * b1 - h1 * b3 = 0 -> h1 * b2 - h2 * b1 = 0 -> h1 = 0 /\ h2 = 0 /\ h3 = 0.
Proof.
  intros N P1 P2 P3 Q1 Q2 Q3. set (n1 := a2 * b3 - a3 * b2) in *. set (n2 := a3 * b1 - a1 * b3) in *. set (n3 := a1 * b2 - a2 * b1) in *.
  assert (HN : n1 * n1 + n2 * n2 + n3 * n3 <> 0).
  { intro Z. apply N. assert (n1 = 0 /\ n2 = 0 /\ n3 = 0) as (-> & -> & ->); [|reflexivity]. clearbody n1 n2 n3. clear -Z. repeat split; nra. }
  assert (HD : h1 * n1 + h2 * n2 + h3 * n3 = 0).
  { unfold n1, n2, n3. transitivity (b1 * (h2 * a3 - h3 * a2) + b2 * (h3 * a1 - h1 * a3) + b3 * (h1 * a2 - h2 * a1)); [ring|rewrite P1, P2, P3; ring]. }
  assert (X1 : h2 * n3 - h3 * n2 = 0). { unfold n2, n3. transitivity ((h3 * a1 - h1 * a3) * b3 - (h1 * a2 - h2 * a1) * b2 - ((h3 * b1 - h1 * b3) * a3 - (h1 * b2 - h2 * b1) * a2)); [ring|rewrite P2, P3, Q2, Q3; ring]. }
  assert (X2 : h3 * n1 - h1 * n3 = 0). { unfold n1, n3. transitivity ((h1 * a2 - h2 * a1) * b1 - (h2 * a3 - h3 * a2) * b3 - ((h1 * b2 - h2 * b1) * a1 - (h2 * b3 - h3 * b2) * a3)); [ring|rewrite P1, P3, Q1, Q3; ring]. }
  assert (X3 : h1 * n2 - h2 * n1 = 0). { unfold n1, n2. transitivity ((h2 * a3 - h3 * a2) * b2 - (h3 * a1 - h1 * a3) * b1 - ((h2 * b3 - h3 * b2) * a2 - (h3 * b1 - h1 * b3) * a1)); [ring|rewrite P1, P2, Q1, Q2; ring]. }
  clearbody n1 n2 n3. clear P1 P2 P3 Q1 Q2 Q3 N.
  repeat split; apply (Rmult_eq_reg_r (n1 * n1 + n2 * n2 + n3 * n3)); auto; rewrite Rmult_0_l.
  - transitivity (n1 * (h1 * n1 + h2 * n2 + h3 * n3) + n2 * (h1 * n2 - h2 * n1) - n3 * (h3 * n1 - h1 * n3)); [ring|rewrite HD, X2, X3; ring].
  - transitivity (n2 * (h1 * n1 + h2 * n2 + h3 * n3) - n1 * (h1 * n2 - h2 * n1) + n3 * (h2 * n3 - h3 * n2)); [ring|rewrite HD, X1, X3; ring].
  - transitivity (n3 * (h1 * n1 + h2 * n2 + h3 * n3) + n1 * (h3 * n1 - h1 * n3) - n2 * (h2 * n3 - h3 * n2)); [ring|rewrite HD, X1, X2; ring].
Qed.
Lemma parallel_zero h a b : length h = 3%nat -> length a = 3%nat -> length b = 3%nat -> cross a b <> zeros 3 -> cross h a = zeros 3 -> cross h b = zeros 3 -> h = zeros 3.
Proof.
  intros Lh La Lb. destruct_vecs. intros N H1 H2. cbn in H1, H2. injection H1 as P1 P2 P3. injection H2 as Q1 Q2 Q3. destruct (par3 _ _ _ _ _ _ _ _ _ N P1 P2 P3 Q1 Q2 Q3) as (-> & -> & ->). reflexivity.
Qed.
Lemma cramer3 r1 r2 r3 a1 a2 a3 b1 b2 b3 c1 c2 c3 : a1 * (b2 * c3 - b3 * c2) + a2 * (b3 * c1 - b1 * c3) + a3 * (b1 * c2 - b2 * c1) <> 0 ->
  r1 * a1 + r2 * a2 + r3 * a3 = 0 -> r1 * b1 + r2 * b2 + r3 * b3 = 0 -> r1 * c1 + r2 * c2 + r3 * c3 = 0 -> r1 = 0 /\ r2 = 0 /\ r3 = 0.
Proof.
  intros N P Q S. set (d := a1 * (b2 * c3 - b3 * c2) + a2 * (b3 * c1 - b1 * c3) + a3 * (b1 * c2 - b2 * c1)) in *.
  repeat split; apply (Rmult_eq_reg_r d); auto; rewrite Rmult_0_l; unfold d.
  - transitivity ((r1 * a1 + r2 * a2 + r3 * a3) * (b2 * c3 - b3 * c2) + (r1 * b1 + r2 * b2 + r3 * b3) * (c2 * a3 - c3 * a2) + (r1 * c1 + r2 * c2 + r3 * c3) * (a2 * b3 - a3 * b2)); [ring|rewrite P, Q, S; ring].
  - transitivity ((r1 * a1 + r2 * a2 + r3 * a3) * (b3 * c1 - b1 * c3) + (r1 * b1 + r2 * b2 + r3 * b3) * (c3 * a1 - c1 * a3) + (r1 * c1 + r2 * c2 + r3 * c3) * (a3 * b1 - a1 * b3)); [ring|rewrite P, Q, S; ring].
  - transitivity ((r1 * a1 + r2 * a2 + r3 * a3) * (b1 * c2 - b2 * c1) + (r1 * b1 + r2 * b2 + r3 * b3) * (c1 * a2 - c2 * a1) + (r1 * c1 + r2 * c2 + r3 * c3) * (a1 * b2 - a2 * b1)); [ring|rewrite P, Q, S; ring].
Qed.
Lemma independent_zero I a b c : is_mat 3 3 I -> length a = 3%nat -> length b = 3%nat -> length c = 3%nat -> dot a (cross b c) <> 0 -> mat_vec I a = zeros 3 -> mat_vec I b = zeros 3 -> mat_vec I c = zeros 3 -> I = zeros2 3 3.
Proof.
  intros MI La Lb Lc. destruct_vecs. intros N H1 H2 H3. cbn in N, H1, H2, H3. injection H1 as A1 A2 A3. injection H2 as B1 B2 B3. injection H3 as C1 C2 C3. 
  match type of N with ?a1 * (?b2 * ?c3 - ?b3 * ?c2) + (?a2 * (?b3 * ?c1 - ?b1 * ?c3) + (?a3 * (?b1 * ?c2 - ?b2 * ?c1) + 0)) = 0 -> False => pose proof (fun r1 r2 r3 => cramer3 r1 r2 r3 a1 a2 a3 b1 b2 b3 c1 c2 c3) as K | ?a1 * (?b2 * ?c3 - ?b3 * ?c2) + (?a2 * (?b3 * ?c1 - ?b1 * ?c3) + (?a3 * (?b1 * ?c2 - ?b2 * ?c1) + 0)) <> 0 => pose proof (fun r1 r2 r3 => cramer3 r1 r2 r3 a1 a2 a3 b1 b2 b3 c1 c2 c3) as K end.
  match type of A1 with ?r1 * _ + (?r2 * _ + (?r3 * _ + 0)) = 0 => destruct (K r1 r2 r3) as (-> & -> & ->); [intro Z; apply N; lra|lra..|] end.
  match type of A2 with ?r1 * _ + (?r2 * _ + (?r3 * _ + 0)) = 0 => destruct (K r1 r2 r3) as (-> & -> & ->); [intro Z; apply N; lra|lra..|] end.
  match type of A3 with ?r1 * _ + (?r2 * _ + (?r3 * _ + 0)) = 0 => destruct (K r1 r2 r3) as (-> & -> & ->); [intro Z; apply N; lra|lra..|] end. reflexivity.
Qed.
Lemma ip_vec_parts p v : ip_ok p -> ip_vec p = Ok v -> length v = 10%nat /\ nth 0 v 0 = ip_mass p /\ firstn 3 (skipn 1 v) = vscale (ip_mass p) (ip_com p).
Proof. destruct p as [m c H]. intros [L1 L2] E. cbn [ip_com ip_H ip_mass] in *. destruct_vecs. cbn in E. apply CylCustom.Ok_eq in E. subst v. auto. Qed.
Lemma zero_mass m a b : length a = 3%nat -> length b = 3%nat -> cross a b <> zeros 3 -> vscale m a = zeros 3 -> m = 0.
Proof.
  intros La Lb N E. destruct_vecs. cbn in E. injection E as E1 E2 E3. destruct (Req_dec m 0) as [|Z]; [auto|]. exfalso. apply N. cbn.
  apply Rmult_integral in E1, E2, E3. destruct E1 as [|E1]; [contradiction|]. destruct E2 as [|E2]; [contradiction|]. destruct E3 as [|E3]; [contradiction|]. subst. list_eq; ring.
Qed.
Lemma translations VAs p q V1 A1 V2 A2 : motions_ok VAs -> (forall V A, In (V, A) VAs -> sv_angular V = zeros 3 /\ sv_angular A = zeros 3) ->
  In (V1, A1) VAs -> In (V2, A2) VAs -> cross (sv_linear A1) (sv_linear A2) <> zeros 3 ->
  ip_ok p -> ip_ok q -> symmetric 3 (ip_H p) -> symmetric 3 (ip_H q) -> 0 < ip_mass p ->
  (forall V A, In (V, A) VAs -> ip_body_wrench p V A = ip_body_wrench q V A) <-> ip_mass p = ip_mass q /\ ip_com p = ip_com q.
Proof.
  intros (_ & HM) HT I1 I2 N Op Oq Sp Sq Mp.
  assert (R : forall V A, In (V, A) VAs -> exists f g v w, ip_body_wrench p V A = Ok f /\ ip_body_wrench q V A = Ok g /\ ip_vec p = Ok v /\ ip_vec q = Ok w /\
    sv_vec f = cross (vscale (ip_mass p) (ip_com p)) (sv_linear A) ++ vscale (ip_mass p) (sv_linear A) /\ sv_vec g = cross (vscale (ip_mass q) (ip_com q)) (sv_linear A) ++ vscale (ip_mass q) (sv_linear A)).
  { intros V A Hi. destruct (HM V A Hi) as (HV & HA). destruct (HT V A Hi) as (T1 & T2). destruct (regressor_wrench p V A Op Sp HV HA) as (Y & v & f & EY & Ev & Ef & F). destruct (regressor_wrench q V A Oq Sq HV HA) as (Y' & w & g & EY' & Ew & Eg & G).
    rewrite EY in EY'. apply CylCustom.Ok_eq in EY'. subst Y'. exists f, g, v, w. repeat (split; [assumption|]). destruct (ip_vec_parts p v Op Ev) as (Lv & V0 & Vh). destruct (ip_vec_parts q w Oq Ew) as (Lw & W0 & Wh).
    rewrite <- F, <- G, !(translation_rows V A Y) by auto. now rewrite V0, Vh, W0, Wh. }
  assert (L3 : forall V A, In (V, A) VAs -> length (sv_linear A) = 3%nat) by (intros V A Hi; destruct (HM V A Hi) as (_ & HA); unfold sv_linear; rewrite skipn_length; unfold sv_ok in HA; lia).
  destruct Op as [Lp _], Oq as [Lq _]. split.
  - intro H. 
    assert (K : forall V A, In (V, A) VAs -> cross (vsub (vscale (ip_mass p) (ip_com p)) (vscale (ip_mass q) (ip_com q))) (sv_linear A) = zeros 3 /\ vscale (ip_mass p - ip_mass q) (sv_linear A) = zeros 3).
    { intros V A Hi. destruct (R V A Hi) as (f & g & v & w & Ef & Eg & _ & _ & F & G). rewrite (H V A Hi), Eg in Ef. apply CylCustom.Ok_eq in Ef. subst g. rewrite F in G. pose proof (L3 V A Hi) as L. generalize dependent (sv_linear A). intros a F G L. clear -G L Lp Lq.
      destruct p as [mp cp Hp], q as [mq cq Hq]. cbn [ip_mass ip_com] in *. destruct_vecs. cbn in *. injection G as G1 G2 G3 G4 G5 G6. split; list_eq; lra. }
    destruct (K V1 A1 I1) as (K1 & K2). destruct (K V2 A2 I2) as (K3 & _).
    assert (E : ip_mass p - ip_mass q = 0) by (apply (zero_mass _ (sv_linear A1) (sv_linear A2)); eauto). assert (Em : ip_mass p = ip_mass q) by lra. split; [exact Em|].
    assert (Z : vsub (vscale (ip_mass p) (ip_com p)) (vscale (ip_mass q) (ip_com q)) = zeros 3) by (apply (parallel_zero _ (sv_linear A1) (sv_linear A2)); eauto; len).
    rewrite <- Em in Z. apply (vec_ext 3); auto. intros i Hi. assert (X : nth i (vsub (vscale (ip_mass p) (ip_com p)) (vscale (ip_mass p) (ip_com q))) 0 = 0) by (rewrite Z; apply nth_zeros). rewrite nth_vsub, !nth_vscale in X by len. apply (Rmult_eq_reg_l (ip_mass p)); lra.
  - intros (Em & Ec) V A Hi. destruct (R V A Hi) as ([f] & [g] & v & w & Ef & Eg & _ & _ & F & G). rewrite Ef, Eg. do 2 f_equal. cbn [sv_vec] in F, G. now rewrite F, G, Em, Ec.
Qed.
Lemma rich_motions VAs V1 A1 V2 A2 V3 A3 V4 A4 V5 A5 : motions_ok VAs -> In (V1, A1) VAs -> In (V2, A2) VAs -> In (V3, A3) VAs -> In (V4, A4) VAs -> In (V5, A5) VAs ->
  (forall V, In V [V1; V2; V3; V4; V5; A1; A2] -> sv_angular V = zeros 3) -> cross (sv_linear A1) (sv_linear A2) <> zeros 3 -> dot (sv_angular A3) (cross (sv_angular A4) (sv_angular A5)) <> 0 -> tells_apart VAs.
Proof.
  intros HM I1 I2 I3 I4 I5 HT N D. destruct (regressors_exist VAs HM) as (As & HR). apply (tells_apart_iff VAs As HM HR). intros x Lx Hx.
  assert (R : forall V A, In (V, A) VAs -> exists Y, sv_ok V /\ sv_ok A /\ regressor V A = Ok Y /\ mat_vec Y x = zeros 6).
  { intros V A Hi. destruct HM as (_ & HM). destruct (HM V A Hi) as (HV & HA). destruct (Forall2_in_l _ _ _ _ HR Hi) as (Y & HY & EY). cbn in EY. exists Y. repeat (split; [assumption|]). destruct (regressor_mat V A HV HA) as (Y' & EY' & MY). rewrite EY in EY'. apply CylCustom.Ok_eq in EY'. subst Y'.
    apply (vec_ext 6); [rewrite mat_vec_length; apply MY|apply zeros_length|]. intros i Hi'. rewrite nth_zeros. now apply Hx. }
  assert (L3 : forall A, sv_ok A -> length (sv_linear A) = 3%nat /\ length (sv_angular A) = 3%nat) by (intros A HA; unfold sv_linear, sv_angular; unfold sv_ok in HA; rewrite skipn_length, firstn_length; lia).
  destruct (R _ _ I1) as (Y1 & OV1 & OA1 & E1 & Z1). destruct (R _ _ I2) as (Y2 & OV2 & OA2 & E2 & Z2). destruct (R _ _ I3) as (Y3 & OV3 & OA3 & E3 & Z3). destruct (R _ _ I4) as (Y4 & OV4 & OA4 & E4 & Z4). destruct (R _ _ I5) as (Y5 & OV5 & OA5 & E5 & Z5).
  rewrite (translation_rows V1 A1) in Z1 by (auto; apply HT; cbn; auto 10). rewrite (translation_rows V2 A2) in Z2 by (auto; apply HT; cbn; auto 10).
  destruct (L3 A1 OA1) as (K1 & _). destruct (L3 A2 OA2) as (K2 & _). destruct (L3 A3 OA3) as (_ & K3). destruct (L3 A4 OA4) as (_ & K4). destruct (L3 A5 OA5) as (_ & K5).
  assert (SP : forall a b : vec, length a = 3%nat -> a ++ b = zeros 6 -> a = zeros 3 /\ b = zeros 3) by (intros a b La E; destruct_vecs; cbn in E; injection E as -> -> -> ->; auto).
  assert (Lh : length (firstn 3 (skipn 1 x)) = 3%nat) by (rewrite firstn_length, skipn_length; lia).
  assert (CL : forall a b, length a = 3%nat -> length b = 3%nat -> length (cross a b) = 3%nat) by (intros a b La Lb; destruct_vecs; reflexivity).
  apply SP in Z1 as (Z1 & M1); auto. apply SP in Z2 as (Z2 & _); auto.
  pose proof (zero_mass _ _ _ K1 K2 N M1) as X0. pose proof (parallel_zero _ _ _ Lh K1 K2 N Z1 Z2) as Xh.
  rewrite (spin_rows V3 A3) in Z3 by (auto; apply HT; cbn; auto 10). rewrite (spin_rows V4 A4) in Z4 by (auto; apply HT; cbn; auto 10). rewrite (spin_rows V5 A5) in Z5 by (auto; apply HT; cbn; auto 10).
  apply SP in Z3 as (Z3 & _); [|reflexivity]. apply SP in Z4 as (Z4 & _); [|reflexivity]. apply SP in Z5 as (Z5 & _); [|reflexivity].
  assert (MI : is_mat 3 3 [[nth 4 x 0; nth 5 x 0; nth 6 x 0]; [nth 5 x 0; nth 7 x 0; nth 8 x 0]; [nth 6 x 0; nth 8 x 0; nth 9 x 0]]) by (split; [reflexivity|]; repeat constructor).
  pose proof (independent_zero _ _ _ _ MI K3 K4 K5 D Z3 Z4 Z5) as EI.
  clear -Lx X0 Xh EI. destruct_vecs. cbn in *. injection Xh as -> -> ->. injection EI as -> -> -> _ -> -> _ _ ->. subst. intro j. do 10 (destruct j; [reflexivity|]). destruct j; reflexivity.
Qed.
Definition tw (a b c d e f : R) : SV := {| sv_vec := [a; b; c; d; e; f] |}.
Lemma two_motions : exists V1 A1 V2 A2, motions_ok [(V1, A1); (V2, A2)] /\ tells_apart [(V1, A1); (V2, A2)].
Proof.
  exists (tw 0 0 0 0 0 0), (tw 0 1 0 0 0 0), (tw 0 0 1 0 0 0), (tw 1 0 1 0 0 1).
  assert (HM : motions_ok [(tw 0 0 0 0 0 0, tw 0 1 0 0 0 0); (tw 0 0 1 0 0 0, tw 1 0 1 0 0 1)]) by (split; [discriminate|]; intros V A [E|[E|[]]]; injection E as <- <-; split; reflexivity). split; [exact HM|].
  destruct (regressors_exist _ HM) as (As & HR). apply (tells_apart_iff _ As HM HR). inversion HR as [|? Y1 ? l E1 HR1]; subst. inversion HR1 as [|? Y2 ? l' E2 HR2]; subst. inversion HR2; subst. cbn in E1, E2. apply CylCustom.Ok_eq in E1, E2. subst Y1 Y2.
  intros x Lx H. pose proof (H _ (or_introl eq_refl)) as H1. pose proof (H _ (or_intror (or_introl eq_refl))) as H2. clear H HR HR1 HR2.
  pose proof (H1 0%nat) as A0. pose proof (H1 1%nat) as A1. pose proof (H1 2%nat) as A2. pose proof (H1 3%nat) as A3. pose proof (H1 4%nat) as A4. pose proof (H1 5%nat) as A5.
  pose proof (H2 0%nat) as B0. pose proof (H2 1%nat) as B1. pose proof (H2 2%nat) as B2. pose proof (H2 3%nat) as B3. pose proof (H2 4%nat) as B4. pose proof (H2 5%nat) as B5. clear H1 H2.
  destruct_vecs. cbn in *. intro j. do 10 (destruct j; [cbn; lra|]). destruct j; reflexivity.
Qed.
(** ** from the recorded motions to the parameters *)
Lemma id_motions ut log_det inv solver VAs As bs Sigma eps P b mr coms p : motions_ok VAs -> tells_apart VAs -> regressors VAs As -> wrenches p VAs bs ->
  id_init inv As bs Sigma 0 eps = Ok P -> cov_ok 6 inv Sigma -> allowed eps mr b p -> com_allowed coms [p] ->
  solved solver (id_cost log_det inv P [b]) (id_feasible ut P [b] mr coms) -> id_solve ut log_det inv solver P [b] mr coms = Ok [p].
Proof.
  intros HM HT HR HW HI HC HA HCo HS. destruct HA as (Op & Sp & HA'). destruct (motion_data_ok p VAs As bs Op Sp HM HR HW) as (HD & HE). assert (Xv : exists v, ip_vec p = Ok v) by (destruct p as [m c H]; destruct Op as [L1 L2]; cbn [ip_com ip_H] in *; destruct_vecs; cbn; eauto). destruct Xv as (v & Ev).
  apply (id_recover ut log_det inv solver 6 As bs Sigma eps P [b] mr coms [p] v); auto.
  - now apply (tells_apart_iff VAs As).
  - constructor; [|constructor]. split; [exact Op|]. split; assumption.
  - exists [v]. split; [constructor; [exact Ev|constructor]|]. cbn. now rewrite app_nil_r.
Qed.
Lemma id_motions_noise inv VAs As Sigma : motions_ok VAs -> tells_apart VAs -> regressors VAs As -> cov_ok 6 inv Sigma ->
  exists k, 0 < k /\ forall ut log_det b solver bs bs0 eps P mr coms p v, log_det_spec 4 log_det -> wrenches p VAs bs0 -> length bs = length bs0 -> (forall x, In x bs -> length x = 6%nat) ->
  id_init inv As bs Sigma 0 eps = Ok P -> allowed eps mr b p -> com_allowed coms [p] -> ip_vec p = Ok v ->
  solved solver (id_cost log_det inv P [b]) (id_feasible ut P [b] mr coms) ->
  forall q, id_solve ut log_det inv solver P [b] mr coms = Ok [q] -> exists w, ip_vec q = Ok w /\ norm (vsub v w) ^ 2 <= k * disturbance (id_W0 P) bs bs0.
Proof.
  intros HM HT HR HC. destruct (id_noise_bound inv 6 As Sigma 1 HC ltac:(lia)) as (k & Hk & H); [intros A HA; exact (regressors_mats VAs As A HM HR HA)|now apply (tells_apart_iff VAs As)|].
  exists k. split; [exact Hk|]. intros ut log_det b solver bs bs0 eps P mr coms p v HLD HW Lb L6 HI HA HCo Ev HS q Hq. pose proof HA as (Op & Sp & _). destruct (motion_data_ok p VAs As bs0 Op Sp HM HR HW) as (HD & HE).
  destruct (H ut log_det [b] solver bs bs0 eps P mr coms [p] v) with (rs := [q]) as (w & (ws & Fw & ->) & B); auto.
  - destruct HD as (D1 & D2 & D3 & D4 & D5 & D6). repeat (split; [auto; congruence|]). auto.
  - exists [v]. split; [constructor; [exact Ev|constructor]|]. cbn. now rewrite app_nil_r.
  - inversion Fw as [|? w ? l Ew Fl]; subst. inversion Fl; subst. cbn in B. rewrite app_nil_r in B. eauto.
Qed.
(** joint torques of a robot *)
Lemma id_robot ut log_det inv solver regressor_pin M (torques : vec * vec * vec -> list IP -> vec) states Ys Sigma eps P bodies mr coms ps : let links := pm_nv (mb_model M) in
  (0 < links)%nat -> length bodies = links -> states <> [] ->
  (forall q v a, In (q, v, a) states -> is_mat links (10 * links) (regressor_pin q v a) /\
    forall ps w, length ps = links -> (forall p, In p ps -> ip_ok p) -> pin_stack ps w -> mat_vec (regressor_pin q v a) w = torques (q, v, a) ps) ->
  Forall2 (fun s Y => mb_torque_regressor regressor_pin M (fst (fst s)) (snd (fst s)) (snd s) = Ok Y) states Ys ->
  id_init inv Ys (map (fun s => torques s ps) states) Sigma 0 eps = Ok P -> cov_ok links inv Sigma -> Forall2 (allowed eps mr) bodies ps -> com_allowed coms ps ->
  solved solver (id_cost log_det inv P bodies) (id_feasible ut P bodies mr coms) ->
  forall rs, id_solve ut log_det inv solver P bodies mr coms = Ok rs -> length rs = links /\ forall s, In s states -> torques s rs = torques s ps.
Proof.
  intros links Hl Lb HN HS EY HI HC HA HCo HSol rs Hrs. destruct (stack_vecs _ _ _ _ HA) as (vs & V1 & V2 & V3 & V4 & V5).
  assert (Lp : length ps = links) by (rewrite <- Lb; symmetry; exact (Forall2_len _ _ _ HA)).
  assert (Op : forall p, In p ps -> ip_ok p) by (intros p Hp; destruct (Forall2_in_r _ _ _ _ HA Hp) as (b & _ & X); apply X).
  assert (ST : stacks ps (concat vs)) by (exists vs; auto).
  assert (RT : forall s Y, In s states -> mb_torque_regressor regressor_pin M (fst (fst s)) (snd (fst s)) (snd s) = Ok Y -> is_mat links (10 * links) Y /\
    forall qs x, length qs = links -> (forall p, In p qs -> ip_ok p) -> stacks qs x -> mat_vec Y x = torques s qs).
  { intros ((q, v), a) Y Hs E. destruct (HS q v a Hs) as (MY & TY). destruct (regressor_torques regressor_pin M q v a (torques (q, v, a)) MY TY) as (Y' & E' & MY' & TY'). cbn in E. rewrite E in E'. apply CylCustom.Ok_eq in E'. subst Y'. auto. }
  assert (MY : forall A, In A Ys -> is_mat links (10 * links) A) by (intros A HA'; destruct (Forall2_in_r _ _ _ _ EY HA') as (s & Hs & E); now apply (RT s A)).
  assert (X3 : explains Ys (map (fun s => torques s ps) states) (concat vs)).
  { clear HI HSol HN HS MY. induction EY as [|s Y states Ys E F IH]; [constructor|]. cbn [map]. constructor; [now apply (RT s Y (or_introl eq_refl) E)|]. apply IH. intros; apply RT; auto. now right. }
  assert (HD : data_ok links (10 * length bodies) Ys (map (fun s => torques s ps) states)).
  { rewrite Lb. split; [exact Hl|]. split; [lia|]. split; [intros ->; inversion EY; subst; now apply HN|]. split; [rewrite map_length; symmetry; exact (Forall2_len _ _ _ EY)|]. split; [exact MY|].
    intros x Hx. apply in_map_iff in Hx as (s & <- & Hs). destruct (Forall2_in_l _ _ _ _ EY Hs) as (Y & HY & E). destruct (RT s Y Hs E) as (MY' & TY'). rewrite <- (TY' ps (concat vs)) by auto. rewrite mat_vec_length. apply MY'. }
  destruct (id_fit_lemma ut log_det inv solver links Ys (map (fun s => torques s ps) states) Sigma eps P bodies mr coms ps (concat vs)) as (ts & ET & L & L10 & X); auto.
  rewrite ET in Hrs. apply mapM_Forall2 in Hrs. pose proof (Forall2_len _ _ _ Hrs) as Lr. assert (Lrs : length rs = links) by congruence. split; [exact Lrs|].
  assert (Or : forall p, In p rs -> ip_ok p) by (intros p Hp; destruct (Forall2_in_r _ _ _ _ Hrs Hp) as (t & _ & E); now apply (from_vec_ok_inv t p)).
  assert (SR : stacks rs (concat ts)). { exists ts. split; [|reflexivity]. clear -Hrs. induction Hrs; constructor; auto. now apply (from_vec_ok_inv x y). }
  clear -EY X RT Lrs Or SR. induction EY as [|s Y states Ys E F IH]; [intros ? []|]. cbn [map] in X. inversion X as [|? ? ? ? X1 X2]; subst. intros s' [<-|Hs].
  - rewrite <- X1. symmetry. now apply (RT s Y (or_introl eq_refl) E).
  - apply IH; auto. intros; apply RT; auto. now right.
Qed.
