(** C95: the identification problems have a solution whenever some parameters are feasible. *)
From Coq Require Import Classical.
From Verif Require Import Base.Vec Base.VecFacts Spec.Basic Spec.Objects Spec.Realizable Spec.Shapes Spec.ShapeObjects Spec.PolySpec Spec.Bodies Spec.ExtremalSpec Spec.Geodesic Spec.Identify Spec.Cone Spec.Exist
  Model.Util Model.Constraint Model.Inertial Model.Polydd Model.Poly Model.Box Model.Cylinder Model.Ellipsoid Model.Realize Model.RigidBody Model.Identify
  Proofs.Coord Proofs.LinAlg Proofs.MatAlg Proofs.UtilP Proofs.InertialP Proofs.BoxP Proofs.CylP Proofs.EllP Proofs.PolyP Proofs.PimP Proofs.LogDet Proofs.GeodesicP Proofs.MomentP Proofs.IdentifyP Proofs.Cone Proofs.ConeId
  Proofs.Compact Proofs.EllMore Proofs.ClosestE Proofs.JohnX Proofs.SdpLimit Proofs.SdpLimitB Proofs.DualPoly Proofs.Exist Proofs.ExistB.

(** ** limits of accepted matrices *)
Lemma accepted_limit ut b Ks v J : Forall2 shape_is (bd_shapes b) Ks -> (forall s, In s (bd_shapes b) -> shape_proper s) -> (forall c, ~ In (SCyl c) (bd_shapes b)) ->
  pv_value v J -> is_mat 4 4 J -> symmetric 4 J ->
  (forall e, 0 < e -> exists J', entries_within 4 e J' J /\ is_mat 4 4 J' /\ symmetric 4 J' /\ accepts (rb_moment_sdp_constraints ut b (PVmat J') 0 2)) -> accepts (rb_moment_sdp_constraints ut b v 0 2).
Proof.
  intros HF HP HC Hv HJ SJ H. assert (HA : accepts (rb_moment_sdp_constraints ut b (PVmat J) 0 2)).
  { apply (body_closed ut b Ks); auto. intros s Hs. split; [auto|]. destruct s as [x|p|e|c|k]; cbn; auto. now apply (HC c). }
  apply (body_parts ut b Ks v J 2 HF HP Hv HJ SJ ltac:(lia)). now apply (body_parts ut b Ks (PVmat J) J 2 HF HP eq_refl HJ SJ ltac:(lia)) in HA.
Qed.
Lemma bodies_closed ut mr bodies : bodies_ok mr bodies -> no_cylinders mr bodies -> realize_closed ut mr bodies.
Proof.
  intros HB HC E b J Hb HJ SJ H. destruct (HB E b Hb) as (Ks & HF & HP). apply (accepted_limit ut b Ks (PVmat J) J); auto. reflexivity.
Qed.
(** ** existence *)
Lemma id_exists ut log_det inv r As bs Sigma gamma eps P bodies mr coms l0 : log_det_spec 4 log_det -> id_init inv As bs Sigma gamma eps = Ok P -> cov_ok r inv Sigma ->
  data_ok r (10 * length bodies) As bs -> nominals_ok gamma inv bodies -> bodies_ok mr bodies -> no_cylinders mr bodies -> coms_ok coms bodies ->
  0 < gamma \/ determining (10 * length bodies) As ->
  id_feasible ut P bodies mr coms l0 -> exists l, optimal (id_cost log_det inv P bodies) (id_feasible ut P bodies mr coms) l.
Proof.
  intros HLD HI HCov HD HN HB HNC HC HU HF. pose proof (id_init_weight _ _ _ _ _ _ _ _ HI HCov) as HW. apply id_init_inv in HI as (_ & Hg & He & EA & Eb & Eg & Ee & _). subst As bs gamma eps.
  pose proof (bodies_closed ut mr bodies HB HNC) as HR. apply bodies_ok_Forall in HB. destruct (Rlt_le_dec 0 (id_gamma P)) as [G|G].
  - apply (exists_regularized ut log_det inv r P bodies mr coms) with (l0 := l0); auto.
  - destruct HU as [HU|HU]; [lra|]. apply (exists_plain ut log_det inv r P bodies mr coms) with (l0 := l0); auto.
Qed.
Lemma id_exists_unique ut log_det inv r As bs Sigma gamma eps P bodies mr coms l0 : log_det_spec 4 log_det -> id_init inv As bs Sigma gamma eps = Ok P -> cov_ok r inv Sigma ->
  data_ok r (10 * length bodies) As bs -> nominals_ok gamma inv bodies -> bodies_ok mr bodies -> no_cylinders mr bodies -> coms_ok coms bodies ->
  0 < gamma \/ determining (10 * length bodies) As ->
  id_feasible ut P bodies mr coms l0 -> exists! l, optimal (id_cost log_det inv P bodies) (id_feasible ut P bodies mr coms) l.
Proof.
  intros HLD HI HCov HD HN HB HNC HC HU HF. destruct (id_exists ut log_det inv r As bs Sigma gamma eps P bodies mr coms l0) as (l & Hl); auto. exists l. split; [exact Hl|]. intros m Hm.
  pose proof (id_init_weight _ _ _ _ _ _ _ _ HI HCov) as HW. apply id_init_inv in HI as (_ & Hg & He & EA & Eb & Eg & Ee & _). subst As bs gamma eps. apply bodies_ok_Forall in HB.
  apply (id_unique ut log_det inv r P bodies mr coms); auto.
Qed.
(** ** the outcome of solve *)
Lemma id_outcome ut log_det inv solver r As bs Sigma gamma eps P bodies mr coms : log_det_spec 4 log_det -> id_init inv As bs Sigma gamma eps = Ok P -> cov_ok r inv Sigma ->
  data_ok r (10 * length bodies) As bs -> nominals_ok gamma inv bodies -> bodies_ok mr bodies -> no_cylinders mr bodies -> coms_ok coms bodies ->
  0 < gamma \/ 0 < eps /\ determining (10 * length bodies) As ->
  solver_exact solver (id_cost log_det inv P bodies) (id_feasible ut P bodies mr coms) ->
  ((exists l, id_feasible ut P bodies mr coms l) /\ exists l rs, id_solve ut log_det inv solver P bodies mr coms = Ok rs /\ Forall2 (fun p t => ip_vec p = Ok t) rs l /\
     optimal (id_cost log_det inv P bodies) (id_feasible ut P bodies mr coms) l) \/
  ((forall l, ~ id_feasible ut P bodies mr coms l) /\ id_solve ut log_det inv solver P bodies mr coms = Raise AssertionError).
Proof.
  intros HLD HI HCov HD HN HB HNC HC HU HS. assert (HU' : 0 < gamma \/ determining (10 * length bodies) As) by tauto. assert (HU2 : 0 < eps \/ 0 < gamma) by tauto.
  assert (HC' : forall l, coms = Some l -> length l = length bodies) by (intros l E; now apply HC). unfold solver_exact in HS.
  destruct (solver (id_cost log_det inv P bodies) (id_feasible ut P bodies mr coms)) as [l|] eqn:E.
  - left. split; [exists l; apply HS|]. exists l. destruct (id_total ut log_det inv solver r As bs Sigma gamma eps P bodies mr coms l) as (rs & R1 & R2); auto; [apply HS|exists rs; auto].
  - right. assert (HX : forall l, ~ id_feasible ut P bodies mr coms l).
    { intros l Hl. destruct (id_exists ut log_det inv r As bs Sigma gamma eps P bodies mr coms l) as (m & Hm); auto. now apply (HS m). }
    split; [exact HX|]. pose proof (id_init_weight _ _ _ _ _ _ _ _ HI HCov) as HW. pose proof HI as HI'. apply id_init_inv in HI as (_ & Hg & He & EA & Eb & Eg & Ee & _). subst As bs gamma eps.
    rewrite (id_solve_run ut log_det inv solver P bodies mr coms r); auto using bodies_ok_Forall; [now rewrite E|]. destruct coms; [now apply HC'|exact I].
Qed.
(** ** point masses at given points *)
Lemma points_compact points : (forall p, In p points -> length p = 3%nat) -> compact 3 (fun x => In x points).
Proof.
  intro H. induction points as [|p points IH].
  - intros F _ HF. destruct (HF 1 ltac:(lra)) as (z & _ & [] & _).
  - apply (compact_union 3 (fun x => p = x) (fun x => In x points)); [|apply IH; intros; apply H; now right].
    intros F _ HF. exists p. split; [apply H; now left|]. split; [reflexivity|]. intros e He. destruct (HF e He) as (z & Lz & <- & Fz). exists p. split; [auto|]. split; [auto|]. split; [auto|].
    intros i Hi. rewrite Rminus_diag_eq by auto. rewrite Rabs_R0. lra.
Qed.
Lemma di_zero points com : (forall p, In p points -> length p = 3%nat) -> (forall s, com = Some s -> exists K, shape_is s K) -> di_feasible points com (zeros 10).
Proof.
  intros HP HC. split; [reflexivity|]. destruct (di_constraints_iff points com (zeros 10) HP eq_refl) as (J & c & EJ & Ec & I). exists c. split; [exact Ec|]. apply I.
  destruct (Jof_ok (zeros 10) eq_refl) as (EJ' & _). rewrite EJ in EJ'. apply CylCustom.Ok_eq in EJ'. subst J. split.
  - replace (Jof (zeros 10)) with (zeros2 4 4); [apply realizable_zero|]. cbn. list_eq; field.
  - destruct com as [s|]; [|exact Logic.I]. destruct (HC s eq_refl) as (K & HK). destruct (shape_nonempty s K HK) as (p & Lp & Hp). rewrite com_Jof by reflexivity.
    apply (must_contain_scaled s K p 1 HK Lp Rlt_0_1) in Hp. assert (L1 : length (vscale 1 p) = 3%nat) by now rewrite vscale_length.
    pose proof (must_mix s K 0 0 _ _ _ _ HK L1 L1 (Rle_refl 0) (Rle_refl 0) Hp Hp) as X. replace (0 * 1 + 0 * 1) with 0 in X by ring. cbn [nth zeros repeat].
    replace [0; 0; 0] with (vmix 0 0 (vscale 1 p) (vscale 1 p)); [exact X|]. clear - Lp. destruct_vecs. unfold vmix. cbn. list_eq; ring.
Qed.
Lemma di_exists_min r P points com : data_ok r 10 (id_As P) (id_bs P) -> weight_ok r (id_W0 P) -> (forall p, In p points -> length p = 3%nat) -> (forall s, com = Some s -> exists K, shape_is s K) ->
  determining 10 (id_As P) -> exists x, optimal (di_cost P) (di_feasible points com) x.
Proof.
  intros HD HW HP HC Det. set (C := fun l => exists t, l = [t] /\ di_feasible points com t). set (fit := fun l => fit_error (id_W0 P) (id_As P) (id_bs P) (concat l)).
  set (k := 1 / 2 / INR (length (id_As P))). assert (Pk : 0 < k) by exact (no_pos _ _ _ _ HD).
  assert (E1 : forall t : vec, concat [t] = t) by (intro t; cbn; apply app_nil_r).
  assert (cost : forall t, length t = 10%nat -> di_cost P t = Ok (k * fit [t]) /\ 0 <= fit [t]).
  { intros t Lt. destruct (di_cost_ok P t r HD HW Lt) as (v & A & V & N & _). unfold fit. rewrite E1, <- V. auto. }
  assert (FJ : forall t, length t = 10%nat -> (di_feasible points com t <-> realizable_J (fun x => In x points) (Jof t) /\ match com with Some s => com_constraint s (Jof t) | None => True end)).
  { intros t Lt. destruct (di_constraints_iff points com t HP Lt) as (J & c & EJ & Ec & I). destruct (Jof_ok t Lt) as (EJ' & _). rewrite EJ in EJ'. apply CylCustom.Ok_eq in EJ'. subst J.
    rewrite <- I. split; [intros (_ & c' & Ec' & Hc)|intro Hc; split; [auto|exists c; auto]]. rewrite Ec in Ec'. apply CylCustom.Ok_eq in Ec'. now subst c'. }
  assert (CL : forall l, C l -> length l = 1%nat /\ len10 l) by (intros l (t & -> & Lt & _); split; [reflexivity|constructor; [auto|constructor]]).
  assert (C0 : C [zeros 10]) by (exists (zeros 10); split; [reflexivity|now apply di_zero]).
  destruct (weight_pd r (id_W0 P) HW) as (MW & PW). pose proof HD as (_ & Pc & _ & _ & MA & _).
  destruct (energy_lower r _ (weight r (id_W0 P)) (id_As P) Pc MW PW MA Det) as (mu & Hmu & Hlow). set (B1 := sqrt (4 * fit [zeros 10] / mu)).
  destruct (min_list 1 C fit 0 B1 [zeros 10] CL C0) as (a & (t & -> & Ft) & Ha).
  - intros l (t & -> & Ft) Fl. pose proof Ft as (Lt & _). split; [now apply cost|]. constructor; [|constructor]. intros i Hi.
    assert (Lx : length (vsub t (zeros 10)) = 10%nat) by (rewrite vsub_length; auto).
    replace (nth i t 0) with (nth i (vsub t (zeros 10)) 0) by (rewrite nth_vsub by (rewrite Lt; reflexivity); rewrite nth_zeros; ring). apply Rle_trans with (norm (vsub t (zeros 10))); [apply abs_nth_le_norm|].
    unfold norm, B1. apply sqrt_le_1_alt. pose proof (Hlow _ Lx) as H1. pose proof (fit_energy r _ (id_W0 P) _ _ t (zeros 10) HD HW Lt eq_refl) as H2. unfold fit in *. rewrite !E1 in *.
    apply (Rmult_le_reg_l mu); [auto|]. replace (mu * (4 * fit_error (id_W0 P) (id_As P) (id_bs P) (zeros 10) / mu)) with (4 * fit_error (id_W0 P) (id_As P) (id_bs P) (zeros 10)) by (field; lra). lra.
  - intros l La Ta H. destruct l as [|a [|]]; try discriminate. apply Forall_cons_iff in Ta as (Lt & _).
    assert (H' : forall e, 0 < e -> exists t, length t = 10%nat /\ di_feasible points com t /\ near 10 e t a).
    { intros e He. destruct (H e He) as (l & (t & -> & Ft) & _ & N). inversion N; subst. exists t. split; [apply Ft|]. auto. }
    split.
    + exists a. split; [reflexivity|]. apply FJ; [auto|]. destruct (Jof_ok a Lt) as (_ & MJ & SJ).
      assert (RJ : realizable_J (fun x => In x points) (Jof a)).
      { apply realizable_closed; auto; [now apply points_compact|]. intros e He. destruct (H' (e / 2) ltac:(lra)) as (t & L1 & F1 & N1). exists (Jof t). split; [|now apply FJ].
        replace e with (2 * (e / 2)) by field. now apply near_closeJ. }
      split; [exact RJ|]. destruct com as [s|]; [|exact Logic.I]. destruct (HC s eq_refl) as (K & HK). apply (com_closed s K); auto; [now apply realizable_psd in RJ|].
      intros e He. destruct (H' e He) as (t & L1 & F1 & N1). exists t. split; [auto|]. split; [|auto]. now apply FJ.
    + intros d Hd. destruct (contR_fit r _ _ _ _ HD HW a d Lt Hd) as (e & He & N). exists e. split; [auto|]. intros l (t & -> & Ft) _ Nl. inversion Nl; subst. unfold fit. rewrite !E1.
      specialize (N t (proj1 Ft) ltac:(assumption)). apply abs_le_inv in N. lra.
  - exists t. split; [exact Ft|]. intros y c Fy Ec. rewrite (proj1 (cost y (proj1 Fy))) in Ec. apply CylCustom.Ok_eq in Ec. subst c. exists (k * fit [t]). split; [apply cost, Ft|].
    apply Rmult_le_compat_l; [lra|]. apply Ha. exists y. auto.
Qed.
Lemma di_exists_unique inv r As bs Sigma gamma eps P points com : id_init inv As bs Sigma gamma eps = Ok P -> cov_ok r inv Sigma -> data_ok r 10 As bs -> (forall p, In p points -> length p = 3%nat) -> (forall s, com = Some s -> exists K, shape_is s K) ->
  determining 10 As -> exists! x, optimal (di_cost P) (di_feasible points com) x.
Proof.
  intros HI HCov HD HP HC Det. pose proof (id_init_weight _ _ _ _ _ _ _ _ HI HCov) as HW. apply id_init_inv in HI as (_ & Hg & He & EA & Eb & Eg & Ee & _). subst As bs.
  destruct (di_exists_min r P points com) as (x & Hx); auto. exists x. split; [exact Hx|]. intros y Hy. now apply (di_unique r P points com).
Qed.
(** ** without the regularizer and with data that do not determine the parameters the minimum need not be attained *)
Definition unA : mat := [[0; 1; 0; 0; 0; 0; 0; 0; 0; 0]; [0; 0; 0; 0; - (1 / 2); 0; 0; 1 / 2; 0; 1 / 2]].
Definition unT (n : R) : vec := [n; 1; 0; 0; 0; 0; 0; / n; 0; / n].
Lemma unattained ut log_det inv (b : Body) : exists As bs P l, id_init inv As bs None 0 0 = Ok P /\ data_ok 2 10 As bs /\
  id_feasible ut P [b] false None l /\ forall m, ~ optimal (id_cost log_det inv P [b]) (id_feasible ut P [b] false None) m.
Proof.
  exists [unA], [[1; 0]].
  assert (exists P, id_init inv [unA] [[1; 0]] None 0 0 = Ok P) as (P & EP).
  { unfold id_init. cbn [length Nat.eqb assert_ bind]. assert (Rleb 0 0 = true) as -> by (apply Rleb_iff; lra). cbn. eauto. }
  assert (HD : data_ok 2 10 [unA] [[1; 0]]).
  { split; [lia|]. split; [lia|]. split; [discriminate|]. split; [reflexivity|]. split; [intros A [<-|[]]; repeat constructor|intros x [<-|[]]; reflexivity]. }
  pose proof (id_init_inv _ _ _ _ _ _ _ EP) as (_ & Hg & He & EA & Eb & Eg & Ee & EW). exists P, [unT 1]. split; [exact EP|]. split; [exact HD|].
  assert (HC : forall t, length t = 10%nat -> id_cost log_det inv P [b] [t] = Ok (1 / 2 * ((nth 1 t 0 - 1) ^ 2 + (- nth 4 t 0 + nth 7 t 0 + nth 9 t 0) ^ 2 / 4))).
  { intros t Lt. destruct (id_cost_ok log_det inv P [b] [t] 2) as (v & Js & Ev & _ & _ & _ & C & _); auto; try (rewrite ?EA, ?Eb, ?EW; auto; fail); [rewrite EW; exact I|rewrite Eg; lra|].
    rewrite C by lra. f_equal. rewrite Ev, EA, Eb, EW. cbn [concat]. rewrite app_nil_r. clear - Lt. destruct_vecs. cbn [fit_error]. unfold sum_squares. cbn [map2 lsum length INR].
    match goal with |- context [norm ?a ^ 2] => replace (norm a ^ 2) with (dot a a) by (rewrite <- norm_sqr; ring) end. unfold unA. cbn. change (INR 1) with 1. field. }
  assert (HF : forall t, length t = 10%nat -> (id_feasible ut P [b] false None [t] <-> PSD 4 (Jof t))).
  { intros t Lt. destruct (Jof_ok t Lt) as (EJ & MJ & SJ). destruct (feasible_inv ut P [b] false None [t]) as (Js & F1 & _ & I1); auto; [rewrite Ee; lra|constructor; [intro; discriminate|constructor]|]. 
    inversion F1 as [|? J' ? ? E1 F2]; subst. inversion F2; subst. rewrite EJ in E1. apply CylCustom.Ok_eq in E1. subst J'. rewrite I1.
    assert (EM : msub (Jof t) (mscale (id_eps P) (eye 4)) = Jof t) by (rewrite Ee; clear - Lt; destruct_vecs; cbn; list_eq; ring). split.
    - intros (_ & X & _). apply Forall_inv in X. now rewrite EM in X.
    - intros X. split; [intro; lra|]. split; [constructor; [now rewrite EM|constructor]|]. split; [discriminate|discriminate]. }
  assert (PT : forall n, 0 < n -> PSD 4 (Jof (unT n))).
  { intros n Hn. destruct (Jof_ok (unT n) eq_refl) as (_ & M & S). split; [auto|]. split; [auto|]. intros z Lz. do 5 (destruct z as [|? z]; try discriminate). rename r into z0, r0 into z1, r1 into z2, r2 into z3.
    assert (E : quad (Jof (unT n)) [z0; z1; z2; z3] = / n * (z0 + n * z3) ^ 2) by (cbn; field; lra). rewrite E. apply Rmult_le_pos; [|apply pow2_ge_0]. now apply Rlt_le, Rinv_0_lt_compat. }
  split; [apply HF; [reflexivity|]; apply PT; lra|]. intros m (Fm & Om). pose proof Fm as (Lm & Tm & _). destruct m as [|t [|]]; try discriminate. apply Forall_cons_iff in Tm as (Lt & _). apply HF in Fm; [|auto].
  set (q := - nth 4 t 0 + nth 7 t 0 + nth 9 t 0) in *. set (x := nth 1 t 0) in *.
  assert (HX : forall n, 0 < n -> (x - 1) ^ 2 + q ^ 2 / 4 <= (/ n) ^ 2).
  { intros n Hn. destruct (Om [unT n] _ (proj2 (HF (unT n) eq_refl) (PT n Hn)) (HC (unT n) eq_refl)) as (c & Ec & Hc). rewrite HC in Ec by auto. apply CylCustom.Ok_eq in Ec. subst c. fold q in Hc. fold x in Hc. cbn [unT nth] in Hc. lra. }
  assert (Z : (x - 1) ^ 2 + q ^ 2 / 4 <= 0).
  { destruct (Rle_lt_dec ((x - 1) ^ 2 + q ^ 2 / 4) 0) as [|L]; [auto|exfalso]. set (d := (x - 1) ^ 2 + q ^ 2 / 4) in *. assert (Hs : 0 < sqrt d) by now apply sqrt_lt_R0.
    specialize (HX (2 / sqrt d) ltac:(apply Rdiv_lt_0_compat; lra)). replace ((/ (2 / sqrt d)) ^ 2) with (sqrt d * sqrt d / 4) in HX by (field; lra). rewrite sqrt_sqrt in HX by lra. lra. }
  assert (Eq0 : q = 0) by (pose proof (pow2_ge_0 (x - 1)); assert (S : q ^ 2 = 0) by (pose proof (pow2_ge_0 q); lra); clear - S; nra).
  assert (Ex1 : x = 1) by (pose proof (pow2_ge_0 q); assert (S : (x - 1) ^ 2 = 0) by (pose proof (pow2_ge_0 (x - 1)); lra); clear - S; nra).
  destruct Fm as (_ & _ & Q). assert (QZ : forall s, quad (Jof t) [1; 0; 0; s] = q / 2 + 2 * s * x + s * s * nth 0 t 0).
  { intro s. unfold q, x. clear - Lt. destruct_vecs. cbn. field. }
  pose proof (Q [1; 0; 0; - / (1 + Rabs (nth 0 t 0))] eq_refl) as H. rewrite QZ, Eq0, Ex1 in H. pose proof (Rle_abs (nth 0 t 0)) as A. pose proof (Rabs_pos (nth 0 t 0)) as A0. set (w := Rabs (nth 0 t 0)) in *.
  assert (B : 0 < / (1 + w)) by (apply Rinv_0_lt_compat; lra). assert (B1 : / (1 + w) * (1 + w) = 1) by (field; lra). set (i := / (1 + w)) in *. clearbody i.
  assert (i * i * nth 0 t 0 <= i * i * w) by (apply Rmult_le_compat_l; nra). nra.
Qed.
