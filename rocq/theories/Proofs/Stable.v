(** C97: growth of the cost away from the optimum, and dependence of the optimum on the data. *)
From Verif Require Import Base.Vec Base.VecFacts Spec.Basic Spec.Objects Spec.Realizable Spec.Shapes Spec.ShapeObjects Spec.PolySpec Spec.Bodies Spec.ExtremalSpec Spec.Geodesic Spec.Identify Spec.Cone Spec.Stable
  Model.Util Model.Constraint Model.Inertial Model.Polydd Model.Poly Model.Box Model.Cylinder Model.Ellipsoid Model.Realize Model.RigidBody Model.Identify
  Proofs.Coord Proofs.LinAlg Proofs.MatAlg Proofs.UtilP Proofs.InertialP Proofs.BoxP Proofs.CylP Proofs.EllP Proofs.PolyP Proofs.PimP Proofs.LogDet Proofs.GeodesicP Proofs.MomentP Proofs.IdentifyP Proofs.Cone Proofs.ConeId
  Proofs.Compact Proofs.Exist.

Lemma wsq_weight r W0 v : length v = r -> wsq W0 v = quad (weight r W0) v.
Proof. intro L. destruct W0; [reflexivity|]. cbn. unfold quad. rewrite mat_vec_eye by auto. rewrite <- norm_sqr. ring. Qed.
Lemma response_energy r W0 As x : (forall A, In A As -> length A = r) -> response W0 As x = energy (weight r W0) As x.
Proof. intro H. unfold response, energy. f_equal. apply map_ext_in. intros A HA. apply wsq_weight. rewrite mat_vec_length. auto. Qed.
Lemma vsub_self x : vsub x x = zeros (length x).
Proof. induction x; cbn; f_equal; auto. ring. Qed.
(** the exact defect of convexity *)
Lemma fit_mix_exact r c W0 As bs t x y : data_ok r c As bs -> weight_ok r W0 -> length x = c -> length y = c ->
  fit_error W0 As bs (vmix (1 - t) t x y) = (1 - t) * fit_error W0 As bs x + t * fit_error W0 As bs y - (1 - t) * t * response W0 As (vsub y x).
Proof.
  intros HD HW Lx Ly. rewrite !(weight_fit r c W0 As bs _ HD). rewrite (response_energy r) by (intros A HA; destruct HD as (_ & _ & _ & _ & M & _); apply (M A HA)).
  destruct (weight_pd r W0 HW) as (MW & PW). generalize dependent (weight r W0). intros W MW PW. clear HW. pose proof (data_Forall2 _ _ _ _ HD) as F. clear HD. unfold weighted_squares, energy.
  induction F as [|A b As bs ((LA & RA) & Hb) F IH]; [cbn; ring|].
  assert (L : forall z, length (mat_vec A z) = r) by (intro; rewrite mat_vec_length; exact LA). cbn [map map2].
  repeat match goal with |- context [lsum (?a :: ?l)] => change (lsum (a :: l)) with (a + lsum l) end. rewrite IH.
  replace (vsub (mat_vec A (vmix (1 - t) t x y)) b) with (vmix (1 - t) t (vsub (mat_vec A x) b) (vsub (mat_vec A y) b)).
  + rewrite (quad_vmix r W) by (auto; try ring; rewrite vsub_length; rewrite L; auto).
    replace (quad W (vsub (vsub (mat_vec A x) b) (vsub (mat_vec A y) b))) with (quad W (mat_vec A (vsub y x))); [ring|].
    rewrite mat_vec_vsub by congruence. pose proof (L x) as Lx'. pose proof (L y) as Ly'.
    replace (vsub (mat_vec A y) (mat_vec A x)) with (vscale (-1) (vsub (vsub (mat_vec A x) b) (vsub (mat_vec A y) b))) by (apply (vec_ext r); [len|len|]; intros i Hi; rewrite !nth_vscale, !nth_vsub by len; ring).
    unfold quad. rewrite mat_vec_vscale, dot_vscale_l, dot_vscale_r. ring.
  + unfold vmix. rewrite mat_vec_vadd, !mat_vec_vscale by len. pose proof (L x) as Lx'. pose proof (L y) as Ly'. apply (vec_ext r); [len|len|]. intros i Hi. rewrite !nth_vsub, !nth_vadd, !nth_vscale, !nth_vsub by len. ring.
Qed.
(** changing the data changes the fit by an affine function of the parameters *)
Lemma fit_data r c W0 As bs bs' x y : data_ok r c As bs -> data_ok r c As bs' -> weight_ok r W0 -> length x = c -> length y = c ->
  fit_error W0 As bs y - fit_error W0 As bs x + fit_error W0 As bs' x - fit_error W0 As bs' y <= response W0 As (vsub y x) + disturbance W0 bs bs'.
Proof.
  intros HD HD' HW Lx Ly. rewrite !(weight_fit r c W0 As bs _ HD), !(weight_fit r c W0 As bs' _ HD'). rewrite (response_energy r) by (intros A HA; destruct HD as (_ & _ & _ & _ & M & _); apply (M A HA)).
  destruct (weight_pd r W0 HW) as (MW & PW). pose proof (data_Forall2 _ _ _ _ HD) as F. pose proof (data_Forall2 _ _ _ _ HD') as F'. unfold disturbance. 
  assert (ED : lsum (map2 (fun b b' => wsq W0 (vsub b b')) bs bs') = lsum (map2 (fun b b' => quad (weight r W0) (vsub b b')) bs bs')).
  { f_equal. clear - F F'. revert bs' F'. induction F as [|A b As bs (MA & Lb) F IH]; intros bs' F'; [now destruct bs'|]. inversion F' as [|? b' ? bs0 (MA' & Lb') F0]; subst. cbn [map2]. f_equal; [|now apply IH]. apply wsq_weight. rewrite vsub_length; congruence. }
  rewrite ED. clear ED. generalize dependent (weight r W0). intros W MW PW. clear HW HD HD'. unfold weighted_squares, energy.
  revert bs' F'. induction F as [|A b As bs ((LA & RA) & Hb) F IH]; intros bs' F'; [inversion F'; subst; cbn; lra|]. inversion F' as [|? b' ? bs0 (MA' & Hb') F0]; subst. specialize (IH bs0 F0).
  cbn [map map2]. repeat match goal with |- context [lsum (?a :: ?l)] => change (lsum (a :: l)) with (a + lsum l) end.
  assert (L : forall z, length (mat_vec A z) = length A) by (intro; now rewrite mat_vec_length). set (n := length A) in *.
  assert (Q : quad W (vsub (mat_vec A y) b) - quad W (vsub (mat_vec A x) b) + quad W (vsub (mat_vec A x) b') - quad W (vsub (mat_vec A y) b') <= quad W (mat_vec A (vsub y x)) + quad W (vsub b b')).
  { rewrite mat_vec_vsub by congruence. pose proof (L x) as Lx'. pose proof (L y) as Ly'. generalize dependent (mat_vec A x). generalize dependent (mat_vec A y). intros u Lu v Lv. 
    destruct (pos_def_quad n W (vadd (vsub u v) (vsub b b')) PW) as (Q0 & _); [len|]. 
    assert (E : quad W (vsub u b) - quad W (vsub v b) + quad W (vsub v b') - quad W (vsub u b') = quad W (vsub u v) + quad W (vsub b b') - quad W (vadd (vsub u v) (vsub b b'))); [|lra].
    assert (V : forall a c, length a = length c -> vsub a c = vadd a (vscale (-1) c)) by (intros a c H; apply (vec_ext (length a)); [len|len|]; intros; rewrite nth_vsub, nth_vadd, nth_vscale by len; ring).
    rewrite !V by congruence. assert (LW : forall z, length (mat_vec W z) = n) by (intro; rewrite mat_vec_length; apply MW). pose proof (LW u). pose proof (LW v). pose proof (LW b). pose proof (LW b').
    unfold quad. repeat rewrite mat_vec_vadd by len. repeat rewrite mat_vec_vscale. repeat rewrite mat_vec_vadd by len. repeat rewrite mat_vec_vscale.
    repeat (rewrite ?dot_vadd_l, ?dot_vadd_r by len; rewrite ?dot_vscale_l, ?dot_vscale_r). ring. }
  lra.
Qed.
(** ** growth *)
Lemma id_cost_mix_strong ut log_det inv r P bodies mr coms l m t : log_det_spec 4 log_det -> 0 <= id_gamma P -> data_ok r (10 * length bodies) (id_As P) (id_bs P) -> weight_ok r (id_W0 P) ->
  (0 < id_gamma P -> forall b, In b bodies -> nominal_ok inv (ip_J (bd_params b))) -> 0 <= t <= 1 ->
  id_feasible ut P bodies mr coms l -> id_feasible ut P bodies mr coms m ->
  exists c1 c2 c, id_cost log_det inv P bodies l = Ok c1 /\ id_cost log_det inv P bodies m = Ok c2 /\ id_cost log_det inv P bodies (tmix (1 - t) t l m) = Ok c /\
    c <= (1 - t) * c1 + t * c2 - (1 - t) * t * (1 / 2 / INR (length (id_As P)) * response (id_W0 P) (id_As P) (vsub (concat m) (concat l))).
Proof.
  intros HLD Hg HD HW HN Ht Hl Hm. pose proof Hl as (L1 & T1 & _). pose proof Hm as (L2 & T2 & _).
  destruct (id_cost_ok log_det inv P bodies l r HD HW L1 T1 HN) as (v1 & Js1 & V1 & _ & _ & E1 & A1 & B1).
  destruct (id_cost_ok log_det inv P bodies m r HD HW L2 T2 HN) as (v2 & Js2 & V2 & _ & _ & E2 & A2 & B2).
  destruct (id_cost_ok log_det inv P bodies (tmix (1 - t) t l m) r HD HW (tmix_len _ _ l m _ L1 L2) (tmix10 _ _ l m T1 T2) HN) as (v & Js & V & _ & _ & E & A & B).
  pose proof (concat10 l _ T1 L1) as C1. pose proof (concat10 m _ T2 L2) as C2.
  rewrite concat_tmix in V by (auto; congruence). pose proof (fit_mix_exact r _ (id_W0 P) _ _ t (concat l) (concat m) HD HW C1 C2) as F2. rewrite <- V1, <- V2, <- V in F2.
  set (e := response _ _ _) in *. clearbody e. set (k := 1 / 2 / INR (length (id_As P))) in *. clearbody k.
  assert (EJ : mapM pim_must_equal_vec (tmix (1 - t) t l m) = Ok (map2 (mix (1 - t) t) Js1 Js2)) by (apply mapM_Forall2, pmev_tmix; now apply mapM_Forall2).
  rewrite E in EJ. apply CylCustom.Ok_eq in EJ. subst Js.
  destruct (Rlt_le_dec 0 (id_gamma P)) as [G|G].
  - destruct (B1 G) as (g1 & G1 & ->). destruct (B2 G) as (g2 & G2 & ->). destruct (B G) as (g & G3 & ->). eexists _, _, _. split; [reflexivity|]. split; [reflexivity|]. split; [reflexivity|].
    destruct (reg_mix log_det inv Js1 Js2 (map (fun b => ip_J (bd_params b)) bodies) t HLD) as (w1 & w2 & w & W1 & W2 & W3 & W4 & W5).
    { destruct bodies as [|b bodies]; [destruct HD as (_ & H & _); cbn in H; lia|]. intros ->. apply mapM_length in E1. cbn in E1, L1. lia. }
    { apply mapM_length in E1. rewrite map_length. lia. }
    { apply mapM_length in E2. rewrite map_length. lia. }
    { intros J HJ0. apply in_map_iff in HJ0 as (b & <- & Hb). auto. }
    { apply (feasible_SPD ut P bodies mr coms l); auto. }
    { apply (feasible_SPD ut P bodies mr coms m); auto. }
    { exact Ht. }
    rewrite G1 in W1. rewrite G2 in W2. rewrite G3 in W3. apply CylCustom.Ok_eq in W1, W2, W3. subst w1 w2 w.
    pose proof (Rmult_le_compat_l (id_gamma P) _ _ Hg W4) as W6. rewrite F2. lra.
  - rewrite (A1 G), (A2 G), (A G). eexists _, _, _. split; [reflexivity|]. split; [reflexivity|]. split; [reflexivity|]. rewrite F2. lra.
Qed.
Lemma small_step a b e : (forall t, 0 < t < 1 -> a <= (1 - t) * a + t * b - (1 - t) * t * e) -> a + e <= b.
Proof.
  intro H. apply Rnot_lt_le. intro L. set (d := a + e - b) in *. assert (0 < d) by (unfold d; lra).
  destruct (Rle_lt_dec e 0) as [Ne|Pe].
  - specialize (H (/ 2) ltac:(lra)). unfold d in *. nra.
  - set (t := Rmin (/ 2) (d / (2 * e))). assert (0 < d / (2 * e)) by (apply Rdiv_lt_0_compat; lra).
    assert (Ht : 0 < t < 1) by (unfold t; pose proof (Rmin_l (/ 2) (d / (2 * e))); split; [apply Rmin_glb_lt|]; lra).
    assert (Hte : t * e <= d / 2). { apply Rle_trans with (d / (2 * e) * e); [apply Rmult_le_compat_r; [lra|apply Rmin_r]|]. right. field. lra. }
    specialize (H t Ht). assert (0 <= t * (b - a - (1 - t) * e)) by nra. assert (b - a - (1 - t) * e < 0) by (unfold d in *; nra). nra.
Qed.
Lemma id_growth_P ut log_det inv r P bodies mr coms l m : log_det_spec 4 log_det -> 0 <= id_gamma P -> 0 <= id_eps P -> data_ok r (10 * length bodies) (id_As P) (id_bs P) -> weight_ok r (id_W0 P) ->
  (0 < id_gamma P -> forall b, In b bodies -> nominal_ok inv (ip_J (bd_params b))) -> Forall (body_ok mr) bodies -> (forall c, coms = Some c -> length c = length bodies /\ shapes_ok c) ->
  optimal (id_cost log_det inv P bodies) (id_feasible ut P bodies mr coms) l -> id_feasible ut P bodies mr coms m ->
  exists c1 c2, id_cost log_det inv P bodies l = Ok c1 /\ id_cost log_det inv P bodies m = Ok c2 /\
    c1 + 1 / 2 / INR (length (id_As P)) * response (id_W0 P) (id_As P) (vsub (concat m) (concat l)) <= c2.
Proof.
  intros HLD Hg He HD HW HN HB HC (Fl & Ol) Fm.
  destruct (id_cost_mix_strong ut log_det inv r P bodies mr coms l m (/ 2) HLD Hg HD HW HN ltac:(lra) Fl Fm) as (c1 & c2 & _ & E1 & E2 & _).
  exists c1, c2. split; [exact E1|]. split; [exact E2|]. apply small_step. intros t Ht.
  destruct (id_cost_mix_strong ut log_det inv r P bodies mr coms l m t HLD Hg HD HW HN ltac:(lra) Fl Fm) as (d1 & d2 & c & D1 & D2 & E & H).
  rewrite E1 in D1. rewrite E2 in D2. apply CylCustom.Ok_eq in D1, D2. subst d1 d2.
  assert (FM : id_feasible ut P bodies mr coms (tmix (1 - t) t l m)) by (apply feasible_convex; auto; lra).
  destruct (Ol _ _ FM E) as (d & D & X). rewrite E1 in D. apply CylCustom.Ok_eq in D. subst d. lra.
Qed.
Lemma id_growth ut log_det inv r As bs Sigma gamma eps P bodies mr coms l m : log_det_spec 4 log_det -> id_init inv As bs Sigma gamma eps = Ok P -> cov_ok r inv Sigma -> data_ok r (10 * length bodies) As bs -> nominals_ok gamma inv bodies -> bodies_ok mr bodies -> coms_ok coms bodies ->
  optimal (id_cost log_det inv P bodies) (id_feasible ut P bodies mr coms) l -> id_feasible ut P bodies mr coms m ->
  exists c1 c2, id_cost log_det inv P bodies l = Ok c1 /\ id_cost log_det inv P bodies m = Ok c2 /\
    c1 + 1 / (2 * INR (length As)) * response (id_W0 P) As (vsub (concat m) (concat l)) <= c2.
Proof.
  intros HLD HI HCov HD HN HB HC Ol Fm. pose proof (id_init_weight _ _ _ _ _ _ _ _ HI HCov) as HW. apply id_init_inv in HI as (_ & Hg & He & EA & Eb & Eg & Ee & _).
  replace (1 / (2 * INR (length As))) with (1 / 2 / INR (length As)) by (field; pose proof (no_pos _ _ _ _ HD); intro Z; rewrite Z in *; unfold Rdiv in *; rewrite Rinv_0 in *; lra). rewrite <- EA.
  apply (id_growth_P ut log_det inv r P bodies mr coms l m); rewrite ?EA, ?Eb, ?Eg, ?Ee; auto using bodies_ok_Forall.
Qed.
(** ** the optimum as a function of the data *)
Lemma init_same inv As bs bs' Sigma gamma eps P P' : id_init inv As bs Sigma gamma eps = Ok P -> id_init inv As bs' Sigma gamma eps = Ok P' -> id_W0 P' = id_W0 P.
Proof.
  intros HI HI'. apply id_init_inv in HI as (_ & _ & _ & _ & _ & _ & _ & H). apply id_init_inv in HI' as (_ & _ & _ & _ & _ & _ & _ & H').
  destruct Sigma as [C|]; [|congruence]. destruct H as (W & E & ->), H' as (W' & E' & ->). congruence.
Qed.
Lemma feasible_same ut P P' bodies mr coms l : id_gamma P' = id_gamma P -> id_eps P' = id_eps P -> id_feasible ut P bodies mr coms l -> id_feasible ut P' bodies mr coms l.
Proof. intros Eg Ee. unfold id_feasible, id_domain, id_constraints. now rewrite Eg, Ee. Qed.
Lemma id_stable ut log_det inv r As bs bs' Sigma gamma eps P P' bodies mr coms l l' : log_det_spec 4 log_det -> id_init inv As bs Sigma gamma eps = Ok P -> id_init inv As bs' Sigma gamma eps = Ok P' ->
  cov_ok r inv Sigma -> data_ok r (10 * length bodies) As bs -> data_ok r (10 * length bodies) As bs' -> nominals_ok gamma inv bodies -> bodies_ok mr bodies -> coms_ok coms bodies ->
  optimal (id_cost log_det inv P bodies) (id_feasible ut P bodies mr coms) l -> optimal (id_cost log_det inv P' bodies) (id_feasible ut P' bodies mr coms) l' ->
  response (id_W0 P) As (vsub (concat l') (concat l)) <= disturbance (id_W0 P) bs bs'.
Proof.
  intros HLD HI HI' HCov HD HD' HN HB HC Ol Ol'. pose proof (init_same _ _ _ _ _ _ _ _ _ HI HI') as EW.
  pose proof (id_init_weight _ _ _ _ _ _ _ _ HI HCov) as HW. apply id_init_inv in HI as (_ & Hg & He & EA & Eb & Eg & Ee & _). apply id_init_inv in HI' as (_ & _ & _ & EA' & Eb' & Eg' & Ee' & _).
  pose proof Ol as (Fl & _). pose proof Ol' as (Fl' & _).
  assert (Fm : id_feasible ut P bodies mr coms l') by (apply (feasible_same ut P'); congruence || auto).
  assert (Fm' : id_feasible ut P' bodies mr coms l) by (apply (feasible_same ut P); congruence || auto).
  assert (D1 : data_ok r (10 * length bodies) (id_As P) (id_bs P)) by now rewrite EA, Eb. assert (D2 : data_ok r (10 * length bodies) (id_As P') (id_bs P')) by now rewrite EA', Eb'.
  assert (N1 : 0 < id_gamma P -> forall b, In b bodies -> nominal_ok inv (ip_J (bd_params b))) by (rewrite Eg; exact HN). assert (N2 : 0 < id_gamma P' -> forall b, In b bodies -> nominal_ok inv (ip_J (bd_params b))) by (rewrite Eg'; exact HN).
  assert (HW' : weight_ok r (id_W0 P')) by now rewrite EW.
  destruct (id_growth_P ut log_det inv r P bodies mr coms l l' HLD) as (c1 & c2 & C1 & C2 & H1); rewrite ?Eg, ?Ee; auto using bodies_ok_Forall.
  destruct (id_growth_P ut log_det inv r P' bodies mr coms l' l HLD) as (c1' & c2' & C1' & C2' & H2); rewrite ?Eg', ?Ee'; auto using bodies_ok_Forall.
  pose proof Fl as (L1 & T1 & _). pose proof Fl' as (L2 & T2 & _). pose proof (concat10 l _ T1 L1) as X1. pose proof (concat10 l' _ T2 L2) as X2.
  pose proof (fit_data r _ (id_W0 P) As bs bs' (concat l) (concat l') HD HD' HW X1 X2) as FD.
  destruct (id_cost_ok log_det inv P bodies l r D1 HW L1 T1 N1) as (v1 & Js1 & V1 & _ & _ & E1 & A1 & B1).
  destruct (id_cost_ok log_det inv P bodies l' r D1 HW L2 T2 N1) as (v2 & Js2 & V2 & _ & _ & E2 & A2 & B2).
  destruct (id_cost_ok log_det inv P' bodies l r D2 HW' L1 T1 N2) as (v1' & Js1' & V1' & _ & _ & E1' & A1' & B1').
  destruct (id_cost_ok log_det inv P' bodies l' r D2 HW' L2 T2 N2) as (v2' & Js2' & V2' & _ & _ & E2' & A2' & B2').
  rewrite E1 in E1'. rewrite E2 in E2'. apply CylCustom.Ok_eq in E1', E2'. subst Js1' Js2'.
  pose proof (no_pos _ _ _ _ HD) as Hk. rewrite EA, ?EA', ?Eb, ?Eb', ?EW, ?Eg, ?Eg' in *. rewrite <- V1, <- V2, <- V1', <- V2' in FD. set (k := 1 / 2 / INR (length As)) in *. clearbody k.
  assert (ER : response (id_W0 P) As (vsub (concat l) (concat l')) = response (id_W0 P) As (vsub (concat l') (concat l))).
  { assert (HA : forall A, In A As -> length A = r) by (intros A HA; destruct HD as (_ & _ & _ & _ & M & _); apply (M A HA)). rewrite !(response_energy r) by exact HA. unfold energy. f_equal. apply map_ext. intro A.
    rewrite !mat_vec_vsub by congruence. replace (vsub (mat_vec A (concat l)) (mat_vec A (concat l'))) with (vscale (-1) (vsub (mat_vec A (concat l')) (mat_vec A (concat l)))).
    - unfold quad. rewrite mat_vec_vscale, dot_vscale_l, dot_vscale_r. ring.
    - apply (vec_ext (length A)); [len; rewrite ?mat_vec_length; lia ..|]. intros i Hi. rewrite nth_vscale, !nth_vsub by (rewrite !mat_vec_length; reflexivity). ring. }
  rewrite ER in H2. set (e := response _ _ _) in *. clearbody e. set (d := disturbance _ _ _) in *. clearbody d.
  assert (HK : k * (2 * e) <= k * (v2 - v1 + v1' - v2')).
  { destruct (Rlt_le_dec 0 gamma) as [G|G].
    - destruct (B1 G) as (g1 & G1 & Z1). destruct (B2 G) as (g2 & G2 & Z2). destruct (B1' G) as (g1' & G1' & Z1'). destruct (B2' G) as (g2' & G2' & Z2').
      rewrite G1 in G1'. rewrite G2 in G2'. apply CylCustom.Ok_eq in G1', G2'. subst g1' g2'. rewrite Z1 in C1. rewrite Z2 in C2. rewrite Z2' in C1'. rewrite Z1' in C2'. apply CylCustom.Ok_eq in C1, C2, C1', C2'. lra.
    - rewrite (A1 G) in C1. rewrite (A2 G) in C2. rewrite (A2' G) in C1'. rewrite (A1' G) in C2'. apply CylCustom.Ok_eq in C1, C2, C1', C2'. lra. }
  apply Rmult_le_reg_l in HK; [|exact Hk]. lra.
Qed.
(** ** bounds on the parameters *)
Lemma response_lower r c W0 As : (0 < c)%nat -> weight_ok r W0 -> (forall A, In A As -> is_mat r c A) -> determining c As ->
  exists k, 0 < k /\ forall z, length z = c -> norm z ^ 2 <= k * response W0 As z.
Proof.
  intros Hc HW HA HD. destruct (weight_pd r W0 HW) as (MW & PW). destruct (energy_lower r c _ As Hc MW PW HA HD) as (mu & Hmu & H). exists (/ mu). split; [now apply Rinv_0_lt_compat|].
  intros z Lz. rewrite (response_energy r) by (intros A Hi; apply (HA A Hi)). specialize (H z Lz). replace (norm z ^ 2) with (dot z z) by (rewrite <- norm_sqr; ring).
  apply (Rmult_le_reg_l mu); [exact Hmu|]. rewrite <- Rmult_assoc, Rinv_r, Rmult_1_l by lra. exact H.
Qed.
Definition weight_of (inv : mat -> res mat) (Sigma : option mat) : option mat := match Sigma with None => None | Some C => match inv C with Ok W => Some W | _ => None end end.
Lemma init_weight_of inv As bs Sigma gamma eps P : id_init inv As bs Sigma gamma eps = Ok P -> id_W0 P = weight_of inv Sigma.
Proof. intro HI. apply id_init_inv in HI as (_ & _ & _ & _ & _ & _ & _ & H). destruct Sigma as [C|]; [|exact H]. destruct H as (W & E & ->). cbn. now rewrite E. Qed.
Lemma weight_of_ok r inv Sigma : cov_ok r inv Sigma -> weight_ok r (weight_of inv Sigma).
Proof. destruct Sigma as [C|]; [|intros _; exact I]. intros (HS & W & E & HI). cbn. rewrite E. split; [apply HI|]. now apply (inverse_pos_def r C). Qed.
Lemma id_lipschitz inv r As Sigma n : cov_ok r inv Sigma -> (0 < n)%nat -> (forall A, In A As -> is_mat r (10 * n) A) -> determining (10 * n) As ->
  exists k, 0 < k /\ forall ut log_det bodies bs bs' gamma eps P P' mr coms l l', log_det_spec 4 log_det -> length bodies = n -> id_init inv As bs Sigma gamma eps = Ok P -> id_init inv As bs' Sigma gamma eps = Ok P' ->
  data_ok r (10 * length bodies) As bs -> data_ok r (10 * length bodies) As bs' -> nominals_ok gamma inv bodies -> bodies_ok mr bodies -> coms_ok coms bodies ->
  optimal (id_cost log_det inv P bodies) (id_feasible ut P bodies mr coms) l -> optimal (id_cost log_det inv P' bodies) (id_feasible ut P' bodies mr coms) l' ->
  norm (vsub (concat l') (concat l)) ^ 2 <= k * disturbance (id_W0 P) bs bs'.
Proof.
  intros HCov Hb HA HDet. destruct (response_lower r (10 * n) (weight_of inv Sigma) As) as (k & Hk & H); auto using weight_of_ok; [lia|]. exists k. split; [exact Hk|].
  intros ut log_det bodies bs bs' gamma eps P P' mr coms l l' HLD <- HI HI' HD HD' HN HB HC Ol Ol'. pose proof (id_stable ut log_det inv r As bs bs' Sigma gamma eps P P' bodies mr coms l l' HLD HI HI' HCov HD HD' HN HB HC Ol Ol') as HS.
  rewrite (init_weight_of _ _ _ _ _ _ _ HI) in *. pose proof Ol as ((L1 & T1 & _) & _). pose proof Ol' as ((L2 & T2 & _) & _). pose proof (concat10 l _ T1 L1) as X1. pose proof (concat10 l' _ T2 L2) as X2.
  eapply Rle_trans; [apply H; rewrite vsub_length; congruence|]. apply Rmult_le_compat_l; lra.
Qed.
(** the data of true parameters plus noise *)
Lemma id_noise ut log_det inv r As bs bs0 Sigma eps P bodies mr coms l vs : log_det_spec 4 log_det -> id_init inv As bs Sigma 0 eps = Ok P ->
  cov_ok r inv Sigma -> data_ok r (10 * length bodies) As bs -> bodies_ok mr bodies -> coms_ok coms bodies ->
  id_feasible ut P bodies mr coms vs -> explains As bs0 (concat vs) ->
  optimal (id_cost log_det inv P bodies) (id_feasible ut P bodies mr coms) l ->
  response (id_W0 P) As (vsub (concat vs) (concat l)) <= disturbance (id_W0 P) bs bs0.
Proof.
  intros HLD HI HCov HD HB HC Fv HE Ol. assert (HN : nominals_ok 0 inv bodies) by (intro; lra).
  assert (HL : length bs0 = length As) by (apply IdentifyP.Forall2_len in HE; lia).
  assert (HD0 : data_ok r (10 * length bodies) As bs0).
  { destruct HD as (D1 & D2 & D3 & D4 & D5 & D6). repeat (split; [assumption || congruence|]). intros b Hb. clear - HE D5 Hb. induction HE as [|A b' As bs0 EA HE IH]; [easy|]. destruct Hb as [<-|Hb].
    - rewrite <- EA, mat_vec_length. apply D5. now left.
    - apply IH; auto. intros A' HA'. apply D5. now right. }

  assert (exists P', id_init inv As bs0 Sigma 0 eps = Ok P') as (P' & HI0).
  { unfold id_init in *. replace (length bs0) with (length bs) by (destruct HD as (_ & _ & _ & E & _); congruence).
    destruct (assert_ (Nat.eqb (length As) (length bs))); cbn [bind] in *; try discriminate. destruct (assert_ (Rleb 0 0)); cbn [bind] in *; try discriminate. destruct (assert_ (Rleb 0 eps)); cbn [bind] in *; try discriminate.
    destruct Sigma as [C|]; [destruct (inv C)|]; cbn [bind] in *; try discriminate; eauto. }
  pose proof (id_init_weight _ _ _ _ _ _ _ _ HI0 HCov) as HW0. pose proof (id_init_inv _ _ _ _ _ _ _ HI) as (_ & _ & _ & EA & Eb & Eg & Ee & _). pose proof (id_init_inv _ _ _ _ _ _ _ HI0) as (_ & _ & _ & EA' & Eb' & Eg' & Ee' & _).
  apply (id_stable ut log_det inv r As bs bs0 Sigma 0 eps P P' bodies mr coms l vs); auto.
  assert (Fv' : id_feasible ut P' bodies mr coms vs) by (apply (feasible_same ut P); congruence || auto). split; [exact Fv'|]. intros y c Hy Ec. pose proof Fv' as (L1 & L2 & _). pose proof Hy as (L3 & L4 & _).
  assert (D' : data_ok r (10 * length bodies) (id_As P') (id_bs P')) by now rewrite EA', Eb'.
  assert (N' : 0 < id_gamma P' -> forall b, In b bodies -> nominal_ok inv (ip_J (bd_params b))) by (rewrite Eg'; lra).
  destruct (id_cost_ok log_det inv P' bodies vs r D' HW0 L1 L2 N') as (x & Js & _ & _ & X1 & EJ & C1 & _).
  destruct (id_cost_ok log_det inv P' bodies y r D' HW0 L3 L4 N') as (x' & Js' & _ & X0' & _ & EJ' & C1' & _).
  rewrite EA', Eb', Eg' in *. rewrite (proj2 X1 HE) in *. pose proof (no_pos _ _ _ _ HD) as Hp. rewrite C1' in Ec by lra. apply CylCustom.Ok_eq in Ec. subst c. eexists. split; [apply C1; lra|].
  assert (0 <= 1 / 2 / INR (length As) * x') by (apply Rmult_le_pos; lra). lra.
Qed.
(** ** point masses at given points *)
Lemma di_growth_P r P points com x y : data_ok r 10 (id_As P) (id_bs P) -> weight_ok r (id_W0 P) -> (forall p, In p points -> length p = 3%nat) -> (forall s, com = Some s -> exists K, shape_is s K) ->
  optimal (di_cost P) (di_feasible points com) x -> di_feasible points com y ->
  fit_error (id_W0 P) (id_As P) (id_bs P) x + response (id_W0 P) (id_As P) (vsub y x) <= fit_error (id_W0 P) (id_As P) (id_bs P) y.
Proof.
  intros HD HW HP HC (Fx & Ox) Fy. pose proof Fx as (Lx & _). pose proof Fy as (Ly & _). apply small_step. intros t Ht.
  assert (FM : di_feasible points com (vmix (1 - t) t x y)) by (apply di_feasible_mix; auto; lra). pose proof FM as (LM & _).
  rewrite <- (fit_mix_exact r 10 (id_W0 P) _ _ t x y HD HW Lx Ly).
  destruct (di_cost_ok P x r HD HW Lx) as (v1 & E1 & V1 & _). destruct (di_cost_ok P _ r HD HW LM) as (v & E & V & _). rewrite <- V1, <- V.
  destruct (Ox _ _ FM E) as (d & D & X). rewrite E1 in D. apply CylCustom.Ok_eq in D. subst d. pose proof (no_pos _ _ _ _ HD) as Hk. now apply Rmult_le_reg_l in X.
Qed.
Lemma di_growth inv r As bs Sigma gamma eps P points com x y : id_init inv As bs Sigma gamma eps = Ok P -> cov_ok r inv Sigma -> data_ok r 10 As bs -> (forall p, In p points -> length p = 3%nat) -> (forall s, com = Some s -> exists K, shape_is s K) ->
  optimal (di_cost P) (di_feasible points com) x -> di_feasible points com y ->
  fit_error (id_W0 P) As bs x + response (id_W0 P) As (vsub y x) <= fit_error (id_W0 P) As bs y.
Proof.
  intros HI HCov HD HP HC Ox Fy. pose proof (id_init_weight _ _ _ _ _ _ _ _ HI HCov) as HW. apply id_init_inv in HI as (_ & Hg & He & EA & Eb & Eg & Ee & _). subst As bs. now apply di_growth_P with (r := r) (points := points) (com := com).
Qed.
Lemma di_stable inv r As bs bs' Sigma gamma eps P P' points com x y : id_init inv As bs Sigma gamma eps = Ok P -> id_init inv As bs' Sigma gamma eps = Ok P' -> cov_ok r inv Sigma -> data_ok r 10 As bs -> data_ok r 10 As bs' ->
  (forall p, In p points -> length p = 3%nat) -> (forall s, com = Some s -> exists K, shape_is s K) ->
  optimal (di_cost P) (di_feasible points com) x -> optimal (di_cost P') (di_feasible points com) y ->
  response (id_W0 P) As (vsub y x) <= disturbance (id_W0 P) bs bs'.
Proof.
  intros HI HI' HCov HD HD' HP HC Ox Oy. pose proof (init_same _ _ _ _ _ _ _ _ _ HI HI') as EW. pose proof (id_init_weight _ _ _ _ _ _ _ _ HI HCov) as HW.
  pose proof (di_growth _ _ _ _ _ _ _ _ _ _ _ _ HI HCov HD HP HC Ox (proj1 Oy)) as H1. pose proof (di_growth _ _ _ _ _ _ _ _ _ _ _ _ HI' HCov HD' HP HC Oy (proj1 Ox)) as H2. rewrite EW in H2.
  pose proof Ox as ((Lx & _) & _). pose proof Oy as ((Ly & _) & _). pose proof (fit_data r 10 (id_W0 P) As bs bs' x y HD HD' HW Lx Ly) as FD.
  assert (ER : response (id_W0 P) As (vsub x y) = response (id_W0 P) As (vsub y x)).
  { assert (HA : forall A, In A As -> length A = r) by (intros A HA; destruct HD as (_ & _ & _ & _ & M & _); apply (M A HA)). rewrite !(response_energy r) by exact HA. unfold energy. f_equal. apply map_ext. intro A.
    rewrite !mat_vec_vsub by congruence. replace (vsub (mat_vec A x) (mat_vec A y)) with (vscale (-1) (vsub (mat_vec A y) (mat_vec A x))).
    - unfold quad. rewrite mat_vec_vscale, dot_vscale_l, dot_vscale_r. ring.
    - apply (vec_ext (length A)); [len; rewrite ?mat_vec_length; lia ..|]. intros i Hi. rewrite nth_vscale, !nth_vsub by (rewrite !mat_vec_length; reflexivity). ring. }
  lra.
Qed.
(** ** the parameters returned *)
Lemma allowed_bodies eps mr bodies ps : Forall2 (allowed eps mr) bodies ps -> bodies_ok mr bodies.
Proof. intros H E b Hb. pose proof (allowed_body_ok _ _ _ _ H) as F. rewrite Forall_forall in F. exact (F b Hb E). Qed.
Lemma com_allowed_ok coms bodies ps : length ps = length bodies -> com_allowed coms ps -> coms_ok coms bodies.
Proof.
  intros HL HC l ->. cbn in HC. split; [rewrite <- HL; now apply (IdentifyP.Forall2_len _ _ _ HC)|]. clear HL. induction HC as [|s p l ps (K & HK & _) F IH]; [exists []; constructor|]. destruct IH as (Ks & HKs). exists (K :: Ks). now constructor.
Qed.
Lemma id_noise_solve ut log_det inv solver r As bs bs0 Sigma eps P bodies mr coms ps v : log_det_spec 4 log_det -> id_init inv As bs Sigma 0 eps = Ok P -> cov_ok r inv Sigma ->
  data_ok r (10 * length bodies) As bs -> Forall2 (allowed eps mr) bodies ps -> com_allowed coms ps -> stacks ps v -> explains As bs0 v ->
  solved solver (id_cost log_det inv P bodies) (id_feasible ut P bodies mr coms) ->
  forall rs, id_solve ut log_det inv solver P bodies mr coms = Ok rs -> exists w, stacks rs w /\ length w = (10 * length bodies)%nat /\ response (id_W0 P) As (vsub v w) <= disturbance (id_W0 P) bs bs0.
Proof.
  intros HLD HI HCov HD HA HCo (vs & HV & ->) HE (l & ES & HO) rs Hr. pose proof (id_init_weight _ _ _ _ _ _ _ _ HI HCov) as HW. pose proof (id_init_inv _ _ _ _ _ _ _ HI) as (_ & _ & He & EA & Eb & Eg & Ee & _).
  assert (HB : bodies_ok mr bodies) by (eapply allowed_bodies; eauto). assert (HC : coms_ok coms bodies) by (eapply com_allowed_ok; [symmetry; apply (IdentifyP.Forall2_len _ _ _ HA)|exact HCo]).
  assert (HF : id_feasible ut P bodies mr coms vs) by (apply (feasible_of_allowed ut P bodies mr coms ps vs); rewrite ?Ee, ?Eg; auto; intros; lra).
  rewrite (id_solve_run ut log_det inv solver P bodies mr coms r), ES in Hr; rewrite ?EA, ?Eb, ?Ee, ?Eg; auto using bodies_ok_Forall; [|intros; lra|destruct coms; [now apply HC|exact I]].
  exists (concat l). split; [now apply from_vec_stacks|]. pose proof HO as ((L1 & T1 & _) & _). split; [now apply concat10|]. now apply (id_noise ut log_det inv r As bs bs0 Sigma eps P bodies mr coms l vs).
Qed.
Lemma id_noise_bound inv r As Sigma n : cov_ok r inv Sigma -> (0 < n)%nat -> (forall A, In A As -> is_mat r (10 * n) A) -> determining (10 * n) As ->
  exists k, 0 < k /\ forall ut log_det bodies solver bs bs0 eps P mr coms ps v, log_det_spec 4 log_det -> length bodies = n -> id_init inv As bs Sigma 0 eps = Ok P ->
  data_ok r (10 * length bodies) As bs -> Forall2 (allowed eps mr) bodies ps -> com_allowed coms ps -> stacks ps v -> explains As bs0 v ->
  solved solver (id_cost log_det inv P bodies) (id_feasible ut P bodies mr coms) ->
  forall rs, id_solve ut log_det inv solver P bodies mr coms = Ok rs -> exists w, stacks rs w /\ norm (vsub v w) ^ 2 <= k * disturbance (id_W0 P) bs bs0.
Proof.
  intros HCov Hb HA HDet. destruct (response_lower r (10 * n) (weight_of inv Sigma) As) as (k & Hk & H); auto using weight_of_ok; [lia|]. exists k. split; [exact Hk|].
  intros ut log_det bodies solver bs bs0 eps P mr coms ps v HLD <- HI HD HAl HCo HV HE HS rs Hr. destruct (id_noise_solve ut log_det inv solver r As bs bs0 Sigma eps P bodies mr coms ps v HLD HI HCov HD HAl HCo HV HE HS rs Hr) as (w & Hw & Lw & X).
  exists w. split; [exact Hw|]. rewrite (init_weight_of _ _ _ _ _ _ _ HI) in *. 
  assert (Lv : length v = (10 * length bodies)%nat). { destruct HV as (vs & HV & ->). destruct (stack_vecs _ _ _ _ HAl) as (vs' & H1 & H2 & H3 & _). assert (vs' = vs) as ->; [|now apply concat10]. clear -H1 HV. revert vs' H1. induction HV; intros vs' H1; inversion H1; subst; auto. f_equal; [congruence|auto]. }
  eapply Rle_trans; [apply H; rewrite vsub_length; congruence|]. apply Rmult_le_compat_l; lra.
Qed.
(** solutions that are optimal up to a tolerance *)
Lemma id_near inv r As Sigma n : cov_ok r inv Sigma -> (0 < n)%nat -> As <> [] -> (forall A, In A As -> is_mat r (10 * n) A) -> determining (10 * n) As ->
  exists k, 0 < k /\ forall ut log_det bodies bs gamma eps P mr coms l m c1 c2, log_det_spec 4 log_det -> length bodies = n -> id_init inv As bs Sigma gamma eps = Ok P -> data_ok r (10 * length bodies) As bs -> nominals_ok gamma inv bodies -> bodies_ok mr bodies -> coms_ok coms bodies ->
  optimal (id_cost log_det inv P bodies) (id_feasible ut P bodies mr coms) l -> id_feasible ut P bodies mr coms m ->
  id_cost log_det inv P bodies l = Ok c1 -> id_cost log_det inv P bodies m = Ok c2 ->
  norm (vsub (concat m) (concat l)) ^ 2 <= k * (c2 - c1).
Proof.
  intros HCov Hb HNe HA HDet. destruct (response_lower r (10 * n) (weight_of inv Sigma) As) as (k & Hk & H); auto using weight_of_ok; [lia|].
  assert (Hn : 0 < INR (length As)) by (apply lt_0_INR; destruct As; [now destruct HNe|cbn; lia]). exists (k * (2 * INR (length As))). split; [apply Rmult_lt_0_compat; lra|].
  intros ut log_det bodies bs gamma eps P mr coms l m c1 c2 HLD <- HI HD HN HB HC Ol Fm E1 E2. destruct (id_growth ut log_det inv r As bs Sigma gamma eps P bodies mr coms l m HLD HI HCov HD HN HB HC Ol Fm) as (d1 & d2 & D1 & D2 & X).
  rewrite E1 in D1. rewrite E2 in D2. apply CylCustom.Ok_eq in D1, D2. subst d1 d2. rewrite (init_weight_of _ _ _ _ _ _ _ HI) in *. pose proof Ol as ((L1 & T1 & _) & _). pose proof Fm as (L2 & T2 & _). pose proof (concat10 l _ T1 L1) as X1. pose proof (concat10 m _ T2 L2) as X2.
  eapply Rle_trans; [apply H; rewrite vsub_length; congruence|]. rewrite Rmult_assoc. apply Rmult_le_compat_l; [lra|]. set (e := response _ _ _) in *. clearbody e.
  apply (Rmult_le_reg_l (1 / (2 * INR (length As)))); [apply Rdiv_lt_0_compat; lra|]. replace (1 / (2 * INR (length As)) * (2 * INR (length As) * (c2 - c1))) with (c2 - c1) by (field; lra). lra.
Qed.
