(** C99: extreme values of linear functions of the pseudo-inertia matrix. *)
From Coq Require Import Classical.
From Verif Require Import Base.Vec Base.VecFacts Spec.Basic Spec.Objects Spec.Realizable Spec.Moments Spec.Shapes Spec.ShapeObjects Spec.PolySpec Spec.Bodies Spec.Quadratic Spec.Cone Spec.Extreme
  Model.Util Model.Constraint Model.Inertial Model.Moment Model.Polydd Model.Poly Model.Ellipsoid Model.Box Model.Cylinder Model.Realize Model.RigidBody Model.Drip
  Proofs.Coord Proofs.LinAlg Proofs.MatAlg Proofs.UtilP Proofs.InertialP Proofs.BoxP Proofs.CylP Proofs.PimP Proofs.Hull Proofs.PolynomialP Proofs.BasisP Proofs.SdpP Proofs.MomentP Proofs.VertexP Proofs.SdpSound Proofs.SdpGap Proofs.SdpGapW Proofs.SdpLimit Proofs.SdpLimitB Proofs.SdpLimitW Proofs.SdpClosed Proofs.DualBox Proofs.DualPoly Proofs.CylCustom Proofs.Compact Proofs.ClosestE Proofs.Exist Proofs.ExistB Proofs.Decomp Proofs.InertialT Proofs.RealizeE Proofs.RealizeX Proofs.RealizeW Proofs.CylExact Proofs.DripCut.

Lemma drip_accepts mass cs J : accepts (dr_constraints (setup_drip_problem mass cs) J) <-> PSD 4 J /\ entry J 3 3 = mass /\ accepts (cs (PVmat J)).
Proof.
  cbn [dr_constraints setup_drip_problem]. split.
  - intros (P & E & HP). apply bind_inv in E as (P' & E & E'). apply Ok_eq in E'. subst P. destruct HP as ((M & T & HQ) & Hm & HP). split; [split; [exact M|split; [now apply transpose_symmetric|exact HQ]]|]. split; [exact Hm|]. now exists P'.
  - intros (HP & Hm & P' & E & H'). rewrite E. cbn [bind]. eexists. split; [reflexivity|]. split; [now apply PSD_var; [lia|]|]. split; assumption.
Qed.
Lemma reached_iff mass cs D v : reached (setup_drip_problem mass cs) D v <-> exists J, PSD 4 J /\ entry J 3 3 = mass /\ accepts (cs (PVmat J)) /\ qint D J = v.
Proof.
  unfold reached. split.
  - intros (J & HA & E). apply drip_accepts in HA as (H1 & H2 & H3). now exists J.
  - intros (J & H1 & H2 & H3 & E). exists J. split; [now apply drip_accepts|exact E].
Qed.
(** ** continuous functions on compact sets *)
Lemma compact_below n K f : compact n K -> contR n f -> exists B, forall z, length z = n -> K z -> B <= f z.
Proof.
  intros HK Hf. apply NNPP. intro X. destruct (HK (fun e z => f z <= - / e)) as (a & La & Ka & Ha).
  - intros e e' z He H. eapply Rle_trans; [exact H|]. apply Ropp_le_contravar, Rinv_le_contravar; lra.
  - intros e He. apply NNPP. intro Y. apply X. exists (- / e). intros z Lz Kz. apply Rnot_lt_le. intro L. apply Y. exists z. split; [auto|]. split; [auto|]. lra.
  - destruct (Hf a 1 La ltac:(lra)) as (e0 & He0 & HN). set (e := Rmin e0 (/ (Rabs (f a) + 2))). assert (PA : 0 < Rabs (f a) + 2) by (pose proof (Rabs_pos (f a)); lra).
    assert (He : 0 < e) by (apply Rmin_pos; [lra|now apply Rinv_0_lt_compat]). destruct (Ha e He) as (z & Lz & Kz & Fz & Nz). specialize (HN z Lz (near_le n e e0 z a (Rmin_l _ _) Nz)). apply abs_le_inv in HN.
    assert (I : Rabs (f a) + 2 <= / e) by (rewrite <- (Rinv_inv (Rabs (f a) + 2)); apply Rinv_le_contravar; [exact He|apply Rmin_r]). pose proof (Rle_abs (- f a)) as A. rewrite Rabs_Ropp in A. lra.
Qed.
Lemma contR_qval D : is_mat 4 4 D -> contR 3 (fun x => qval D x).
Proof.
  intro HD. apply (contR_ext 3 _ (fun x => rsum 4 (fun i => rsum 4 (fun j => entry D i j * ((if Nat.eqb i 3 then 1 else nth i x 0) * (if Nat.eqb j 3 then 1 else nth j x 0)))))).
  - intros x Lx. rewrite qval_qsum by auto. unfold qsum. apply rsum_ext. intros i Hi. apply rsum_ext. intros j Hj. unfold mom2. clear HD. destruct_vecs. destruct i as [|[|[|[|i]]]]; try lia; destruct j as [|[|[|[|j]]]]; try lia; cbn; ring.
  - apply contR_rsum. intros i Hi. apply contR_rsum. intros j Hj. apply contR_mult; [apply contR_const|]. apply contR_mult.
    + destruct (Nat.eqb i 3); [apply contR_const|apply contR_nth].
    + destruct (Nat.eqb j 3); [apply contR_const|apply contR_nth].
Qed.
Lemma largest_exists s K D : shape_is s K -> is_mat 4 4 D -> exists q, largest_on K D q.
Proof.
  intros HS HD. pose proof (shape_compact s K HS) as HK. pose proof (contR_opp 3 _ (contR_qval D HD)) as HC. destruct (compact_below 3 K _ HK HC) as (B & HB).
  destruct (compact_min 3 K _ B HK HC (shape_nonempty s K HS) HB) as (a & La & Ka & Ha). exists (qval D a). split; [eauto|]. intros x Lx Kx. specialize (Ha x Lx Kx). cbv beta in Ha. lra.
Qed.
Lemma largest_unique K D q q' : largest_on K D q -> largest_on K D q' -> q = q'.
Proof. intros ((x & Lx & Kx & E) & H) ((x' & Lx' & Kx' & E') & H'). specialize (H x' Lx' Kx'). specialize (H' x Lx Kx). lra. Qed.
(** ** realizable matrices *)
Lemma pim_mass s J : pim_of s J -> pms_ok s -> entry J 3 3 = pms_mass s.
Proof.
  intros (_ & H) Ho. rewrite H by lia. unfold pms_mass. f_equal. apply map_ext_in. intros mp Hm. specialize (Ho mp Hm). destruct mp as (m & p). cbn in *. destruct_vecs. cbn. ring.
Qed.
Lemma exact_upper K D q J : is_mat 4 4 D -> largest_on K D q -> realizable_J K J -> qint D J <= entry J 3 3 * q.
Proof.
  intros HD (_ & Hq) (s & Ho & Hn & Hi & HP). rewrite (qint_pim D J s) by auto. rewrite (pim_mass s J) by auto. unfold pms_mass. clear HP. induction s as [|mp s IH]; [cbn; lra|]. cbn [map]. rewrite !lsum_c.
  assert (fst mp * qval D (snd mp) <= fst mp * q) by (apply Rmult_le_compat_l; [apply Hn; now left|apply Hq; [apply Ho|apply Hi]; now left]).
  assert (lsum (map (fun mp => fst mp * qval D (snd mp)) s) <= lsum (map fst s) * q) by (apply IH; intros m Hm; [apply Ho|apply Hn|apply Hi]; now right). lra.
Qed.
Lemma exact_point (K : vec -> Prop) D x m : is_mat 4 4 D -> length x = 3%nat -> K x -> 0 <= m -> exists J, PSD 4 J /\ entry J 3 3 = m /\ realizable_J K J /\ qint D J = m * qval D x.
Proof.
  intros HD Lx Kx Hm. set (X := outer (x ++ [1]) (x ++ [1])). destruct (outer_ok (x ++ [1]) (hom_length x 1 Lx)) as (MX & SX). assert (R1 : realizable_J K (mscale m X)) by (apply realizable_scale; [auto|now apply realizable_point]).
  exists (mscale m X). split; [now apply (realizable_psd K)|]. split; [|split; [exact R1|]].
  - rewrite entry_mscale. unfold X. rewrite entry_outer. clear - Lx. destruct_vecs. cbn. ring.
  - rewrite qint_scale by auto. unfold X. rewrite qint_outer by (auto; now apply hom_length). reflexivity.
Qed.
(** ** bounded problems *)
Definition bounded_cs (cs : param_var -> res Prop) : Prop :=
  exists B, 0 <= B /\ forall J, PSD 4 J -> accepts (cs (PVmat J)) -> forall i, (i < 3)%nat -> entry J i i <= B * entry J 3 3.
Lemma zeros_sym : symmetric 4 (zeros2 4 4).
Proof. intros i j Hi Hj. now rewrite !entry_zeros2. Qed.
Lemma qint_bound D J T : is_mat 4 4 D -> PSD 4 J -> entry J 0 0 + entry J 1 1 + entry J 2 2 + entry J 3 3 <= T -> Rabs (qint D J) <= T * rsum 4 (fun i => rsum 4 (fun j => Rabs (entry D i j))).
Proof.
  intros HD HP HT. pose proof HP as (MJ & SJ & _). rewrite <- (Rminus_0_r (qint D J)), <- (qint_zero D HD). apply qint_near; auto using is_mat_zeros2, zeros_sym.
  intros i j Hi Hj. rewrite entry_zeros2, Rminus_0_r. eapply Rle_trans; [now apply psd_entry_bound|exact HT].
Qed.
Lemma value_exists mass cs D : is_mat 4 4 D -> 0 <= mass -> bounded_cs cs -> (exists v, reached (setup_drip_problem mass cs) D v) -> exists v, drip_value (setup_drip_problem mass cs) D v.
Proof.
  intros HD Hm (B & B0 & HB) HN. destruct (completeness (reached (setup_drip_problem mass cs) D)) as (v & Hv); [|exact HN|now exists v].
  exists (((3 * B + 1) * mass) * rsum 4 (fun i => rsum 4 (fun j => Rabs (entry D i j)))). intros v Hv. apply reached_iff in Hv as (J & HP & EM & HA & <-). eapply Rle_trans; [apply Rle_abs|]. apply qint_bound; auto.
  pose proof (HB J HP HA 0%nat ltac:(lia)). pose proof (HB J HP HA 1%nat ltac:(lia)). pose proof (HB J HP HA 2%nat ltac:(lia)). rewrite EM in *. lra.
Qed.
Definition closed_cs (cs : param_var -> res Prop) : Prop := forall J, is_mat 4 4 J -> symmetric 4 J ->
  (forall e, 0 < e -> exists J', closeJ e J' J /\ PSD 4 J' /\ accepts (cs (PVmat J'))) -> accepts (cs (PVmat J)).
Lemma trace4 M : is_mat 4 4 M -> trace M = entry M 0 0 + entry M 1 1 + entry M 2 2 + entry M 3 3.
Proof. intros HM. destruct_vecs. unfold trace, entry. cbn. ring. Qed.
Lemma psd_lim t : length t = 10%nat -> (forall e, 0 < e -> exists z, length z = 10%nat /\ PSD 4 (Jof z) /\ near 10 e z t) -> PSD 4 (Jof t).
Proof.
  intros Lt H. destruct (Jof_ok t Lt) as (_ & M & S). split; [exact M|]. split; [exact S|]. intros z Lz. assert (Q : 0 * dot z z <= quad (Jof t) z); [|lra]. apply psd_closed; auto.
  intros e He. destruct (H e He) as (y & Ly & (_ & _ & PY) & Ny). exists y. split; [auto|]. split; [auto|]. intros x Lx. specialize (PY x Lx). lra.
Qed.
Lemma entry_lim t i j v : length t = 10%nat -> (i < 4)%nat -> (j < 4)%nat -> (forall e, 0 < e -> exists z, length z = 10%nat /\ entry (Jof z) i j = v /\ near 10 e z t) -> entry (Jof t) i j = v.
Proof.
  intros Lt Hi Hj H. apply Rminus_diag_uniq, zero_if_small. intros e He. destruct (H (e / 2) ltac:(lra)) as (z & Lz & <- & Nz). rewrite Rabs_minus_sym. pose proof (near_closeJ (e / 2) z t Lz Lt Nz i j Hi Hj) as C. lra.
Qed.
Lemma max_exists mass cs D : is_mat 4 4 D -> 0 <= mass -> bounded_cs cs -> closed_cs cs -> (exists v, reached (setup_drip_problem mass cs) D v) -> exists v, drip_max (setup_drip_problem mass cs) D v.
Proof.
  intros HD Hm (B & B0 & HB) HC (v0 & Hv0). set (K := fun t : vec => PSD 4 (Jof t) /\ entry (Jof t) 3 3 = mass /\ accepts (cs (PVmat (Jof t)))).
  assert (HK : compact 10 K).
  { apply (compact_closed 10 ((3 * B + 1) * mass)).
    - intros z Lz (HP & EM & HA) i Hi. rewrite nth_zeros, Rminus_0_r. eapply Rle_trans; [now apply theta_bound|]. rewrite trace4 by apply HP.
      pose proof (HB _ HP HA 0%nat ltac:(lia)). pose proof (HB _ HP HA 1%nat ltac:(lia)). pose proof (HB _ HP HA 2%nat ltac:(lia)). rewrite EM in *. lra.
    - intros a La H. split; [|split].
      + apply psd_lim; auto. intros e He. destruct (H e He) as (z & Lz & (H1 & _) & N). eauto.
      + apply entry_lim; auto; try lia. intros e He. destruct (H e He) as (z & Lz & (_ & H1 & _) & N). eauto.
      + destruct (Jof_ok a La) as (_ & MA & SA). apply HC; auto. intros e He. destruct (H (e / 2) ltac:(lra)) as (z & Lz & (H1 & _ & H2) & N). exists (Jof z). split; [|auto]. intros i j Hi Hj. pose proof (near_closeJ _ _ _ Lz La N i j Hi Hj). lra. }
  assert (HF : contR 10 (fun t => - qint D (Jof t))) by (apply contR_opp; now apply contR_tr).
  destruct (compact_below 10 K _ HK HF) as (b & Hb). destruct (compact_min 10 K _ b HK HF) as (a & La & (A1 & A2 & A3) & Ha); [|exact Hb|].
  - apply reached_iff in Hv0 as (J & HP & EM & HA & _). exists (thof J). split; [reflexivity|]. unfold K. rewrite Jof_thof by apply HP. auto.
  - assert (R0 : reached (setup_drip_problem mass cs) D (qint D (Jof a))) by (apply reached_iff; exists (Jof a); auto). exists (qint D (Jof a)). split; [|exact R0]. split; [|intros u Hu; now apply Hu].
    intros w Hw. apply reached_iff in Hw as (J & HP & EM & HA & <-). specialize (Ha (thof J) eq_refl). unfold K in Ha. rewrite Jof_thof in Ha by apply HP. specialize (Ha (conj HP (conj EM HA))). lra.
Qed.
(** ** the moment problems of a box *)
Lemma box_centre h c r b : box_init h c r = Ok b -> orthogonal 3 (pose_rot 3 r) -> length (pose_tr 3 c) = 3%nat /\ box_set h (pose_rot 3 r) (pose_tr 3 c) (pose_tr 3 c).
Proof.
  intros Hb HQ. pose proof (box_init_inv _ _ _ _ Hb) as (Lh & Ph0 & _ & E2 & E3 & MQ & Lc & _). rewrite E3 in MQ. rewrite E2 in Lc. split; [exact Lc|]. exists (zeros 3). split.
  - clear - Lh Ph0. split; [now rewrite Lh|]. intros k Hk. rewrite nth_zeros, Rabs_R0. apply Ph0. lia.
  - revert MQ Lc. clear. generalize (pose_rot 3 r), (pose_tr 3 c). intros Q t MQ Lc. destruct_vecs. unfold move. cbn. list_eq; ring.
Qed.
Lemma box_moment_bound h c r b : box_init h c r = Ok b -> orthogonal 3 (pose_rot 3 r) ->
  exists B, 0 <= B /\ forall d J, (2 <= d)%nat -> PSD 4 J -> accepts (poly_moment_sdp_constraints (b_poly b) (PVmat J) 0 d) -> forall i, (i < 3)%nat -> entry J i i <= B * entry J 3 3.
Proof.
  intros Hb HQ. destruct (SdpP.box_faces h c r b Hb HQ) as (Hd & LA & HF & HL). pose proof (box_init_inv _ _ _ _ Hb) as (Lh & Ph0 & _ & E2 & E3 & MQ & Lc & _). rewrite E3 in MQ. rewrite E2 in Lc.
  destruct (box_centre h c r b Hb HQ) as (_ & HCt). assert (HX : exists x, length x = 3%nat /\ halfspaces (p_A (b_poly b)) (p_b (b_poly b)) x) by (exists (pose_tr 3 c); split; [exact Lc|]; apply (halfspaces_box h c r b); auto).
  destruct (box_set_bounded h (pose_rot 3 r) (pose_tr 3 c) MQ Lc Lh) as (B & HB).
  destruct (faces_bound (p_A (b_poly b)) (p_b (b_poly b)) B) as (rr & Hr & HQ2); auto; [intros x i Lx Hx; apply HB; [exact Lx|]; now apply (halfspaces_box h c r b)|].
  exists (rr * rr). split; [nra|]. intros d J Hdd HP (P & E & HPP) i Hi. pose proof HP as (MJ & SJ & _).
  destruct (box_mono h c r b (PVmat J) J 0 Hb HQ eq_refl MJ ltac:(lra) 2%nat d P ltac:(lia) E HPP) as (P2 & EP2 & HP2). rewrite poly_constraints_J in EP2 by auto.
  assert (HS : forall p, In p (p_polys (b_poly b)) -> poly_small 2 p).
  { intros p Hp. apply p_polys_in in Hp as (k & Hk & ->); [|auto]. destruct (affine_small (nth k (p_A (b_poly b)) []) (nth k (p_b (b_poly b)) 0)) as (O & deg & F1 & F2); [apply LA, nth_In, Hk|apply HF, Hk|]. split; [exact O|]. exists deg. split; [exact F1|lia]. }
  destruct (sdp_for_inv J (p_polys (b_poly b)) 2 P2 ltac:(lia) HS EP2 HP2) as (ell & Hf & Hm).
  assert (V : forall k z, In k [[1;0;0]; [0;1;0]; [0;0;1]]%nat -> length z = 4%nat -> 0 <= rr * Qw ell [0;0;0]%nat z + Qw ell k z /\ 0 <= rr * Qw ell [0;0;0]%nat z - Qw ell k z).
  { intros k z Hk Lz. apply HQ2; [now apply (feasible_Q0 ell (p_polys (b_poly b)))| |exact Hk]. intros a t Hin. now apply (faces_QF ell (p_A (b_poly b)) (p_b (b_poly b))). }
  destruct Hm as (M1 & M2 & M3). rewrite (M3 i i) by auto. rewrite M1. rewrite basis_32. unfold Qw, quad, hmat in V. rewrite basis_31 in V. clear - V Hr Hi.
  destruct i as [|[|[|i]]]; try lia.
  - pose proof (proj1 (V [1;0;0]%nat [rr;-1;0;0] ltac:(cbn; auto) eq_refl)) as W. pose proof (proj2 (V [1;0;0]%nat [rr;1;0;0] ltac:(cbn; auto) eq_refl)) as W'. unfold dot in W, W'. cbn in *. apply (Rmult_le_reg_l rr); [exact Hr|]. lra.
  - pose proof (proj1 (V [0;1;0]%nat [rr;0;-1;0] ltac:(cbn; auto) eq_refl)) as W. pose proof (proj2 (V [0;1;0]%nat [rr;0;1;0] ltac:(cbn; auto) eq_refl)) as W'. unfold dot in W, W'. cbn in *. apply (Rmult_le_reg_l rr); [exact Hr|]. lra.
  - pose proof (proj1 (V [0;0;1]%nat [rr;0;0;-1] ltac:(cbn; auto) eq_refl)) as W. pose proof (proj2 (V [0;0;1]%nat [rr;0;0;1] ltac:(cbn; auto) eq_refl)) as W'. unfold dot in W, W'. cbn in *. apply (Rmult_le_reg_l rr); [exact Hr|]. lra.
Qed.
(** ** the moment problems of a cylinder *)
Lemma lmat_at ell tbl k v deg z : In (k, v) tbl -> v <> 0 -> (0 < degree_of k)%nat -> NoDup (map fst tbl) -> (forall kv, In kv tbl -> (degree_of (fst kv) <= 2)%nat) ->
  pol_degree (pol_init tbl 0) = Ok deg -> PSD (length (basis_list 3 (2 - half_up deg))) (lmat ell (pol_init tbl 0) (basis_list 3 (2 - half_up deg))) -> length z = 4%nat ->
  0 <= quad (lmat ell (pol_init tbl 0) (basis_list 3 1)) z.
Proof.
  intros Hin Nv Dk ND Hb E H Lz. rewrite (small_degree (pol_init tbl 0)) with (deg := deg) in H; [| | |exact E].
  - change (2 - 1)%nat with 1%nat in H. destruct H as (_ & _ & H). apply H. rewrite basis_31. exact Lz.
  - exists (k, v). split; [|exact Dk]. rewrite pol_init_filter by exact ND. apply filter_In. split; [exact Hin|]. cbn [snd]. destruct (isclose 0 0 v 0) eqn:Ei; [apply isclose_zero in Ei; contradiction|reflexivity].
  - intros kv Hk. rewrite pol_init_filter in Hk by exact ND. apply filter_In in Hk as (Hk & _). auto.
Qed.
Lemma cyl_local_bound c J0 P : 0 <= c_length c -> sdp_for J0 (cyl_poly0s c) 2 = Ok P -> P -> PSD 4 J0 ->
  let h := 1 / 2 * c_length c in entry J0 0 0 + entry J0 1 1 <= c_radius c ^ 2 * entry J0 3 3 /\ 4 * entry J0 2 2 <= 2 * h * ((h + 1) * (h + 1)) * entry J0 3 3.
Proof.
  intros HL E HP PJ h. assert (Hh : 0 <= h) by (unfold h; lra). destruct (sdp_for_inv J0 (cyl_poly0s c) 2 P ltac:(lia) (cyl_polys_small c 2 ltac:(lia)) E HP) as (ell & Hf & (M1 & M2 & M3)).
  assert (ND2 : NoDup [[0; 0; 1]%nat; [0; 0; 0]%nat]) by (repeat constructor; cbn; intuition discriminate).
  assert (ND3 : NoDup [[2; 0; 0]%nat; [0; 2; 0]%nat; [0; 0; 0]%nat]) by (repeat constructor; cbn; intuition discriminate).
  assert (D : forall p, In p (cyl_poly0s c) -> exists deg, pol_degree p = Ok deg) by (intros p Hp; destruct (cyl_polys2 c p Hp) as (_ & deg & Ed & _); eauto).
  destruct Hf as (_ & Hf). unfold cyl_poly0s in Hf, D. fold h in Hf, D.
  destruct (D _ (or_introl eq_refl)) as (d1 & D1). destruct (D _ (or_intror (or_introl eq_refl))) as (d2 & D2). destruct (D _ (or_intror (or_intror (or_introl eq_refl)))) as (d3 & D3).
  pose proof (Hf _ d1 (or_introl eq_refl) D1) as F1. pose proof (Hf _ d2 (or_intror (or_introl eq_refl)) D2) as F2. pose proof (Hf _ d3 (or_intror (or_intror (or_introl eq_refl))) D3) as F3.
  assert (G1 := lmat_at ell [([0; 0; 1]%nat, 1); ([0; 0; 0]%nat, h)] [0;0;1]%nat 1 d1 [h + 1; 0; 0; -1] (or_introl eq_refl) ltac:(lra) ltac:(cbn; lia) ND2 ltac:(intros kv [<-|[<-|[]]]; cbn; lia) D1 F1 eq_refl).
  assert (G2 := lmat_at ell [([0; 0; 1]%nat, -1); ([0; 0; 0]%nat, h)] [0;0;1]%nat (-1) d2 [h + 1; 0; 0; 1] (or_introl eq_refl) ltac:(lra) ltac:(cbn; lia) ND2 ltac:(intros kv [<-|[<-|[]]]; cbn; lia) D2 F2 eq_refl).
  assert (G3 := lmat_at ell [([2; 0; 0]%nat, -1); ([0; 2; 0]%nat, -1); ([0; 0; 0]%nat, c_radius c ^ 2)] [2;0;0]%nat (-1) d3 [1; 0; 0; 0] (or_introl eq_refl) ltac:(lra) ltac:(cbn; lia) ND3 ltac:(intros kv [<-|[<-|[<-|[]]]]; cbn; lia) D3 F3 eq_refl).
  clear Hf D D1 D2 D3 F1 F2 F3. unfold quad, lmat in G1, G2, G3. rewrite basis_31 in G1, G2, G3. cbn [map] in G1, G2, G3. rewrite !functional_init in G1, G2 by exact ND2. rewrite !functional_init in G3 by exact ND3.
  pose proof (fpsd_diag 4 (entry J0) 2 ltac:(now apply fpsd_of_PSD) ltac:(lia)) as N2. rewrite (M3 2%nat 2%nat) in * by lia. rewrite (M3 0%nat 0%nat), (M3 1%nat 1%nat), M1 in * by lia. rewrite basis_32 in *.
  clear E HP PJ M1 M2 M3 HL. unfold functional, dot in G1, G2, G3. cbn in G1, G2, G3, N2 |- *. set (e0 := ell [0;0;0]%nat) in *. set (e2 := ell [0;0;2]%nat) in *. split; [lra|]. clear - G1 G2 N2 Hh. pose proof (Rmult_le_pos _ _ Hh N2) as HN. lra.
Qed.
Lemma cyl_moment_bound L R0 ro co c : cyl_init L R0 ro co = Ok c -> orthogonal 3 (pose_rot 3 ro) ->
  exists B, 0 <= B /\ forall d J, (2 <= d)%nat -> PSD 4 J -> accepts (cyl_moment_sdp_constraints c (PVmat J) 0 d) -> forall i, (i < 3)%nat -> entry J i i <= B * entry J 3 3.
Proof.
  intros Hc HQ. pose proof (cyl_init_inv _ _ _ _ _ Hc) as (HL & HR & MQ & Lc & Ec). set (Q := pose_rot 3 ro) in *. set (t := pose_tr 3 co) in *. assert (MQT : is_mat 3 3 (transpose Q)) by (apply is_mat_transpose; auto; lia).
  set (t' := to_local Q t (zeros 3)). assert (Lt' : length t' = 3%nat) by (apply to_local_length; auto). destruct (local_J_close (transpose Q) t' MQT Lt') as (k & Hk & Hcl).
  set (h := 1 / 2 * L). assert (Hh : 0 <= h) by (unfold h; lra). set (C := R0 ^ 2 + h * ((h + 1) * (h + 1)) / 2 + 1). assert (HC : 0 <= C) by (unfold C; assert (0 <= h * ((h + 1) * (h + 1))) by (apply Rmult_le_pos; nra); pose proof (pow2_ge_0 R0); lra).
  exists (k * C). split; [nra|]. intros d J Hd HP (P & E & HPP) i Hi. pose proof HP as (MJ & SJ & _).
  destruct (cyl_mono c (PVmat J) J 0 eq_refl MJ ltac:(lra) 2%nat d P ltac:(lia) E HPP) as (P2 & EP2 & HP2).
  unfold cyl_moment_sdp_constraints in EP2. rewrite (pv_ok (PVmat J) J 0 eq_refl MJ ltac:(lra)) in EP2. cbn [bind fst] in EP2. assert (Er : c_rot c = Q) by (rewrite Ec; reflexivity). assert (Et : c_center c = t) by (rewrite Ec; reflexivity). rewrite Er, Et in EP2.
  rewrite (proj1 (transform_inv_ok Q t MQ Lc)) in EP2. cbn [bind] in EP2. fold (local_J Q t J) in EP2. pose proof (local_J_psd' Q t J MQ Lc HP) as P0. assert (EL : c_length c = L) by (rewrite Ec; reflexivity). assert (ER : c_radius c = R0) by (rewrite Ec; reflexivity).
  destruct (cyl_local_bound c (local_J Q t J) P2 ltac:(lra) EP2 HP2 P0) as (B1 & B2). rewrite EL in B2. rewrite ER in B1. fold h in B2.
  assert (E33 : entry (local_J Q t J) 3 3 = entry J 3 3) by (apply (local_J_last Q t J); auto).
  rewrite E33 in *. assert (CZ : closeJ (C * entry J 3 3) (local_J Q t J) (zeros2 4 4)).
  { intros a b Ha Hb. rewrite entry_zeros2, Rminus_0_r. eapply Rle_trans; [now apply psd_entry_bound|]. rewrite E33. unfold C. lra. }
  pose proof (Hcl _ _ _ (is_mat_zeros2 4 4) (proj1 P0) CZ i i ltac:(lia) ltac:(lia)) as CC. replace (local_J (transpose Q) t' (local_J Q t J)) with J in CC by (symmetry; now apply local_back).
  assert (EZ : entry (local_J (transpose Q) t' (zeros2 4 4)) i i = 0).
  { rewrite local_J_entry by (auto using is_mat_zeros2; lia). rewrite (rsum_ext 4 _ (fun _ => 0)); [unfold rsum; ring|]. intros b Hb. rewrite (rsum_ext 4 _ (fun _ => 0)); [unfold rsum; ring|]. intros a Ha. rewrite entry_zeros2. ring. }
  rewrite EZ, Rminus_0_r in CC. eapply Rle_trans; [apply Rle_abs|]. rewrite Rmult_assoc. exact CC.
Qed.
