(** ConvexPolyhedron.mie of affinely mapped polyhedra. *)
From Verif Require Import Base.Vec Base.VecFacts Base.Ext Spec.Basic Spec.Shapes Spec.ShapeObjects Spec.DoubleDesc Spec.PolySpec Spec.ExtremalSpec Spec.Geodesic Spec.John Model.Util Model.Polydd Model.Constraint Model.Ellipsoid Model.Poly Model.Extremal
  Proofs.LinAlg Proofs.BoxP Proofs.SampleDD Proofs.PolyP Proofs.DDP Proofs.ExtremalEx Proofs.Hull Proofs.EllP Proofs.ConstructP Proofs.MatAlg Proofs.Coord Proofs.Decomp Proofs.Spectral Proofs.GeodesicP Proofs.ExtremalP Proofs.ExtremalOpt Proofs.LogDet Proofs.JohnU Proofs.JohnE Proofs.JohnX Proofs.JohnR Proofs.JohnM Proofs.JohnEx Proofs.OracleP Proofs.SimilarP Proofs.AffineP Proofs.SymmetryP.

(** A chart of a set is carried to a chart of its image *)
Lemma chart_image d T T' t (H1 H2 : vec -> Prop) k R r W S S' : (0 < d)%nat -> inverse d T T' -> length t = d -> (forall x, H1 x -> length x = d) ->
  (forall x, H2 x <-> exists q, H1 q /\ x = move T t q) -> chart d H1 k R r ->
  orthonormal d k W -> inverse k S S' -> (forall y, length y = k -> mat_vec T (mat_vec R y) = mat_vec W (mat_vec S y)) -> chart d H2 k W (move T t r).
Proof.
  intros Hd HT Lt HH HE (P & O & L & C & SP & Hr) OW IS EW. pose proof O as (MR & _). pose proof OW as (MW & _). pose proof HT as (MT & MT' & _). pose proof IS as (MS & MS' & S1 & S2).
  pose proof (is_mat_transpose _ _ _ MR Hd) as TR. pose proof (is_mat_transpose _ _ _ MT Hd) as TT. assert (LR : length R = d) by apply MR. assert (LW : length W = d) by apply MW. assert (LT : length T = d) by apply MT. assert (LS : length S = k) by apply MS. assert (LS' : length S' = k) by apply MS'. assert (LTR : length (transpose R) = k) by apply TR. assert (LTT : length (transpose T) = d) by apply TT.
  split; [exact P|]. split; [exact OW|]. split; [apply (am_len d T T' HT t Lt)|]. split; [|split].
  - intros x Hx. apply HE in Hx as (q & Hq & ->). rewrite (am_sub d T T' HT t Lt) by auto. rewrite <- (C q Hq). rewrite EW by len. now rewrite (orthonormal_apply d k W) by (auto; len).
  - intros y Ly HY. set (g := mat_vec (transpose T) (mat_vec W y)). assert (Lg : length g = d) by (unfold g; len).
    assert (G : forall q q', H1 q -> H1 q' -> dot g q = dot g q').
    { intros q q' Hq Hq'. pose proof (HY (move T t q) (move T t q') (proj2 (HE _) (ex_intro _ q (conj Hq eq_refl))) (proj2 (HE _) (ex_intro _ q' (conj Hq' eq_refl)))) as E.
      pose proof (HH _ Hq) as Lq. pose proof (HH _ Hq') as Lq'. unfold move in E. rewrite !dot_vadd_r in E by len. rewrite !(dot_mat_vec_t d d) in E by (auto; len). fold g in E. lra. }
    assert (Z : mat_vec (transpose R) g = zeros k).
    { apply SP; [len|]. intros x x' Hx Hx'. assert (E : forall x, H1 x -> dot (mat_vec R (mat_vec (transpose R) g)) (vsub x r) = dot g (vsub x r)).
      { intros z Hz. pose proof (HH _ Hz) as Lz. rewrite dot_comm. rewrite (dot_mat_vec_t d k) by (auto; len). rewrite dot_comm. rewrite <- (dot_mat_vec_t d k) by (auto; len). now rewrite (C z Hz). }
      pose proof (HH _ Hx) as Lx. pose proof (HH _ Hx') as Lx'. pose proof (E x Hx) as E1. pose proof (E x' Hx') as E2. rewrite !dot_vsub_r in E1, E2 by len. pose proof (G x x' Hx Hx'). lra. }
    assert (N : dot y y = 0).
    { replace y with (mat_vec S (mat_vec S' y)) at 2 by (rewrite <- (mat_vec_mat_mul k k k) by auto; rewrite S1; now apply mat_vec_eye). set (v := mat_vec S' y). assert (Lv : length v = k) by (unfold v; len).
      rewrite <- (orthonormal_dot d k W) by (auto; len). rewrite <- EW by auto. rewrite (dot_mat_vec_t d d) by (auto; len). fold g. rewrite (dot_mat_vec_t d k) by auto. rewrite Z. apply dot_zeros_l. }
    apply dot_self_zero in N. now rewrite Ly in N.
  - apply HE. eauto.
Qed.

Lemma poly_mie_affine d T T' t p1 p2 k1 dd1 orth1 null1 eigh1 inv1 solver1 k2 dd2 orth2 null2 eigh2 inv2 solver2 :
  (0 < d)%nat -> inverse d T T' -> length t = d -> (forall x, In x (p_vertices p1) -> length x = d) -> (forall x, In x (p_vertices p2) -> length x = d) ->
  (forall x, in_hull d (p_vertices p2) x <-> in_hull d (map (move T t) (p_vertices p1)) x) ->
  poly_mie_oracles d k1 dd1 orth1 null1 eigh1 inv1 solver1 (p_vertices p1) -> poly_mie_oracles d k2 dd2 orth2 null2 eigh2 inv2 solver2 (p_vertices p2) ->
  exists e1 e2, poly_mie dd1 orth1 null1 eigh1 inv1 solver1 p1 false = Ok e1 /\ poly_mie dd2 orth2 null2 eigh2 inv2 solver2 p2 false = Ok e2 /\
    forall x, length x = d -> (ell_set (e_half e2) (e_rot e2) (e_center e2) (move T t x) <-> ell_set (e_half e1) (e_rot e1) (e_center e1) x).
Proof.
  intros Hd HT Lt HP1 HP2 HS (r1 & Hr1 & Q1) (r2 & Hr2 & Q2). cbv zeta in Q1, Q2.
  destruct Q1 as (K1 & O1 & T1 & (f1 & Hf1 & MO1) & N1). destruct Q2 as (K2 & O2 & T2 & (f2 & Hf2 & MO2) & N2).
  pose proof MO1 as MP1. pose proof MO2 as MP2. unfold mie_oracles in MP1, MP2. cbv zeta in MP1, MP2. destruct MP1 as ((ld1 & HL1 & OP1) & J1 & E1 & W1). destruct MP2 as ((ld2 & HL2 & OP2) & J2 & E2 & W2).
  set (points1 := p_vertices p1) in *. set (points2 := p_vertices p2) in *.
  set (D1 := map (fun p => vsub p r1) points1) in *. set (D2 := map (fun p => vsub p r2) points2) in *. set (R1 := orth1 (transpose D1)) in *. set (R2 := orth2 (transpose D2)) in *.
  destruct (solver1 _) as [B1 c1] eqn:S1. destruct (solver2 _) as [B2 c2] eqn:S2. cbn [fst snd] in *. pose proof OP1 as (F1 & D1' & M1). pose proof OP2 as (F2 & D2' & M2).
  destruct (eigh1 (inv1 _)) as [w1 V1] eqn:G1. destruct (eigh2 (inv2 _)) as [w2 V2] eqn:G2. cbn [fst snd] in *.
  destruct (poly_mie_set d k1 dd1 orth1 null1 eigh1 inv1 solver1 p1 false r1 f1 B1 c1 w1 V1) as (e1 & X1 & Y1 & Z1); auto.
  destruct (poly_mie_set d k2 dd2 orth2 null2 eigh2 inv2 solver2 p2 false r2 f2 B2 c2 w2 V2) as (e2 & X2 & Y2 & Z2); auto.
  exists e1, e2. repeat (split; [assumption|]).
  assert (I1 : In r1 points1) by (destruct points1; [discriminate|]; injection Hr1 as ->; now left). assert (I2 : In r2 points2) by (destruct points2; [discriminate|]; injection Hr2 as ->; now left).
  pose proof (chart_rows_len d Hd points1 r1 k1 R1 O1) as RW1. pose proof (chart_rows_len d Hd points2 r2 k2 R2 O2) as RW2.
  assert (NE1 : mat_mul D1 R1 <> []) by (unfold D1, mat_mul; intro E; apply map_eq_nil, map_eq_nil in E; rewrite E in I1; contradiction).
  assert (NE2 : mat_mul D2 R2 <> []) by (unfold D2, mat_mul; intro E; apply map_eq_nil, map_eq_nil in E; rewrite E in I2; contradiction).
  destruct (vertices_face_form k1 dd1 _ f1 ltac:(lia) NE1 RW1 T1 Hf1) as (Lh1 & MH1 & HULL1). destruct (vertices_face_form k2 dd2 _ f2 ltac:(lia) NE2 RW2 T2 Hf2) as (Lh2 & MH2 & HULL2).
  assert (C1 : chart d (in_hull d points1) k1 R1 r1).
  { apply hull_chart; auto; [lia|]. apply (solid_spans d Hd points1 r1 I1 k1 R1 O1 (ff_A f1) (ff_b f1)); auto. apply (mie_needs_solid k1 ltac:(lia) _ _ false B1 c1); auto. }
  assert (C2 : chart d (in_hull d points2) k2 R2 r2).
  { apply hull_chart; auto; [lia|]. apply (solid_spans d Hd points2 r2 I2 k2 R2 O2 (ff_A f2) (ff_b f2)); auto. apply (mie_needs_solid k2 ltac:(lia) _ _ false B2 c2); auto. }
  assert (HH1 : forall x, in_hull d points1 x -> length x = d) by (intros x Hx; now apply (hull_range d Hd points1 HP1 r1 I1 k1 R1 O1)).
  assert (HH2 : forall x, in_hull d points2 x -> length x = d) by (intros x Hx; now apply (hull_range d Hd points2 HP2 r2 I2 k2 R2 O2)).
  pose proof HT as (MT & MT' & _). assert (LT : length T = d) by apply MT.
  assert (HI : forall x, in_hull d points2 x <-> exists q, in_hull d points1 q /\ x = move T t q).
  { intros x. rewrite HS. split; [intro Hx; now apply in_hull_move_inv|intros (q & Hq & ->); now apply in_hull_move]. }
  assert (HJ : forall q, length q = d -> (in_hull d points2 (move T t q) <-> in_hull d points1 q)).
  { intros q Lq. rewrite HI. split; [|eauto]. intros (q' & Hq' & E). apply (f_equal (move T' (vneg (mat_vec T' t)))) in E. rewrite !(move_back d T T' t) in E by auto. now subst q'. }
  pose proof C1 as (_ & OR1 & Lr1 & _). pose proof C2 as (_ & OR2 & Lr2 & _). pose proof OR1 as (MR1 & _). pose proof OR2 as (MR2 & _). assert (LR1 : length R1 = d) by apply MR1. assert (LR2 : length R2 = d) by apply MR2.
  destruct (image_frame d Hd T T' HT k1 R1 ltac:(lia) OR1) as (W & S & S' & OW & IS & _ & EW).
  pose proof (chart_image d T T' t _ _ k1 R1 r1 W S S' Hd HT Lt HH1 HI C1 OW IS EW) as C1'.
  destruct (chart_W d Hd (in_hull d points2) HH2 k1 k2 W R2 (move T t r1) r2 C1' C2) as (EK & OU & _ & _). subst k2.
  destruct (chart_change d Hd (in_hull d points2) HH2 k1 k1 W R2 (move T t r1) r2 C1' C2) as (_ & CH). set (U := mat_mul (transpose W) R2) in *. set (s := mat_vec (transpose R2) (vsub (move T t r1) r2)) in *.
  set (n := k1) in *. assert (Hn : (0 < n)%nat) by lia. pose proof (orthogonal_transpose n U Hn OU) as OUt.
  assert (Ls : length s = n) by (unfold s; rewrite mat_vec_length; apply (is_mat_transpose _ _ _ MR2 Hd)).
  assert (IU : inverse n (transpose U) U) by (destruct OU as (MU & U1 & U2); split; [now apply is_mat_transpose|auto]).
  pose proof (inv_mul n Hn _ _ _ _ IU IS) as IK. set (K := mat_mul (transpose U) S) in *. set (K' := mat_mul S' U) in *. pose proof IK as (MK & MK' & _). pose proof IS as (MS & MS' & _). pose proof IU as (MUt & _).
  assert (LK : length K = n) by apply MK. assert (LK' : length K' = n) by apply MK'. assert (LS : length S = n) by apply MS.
  assert (LC : forall y, length (move K s y) = n) by (intro y; unfold move; len).
  assert (CHK : forall y, length y = n -> move R2 r2 (move K s y) = move T t (move R1 r1 y)).
  { intros y Ly. unfold move at 2. unfold K. rewrite (mat_vec_mat_mul n n n) by auto. rewrite CH by len. unfold move. rewrite <- EW by auto. assert (L1 : length (mat_vec R1 y) = d) by len. rewrite mat_vec_vadd by congruence. assert (L2 : length (mat_vec T (mat_vec R1 y)) = d) by len. assert (L3 : length (mat_vec T r1) = d) by len. vring d. }
  destruct (mie_affine n K K' s (ff_A f1) (ff_b f1) (ff_A f2) (ff_b f2) eigh1 inv1 solver1 eigh2 inv2 solver2) as (a1 & a2 & A1 & A2 & AE); auto.
  { intros y Ly. rewrite HULL1, HULL2 by auto. unfold D1, D2. rewrite (hull_coords d Hd points1 HP1 r1 I1 n R1 O1) by auto. rewrite (hull_coords d Hd points2 HP2 r2 I2 n R2 O2) by auto. rewrite CHK by auto. apply HJ. unfold move. len. }
  destruct (mie_form_ball n (ff_A f1) (ff_b f1) false eigh1 inv1 solver1 B1 c1 w1 V1) as (a1' & A1' & _ & _ & _ & _ & _ & _ & BI1 & _); auto. rewrite A1 in A1'. injection A1' as <-.
  destruct (mie_form_ball n (ff_A f2) (ff_b f2) false eigh2 inv2 solver2 B2 c2 w2 V2) as (a2' & A2' & _ & _ & _ & _ & _ & _ & BI2 & _); auto. rewrite A2 in A2'. injection A2' as <-.
  assert (BE : forall y, length y = n -> (ball_image n B2 c2 (move K s y) <-> ball_image n B1 c1 y)) by (intros y Ly; rewrite <- BI1, <- BI2 by auto; now apply AE).
  intros x Lx. rewrite Z1, Z2. split.
  - intros (z & Lz & Ez & Hz). set (y := move K' (vneg (mat_vec K' s)) z). assert (Ly : length y = n) by (unfold y, move; len). assert (EZ : z = move K s y) by (symmetry; now apply (move_forth n)).
    exists y. split; [auto|]. rewrite EZ in Ez, Hz. rewrite CHK in Ez by auto. split; [|now apply BE]. apply (f_equal (move T' (vneg (mat_vec T' t)))) in Ez. rewrite !(move_back d T T' t) in Ez by (auto; unfold move; len). exact Ez.
  - intros (y & Ly & -> & Hy). exists (move K s y). split; [auto|]. split; [symmetry; now apply CHK|now apply BE].
Qed.

(** a symmetry of the hull is one of the inscribed ellipsoid *)
Lemma poly_mie_symmetric d T T' t p k dd orth null_space eigh inv solver :
  (0 < d)%nat -> inverse d T T' -> length t = d -> (forall x, In x (p_vertices p) -> length x = d) -> same_hull d (map (move T t) (p_vertices p)) (p_vertices p) ->
  poly_mie_oracles d k dd orth null_space eigh inv solver (p_vertices p) ->
  exists e, poly_mie dd orth null_space eigh inv solver p false = Ok e /\ move T t (e_center e) = e_center e /\
    forall x, length x = d -> (ell_set (e_half e) (e_rot e) (e_center e) (move T t x) <-> ell_set (e_half e) (e_rot e) (e_center e) x).
Proof.
  intros Hd HT Lt HP HS H1. destruct (poly_mie_affine d T T' t p p k dd orth null_space eigh inv solver k dd orth null_space eigh inv solver) as (e & e2 & E1 & E2 & E3); auto; [intros x; symmetry; apply HS|].
  rewrite E1 in E2. injection E2 as <-. exists e. split; auto. split; auto.
  destruct (poly_mie_function d p p k dd orth null_space eigh inv solver k dd orth null_space eigh inv solver) as (e0 & _ & X1 & _ & D1 & _); auto; [intros x; reflexivity|]. rewrite E1 in X1. injection X1 as <-.
  assert (SH : is_mat (length (e_half e)) (length (e_half e)) (e_rot e) /\ length (e_center e) = length (e_half e)).
  { clear - E1. unfold poly_mie in E1. destruct (p_vertices p) as [|r ps]; [discriminate|]. cbv zeta in E1. destruct (sf_to_face_form _ _) as [f| |]; cbn [bind] in E1; try discriminate. destruct (mie_inequality_form _ _ _ _ _ _) as [a| |]; cbn [bind] in E1; try discriminate.
    apply ell_init_inv in E1 as (_ & E & _ & _ & M & L). rewrite E. auto. }
  destruct SH as (M & L). unfold e_dim in D1. rewrite D1 in M, L. now apply (fixed_center d (e_half e) (e_rot e) (e_center e) D1 M L T T' t).
Qed.

(** * Concrete cases *)
Lemma wide_solver : mie_oracles 1 (fun _ => ([/ 4], [[1]])) (fun _ => [[/ 4]]) (fun _ => ([[2]], [2])) [[-1]; [1]] [- 0; 4] false.
Proof.
  assert (MA : is_mat (length [- 0; 4]) 1 [[-1]; [1]]) by (split; [reflexivity|repeat constructor]).
  assert (HE : forall x, length x = 1%nat -> (halfspaces [[-1]; [1]] [- 0; 4] x <-> 0 <= nth 0 x 0 <= 4)).
  { intros x Lx. destruct (len1_inv _ Lx) as (a & ->). split.
    - intros H. pose proof (H 0%nat ltac:(cbn; lia)) as H0. pose proof (H 1%nat ltac:(cbn; lia)) as H1. cbn in H0, H1 |- *. lra.
    - intros H [|[|i]] Hi; cbn in Hi, H |- *; try lia; lra. }
  unfold mie_oracles. cbv zeta. cbn [fst snd].
  assert (MI : mat_mul [[2]] [[2]] = [[4]]) by (cbn; repeat (f_equal; try ring)). rewrite MI. split; [|split; [|split]].
  - exists (fun M => ln (entry M 0 0)). split; [apply log_det_1|]. split; [|split; [apply pd_one; lra|]].
    + apply (mie_feasible 1 _ [- 0; 4]); auto. split; [apply SPD_is_PSD; split; [split; [reflexivity|repeat constructor]|split; [|apply pd_one; lra]]|].
      * intros i j Hi Hj. now replace i with 0%nat by lia; replace j with 0%nat by lia.
      * split; [reflexivity|]. intros x (u & Lu & Hu & ->). destruct (len1_inv _ Lu) as (v & ->). apply HE; [reflexivity|]. rewrite norm1 in Hu. apply abs_bound in Hu. cbn. lra.
    + intros B c F PB. destruct (proj1 (mie_feasible 1 _ [- 0; 4] B c MA) F) as ((MB & _) & Lc & IN). destruct (one_by_one B MB) as (a & ->). destruct (len1_inv _ Lc) as (c0 & ->). unfold entry. cbn [nth].
      specialize (PB [1] eq_refl ltac:(unfold zeros; cbn; intro K; injection K; lra)). unfold quad in PB. cbn in PB.
      assert (P1 : halfspaces [[-1]; [1]] [- 0; 4] [a + c0]). { apply IN. exists [1]. split; [reflexivity|]. split; [rewrite norm1, Rabs_pos_eq; lra|cbn; repeat (f_equal; try ring)]. }
      assert (P2 : halfspaces [[-1]; [1]] [- 0; 4] [- a + c0]). { apply IN. exists [-1]. split; [reflexivity|]. split; [rewrite norm1, Rabs_left; lra|cbn; repeat (f_equal; try ring)]. }
      apply HE in P1; [|reflexivity]. apply HE in P2; [|reflexivity]. cbn in P1, P2. destruct (Req_dec a 2) as [->|N]; [lra|left; apply ln_increasing; lra].
  - split; [split; [reflexivity|repeat constructor]|]. split; cbn; repeat (f_equal; try field).
  - split; [reflexivity|]. split.
    + split; [split; [reflexivity|repeat constructor]|]. split; cbn; repeat (f_equal; try ring).
    + cbn. repeat (f_equal; try ring).
  - intros a [<-|[]]. unfold np_atol. rewrite Rinv_mult, !Rinv_inv. lra.
Qed.
Lemma poly_mie_wide : poly_mie_oracles 1 1 (dd1 0 4) (fun _ => [[1]]) (fun _ => [[]]) (fun _ => ([/ 4], [[1]])) (fun _ => [[/ 4]]) (fun _ => ([[2]], [2])) [[-1]; [3]].
Proof.
  exists [-1]. split; [reflexivity|]. cbv zeta. split; [lia|]. split; [|split; [|split]].
  - split; [split; [split; [reflexivity|repeat constructor]|cbn; repeat (f_equal; try ring)]|]. intros p [<-|[<-|[]]]; cbn; repeat (f_equal; try ring).
  - assert (EM : {| cdd_rows := map (cons 1) (mat_mul (map (fun v => vsub v [-1]) [[-1]; [3]]) [[1]]); cdd_lin := [] |} = vrows 0 4) by (unfold vrows; f_equal; cbn; repeat (f_equal; try lra)).
    rewrite EM. apply dd1_ineqs. lra.
  - exists {| ff_A := [[-1]; [1]]; ff_b := [- 0; 4] |}. split; [unfold sf_to_face_form; cbn; unfold ff_from_cdd; cbn; f_equal; f_equal; cbn; repeat (f_equal; try lra)|].
    cbn [ff_A ff_b]. exact wide_solver.
  - split; [split; [split; [reflexivity|repeat constructor]|reflexivity]|]. split.
    + intros v Lv. destruct v; [|discriminate]. cbn. repeat (f_equal; try ring).
    + intros x Lx Hx. destruct (len1_inv _ Lx) as (a & ->). cbn in Hx. injection Hx as Hx. cbn. repeat (f_equal; try lra).
Qed.
(** the interval [-1, 1] stretched to [-1, 3] *)
Lemma stretch_polys : inverse 1 [[2]] [[/ 2]] /\ map (move [[2]] [1]) [[-1]; [1]] = [[-1]; [3]] /\
  poly_mie_oracles 1 1 (dd1 0 2) (fun _ => [[1]]) (fun _ => [[]]) (fun _ => ([1], [[1]])) (fun _ => [[1]]) (fun _ => ([[1]], [1])) [[-1]; [1]] /\
  poly_mie_oracles 1 1 (dd1 0 4) (fun _ => [[1]]) (fun _ => [[]]) (fun _ => ([/ 4], [[1]])) (fun _ => [[/ 4]]) (fun _ => ([[2]], [2])) [[-1]; [3]].
Proof.
  split; [apply stretch_interval|]. split; [|split; [exact poly_mie_first|exact poly_mie_wide]]. unfold move, mat_vec, vadd, dot. cbn. repeat (f_equal; try ring).
Qed.
(** the interval [-1, 3] turned about its middle *)
Lemma turned_poly : inverse 1 [[-1]] [[-1]] /\ same_hull 1 (map (move [[-1]] [2]) [[-1]; [3]]) [[-1]; [3]] /\
  poly_mie_oracles 1 1 (dd1 0 4) (fun _ => [[1]]) (fun _ => [[]]) (fun _ => ([/ 4], [[1]])) (fun _ => [[/ 4]]) (fun _ => ([[2]], [2])) [[-1]; [3]].
Proof.
  split; [apply reflected_interval|]. split; [|exact poly_mie_wide].
  assert (E : map (move [[-1]] [2]) [[-1]; [3]] = [[3]; [-1]]) by (unfold move, mat_vec, vadd, dot; cbn; repeat (f_equal; try ring)). rewrite E.
  assert (R1 : rows_len 1 [[3]; [-1]]) by (intros v [<-|[<-|[]]]; reflexivity). assert (R2 : rows_len 1 [[-1]; [3]]) by (intros v [<-|[<-|[]]]; reflexivity).
  intros x. split; apply hull_mono; auto; intros v [<-|[<-|[]]]; apply hull_vertex; auto; cbn; auto.
Qed.
