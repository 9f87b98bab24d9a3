(** The inscribed ellipsoid computed does not depend on the external routines or on the description of the set. *)
From Coq Require Import Classical.
From Verif Require Import Base.Vec Base.VecFacts Base.Ext Spec.Basic Spec.Shapes Spec.ShapeObjects Spec.DoubleDesc Spec.PolySpec Spec.ExtremalSpec Spec.Geodesic Spec.John Model.Util Model.Polydd Model.Constraint Model.Ellipsoid Model.Poly Model.Extremal
  Proofs.LinAlg Proofs.BoxP Proofs.MatAlg Proofs.Coord Proofs.Hull Proofs.DDP Proofs.PolyP Proofs.EllP Proofs.EllForms Proofs.EllSame Proofs.EllMore Proofs.MustContain Proofs.ExtremalP Proofs.ExtremalOpt Proofs.LogDet Proofs.JohnU Proofs.JohnE Proofs.JohnX Proofs.JohnR.

Lemma mie_program_set n A1 b1 A2 b2 sphere B c : is_mat (length b1) n A1 -> is_mat (length b2) n A2 -> (forall x, length x = n -> (halfspaces A1 b1 x <-> halfspaces A2 b2 x)) ->
  mie_constraints n A1 b1 sphere B c -> mie_constraints n A2 b2 sphere B c.
Proof.
  intros M1 M2 HE (VB & Lc & C & S). assert (F0 : mie_constraints n A1 b1 false B c) by (split; auto; split; auto; split; auto; discriminate).
  destruct (proj1 (mie_feasible n A1 b1 B c M1) F0) as (PB & _ & IN). assert (LB : length B = n) by apply PB.
  destruct (proj2 (mie_feasible n A2 b2 B c M2)) as (_ & _ & C' & _).
  - split; auto. split; auto. intros x Hx. apply HE; auto. destruct Hx as (u & Lu & _ & ->). len.
  - split; auto.
Qed.
Lemma mie_form_function n A1 b1 A2 b2 sphere eigh1 inv1 solver1 eigh2 inv2 solver2 :
  (0 < n)%nat -> (0 < length b1)%nat -> (0 < length b2)%nat -> is_mat (length b1) n A1 -> is_mat (length b2) n A2 ->
  (forall x, length x = n -> (halfspaces A1 b1 x <-> halfspaces A2 b2 x)) ->
  mie_oracles n eigh1 inv1 solver1 A1 b1 sphere -> mie_oracles n eigh2 inv2 solver2 A2 b2 sphere ->
  exists e1 e2, mie_inequality_form eigh1 inv1 solver1 A1 b1 sphere = Ok e1 /\ mie_inequality_form eigh2 inv2 solver2 A2 b2 sphere = Ok e2 /\
    e_dim e1 = n /\ e_dim e2 = n /\
    exists t, length t = n /\ (forall x, length x = n -> (ell_set (e_half e1) (e_rot e1) (e_center e1) x <-> ell_set (e_half e2) (e_rot e2) (e_center e2) (vadd x t))) /\
      (sphere = false -> t = zeros n).
Proof.
  intros Hn N1 N2 M1 M2 HE Q1 Q2. unfold mie_oracles in *. cbv zeta in Q1, Q2. destruct Q1 as ((ld1 & HL1 & OP1) & I1 & E1 & W1). destruct Q2 as ((ld2 & HL2 & OP2) & I2 & E2 & W2).
  destruct (solver1 _) as [B1 c1] eqn:S1. destruct (solver2 _) as [B2 c2] eqn:S2. cbn [fst snd] in *. pose proof OP1 as (F1 & D1 & O1). pose proof OP2 as (F2 & D2 & O2).
  destruct (eigh1 (inv1 _)) as [w1 V1] eqn:G1. destruct (eigh2 (inv2 _)) as [w2 V2] eqn:G2. cbn [fst snd] in *.
  destruct (mie_form_ball n A1 b1 sphere eigh1 inv1 solver1 B1 c1 w1 V1) as (e1 & X1 & X2 & X3 & X4 & X5 & X6 & X7 & X8 & X9); auto.
  destruct (mie_form_ball n A2 b2 sphere eigh2 inv2 solver2 B2 c2 w2 V2) as (e2 & Y1 & Y2 & Y3 & Y4 & Y5 & Y6 & Y7 & Y8 & Y9); auto.
  exists e1, e2. repeat (split; [assumption|]). assert (SY : forall x, length x = n -> (halfspaces A2 b2 x <-> halfspaces A1 b1 x)) by (intros x Lx; symmetry; auto).
  pose proof F2 as (VB2 & Lc2 & _). pose proof F1 as (VB1 & Lc1 & _). pose proof (psd_var_SPD n Hn B2 VB2 D2) as P2. assert (LD : forall B, SPD n B -> ld1 B = ld2 B).
  { intros B PB. destruct (SPD_diag n Hn B PB) as (V & w & HV & Lw & Pw & ->). unfold congruent. rewrite HL1, HL2 by auto. reflexivity. }
  destruct (mie_optimal_unique n Hn ld1 HL1 A1 b1 sphere B1 c1 B2 c2 M1 OP1) as (EB & Ec).
  { split; [now apply (mie_program_set n A2 b2)|]. split; [exact D2|]. intros B' c' F' D'. pose proof F' as (V' & _). rewrite !LD by (auto; now apply psd_var_SPD). apply (O2 B' c'); auto. now apply (mie_program_set n A1 b1). }
  exists (vsub c2 c1). split; [len|]. subst B2. assert (LB : length B1 = n) by (apply VB1). split.
  - intros x Lx. rewrite X8, Y8 by len. split; intros (u & Lu & Hu & E); exists u; (split; [auto|]; split; [auto|]); assert (length (mat_vec B1 u) = n) by len.
    + rewrite E. vring n.
    + apply (f_equal (fun v => vsub v (vsub c2 c1))) in E. replace (vsub (vadd x (vsub c2 c1)) (vsub c2 c1)) with x in E by vring n. rewrite E. vring n.
  - intros Sp. rewrite (Ec Sp). vring n.
Qed.

(** * The polyhedron's inscribed ellipsoid, as a set *)
Lemma poly_mie_set d k dd orth null_space eigh inv solver p sphere r f B c w V :
  (0 < d)%nat -> (0 < k <= d)%nat -> (forall v, In v (p_vertices p) -> length v = d) -> hd_error (p_vertices p) = Some r ->
  let D := map (fun v => vsub v r) (p_vertices p) in let R := orth (transpose D) in let P := mat_mul D R in
  orth_spec d k D R ->
  ineqs_correct k (dd_ineqs dd) {| cdd_rows := map (cons 1) P; cdd_lin := [] |} ->
  sf_to_face_form (dd_ineqs dd) (span_form (Some P) None None) = Ok f ->
  solver (mie_constraints k (ff_A f) (ff_b f) sphere) = (B, c) -> mie_constraints k (ff_A f) (ff_b f) sphere B c ->
  inv_spec k (mat_mul B B) (inv (mat_mul B B)) ->
  eigh (inv (mat_mul B B)) = (w, V) -> eigh_spec k (inv (mat_mul B B)) (w, V) ->
  (forall a, In a w -> np_atol * np_atol < a < / (np_atol * np_atol)) ->
  null_spec d k (transpose R) (null_space (transpose R)) ->
  exists e, poly_mie dd orth null_space eigh inv solver p sphere = Ok e /\ e_dim e = d /\
    forall x, ell_set (e_half e) (e_rot e) (e_center e) x <-> exists y, length y = k /\ x = move R r y /\ ball_image k B c y.
Proof.
  intros Hd Hk HP Hr D R P HO HI Hf HS HC HIN HE HES Hw HN.
  destruct (poly_mie_inside d k dd orth null_space eigh inv solver p sphere r f B c w V) as (e' & X1 & X2 & X3 & _); auto. exists e'. split; [exact X1|]. split; [exact X2|].
  destruct (p_vertices p) as [|r' pts'] eqn:EP; [discriminate|]. injection Hr as ->. set (points := r :: pts') in *.
  assert (Lr : length r = d) by (apply HP; now left). pose proof HO as (HR & _). pose proof HR as (MR & ER).
  assert (LR : length R = d) by apply MR. pose proof (is_mat_transpose _ _ _ MR Hd) as TR. assert (LTR : length (transpose R) = k) by apply TR.
  assert (EPm : P = map (mat_vec (transpose R)) D) by (unfold P, mat_mul; apply map_ext; intro; apply vec_mat_mat_vec).
  assert (RP : rows_len k P). { rewrite EPm. intros v Hv. apply in_map_iff in Hv as (u & <- & Hu). len. }
  assert (NP : P <> []) by (rewrite EPm; discriminate).
  destruct (vertices_face_form k dd P f ltac:(lia) NP RP HI Hf) as (Lb & MA & HULL).
  destruct (mie_form_ball k (ff_A f) (ff_b f) sphere eigh inv solver B c w V) as (e & E1 & E2 & E3 & E4 & E5 & E6 & _ & E7 & E8); auto; [lia|].
  destruct (form_facts e E2) as (M1 & L2 & L3). rewrite E3 in M1, L2, L3. set (N := null_space (transpose R)) in *. pose proof HN as (ON & N1 & N2). pose proof ON as (MN & _).
  assert (EE : e_half e' = e_half e ++ zeros (d - k) /\ e_rot e' = hstack (mat_mul R (e_rot e)) N /\ e_center e' = vadd (mat_vec R (e_center e)) r).
  { unfold poly_mie in X1. rewrite EP in X1. unfold points in X1. fold points in X1. change (map (fun p => vsub p r) points) with D in X1. change (orth (transpose D)) with R in X1. change (mat_mul D R) with P in X1.
    cbv zeta in X1. rewrite Hf in X1. cbn [bind] in X1. rewrite E1 in X1. cbn [bind] in X1. rewrite Lr, E3 in X1. apply ell_init_inv in X1. cbn in X1. destruct X1 as (_ & Y1 & Y2 & Y3 & _). auto. }
  destruct EE as (-> & -> & ->). assert (MRV : is_mat d k (mat_mul R (e_rot e))) by (apply (is_mat_mul d k k); auto; lia). assert (LE : length (e_rot e) = k) by apply M1.
  assert (MV2 : forall u1 u2, length u1 = k -> length u2 = (d - k)%nat -> move (hstack (mat_mul R (e_rot e)) N) (vadd (mat_vec R (e_center e)) r) (vmul (e_half e ++ zeros (d - k)) (u1 ++ u2)) = move R r (move (e_rot e) (e_center e) (vmul (e_half e) u1))).
  { intros u1 u2 L1 L2'. rewrite vmul_app by congruence. rewrite vmul_zeros_l by len. assert (Lm : length (vmul (e_half e) u1) = k) by (rewrite vmul_length; congruence).
    unfold move. rewrite (mat_vec_hstack d k (d - k)) by (auto; len). rewrite mat_vec_zeros, (is_mat_length _ _ _ MN). rewrite (mat_vec_mat_mul d k k) by auto. rewrite mat_vec_vadd by len.
    assert (length (mat_vec R (mat_vec (e_rot e) (vmul (e_half e) u1))) = d) by len. assert (length (mat_vec R (e_center e)) = d) by len. vring d. }
  intros x. split.
  - intros (u & Lu & Hu & ->). rewrite app_length, zeros_length in Lu.
    assert (EU : u = firstn k u ++ skipn k u) by (symmetry; apply firstn_skipn). set (u1 := firstn k u) in *. set (u2 := skipn k u) in *.
    assert (L1 : length u1 = k) by (unfold u1; rewrite firstn_length; lia). assert (L2' : length u2 = (d - k)%nat) by (unfold u2; rewrite skipn_length; lia). clearbody u1 u2. subst u.
    rewrite dot_app in Hu by auto. pose proof (dot_self_nonneg u2) as P2. assert (Lm : length (vmul (e_half e) u1) = k) by (rewrite vmul_length; congruence).
    exists (move (e_rot e) (e_center e) (vmul (e_half e) u1)). assert (Ly : length (move (e_rot e) (e_center e) (vmul (e_half e) u1)) = k) by (unfold move; len). split; [exact Ly|]. split; [now apply MV2|].
    apply E7; [exact Ly|]. exists u1. split; [congruence|]. split; [lra|reflexivity].
  - intros (y & Ly & -> & Hy). apply E7 in Hy; [|auto]. destruct Hy as (u1 & Lu1 & Hu & ->). exists (u1 ++ zeros (d - k)). split; [rewrite !app_length; congruence|]. split.
    + rewrite dot_app by auto. rewrite dot_zeros_l. lra.
    + symmetry. apply MV2; len.
Qed.

Lemma SPD_is_PSD n A : SPD n A -> PSD n A.
Proof.
  intros (MA & SA & HA). split; [exact MA|]. split; [exact SA|]. intros v Lv. destruct (classic (v = zeros n)) as [->|N].
  - unfold quad. rewrite dot_zeros_l. lra.
  - apply Rlt_le. auto.
Qed.
Section Coords.
Context (d : nat) (Hd : (0 < d)%nat) (points : mat) (HP : forall x, In x points -> length x = d) (r : vec) (Hr : In r points) (k : nat) (Hk : (0 < k)%nat) (R : mat)
  (HO : orth_spec d k (map (fun p => vsub p r) points) R).
Local Notation D := (map (fun p => vsub p r) points).
Lemma chart_rows_len : rows_len k (mat_mul D R).
Proof.
  intros x Hx. apply (chart_rows points) in Hx as (p & Hp & ->). rewrite mat_vec_length. destruct HO as ((MR & _) & _). apply (is_mat_transpose _ _ _ MR Hd).
Qed.
Lemma hull_coords y : length y = k -> (in_hull k (mat_mul D R) y <-> in_hull d points (move R r y)).
Proof.
  intros Ly. pose proof HO as ((MR & ER) & HD). pose proof (is_mat_transpose _ _ _ MR Hd) as TR. assert (LR : length R = d) by apply MR. assert (LT : length (transpose R) = k) by apply TR. pose proof (HP r Hr) as Lr. split.
  - intros Hy. apply (hull_in_convex k (fun y => length y = k /\ in_hull d points (move R r y)) (mat_mul D R)); auto using chart_rows_len.
    + intros p q t _ (Lp & Hp) (Lq & Hq) Ht. split; [len|].
      replace (move R r (vadd (vscale (1 - t) p) (vscale t q))) with (vadd (vscale (1 - t) (move R r p)) (vscale t (move R r q))).
      * apply (convex_hull_set d points); auto. unfold move; len.
      * unfold move. rewrite mat_vec_vadd, !mat_vec_vscale by len. assert (length (mat_vec R p) = d) by len. assert (length (mat_vec R q) = d) by len. vring d.
    + intros x Hx. split; [now apply chart_rows_len|]. apply (chart_rows points) in Hx as (p & Hp & ->). replace (move R r _) with p; [now apply hull_vertex|].
      unfold move. rewrite HD by (apply in_map_iff; eauto). pose proof (HP p Hp). vring d.
  - intros Hx. assert (Q : forall x, in_hull d points x -> length x = d /\ in_hull k (mat_mul D R) (mat_vec (transpose R) (vsub x r))).
    { intros x H. apply (hull_in_convex d (fun x => length x = d /\ in_hull k (mat_mul D R) (mat_vec (transpose R) (vsub x r))) points); auto.
      - intros p q t _ (Lp & Hp) (Lq & Hq) Ht. split; [len|].
        replace (vsub (vadd (vscale (1 - t) p) (vscale t q)) r) with (vadd (vscale (1 - t) (vsub p r)) (vscale t (vsub q r))) by (vring d).
        rewrite mat_vec_vadd, !mat_vec_vscale by len. apply (convex_hull_set k (mat_mul D R)); auto. len.
      - intros p Hp. split; [auto|]. apply hull_vertex; [apply chart_rows_len|]. apply chart_rows. eauto. }
    destruct (Q _ Hx) as (_ & Q'). assert (LRy : length (mat_vec R y) = d) by len. replace (vsub (move R r y) r) with (mat_vec R y) in Q' by (unfold move; vring d).
    now rewrite (orthonormal_apply d k R y) in Q' by (auto; split; auto).
Qed.
Lemma solid_spans H h : solid_halfspaces k H h -> (forall x, length x = k -> (halfspaces H h x <-> in_hull k (mat_mul D R) x)) -> spans k (mat_mul D R).
Proof.
  intros (q & rho & Lq & Hrho & HB) HE y Ly HY.
  assert (C : forall p, In p (mat_mul D R) -> forall x, in_hull k (mat_mul D R) x -> dot y x = dot y p).
  { intros p Hp x Hx. apply (hull_in_convex k (fun x => length x = k /\ dot y x = dot y p) (mat_mul D R)); auto using chart_rows_len.
    intros a b t _ (La & Ha) (Lb & Hb) Ht. split; [len|]. rewrite dot_vadd_r, !dot_vscale_r by len. rewrite Ha, Hb. lra. }
  assert (N : In (mat_vec (transpose R) (vsub r r)) (mat_mul D R)) by (apply (chart_rows points); eauto).
  destruct (Req_dec (norm y) 0) as [Z|Z]; [rewrite <- Ly; apply dot_self_zero; rewrite <- norm_sqr, Z; ring|]. pose proof (norm_nonneg y).
  assert (I0 : in_hull k (mat_mul D R) q). { apply HE; auto. apply HB; auto. unfold ball. rewrite vsub_diag. unfold norm. rewrite dot_zeros_l, sqrt_0. lra. }
  assert (I1 : in_hull k (mat_mul D R) (vadd q (vscale (rho / norm y) y))).
  { apply HE; [len|]. apply HB; [len|]. unfold ball. replace (vsub _ q) with (vscale (rho / norm y) y) by (vring k). rewrite norm_vscale, Rabs_pos_eq by (apply Rlt_le, Rdiv_lt_0_compat; lra). right. field. lra. }
  pose proof (C _ N _ I0) as E0. pose proof (C _ N _ I1) as E1. rewrite dot_vadd_r, dot_vscale_r in E1 by len. rewrite <- norm_sqr in E1.
  assert (0 < rho / norm y * (norm y * norm y)); [|nra]. apply Rmult_lt_0_compat; [apply Rdiv_lt_0_compat; lra|nra].
Qed.
End Coords.

Lemma poly_mie_function d p1 p2 k1 dd1 orth1 null1 eigh1 inv1 solver1 k2 dd2 orth2 null2 eigh2 inv2 solver2 :
  (0 < d)%nat -> (forall x, In x (p_vertices p1) -> length x = d) -> (forall x, In x (p_vertices p2) -> length x = d) -> same_hull d (p_vertices p1) (p_vertices p2) ->
  poly_mie_oracles d k1 dd1 orth1 null1 eigh1 inv1 solver1 (p_vertices p1) -> poly_mie_oracles d k2 dd2 orth2 null2 eigh2 inv2 solver2 (p_vertices p2) ->
  exists e1 e2, poly_mie dd1 orth1 null1 eigh1 inv1 solver1 p1 false = Ok e1 /\ poly_mie dd2 orth2 null2 eigh2 inv2 solver2 p2 false = Ok e2 /\
    e_dim e1 = d /\ e_dim e2 = d /\
    forall x, ell_set (e_half e1) (e_rot e1) (e_center e1) x <-> ell_set (e_half e2) (e_rot e2) (e_center e2) x.
Proof.
  intros Hd HP1 HP2 HS (r1 & Hr1 & Q1) (r2 & Hr2 & Q2). unfold mie_oracles in *. cbv zeta in Q1, Q2.
  destruct Q1 as (K1 & O1 & T1 & (f1 & Hf1 & (ld1 & HL1 & OP1) & J1 & E1 & W1) & N1). destruct Q2 as (K2 & O2 & T2 & (f2 & Hf2 & (ld2 & HL2 & OP2) & J2 & E2 & W2) & N2).
  set (points1 := p_vertices p1) in *. set (points2 := p_vertices p2) in *.
  set (D1 := map (fun p => vsub p r1) points1) in *. set (D2 := map (fun p => vsub p r2) points2) in *. set (R1 := orth1 (transpose D1)) in *. set (R2 := orth2 (transpose D2)) in *.
  destruct (solver1 _) as [B1 c1] eqn:S1. destruct (solver2 _) as [B2 c2] eqn:S2. cbn [fst snd] in *. pose proof OP1 as (F1 & D1' & M1). pose proof OP2 as (F2 & D2' & M2).
  destruct (eigh1 (inv1 _)) as [w1 V1] eqn:G1. destruct (eigh2 (inv2 _)) as [w2 V2] eqn:G2. cbn [fst snd] in *.
  destruct (poly_mie_set d k1 dd1 orth1 null1 eigh1 inv1 solver1 p1 false r1 f1 B1 c1 w1 V1) as (e1 & X1 & Y1 & Z1); auto.
  destruct (poly_mie_set d k2 dd2 orth2 null2 eigh2 inv2 solver2 p2 false r2 f2 B2 c2 w2 V2) as (e2 & X2 & Y2 & Z2); auto.
  exists e1, e2. repeat (split; [assumption|]).
  assert (I1 : In r1 points1) by (destruct points1; [discriminate|]; injection Hr1 as ->; now left). assert (I2 : In r2 points2) by (destruct points2; [discriminate|]; injection Hr2 as ->; now left).
  pose proof (chart_rows_len d Hd points1 r1 k1 R1 O1) as RW1. pose proof (chart_rows_len d Hd points2 r2 k2 R2 O2) as RW2.
  assert (NE1 : mat_mul D1 R1 <> []) by (unfold D1, mat_mul; intro E; apply map_eq_nil, map_eq_nil in E; rewrite E in I1; contradiction).
  assert (NE2 : mat_mul D2 R2 <> []) by (unfold D2, mat_mul; intro E; apply map_eq_nil, map_eq_nil in E; rewrite E in I2; contradiction).
  destruct (vertices_face_form k1 dd1 _ f1 ltac:(lia) NE1 RW1 T1 Hf1) as (Lh1 & MH1 & HULL1). destruct (vertices_face_form k2 dd2 _ f2 ltac:(lia) NE2 RW2 T2 Hf2) as (Lh2 & MH2 & HULL2).
  assert (C1 : chart d (in_hull d points1) k1 R1 r1).
  { apply hull_chart; auto; [lia|]. apply (solid_spans d Hd points1 r1 I1 k1 R1 O1 (ff_A f1) (ff_b f1)); auto. apply (mie_needs_solid k1 ltac:(lia) _ _ false B1 c1); auto. }
  assert (C2 : chart d (in_hull d points1) k2 R2 r2).
  { assert (C2 : chart d (in_hull d points2) k2 R2 r2).
    { apply hull_chart; auto; [lia|]. apply (solid_spans d Hd points2 r2 I2 k2 R2 O2 (ff_A f2) (ff_b f2)); auto. apply (mie_needs_solid k2 ltac:(lia) _ _ false B2 c2); auto. }
    destruct C2 as (a1 & a2 & a3 & a4 & a5 & a6). split; auto. split; auto. split; auto. split; [intros x Hx; apply a4; now apply HS|]. split; [|now apply HS].
    intros y Ly Hy. apply a5; auto. intros x x' Hx Hx'. apply Hy; now apply HS. }
  assert (HH : forall x, in_hull d points1 x -> length x = d) by (intros x Hx; now apply (hull_range d Hd points1 HP1 r1 I1 k1 R1 O1)).
  destruct (chart_W d Hd (in_hull d points1) HH k1 k2 R1 R2 r1 r2 C1 C2) as (EK & OW & B1' & B2'). subst k2.
  destruct (chart_change d Hd (in_hull d points1) HH k1 k1 R1 R2 r1 r2 C1 C2) as (CH1 & CH2). set (W := mat_mul (transpose R1) R2) in *. set (s := mat_vec (transpose R2) (vsub r1 r2)) in *.
  set (n := k1) in *. assert (Hn : (0 < n)%nat) by lia. pose proof OW as (MW & _). pose proof (is_mat_transpose _ _ _ MW Hn) as TW. assert (LTW : length (transpose W) = n) by apply TW. assert (LW : length W = n) by apply MW.
  pose proof C1 as (_ & OR1 & Lr1 & _). pose proof C2 as (_ & OR2 & Lr2 & _). pose proof OR1 as (MR1 & _). pose proof OR2 as (MR2 & _).
  pose proof (is_mat_transpose _ _ _ MR1 Hd) as TR1. pose proof (is_mat_transpose _ _ _ MR2 Hd) as TR2. assert (LTR1 : length (transpose R1) = n) by apply TR1. assert (LTR2 : length (transpose R2) = n) by apply TR2.
  assert (Ls : length s = n) by (unfold s; len).
  assert (WW : forall x, length x = n -> mat_vec W (mat_vec (transpose W) x) = x) by (intros x Lx; now apply (orthogonal_back n)).
  assert (WWt : forall x, length x = n -> mat_vec (transpose W) (mat_vec W x) = x) by (intros x Lx; apply (orthonormal_apply n n); auto using orthogonal_orthonormal).
  assert (NW : forall x, length x = n -> norm (mat_vec W x) = norm x) by (intros x Lx; unfold norm; now rewrite (orthonormal_dot n n) by (auto using orthogonal_orthonormal)).
  assert (NWt : forall x, length x = n -> norm (mat_vec (transpose W) x) = norm x) by (intros x Lx; unfold norm; now rewrite (orthonormal_dot n n) by (auto using orthogonal_orthonormal, orthogonal_transpose)).
  (* an image in the second chart, seen from the first *)
  assert (IM : forall B c, SPD n B -> length c = n -> forall y, length y = n -> (ball_image n (congruence W B) (mat_vec W (vsub c s)) y <-> ball_image n B c (vadd (mat_vec (transpose W) y) s))).
  { intros B c PB Lc y Ly. destruct (congruence_facts n W B Hn OW PB) as (PC & EC & _). assert (LB : length B = n) by apply PB. assert (Lcs : length (vsub c s) = n) by len. split.
    - intros (u & Lu & Hu & ->). exists (mat_vec (transpose W) u). split; [len|]. split; [now rewrite NWt|]. rewrite EC by auto. set (a := mat_vec B (mat_vec (transpose W) u)). assert (La : length a = n) by (unfold a; len).
      rewrite <- mat_vec_vadd by len. rewrite WWt by len. vring n.
    - intros (u & Lu & Hu & E). exists (mat_vec W u). split; [len|]. split; [now rewrite NW|]. rewrite EC by len. rewrite WWt by auto. set (a := mat_vec B u) in *. assert (La : length a = n) by (unfold a; len).
      rewrite <- mat_vec_vadd by len. replace (vadd a (vsub c s)) with (mat_vec (transpose W) y); [symmetry; now apply WW|].
      apply (f_equal (fun v => vsub v s)) in E. assert (Lty : length (mat_vec (transpose W) y) = n) by len. replace (vsub (vadd (mat_vec (transpose W) y) s) s) with (mat_vec (transpose W) y) in E by vring n. rewrite E. vring n. }
  assert (SW : forall y, length y = n -> (in_hull n (mat_mul D1 R1) y <-> in_hull n (mat_mul D2 R2) (vadd (mat_vec (transpose W) y) s))).
  { intros y Ly. unfold D1, D2. rewrite (hull_coords d Hd points1 HP1 r1 I1 n R1 O1) by auto. rewrite (hull_coords d Hd points2 HP2 r2 I2 n R2 O2) by len. rewrite CH2 by auto. apply HS. }
  (* from the second program to the first *)
  assert (FW : forall B c, mie_constraints n (ff_A f2) (ff_b f2) false B c -> pos_def n B -> mie_constraints n (ff_A f1) (ff_b f1) false (congruence W B) (mat_vec W (vsub c s)) /\ pos_def n (congruence W B)).
  { intros B c F DB. pose proof F as (VB & Lc & _). pose proof (psd_var_SPD n Hn B VB DB) as PB. destruct (congruence_facts n W B Hn OW PB) as (PC & EC & _). destruct (SPD_psd_var n _ PC) as (VC & DC). split; [|exact DC].
    apply (mie_feasible n (ff_A f1) (ff_b f1)); auto. split; [apply SPD_is_PSD; exact PC|]. split; [len|]. intros y Hy. assert (Ly : length y = n) by (destruct Hy as (u & Lu & _ & ->); assert (length (congruence W B) = n) by apply PC; len).
    apply HULL1; auto. apply SW; auto. apply HULL2; [len|]. apply (proj1 (mie_feasible n (ff_A f2) (ff_b f2) B c MH2) F). now apply IM. }
  (* and back *)
  assert (BW : forall B c, mie_constraints n (ff_A f1) (ff_b f1) false B c -> pos_def n B -> exists B' c', mie_constraints n (ff_A f2) (ff_b f2) false B' c' /\ pos_def n B' /\ ld1 B = ld2 B').
  { intros B c F DB. pose proof F as (VB & Lc & _). pose proof (psd_var_SPD n Hn B VB DB) as PB. pose proof (orthogonal_transpose n W Hn OW) as OWt. destruct (congruence_facts n (transpose W) B Hn OWt PB) as (PC & EC & LC). destruct (SPD_psd_var n _ PC) as (VC & DC).
    rewrite (transpose_involutive n n) in EC by auto. assert (LB : length B = n) by apply PB. set (C := congruence (transpose W) B) in *. assert (LCn : length C = n) by apply PC.
    exists C, (vadd (mat_vec (transpose W) c) s). split; [|split; [exact DC|symmetry; now apply LC]]. apply (mie_feasible n (ff_A f2) (ff_b f2)); auto. split; [apply SPD_is_PSD; exact PC|]. split; [len|].
    intros y (u & Lu & Hu & ->). rewrite EC by auto. set (a := mat_vec B (mat_vec W u)). assert (La : length a = n) by (unfold a; len). assert (Lta : length (mat_vec (transpose W) a) = n) by len. assert (Ltc : length (mat_vec (transpose W) c) = n) by len.
    replace (vadd (mat_vec (transpose W) a) (vadd (mat_vec (transpose W) c) s)) with (vadd (mat_vec (transpose W) (vadd a c)) s) by (rewrite mat_vec_vadd by len; vring n).
    apply HULL2; [len|]. apply SW; [len|]. apply HULL1; [len|]. apply (proj1 (mie_feasible n (ff_A f1) (ff_b f1) B c MH1) F). exists (mat_vec W u). split; [len|]. split; [now rewrite NW|reflexivity]. }
  pose proof F1 as (VB1 & Lc1 & _). pose proof F2 as (VB2 & Lc2 & _). pose proof (psd_var_SPD n Hn B2 VB2 D2') as PB2. destruct (congruence_facts n W B2 Hn OW PB2) as (PC & EC & LC). destruct (FW B2 c2 F2 D2') as (FC & DC).
  destruct (mie_optimal_unique n Hn ld1 HL1 (ff_A f1) (ff_b f1) false B1 c1 (congruence W B2) (mat_vec W (vsub c2 s)) MH1 OP1) as (EB & Ec).
  { split; [exact FC|]. split; [exact DC|]. intros B' c' F' D'. destruct (BW B' c' F' D') as (B'' & c'' & F'' & D'' & EL). rewrite EL, (LC ld1 ld2) by auto. eauto. }
  specialize (Ec eq_refl). subst B1 c1.
  intros x. rewrite Z1, Z2. split.
  - intros (y & Ly & -> & Hy). exists (vadd (mat_vec (transpose W) y) s). split; [len|]. split; [symmetry; now apply CH2|now apply IM].
  - intros (y & Ly & -> & Hy). assert (Ly' : length (vsub y s) = n) by len. exists (mat_vec W (vsub y s)). assert (LWy : length (mat_vec W (vsub y s)) = n) by len.
    assert (E : vadd (mat_vec (transpose W) (mat_vec W (vsub y s))) s = y) by (rewrite WWt by auto; vring n). split; [auto|]. split; [rewrite <- CH2 by auto; now rewrite E|]. apply IM; auto. now rewrite E.
Qed.
