(** Concrete cases of the existence and uniqueness of extremal ellipsoids. *)
From Verif Require Import Base.Vec Base.VecFacts Base.Ext Spec.Basic Spec.Shapes Spec.ShapeObjects Spec.DoubleDesc Spec.PolySpec Spec.ExtremalSpec Spec.Geodesic Spec.John Model.Util Model.Polydd Model.Constraint Model.Ellipsoid Model.Poly Model.Extremal
  Proofs.LinAlg Proofs.BoxP Proofs.MatAlg Proofs.Coord Proofs.Hull Proofs.DDP Proofs.PolyP Proofs.SampleDD Proofs.EllP Proofs.ExtremalP Proofs.ExtremalOpt Proofs.ExtremalEx Proofs.LogDet Proofs.JohnU Proofs.JohnX Proofs.JohnR Proofs.JohnM.

(** a triangle spans the plane, three collinear points do not *)
Lemma triangle_wide : wide 2 [[0; 0]; [1; 0]; [0; 1]] false.
Proof.
  intros y Ly HY. destruct (len2_inv _ Ly) as (a & b & ->). pose proof (HY [0; 0] [1; 0] ltac:(now left) ltac:(right; now left)) as E1. pose proof (HY [0; 0] [0; 1] ltac:(now left) ltac:(right; right; now left)) as E2.
  cbn in E1, E2. unfold zeros. cbn. list_eq; lra.
Qed.
Lemma collinear_not_wide : ~ wide 2 [[0; 0]; [1; 1]; [2; 2]] false.
Proof.
  intros H. specialize (H [1; -1] eq_refl). unfold zeros in H. cbn in H. enough ([1; -1] = [0; 0]) as K by (injection K; lra). apply H. intros p q [<-|[<-|[<-|[]]]] [<-|[<-|[<-|[]]]]; cbn; lra.
Qed.
(** the square of side 2 is solid and bounded, the strip is not bounded *)
Lemma square_solid : solid_halfspaces 2 [[1; 0]; [-1; 0]; [0; 1]; [0; -1]] [1; 1; 1; 1].
Proof.
  exists [0; 0], 1. split; [reflexivity|]. split; [lra|]. intros x Lx Hx. destruct (len2_inv _ Lx) as (a & b & ->). unfold ball in Hx. apply (norm_le_iff _ 1) in Hx; [|lra]. cbn in Hx.
  intros [|[|[|[|i]]]] Hi; cbn in Hi |- *; try lia; nra.
Qed.
Lemma square_bounded : bounded_halfspaces 2 [[1; 0]; [-1; 0]; [0; 1]; [0; -1]] [1; 1; 1; 1].
Proof.
  exists 2. intros x Lx Hx. destruct (len2_inv _ Lx) as (a & b & ->). pose proof (Hx 0%nat ltac:(cbn; lia)) as H0. pose proof (Hx 1%nat ltac:(cbn; lia)) as H1. pose proof (Hx 2%nat ltac:(cbn; lia)) as H2. pose proof (Hx 3%nat ltac:(cbn; lia)) as H3.
  cbn in H0, H1, H2, H3. apply norm_le_iff; [lra|]. cbn. nra.
Qed.
Lemma strip_unbounded : ~ bounded_halfspaces 2 [[0; 1]; [0; -1]] [1; 1].
Proof.
  intros (r & H). specialize (H [Rabs r + 1; 0] eq_refl). assert (K : norm [Rabs r + 1; 0] <= r) by (apply H; intros [|[|i]] Hi; cbn in Hi |- *; try lia; lra).
  pose proof (Rle_abs r). assert (P : 0 <= r) by (eapply Rle_trans; [apply norm_nonneg|exact K]). apply norm_le_iff in K; [|auto]. cbn in K. nra.
Qed.

(** * The inscribed sphere of a rectangle has more than one position *)
Definition rectA : mat := [[1; 0]; [-1; 0]; [0; 1]; [0; -1]].
Lemma sphere_optimum log_det x : log_det_spec 2 log_det -> -1 <= x <= 1 -> log_det_optimal 2 log_det (mie_constraints 2 rectA [2; 2; 1; 1] true) (eye 2) [x; 0].
Proof.
  intros HL Hx. assert (LE : forall t, 0 < t -> log_det (mscale t (eye 2)) = ln t + ln t).
  { intros t Ht. pose proof (HL (eye 2) [t; t] ltac:(apply orthogonal_eye; lia) eq_refl) as K. replace (mscale t (eye 2)) with (mat_mul (mat_mul (eye 2) (diag [t; t])) (transpose (eye 2))) by (cbn; list_eq; ring).
    rewrite K; [cbn; ring|]. intros a [<-|[<-|[]]]; auto. }
  assert (L1 : log_det (eye 2) = 0). { replace (eye 2) with (mscale 1 (eye 2)) by (cbn; list_eq; ring). rewrite LE, ln_1; lra. }
  split; [|split].
  - split; [split; [apply is_mat_eye|split; [cbn; reflexivity|]]|split; [reflexivity|split]].
    + intros z Lz. rewrite (quad_eye 2) by auto. apply dot_self_nonneg.
    + intros i Hi. assert (N : norm (mat_vec (eye 2) (nth i rectA [])) = 1).
      { unfold norm. rewrite <- sqrt_1. f_equal. destruct i as [|[|[|[|i]]]]; cbn in Hi |- *; try lia; lra. }
      rewrite N. destruct i as [|[|[|[|i]]]]; cbn in Hi |- *; try lia; lra.
    + intros _. exists 1. cbn. list_eq; ring.
  - intros z Lz Nz. rewrite (quad_eye 2) by auto. pose proof (dot_self_nonneg z). destruct (Req_dec (dot z z) 0) as [E|E]; [|lra]. apply dot_self_zero in E. exfalso. apply Nz. congruence.
  - intros B c (VB & Lc & HC & HS) PB. destruct (HS eq_refl) as (t & ->). rewrite L1. assert (Ht : 0 < t).
    { specialize (PB [1; 0] eq_refl). assert (N : [1; 0] <> zeros 2) by (unfold zeros; cbn; intro K; injection K; lra). specialize (PB N). unfold quad in PB. cbn in PB. lra. }
    rewrite LE by auto. pose proof (HC 2%nat ltac:(cbn; lia)) as C2. pose proof (HC 3%nat ltac:(cbn; lia)) as C3. destruct (len2_inv _ Lc) as (a & b & ->).
    assert (N : forall i, i = 2%nat \/ i = 3%nat -> norm (mat_vec (mscale t (eye 2)) (nth i rectA [])) = t).
    { intros i Hi. unfold norm. transitivity (sqrt (t * t)); [|apply sqrt_square; lra]. f_equal. destruct Hi as [->| ->]; cbn; ring. }
    rewrite N in C2, C3 by auto. cbn in C2, C3. assert (ln t <= 0); [|lra]. rewrite <- ln_1. destruct (Req_dec t 1) as [->|NE]; [lra|]. apply Rlt_le, ln_increasing; lra.
Qed.
Lemma sphere_centre_refuted : exists A b log_det B c1 c2, log_det_spec 2 log_det /\ solid_halfspaces 2 A b /\ bounded_halfspaces 2 A b /\
  log_det_optimal 2 log_det (mie_constraints 2 A b true) B c1 /\ log_det_optimal 2 log_det (mie_constraints 2 A b true) B c2 /\ c1 <> c2.
Proof.
  destruct (log_det_exists 2 ltac:(lia)) as (ld & HL). exists rectA, [2; 2; 1; 1], ld, (eye 2), [-1; 0], [1; 0]. split; [exact HL|]. split; [|split; [|split; [apply sphere_optimum; auto; lra|split; [apply sphere_optimum; auto; lra|]]]].
  - exists [0; 0], 1. split; [reflexivity|]. split; [lra|]. intros x Lx Hx. destruct (len2_inv _ Lx) as (a & b & ->). unfold ball in Hx. apply (norm_le_iff _ 1) in Hx; [|lra]. cbn in Hx.
    intros [|[|[|[|i]]]] Hi; cbn in Hi |- *; try lia; nra.
  - exists 3. intros x Lx Hx. destruct (len2_inv _ Lx) as (a & b & ->). pose proof (Hx 0%nat ltac:(cbn; lia)) as H0. pose proof (Hx 1%nat ltac:(cbn; lia)) as H1. pose proof (Hx 2%nat ltac:(cbn; lia)) as H2. pose proof (Hx 3%nat ltac:(cbn; lia)) as H3.
    cbn in H0, H1, H2, H3. apply norm_le_iff; [lra|]. cbn. nra.
  - intro K. injection K. lra.
Qed.

(** * Two runs *)
Lemma pd_one a : 0 < a -> pos_def 1 [[a]].
Proof. intros Ha z Lz Nz. destruct (len1_inv _ Lz) as (b & ->). unfold quad. cbn. assert (b <> 0) by (intros ->; apply Nz; reflexivity). assert (0 < b * b) by nra. nra. Qed.
Lemma psd_one : cp_psd_var 1 [[1]].
Proof. split; [split; [reflexivity|repeat constructor]|split; [reflexivity|]]. intros z Lz. destruct (len1_inv _ Lz) as (a & ->). unfold quad. cbn. pose proof (sqr_nonneg a). lra. Qed.
Lemma one_by_one B : is_mat 1 1 B -> exists a, B = [[a]].
Proof. intros (L1 & F1). destruct B as [|r [|]]; try discriminate. apply Forall_cons_iff in F1 as (Lr & _). destruct (len1_inv _ Lr) as (a & ->). eauto. Qed.
Lemma ln_le_0 a : 0 < a <= 1 -> ln a <= 0.
Proof. intros Ha. destruct (Req_dec a 1) as [->|NE]; [rewrite ln_1; lra|]. apply Rlt_le. rewrite <- ln_1. apply ln_increasing; lra. Qed.
Lemma norm1 a : norm [a] = Rabs a.
Proof. unfold norm. cbn. rewrite Rplus_0_r. apply sqrt_Rsqr_abs. Qed.
Lemma abs_bound a : Rabs a <= 1 -> -1 <= a <= 1.
Proof. unfold Rabs. destruct (Rcase_abs a); lra. Qed.
Lemma eigh_one : eigh_spec 1 [[1]] ([1], [[1]]).
Proof. split; [reflexivity|]. split; [|cbn; list_eq; ring]. split; [split; [reflexivity|repeat constructor]|]. split; cbn; list_eq; ring. Qed.

Lemma mbe_first : mbe_oracles 2 1 (fun _ => [[1]; [0]]) (fun _ => [[0]; [1]]) (fun _ => ([1], [[1]])) (fun _ y => y) (fun _ => ([[1]], [1])) [[1; 0]; [-1; 0]].
Proof.
  exists [1; 0]. split; [reflexivity|]. cbv zeta. cbn [fst snd]. split; [lia|]. split; [|split; [|split; [apply eigh_one|split]]].
  - split; [split; [split; [reflexivity|repeat constructor]|cbn; list_eq; ring]|]. intros p [<-|[<-|[]]]; cbn; list_eq; ring.
  - exists (fun M => ln (entry M 0 0)). split; [apply log_det_1|]. split; [|split; [apply pd_one; lra|]].
    + split; [apply psd_one|]. split; [reflexivity|]. split; [|discriminate]. intros x [<-|[<-|[]]]; apply (norm_le_iff _ 1); try lra; cbn; lra.
    + intros A b ((MA & _) & Lb & HC & _) PA. destruct (one_by_one A MA) as (a & ->). destruct (len1_inv _ Lb) as (c & ->). unfold entry. cbn [nth]. rewrite ln_1. apply ln_le_0.
      specialize (PA [1] eq_refl ltac:(unfold zeros; cbn; intro K; injection K; lra)). unfold quad in PA. cbn in PA.
      pose proof (HC _ (or_introl eq_refl)) as C1. pose proof (HC _ (or_intror (or_introl eq_refl))) as C2. cbn in C1, C2. rewrite norm1 in C1, C2. apply abs_bound in C1, C2. lra.
  - split; [reflexivity|]. intros _. cbn. list_eq; ring.
  - split; [split; [split; [reflexivity|repeat constructor]|cbn; list_eq; ring]|]. split.
    + intros v Lv. destruct (len1_inv _ Lv) as (a & ->). cbn. list_eq; ring.
    + intros x Lx Hx. destruct (len2_inv _ Lx) as (a & b & ->). cbn in Hx. injection Hx as Hx. cbn. list_eq; lra.
Qed.
Lemma mbe_second : mbe_oracles 2 1 (fun _ => [[-1]; [0]]) (fun _ => [[0]; [-1]]) (fun _ => ([1], [[1]])) (fun _ y => y) (fun _ => ([[1]], [1])) [[-1; 0]; [1; 0]; [0; 0]].
Proof.
  exists [-1; 0]. split; [reflexivity|]. cbv zeta. cbn [fst snd]. split; [lia|]. split; [|split; [|split; [apply eigh_one|split]]].
  - split; [split; [split; [reflexivity|repeat constructor]|cbn; list_eq; ring]|]. intros p [<-|[<-|[<-|[]]]]; cbn; list_eq; ring.
  - exists (fun M => ln (entry M 0 0)). split; [apply log_det_1|]. split; [|split; [apply pd_one; lra|]].
    + split; [apply psd_one|]. split; [reflexivity|]. split; [|discriminate]. intros x [<-|[<-|[<-|[]]]]; apply (norm_le_iff _ 1); try lra; cbn; lra.
    + intros A b ((MA & _) & Lb & HC & _) PA. destruct (one_by_one A MA) as (a & ->). destruct (len1_inv _ Lb) as (c & ->). unfold entry. cbn [nth]. rewrite ln_1. apply ln_le_0.
      specialize (PA [1] eq_refl ltac:(unfold zeros; cbn; intro K; injection K; lra)). unfold quad in PA. cbn in PA.
      pose proof (HC _ (or_introl eq_refl)) as C1. pose proof (HC _ (or_intror (or_introl eq_refl))) as C2. cbn in C1, C2. rewrite norm1 in C1, C2. apply abs_bound in C1, C2. lra.
  - split; [reflexivity|]. intros _. cbn. list_eq; ring.
  - split; [split; [split; [reflexivity|repeat constructor]|cbn; list_eq; ring]|]. split.
    + intros v Lv. destruct (len1_inv _ Lv) as (a & ->). cbn. list_eq; ring.
    + intros x Lx Hx. destruct (len2_inv _ Lx) as (a & b & ->). cbn in Hx. injection Hx as Hx. cbn. list_eq; lra.
Qed.
Lemma segment_hulls : same_hull 2 [[1; 0]; [-1; 0]] [[-1; 0]; [1; 0]; [0; 0]].
Proof.
  assert (R1 : rows_len 2 [[1; 0]; [-1; 0]]) by (intros v [<-|[<-|[]]]; reflexivity). assert (R2 : rows_len 2 [[-1; 0]; [1; 0]; [0; 0]]) by (intros v [<-|[<-|[<-|[]]]]; reflexivity).
  intros x. split; apply hull_mono; auto.
  - intros v [<-|[<-|[]]]; apply hull_vertex; auto; [right; now left|now left].
  - intros v [<-|[<-|[<-|[]]]]; [apply hull_vertex; auto; right; now left|apply hull_vertex; auto; now left|].
    exists [/ 2; / 2]. split; [reflexivity|]. split; [split; [intros a [<-|[<-|[]]]; lra|cbn; lra]|]. cbn. list_eq; lra.
Qed.
Lemma mbe_two_runs : exists e1 e2,
  mbe_of_points (fun _ => [[1]; [0]]) (fun _ => [[0]; [1]]) (fun _ => ([1], [[1]])) (fun _ y => y) (fun _ => ([[1]], [1])) [[1; 0]; [-1; 0]] = Ok e1 /\
  mbe_of_points (fun _ => [[-1]; [0]]) (fun _ => [[0]; [-1]]) (fun _ => ([1], [[1]])) (fun _ y => y) (fun _ => ([[1]], [1])) [[-1; 0]; [1; 0]; [0; 0]] = Ok e2 /\
  e_rot e1 <> e_rot e2 /\ forall x, ell_set (e_half e1) (e_rot e1) (e_center e1) x <-> ell_set (e_half e2) (e_rot e2) (e_center e2) x.
Proof.
  destruct (mbe_of_points_function 2 [[1; 0]; [-1; 0]] [[-1; 0]; [1; 0]; [0; 0]] 1 (fun _ => [[1]; [0]]) (fun _ => [[0]; [1]]) (fun _ => ([1], [[1]])) (fun _ y => y) (fun _ => ([[1]], [1]))
     1 (fun _ => [[-1]; [0]]) (fun _ => [[0]; [-1]]) (fun _ => ([1], [[1]])) (fun _ y => y) (fun _ => ([[1]], [1]))) as (e1 & e2 & E1 & E2 & _ & _ & ES); auto using mbe_first, mbe_second, segment_hulls.
  - intros v [<-|[<-|[]]]; reflexivity.
  - intros v [<-|[<-|[<-|[]]]]; reflexivity.
  - exists e1, e2. split; [exact E1|]. split; [exact E2|]. split; [|exact ES]. clear ES. unfold mbe_of_points in E1, E2. apply ell_init_inv in E1, E2. cbn in E1, E2. destruct E1 as (_ & _ & -> & _). destruct E2 as (_ & _ & -> & _).
    intro K. injection K. lra.
Qed.

Lemma interval_solver A b f : is_mat (length b) 1 A -> (forall x, length x = 1%nat -> (halfspaces A b x <-> -1 <= nth 0 x 0 - f <= 1)) ->
  mie_oracles 1 (fun _ => ([1], [[1]])) (fun _ => [[1]]) (fun _ => ([[1]], [f])) A b false.
Proof.
  intros MA HE. unfold mie_oracles. cbv zeta. cbn [fst snd].
  assert (MI : mat_mul [[1]] [[1]] = [[1]]) by (cbn; list_eq; ring). rewrite MI. split; [|split; [|split; [apply eigh_one|]]].
  - exists (fun M => ln (entry M 0 0)). split; [apply log_det_1|]. split; [|split; [apply pd_one; lra|]].
    + apply (mie_feasible 1 A b); auto. split; [apply SPD_is_PSD; split; [split; [reflexivity|repeat constructor]|split; [|apply pd_one; lra]]|].
      * intros i j Hi Hj. now replace i with 0%nat by lia; replace j with 0%nat by lia.
      * split; [reflexivity|]. intros x (u & Lu & Hu & ->). destruct (len1_inv _ Lu) as (v & ->). apply HE; [reflexivity|]. rewrite norm1 in Hu. apply abs_bound in Hu. cbn. lra.
    + intros B c F PB. destruct (proj1 (mie_feasible 1 A b B c MA) F) as ((MB & _) & Lc & IN). destruct (one_by_one B MB) as (a & ->). destruct (len1_inv _ Lc) as (c0 & ->). unfold entry. cbn [nth]. rewrite ln_1. apply ln_le_0.
      specialize (PB [1] eq_refl ltac:(unfold zeros; cbn; intro K; injection K; lra)). unfold quad in PB. cbn in PB.
      assert (P1 : halfspaces A b [a + c0]). { apply IN. exists [1]. split; [reflexivity|]. split; [rewrite norm1, Rabs_pos_eq; lra|cbn; list_eq; ring]. }
      assert (P2 : halfspaces A b [- a + c0]). { apply IN. exists [-1]. split; [reflexivity|]. split; [rewrite norm1, Rabs_left; lra|cbn; list_eq; ring]. }
      apply HE in P1; [|reflexivity]. apply HE in P2; [|reflexivity]. cbn in P1, P2. lra.
  - split; [split; [reflexivity|repeat constructor]|]. split; cbn; list_eq; ring.
  - intros a [<-|[]]. unfold np_atol. rewrite Rinv_mult, !Rinv_inv. lra.
Qed.
Lemma interval_a x : length x = 1%nat -> (halfspaces [[1]; [-1]] [1; 1] x <-> -1 <= nth 0 x 0 - 0 <= 1).
Proof.
  intros Lx. destruct (len1_inv _ Lx) as (a & ->). split.
  - intros H. pose proof (H 0%nat ltac:(cbn; lia)) as H0. pose proof (H 1%nat ltac:(cbn; lia)) as H1. cbn in H0, H1 |- *. lra.
  - intros H [|[|i]] Hi; cbn in Hi, H |- *; try lia; lra.
Qed.
Lemma interval_b x : length x = 1%nat -> (halfspaces [[2]; [-1]; [1]] [2; 1; 5] x <-> -1 <= nth 0 x 0 - 0 <= 1).
Proof.
  intros Lx. destruct (len1_inv _ Lx) as (a & ->). split.
  - intros H. pose proof (H 0%nat ltac:(cbn; lia)) as H0. pose proof (H 1%nat ltac:(cbn; lia)) as H1. cbn in H0, H1 |- *. lra.
  - intros H [|[|[|i]]] Hi; cbn in Hi, H |- *; try lia; lra.
Qed.
(** the interval [-1, 1] by two and by three inequalities *)
Lemma mie_two_runs : exists e1 e2,
  mie_inequality_form (fun _ => ([1], [[1]])) (fun _ => [[1]]) (fun _ => ([[1]], [0])) [[1]; [-1]] [1; 1] false = Ok e1 /\
  mie_inequality_form (fun _ => ([1], [[1]])) (fun _ => [[1]]) (fun _ => ([[1]], [0])) [[2]; [-1]; [1]] [2; 1; 5] false = Ok e2 /\
  mie_oracles 1 (fun _ => ([1], [[1]])) (fun _ => [[1]]) (fun _ => ([[1]], [0])) [[1]; [-1]] [1; 1] false /\
  mie_oracles 1 (fun _ => ([1], [[1]])) (fun _ => [[1]]) (fun _ => ([[1]], [0])) [[2]; [-1]; [1]] [2; 1; 5] false /\
  forall x, length x = 1%nat -> (ell_set (e_half e1) (e_rot e1) (e_center e1) x <-> ell_set (e_half e2) (e_rot e2) (e_center e2) x).
Proof.
  assert (M1 : is_mat 2 1 [[1]; [-1]]) by (split; [reflexivity|repeat constructor]). assert (M2 : is_mat 3 1 [[2]; [-1]; [1]]) by (split; [reflexivity|repeat constructor]).
  pose proof (interval_solver _ [1; 1] 0 M1 interval_a) as S1. pose proof (interval_solver _ [2; 1; 5] 0 M2 interval_b) as S2.
  destruct (mie_form_function 1 [[1]; [-1]] [1; 1] [[2]; [-1]; [1]] [2; 1; 5] false (fun _ => ([1], [[1]])) (fun _ => [[1]]) (fun _ => ([[1]], [0])) (fun _ => ([1], [[1]])) (fun _ => [[1]]) (fun _ => ([[1]], [0]))) as (e1 & e2 & E1 & E2 & _ & _ & t & Lt & ES & Et); auto; try (cbn; lia).
  - intros x Lx. rewrite interval_a, interval_b by auto. reflexivity.
  - exists e1, e2. do 4 (split; [assumption|]). intros x Lx. rewrite ES by auto. rewrite Et by auto. destruct (len1_inv _ Lx) as (a & ->). replace (vadd [a] (zeros 1)) with [a] by (unfold zeros; cbn; list_eq; ring). reflexivity.
Qed.

Lemma poly_mie_first : poly_mie_oracles 1 1 (dd1 0 2) (fun _ => [[1]]) (fun _ => [[]]) (fun _ => ([1], [[1]])) (fun _ => [[1]]) (fun _ => ([[1]], [1])) [[-1]; [1]].
Proof.
  exists [-1]. split; [reflexivity|]. cbv zeta. split; [lia|]. split; [|split; [|split]].
  - split; [split; [split; [reflexivity|repeat constructor]|cbn; list_eq; ring]|]. intros p [<-|[<-|[]]]; cbn; list_eq; ring.
  - assert (EM : {| cdd_rows := map (cons 1) (mat_mul (map (fun v => vsub v [-1]) [[-1]; [1]]) [[1]]); cdd_lin := [] |} = vrows 0 2) by (unfold vrows; f_equal; cbn; list_eq; lra).
    rewrite EM. apply dd1_ineqs. lra.
  - exists {| ff_A := [[-1]; [1]]; ff_b := [- 0; 2] |}. split; [unfold sf_to_face_form; cbn; unfold ff_from_cdd; cbn; f_equal; f_equal; cbn; list_eq; try reflexivity; lra|].
    cbn [ff_A ff_b]. apply interval_solver; [split; [reflexivity|repeat constructor]|]. intros x Lx. destruct (len1_inv _ Lx) as (a & ->). split.
    + intros H. pose proof (H 0%nat ltac:(cbn; lia)) as H0. pose proof (H 1%nat ltac:(cbn; lia)) as H1. cbn in H0, H1 |- *. lra.
    + intros H [|[|i]] Hi; cbn in Hi, H |- *; try lia; lra.
  - split; [split; [split; [reflexivity|repeat constructor]|reflexivity]|]. split.
    + intros v Lv. destruct v; [|discriminate]. cbn. list_eq; ring.
    + intros x Lx Hx. destruct (len1_inv _ Lx) as (a & ->). cbn in Hx. injection Hx as Hx. cbn. list_eq; lra.
Qed.
Lemma poly_mie_second : poly_mie_oracles 1 1 (dd1 0 2) (fun _ => [[-1]]) (fun _ => [[]]) (fun _ => ([1], [[1]])) (fun _ => [[1]]) (fun _ => ([[1]], [1])) [[1]; [-1]].
Proof.
  exists [1]. split; [reflexivity|]. cbv zeta. split; [lia|]. split; [|split; [|split]].
  - split; [split; [split; [reflexivity|repeat constructor]|cbn; list_eq; ring]|]. intros p [<-|[<-|[]]]; cbn; list_eq; ring.
  - assert (EM : {| cdd_rows := map (cons 1) (mat_mul (map (fun v => vsub v [1]) [[1]; [-1]]) [[-1]]); cdd_lin := [] |} = vrows 0 2) by (unfold vrows; f_equal; cbn; list_eq; lra).
    rewrite EM. apply dd1_ineqs. lra.
  - exists {| ff_A := [[-1]; [1]]; ff_b := [- 0; 2] |}. split; [unfold sf_to_face_form; cbn; unfold ff_from_cdd; cbn; f_equal; f_equal; cbn; list_eq; try reflexivity; lra|].
    cbn [ff_A ff_b]. apply interval_solver; [split; [reflexivity|repeat constructor]|]. intros x Lx. destruct (len1_inv _ Lx) as (a & ->). split.
    + intros H. pose proof (H 0%nat ltac:(cbn; lia)) as H0. pose proof (H 1%nat ltac:(cbn; lia)) as H1. cbn in H0, H1 |- *. lra.
    + intros H [|[|i]] Hi; cbn in Hi, H |- *; try lia; lra.
  - split; [split; [split; [reflexivity|repeat constructor]|reflexivity]|]. split.
    + intros v Lv. destruct v; [|discriminate]. cbn. list_eq; ring.
    + intros x Lx Hx. destruct (len1_inv _ Lx) as (a & ->). cbn in Hx. injection Hx as Hx. cbn. list_eq; lra.
Qed.
(** the vertices of [-1, 1] in either order, with different bases *)
Lemma poly_mie_two_runs : exists p1 p2 e1 e2, p_vertices p1 = [[-1]; [1]] /\ p_vertices p2 = [[1]; [-1]] /\
  poly_mie (dd1 0 2) (fun _ => [[1]]) (fun _ => [[]]) (fun _ => ([1], [[1]])) (fun _ => [[1]]) (fun _ => ([[1]], [1])) p1 false = Ok e1 /\
  poly_mie (dd1 0 2) (fun _ => [[-1]]) (fun _ => [[]]) (fun _ => ([1], [[1]])) (fun _ => [[1]]) (fun _ => ([[1]], [1])) p2 false = Ok e2 /\
  forall x, ell_set (e_half e1) (e_rot e1) (e_center e1) x <-> ell_set (e_half e2) (e_rot e2) (e_center e2) x.
Proof.
  set (p1 := pinterval (-1) 1). set (p2 := {| p_face := {| ff_A := [[-1]; [1]]; ff_b := [1; 1] |}; p_span := {| sf_vertices := Some [[1]; [-1]]; sf_rays := None |} |}).
  assert (R1 : rows_len 1 [[1]; [-1]]) by (intros v [<-|[<-|[]]]; reflexivity). assert (R2 : rows_len 1 [[-1]; [1]]) by (intros v [<-|[<-|[]]]; reflexivity).
  destruct (poly_mie_function 1 p1 p2 1 (dd1 0 2) (fun _ => [[1]]) (fun _ => [[]]) (fun _ => ([1], [[1]])) (fun _ => [[1]]) (fun _ => ([[1]], [1]))
     1 (dd1 0 2) (fun _ => [[-1]]) (fun _ => [[]]) (fun _ => ([1], [[1]])) (fun _ => [[1]]) (fun _ => ([[1]], [1]))) as (e1 & e2 & E1 & E2 & _ & _ & ES); auto using poly_mie_first, poly_mie_second.
  - intros x. split; apply hull_mono; auto; intros v [<-|[<-|[]]]; apply hull_vertex; auto; cbn; auto.
  - exists p1, p2, e1, e2. auto.
Qed.

(** * Forms without section variables *)
Lemma mbe_exists_all n log_det P sphere : (0 < n)%nat -> log_det_spec n log_det -> (forall x, In x P -> length x = n) ->
  ((exists A b, log_det_optimal n log_det (mbe_points_constraints n P sphere) A b) <-> wide n P sphere).
Proof. intros Hn HL. now apply mbe_exists_iff. Qed.
Lemma mbe_unique_all n log_det P sphere A1 b1 A2 b2 : (0 < n)%nat -> log_det_spec n log_det -> (forall x, In x P -> length x = n) ->
  log_det_optimal n log_det (mbe_points_constraints n P sphere) A1 b1 -> log_det_optimal n log_det (mbe_points_constraints n P sphere) A2 b2 -> A1 = A2 /\ b1 = b2.
Proof. intros Hn HL. now apply mbe_optimal_unique. Qed.
Lemma mie_exists_all n log_det H h : (0 < n)%nat -> log_det_spec n log_det -> is_mat (length h) n H ->
  ((exists B c, log_det_optimal n log_det (mie_constraints n H h false) B c) <-> solid_halfspaces n H h /\ bounded_halfspaces n H h).
Proof. intros Hn HL. now apply mie_exists_iff. Qed.
Lemma mie_exists_sphere n log_det H h : (0 < n)%nat -> log_det_spec n log_det -> is_mat (length h) n H -> solid_halfspaces n H h -> bounded_halfspaces n H h ->
  exists B c, log_det_optimal n log_det (mie_constraints n H h true) B c.
Proof. intros Hn HL. now apply mie_exists. Qed.
Lemma mie_unique_all n log_det H h sphere B1 c1 B2 c2 : (0 < n)%nat -> log_det_spec n log_det -> is_mat (length h) n H ->
  log_det_optimal n log_det (mie_constraints n H h sphere) B1 c1 -> log_det_optimal n log_det (mie_constraints n H h sphere) B2 c2 -> B1 = B2 /\ (sphere = false -> c1 = c2).
Proof. intros Hn HL. now apply mie_optimal_unique. Qed.
(** ConvexPolyhedron.mbe *)
Lemma poly_mbe_function d p1 p2 k1 orth1 null1 eigh1 lstsq1 solver1 k2 orth2 null2 eigh2 lstsq2 solver2 :
  (0 < d)%nat -> (forall x, In x (p_vertices p1) -> length x = d) -> (forall x, In x (p_vertices p2) -> length x = d) -> same_hull d (p_vertices p1) (p_vertices p2) ->
  mbe_oracles d k1 orth1 null1 eigh1 lstsq1 solver1 (p_vertices p1) -> mbe_oracles d k2 orth2 null2 eigh2 lstsq2 solver2 (p_vertices p2) ->
  exists e1 e2, poly_mbe orth1 null1 eigh1 lstsq1 solver1 p1 = Ok e1 /\ poly_mbe orth2 null2 eigh2 lstsq2 solver2 p2 = Ok e2 /\
    e_dim e1 = d /\ e_dim e2 = d /\
    forall x, ell_set (e_half e1) (e_rot e1) (e_center e1) x <-> ell_set (e_half e2) (e_rot e2) (e_center e2) x.
Proof. exact (mbe_of_points_function d (p_vertices p1) (p_vertices p2) k1 orth1 null1 eigh1 lstsq1 solver1 k2 orth2 null2 eigh2 lstsq2 solver2). Qed.
