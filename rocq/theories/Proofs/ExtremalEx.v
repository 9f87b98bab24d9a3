(** Concrete cases of the extremal-ellipsoid theorems, and forms of them without auxiliary names. *)
From Verif Require Import Proofs.Coord Proofs.Hull Base.Ext Model.Util Model.Polydd Model.Constraint Model.Ellipsoid Model.Poly Model.Extremal
  Spec.Basic Spec.Shapes Spec.ShapeObjects Spec.DoubleDesc Spec.PolySpec Spec.ExtremalSpec Proofs.LinAlg Proofs.BoxP Proofs.DDP Proofs.PolyP Proofs.SampleDD Proofs.EllP Proofs.EllForms Proofs.EllSame
  Proofs.MustContain Proofs.ExtremalP Proofs.ExtremalOpt Proofs.EllPairP.

Lemma fin1_inj u v : fin1 u = fin1 v -> u = v.
Proof. intro H. rewrite <- (map_to_R_fin u), H. apply map_to_R_fin. Qed.
Lemma fin2_inj A B : fin2 A = fin2 B -> A = B.
Proof. intro H. rewrite <- (to_R_fin2 A), H. apply to_R_fin2. Qed.
Lemma s_procedure_sound s o S1 A1 b1 S2 A2 b2 t : is_ell s -> is_ell o -> (0 < e_dim s)%nat -> e_dim o = e_dim s ->
  orthogonal (e_dim s) (e_rot s) -> orthogonal (e_dim s) (e_rot o) -> fat (e_half s) -> fat (e_half o) ->
  e_S s = fin2 S1 -> e_A s = fin2 A1 -> e_b s = fin1 b1 -> e_S o = fin2 S2 -> e_A o = fin2 A2 -> e_b o = fin1 b2 -> 0 <= t ->
  cp_nsd (e_dim s + 1) (schur (msub S1 (mscale t S2)) (vsub (mat_vec A1 b1) (vscale t (mat_vec A2 b2))) (dot b1 b1 - 1 - t * (dot b2 b2 - 1))) ->
  forall x, ell_set (e_half o) (e_rot o) (e_center o) x -> ell_set (e_half s) (e_rot s) (e_center s) x.
Proof.
  intros Hs Ho Hn E Os Oo Fs Fo H1 H2 H3 H4 H5 H6 Ht H. rewrite e_S_fin in H1, H4 by (auto; lia). rewrite e_A_fin in H2, H5 by (auto; lia). rewrite e_b_fin in H3, H6 by (auto; lia).
  apply fin2_inj in H1, H2, H4, H5. apply fin1_inj in H3, H6. subst. apply (s_procedure_contains s o t); auto.
Qed.
(** the code's condition bounds the quadric with coefficients other.A, self.b and |other.b|^2 - 1 *)
Lemma contains_code s o A2 b1 b2 P : is_ell s -> is_ell o -> (0 < e_dim s)%nat -> e_dim o = e_dim s ->
  orthogonal (e_dim s) (e_rot s) -> fat (e_half s) -> fat (e_half o) -> e_A o = fin2 A2 -> e_b s = fin1 b1 -> e_b o = fin1 b2 ->
  contains_ellipsoid s o = Ok P -> P -> forall x, length x = e_dim s ->
  quadric A2 b1 (dot b2 b2 - 1) x -> ell_set (e_half s) (e_rot s) (e_center s) x.
Proof.
  intros Hs Ho Hn E Os Fs Fo H1 H2 H3 HC HP x Lx Hx. rewrite e_A_fin in H1 by (auto; lia). rewrite e_b_fin in H2, H3 by (auto; lia).
  apply fin2_inj in H1. apply fin1_inj in H2, H3. subst. apply (contains_code_quadric s o P); auto.
Qed.
Lemma contains_dims s o : is_ell s -> is_ell o -> (0 < e_dim s)%nat -> (0 < e_dim o)%nat -> fat (e_half s) -> fat (e_half o) -> e_dim o <> e_dim s -> contains_ellipsoid s o = Raise ValueError.
Proof.
  intros Hs Ho Hn Hm Fs Fo N. unfold contains_ellipsoid. rewrite !e_S_fin, !e_A_fin, !e_b_fin by auto. rewrite !finite_mat_fin, !finite_vec_fin. cbn [bind].
  rewrite (proj2 (Nat.eqb_neq _ _)) by auto. reflexivity.
Qed.
Lemma contains_total s o : is_ell s -> is_ell o -> (0 < e_dim s)%nat -> fat (e_half s) -> fat (e_half o) -> e_dim o = e_dim s -> exists P, contains_ellipsoid s o = Ok P.
Proof. intros. rewrite contains_ellipsoid_fat by auto. eexists. reflexivity. Qed.

(** a degenerate ellipsoid has an infinite S: the problem cannot be built *)
Lemma contains_size_refuted : exists s o P x, ell_sphere 2 (Some (zeros 3)) = Ok s /\ ell_sphere 3 (Some (zeros 3)) = Ok o /\ contains_ellipsoid s o = Ok P /\ P /\
  ell_set (e_half o) (e_rot o) (e_center o) x /\ ~ ell_set (e_half s) (e_rot s) (e_center s) x.
Proof.
  destruct (sphere_init 2 (zeros 3)) as (s & Hs); [lra|]. destruct (sphere_init 3 (zeros 3)) as (o & Ho); [lra|].
  destruct (sphere_forms 2 (zeros 3) s ltac:(lra) ltac:(cbn; lia) Hs) as (S1 & S2 & S3 & S4 & _ & _ & _ & S8).
  destruct (sphere_forms 3 (zeros 3) o ltac:(lra) ltac:(cbn; lia) Ho) as (O1 & O2 & O3 & O4 & _ & _ & _ & O8). change (length (zeros 3)) with 3%nat in *.
  destruct (contains_total s o) as (P & HP); auto; try lia. exists s, o, P, [3; 0; 0]. do 3 (split; [assumption|]). split.
  - apply (contains_spheres 3 2 3 s o P); auto; try lia; lra.
  - rewrite O8, S8 by reflexivity. unfold ball. rewrite !norm_le_iff by lra. unfold zeros. cbn. lra.
Qed.
Lemma contains_false_refuted : exists s o P, ell_sphere (1 / 2) (Some (zeros 3)) = Ok s /\ ell_sphere (2 / 5) (Some (zeros 3)) = Ok o /\ contains_ellipsoid s o = Ok P /\ ~ P /\
  forall x, length x = 3%nat -> ell_set (e_half o) (e_rot o) (e_center o) x -> ell_set (e_half s) (e_rot s) (e_center s) x.
Proof.
  destruct (sphere_init (1 / 2) (zeros 3)) as (s & Hs); [lra|]. destruct (sphere_init (2 / 5) (zeros 3)) as (o & Ho); [lra|].
  destruct (sphere_forms (1 / 2) (zeros 3) s ltac:(lra) ltac:(cbn; lia) Hs) as (S1 & S2 & S3 & S4 & _ & _ & _ & S8).
  destruct (sphere_forms (2 / 5) (zeros 3) o ltac:(lra) ltac:(cbn; lia) Ho) as (O1 & O2 & O3 & O4 & _ & _ & _ & O8). change (length (zeros 3)) with 3%nat in *.
  destruct (contains_total s o) as (P & HP); auto; try lia. exists s, o, P. do 3 (split; [assumption|]). split.
  - intro K. apply (contains_spheres 3 (1 / 2) (2 / 5) s o P) in K; auto; try lia; lra.
  - intros x Lx. rewrite O8, S8 by auto. unfold ball. lra.
Qed.
Lemma contains_place_refuted : exists s o P x, ell_sphere 1 (Some (zeros 3)) = Ok s /\ ell_sphere 1 (Some [10; 0; 0]) = Ok o /\ contains_ellipsoid s o = Ok P /\ P /\
  ell_set (e_half o) (e_rot o) (e_center o) x /\ ~ ell_set (e_half s) (e_rot s) (e_center s) x.
Proof.
  destruct (sphere_init 1 (zeros 3)) as (s & Hs); [lra|]. destruct (sphere_init 1 [10; 0; 0]) as (o & Ho); [lra|].
  destruct (sphere_forms 1 (zeros 3) s ltac:(lra) ltac:(cbn; lia) Hs) as (S1 & S2 & S3 & S4 & _ & _ & _ & S8).
  destruct (sphere_forms 1 [10; 0; 0] o ltac:(lra) ltac:(cbn; lia) Ho) as (O1 & O2 & O3 & O4 & _ & _ & _ & O8). change (length (zeros 3)) with 3%nat in *. change (length [10; 0; 0]) with 3%nat in *.
  destruct (contains_total s o) as (P & HP); auto; try lia. exists s, o, P, [10; 0; 0]. do 3 (split; [assumption|]). split.
  - apply (contains_anywhere [10; 0; 0] s o P); auto. cbn. lia.
  - rewrite O8, S8 by reflexivity. unfold ball. rewrite !norm_le_iff by lra. unfold zeros. cbn. lra.
Qed.
(** the unit sphere contains itself *)
Lemma contains_case : exists s P, ell_sphere 1 (Some (zeros 3)) = Ok s /\ contains_ellipsoid s s = Ok P /\ P /\ e_center s = zeros (e_dim s) /\ e_b s = e_b s.
Proof.
  destruct (sphere_init 1 (zeros 3)) as (s & Hs); [lra|]. destruct (sphere_forms 1 (zeros 3) s ltac:(lra) ltac:(cbn; lia) Hs) as (S1 & S2 & S3 & S4 & _). change (length (zeros 3)) with 3%nat in *.
  destruct (contains_total s s) as (P & HP); auto; try lia. exists s, P. do 2 (split; [assumption|]). split; [apply (contains_spheres 3 1 1 s s P); auto; try lia; lra|].
  split; [|reflexivity]. destruct (sphere_ok 1 (zeros 3) s ltac:(lra) Hs) as (_ & _ & _ & _ & ->). now rewrite S2.
Qed.

(** * mbe_of_ellipsoids *)
Definition eigh_c (a : R) : mat -> vec * mat := fun _ => (repeat a 3, eye 3).
Lemma eigh_c_spec a : eigh_spec 3 (mscale a (eye 3)) (eigh_c a (mscale a (eye 3))).
Proof.
  split; [reflexivity|]. split; [apply orthogonal_eye; lia|]. unfold eigh_c. cbn [fst snd].
  rewrite (mat_mul_eye_r 3 3) by (auto using is_mat_mscale, is_mat_eye). rewrite (mat_mul_eye_l 3 3) by (try exact (is_mat_diag (repeat a 3)); lia).
  cbn. list_eq; ring.
Qed.
Lemma mbee_sphere_refuted : exists eigh linsolve solver E e x,
  ell_sphere 3 (Some (zeros 3)) = Ok E /\ mbe_of_ellipsoids eigh linsolve solver [E] false = Ok e /\
  solver (fun S d => exists ts, mbee_constraints 3 [(mscale (/ 3) (eye 3), zeros 3)] false S d ts) = (mscale (/ 3) (eye 3), zeros 3) /\
  mbee_constraints 3 [(mscale (/ 3) (eye 3), zeros 3)] false (mscale (/ 3) (eye 3)) (zeros 3) [1] /\
  (forall S d ts, mbee_constraints 3 [(mscale (/ 3) (eye 3), zeros 3)] false S d ts -> forall y, length y = 3%nat -> quad S y <= quad (mscale (/ 3) (eye 3)) y) /\
  ell_set (e_half E) (e_rot E) (e_center E) x /\ ~ ell_set (e_half e) (e_rot e) (e_center e) x.
Proof.
  destruct (sphere_init 3 (zeros 3)) as (E & HE); [lra|]. destruct (sphere_forms 3 (zeros 3) E ltac:(lra) ltac:(cbn; lia) HE) as (_ & _ & _ & _ & _ & _ & _ & S8). change (length (zeros 3)) with 3%nat in *.
  exists (eigh_c (/ 3)), (fun _ y => vscale 3 y), (fun _ => (mscale (/ 3) (eye 3), zeros 3)), E.
  destruct (mbee_sphere_result 3 3 (eigh_c (/ 3)) (fun _ y => vscale 3 y) (fun _ => (mscale (/ 3) (eye 3), zeros 3)) E false (repeat (/ 3) 3) (eye 3)) as (e & R1 & R2 & R3); auto; try lra; try reflexivity; try (cbn; list_eq; lra).
  - apply eigh_c_spec.
  - exists e, [3; 0; 0]. split; [exact HE|]. split; [exact R1|]. split; [reflexivity|]. split; [apply mbee_sphere_feasible; lra|]. split.
    + intros S d ts H y Ly. rewrite quad_mscale, (quad_eye 3) by auto. apply (mbee_sphere_best 3 3 S d ts); auto; try lia; lra.
    + rewrite S8, R3 by reflexivity. unfold ball. rewrite !norm_le_iff by (try apply sqrt_pos; lra). rewrite sqrt_sqrt by lra. unfold zeros. cbn. lra.
Qed.
(** the bounding ellipsoid of one unit sphere at (1, 2, 3) *)
Lemma mbee_unit_case : exists eigh linsolve solver E e,
  ell_sphere 1 (Some [1; 2; 3]) = Ok E /\ mbe_of_ellipsoids eigh linsolve solver [E] true = Ok e /\
  forall x, length x = 3%nat -> ball [1; 2; 3] 1 x -> ell_set (e_half e) (e_rot e) (e_center e) x.
Proof.
  destruct (sphere_init 1 [1; 2; 3]) as (E & HE); [lra|].
  assert (F : forall x : vec, length x = 3%nat -> exists a b c, x = [a; b; c]) by (intros x Lx; destruct (len3_inv _ Lx) as (a & b & c & ->); eauto).
  destruct (mbee_unit_spheres 3 (eigh_c 1) (fun _ y => y) (fun _ => (mscale 1 (eye 3), [-1; -2; -3])) [[1; 2; 3]] [E] true (mscale 1 (eye 3)) [-1; -2; -3] [1] (repeat 1 3) (eye 3)) as (e & R1 & R2 & R3 & R4); auto; try discriminate; try reflexivity.
  - intros v [<-|[]]. reflexivity.
  - cbn [mapM]. rewrite HE. reflexivity.
  - cbn [map]. split; [|split; [reflexivity|split; [reflexivity|split; [intros t [<-|[]]; lra|split]]]].
    + split; [auto using is_mat_mscale, is_mat_eye|]. split; [cbn; list_eq; ring|]. intros z Lz. rewrite quad_mscale, (quad_eye 3) by auto. pose proof (dot_self_nonneg z). lra.
    + constructor; [|constructor]. cbn [fst snd]. intros z Lz.
      assert (EZ : exists x a y, z = x ++ [a] ++ y /\ length x = 3%nat /\ length y = 3%nat).
      { exists (firstn 3 z), (nth 3 z 0), (skipn 4 z). split; [|split; [rewrite firstn_length; lia|rewrite skipn_length; lia]].
        rewrite <- (firstn_skipn 3 z) at 1. f_equal. apply skipn_cons_nth. lia. }
      destruct EZ as (x & a & y & -> & Lx & Ly). rewrite (mbee_quad 3) by (auto using is_mat_mscale, is_mat_eye). rewrite !quad_mscale, !(quad_eye 3) by auto.
      destruct (F x Lx) as (x1 & x2 & x3 & ->). destruct (F y Ly) as (y1 & y2 & y3 & ->). cbn.
      assert (0 <= (a + y1) * (a + y1) + (2 * a + y2) * (2 * a + y2) + (3 * a + y3) * (3 * a + y3)) by (pose proof (sqr_nonneg (a + y1)); pose proof (sqr_nonneg (2 * a + y2)); pose proof (sqr_nonneg (3 * a + y3)); lra). lra.
    + intros _. exists 1. reflexivity.
  - cbn. list_eq; lra.
  - apply eigh_c_spec.
  - intros a Ha. apply repeat_spec in Ha as ->. unfold np_atol. rewrite Rinv_mult, !Rinv_inv. lra.
  - exists (eigh_c 1), (fun _ y => y), (fun _ => (mscale 1 (eye 3), [-1; -2; -3])), E, e. split; [exact HE|]. split; [exact R1|]. intros x Lx Hx. apply (R4 [1; 2; 3]); auto. now left.
Qed.

(** * Concrete cases of the point and halfspace programs *)
(** the points (1,0), (-1,0) span a line of the plane: the result is a degenerate ellipsoid *)
Lemma mbe_points_case : exists e,
  mbe_of_points (fun _ => [[1]; [0]]) (fun _ => [[0]; [1]]) (fun _ => ([1], [[1]])) (fun _ y => y) (fun _ => ([[1]], [1])) [[1; 0]; [-1; 0]] = Ok e /\
  e_half e = [/ 1; 0] /\ forall p, In p [[1; 0]; [-1; 0]] -> ell_set (e_half e) (e_rot e) (e_center e) p.
Proof.
  destruct (mbe_of_points_contains 2 1 [[1; 0]; [-1; 0]] (fun _ => [[1]; [0]]) (fun _ => [[0]; [1]]) (fun _ => ([1], [[1]])) (fun _ y => y) (fun _ => ([[1]], [1])) [1; 0] [[1]] [1] [1] [[1]])
    as (e & E1 & E2 & E3 & E4 & E5); try lia; try reflexivity.
  - intros v [<-|[<-|[]]]; reflexivity.
  - split; [split; [split; [reflexivity|repeat constructor]|cbn; list_eq; ring]|]. intros p [<-|[<-|[]]]; cbn; list_eq; ring.
  - split; [split; [split; [reflexivity|repeat constructor]|split; [reflexivity|]]|split; [reflexivity|split; [|discriminate]]].
    + intros z Lz. destruct (len1_inv _ Lz) as (a & ->). unfold quad. cbn. pose proof (sqr_nonneg a). lra.
    + intros x [<-|[<-|[]]]; apply (norm_le_iff _ 1); try lra; cbn; lra.
  - intros z Lz Nz. destruct (len1_inv _ Lz) as (a & ->). unfold quad. cbn. assert (a <> 0) by (intros ->; apply Nz; reflexivity). nra.
  - split; [reflexivity|]. split; [|cbn; list_eq; ring]. split; [split; [reflexivity|repeat constructor]|]. split; cbn; list_eq; ring.
  - split; [reflexivity|]. intros _. cbn. list_eq; ring.
  - split; [split; [split; [reflexivity|repeat constructor]|cbn; list_eq; ring]|]. split.
    + intros v Lv. destruct (len1_inv _ Lv) as (a & ->). cbn. list_eq; ring.
    + intros x Lx Hx. destruct (len2_inv _ Lx) as (a & b & ->). cbn in Hx. injection Hx as Hx. cbn. list_eq; lra.
  - exists e. auto.
Qed.
(** log_det in dimension one *)
Lemma log_det_1 : log_det_spec 1 (fun M => ln (entry M 0 0)).
Proof.
  intros V w (MV & V1 & V2) Lw Hw. destruct (len1_inv _ Lw) as (a & ->). destruct MV as (L1 & F1). destruct V as [|r [|]]; try discriminate. apply Forall_cons_iff in F1 as (Lr & _).
  destruct (len1_inv _ Lr) as (v & ->). cbn in V1. injection V1 as V1. cbn. unfold entry. cbn. rewrite !Rplus_0_r. f_equal.
  transitivity (a * (v * v + 0)); [ring|]. rewrite V1. ring.
Qed.
(** the interval spanned by the points 1 and -1 *)
Lemma mbe_minimal_case : exists e,
  mbe_of_points (fun _ => [[1]]) (fun _ => [[]]) (fun _ => ([1], [[1]])) (fun _ y => y) (fun _ => ([[1]], [1])) [[1]; [-1]] = Ok e /\
  forall h Q c e', ell_init h (Some Q) (Some c) = Ok e' -> length h = 1%nat -> orthogonal 1 Q -> (forall i, (i < 1)%nat -> 0 < nth i h 0) ->
      (forall p, In p [[1]; [-1]] -> ell_set h Q c p) -> e_volume e <= e_volume e'.
Proof.
  destruct (mbe_of_points_minimal 1 [[1]; [-1]] (fun _ => [[1]]) (fun _ => [[]]) (fun _ => ([1], [[1]])) (fun _ y => y) (fun _ => ([[1]], [1])) (fun M => ln (entry M 0 0)) [1] [[1]] [1] [1] [[1]])
    as (e & E1 & E2 & E3 & E4 & E5); try lia; try reflexivity.
  - intros v [<-|[<-|[]]]; reflexivity.
  - split; [split; [reflexivity|repeat constructor]|]. split; cbn; list_eq; ring.
  - split; [split; [split; [reflexivity|repeat constructor]|split; [reflexivity|]]|split; [reflexivity|split; [|discriminate]]].
    + intros z Lz. destruct (len1_inv _ Lz) as (a & ->). unfold quad. cbn. pose proof (sqr_nonneg a). lra.
    + intros x [<-|[<-|[]]]; apply (norm_le_iff _ 1); try lra; cbn; lra.
  - intros z Lz Nz. destruct (len1_inv _ Lz) as (a & ->). unfold quad. cbn. assert (a <> 0) by (intros ->; apply Nz; reflexivity). nra.
  - apply log_det_1.
  - intros A' b' ((MA & _) & Lb & HC & _) HP. destruct MA as (L1 & F1). destruct A' as [|r [|]]; try discriminate. apply Forall_cons_iff in F1 as (Lr & _).
    destruct (len1_inv _ Lr) as (a & ->). destruct (len1_inv _ Lb) as (b & ->). unfold entry. cbn. rewrite ln_1.
    specialize (HP [1] eq_refl). assert (N : [1] <> zeros 1) by (unfold zeros; cbn; intro K; injection K; lra). specialize (HP N). unfold quad in HP. cbn in HP.
    pose proof (HC (vec_mat (vsub [1] [1]) [[1]]) (or_introl eq_refl)) as C1. pose proof (HC (vec_mat (vsub [-1] [1]) [[1]]) (or_intror (or_introl eq_refl))) as C2.
    apply (norm_le_iff _ 1) in C1; [|lra]. apply (norm_le_iff _ 1) in C2; [|lra]. cbn in C1, C2. assert (B1 : -1 <= b <= 1) by nra. assert (B2 : a <= 1) by nra.
    destruct (Req_dec a 1) as [->|NE]; [rewrite ln_1; lra|]. apply Rlt_le. rewrite <- ln_1. apply ln_increasing; lra.
  - split; [reflexivity|]. split; [|cbn; list_eq; ring]. split; [split; [reflexivity|repeat constructor]|]. split; cbn; list_eq; ring.
  - split; [reflexivity|]. intros _. cbn. list_eq; ring.
  - split; [split; [split; [reflexivity|repeat constructor]|reflexivity]|]. split.
    + intros v Lv. destruct v; [|discriminate]. cbn. list_eq; ring.
    + intros x Lx Hx. destruct (len1_inv _ Lx) as (a & ->). cbn in Hx. injection Hx as Hx. cbn. list_eq; lra.
  - exists e. auto.
Qed.
(** the interval [-1, 1] given by its halfspaces *)
Lemma mie_case : exists e,
  mie_inequality_form (fun _ => ([1], [[1]])) (fun _ => [[1]]) (fun _ => ([[1]], [0])) [[1]; [-1]] [1; 1] true = Ok e /\
  (forall x, ell_set (e_half e) (e_rot e) (e_center e) x -> halfspaces [[1]; [-1]] [1; 1] x) /\
  forall h Q q e', ell_init h (Some Q) (Some q) = Ok e' -> length h = 1%nat -> orthogonal 1 Q -> (forall i, (i < 1)%nat -> 0 < nth i h 0) ->
      (forall x, ell_set h Q q x -> halfspaces [[1]; [-1]] [1; 1] x) -> (true = true -> exists r, h = repeat r 1) -> e_volume e' <= e_volume e.
Proof.
  destruct (mie_maximal 1 [[1]; [-1]] [1; 1] true (fun _ => ([1], [[1]])) (fun _ => [[1]]) (fun _ => ([[1]], [0])) (fun M => ln (entry M 0 0)) [[1]] [0] [1] [[1]]) as (e & E1 & E2 & E3 & E4 & E5); try (cbn; lia); try reflexivity.
  - split; [reflexivity|repeat constructor].
  - split; [split; [split; [reflexivity|repeat constructor]|split; [reflexivity|]]|split; [reflexivity|split]].
    + intros z Lz. destruct (len1_inv _ Lz) as (a & ->). unfold quad. cbn. pose proof (sqr_nonneg a). lra.
    + intros [|[|i]] Hi; cbn in Hi; [| |lia]; cbn; unfold norm; cbn.
      * replace ((1 * 1 + 0) * (1 * 1 + 0) + 0) with 1 by ring. rewrite sqrt_1. lra.
      * replace ((1 * -1 + 0) * (1 * -1 + 0) + 0) with 1 by ring. rewrite sqrt_1. lra.
    + intros _. exists 1. cbn. list_eq; ring.
  - apply log_det_1.
  - intros B c ((MA & _) & Lb & HC & _) HP. destruct MA as (L1 & F1). destruct B as [|r [|]]; try discriminate. apply Forall_cons_iff in F1 as (Lr & _).
    destruct (len1_inv _ Lr) as (a & ->). destruct (len1_inv _ Lb) as (b & ->). unfold entry. cbn. rewrite ln_1.
    specialize (HP [1] eq_refl). assert (N : [1] <> zeros 1) by (unfold zeros; cbn; intro K; injection K; lra). specialize (HP N). unfold quad in HP. cbn in HP.
    pose proof (HC 0%nat ltac:(cbn; lia)) as C1. pose proof (HC 1%nat ltac:(cbn; lia)) as C2. cbn in C1, C2. unfold norm in C1, C2. cbn in C1, C2.
    replace ((a * 1 + 0) * (a * 1 + 0) + 0) with (a * a) in C1 by ring. replace ((a * -1 + 0) * (a * -1 + 0) + 0) with (a * a) in C2 by ring. rewrite sqrt_square in C1, C2 by lra.
    destruct (Req_dec a 1) as [->|NE]; [rewrite ln_1; lra|]. apply Rlt_le. rewrite <- ln_1. apply ln_increasing; lra.
  - split; [split; [reflexivity|repeat constructor]|]. split; cbn; list_eq; ring.
  - split; [reflexivity|]. split; [|cbn; list_eq; ring]. split; [split; [reflexivity|repeat constructor]|]. split; cbn; list_eq; ring.
  - intros a [<-|[]]. unfold np_atol. rewrite Rinv_mult, !Rinv_inv. lra.
  - exists e. auto.
Qed.
(** the polyhedron [-1, 1] of the line *)
Lemma poly_mie_case : exists e,
  poly_mie (dd1 0 2) (fun _ => [[1]]) (fun _ => [[]]) (fun _ => ([1], [[1]])) (fun _ => [[1]]) (fun _ => ([[1]], [1])) (pinterval (-1) 1) false = Ok e /\
  forall x, ell_set (e_half e) (e_rot e) (e_center e) x -> in_hull 1 (p_vertices (pinterval (-1) 1)) x.
Proof.
  destruct (poly_mie_inside 1 1 (dd1 0 2) (fun _ => [[1]]) (fun _ => [[]]) (fun _ => ([1], [[1]])) (fun _ => [[1]]) (fun _ => ([[1]], [1])) (pinterval (-1) 1) false [-1]
    {| ff_A := [[-1]; [1]]; ff_b := [- 0; 2] |} [[1]] [1] [1] [[1]]) as (e & E1 & E2 & E3 & E4); try lia; try reflexivity.
  - intros v [<-|[<-|[]]]; reflexivity.
  - split; [split; [split; [reflexivity|repeat constructor]|cbn; list_eq; ring]|]. intros p [<-|[<-|[]]]; cbn; list_eq; ring.
  - assert (EM : {| cdd_rows := map (cons 1) (mat_mul (map (fun v => vsub v [-1]) (p_vertices (pinterval (-1) 1))) [[1]]); cdd_lin := [] |} = vrows 0 2).
    { unfold vrows. f_equal. cbn. list_eq; lra. }
    rewrite EM. apply dd1_ineqs. lra.
  - unfold sf_to_face_form. cbn. unfold ff_from_cdd. cbn. f_equal. f_equal; cbn; list_eq; try reflexivity; lra.
  - split; [split; [split; [reflexivity|repeat constructor]|split; [reflexivity|]]|split; [reflexivity|split; [|discriminate]]].
    + intros z Lz. destruct (len1_inv _ Lz) as (a & ->). unfold quad. cbn. pose proof (sqr_nonneg a). lra.
    + intros [|[|i]] Hi; cbn in Hi; [| |lia]; cbn; unfold norm; cbn.
      * replace ((1 * -1 + 0) * (1 * -1 + 0) + 0) with 1 by ring. rewrite sqrt_1. lra.
      * replace ((1 * 1 + 0) * (1 * 1 + 0) + 0) with 1 by ring. rewrite sqrt_1. lra.
  - split; [split; [reflexivity|repeat constructor]|]. split; cbn; list_eq; ring.
  - split; [reflexivity|]. split; [|cbn; list_eq; ring]. split; [split; [reflexivity|repeat constructor]|]. split; cbn; list_eq; ring.
  - intros a [<-|[]]. unfold np_atol. rewrite Rinv_mult, !Rinv_inv. lra.
  - split; [split; [split; [reflexivity|repeat constructor]|reflexivity]|]. split.
    + intros v Lv. destruct v; [|discriminate]. cbn. list_eq; ring.
    + intros x Lx Hx. destruct (len1_inv _ Lx) as (a & ->). cbn in Hx. injection Hx as Hx. cbn. list_eq; lra.
  - exists e. auto.
Qed.
Lemma extremal_empty : (forall orth null_space eigh lstsq solver, mbe_of_points orth null_space eigh lstsq solver [] = Raise IndexError) /\
  (forall eigh linsolve solver sphere, mbe_of_ellipsoids eigh linsolve solver [] sphere = Raise IndexError).
Proof. split; reflexivity. Qed.
