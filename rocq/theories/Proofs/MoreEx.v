(** Concrete cases for C67-C72. *)
From Verif Require Import Base.Vec Base.VecFacts Base.Ext Spec.Basic Spec.Shapes Spec.Objects Spec.ShapeObjects Spec.DoubleDesc Spec.PolySpec Spec.Samples Spec.Integrals Spec.RandomSpec Spec.Uniform Spec.ExtremalSpec
  Model.Util Model.Constraint Model.Polydd Model.Poly Model.Inertial Model.Ellipsoid Model.Box Model.Cylinder Model.Random Model.Extremal
  Proofs.Coord Proofs.Hull Proofs.BoxP Proofs.EllP Proofs.ShapesW Proofs.SamplesP Proofs.InertialP Proofs.CylP Proofs.TransformP
  Proofs.DDP Proofs.PolyP Proofs.SampleDD Proofs.AabbP Proofs.InscribedP Proofs.VolumeP Proofs.VolumeC Proofs.VolumeV Proofs.ConstructP Proofs.ExtremalP Proofs.ExtremalOpt Proofs.EllPairP Proofs.ExtremalEx Proofs.UniformP.

(** ** C67 *)
Lemma mbb_case : exists c k b b' a a', cyl_init 2 1 (Some Q0) (Some t0) = Ok c /\ caps_init c = Ok k /\ orthogonal 3 Q0 /\ cyl_mbb c = Ok b /\ caps_mbb k = Ok b' /\
  cyl_endpoints c = [a; a'] /\
  (forall p, cyl_set 2 1 Q0 t0 p -> box_set (b_half b) (b_rot b) (b_center b) p) /\
  (forall p, length p = 3%nat -> caps_set a a' 1 p -> box_set (b_half b') (b_rot b') (b_center b') p).
Proof.
  destruct caps_example as (c & k & Hc & Hk). destruct (cyl_boxes_total _ _ _ _ _ Hc) as (_ & (b & Hb) & _). destruct (caps_mbb_total _ _ _ _ _ _ Hc Hk) as (b' & Hb').
  destruct (caps_aabb_spec _ _ _ _ _ _ Hc Hk Q0_orth) as (_ & a & a' & _ & E & _). exists c, k, b, b', a, a'.
  split; [exact Hc|]. split; [exact Hk|]. split; [exact Q0_orth|]. split; [exact Hb|]. split; [exact Hb'|]. split; [exact E|]. split.
  - intros p. apply (cyl_mbb_outside _ _ _ _ _ _ p Hc Hb).
  - intros p. apply (caps_mbb_outside _ _ _ _ _ _ _ p a a' Hc Hk Q0_orth Hb' E).
Qed.
Lemma mbe_sphere_case : exists e e' rad s, ell_init [1; 2; 3] (Some Q0) (Some t0) = Ok e /\ orthogonal 3 Q0 /\ ell_mbe e true = Ok e' /\ 0 <= rad /\ ell_sphere rad (Some t0) = Ok s /\
  forall p, ell_set [1; 2; 3] Q0 t0 p -> norm (vsub p t0) <= rad.
Proof.
  destruct ell_example_fat as (e & He & _). destruct (ell_boxes_total _ _ _ _ He eq_refl) as (_ & _ & (e' & He')).
  assert (S3 : exists s, ell_sphere 3 (Some t0) = Ok s). { apply sphere_init; lra. }
  destruct S3 as (s & Hs). exists e, e', 3, s. split; [exact He|]. split; [exact Q0_orth|]. split; [exact He'|]. split; [lra|]. split; [exact Hs|].
  intros p (u & Lu & Hu & ->). cbn [length] in Lu. apply norm_le_iff; [lra|]. unfold move, t0, Q0. destruct_vecs. cbn in Hu |- *. unfold dot in *. cbn in *. nra.
Qed.
Lemma cyl_sphere_refuted : exists c e rad e', cyl_init 2 1 (Some Q0) (Some t0) = Ok c /\ cyl_mbe c true = Ok e /\ ell_sphere rad (Some t0) = Ok e' /\
  (forall p, cyl_set 2 1 Q0 t0 p -> ell_set (e_half e') (e_rot e') (e_center e') p) /\ e_volume e' < e_volume e.
Proof.
  destruct cyl_example as (c & Hc). destruct (cyl_boxes_total _ _ _ _ _ Hc) as (_ & _ & K). destruct (K true) as (e & He).
  destruct (cyl_mbe_sphere_not_minimal _ _ _ _ _ _ Hc Q0_orth He ltac:(lra)) as (rad & e' & H1 & H2 & H3). exists c, e, rad, e'. auto.
Qed.

(** ** C69 *)
(** a library that knows the triangle (0, 0), (2, 0), (0, 3) *)
Definition tri_h : CDD := {| cdd_rows := [[0; 1; 0]; [0; 0; 1]; [1; - / 2; - / 3]]; cdd_lin := [] |}.
Definition tri_v : CDD := {| cdd_rows := map (cons 1) (zeros 2 :: diag [2; 3]); cdd_lin := [] |}.
Definition tri_dd : DD := {| dd_ineqs := fun _ => tri_h; dd_gens := fun _ => tri_v; dd_canon := fun m => m |}.
Lemma tri_v_set x : length x = 2%nat -> (v_set 2 tri_v x <-> h_set tri_h x).
Proof.
  intro Lx. assert (K : v_set 2 tri_v x <-> in_hull 2 (zeros 2 :: diag [2; 3]) x).
  { destruct (sf_to_cdd_iff 2 (span_form (Some (zeros 2 :: diag [2; 3])) None None) tri_v) as [_ K].
    - rewrite sf_to_cdd_eq by (left; discriminate). cbn. reflexivity.
    - eexists. split; [reflexivity|]. split; [discriminate|]. intros v [<-|[<-|[<-|[]]]]; reflexivity.
    - intros v [].
    - rewrite K. unfold span_set. cbn. apply hull_cone_nil; intros v [<-|[<-|[<-|[]]]]; reflexivity. }
  rewrite K. rewrite (simplex_hull [2; 3] x) by (auto; intros a [<-|[<-|[]]]; lra). destruct (len2_inv _ Lx) as (u & v & ->). unfold h_set. cbn. split.
  - intros [P S]. pose proof (P 0%nat ltac:(lia)) as P0. pose proof (P 1%nat ltac:(lia)) as P1. cbn in P0, P1. unfold rsum in S. cbn in S. split; [|intros i []].
    intros r [<-|[<-|[<-|[]]]]; unfold dot; cbn; lra.
  - intros [P _]. pose proof (P _ (or_introl eq_refl)) as P0. pose proof (P _ (or_intror (or_introl eq_refl))) as P1. pose proof (P _ (or_intror (or_intror (or_introl eq_refl)))) as P2.
    unfold dot in P0, P1, P2. cbn in P0, P1, P2. split; [intros [|[|i]] Hi; cbn; try lia; lra|]. unfold rsum. cbn. lra.
Qed.
Lemma tri_ineqs m : m = tri_v -> ineqs_correct 2 (dd_ineqs tri_dd) m.
Proof.
  intros ->. split; [split; [intros r [<-|[<-|[<-|[]]]]; reflexivity|intros i []]|]. intros x Lx. symmetry. now apply tri_v_set.
Qed.
Lemma tri_gens m : m = tri_h -> gens_correct 2 (dd_gens tri_dd) m.
Proof.
  intros ->. right. split; [|exact tri_v_set]. split; [intros r [<-|[<-|[<-|[]]]]; cbn; auto|]. split; [intros i []|]. eexists. split; [now left|reflexivity].
Qed.
Lemma simplex_case : exists dd p, ineqs_correct 2 (dd_ineqs dd) {| cdd_rows := map (cons 1) (zeros 2 :: diag [2; 3]); cdd_lin := [] |} /\ poly_simplex dd [2; 3] = Ok p /\
  poly_contains p [1; 1] 0 = true /\ poly_contains p [1; 2] 0 = false.
Proof.
  exists tri_dd. assert (E : exists p, poly_simplex tri_dd [2; 3] = Ok p).
  { unfold poly_simplex. cbn [forallb]. rewrite !(proj2 (Rltb_iff 0 _)) by lra. cbn. eexists. reflexivity. }
  destruct E as (p & Hp). exists p. split; [now apply tri_ineqs|]. split; [exact Hp|].
  assert (K : forall x, length x = 2%nat -> _) by (intros x Lx; exact (proj2 (simplex_points tri_dd [2; 3] p x ltac:(cbn; lia) (tri_ineqs _ eq_refl) Hp Lx))). split.
  - apply K; [reflexivity|]. split; [intros [|[|i]] Hi; cbn in *; try lia; lra|]. unfold rsum. cbn. lra.
  - destruct (poly_contains p [1; 2] 0) eqn:E; [|reflexivity]. apply K in E; [|reflexivity]. destruct E as [_ E]. unfold rsum in E. cbn in E. lra.
Qed.
Lemma halfspaces_case : let A := [[-1; 0]; [0; -1]; [/ 2; / 3]] in let b := [0; 0; 1] in let m := {| cdd_rows := map2 (fun b a => b :: vneg a) b A; cdd_lin := [] |} in
  exists dd p, hcanon_correct 2 (dd_canon dd) m /\ gens_correct 2 (dd_gens dd) m /\ proper_rays (dd_gens dd m) /\ poly_from_halfspaces dd A b true = Ok p /\ poly_from_halfspaces dd A b false = Ok p /\
    p_A p = A /\ p_b p = b /\ (forall x i, length x = 2%nat -> halfspaces A b x -> Rabs (nth i x 0) <= 3) /\ halfspaces A b [1; 1].
Proof.
  intros A b m. assert (Em : m = tri_h) by (unfold m, tri_h, A, b; cbn; f_equal; list_eq; lra). exists tri_dd.
  assert (HS : forall x, halfspaces A b x <-> forall i, (i < 3)%nat -> dot (nth i A []) x <= nth i b 0) by (intro x; reflexivity).
  assert (EF : face_form A b None None = Ok {| ff_A := A; ff_b := b |}) by reflexivity.
  assert (EC : ff_canonical (dd_canon tri_dd) {| ff_A := A; ff_b := b |} = Ok {| ff_A := A; ff_b := b |}).
  { unfold ff_canonical. cbn [dd_canon tri_dd]. change (ff_to_cdd {| ff_A := A; ff_b := b |}) with m. rewrite Em. unfold ff_from_cdd. cbn. unfold A, b. f_equal. f_equal. list_eq; lra. }
  unfold poly_from_halfspaces. rewrite EF. cbn [bind]. rewrite EC. cbn [bind].
  exists {| p_face := {| ff_A := A; ff_b := b |}; p_span := span_form (Some (zeros 2 :: diag [2; 3])) None None |}.
  split; [split; [split; [intros r [<-|[<-|[<-|[]]]]; reflexivity|intros i []]|intros; reflexivity]|]. split; [now apply tri_gens|]. split; [intros r [<-|[<-|[<-|[]]]]; cbn; lra|].
  assert (PI : poly_init tri_dd (Some {| ff_A := A; ff_b := b |}) None = Ok {| p_face := {| ff_A := A; ff_b := b |}; p_span := span_form (Some (zeros 2 :: diag [2; 3])) None None |}).
  { unfold poly_init. cbn [bind]. unfold ff_to_span_form. cbn [dd_gens tri_dd]. pose proof (sf_roundtrip (span_form (Some (zeros 2 :: diag [2; 3])) None None) ltac:(discriminate) ltac:(discriminate) ltac:(left; discriminate)) as RT.
    rewrite sf_to_cdd_eq in RT by (left; discriminate). cbn [bind] in RT. change {| cdd_rows := _; cdd_lin := [] |} with tri_v in RT. rewrite RT. reflexivity. }
  split; [exact PI|]. split; [exact PI|]. do 2 (split; [reflexivity|]). split.
  - intros x i Lx H. destruct (len2_inv _ Lx) as (u & v & ->). pose proof (H 0%nat ltac:(cbn; lia)) as H0. pose proof (H 1%nat ltac:(cbn; lia)) as H1. pose proof (H 2%nat ltac:(cbn; lia)) as H2.
    unfold dot in H0, H1, H2. cbn in H0, H1, H2. destruct i as [|[|i]]; cbn; [| |destruct i; rewrite Rabs_R0; lra]; apply Rabs_le; lra.
  - intros [|[|[|i]]] Hi; cbn in Hi; try lia; unfold dot; cbn; lra.
Qed.
(** the half line x >= 0 *)
Definition ray_dd : DD := {| dd_ineqs := fun m => m; dd_gens := fun _ => {| cdd_rows := [[1; 0]; [0; 1]]; cdd_lin := [] |}; dd_canon := fun m => m |}.
Lemma halfspaces_bad_case :
  (exists dd, gens_correct 1 (dd_gens dd) {| cdd_rows := map2 (fun b a => b :: vneg a) [-1; 0] [[1]; [-1]]; cdd_lin := [] |} /\
     (forall x, length x = 1%nat -> ~ halfspaces [[1]; [-1]] [-1; 0] x) /\ poly_from_halfspaces dd [[1]; [-1]] [-1; 0] false = Raise AttributeError) /\
  (exists dd, gens_correct 1 (dd_gens dd) {| cdd_rows := map2 (fun b a => b :: vneg a) [0] [[-1]]; cdd_lin := [] |} /\
     (forall t, 0 <= t -> halfspaces [[-1]] [0] (vadd [0] (vscale t [1]))) /\ poly_from_halfspaces dd [[-1]] [0] false = Raise ValueError).
Proof.
  split.
  - exists dd_none. assert (N : forall x, length x = 1%nat -> ~ halfspaces [[1]; [-1]] [-1; 0] x).
    { intros x Lx H. destruct (len1_inv _ Lx) as (y & ->). pose proof (H 0%nat ltac:(cbn; lia)) as H0. pose proof (H 1%nat ltac:(cbn; lia)) as H1. unfold dot in H0, H1. cbn in H0, H1. lra. }
    assert (G : gens_correct 1 (dd_gens dd_none) {| cdd_rows := map2 (fun b a => b :: vneg a) [-1; 0] [[1]; [-1]]; cdd_lin := [] |}).
    { left. split; [reflexivity|]. intros x Lx [H _]. destruct (len1_inv _ Lx) as (y & ->). pose proof (H _ (or_introl eq_refl)) as H0. pose proof (H _ (or_intror (or_introl eq_refl))) as H1. unfold dot in H0, H1. cbn in H0, H1. lra. }
    split; [exact G|]. split; [exact N|]. apply (halfspaces_empty 1); auto.
  - exists ray_dd. assert (U : forall t, 0 <= t -> halfspaces [[-1]] [0] (vadd [0] (vscale t [1]))) by (intros t Ht [|i] Hi; cbn in Hi; [|lia]; unfold dot; cbn; lra).
    assert (G : gens_correct 1 (dd_gens ray_dd) {| cdd_rows := map2 (fun b a => b :: vneg a) [0] [[-1]]; cdd_lin := [] |}).
    { right. split.
      - split; [intros r [<-|[<-|[]]]; cbn; auto|]. split; [intros i []|]. exists [1; 0]. split; [now left|reflexivity].
      - intros x Lx. destruct (len1_inv _ Lx) as (y & ->). split.
        + intros (w & L & P & D & E). cbn in L. destruct (len2_inv _ L) as (u & v & ->). cbn in D, E. unfold dot in D. cbn in D.
          pose proof (P 1%nat ltac:(cbn; lia) ltac:(intros [])) as P1. cbn in P1. split; [|intros i []]. intros r [<-|[]]. injection E as ->. unfold dot. cbn. lra.
        + intros [H _]. pose proof (H _ (or_introl eq_refl)) as H0. unfold dot in H0. cbn in H0. exists [1; y]. split; [reflexivity|]. split; [|split].
          * intros [|[|i]] Hi _; cbn in *; try lia; lra.
          * unfold dot. cbn. lra.
          * cbn. list_eq; ring. }
    split; [exact G|]. split; [exact U|]. apply (halfspaces_unbounded 1 _ _ _ [0] [1]); auto. unfold zeros. cbn. intro K. injection K. lra.
Qed.
Lemma rotate_case : exists e e', ell_init [1; 2; 3] (Some Q0) (Some t0) = Ok e /\ ell_rotate_about_center e rot345 = Ok e' /\ orthogonal 3 rot345.
Proof.
  assert (O : orthogonal 3 rot345) by (split; [apply is_mat33|]; split; cbn; list_eq; lra).
  destruct ell_example_fat as (e & He & _). exists e. pose proof (ell_init_inv _ _ _ _ He) as (_ & E1 & E2 & E3 & _).
  destruct (ell_w_total [1; 2; 3] (Some (mat_mul rot345 Q0)) (Some t0)) as (e' & He').
  - intros [|[|[|i]]] Hi; cbn in *; try lia; lra.
  - apply is_mat33.
  - reflexivity.
  - exists e'. split; [exact He|]. split; [|exact O]. unfold ell_rotate_about_center. rewrite E1, E2, E3. exact He'.
Qed.

(** ** C70 *)
Lemma same_case : ip_ok p0 /\ ip_is_same p0 {| ip_mass := 4 + / 50000; ip_com := ip_com p0; ip_H := ip_H p0 |} = true /\
  ip_is_same p0 {| ip_mass := 5; ip_com := ip_com p0; ip_H := ip_H p0 |} = false.
Proof.
  assert (O : forall m, ip_ok {| ip_mass := m; ip_com := ip_com p0; ip_H := ip_H p0 |}) by (intro m; split; [reflexivity|apply is_mat33]).
  split; [apply (O 4)|]. split.
  - apply ip_same_iff; [apply (O 4)|apply O|]. intros i j Hi Hj.
    do 4 (destruct i as [|i]; [do 4 (destruct j as [|j]; [cbn; match goal with |- Rabs ?x <= _ + _ * Rabs ?y => let P := fresh in assert (P : 0 <= y) by lra; rewrite (Rabs_right y) by lra; apply Rabs_le; lra end|]); lia|]). lia.
  - destruct (ip_is_same p0 _) eqn:E; [|reflexivity]. exfalso. rewrite ip_same_iff in E by (try apply (O 4); apply O). specialize (E 3%nat 3%nat ltac:(lia) ltac:(lia)). cbn in E.
    rewrite (Rabs_right 5) in E by lra. rewrite Rabs_left in E by lra. lra.
Qed.

(** ** C71 *)
Definition pm1 : Poly := {| p_face := {| ff_A := [[-1]; [1]]; ff_b := [1; 1] |}; p_span := {| sf_vertices := Some [[1]; [-1]]; sf_rays := None |} |}.
Lemma pm1_agree : poly_agree 1 pm1.
Proof.
  apply (from_vertices_agree 1 (dd1 (-1) 1) [[1]; [-1]]); auto.
  - discriminate.
  - intros v [<-|[<-|[]]]; reflexivity.
  - split; [apply hrows_ok|]. intros x Lx. destruct (len1_inv _ Lx) as (y & ->). cbn [dd_ineqs dd1]. rewrite hrows_set, <- (vrows_set (-1) 1) by lra. unfold v_set, vrows. cbn [cdd_rows cdd_lin map length]. split.
    + intros (w & L & P & D & E). destruct (len2_inv _ L) as (u & v & ->). pose proof (P 0%nat ltac:(cbn; lia) ltac:(intros [])) as P0. pose proof (P 1%nat ltac:(cbn; lia) ltac:(intros [])) as P1. cbn in P0, P1.
      exists [v; u]. split; [reflexivity|]. split; [intros [|[|i]] Hi _; cbn in *; try lia; auto|]. cbn in D, E. unfold dot in D. cbn in D. split; [unfold dot; cbn; lra|]. rewrite E. cbn. list_eq; ring.
    + intros (w & L & P & D & E). destruct (len2_inv _ L) as (u & v & ->). pose proof (P 0%nat ltac:(cbn; lia) ltac:(intros [])) as P0. pose proof (P 1%nat ltac:(cbn; lia) ltac:(intros [])) as P1. cbn in P0, P1.
      exists [v; u]. split; [reflexivity|]. split; [intros [|[|i]] Hi _; cbn in *; try lia; auto|]. cbn in D, E. unfold dot in D. cbn in D. split; [unfold dot; cbn; lra|]. rewrite E. cbn. list_eq; ring.
  - unfold poly_from_vertices, poly_init, sf_to_face_form, pm1. cbn. unfold ff_from_cdd. cbn. repeat f_equal; cbn; list_eq; try reflexivity; lra.
Qed.
Lemma poly_mbe_case : exists p e, poly_agree 1 p /\ (forall x, length x = 1%nat -> poly_contains p x 0 = true <-> -1 <= nth 0 x 0 <= 1) /\
  poly_mbe (fun _ => [[1]]) (fun _ => [[]]) (fun _ => ([1], [[1]])) (fun _ y => y) (fun _ => ([[1]], [1])) p = Ok e /\
  (forall x, length x = 1%nat -> poly_contains p x 0 = true -> ell_set (e_half e) (e_rot e) (e_center e) x) /\
  forall h Q c e', ell_init h (Some Q) (Some c) = Ok e' -> length h = 1%nat -> orthogonal 1 Q -> (forall i, (i < 1)%nat -> 0 < nth i h 0) ->
      (forall x, length x = 1%nat -> poly_contains p x 0 = true -> ell_set h Q c x) -> e_volume e <= e_volume e'.
Proof.
  exists pm1. destruct (poly_mbe_contains 1 1 pm1 (fun _ => [[1]]) (fun _ => [[]]) (fun _ => ([1], [[1]])) (fun _ y => y) (fun _ => ([[1]], [1])) [1] [[1]] [1] [1] [[1]]) as (e & E1 & _ & _ & _ & E5); try lia; try reflexivity.
  - exact pm1_agree.
  - split; [split; [split; [reflexivity|repeat constructor]|cbn; list_eq; ring]|]. intros p [<-|[<-|[]]]; cbn; list_eq; ring.
  - split; [split; [split; [reflexivity|repeat constructor]|split; [reflexivity|]]|split; [reflexivity|split; [|discriminate]]].
    + intros z Lz. destruct (len1_inv _ Lz) as (a & ->). unfold quad. cbn. pose proof (sqr_nonneg a). lra.
    + intros x [<-|[<-|[]]]; apply (norm_le_iff _ 1); try lra; cbn; lra.
  - intros z Lz Nz. destruct (len1_inv _ Lz) as (a & ->). unfold quad. cbn. assert (a <> 0) by (intros ->; apply Nz; reflexivity). nra.
  - split; [reflexivity|]. split; [|cbn; list_eq; ring]. split; [split; [reflexivity|repeat constructor]|]. split; cbn; list_eq; ring.
  - split; [reflexivity|]. intros _. cbn. list_eq; ring.
  - split; [split; [split; [reflexivity|repeat constructor]|reflexivity]|]. split.
    + intros v Lv. destruct v; [|discriminate]. cbn. list_eq; ring.
    + intros x Lx Hx. destruct (len1_inv _ Lx) as (a & ->). cbn in Hx. injection Hx as Hx. cbn. list_eq; lra.
  - exists e. split; [exact pm1_agree|]. split; [|split; [exact E1|split; [exact E5|]]].
    + intros x Lx. destruct (len1_inv _ Lx) as (a & ->). rewrite poly_contains_halfspaces by reflexivity. cbn. unfold halfspaces. cbn. split.
      * intro H. pose proof (H 0%nat ltac:(lia)) as H0. pose proof (H 1%nat ltac:(lia)) as H1. unfold dot in H0, H1. cbn in H0, H1. lra.
      * intros Hx [|[|i]] Hi; [| |lia]; unfold dot; cbn; lra.
    + destruct mbe_minimal_case as (e' & M1 & M2). assert (e' = e) as -> by (unfold poly_mbe in E1; change (p_vertices pm1) with [[1]; [-1]] in E1; congruence).
      intros h Q c e0 He Lh HQ Ph K. apply (M2 h Q c e0); auto. intros q Hq. apply K; [destruct Hq as [<-|[<-|[]]]; reflexivity|].
      apply (agree_contains 1); [exact pm1_agree|destruct Hq as [<-|[<-|[]]]; reflexivity|]. apply hull_vertex; [intros v [<-|[<-|[]]]; reflexivity|exact Hq].
Qed.

(** ** C72 *)
Lemma surface_law_case : exists b U (mult : nat -> vec -> list nat), box_init [1; 2; 3] None None = Ok b /\ rows_of 2 3 (uniform_draw (-1) 1) U /\
  (forall pv, length pv = 6%nat -> multinomial_draw 2 6 (mult 2%nat pv)) /\ shuffles (fun P => P) /\
  box_face_pvals b = [3 / 11; 3 / 11; 3 / 22; 3 / 22; 1 / 11; 1 / 11].
Proof.
  destruct (box_init_good [1; 2; 3] None None) as (b & Hb); [reflexivity|intros [|[|[|i]]] Hi; try lia; cbn; lra|apply (is_mat_eye 3)|reflexivity|].
  exists b, [[0; 1 / 2; - (1 / 3)]; [-1; 0; 1 / 4]], (fun n _ => [n; 0; 0; 0; 0; 0]%nat). split; [exact Hb|]. split; [|split; [|split]].
  - split; [split; [reflexivity|repeat constructor]|]. intros r x [<-|[<-|[]]] [<-|[<-|[<-|[]]]]; unfold uniform_draw; lra.
  - intros pv _. split; reflexivity.
  - intros P. apply Permutation.Permutation_refl.
  - apply box_init_inv in Hb as (_ & _ & E & _). unfold box_face_pvals. rewrite E. cbn. list_eq; lra.
Qed.
Lemma ell_law_case : exists e, ell_init [1; 2; 3] None None = Ok e /\ -1 <= 1 / 2 <= 1 /\ (forall a, In a [1; 2; 3] -> 0 < a).
Proof.
  destruct (ell_w_total [1; 2; 3] None None) as (e & He); [intros [|[|[|i]]] Hi; cbn in *; try lia; lra|apply (is_mat_eye 3)|reflexivity|].
  exists e. split; [exact He|]. split; [lra|]. intros a [<-|[<-|[<-|[]]]]; lra.
Qed.
Lemma volumes_case : exists b e c, box_init [1; 2; 3] (Some t0) (Some Q0) = Ok b /\ ell_init [1; 2; 3] (Some Q0) (Some t0) = Ok e /\ cyl_init 2 1 (Some Q0) (Some t0) = Ok c /\
  orthogonal 3 Q0 /\ b_volume b = 48 /\ e_volume e = 8 * PI /\ c_volume c = 2 * PI.
Proof.
  destruct box_example as (b & Hb). destruct ell_example_fat as (e & He & _). destruct cyl_example as (c & Hc). exists b, e, c. do 3 (split; [assumption|]). split; [exact Q0_orth|].
  apply box_init_inv in Hb as (_ & _ & E & _). pose proof (ell_init_inv _ _ _ _ He) as (_ & E' & _). apply cyl_init_inv in Hc as (_ & _ & _ & _ & ->).
  unfold b_volume, b_side_lengths, e_volume, c_volume. rewrite E, E'. cbn. repeat split; try lra.
Qed.
Lemma boxes_case : exists b b', orthogonal 3 Q0 /\ box_cube 2 (Some t0) (Some Q0) = Ok b /\ box_from_side_lengths [1; 2; 3] (Some t0) (Some Q0) = Ok b'.
Proof.
  destruct (cube_total 2 (Some t0) (Some Q0)) as [K _]; [apply Q0_orth|reflexivity|]. destruct (sides_total [1; 2; 3] (Some t0) (Some Q0)) as [K' _]; [apply Q0_orth|reflexivity|].
  destruct K as (b & Hb); [lra|]. destruct K' as (b' & Hb'); [reflexivity|intros x [<-|[<-|[<-|[]]]]; lra|]. exists b, b'. split; [exact Q0_orth|auto].
Qed.
(** point masses of 0 and of 5 micrograms at (1, 0, 0) *)
Lemma ip_tiny_different : exists p q, ip_init 0 None (Some [1; 0; 0]) (Some (zeros2 3 3)) None false = Ok p /\
  ip_init (/ 200000000) None (Some [1; 0; 0]) (Some (mscale (/ 200000000) (outer [1; 0; 0] [1; 0; 0]))) None false = Ok q /\
  ip_mass p <> ip_mass q /\ ip_is_same p q = true.
Proof.
  rewrite !ip_init_cH by lra. eexists _, _. split; [reflexivity|]. split; [reflexivity|]. split; [cbn; lra|].
  apply ip_same_tiny.
  - split; [reflexivity|apply is_mat33].
  - split; [reflexivity|apply is_mat33].
  - intros i j Hi Hj. do 4 (destruct i as [|i]; [do 4 (destruct j as [|j]; [cbn; split; apply Rabs_le; lra|]); lia|]). lia.
Qed.
