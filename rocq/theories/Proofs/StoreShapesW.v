(** Witnesses for shapes that share memory or keep derived copies. *)
From Coq Require Import Lra.
From Verif Require Import Base.Vec Base.Ext Base.VecFacts Model.Util Model.Polydd Model.Poly Model.Inertial Model.Ellipsoid Model.Box Model.Cylinder
  Model.Moment Model.Realize Model.Store Model.StoreShapes Spec.Basic Spec.Shapes Spec.ShapeObjects Spec.PolySpec Spec.Sharing
  Proofs.Coord Proofs.Hull Proofs.BoxP Proofs.CylP Proofs.PolynomialP Proofs.StoreP Proofs.StoreInertialP Proofs.StoreShapesP.

Lemma sbind_inv {A B} (m : st A) (f : A -> st B) s r : sbind m f s = Ok r -> exists a s1, m s = Ok (a, s1) /\ f a s1 = Ok r.
Proof. unfold sbind. destruct (m s) as [[a s1]| |]; cbn; intro H; try discriminate. eauto. Qed.
Lemma lift_inv {A} (r : res A) s a s1 : lift r s = Ok (a, s1) -> r = Ok a /\ s1 = s.
Proof. unfold lift. destruct r; cbn; intro H; try discriminate. injection H as <- <-. auto. Qed.
Lemma imp_inv {A B} (m : st A) s (r : res B) Q a s' : implements m s r Q -> m s = Ok (a, s') -> exists b, r = Ok b /\ grows s s' /\ Q a s' b.
Proof. unfold implements. destruct r as [b| |]; [|congruence|congruence]. intros (a' & s'' & E & G & HQ) E'. rewrite E in E'. injection E' as <- <-. eauto. Qed.
Lemma cyl_center_w : exists s c s' ws,
  cys_init 2 1 None None s = Ok (c, s') /\ writes_to [a1_buf (cys_center c)] ws /\
  cyl_contains (cys_view s' c) (c_center (cys_view s' c)) 0 = true /\
  cyl_contains (cys_view (wrs s' ws) c) (c_center (cys_view (wrs s' ws) c)) 0 = false.
Proof.
  pose proof (cys_center_own 2 1 None None [] I I) as HS. cbn [option_map] in HS.
  pose proof (cys_init_fresh 2 1 None None [] I I) as HF. cbn [option_map] in HF.
  pose proof (cyl_init_good 2 1 None None ltac:(lra) ltac:(lra) (is_mat_eye 3) eq_refl) as Eq.
  rewrite Eq in HS, HF. set (q := cyl_of _ _ _ _) in *. destruct HS as (c & s' & E & G & W). destruct HF as (c' & s'' & E' & _ & V & Lv & _). rewrite E in E'. injection E' as <- <-.
  assert (Ec : cys_center c = {| a1_buf := 1; a1_at := [0; 1; 2]%nat |} /\ nth 1 s' [] = [0; 0; 0]).
  { unfold cys_init in E. apply sbind_inv in E as (u & s0 & E0 & E). apply lift_inv in E0 as [_ ->]. apply sbind_inv in E as (u1 & s0 & E0 & E). apply lift_inv in E0 as [_ ->].
    apply sbind_inv in E as (r & s1 & E0 & E). injection E0 as <- <-. apply sbind_inv in E as (rv & s1 & E0 & E). injection E0 as <- <-.
    apply sbind_inv in E as (u2 & s1 & E0 & E). apply lift_inv in E0 as [_ ->]. apply sbind_inv in E as (cc & s2 & E0 & E). injection E0 as <- <-.
    apply sbind_inv in E as (cv & s2 & E0 & E). injection E0 as <- <-. apply sbind_inv in E as (u3 & s3 & E0 & E). apply lift_inv in E0 as [_ ->]. cbv zeta in E.
    set (sb := ([] ++ [concat (eye 3)]) ++ [zeros 3]) in *.
    assert (GG : grows sb s' /\ cys_center c = {| a1_buf := 1; a1_at := [0; 1; 2]%nat |}).
    { apply sbind_inv in E as (e1 & s3 & E1 & E). apply sbind_inv in E as (e2 & s4 & E2 & E). apply sbind_inv in E as (d1 & s5 & E3 & E). apply sbind_inv in E as (d2 & s6 & E4 & E).
      apply sbind_inv in E as (t1 & s7 & E5 & E). apply sbind_inv in E as (t2 & s8 & E6 & E). injection E as <- <-. split; [|reflexivity].
      destruct (imp_inv _ _ _ _ _ _ (els_new_fresh _ _ _) E1) as (q1 & _ & G1 & F1). destruct (imp_inv _ _ _ _ _ _ (els_new_fresh _ _ _) E2) as (q2 & _ & G2 & F2).
      destruct (imp_inv _ _ _ _ _ _ (els_new_fresh _ _ _) E3) as (q3 & _ & G3 & F3). destruct (imp_inv _ _ _ _ _ _ (els_new_fresh _ _ _) E4) as (q4 & _ & G4 & F4).
      apply fresh_unpack in F3 as (_ & L3 & _). apply fresh_unpack in F4 as (_ & L4 & _). apply (els_live_grows _ _ _ G4) in L3.
      assert (GA : grows sb s6) by (repeat (eapply grows_trans; [eassumption|]); apply grows_refl).
      set (r := {| a2_buf := _; a2_at := _ |}) in *. set (cc := {| a1_buf := _; a1_at := _ |}) in *.
      assert (Lr : live2 sb r) by (unfold live2, r, sb; cbn; lia). assert (Lcc : live1 sb cc) by (unfold live1, cc, sb; cbn; lia).
      destruct (imp_inv _ _ _ _ _ _ (els_transform_fresh d1 (Some r) (Some cc) s6 L3 (grows_live2 _ _ _ GA Lr) (grows_live1 _ _ _ GA Lcc)) E5) as (q5 & _ & G5 & _).
      assert (GB : grows sb s7) by (eapply grows_trans; eauto). apply (els_live_grows _ _ _ G5) in L4.
      destruct (imp_inv _ _ _ _ _ _ (els_transform_fresh d2 (Some r) (Some cc) s7 L4 (grows_live2 _ _ _ GB Lr) (grows_live1 _ _ _ GB Lcc)) E6) as (q6 & _ & G6 & _).
      eapply grows_trans; eauto. }
    destruct GG as [[e ->] EC]. split; [exact EC|reflexivity]. }
  destruct Ec as [Ec En]. set (ws := [(a1_buf (cys_center c), 0%nat, 5)]).
  assert (Ww : writes_to [a1_buf (cys_center c)] ws) by (intros w [<-|[]]; cbn; auto).
  assert (Er : rd1 (wrs s' ws) (cys_center c) = [5; 0; 0]).
  { unfold ws, wrs. rewrite Ec. cbn [a1_buf fold_left fst snd]. unfold rd1, cell, wr. cbn [a1_buf a1_at map]. rewrite En.
    destruct s' as [|b0 [|b1 s']]; cbn in En |- *; try discriminate. reflexivity. }
  destruct (W ws Ww) as [W1 W2].
  assert (OI : orthogonal 3 (pose_rot 3 None)) by (split; [apply is_mat_eye|]; split; cbn; repeat f_equal; ring).
  exists [], c, s', ws. split; [exact E|]. split; [exact Ww|]. split.
  - rewrite V. change (c_center q) with [0; 0; 0]. apply (cyl_set_contains 2 1 None None); [exact Eq|exact OI|]. exists 0, 0, 0. split; [lra|]. split; [rewrite Rabs_R0; lra|]. unfold move. cbn. repeat f_equal; ring.
  - rewrite W2. rewrite W1. cbn [c_center]. rewrite Er. apply not_true_is_false. intro H.
    apply (cyl_contains_iff 2 1 None None q [5; 0; 0] 0 Eq OI eq_refl) in H as (x & y & z & Em & _ & _ & _ & H). specialize (H ltac:(lra)). unfold move in Em. cbn in Em. injection Em as E1 E2 E3. nra.
Qed.

(** an interval: the halfspaces x <= 1 and -x <= 1, and its two end points *)
Definition dd1 : DD := {| dd_ineqs := fun m => m; dd_gens := fun _ => {| cdd_rows := [[1; 1]; [1; -1]]; cdd_lin := [] |}; dd_canon := fun m => m |}.
Definition A1 : arr2 := {| a2_buf := 0; a2_at := [[0]; [1]]%nat |}.
Definition b1 : arr1 := {| a1_buf := 1; a1_at := [0; 1]%nat |}.
Definition st1 : store := [[1; -1]; [1; 1]].
Lemma sf1 : sf_from_cdd {| cdd_rows := [[1; 1]; [1; -1]]; cdd_lin := [] |} = Ok (Some {| sf_vertices := Some [[1]; [-1]]; sf_rays := None |}).
Proof.
  assert (I1 : isclose np_rtol np_atol 1 1 = true) by (apply isclose_refl; unfold np_rtol, np_atol; lra).
  assert (I0 : isclose np_rtol np_atol 1 0 = false) by (apply not_true_is_false; intro H; apply isclose_inv in H; rewrite Rminus_0_r, Rabs_R1, Rabs_R0 in H; unfold np_atol in H; lra).
  unfold sf_from_cdd. cbn -[isclose np_rtol np_atol]. rewrite !I1, !I0. reflexivity.
Qed.
Lemma nz v : v <> 0 -> isclose 0 0 v 0 = false.
Proof. intro H. apply not_true_is_false. intro K. apply isclose_zero in K. auto. Qed.
Lemma halfspaces_w : exists dd A b s p s' ws,
  live2 s A /\ live1 s b /\ pls_from_halfspaces dd A b false s = Ok (p, s') /\ poly_agree 1 (pls_view s' p) /\ caller_writes s ws /\
  exists v, In v (p_vertices (pls_view (wrs s' ws) p)) /\ poly_contains (pls_view s' p) v 0 = true /\
            poly_contains (pls_view (wrs s' ws) p) v 0 = false /\ pls_polys p <> p_polys (pls_view (wrs s' ws) p).
Proof.
  assert (LA : live2 st1 A1) by (unfold live2; cbn; lia). assert (Lb : live1 st1 b1) by (unfold live1; cbn; lia).
  pose proof (pls_from_halfspaces_shared dd1 A1 b1 st1 LA Lb) as HS.
  assert (E : poly_from_halfspaces dd1 (rd2 st1 A1) (rd1 st1 b1) false = Ok {| p_face := {| ff_A := [[1]; [-1]]; ff_b := [1; 1] |}; p_span := {| sf_vertices := Some [[1]; [-1]]; sf_rays := None |} |}).
  { unfold poly_from_halfspaces, poly_init, ff_to_span_form. cbn [face_form bind dd1 dd_gens]. rewrite sf1. reflexivity. }
  rewrite E in HS. destruct HS as (p & s' & Ep & [e ->] & V & P & W).
  set (ws := [(1%nat, 0%nat, 0)] : writes).
  assert (Cw : caller_writes st1 ws) by (intros w [<-|[]]; cbn; lia).
  specialize (W ws Cw). change (rd2 (wrs (st1 ++ e) ws) A1) with [[1]; [-1]] in W. change (rd1 (wrs (st1 ++ e) ws) b1) with [0; 1] in W. cbn [p_span] in W.
  exists dd1, A1, b1, st1, p, (st1 ++ e), ws. split; [exact LA|]. split; [exact Lb|]. split; [exact Ep|]. split; [|split; [exact Cw|]].
  - rewrite V. split.
    + split; [lia|]. split; [cbn; lia|]. split; [cbn; repeat constructor|]. split; [reflexivity|]. eexists. split; [reflexivity|]. split; [discriminate|]. intros v [<-|[<-|[]]]; reflexivity.
    + intros x Lx. destruct x as [|x [|]]; try discriminate. cbn. split.
      * intro H. pose proof (H 0%nat ltac:(cbn; lia)) as H0. pose proof (H 1%nat ltac:(cbn; lia)) as H1. cbn in H0, H1.
        exists [(1 + x) / 2; (1 - x) / 2]. split; [reflexivity|]. split; [split; [intros y [<-|[<-|[]]]; lra|cbn; lra]|]. unfold combine_rows. cbn. f_equal. lra.
      * intros (w & Lw & [Hw Hs] & Ex) i Hi. destruct w as [|u [|t [|]]]; try discriminate. cbn in Hs. unfold combine_rows in Ex. cbn in Ex. injection Ex as ->.
        pose proof (Hw u ltac:(cbn; auto)). pose proof (Hw t ltac:(cbn; auto)). destruct i as [|[|i]]; cbn in *; try lia; lra.
  - exists [1]. rewrite W, V. cbn. split; [auto|]. split; [|split].
    + unfold poly_contains, all_le. cbn. rewrite (proj2 (Rleb_iff _ _)) by lra. rewrite (proj2 (Rleb_iff _ _)) by lra. reflexivity.
    + unfold poly_contains, all_le. cbn. rewrite (proj2 (Rleb_false _ _)) by lra. reflexivity.
    + rewrite P. intro H. apply (f_equal (fun l => length (hd [] l))) in H. unfold p_polys in H. cbn [p_A p_b p_face ff_A ff_b map2 hd] in H. unfold pol_affine, pol_init in H. cbn -[isclose] in H.
      rewrite (proj2 (isclose_zero 0) eq_refl) in H. rewrite (nz 1), (nz (- (1))) in H by lra. cbn in H. discriminate.
Qed.
