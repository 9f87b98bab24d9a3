(** Multibodies. *)
From Coq Require Import String.
From Verif Require Import Base.Vec Base.VecFacts Model.Util Model.Inertial Model.Polydd Model.Poly Model.Ellipsoid Model.Box Model.Cylinder
  Model.Realize Model.RigidBody Model.MultiBody Spec.Basic Spec.Objects Spec.Shapes Spec.ShapeObjects Spec.PolySpec Spec.Realizable Spec.Bodies
  Spec.Identify Spec.Multi
  Proofs.Coord Proofs.UtilP Proofs.LinAlg Proofs.BoxP Proofs.EllP Proofs.CylP Proofs.InertialP Proofs.MomentP Proofs.CylCustom Proofs.Dynamics Proofs.TransformP Proofs.RigidP Proofs.ClosestP Proofs.IdentifyP.
Import ListNotations.

(** * Shapes *)
Lemma geom_shape g s : hppfcl_to_shape g = Ok s -> exists K, shape_is s K /\ (forall p, s <> SPoly p) /\
  forall u, length u = 3%nat -> (K u <-> geom_set g u).
Proof.
  destruct g as [|h|r|r hl|]; cbn [hppfcl_to_shape]; intros E; try discriminate; apply bind_inv in E as (x & Ex & E); apply Ok_eq in E; subst s.
  - pose proof (box_init_inv _ _ _ _ Ex) as (Lh & _). eexists. split; [apply (shape_is_box _ _ _ _ Ex (orthogonal_eye 3 ltac:(lia)))|]. split; [discriminate|].
    intros u Lu. cbn [pose_rot pose_tr geom_set]. split.
    + intros (w & Hw & ->). destruct Hw as [Lw Hw]. rewrite move_eye3 by (try reflexivity; congruence). rewrite vadd_zeros_r by congruence. now split.
    + intros Hu. exists u. split; [auto|]. rewrite move_eye3 by (try reflexivity; congruence). now rewrite vadd_zeros_r.
  - unfold ell_sphere in Ex. pose proof (ell_init_inv _ _ _ _ Ex) as (Hr & _). assert (H0 : 0 <= r) by (specialize (Hr 0%nat ltac:(cbn; lia)); cbn in Hr; lra).
    eexists. split; [apply (shape_is_ell _ _ _ _ Ex eq_refl (orthogonal_eye 3 ltac:(lia)))|]. split; [discriminate|]. intros u Lu. cbn [pose_rot pose_tr geom_set].
    split.
    + intros (w & Lw & Hw & ->). split; [auto|]. change (length (vscale r (ones (length (zeros 3))))) with 3%nat in Lw.
      rewrite move_eye3 by (try reflexivity; destruct_vecs; reflexivity). apply norm_le_sqr; auto. destruct_vecs. cbn in Hw |- *. nra.
    + intros [_ Hu]. apply norm_le_sqr in Hu; auto. destruct (Req_dec r 0) as [->|Nz].
      * exists (zeros 3). split; [reflexivity|]. split; [cbn; lra|]. rewrite move_eye3 by reflexivity. destruct_vecs. cbn in Hu |- *. list_eq; nra.
      * exists (vscale (/ r) u). split; [len|]. assert (P : 0 < / r * / r) by (apply Rmult_lt_0_compat; apply Rinv_0_lt_compat; lra). split.
        -- replace (dot (vscale (/ r) u) (vscale (/ r) u)) with ((/ r * / r) * dot u u) by (destruct_vecs; cbn; ring).
           apply Rle_trans with (/ r * / r * (r * r)); [apply Rmult_le_compat_l; lra|]. right. now field.
        -- rewrite move_eye3 by (try reflexivity; destruct_vecs; reflexivity). destruct_vecs. cbn. list_eq; now field.
  - pose proof (cyl_init_inv _ _ _ _ _ Ex) as (HL & Hr & _). eexists. split; [apply (shape_is_cyl _ _ _ _ _ Ex (orthogonal_eye 3 ltac:(lia)))|]. split; [discriminate|].
    intros u Lu. cbn [pose_rot pose_tr geom_set]. split.
    + intros (a & b & c & H1 & H2 & ->). exists a, b, c. rewrite move_eye3 by reflexivity. split; [cbn; list_eq; ring|split; [auto|lra]].
    + intros (a & b & c & -> & H1 & H2). exists a, b, c. rewrite move_eye3 by reflexivity. split; [auto|]. split; [lra|cbn; list_eq; ring].
Qed.
Lemma geom_total g : geom_ok g -> exists s, hppfcl_to_shape g = Ok s.
Proof.
  destruct g as [|h|r|r hl|]; cbn [geom_ok hppfcl_to_shape]; try contradiction.
  - intros [Lh Hh]. destruct (box_init_good h None None Lh) as (b & ->); [|apply is_mat_eye|reflexivity|cbn; eauto].
    intros i Hi. apply Hh, nth_In. lia.
  - intros Hr. unfold ell_sphere. rewrite ell_init_good; [cbn; eauto| |apply is_mat_eye|reflexivity].
    intros i Hi. change (length (vscale r (ones (length (zeros 3))))) with 3%nat in Hi. destruct i as [|[|[|]]]; try lia; cbn; lra.
  - intros [Hr Hl]. rewrite cyl_init_good; [cbn; eauto|lra|auto|apply is_mat_eye|reflexivity].
Qed.
Lemma pin_shape dd g s : pin_to_shape dd g = Ok s -> placement_ok g ->
  exists K, shape_is s K /\ forall x, length x = 3%nat -> (K x <-> placed g x).
Proof.
  intros E (HQ & Lt). unfold pin_to_shape in E. apply bind_inv in E as (s0 & E0 & E).
  destruct (geom_shape _ _ E0) as (K0 & HK & Np & H0). destruct (shp_transform_moves dd s0 K0 _ _ _ HK E HQ) as (K & HS & HM).
  { intros p [->|[]]. now destruct (Np p). }
  exists K. split; [auto|]. intros x Lx. set (u := mat_vec (transpose (go_rotation g)) (vsub x (go_translation g))).
  assert (MT : is_mat 3 3 (transpose (go_rotation g))) by (apply is_mat_transpose; [apply HQ|lia]).
  assert (Lu : length u = 3%nat) by (unfold u; rewrite mat_vec_length; apply MT).
  assert (Ex : x = move (go_rotation g) (go_translation g) u) by (apply (move_inv 3); auto; lia).
  rewrite Ex at 1. rewrite (HM u Lu), (H0 u Lu). unfold placed. split.
  - intros H. exists u. auto.
  - intros (w & Hw & Ew). assert (Lw : length w = 3%nat).
    { destruct (go_geometry g) as [|h|r|r hl|] eqn:Eg; cbn in Hw; try contradiction.
      - destruct Hw as [-> _]. cbn in E0. apply bind_inv in E0 as (b & Eb & _). apply box_init_inv in Eb. apply Eb.
      - apply Hw.
      - destruct Hw as (a & b & c & -> & _). reflexivity. }
    apply (move_inv 3) in Ew; auto; try lia. fold u in Ew. now rewrite Ew in Hw.
Qed.
Lemma pin_total dd g : geom_ok (go_geometry g) -> placement_ok g -> exists s, pin_to_shape dd g = Ok s.
Proof.
  intros HG (HQ & Lt). destruct (geom_total _ HG) as (s & E). unfold pin_to_shape. rewrite E. cbn [bind].
  destruct HQ as (MQ & _). destruct (go_geometry g) as [|h|r|r hl|]; cbn [hppfcl_to_shape] in E; try discriminate;
    apply bind_inv in E as (x & Ex & E); apply Ok_eq in E; subst s; cbn [shp_transform].
  - destruct (box_transform_good _ _ _ _ (Some (go_rotation g)) (Some (go_translation g)) Ex MQ Lt) as (y & ->). cbn. eauto.
  - unfold ell_sphere in Ex. destruct (ell_transform_good _ _ _ _ (Some (go_rotation g)) (Some (go_translation g)) Ex) as (y & ->); auto; [|cbn; eauto]. discriminate.
  - destruct (cyl_transform_good _ _ _ _ _ (Some (go_rotation g)) (Some (go_translation g)) Ex MQ Lt) as (y & ->). cbn. eauto.
Qed.
Lemma pin_errors dd g : (go_geometry g = GConvex -> pin_to_shape dd g = Raise NotImplementedError) /\
  (go_geometry g = GOther -> pin_to_shape dd g = Raise ValueError) /\
  (forall r, go_geometry g = GSphere r -> r < 0 -> pin_to_shape dd g = Raise AssertionError) /\
  (forall r hl, go_geometry g = GCylinder r hl -> r < 0 \/ hl < 0 -> pin_to_shape dd g = Raise AssertionError) /\
  (forall h, go_geometry g = GBox h -> length h = 3%nat -> (exists x, In x h /\ x < 0) -> pin_to_shape dd g = Raise AssertionError).
Proof.
  unfold pin_to_shape. split; [|split; [|split; [|split]]].
  - intros ->. reflexivity.
  - intros ->. reflexivity.
  - intros r -> Hr. cbn [hppfcl_to_shape]. unfold ell_sphere. rewrite EllMore.ell_init_negative; [reflexivity|].
    exists 0%nat. split; [cbn; lia|cbn; lra].
  - intros r hl -> H. cbn [hppfcl_to_shape]. rewrite cyl_init_raises; [reflexivity|]. destruct H; [right|left]; lra.
  - intros h -> Lh (x & Hx & H). cbn [hppfcl_to_shape]. rewrite box_init_raises; [reflexivity|auto|].
    apply In_nth with (d := 0) in Hx as (i & Hi & <-). exists i. split; [lia|auto].
Qed.

(** * Bodies *)
Lemma dget_dput {A} (d : idict A) k a j : dget (dput d k a) j = if Nat.eqb j k then Some a else dget d j.
Proof.
  induction d as [|[k' a'] d IH]; cbn; [reflexivity|]. destruct (Nat.eqb k k') eqn:E; cbn.
  - apply Nat.eqb_eq in E. subst k'. destruct (Nat.eqb j k); reflexivity.
  - rewrite IH. destruct (Nat.eqb j k') eqn:E2; [|reflexivity]. apply Nat.eqb_eq in E2. subst k'. rewrite Nat.eqb_sym, E. reflexivity.
Qed.
Lemma dput_keys {A} (d : idict A) k a : map fst (dput d k a) = if existsb (Nat.eqb k) (map fst d) then map fst d else map fst d ++ [k].
Proof.
  induction d as [|[k' a'] d IH]; cbn; [reflexivity|]. destruct (Nat.eqb k k') eqn:E; cbn; [reflexivity|]. rewrite IH. destruct (existsb _ _); reflexivity.
Qed.
Lemma dget_none {A} (d : idict A) k : dget d k = None <-> ~ In k (map fst d).
Proof.
  induction d as [|[k' a] d IH]; cbn; [split; auto|]. destruct (Nat.eqb k k') eqn:E.
  - apply Nat.eqb_eq in E. subst. split; [discriminate|]. intros H. exfalso. auto.
  - apply Nat.eqb_neq in E. rewrite IH. split; intros H; [intros [->|X]; auto|]. intros X. auto.
Qed.
(** what the loop maintains, for the geometries seen so far *)
Definition loop_inv (dd : DD) (inertias : list PinInertia) (l : list GeomObj) (d : idict Body) : Prop :=
  NoDup (map fst d) /\
  (forall j, dget d j = None <-> geoms_of j l = []) /\
  (forall j b, dget d j = Some b -> exists i, nth_error inertias j = Some i /\
     Forall2 (fun g s => pin_to_shape dd g = Ok s) (geoms_of j l) (bd_shapes b) /\
     ip_init (pi_mass i) None (Some (pi_lever i)) None (Some (pi_inertia i)) true = Ok (bd_params b)).
Lemma geoms_of_app j l l' : geoms_of j (l ++ l') = geoms_of j l ++ geoms_of j l'.
Proof. apply filter_app. Qed.
Lemma NoDup_dput {A} (d : idict A) k a : NoDup (map fst d) -> NoDup (map fst (dput d k a)).
Proof.
  intros H. rewrite dput_keys. destruct (existsb _ _) eqn:E; [auto|]. apply (Permutation.Permutation_NoDup (Permutation.Permutation_cons_append (map fst d) k)). constructor; [|auto].
  intros X. assert (T : existsb (Nat.eqb k) (map fst d) = true) by (apply existsb_exists; exists k; rewrite Nat.eqb_refl; auto). congruence.
Qed.
Lemma add_geom_inv dd inertias l d g d' : loop_inv dd inertias l d -> add_geom dd inertias d g = Ok d' -> loop_inv dd inertias (l ++ [g]) d'.
Proof.
  intros (ND & HN & HS) E. unfold add_geom in E. apply bind_inv in E as (i & Ei & E). apply bind_inv in E as (s & Es & E).
  unfold at_index in Ei. destruct (nth_error inertias (go_parent g)) as [i'|] eqn:En; [|discriminate]. apply Ok_eq in Ei. subst i'.
  assert (G : forall j, geoms_of j (l ++ [g]) = geoms_of j l ++ if Nat.eqb (go_parent g) j then [g] else []) by (intro j; rewrite geoms_of_app; reflexivity).
  destruct (dget d (go_parent g)) as [b|] eqn:Eb.
  - apply Ok_eq in E. subst d'. split; [now apply NoDup_dput|]. split; intros j.
    + rewrite dget_dput, G, (Nat.eqb_sym j). destruct (Nat.eqb (go_parent g) j) eqn:X.
      * split; [discriminate|]. intros H. now apply app_eq_nil in H.
      * rewrite app_nil_r. apply HN.
    + intros b' Hb. rewrite dget_dput, (Nat.eqb_sym j) in Hb. rewrite G. destruct (Nat.eqb (go_parent g) j) eqn:X.
      * apply Nat.eqb_eq in X. subst j. injection Hb as <-. destruct (HS _ _ Eb) as (i' & E1 & E2 & E3). exists i'. cbn. split; [auto|]. split; [|auto].
        apply Forall2_app; auto.
      * rewrite app_nil_r. now apply HS.
  - apply bind_inv in E as (p & Ep & E). cbn [rb_init bind] in E. apply Ok_eq in E. subst d'. split; [now apply NoDup_dput|]. split; intros j.
    + rewrite dget_dput, G, (Nat.eqb_sym j). destruct (Nat.eqb (go_parent g) j) eqn:X.
      * split; [discriminate|]. intros H. now apply app_eq_nil in H.
      * rewrite app_nil_r. apply HN.
    + intros b' Hb. rewrite dget_dput, (Nat.eqb_sym j) in Hb. rewrite G. destruct (Nat.eqb (go_parent g) j) eqn:X.
      * apply Nat.eqb_eq in X. subst j. injection Hb as <-. exists i. cbn. split; [auto|]. split; [|auto].
        apply HN in Eb. rewrite Eb. cbn. auto.
      * rewrite app_nil_r. now apply HS.
Qed.
Lemma add_geoms_inv dd inertias l' : forall l d d', loop_inv dd inertias l d -> add_geoms dd inertias d l' = Ok d' -> loop_inv dd inertias (l ++ l') d'.
Proof.
  induction l' as [|g l' IH]; intros l d d' H E; cbn in E.
  - apply Ok_eq in E. subst d'. now rewrite app_nil_r.
  - apply bind_inv in E as (d1 & E1 & E). replace (l ++ g :: l') with ((l ++ [g]) ++ l') by now rewrite <- app_assoc.
    apply (IH _ d1); auto. now apply (add_geom_inv dd inertias l d).
Qed.
Lemma loop_inv_nil dd inertias : loop_inv dd inertias [] [].
Proof. split; [constructor|]. split; [intro j; split; reflexivity|]. intros j b H. discriminate. Qed.
Lemma same_inertia_init i p : inertia_ok i -> ip_init (pi_mass i) None (Some (pi_lever i)) None (Some (pi_inertia i)) true = Ok p ->
  same_inertia i p /\ ip_ok p.
Proof.
  intros (Hm & Lc & MI) E. destruct (parallel_axis_agree _ _ _ Hm Lc MI) as (q & E1 & _ & E2 & E3 & E4 & E5). rewrite E in E1. injection E1 as <-.
  split; [repeat split; auto|]. split; [congruence|]. unfold ip_I, H2I in E4. destruct (is_matb 3 3 (ip_H p)) eqn:X; [|discriminate]. now apply is_matb_iff in X.
Qed.
(** the model of [__init__] with the loop isolated *)
Lemma mb_init_inv dd model geoms tool gravity M : mb_init dd model geoms tool gravity = Ok M ->
  add_geoms dd (pm_inertias model) [] geoms = Ok (mb_bodies M) /\ pm_names (mb_model M) = pm_names model /\ pm_frames (mb_model M) = pm_frames model /\
  pm_nq (mb_model M) = pm_nq model /\ pm_nv (mb_model M) = pm_nv model /\ pm_inertias (mb_model M) = pm_inertias model /\
  pm_gravity (mb_model M) = match gravity with Some g => g | None => pm_gravity model end /\
  match tool with None => mb_tool M = None | Some name => exists i, get_index (pm_frames model) name = Ok i /\ mb_tool M = Some i end.
Proof.
  unfold mb_init. intros E. apply bind_inv in E as (t & Et & E). apply bind_inv in E as (m & Em & E). apply bind_inv in E as (bs & Eb & E). apply Ok_eq in E. subst M.
  cbn [mb_model mb_bodies mb_tool].
  assert (T : match tool with None => t = None | Some name => exists i, get_index (pm_frames model) name = Ok i /\ t = Some i end).
  { destruct tool as [name|]; [|now apply Ok_eq in Et]. apply bind_inv in Et as (i & Ei & Et). apply Ok_eq in Et. subst. eauto. }
  destruct gravity as [gv|].
  - apply bind_inv in Em as (u & _ & Em). apply Ok_eq in Em. subst m. cbn in *. repeat (split; [auto|]). auto.
  - apply Ok_eq in Em. subst m. repeat (split; [auto|]). auto.
Qed.
Lemma mb_bodies_spec dd model geoms tool gravity M : mb_init dd model geoms tool gravity = Ok M ->
  (forall g, In g geoms -> placement_ok g) -> (forall i, In i (pm_inertias model) -> inertia_ok i) ->
  NoDup (map fst (mb_bodies M)) /\
  (forall j, (exists b, dget (mb_bodies M) j = Some b) <-> exists g, In g geoms /\ go_parent g = j) /\
  (forall j b, dget (mb_bodies M) j = Some b -> exists i Ks, nth_error (pm_inertias model) j = Some i /\ same_inertia i (bd_params b) /\ ip_ok (bd_params b) /\
     Forall2 shape_is (bd_shapes b) Ks /\
     Forall2 (fun g K => forall x, length x = 3%nat -> (K x <-> placed g x)) (geoms_of j geoms) Ks).
Proof.
  intros E HP HI. apply mb_init_inv in E as (E & _). destruct (add_geoms_inv _ _ _ _ _ _ (loop_inv_nil _ _) E) as (ND & HN & HS). cbn [app] in *.
  split; [auto|]. split.
  - intros j. split.
    + intros (b & Hb). destruct (geoms_of j geoms) as [|g r] eqn:Eg; [apply HN in Eg; congruence|].
      assert (In g (geoms_of j geoms)) by (rewrite Eg; now left). apply filter_In in H as [H1 H2]. exists g. split; [auto|]. now apply Nat.eqb_eq.
    + intros (g & Hg & <-). destruct (dget (mb_bodies M) (go_parent g)) as [b|] eqn:Eb; [eauto|]. apply HN in Eb.
      assert (In g (geoms_of (go_parent g) geoms)) by (apply filter_In; rewrite Nat.eqb_refl; auto). rewrite Eb in H. destruct H.
  - intros j b Hb. destruct (HS j b Hb) as (i & E1 & E2 & E3). destruct (same_inertia_init i _ (HI i (nth_error_In _ _ E1)) E3) as [S1 S2].
    assert (HG : forall g, In g (geoms_of j geoms) -> placement_ok g) by (intros g Hg; apply filter_In in Hg as [Hg _]; auto).
    assert (X : exists Ks, Forall2 shape_is (bd_shapes b) Ks /\ Forall2 (fun g K => forall x, length x = 3%nat -> (K x <-> placed g x)) (geoms_of j geoms) Ks).
    { clear - E2 HG. induction E2 as [|g s l l' H E2 IH]; [exists []; split; constructor|]. destruct IH as (Ks & I1 & I2); [intros; apply HG; now right|].
      destruct (pin_shape dd g s H (HG g (or_introl eq_refl))) as (K & K1 & K2). exists (K :: Ks). split; constructor; auto. }
    destruct X as (Ks & X1 & X2). exists i, Ks. auto 10.
Qed.
(** the point set of a body is the union of its geometries *)
Lemma union_placed j geoms Ks x : length x = 3%nat -> Forall2 (fun g K => forall x, length x = 3%nat -> (K x <-> placed g x)) (geoms_of j geoms) Ks ->
  (union_of Ks x <-> exists g, In g geoms /\ go_parent g = j /\ placed g x).
Proof.
  intros Lx H. assert (A : union_of Ks x <-> exists g, In g (geoms_of j geoms) /\ placed g x).
  { induction H as [|g K l l' HK H IH]; [split; [intros (K & [] & _)|intros (g & [] & _)]|]. split.
    - intros (K0 & [<-|HI] & H0); [exists g; split; [now left|now apply HK]|]. destruct (proj1 IH) as (g' & G1 & G2); [exists K0; auto|]. exists g'. split; [now right|auto].
    - intros (g' & [<-|HI] & H0); [exists K; split; [now left|now apply HK]|]. destruct (proj2 IH) as (K0 & G1 & G2); [exists g'; auto|]. exists K0. split; [now right|auto]. }
  rewrite A. split; intros (g & H1 & H2).
  - apply filter_In in H1 as [H1 H3]. exists g. split; [auto|]. split; [now apply Nat.eqb_eq|auto].
  - destruct H2 as [H2 H3]. exists g. split; [|auto]. apply filter_In. rewrite H2, Nat.eqb_refl. auto.
Qed.
Lemma init_total i : inertia_ok i -> exists p, ip_init (pi_mass i) None (Some (pi_lever i)) None (Some (pi_inertia i)) true = Ok p.
Proof. intros (Hm & Lc & MI). destruct (parallel_axis_agree _ _ _ Hm Lc MI) as (q & E1 & _). eauto. Qed.
Definition good_geom (n : nat) (g : GeomObj) : Prop := geom_ok (go_geometry g) /\ placement_ok g /\ (go_parent g < n)%nat.
Lemma add_geom_total dd inertias d g : good_geom (length inertias) g -> (forall i, In i inertias -> inertia_ok i) -> exists d', add_geom dd inertias d g = Ok d'.
Proof.
  intros (H1 & H2 & H3) HI. unfold add_geom, at_index. destruct (nth_error inertias (go_parent g)) as [i|] eqn:E; [|apply nth_error_None in E; lia].
  cbn [bind]. destruct (pin_total dd g H1 H2) as (s & ->). cbn [bind]. destruct (dget d (go_parent g)); [eauto|].
  destruct (init_total i (HI i (nth_error_In _ _ E))) as (p & ->). cbn. eauto.
Qed.
Lemma add_geoms_total dd inertias l : (forall g, In g l -> good_geom (length inertias) g) -> (forall i, In i inertias -> inertia_ok i) ->
  forall d, exists d', add_geoms dd inertias d l = Ok d'.
Proof.
  intros H HI. induction l as [|g l IH]; intros d; [cbn; eauto|]. cbn. destruct (add_geom_total dd inertias d g) as (d1 & ->); [apply H; now left|auto|].
  cbn. apply IH. intros g' Hg. apply H. now right.
Qed.
Lemma index_of_spec name l : match index_of name l with Some i => nth_error l i = Some name /\ forall k, (k < i)%nat -> nth_error l k <> Some name | None => ~ In name l end.
Proof.
  induction l as [|a l IH]; [intros []|]. cbn. destruct (String.eqb name a) eqn:E.
  - apply String.eqb_eq in E. subst. split; [reflexivity|]. intros k Hk. lia.
  - apply String.eqb_neq in E. destruct (index_of name l) as [i|]; cbn.
    + destruct IH as [I1 I2]. split; [auto|]. intros [|k] Hk; cbn; [congruence|]. apply I2. lia.
    + intros [->|X]; auto.
Qed.
Lemma get_index_spec l name : (forall i, get_index l name = Ok i -> nth_error l i = Some name /\ forall k, (k < i)%nat -> nth_error l k <> Some name) /\
  (In name l -> exists i, get_index l name = Ok i) /\ (~ In name l -> get_index l name = Raise ValueError).
Proof.
  unfold get_index. pose proof (index_of_spec name l) as H. destruct (index_of name l) as [i|]; split; [|split| |split].
  - intros i' E. injection E as <-. auto.
  - eauto.
  - intros X. destruct X. destruct H as [H _]. eapply nth_error_In; eauto.
  - discriminate.
  - contradiction.
  - reflexivity.
Qed.
Lemma mb_total dd model geoms tool gravity : (forall g, In g geoms -> geom_ok (go_geometry g) /\ placement_ok g /\ (go_parent g < length (pm_inertias model))%nat) ->
  (forall i, In i (pm_inertias model) -> inertia_ok i) -> (forall name, tool = Some name -> In name (pm_frames model)) ->
  (forall g, gravity = Some g -> length g = 3%nat) -> exists M, mb_init dd model geoms tool gravity = Ok M.
Proof.
  intros HG HI HT Hg. unfold mb_init.
  assert (T : exists t, match tool with Some name => let* i := get_index (pm_frames model) name in Ok (Some i) | None => Ok None end = Ok t).
  { destruct tool as [name|]; [|eauto]. destruct (proj1 (proj2 (get_index_spec (pm_frames model) name)) (HT name eq_refl)) as (i & ->). cbn. eauto. }
  destruct T as (t & ->). cbn [bind]. destruct gravity as [gv|].
  - unfold is_vecb. rewrite (Hg gv eq_refl). cbn [Nat.eqb assert_ bind pm_inertias]. destruct (add_geoms_total dd _ _ HG HI []) as (d & ->). cbn. eauto.
  - cbn [bind]. destruct (add_geoms_total dd _ _ HG HI []) as (d & ->). cbn. eauto.
Qed.
Lemma add_geoms_app dd inertias l l' d : add_geoms dd inertias d (l ++ l') = let* d' := add_geoms dd inertias d l in add_geoms dd inertias d' l'.
Proof. revert d. induction l as [|g l IH]; intros d; [reflexivity|]. cbn. destruct (add_geom dd inertias d g); cbn; auto. Qed.
(** the first geometry that cannot be used decides how construction fails *)
Lemma mb_errors dd model pre g post : (forall g', In g' pre -> geom_ok (go_geometry g') /\ placement_ok g' /\ (go_parent g' < length (pm_inertias model))%nat) ->
  (forall i, In i (pm_inertias model) -> inertia_ok i) ->
  ((length (pm_inertias model) <= go_parent g)%nat -> mb_init dd model (pre ++ g :: post) None None = Raise IndexError) /\
  ((go_parent g < length (pm_inertias model))%nat -> forall e, pin_to_shape dd g = Raise e -> mb_init dd model (pre ++ g :: post) None None = Raise e).
Proof.
  intros HG HI. unfold mb_init. cbn [bind]. rewrite add_geoms_app. destruct (add_geoms_total dd _ _ HG HI []) as (d & ->). cbn [bind add_geoms].
  unfold add_geom, at_index. split.
  - intros H. apply nth_error_None in H. rewrite H. reflexivity.
  - intros H e E. destruct (nth_error (pm_inertias model) (go_parent g)) as [i|] eqn:X; [|apply nth_error_None in X; lia]. cbn [bind]. rewrite E. reflexivity.
Qed.
Lemma mb_init_errors dd model geoms tool gravity : (forall name, tool = Some name -> ~ In name (pm_frames model) -> mb_init dd model geoms tool gravity = Raise ValueError) /\
  (forall g, gravity = Some g -> length g <> 3%nat -> (forall name, tool = Some name -> In name (pm_frames model)) -> mb_init dd model geoms tool gravity = Raise AssertionError).
Proof.
  unfold mb_init. split.
  - intros name -> H. rewrite (proj2 (proj2 (get_index_spec (pm_frames model) name)) H). reflexivity.
  - intros g -> H HT. assert (T : exists t, match tool with Some name => let* i := get_index (pm_frames model) name in Ok (Some i) | None => Ok None end = Ok t).
    { destruct tool as [name|]; [|eauto]. destruct (proj1 (proj2 (get_index_spec (pm_frames model) name)) (HT name eq_refl)) as (i & ->). cbn. eauto. }
    destruct T as (t & ->). cbn [bind]. unfold is_vecb. apply Nat.eqb_neq in H. rewrite H. reflexivity.
Qed.

(** * Lookups *)
Definition refers (M : MB) (r : ref) (i : nat) : Prop :=
  match r with RIndex k => i = k | RName name => nth_error (pm_names (mb_model M)) i = Some name /\ forall k, (k < i)%nat -> nth_error (pm_names (mb_model M)) k <> Some name end.
Lemma resolve_joint_spec M r i : resolve_joint M r = Ok i -> refers M r i.
Proof.
  destruct r as [name|k]; cbn; intros E; [|now injection E].
  now apply get_index_spec in E.
Qed.
Lemma mapM_Forall2 {A B} (f : A -> res B) l r : mapM f l = Ok r <-> Forall2 (fun a b => f a = Ok b) l r.
Proof.
  revert r. induction l as [|a l IH]; intros r; cbn; split; intros H.
  - apply Ok_eq in H. subst. constructor.
  - inversion H. reflexivity.
  - apply bind_inv in H as (b & E & H). apply bind_inv in H as (bs & E2 & H). apply Ok_eq in H. subst. constructor; auto. now apply IH.
  - inversion H; subst. rewrite H2. cbn. apply IH in H4. rewrite H4. reflexivity.
Qed.
Lemma get_bodies_spec M joints bs : get_bodies M joints = Ok bs <->
  exists is, Forall2 (fun r i => resolve_joint M r = Ok i) joints is /\ Forall2 (fun i b => dget (mb_bodies M) i = Some b) is bs.
Proof.
  unfold get_bodies. split.
  - intros E. apply bind_inv in E as (is & E1 & E2). exists is. apply mapM_Forall2 in E1, E2. split; [auto|].
    clear E1. induction E2; constructor; auto. destruct (dget (mb_bodies M) x); [|discriminate]. now injection H as ->.
  - intros (is & E1 & E2). apply mapM_Forall2 in E1. rewrite E1. cbn. apply mapM_Forall2. clear E1. induction E2; constructor; auto. now rewrite H.
Qed.
Lemma get_bodies_names dd model geoms tool gravity M joints bs : mb_init dd model geoms tool gravity = Ok M -> get_bodies M joints = Ok bs ->
  Forall2 (fun r b => exists j, dget (mb_bodies M) j = Some b /\
    match r with
    | RIndex i => j = i
    | RName name => nth_error (pm_names model) j = Some name /\ forall k, (k < j)%nat -> nth_error (pm_names model) k <> Some name
    end) joints bs.
Proof.
  intros E H. apply mb_init_inv in E as (_ & En & _). apply get_bodies_spec in H as (is & H1 & H2). revert bs H2.
  induction H1 as [|r i l is Hr H1 IH]; intros bs H2; inversion H2; subst; constructor; auto. exists i. split; [auto|].
  apply resolve_joint_spec in Hr. destruct r as [name|k]; cbn in Hr; [|auto]. rewrite En in Hr. exact Hr.
Qed.
Lemma mapM_first_error {A B} (f : A -> res B) pre a post e : (forall x, In x pre -> exists b, f x = Ok b) -> f a = Raise e -> mapM f (pre ++ a :: post) = Raise e.
Proof.
  intros H E. induction pre as [|x pre IH]; cbn; [now rewrite E|]. destruct (H x (or_introl eq_refl)) as (b & ->). cbn.
  rewrite IH; [reflexivity|]. intros; apply H; now right.
Qed.
Lemma get_bodies_errors dd model geoms tool gravity M : mb_init dd model geoms tool gravity = Ok M ->
  (forall pre name post, (forall n, In (RName n) pre -> In n (pm_names model)) -> ~ In name (pm_names model) ->
     get_bodies M (pre ++ RName name :: post) = Raise ValueError) /\
  (forall j, (forall g, In g geoms -> go_parent g <> j) -> get_bodies M [RIndex j] = Raise KeyError).
Proof.
  intros E. pose proof (mb_init_inv _ _ _ _ _ _ E) as (EG & En & _). split.
  - intros pre name post HP HN. unfold get_bodies. rewrite (mapM_first_error _ pre (RName name) post ValueError); [reflexivity| |].
    + intros [n|k] Hx; cbn; [|eauto]. rewrite En. apply get_index_spec. now apply HP.
    + cbn. rewrite En. now apply get_index_spec.
  - intros j Hj. unfold get_bodies. cbn [mapM resolve_joint bind].
    destruct (add_geoms_inv _ _ _ _ _ _ (loop_inv_nil _ _) EG) as (_ & HN & _). cbn [app] in HN.
    assert (D : dget (mb_bodies M) j = None).
    { apply HN. destruct (geoms_of j geoms) as [|g r] eqn:X; [reflexivity|]. assert (I : In g (geoms_of j geoms)) by (rewrite X; now left).
      apply filter_In in I as [I1 I2]. apply Nat.eqb_eq in I2. now destruct (Hj g I1). }
    rewrite D. reflexivity.
Qed.
Lemma frame_pose_spec oMf M frame : match frame with
  | None => (mb_tool M = None -> get_frame_pose oMf M frame = Raise TypeError) /\
      forall i R t, mb_tool M = Some i -> nth_error oMf i = Some (R, t) -> get_frame_pose oMf M frame = Ok (Arr2 R, Arr1 t)
  | Some (RIndex i) => ((length oMf <= i)%nat -> get_frame_pose oMf M frame = Raise IndexError) /\
      forall R t, nth_error oMf i = Some (R, t) -> get_frame_pose oMf M frame = Ok (Arr2 R, Arr1 t)
  | Some (RName name) => (~ In name (pm_frames (mb_model M)) -> get_frame_pose oMf M frame = Raise ValueError) /\
      forall i R t, nth_error (pm_frames (mb_model M)) i = Some name -> (forall k, (k < i)%nat -> nth_error (pm_frames (mb_model M)) k <> Some name) ->
        nth_error oMf i = Some (R, t) -> get_frame_pose oMf M frame = Ok (Arr2 R, Arr1 t)
  end.
Proof.
  unfold get_frame_pose, at_index. destruct frame as [[name|i]|]; cbn [resolve_frame].
  - destruct (get_index_spec (pm_frames (mb_model M)) name) as (S1 & S2 & S3). split.
    + intros H. rewrite S3 by auto. reflexivity.
    + intros i R t H1 H2 H3. destruct (S2 (nth_error_In _ _ H1)) as (k & Ek). rewrite Ek. cbn [bind].
      apply S1 in Ek as [K1 K2]. assert (k = i) as ->.
      { destruct (lt_eq_lt_dec k i) as [[L|]|L]; auto; [now destruct (H2 k L)|now destruct (K2 i L)]. }
      rewrite H3. reflexivity.
  - cbn [bind]. split.
    + intros H. apply nth_error_None in H. rewrite H. reflexivity.
    + intros R t ->. reflexivity.
  - cbn [bind]. split.
    + intros ->. reflexivity.
    + intros i R t -> ->. reflexivity.
Qed.
Lemma resolve_frame_ok M frame i : frame_index M frame i -> resolve_frame M frame = Ok (Some i).
Proof.
  destruct frame as [[name|k]|]; cbn [frame_index resolve_frame].
  - intros (H1 & H2). destruct (get_index_spec (pm_frames (mb_model M)) name) as (S1 & S2 & S3). destruct (S2 (nth_error_In _ _ H1)) as (k & Ek). rewrite Ek. cbn [bind].
    apply S1 in Ek as [K1 K2]. assert (k = i) as ->; [|reflexivity]. destruct (lt_eq_lt_dec k i) as [[L|]|L]; auto; [now destruct (H2 k L)|now destruct (K2 i L)].
  - now intros ->.
  - now intros ->.
Qed.
Lemma frame_queries_spec motion jac M q frame rf :
  let rf' := match rf with None => LOCAL | Some f => f end in
  (forall i, frame_index M frame i ->
     get_frame_velocity motion M frame rf = Ok (motion i rf') /\ get_frame_classical_acceleration motion M frame rf = Ok (motion i rf') /\
     get_frame_spatial_acceleration motion M frame rf = Ok (motion i rf') /\ compute_frame_jacobian jac M q frame rf = Ok (jac q i rf')) /\
  (forall e, frame_error M frame e ->
     get_frame_velocity motion M frame rf = Raise e /\ get_frame_classical_acceleration motion M frame rf = Raise e /\
     get_frame_spatial_acceleration motion M frame rf = Raise e /\ compute_frame_jacobian jac M q frame rf = Raise e).
Proof.
  intro rf'. unfold get_frame_velocity, get_frame_classical_acceleration, get_frame_spatial_acceleration, frame_motion, compute_frame_jacobian. fold rf'. split.
  - intros i Hi. rewrite (resolve_frame_ok M frame i Hi). cbn [bind]. rewrite <- surjective_pairing. auto.
  - intros e [(-> & HT & ->)|(name & -> & HN & ->)]; cbn [resolve_frame].
    + rewrite HT. cbn [bind]. auto.
    + destruct (get_index_spec (pm_frames (mb_model M)) name) as (_ & _ & S3). rewrite S3 by auto. cbn [bind]. auto.
Qed.

(** * Kinematics and torques *)
Lemma kinematics_spec (D : Type) (fk : vec -> vec -> vec -> D) M q v a :
  let nq := pm_nq (mb_model M) in let nv := pm_nv (mb_model M) in
  (length q = nq -> (forall x, v = Some x -> length x = nv) -> (forall x, a = Some x -> length x = nv) ->
     mb_forward_kinematics fk M q v a = Ok (fk q (match v with Some x => x | None => repeat 0 nv end) (match a with Some x => x | None => repeat 0 nv end))) /\
  (length q <> nq \/ (exists x, v = Some x /\ length x <> nv) \/ (exists x, a = Some x /\ length x <> nv) ->
     mb_forward_kinematics fk M q v a = Raise AssertionError).
Proof.
  intros nq nv. unfold mb_forward_kinematics, is_vecb. fold nq nv. split.
  - intros Hq Hv Ha. rewrite Hq, Nat.eqb_refl. cbn [assert_ bind].
    assert (Lv : length (match v with None => zeros nv | Some v => v end) = nv) by (destruct v; [auto|apply repeat_length]).
    assert (La : length (match a with None => zeros nv | Some a => a end) = nv) by (destruct a; [auto|apply repeat_length]).
    rewrite Lv, La, Nat.eqb_refl. cbn [assert_ bind]. destruct v, a; reflexivity.
  - intros H. destruct (Nat.eqb (length q) nq) eqn:Eq; [|reflexivity]. apply Nat.eqb_eq in Eq. cbn [assert_ bind].
    destruct H as [H|[(x & -> & H)|(x & -> & H)]]; [contradiction| |].
    + apply Nat.eqb_neq in H. rewrite H. reflexivity.
    + destruct (Nat.eqb (length (match v with None => zeros nv | Some v => v end)) nv); [|reflexivity]. cbn [assert_ bind]. apply Nat.eqb_neq in H. rewrite H. reflexivity.
Qed.
Lemma torques_spec rnea M q v a : let nq := pm_nq (mb_model M) in let nv := pm_nv (mb_model M) in
  (length q = nq -> length v = nv -> length a = nv -> mb_joint_torques rnea M q v a = Ok (rnea q v a)) /\
  (length q <> nq \/ length v <> nv \/ length a <> nv -> mb_joint_torques rnea M q v a = Raise AssertionError).
Proof.
  intros nq nv. unfold mb_joint_torques, is_vecb. fold nq nv. split.
  - intros -> -> ->. rewrite !Nat.eqb_refl. reflexivity.
  - intros H. destruct (Nat.eqb (length q) nq) eqn:E1; [|reflexivity]. destruct (Nat.eqb (length v) nv) eqn:E2; [|reflexivity].
    apply Nat.eqb_eq in E1, E2. destruct H as [H|[H|H]]; try contradiction. apply Nat.eqb_neq in H. cbn [assert_ bind]. rewrite H. reflexivity.
Qed.

(** * The regressor *)
Fixpoint rowswap (n : nat) (r : vec) : vec :=
  match n, r with
  | S n, a0 :: a1 :: a2 :: a3 :: a4 :: a5 :: a6 :: a7 :: a8 :: a9 :: t => a0 :: a1 :: a2 :: a3 :: a4 :: a5 :: a7 :: a6 :: a8 :: a9 :: rowswap n t
  | _, _ => r
  end.
Ltac ten r L := do 10 (destruct r as [|? r]; [cbn in L; lia|]).
Lemma rowswap_step n : forall m r, length r = (m * 10)%nat -> (n < m)%nat ->
  set_nth (set_nth (rowswap n r) (n * 10 + 6) (nth (n * 10 + 7) r 0)) (n * 10 + 7) (nth (n * 10 + 6) r 0) = rowswap (S n) r.
Proof.
  induction n as [|n IH]; intros m r L Hm; (destruct m as [|m]; [lia|]); ten r L.
  - reflexivity.
  - cbn in L. change (S n * 10)%nat with (10 + n * 10)%nat. cbn [rowswap Nat.add set_nth nth]. do 10 f_equal.
    apply (IH m); lia.
Qed.
Lemma rowswap_length n : forall m r, length r = (m * 10)%nat -> (n <= m)%nat -> length (rowswap n r) = (m * 10)%nat.
Proof.
  induction n as [|n IH]; intros m r L Hm; [auto|]. destruct m as [|m]; [lia|]. ten r L. cbn in L |- *. do 10 f_equal. apply IH; lia.
Qed.
Lemma swap_links_app Yp l l' Y : swap_links Yp Y (l ++ l') = let* Y' := swap_links Yp Y l in swap_links Yp Y' l'.
Proof. revert Y. induction l as [|i l IH]; intros Y; [reflexivity|]. cbn. destruct (swap_link Yp Y i); cbn; auto. Qed.
Lemma map2_map_map {A A' B C} (f : A' -> C -> B) (g : A -> A') (h : A -> C) (l : list A) : map2 (fun r a => f r a) (map g l) (map h l) = map (fun r => f (g r) (h r)) l.
Proof. induction l; cbn; congruence. Qed.
Lemma ncols_is n m A : is_mat n m A -> (0 < n)%nat -> ncols A = m.
Proof. intros [L F] H. destruct A; cbn in *; [lia|]. inversion F; auto. Qed.
Lemma swap_links_rows nv m Y n : is_mat nv (m * 10) Y -> (0 < nv)%nat -> (n <= m)%nat -> swap_links Y Y (seq 0 n) = Ok (map (rowswap n) Y).
Proof.
  intros HY Hnv. induction n as [|n IH]; intros Hn; [cbn; now rewrite map_id|]. rewrite seq_S, swap_links_app, IH by lia. cbn [bind swap_links Nat.add].
  pose proof (ncols_is _ _ _ HY Hnv) as NC. destruct HY as [LY FY]. rewrite Forall_forall in FY.
  assert (M1 : is_mat nv (m * 10) (map (rowswap n) Y)).
  { split; [now rewrite map_length|]. apply Forall_forall. intros r Hr. apply in_map_iff in Hr as (r' & <- & Hr). apply rowswap_length; [auto|lia]. }
  assert (M2 : is_mat nv (m * 10) (map (fun r => set_nth (rowswap n r) (n * 10 + 6) (nth (n * 10 + 7) r 0)) Y)).
  { split; [now rewrite map_length|]. apply Forall_forall. intros r Hr. apply in_map_iff in Hr as (r' & <- & Hr). rewrite set_nth_length. apply rowswap_length; [auto|lia]. }
  unfold swap_link, get_col, set_col. rewrite NC. rewrite !(proj2 (Nat.ltb_lt _ _)) by lia. cbn [bind].
  rewrite (ncols_is _ _ _ M1 Hnv), !(proj2 (Nat.ltb_lt _ _)) by lia. cbn [bind]. unfold col. rewrite map2_map_map.
  rewrite (ncols_is _ _ _ M2 Hnv), !(proj2 (Nat.ltb_lt _ _)) by lia. cbn [bind]. rewrite map2_map_map. f_equal. apply map_ext_in. intros r Hr.
  apply (rowswap_step n m); [auto|lia].
Qed.
Lemma swap_links_fail nv m Y n : is_mat nv (m * 10) Y -> (0 < nv)%nat -> (m < n)%nat -> swap_links Y Y (seq 0 n) = Raise IndexError.
Proof.
  intros HY Hnv Hn. replace n with (m + S (n - m - 1))%nat by lia. rewrite seq_app, swap_links_app, (swap_links_rows nv m) by auto. cbn [bind Nat.add seq swap_links].
  unfold swap_link, get_col. rewrite (ncols_is _ _ _ HY Hnv). rewrite (proj2 (Nat.ltb_ge _ _)) by lia. reflexivity.
Qed.
Definition swap10 (t : vec) : vec := rowswap 1 t.
Lemma dot_rowswap vs : forall r, length r = (length vs * 10)%nat -> (forall t, In t vs -> length t = 10%nat) ->
  dot (rowswap (length vs) r) (concat vs) = dot r (concat (map swap10 vs)).
Proof.
  induction vs as [|t vs IH]; intros r L H; [cbn in *; destruct r; [reflexivity|discriminate]|].
  assert (Lt : length t = 10%nat) by (apply H; now left). cbn [length] in L. ten r L. cbn [length] in L.
  do 10 (destruct t as [|? t]; [discriminate|]). destruct t; [|discriminate].
  cbn [length rowswap concat map app swap10]. unfold dot. cbn [map2 lsum fold_right app].
  change (fold_right Rplus 0) with lsum. fold (dot (rowswap (length vs) r) (concat vs)). fold (dot r (concat (map swap10 vs))). rewrite IH; [ring|lia|].
  intros t Ht. apply H. now right.
Qed.
Lemma vec_swap p t I : ip_ok p -> ip_vec p = Ok t -> ip_I p = Ok I -> length t = 10%nat /\ swap10 t = pin_vector (ip_mass p) (ip_h p) I.
Proof.
  intros [Lc MH] Et EI. unfold ip_vec in Et. rewrite EI in Et. cbn [bind] in Et. apply bind_inv in Et as (u & Eu & Et). apply Ok_eq in Et. subst t.
  assert (MI : is_mat 3 3 I).
  { unfold ip_I, H2I in EI. rewrite (proj2 (is_matb_iff _ _ _) MH) in EI. cbn [assert_ bind] in EI. apply Ok_eq in EI. subst I. destruct p as [m c H]; cbn in MH |- *; destruct_vecs; cbn; split; [reflexivity|repeat constructor]. }
  unfold ip_h. destruct p as [m c H]. cbn [ip_mass ip_com ip_H] in *. clear EI MH. destruct_vecs. cbn in Eu. apply Ok_eq in Eu. subst u. split; reflexivity.
Qed.
Lemma stacks_swap ps v w : (forall p, In p ps -> ip_ok p) -> stacks ps v -> pin_stack ps w ->
  exists vs, length vs = length ps /\ (forall t, In t vs -> length t = 10%nat) /\ v = concat vs /\ w = concat (map swap10 vs).
Proof.
  intros HO (vs & F & ->) (ws & G & ->). exists vs. split; [clear - F; induction F; cbn; congruence|].
  revert ws G. induction F as [|p t ps vs Hp F IH]; intros ws G; inversion G; subst; [split; [intros ? []|auto]|].
  destruct H1 as (I & EI & ->). destruct (vec_swap p t I (HO p (or_introl eq_refl)) Hp EI) as [L S].
  destruct (IH ltac:(intros; apply HO; now right) _ H3) as (I1 & _ & I3). split.
  - intros x [<-|Hx]; auto.
  - split; [reflexivity|]. cbn [map concat]. now rewrite S, I3.
Qed.
Lemma regressor_spec regressor_pin M q v a (links : nat) : let nv := pm_nv (mb_model M) in
  is_mat nv (10 * links) (regressor_pin q v a) -> nv = links ->
  exists Y, mb_torque_regressor regressor_pin M q v a = Ok Y /\ is_mat nv (10 * links) Y /\
    forall ps x w, length ps = links -> (forall p, In p ps -> ip_ok p) -> stacks ps x -> pin_stack ps w -> mat_vec Y x = mat_vec (regressor_pin q v a) w.
Proof.
  intros nv HY HL. unfold mb_torque_regressor. fold nv. set (Y := regressor_pin q v a) in *. rewrite Nat.mul_comm in HY.
  destruct (Nat.eq_dec nv 0) as [Z|Nz].
  - exists Y. rewrite Z in HY |- *. split; [reflexivity|]. split; [now rewrite Nat.mul_comm|]. intros ps x w _ _ _ _. destruct HY as [LY _]. destruct Y; [reflexivity|discriminate].
  - exists (map (rowswap nv) Y). rewrite (swap_links_rows nv links) by (auto; lia). split; [reflexivity|]. destruct HY as [LY FY]. rewrite Forall_forall in FY. split.
    + split; [now rewrite map_length|]. apply Forall_forall. intros r Hr. apply in_map_iff in Hr as (r' & <- & Hr). rewrite Nat.mul_comm. apply rowswap_length; [auto|lia].
    + intros ps x w Lp HO HS HW. destruct (stacks_swap ps x w HO HS HW) as (vs & Lv & H10 & -> & ->). unfold mat_vec. rewrite map_map. apply map_ext_in. intros r Hr.
      rewrite HL, <- Lp, <- Lv. apply dot_rowswap; auto. rewrite Lv, Lp. auto.
Qed.
Lemma regressor_torques regressor_pin M q v a (torques : list IP -> vec) : let links := pm_nv (mb_model M) in
  is_mat links (10 * links) (regressor_pin q v a) ->
  (forall ps w, length ps = links -> (forall p, In p ps -> ip_ok p) -> pin_stack ps w -> mat_vec (regressor_pin q v a) w = torques ps) ->
  exists Y, mb_torque_regressor regressor_pin M q v a = Ok Y /\ is_mat links (10 * links) Y /\
    forall ps x, length ps = links -> (forall p, In p ps -> ip_ok p) -> stacks ps x -> mat_vec Y x = torques ps.
Proof.
  intros links HY HT. destruct (regressor_spec regressor_pin M q v a links HY eq_refl) as (Y & E & MY & H). exists Y. split; [auto|]. split; [auto|].
  intros ps x Lp HO HS. assert (X : exists w, pin_stack ps w).
  { clear - HO. induction ps as [|p ps IH]; [exists []; exists []; split; [constructor|reflexivity]|].
    destruct IH as (w & ws & F & ->); [intros; apply HO; now right|]. destruct (HO p (or_introl eq_refl)) as [_ MH].
    exists (concat (pin_vector (ip_mass p) (ip_h p) (msub (mscale (trace (ip_H p)) (eye 3)) (ip_H p)) :: ws)), (pin_vector (ip_mass p) (ip_h p) (msub (mscale (trace (ip_H p)) (eye 3)) (ip_H p)) :: ws).
    split; [|reflexivity]. constructor; [|auto]. eexists. split; [|reflexivity]. unfold ip_I, H2I. rewrite (proj2 (is_matb_iff _ _ _) MH). reflexivity. }
  destruct X as (w & Hw). rewrite (H ps x w Lp HO HS Hw). auto.
Qed.
Lemma regressor_fail regressor_pin M q v a (links : nat) : let nv := pm_nv (mb_model M) in
  is_mat nv (10 * links) (regressor_pin q v a) -> (links < nv)%nat -> mb_torque_regressor regressor_pin M q v a = Raise IndexError.
Proof. intros nv HY H. unfold mb_torque_regressor. fold nv. rewrite Nat.mul_comm in HY. apply (swap_links_fail nv links); auto; lia. Qed.

(** * Witnesses *)
Definition bare (nq nv : nat) (inertias : list PinInertia) : PinModel :=
  {| pm_names := []; pm_frames := []; pm_nq := nq; pm_nv := nv; pm_inertias := inertias; pm_gravity := [0; 0; -9] |}.
Definition bare_mb (nq nv : nat) : MB := {| mb_model := bare nq nv []; mb_tool := None; mb_bodies := [] |}.
(** one free-floating body *)
Lemma regressor_floating_refuted dd : exists model M regressor_pin q v a, mb_init dd model [] None None = Ok M /\ pm_nq model = 7%nat /\ pm_nv model = 6%nat /\
  length q = 7%nat /\ length v = 6%nat /\ length a = 6%nat /\ is_mat 6 (10 * 1) (regressor_pin q v a) /\ mb_torque_regressor regressor_pin M q v a = Raise IndexError.
Proof.
  exists (bare 7 6 []), (bare_mb 7 6), (fun _ _ _ => repeat (zeros 10) 6), (zeros 7), (zeros 6), (zeros 6).
  assert (M6 : is_mat 6 (10 * 1) (repeat (zeros 10) 6)) by (split; [reflexivity|]; repeat constructor).
  repeat (split; [reflexivity|]). split; [exact M6|]. apply (regressor_fail _ _ _ _ _ 1); [exact M6|cbn; lia].
Qed.
(** two links of which the second has no velocity of its own (a mimic joint) *)
Lemma regressor_mimic_refuted dd : exists model M regressor_pin q v a Y ps x w, mb_init dd model [] None None = Ok M /\ pm_nv model = 1%nat /\
  is_mat 1 (10 * 2) (regressor_pin q v a) /\ mb_torque_regressor regressor_pin M q v a = Ok Y /\ length ps = 2%nat /\ (forall p, In p ps -> ip_ok p) /\
  stacks ps x /\ pin_stack ps w /\ mat_vec Y x <> mat_vec (regressor_pin q v a) w.
Proof.
  set (row := zeros 16 ++ [1; 0; 0; 0]). set (p := {| ip_mass := 1; ip_com := zeros 3; ip_H := eye 3 |}).
  assert (HO : ip_ok p) by (split; [reflexivity|apply is_mat_eye]).
  assert (EI : ip_I p = Ok (msub (mscale (trace (eye 3)) (eye 3)) (eye 3))) by reflexivity.
  exists (bare 1 1 []), (bare_mb 1 1), (fun _ _ _ => [row]), [0], [0], [0], [row], [p; p].
  eexists (concat [_; _]), (concat [_; _]). split; [reflexivity|]. split; [reflexivity|]. split; [split; [reflexivity|repeat constructor]|]. split; [reflexivity|].
  split; [reflexivity|]. split; [intros x [<-|[<-|[]]]; auto|]. split; [|split].
  - eexists. split; [|reflexivity]. constructor; [reflexivity|constructor; [reflexivity|constructor]].
  - eexists. split; [|reflexivity]. constructor; [eexists; split; [exact EI|reflexivity]|constructor; [eexists; split; [exact EI|reflexivity]|constructor]].
  - cbn. intros H. injection H. lra.
Qed.
Lemma pose_order_refuted dd : exists model M oMf frame r, mb_init dd model [] None None = Ok M /\ get_frame_pose oMf M frame = Ok r /\
  ~ exists position orientation, r = (Arr1 position, Arr2 orientation).
Proof.
  exists (bare 1 1 []), (bare_mb 1 1), [(eye 3, zeros 3)], (Some (RIndex 0)), (Arr2 (eye 3), Arr1 (zeros 3)).
  split; [reflexivity|]. split; [reflexivity|]. intros (p & o & H). discriminate.
Qed.
Definition quarter : mat := [[0; -1; 0]; [1; 0; 0]; [0; 0; 1]].
Lemma quarter_orthogonal : orthogonal 3 quarter.
Proof. split; [split; [reflexivity|repeat constructor]|]. split; cbn; list_eq; ring. Qed.
Definition arm_inertias : list PinInertia :=
  [{| pi_mass := 0; pi_lever := zeros 3; pi_inertia := zeros2 3 3 |}; {| pi_mass := 2; pi_lever := [1; 0; 0]; pi_inertia := [[1; 0; 0]; [0; 2; 0]; [0; 0; 2]] |};
   {| pi_mass := 1; pi_lever := [0; 0; 1 / 2]; pi_inertia := eye 3 |}].
Definition arm : PinModel :=
  {| pm_names := ["universe"; "shoulder"; "elbow"]%string; pm_frames := ["universe"; "tool"]%string; pm_nq := 2; pm_nv := 2; pm_inertias := arm_inertias; pm_gravity := [0; 0; -9] |}.
Definition arm_geoms : list GeomObj :=
  [{| go_geometry := GBox [1; 1 / 2; 1 / 4]; go_rotation := quarter; go_translation := [1; 0; 0]; go_parent := 1 |};
   {| go_geometry := GCylinder (1 / 4) (1 / 2); go_rotation := eye 3; go_translation := [0; 0; 1 / 2]; go_parent := 2 |};
   {| go_geometry := GSphere 1; go_rotation := eye 3; go_translation := zeros 3; go_parent := 1 |}].
Lemma arm_example dd : exists model geoms M b1 b2, 
  (forall g, In g geoms -> geom_ok (go_geometry g) /\ placement_ok g /\ (go_parent g < length (pm_inertias model))%nat) /\
  (forall i, In i (pm_inertias model) -> inertia_ok i) /\ length geoms = 3%nat /\
  mb_init dd model geoms (Some "tool"%string) (Some [0; 0; -1]) = Ok M /\
  get_bodies M [RName "elbow"%string; RIndex 1] = Ok [b2; b1] /\ length (bd_shapes b1) = 2%nat /\ length (bd_shapes b2) = 1%nat /\
  ip_mass (bd_params b1) = 2 /\ ip_mass (bd_params b2) = 1 /\ get_bodies M [RIndex 0] = Raise KeyError.
Proof.
  assert (HG : forall g, In g arm_geoms -> geom_ok (go_geometry g) /\ placement_ok g /\ (go_parent g < length (pm_inertias arm))%nat).
  { intros g [<-|[<-|[<-|[]]]]; cbn [go_geometry geom_ok go_parent arm pm_inertias arm_inertias length]; (split; [|split; [split; cbn [go_rotation go_translation]; [try apply quarter_orthogonal; try (apply orthogonal_eye; lia)|reflexivity]|lia]]).
    - split; [reflexivity|]. intros x [<-|[<-|[<-|[]]]]; lra.
    - lra.
    - lra. }
  assert (HI : forall i, In i (pm_inertias arm) -> inertia_ok i).
  { intros i [<-|[<-|[<-|[]]]]; (split; [cbn; lra|split; [reflexivity|split; [reflexivity|repeat constructor]]]). }
  destruct (mb_total dd arm arm_geoms (Some "tool"%string) (Some [0; 0; -1]) HG HI) as (M & EM).
  { intros name E. injection E as <-. cbn. auto. } { intros g E. now injection E as <-. }
  destruct (mb_bodies_spec _ _ _ _ _ _ EM (fun g Hg => proj1 (proj2 (HG g Hg))) HI) as (_ & HB & HS).
  destruct (proj2 (HB 1%nat)) as (b1 & E1). { eexists. split; [left; reflexivity|reflexivity]. }
  destruct (proj2 (HB 2%nat)) as (b2 & E2). { eexists. split; [right; left; reflexivity|reflexivity]. }
  destruct (HS _ _ E1) as (i1 & K1 & N1 & (M1 & _) & _ & F1 & G1). destruct (HS _ _ E2) as (i2 & K2 & N2 & (M2 & _) & _ & F2 & G2).
  injection N1 as <-. injection N2 as <-. exists arm, arm_geoms, M, b1, b2. split; [exact HG|]. split; [exact HI|]. split; [reflexivity|]. split; [exact EM|].
  pose proof (mb_init_inv _ _ _ _ _ _ EM) as (_ & En & _). split.
  { unfold get_bodies. cbn [mapM resolve_joint]. rewrite En. replace (get_index (pm_names arm) "elbow") with (@Ok nat 2%nat) by reflexivity. cbn [bind mapM]. rewrite E2, E1. reflexivity. }
  assert (L : forall (A B : Type) (P : A -> B -> Prop) l l', Forall2 P l l' -> length l = length l') by (clear; intros A B P l l' F; induction F; cbn; congruence).
  split; [rewrite (L _ _ _ _ _ F1), <- (L _ _ _ _ _ G1); reflexivity|]. split; [rewrite (L _ _ _ _ _ F2), <- (L _ _ _ _ _ G2); reflexivity|].
  split; [exact M1|]. split; [exact M2|]. apply (proj2 (get_bodies_errors _ _ _ _ _ _ EM)). intros g [<-|[<-|[<-|[]]]]; cbn; lia.
Qed.
Lemma regressor_example dd : exists model M regressor_pin q v a ps x, mb_init dd model [] None None = Ok M /\ pm_nv model = 2%nat /\
  is_mat 2 (10 * 2) (regressor_pin q v a) /\ length ps = 2%nat /\ (forall p, In p ps -> ip_ok p) /\ stacks ps x /\ mat_vec (regressor_pin q v a) x <> [0; 0] /\
  exists Y, mb_torque_regressor regressor_pin M q v a = Ok Y /\ Y <> regressor_pin q v a.
Proof.
  set (Y := [zeros 6 ++ [1] ++ zeros 13; zeros 16 ++ [1; 2; 0; 0]]). set (p := {| ip_mass := 1; ip_com := zeros 3; ip_H := [[1; 3; 4]; [3; 1; 0]; [4; 0; 1]] |}).
  assert (HO : ip_ok p) by (split; [reflexivity|split; [reflexivity|repeat constructor]]).
  exists (bare 2 2 []), (bare_mb 2 2), (fun _ _ _ => Y), [0; 0], [0; 0], [0; 0], [p; p]. eexists (concat [_; _]). split; [reflexivity|]. split; [reflexivity|].
  split; [split; [reflexivity|repeat constructor]|]. split; [reflexivity|]. split; [intros x [<-|[<-|[]]]; auto|]. split; [|split].
  - eexists. split; [|reflexivity]. constructor; [reflexivity|constructor; [reflexivity|constructor]].
  - cbn. intros H. injection H. lra.
  - eexists. split; [reflexivity|]. cbn. intros H. injection H. lra.
Qed.
Lemma mb_settings dd model geoms tool gravity M : mb_init dd model geoms tool gravity = Ok M ->
  pm_names (mb_model M) = pm_names model /\ pm_frames (mb_model M) = pm_frames model /\ pm_nq (mb_model M) = pm_nq model /\ pm_nv (mb_model M) = pm_nv model /\
  pm_inertias (mb_model M) = pm_inertias model /\ (gravity = None -> pm_gravity (mb_model M) = pm_gravity model) /\
  (forall g, gravity = Some g -> pm_gravity (mb_model M) = g) /\ (tool = None -> mb_tool M = None) /\
  (forall name, tool = Some name -> exists i, mb_tool M = Some i /\ nth_error (pm_frames model) i = Some name /\ forall k, (k < i)%nat -> nth_error (pm_frames model) k <> Some name).
Proof.
  intros E. apply mb_init_inv in E as (_ & E1 & E2 & E3 & E4 & E5 & E6 & E7). do 5 (split; [auto|]).
  split; [intros ->; auto|]. split; [intros g ->; auto|]. split; [intros ->; auto|]. intros name ->. destruct E7 as (i & Ei & Et). exists i. split; [auto|]. now apply get_index_spec.
Qed.
Lemma frames_example : forall dd, exists model M, mb_init dd model [] (Some "tool"%string) None = Ok M /\
  frame_index M None 2 /\ frame_index M (Some (RName "base"%string)) 0 /\ frame_index M (Some (RIndex 1)) 1 /\
  frame_error M (Some (RName "gripper"%string)) ValueError /\
  exists M', mb_init dd model [] None None = Ok M' /\ frame_error M' None TypeError.
Proof.
  intro dd. exists {| pm_names := ["universe"]%string; pm_frames := ["base"; "link"; "tool"]%string; pm_nq := 0; pm_nv := 0; pm_inertias := []; pm_gravity := [0; 0; -9] |}.
  eexists. split; [reflexivity|]. split; [reflexivity|]. split; [split; [reflexivity|intros k Hk; lia]|]. split; [reflexivity|]. split.
  - right. exists "gripper"%string. split; [reflexivity|]. split; [|reflexivity]. cbn. intros [H|[H|[H|[]]]]; discriminate.
  - eexists. split; [reflexivity|]. left. auto.
Qed.
