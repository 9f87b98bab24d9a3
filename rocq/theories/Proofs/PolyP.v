(** Polyhedra: C27 (transform), C32, C33, C35, C41, C65. *)
From Verif Require Import Base.Vec Base.VecFacts Spec.Basic Spec.Shapes Spec.ShapeObjects Spec.DoubleDesc Spec.PolySpec
  Model.Util Model.Polydd Model.Poly Model.Ellipsoid Model.Box Model.Cylinder
  Proofs.Coord Proofs.Hull Proofs.BoxP Proofs.EllP Proofs.CylP Proofs.DDP.

Lemma poly_ok_vertices n p : poly_ok n p -> p_vertices p <> [] /\ rows_len n (p_vertices p) /\ p_dim p = n.
Proof.
  intros (_ & _ & _ & _ & V & E & NV & RV). unfold p_vertices, p_dim. rewrite E. cbn. split; [auto|]. split; [exact RV|].
  destruct V as [|v V]; [congruence|]. cbn. apply RV. now left.
Qed.
Lemma poly_contains_halfspaces p x : length (p_A p) = length (p_b p) ->
  (poly_contains p x 0 = true <-> halfspaces (p_A p) (p_b p) x).
Proof. intro L. rewrite poly_contains_iff by auto. rewrite map_add0. reflexivity. Qed.
Lemma agree_contains n p x : poly_agree n p -> length x = n -> (poly_contains p x 0 = true <-> in_hull n (p_vertices p) x).
Proof.
  intros [OK H] L. rewrite poly_contains_halfspaces; [auto|]. destruct OK as (_ & _ & _ & E & _). congruence.
Qed.

(** ** from_vertices *)
Lemma from_vertices_agree n dd V p : (0 < n)%nat -> V <> [] -> rows_len n V ->
  ineqs_correct n (dd_ineqs dd) {| cdd_rows := map (cons 1) V; cdd_lin := [] |} ->
  poly_from_vertices dd V false = Ok p -> poly_agree n p /\ p_vertices p = V.
Proof.
  intros Hn NV RV [HO HC] H. unfold poly_from_vertices in H. unfold poly_init in H.
  apply bind_inv in H as (f & Hf & H). cbn [bind] in H. change (sf_bounded (span_form (Some V) None None)) with true in H.
  cbn match in H. injection H as <-. unfold sf_to_face_form in Hf.
  rewrite sf_to_cdd_eq in Hf by (left; discriminate). cbn [span_form sf_vertices sf_rays olist bind map] in Hf. rewrite app_nil_r in Hf.
  set (m := {| cdd_rows := map (cons 1) V; cdd_lin := [] |}) in *.
  assert (SV : forall x, v_set n m x <-> in_hull n V x).
  { destruct (sf_to_cdd_iff n (span_form (Some V) None None) m) as [_ K].
    - rewrite sf_to_cdd_eq by (left; discriminate). cbn. rewrite app_nil_r. reflexivity.
    - eexists. split; [reflexivity|]. auto.
    - intros v [].
    - intro x. rewrite K. unfold span_set. cbn. apply hull_cone_nil; auto. }
  destruct (ff_from_cdd_iff n _ _ (zeros n) HO Hf (zeros_length n)) as (L & M & P & _).
  split; [|reflexivity]. split.
  - split; [auto|]. split; [exact P|]. split; [exact M|]. split; [unfold p_b, p_A; cbn; congruence|]. exists V. repeat split; auto.
  - intros x Lx. destruct (ff_from_cdd_iff n _ _ x HO Hf Lx) as (_ & _ & _ & I). unfold p_A, p_b. cbn [p_face]. rewrite I, HC, SV by auto. reflexivity.
Qed.

(** ** C27 *)
Lemma poly_transform_agree n dd p ro tr p' : poly_agree n p -> poly_transform dd p ro tr = Ok p' ->
  ineqs_correct n (dd_ineqs dd)
    {| cdd_rows := map (fun v => 1 :: move (pose_rot n ro) (pose_tr n tr) v) (p_vertices p); cdd_lin := [] |} ->
  poly_agree n p' /\ p_vertices p' = map (move (pose_rot n ro) (pose_tr n tr)) (p_vertices p).
Proof.
  intros [OK AG] H HC. destruct (poly_ok_vertices _ _ OK) as (NV & RV & ED). pose proof OK as (Hn & _).
  unfold poly_transform in H. rewrite ED in H. apply bind_inv in H as (rt & Hrt & H).
  apply clean_transform_inv in Hrt as (E1 & E2 & M1 & L2). rewrite E1, E2 in *.
  assert (EM : map (fun r => vadd r (pose_tr n tr)) (mat_mul (p_vertices p) (transpose (pose_rot n ro))) = map (move (pose_rot n ro) (pose_tr n tr)) (p_vertices p)).
  { unfold mat_mul. rewrite map_map. apply map_ext_in. intros v Hv. rewrite (vec_mat_transpose n) by auto. reflexivity. }
  rewrite EM in H. clear EM. apply (from_vertices_agree n) in H; auto.
  - intro E. apply map_eq_nil in E. auto.
  - apply (rows_len_map n n); auto. intros; apply (move_len n); auto.
  - rewrite map_map. exact HC.
Qed.
Lemma poly_transform_contains n dd p ro tr p' x : poly_agree n p -> poly_transform dd p ro tr = Ok p' ->
  ineqs_correct n (dd_ineqs dd)
    {| cdd_rows := map (fun v => 1 :: move (pose_rot n ro) (pose_tr n tr) v) (p_vertices p); cdd_lin := [] |} ->
  orthogonal n (pose_rot n ro) -> length x = n ->
  poly_contains p' (move (pose_rot n ro) (pose_tr n tr) x) 0 = poly_contains p x 0.
Proof.
  intros AG H HC HQ Lx. destruct (poly_transform_agree n dd p ro tr p' AG H HC) as [AG' EV].
  assert (LT : length (pose_tr n tr) = n).
  { unfold poly_transform in H. destruct AG as [OK _]. destruct (poly_ok_vertices _ _ OK) as (_ & _ & ED). rewrite ED in H.
    apply bind_inv in H as (rt & Hrt & _). apply clean_transform_inv in Hrt as (_ & <- & _ & L). exact L. }
  pose proof AG as [OK _]. destruct (poly_ok_vertices _ _ OK) as (NV & RV & ED). pose proof OK as (Hn & _).
  apply Bool.eq_iff_eq_true. rewrite (agree_contains n p' _ AG') by (apply (move_len n); [apply HQ|auto]).
  rewrite (agree_contains n p x AG Lx), EV. split.
  - intro K. apply in_hull_move_inv in K as (q & Hq & E); auto; [|apply HQ].
    pose proof (in_hull_length _ _ _ Hq) as Lq.
    apply (move_inv n) in E; auto; [|apply (move_len n); auto; apply HQ].
    rewrite <- (proj1 (move_inv n (pose_rot n ro) (pose_tr n tr) x (move (pose_rot n ro) (pose_tr n tr) x) HQ LT Lx (move_len n _ _ _ (proj1 HQ) LT) Hn) eq_refl) in E.
    subst q. exact Hq.
  - intro K. apply in_hull_move; auto. apply HQ.
Qed.

(** ** C32 *)
Lemma contains_polyhedron_hull n (K : vec -> Prop) f poly : rows_len n (p_vertices poly) -> convex K ->
  (forall x, length x = n -> (f x = true <-> K x)) ->
  (forallb (fun b => b) (map f (p_vertices poly)) = true <-> forall x, in_hull n (p_vertices poly) x -> f x = true).
Proof.
  intros RV CK HK. rewrite forallb_forall. split.
  - intros H x Hx. apply HK; [apply (in_hull_length _ _ _ Hx)|]. apply (hull_in_convex n K (p_vertices poly)); auto.
    intros v Hv. apply HK; auto. apply H. apply in_map_iff. eauto.
  - intros H b Hb. apply in_map_iff in Hb as (v & <- & Hv). apply H. apply hull_vertex; auto.
Qed.
Lemma poly_contains_polyhedron n p q tol : poly_ok n p -> rows_len n (p_vertices q) ->
  (contains_polyhedron (poly_contains_all p) q tol = true <->
   forall x, in_hull n (p_vertices q) x -> poly_contains p x tol = true).
Proof.
  intros OK RV. destruct (poly_ok_vertices _ _ OK) as (_ & _ & ED). pose proof OK as (Hn & Hm & M & L & _).
  unfold contains_polyhedron. rewrite poly_contains_all_eq by (rewrite ?ED; auto).
  apply (contains_polyhedron_hull n (fun x => length x = n /\ halfspaces (p_A p) (map (fun b => b + tol) (p_b p)) x)); auto.
  - apply halfspaces_convex; auto.
  - intros x Lx. rewrite poly_contains_iff by auto. tauto.
Qed.
Lemma abs_conv a b t tol : 0 <= t <= 1 -> Rabs a <= tol -> Rabs b <= tol -> Rabs ((1 - t) * a + t * b) <= tol.
Proof.
  intros Ht Ha Hb. apply abs_le_inv in Ha, Hb. apply Rabs_le. split; nra.
Qed.
Lemma zq_conv h a b t : 0 <= t <= 1 -> zq h ((1 - t) * a + t * b) <= (1 - t) * zq h a + t * zq h b.
Proof.
  intros Ht. unfold zq. destruct (tiny h); [lra|]. set (k := / h * / h). assert (0 <= k) by apply sqr_nonneg.
  assert (E : (1 - t) * (k * a * a) + t * (k * b * b) - k * ((1 - t) * a + t * b) * ((1 - t) * a + t * b) = k * ((1 - t) * t) * ((a - b) * (a - b))) by ring.
  assert (0 <= k * ((1 - t) * t) * ((a - b) * (a - b))).
  { apply Rmult_le_pos; [|apply sqr_nonneg]. apply Rmult_le_pos; [auto|]. apply Rmult_le_pos; lra. }
  lra.
Qed.
Lemma lsum_zq_conv h u v t : 0 <= t <= 1 -> length u = length h -> length v = length h ->
  lsum (map2 zq h (vadd (vscale (1 - t) u) (vscale t v))) <= (1 - t) * lsum (map2 zq h u) + t * lsum (map2 zq h v).
Proof.
  intro Ht. revert u v; induction h as [|x h IH]; intros [|a u] [|b v] Lu Lv; cbn in Lu, Lv; try discriminate; [cbn; lra|].
  change (zq x ((1 - t) * a + t * b) + lsum (map2 zq h (vadd (vscale (1 - t) u) (vscale t v))) <=
          (1 - t) * (zq x a + lsum (map2 zq h u)) + t * (zq x b + lsum (map2 zq h v))).
  specialize (IH u v ltac:(lia) ltac:(lia)). pose proof (zq_conv x a b t Ht). lra.
Qed.
Lemma ell_contains_convex n e tol : (0 < n)%nat -> e_dim e = n -> is_mat n n (e_rot e) -> length (e_center e) = n ->
  convex (fun p => length p = n /\ ell_contains e p tol = true).
Proof.
  intros Hn ED HQ LC p q t Lpq [Lp Hp] [Lq Hq] Ht.
  assert (Lr : length (vadd (vscale (1 - t) p) (vscale t q)) = n) by (rewrite vadd_length; rewrite !vscale_length; auto).
  split; [exact Lr|]. rewrite ell_contains_local in * by (rewrite (vec_mat_len n); auto).
  assert (EQ : vec_mat (vsub (vadd (vscale (1 - t) p) (vscale t q)) (e_center e)) (e_rot e) =
               vadd (vscale (1 - t) (vec_mat (vsub p (e_center e)) (e_rot e))) (vscale t (vec_mat (vsub q (e_center e)) (e_rot e)))).
  { rewrite !vec_mat_mat_vec. rewrite <- !mat_vec_vscale, <- mat_vec_vadd.
    - f_equal. vring n.
    - rewrite !vscale_length, !vsub_length; congruence. }
  rewrite EQ. set (u := vec_mat (vsub p (e_center e)) (e_rot e)) in *. set (v := vec_mat (vsub q (e_center e)) (e_rot e)) in *.
  assert (Lu : length u = n) by (apply (vec_mat_len n); auto). assert (Lv : length v = n) by (apply (vec_mat_len n); auto).
  destruct Hp as [Hp1 Hp2], Hq as [Hq1 Hq2]. split.
  - intros i Hi Ti. rewrite nth_vadd, !nth_vscale by (rewrite !vscale_length; congruence). apply abs_conv; auto.
  - eapply Rle_trans; [apply lsum_zq_conv; auto; unfold e_dim in ED; congruence|]. nra.
Qed.
Lemma ell_contains_polyhedron h r c e q tol : ell_init h r c = Ok e -> h <> [] -> rows_len (length h) (p_vertices q) ->
  (contains_polyhedron (ell_contains_all e) q tol = true <->
   forall x, in_hull (length h) (p_vertices q) x -> ell_contains e x tol = true).
Proof.
  intros H NH RV. apply ell_init_inv in H as (_ & E1 & _ & _ & M & L).
  assert (Hn : (0 < length h)%nat) by (destruct h; cbn; [congruence|lia]).
  unfold contains_polyhedron, ell_contains_all.
  apply (contains_polyhedron_hull (length h) (fun p => length p = length h /\ ell_contains e p tol = true)); auto.
  - apply ell_contains_convex; auto. unfold e_dim. congruence.
  - intros x Lx. tauto.
Qed.
Lemma cyl_contains_polyhedron L r ro co c q tol : cyl_init L r ro co = Ok c -> rows_len 3 (p_vertices q) ->
  (contains_polyhedron (cyl_contains_all c) q tol = true <->
   forall x, in_hull 3 (p_vertices q) x -> cyl_contains c x tol = true).
Proof.
  intros H RV. apply cyl_init_inv in H as (HL & Hr & M & LC & ->).
  unfold contains_polyhedron, cyl_contains_all.
  apply (contains_polyhedron_hull 3 (fun p => length p = 3%nat /\ cyl_contains (cyl_of L r (pose_rot 3 ro) (pose_tr 3 co)) p tol = true)); auto.
  2:{ intros x Lx. tauto. }
  set (Q := pose_rot 3 ro) in *. set (c := pose_tr 3 co) in *. intros p q' t Lpq [Lp Hp] [Lq Hq] Ht.
  split; [rewrite vadd_length; rewrite !vscale_length; auto|].
  unfold cyl_contains in *. apply andb_prop in Hp as [Hp1 Hp2], Hq as [Hq1 Hq2]. apply andb_true_iff. split.
  - cbn [cyl_of c_rot] in *. set (a := longitudinal_axis Q) in *.
    assert (E : [dot (vadd (vscale (1 - t) p) (vscale t q')) a] = vadd (vscale (1 - t) [dot p a]) (vscale t [dot q' a])).
    { cbn. rewrite dot_vadd_l by (rewrite !vscale_length; auto). rewrite !dot_vscale_l. reflexivity. }
    rewrite E. apply (ell_contains_convex 1 (c_ell1 (cyl_of L r Q c)) default_tol); auto. apply is_mat_eye.
  - cbn [cyl_of c_rot] in *.
    assert (MT : is_mat 3 2 (transverse_axes Q)) by (destruct (mat33_inv _ M) as (? & ? & ? & ? & ? & ? & ? & ? & ? & ->); cbn; split; [reflexivity|repeat constructor]).
    assert (E : vec_mat (vadd (vscale (1 - t) p) (vscale t q')) (transverse_axes Q) =
                vadd (vscale (1 - t) (vec_mat p (transverse_axes Q))) (vscale t (vec_mat q' (transverse_axes Q)))).
    { rewrite !vec_mat_mat_vec. rewrite <- !mat_vec_vscale, <- mat_vec_vadd by (rewrite !vscale_length; auto). reflexivity. }
    rewrite E. assert (NC : ncols (transverse_axes Q) = 2%nat) by (apply (is_mat_ncols 3 2); auto; lia).
    apply (ell_contains_convex 2 (c_ell2 (cyl_of L r Q c)) default_tol); auto.
    + apply is_mat_eye.
    + cbn. rewrite mat_vec_length. apply transverse_len. auto.
    + rewrite !vec_mat_length. reflexivity.
    + split; [rewrite vec_mat_length; auto|exact Hp2].
    + split; [rewrite vec_mat_length; auto|exact Hq2].
Qed.

(** ** C33 *)
Lemma poly_is_same_iff n k k' p q : poly_agree n p -> poly_agree n q -> isinstance_of k k' = true ->
  (poly_is_same (isinstance_of k k') p q 0 = true <->
   forall x, length x = n -> (in_hull n (p_vertices p) x <-> in_hull n (p_vertices q) x)).
Proof.
  intros Hp Hq E. unfold poly_is_same. rewrite E. cbn [negb]. rewrite andb_true_iff.
  destruct (poly_ok_vertices n p (proj1 Hp)) as (_ & RP & _). destruct (poly_ok_vertices n q (proj1 Hq)) as (_ & RQ & _).
  rewrite (poly_contains_polyhedron n p q 0 (proj1 Hp) RQ), (poly_contains_polyhedron n q p 0 (proj1 Hq) RP). split.
  - intros [A B] x Lx. split; intro K.
    + apply (agree_contains n q x Hq Lx). apply B. exact K.
    + apply (agree_contains n p x Hp Lx). apply A. exact K.
  - intro K. split; intros x Hx; pose proof (in_hull_length _ _ _ Hx) as Lx.
    + apply (agree_contains n p x Hp Lx), K; auto.
    + apply (agree_contains n q x Hq Lx), K; auto.
Qed.
Lemma poly_is_same_refl n k p : poly_agree n p -> poly_is_same (isinstance_of k k) p p 0 = true.
Proof. intro H. apply (poly_is_same_iff n); auto; [destruct k; reflexivity|tauto]. Qed.
Lemma poly_is_same_trans n k1 k2 k3 p q r : poly_agree n p -> poly_agree n q -> poly_agree n r ->
  poly_is_same (isinstance_of k1 k2) p q 0 = true -> poly_is_same (isinstance_of k2 k3) q r 0 = true ->
  poly_is_same (isinstance_of k1 k3) p r 0 = true.
Proof.
  intros Hp Hq Hr A B.
  assert (I1 : isinstance_of k1 k2 = true) by (destruct (isinstance_of k1 k2); auto).
  assert (I2 : isinstance_of k2 k3 = true) by (destruct (isinstance_of k2 k3); auto).
  pose proof (proj1 (poly_is_same_iff n k1 k2 p q Hp Hq I1) A) as A'. pose proof (proj1 (poly_is_same_iff n k2 k3 q r Hq Hr I2) B) as B'.
  apply (poly_is_same_iff n); auto; [destruct k1, k2, k3; auto|]. intros x Lx. rewrite A', B' by auto. reflexivity.
Qed.
Lemma poly_is_same_sym n k p q : poly_agree n p -> poly_agree n q ->
  poly_is_same (isinstance_of k k) p q 0 = poly_is_same (isinstance_of k k) q p 0.
Proof.
  intros Hp Hq. assert (I : isinstance_of k k = true) by (destruct k; auto).
  apply Bool.eq_iff_eq_true. rewrite !(poly_is_same_iff n) by auto. split; intros H x Lx; rewrite H by auto; reflexivity.
Qed.
Lemma box_agree h c r b : box_init h c r = Ok b -> orthogonal 3 (pose_rot 3 r) -> poly_agree 3 (b_poly b).
Proof.
  intros H HQ. pose proof H as H'. apply box_init_inv in H' as (L & NN & E1 & E2 & E3 & M & LC & EA & EB).
  assert (IB : is_box b) by (exists h, c, r; auto).
  assert (LA : length (p_A (b_poly b)) = 6%nat) by (change (length (b_A b) = 6%nat); rewrite EA, mat_mul_length; reflexivity).
  split.
  - split; [lia|]. split; [rewrite LA; lia|]. split; [|split].
    + rewrite LA. change (is_mat 6 3 (b_A b)). rewrite EA. apply (is_mat_mat_mul 6 3 _ _ 3).
      * split; [reflexivity|repeat constructor].
      * apply (is_mat_ncols 3 3); [apply is_mat_transpose; auto|]; lia.
    + symmetry. apply (box_face_len h c r b H).
    + unfold box_init in H. destruct (is_vecb 3 h); [|discriminate]. destruct (forallb (Rleb 0) h); [|discriminate]. cbn [bind assert_] in H.
      apply bind_inv in H as (rt & Hrt & H). apply bind_inv in H as (vs & Hvs & H). apply bind_inv in H as (Ab & HAb & H).
      apply bind_inv in H as (f & Hf & H). injection H as <-. cbn. exists vs. split; [reflexivity|].
      unfold box_vertices_at in Hvs. apply bind_inv in Hvs as (rt' & Hrt' & Hvs). injection Hvs as <-.
      apply clean_transform_inv in Hrt' as (_ & _ & M' & L').
      pose proof (box_vertices_len h) as BV. rewrite L in BV. rewrite (rows_move_eq 3) by (auto; lia). split.
      * intro E. apply map_eq_nil in E. destruct (len3_inv _ L) as (? & ? & ? & ->). cbn in E. discriminate.
      * apply (rows_len_map 3 3); auto. intros; apply (move_len 3); auto.
  - intros x Lx. change (p_vertices (b_poly b)) with (b_vertices b). rewrite box_hull_iff by auto.
    rewrite E1, E2, E3. apply (box_faces h c r); auto.
Qed.
(** a box and an equal general polyhedron *)
Lemma is_same_asym h c r b p : box_init h c r = Ok b -> orthogonal 3 (pose_rot 3 r) -> poly_agree 3 p ->
  (forall x, length x = 3%nat -> (in_hull 3 (p_vertices p) x <-> box_set h (pose_rot 3 r) (pose_tr 3 c) x)) ->
  poly_is_same (isinstance_of KPoly KBox) p (b_poly b) 0 = true /\
  poly_is_same (isinstance_of KBox KPoly) (b_poly b) p 0 = false.
Proof.
  intros H HQ Hp E. split; [|reflexivity]. apply (poly_is_same_iff 3); auto; [apply (box_agree h c r); auto|].
  intros x Lx. rewrite E by auto. change (p_vertices (b_poly b)) with (b_vertices b).
  rewrite box_hull_iff by (auto; exists h, c, r; auto).
  apply box_init_inv in H as (_ & _ & -> & -> & -> & _). reflexivity.
Qed.

(** ** C35 *)
Lemma stacked_set n p q x : poly_ok n p -> poly_ok n q ->
  (h_set (stacked p q) x <-> halfspaces (p_A p) (p_b p) x /\ halfspaces (p_A q) (p_b q) x).
Proof.
  intros (_ & _ & _ & L1 & _) (_ & _ & _ & L2 & _).
  change (stacked p q) with (ff_to_cdd {| ff_A := p_A p ++ p_A q; ff_b := p_b p ++ p_b q |}).
  rewrite ff_cdd_set by (cbn; rewrite !app_length; congruence). cbn. apply halfspaces_app; auto.
Qed.
Lemma stacked_contains n p q x : poly_ok n p -> poly_ok n q ->
  (h_set (stacked p q) x <-> poly_contains p x 0 = true /\ poly_contains q x 0 = true).
Proof.
  intros Hp Hq. rewrite (stacked_set n) by auto. destruct Hp as (_ & _ & _ & L1 & _), Hq as (_ & _ & _ & L2 & _).
  rewrite !poly_contains_halfspaces by auto. reflexivity.
Qed.
Lemma intersect_unfold dd p q : poly_intersect dd p q =
  let* s := sf_from_cdd (dd_gens dd (stacked p q)) in
  match s with None => Ok None | Some s => let* r := poly_init dd None (Some s) in Ok (Some r) end.
Proof. reflexivity. Qed.
Lemma v_ok_point n m : v_ok n m -> exists x, length x = n /\ v_set n m x.
Proof.
  intro H. destruct (sf_from_cdd_iff n m H) as (f & _ & (V & EV & NV & RV) & RW & K).
  destruct V as [|v V]; [congruence|]. exists v. split; [apply RV; now left|]. apply K. unfold span_set. rewrite EV.
  exists v, (zeros n). split; [apply hull_vertex; [exact RV|now left]|]. split.
  - exists (zeros (length (olist (sf_rays f)))). rewrite zeros_length. split; [auto|]. split.
    + intros x Hx. apply repeat_spec in Hx. lra.
    + apply (vec_ext n); [apply zeros_length|apply combine_rows_length|]. intros i Hi. rewrite nth_combine_rows, nth_zeros by auto.
      induction (olist (sf_rays f)) as [|w W IH]; cbn; [auto|]. change (fold_right Rplus 0) with lsum. unfold zeros in IH. rewrite <- IH; [ring|].
      intros u Hu. apply RW. now right.
  - rewrite vadd_zeros_r; [auto|]. apply RV. now left.
Qed.
Lemma intersect_none n dd p q : poly_ok n p -> poly_ok n q -> gens_correct n (dd_gens dd) (stacked p q) ->
  (poly_intersect dd p q = Ok None <->
   forall x, length x = n -> ~ (poly_contains p x 0 = true /\ poly_contains q x 0 = true)).
Proof.
  intros Hp Hq G. rewrite intersect_unfold. split.
  - intros H x Lx. rewrite <- (stacked_contains n) by auto. destruct G as [[E G]|[G1 G2]]; [apply G; auto|].
    destruct (sf_from_cdd_iff n _ G1) as (f & Ef & _). rewrite Ef in H. cbn [bind] in H.
    destruct (poly_init dd None (Some f)); discriminate.
  - intro H. destruct G as [[E G]|[G1 G2]].
    + rewrite sf_from_cdd_empty by auto. reflexivity.
    + exfalso. destruct (v_ok_point n _ G1) as (x & Lx & Hx). apply (H x Lx). apply (stacked_contains n); auto. apply G2; auto.
Qed.
Lemma intersect_some n dd p q r x : poly_ok n p -> poly_ok n q -> gens_correct n (dd_gens dd) (stacked p q) ->
  (forall s m, sf_from_cdd (dd_gens dd (stacked p q)) = Ok (Some s) -> sf_to_cdd s = Ok m -> ineqs_correct n (dd_ineqs dd) m) ->
  poly_intersect dd p q = Ok (Some r) -> length x = n ->
  poly_agree n r /\ (poly_contains r x 0 = true <-> poly_contains p x 0 = true /\ poly_contains q x 0 = true).
Proof.
  intros Hp Hq G HI H Lx. rewrite intersect_unfold in H. destruct G as [[E G]|[G1 G2]].
  { rewrite sf_from_cdd_empty in H by auto. discriminate. }
  destruct (sf_from_cdd_iff n _ G1) as (s & Es & (V & EV & NV & RV) & RW & K). rewrite Es in H. cbn [bind] in H.
  apply bind_inv in H as (r' & Hr & H). injection H as ->. unfold poly_init in Hr. apply bind_inv in Hr as (f & Hf & Hr). cbn [bind] in Hr.
  destruct (sf_bounded s) eqn:EB; [|discriminate]. injection Hr as <-. apply sf_bounded_iff in EB as [_ EW].
  assert (ES : s = {| sf_vertices := Some V; sf_rays := None |}) by (destruct s; cbn in *; congruence).
  unfold sf_to_face_form in Hf. apply bind_inv in Hf as (m & Hm & Hf). destruct (HI s m Es Hm) as [HO HC].
  destruct (sf_to_cdd_iff n s m Hm) as [VO VS]; [exists V; auto|rewrite EW; intros v []|].
  assert (SS : forall y, span_set n s y <-> in_hull n V y) by (intro y; rewrite ES; unfold span_set; cbn; apply hull_cone_nil; auto).
  assert (FS : forall y, length y = n -> (halfspaces (ff_A f) (ff_b f) y <-> in_hull n V y)).
  { intros y Ly. destruct (ff_from_cdd_iff n _ _ y HO Hf Ly) as (_ & _ & _ & I). rewrite I, HC, VS, SS by auto. reflexivity. }
  destruct (ff_from_cdd_iff n _ _ x HO Hf Lx) as (L & M & P & _).
  assert (AG : poly_agree n {| p_face := f; p_span := s |}).
  { split; [|intros y Ly; unfold p_A, p_b, p_vertices; cbn; rewrite EV; apply FS; auto].
    split; [apply Hp|]. split; [exact P|]. split; [exact M|]. split; [unfold p_b, p_A; cbn; congruence|]. exists V. cbn. auto. }
  split; [exact AG|]. rewrite (agree_contains n _ x AG Lx), <- (stacked_contains n) by auto.
  unfold p_vertices. cbn [p_span]. rewrite EV, <- SS, K, G2 by auto. reflexivity.
Qed.
(** hulls are bounded *)
Lemma hull_bounded n V : rows_len n V -> exists B, forall x i, in_hull n V x -> Rabs (nth i x 0) <= B.
Proof.
  intro RV. exists (lsum (map (fun v => lsum (map Rabs v)) V)). intros x i Hx.
  set (B := lsum _).
  assert (BV : forall v, In v V -> lsum (map Rabs v) <= B).
  { intros v Hv. unfold B. clear -Hv. induction V as [|u V IH]; [destruct Hv|]. cbn. change (fold_right Rplus 0) with lsum.
    assert (P0 : forall u : vec, 0 <= lsum (map Rabs u)) by (intro u0; apply lsum_nonneg; intros y Hy; apply in_map_iff in Hy as (z & <- & _); apply Rabs_pos).
    assert (P1 : 0 <= lsum (map (fun v => lsum (map Rabs v)) V)) by (apply lsum_nonneg; intros y Hy; apply in_map_iff in Hy as (z & <- & _); apply P0).
    destruct Hv as [->|Hv]; [lra|]. specialize (IH Hv). pose proof (P0 u). lra. }
  assert (EV : forall v, In v V -> Rabs (nth i v 0) <= lsum (map Rabs v)).
  { intros v _. revert i; induction v as [|a v IH]; intros [|i]; cbn; rewrite ?Rabs_R0; try lra.
    - change (fold_right Rplus 0) with lsum. assert (0 <= lsum (map Rabs v)) by (apply lsum_nonneg; intros y Hy; apply in_map_iff in Hy as (z & <- & _); apply Rabs_pos). lra.
    - change (fold_right Rplus 0) with lsum. specialize (IH i). pose proof (Rabs_pos a). lra. }
  apply (hull_in_convex n (fun y => Rabs (nth i y 0) <= B) V); auto.
  - intros p q t L Hp Hq Ht. rewrite nth_vadd, !nth_vscale by (rewrite !vscale_length; auto). apply abs_conv; auto.
  - intros v Hv. eapply Rle_trans; [apply EV; auto|apply BV; auto].
Qed.
Lemma hull_cone_bounded n V W B : rows_len n V -> V <> [] -> rows_len n W ->
  (forall x i, hull_cone n V W x -> Rabs (nth i x 0) <= B) -> forall w i, In w W -> nth i w 0 = 0.
Proof.
  intros RV NV RW H w i Hw. destruct V as [|v V]; [congruence|].
  assert (Lv : length v = n) by (apply RV; now left). assert (Lw : length w = n) by auto.
  assert (IN : forall t, 0 <= t -> hull_cone n (v :: V) W (vadd v (vscale t w))).
  { intros t Ht. exists v, (vscale t w). split; [apply hull_vertex; [exact RV|now left]|]. split; [|auto].
    clear -Ht Hw RW Lw. induction W as [|u W IH]; [destruct Hw|]. assert (Lu : length u = n) by (apply RW; now left).
    assert (RW' : rows_len n W) by (intros y Hy; apply RW; now right).
    apply cone_cons; auto. destruct Hw as [->|Hw].
    - exists t, (zeros n). split; [auto|]. split; [|rewrite vadd_zeros_r; auto; rewrite vscale_length; auto].
      clear -RW'. induction W as [|u W IH]; [apply cone_nil; auto|]. apply cone_cons; [apply RW'; now left|].
      exists 0, (zeros n). split; [lra|]. split; [apply IH; intros y Hy; apply RW'; now right|].
      rewrite vscale_0, (RW' u) by now left. rewrite vadd_zeros_r; auto. apply zeros_length.
    - exists 0, (vscale t w). split; [lra|]. split; [auto|]. rewrite vscale_0, Lu, vadd_zeros_l; auto. rewrite vscale_length; auto. }
  destruct (Req_EM_T (nth i w 0) 0) as [E|E]; auto. exfalso.
  assert (HB : forall t, 0 <= t -> Rabs (nth i v 0 + t * nth i w 0) <= B).
  { intros t Ht. specialize (H _ i (IN t Ht)). rewrite nth_vadd, nth_vscale in H by (rewrite vscale_length; congruence). exact H. }
  set (a := nth i v 0) in *. set (c := nth i w 0) in *. assert (PC : 0 < Rabs c) by (apply Rabs_pos_lt; auto).
  pose proof (HB 0 ltac:(lra)) as H0. rewrite Rmult_0_l, Rplus_0_r in H0.
  assert (B0 : 0 <= B) by (pose proof (Rabs_pos a); lra).
  set (t := (2 * B + 1) / Rabs c). assert (Ht : 0 <= t) by (apply Rlt_le, Rdiv_lt_0_compat; lra).
  specialize (HB t Ht). pose proof (Rabs_triang_inv (t * c) (- a)) as T. rewrite Rabs_Ropp in T.
  replace (t * c - - a) with (a + t * c) in T by ring. rewrite Rabs_mult, (Rabs_pos_eq t) in T by auto.
  assert (E2 : t * Rabs c = 2 * B + 1) by (unfold t; field; lra). lra.
Qed.
Lemma in_filter_body P (m : CDD) v : In v (map body (filter P (flagged m))) -> exists p, In p (flagged m) /\ P p = true /\ v = body p.
Proof. intro H. apply in_map_iff in H as (p & <- & Hp). apply filter_In in Hp as [H1 H2]. eauto. Qed.
(** the generators of a bounded set have no rays *)
Lemma gens_bounded n m B : v_ok n m -> proper_rays m -> (forall x i, v_set n m x -> Rabs (nth i x 0) <= B) ->
  exists V, sf_from_cdd m = Ok (Some {| sf_vertices := Some V; sf_rays := None |}) /\ V <> [] /\ rows_len n V /\
            forall x, v_set n m x <-> in_hull n V x.
Proof.
  intros VO PR HB. destruct (sf_from_cdd_iff n m VO) as (s & Es & (V & EV & NV & RV) & RW & K).
  exists V. assert (RN : sf_rays s = None).
  { assert (HZ : forall w i, In w (olist (sf_rays s)) -> nth i w 0 = 0).
    { apply (hull_cone_bounded n V _ B); auto. intros x i Hx. apply HB, K. unfold span_set. rewrite EV. exact Hx. }
    pose proof VO as (HR & HL & r1 & Hr1 & E1).
    rewrite sf_from_cdd_eq in Es.
    2:{ intro E. rewrite E in Hr1. destruct Hr1. }
    2:{ intros i Hi. destruct (HL i Hi) as [Li Ei]. unfold col. rewrite (nth_map_0 _ _ _ []) by auto. rewrite nth0_hd, Ei.
        destruct (isclose_01 0) as [_ B0]; [auto|]. rewrite B0. destruct (Req_EM_T 0 0); [reflexivity|lra]. }
    injection Es as <-. 
    assert (NB : forall p, In p (flagged m) -> hd 0 (fst p) = 0 -> exists i, nth i (body p) 0 <> 0).
    { intros p Hp Hh. apply PR; auto. rewrite <- (flagged_fst m). apply in_map; auto. }
    destruct (map body (filter snd (flagged m))) as [|s0 S0] eqn:ES.
    - destruct (map body (filter is0 (flagged m))) as [|r0 R0] eqn:E0; [reflexivity|].
      exfalso. assert (I0 : In r0 (map body (filter is0 (flagged m)))) by (rewrite E0; now left).
      apply in_filter_body in I0 as (p & Hp & Ip & ->). cbn in HZ.
      destruct (flagged_ok n m VO p Hp) as [_ [Hh|[Hh _]]].
      + destruct (NB p Hp Hh) as (i & Hi). apply Hi, HZ. now left.
      + unfold is0 in Ip. rewrite nth0_hd, Hh in Ip. destruct (isclose_01 1) as [_ B1]; [auto|]. rewrite B1 in Ip.
        destruct (Req_EM_T 1 0); [lra|discriminate].
    - exfalso. assert (I0 : In s0 (map body (filter snd (flagged m)))) by (rewrite ES; now left).
      apply in_filter_body in I0 as (p & Hp & Ip & ->).
      destruct (flagged_ok n m VO p Hp) as [_ [Hh|[_ Hh]]]; [|congruence].
      destruct (NB p Hp Hh) as (i & Hi). apply Hi, HZ. cbn [nonempty span_form sf_rays olist].
      destruct (nonempty (map body (filter is0 (flagged m)))); cbn [olist]; [apply in_or_app; right|]; apply in_or_app; left; now left. }
  split; [rewrite Es; do 2 f_equal; destruct s; cbn in *; congruence|]. split; [auto|]. split; [auto|].
  intro x. rewrite <- K. unfold span_set. rewrite EV, RN. cbn [olist]. apply hull_cone_nil; auto.
Qed.
Lemma intersect_ok n dd p q x : poly_agree n p -> poly_ok n q -> gens_correct n (dd_gens dd) (stacked p q) ->
  proper_rays (dd_gens dd (stacked p q)) ->
  (forall s m, sf_from_cdd (dd_gens dd (stacked p q)) = Ok (Some s) -> sf_to_cdd s = Ok m -> has_inequality (dd_ineqs dd m)) ->
  length x = n -> poly_contains p x 0 = true -> poly_contains q x 0 = true -> exists r, poly_intersect dd p q = Ok (Some r).
Proof.
  intros Hp Hq G PR HI Lx H1 H2. rewrite intersect_unfold.
  destruct G as [[E G]|[G1 G2]].
  { exfalso. apply (G x Lx). apply (stacked_contains n); auto. apply Hp. }
  destruct (poly_ok_vertices _ _ (proj1 Hp)) as (NV & RV & _). destruct (hull_bounded n _ RV) as (B & HB).
  destruct (gens_bounded n _ B G1 PR) as (V & Es & NV' & RV' & K).
  { intros y i Hy. apply HB. pose proof (agree_contains n p y Hp) as A.
    assert (Ly : length y = n) by (destruct Hy as (w & _ & _ & _ & ->); apply combine_rows_length).
    apply A; auto. apply G2 in Hy; auto. apply (stacked_contains n) in Hy; auto; [tauto|apply Hp]. }
  rewrite Es. cbn [bind]. unfold poly_init. cbn [sf_bounded sf_rays sf_vertices bind].
  unfold sf_to_face_form. rewrite sf_to_cdd_eq by (left; discriminate). cbn [bind].
  destruct (ff_from_cdd_ok (dd_ineqs dd {| cdd_rows := map (cons 1) (olist (sf_vertices {| sf_vertices := Some V; sf_rays := None |})) ++
      map (cons 0) (olist (sf_rays {| sf_vertices := Some V; sf_rays := None |})); cdd_lin := [] |})) as (f & Ef).
  { apply (HI _ _ Es). rewrite sf_to_cdd_eq by (left; discriminate). reflexivity. }
  rewrite Ef. cbn [bind]. eauto.
Qed.
(** when the library reports only equalities for the intersection *)
Lemma intersect_index_error n dd p q x s m : poly_ok n p -> poly_ok n q -> gens_correct n (dd_gens dd) (stacked p q) ->
  length x = n -> poly_contains p x 0 = true -> poly_contains q x 0 = true ->
  sf_from_cdd (dd_gens dd (stacked p q)) = Ok (Some s) -> sf_to_cdd s = Ok m -> ~ has_inequality (dd_ineqs dd m) ->
  poly_intersect dd p q = Raise IndexError.
Proof.
  intros Hp Hq G Lx H1 H2 Es Em HI. rewrite intersect_unfold, Es. cbn [bind]. unfold poly_init, sf_to_face_form. rewrite Em. cbn [bind].
  rewrite ff_from_cdd_all_eq; [reflexivity|]. intros i Hi. destruct (in_dec Nat.eq_dec i (cdd_lin (dd_ineqs dd m))); auto.
  exfalso. apply HI. exists i. auto.
Qed.
Lemma poly_init_unbounded dd f s : sf_bounded s = false -> poly_init dd (Some f) (Some s) = Raise ValueError.
Proof. intro H. unfold poly_init. cbn [bind]. rewrite H. reflexivity. Qed.
Lemma poly_init_bounded dd o s p : poly_init dd o (Some s) = Ok p -> sf_rays (p_span p) = None /\ exists V, sf_vertices (p_span p) = Some V.
Proof.
  intro H. unfold poly_init in H. apply bind_inv in H as (f & _ & H). cbn [bind] in H. destruct (sf_bounded s) eqn:E; [|discriminate].
  injection H as <-. apply sf_bounded_iff in E as [E1 E2]. auto.
Qed.

(** ** C65 *)
Lemma convex_hull_small canon ps : (length ps <= 1)%nat -> convex_hull canon ps = Ok (Some ps).
Proof. destruct ps as [|a [|b ps]]; cbn; auto. lia. Qed.
Lemma convex_hull_iff n canon ps : (2 <= length ps)%nat -> rows_len n ps ->
  vcanon_correct n canon {| cdd_rows := map (cons 1) ps; cdd_lin := [] |} ->
  exists hs, convex_hull canon ps = Ok (Some hs) /\ incl hs ps /\ forall x, in_hull n hs x <-> in_hull n ps x.
Proof.
  intros L2 RP (VO & IN & VS). set (m := {| cdd_rows := map (cons 1) ps; cdd_lin := [] |}) in *.
  assert (NP : ps <> []) by (destruct ps; cbn in L2; [lia|discriminate]).
  assert (SC : sf_to_cdd (span_form (Some ps) None None) = Ok m).
  { rewrite sf_to_cdd_eq by (left; discriminate). cbn. rewrite app_nil_r. reflexivity. }
  assert (EV : forall x, v_set n m x <-> in_hull n ps x).
  { destruct (sf_to_cdd_iff n (span_form (Some ps) None None) m SC) as [_ K].
    - eexists. split; [reflexivity|]. auto.
    - intros v [].
    - intro x. rewrite K. unfold span_set. cbn. apply hull_cone_nil; auto. }
  destruct (sf_from_cdd_iff n _ VO) as (s & Es & (V & E1 & NV & RV) & RW & K).
  assert (HD : forall r, In r (cdd_rows (canon m)) -> hd 0 r = 1).
  { intros r Hr. apply IN in Hr. unfold m in Hr. cbn in Hr. apply in_map_iff in Hr as (v & <- & _). reflexivity. }
  assert (EQ : convex_hull canon ps = Ok (sf_vertices s)).
  { destruct ps as [|a [|b ps']]; [congruence|cbn in L2; lia|]. unfold convex_hull, sf_canonical. rewrite SC. cbn [bind]. rewrite Es. reflexivity. }
  rewrite EQ, E1. exists V. split; [reflexivity|]. rewrite sf_from_cdd_eq in Es.
  2:{ destruct VO as (_ & _ & r & Hr & _). intro E. rewrite E in Hr. destruct Hr. }
  2:{ intros i Hi. destruct VO as (_ & HL & _). destruct (HL i Hi) as [Li Ei]. rewrite HD in Ei; [lra|]. apply nth_In; auto. }
  injection Es as <-.
  assert (F0 : filter is0 (flagged (canon m)) = []).
  { apply filter_none. intros p Hp. unfold is0. rewrite nth0_hd, HD by (rewrite <- (flagged_fst (canon m)); apply in_map; auto).
    destruct (isclose_01 1) as [_ B]; [auto|]. rewrite B. destruct (Req_EM_T 1 0); [lra|reflexivity]. }
  assert (F2 : filter snd (flagged (canon m)) = []).
  { apply filter_none. intros p Hp. destruct (flagged_ok n _ VO p Hp) as [_ [H|[_ H]]]; [|exact H].
    rewrite HD in H by (rewrite <- (flagged_fst (canon m)); apply in_map; auto). lra. }
  rewrite F0, F2 in *. cbn [map nonempty span_form sf_rays sf_vertices olist] in *. split.
  - intros v Hv. assert (HV : In v (map body (filter is1 (flagged (canon m))))).
    { destruct (map body (filter is1 (flagged (canon m)))); cbn in E1; [discriminate|]. injection E1 as <-. exact Hv. }
    apply in_filter_body in HV as (p & Hp & _ & ->).
    assert (In (fst p) (cdd_rows m)) by (apply IN; rewrite <- (flagged_fst (canon m)); apply in_map; auto).
    unfold m in H. cbn in H. apply in_map_iff in H as (u & E & Hu). unfold body. rewrite <- E. exact Hu.
  - intro x. assert (SP : span_set n {| sf_vertices := Some V; sf_rays := None |} x <-> in_hull n V x) by (unfold span_set; cbn; apply hull_cone_nil; auto).
    split; intro H.
    + rewrite <- EV, <- VS by (apply (in_hull_length _ _ _ H)). apply K. unfold span_set in *. cbn in *. rewrite E1. apply SP. exact H.
    + pose proof (in_hull_length _ _ _ H) as Lx. rewrite <- EV, <- VS in H by auto. apply K in H. unfold span_set in *. cbn in *. rewrite E1 in H. apply SP. exact H.
Qed.
