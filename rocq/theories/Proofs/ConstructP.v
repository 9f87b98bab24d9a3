(** C69, C70, C71: convenience constructors, InertialParameters.is_same, ConvexPolyhedron.mbe. *)
From Verif Require Import Base.Vec Base.VecFacts Spec.Basic Spec.Shapes Spec.Objects Spec.ShapeObjects Spec.DoubleDesc Spec.PolySpec Spec.ExtremalSpec
  Model.Util Model.Polydd Model.Poly Model.Inertial Model.Ellipsoid Model.Box Model.Cylinder Model.Extremal
  Proofs.Coord Proofs.Hull Proofs.BoxP Proofs.EllP Proofs.CylP Proofs.DDP Proofs.InertialP Proofs.PolyP Proofs.AabbP Proofs.TransformP Proofs.ExtremalP Proofs.ExtremalOpt.

(** ** boxes *)
Lemma cube_points a c r b p : box_cube a c r = Ok b -> orthogonal 3 (pose_rot 3 r) -> length p = 3%nat ->
  (box_contains b p 0 = true <-> exists x y z, Rabs x <= a /\ Rabs y <= a /\ Rabs z <= a /\ p = move (pose_rot 3 r) (pose_tr 3 c) [x; y; z]).
Proof.
  intros H HQ Lp. unfold box_cube in H. apply bind_inv in H as (u & _ & H). assert (B : is_box b) by (do 3 eexists; exact H).
  apply box_init_inv in H as (_ & _ & Eh & Ec & Er & _). rewrite box_contains_iff by (auto; now rewrite Er). rewrite Eh, Ec, Er.
  change (vscale a (ones 3)) with [a * 1; a * 1; a * 1]. rewrite Rmult_1_r. split.
  - intros (u' & [Lu Hu] & ->). destruct (len3_inv _ Lu) as (x & y & z & ->). exists x, y, z.
    split; [apply (Hu 0%nat); cbn; lia|]. split; [apply (Hu 1%nat); cbn; lia|]. split; [apply (Hu 2%nat); cbn; lia|reflexivity].
  - intros (x & y & z & Hx & Hy & Hz & ->). exists [x; y; z]. split; [|reflexivity]. split; [reflexivity|]. intros [|[|[|i]]] Hi; cbn in *; auto; lia.
Qed.
Lemma cube_total a c r : is_mat 3 3 (pose_rot 3 r) -> length (pose_tr 3 c) = 3%nat ->
  (0 <= a -> exists b, box_cube a c r = Ok b) /\ (a < 0 -> box_cube a c r = Raise AssertionError).
Proof.
  intros M L. unfold box_cube. split; intros H.
  - rewrite Rleb_true by auto. cbn [assert_ bind]. apply box_init_good; auto. intros [|[|[|i]]] Hi; cbn; lra || lia.
  - rewrite (proj2 (Rleb_false 0 a)) by auto. reflexivity.
Qed.
Lemma sides_points l c r b p : box_from_side_lengths l c r = Ok b -> orthogonal 3 (pose_rot 3 r) -> length p = 3%nat ->
  b_side_lengths b = l /\
  (box_contains b p 0 = true <-> exists u, length u = 3%nat /\ (forall i, (i < 3)%nat -> 2 * Rabs (nth i u 0) <= nth i l 0) /\ p = move (pose_rot 3 r) (pose_tr 3 c) u).
Proof.
  intros H HQ Lp. unfold box_from_side_lengths in H. assert (B : is_box b) by (do 3 eexists; exact H).
  apply box_init_inv in H as (Lh & _ & Eh & Ec & Er & _). rewrite vscale_length in Lh. split.
  - unfold b_side_lengths. rewrite Eh. apply (vec_ext 3); [len|auto|]. intros. rewrite !nth_vscale. field.
  - rewrite box_contains_iff by (auto; now rewrite Er). rewrite Eh, Ec, Er. split.
    + intros (u & [Lu Hu] & ->). rewrite vscale_length in *. exists u. split; [congruence|]. split; [|reflexivity]. intros i Hi. specialize (Hu i ltac:(lia)). rewrite nth_vscale in Hu. lra.
    + intros (u & Lu & Hu & ->). exists u. split; [|reflexivity]. split; [rewrite vscale_length; congruence|]. rewrite vscale_length. intros i Hi. rewrite nth_vscale. specialize (Hu i ltac:(lia)). lra.
Qed.
Lemma sides_total l c r : is_mat 3 3 (pose_rot 3 r) -> length (pose_tr 3 c) = 3%nat ->
  (length l = 3%nat -> (forall x, In x l -> 0 <= x) -> exists b, box_from_side_lengths l c r = Ok b) /\
  ((length l <> 3%nat \/ exists x, In x l /\ x < 0) -> box_from_side_lengths l c r = Raise AssertionError).
Proof.
  intros M L. unfold box_from_side_lengths. split.
  - intros Ll Hl. apply box_init_good; auto; [len|]. intros i Hi. rewrite nth_vscale. assert (0 <= nth i l 0) by (apply Hl, nth_In; lia). lra.
  - intros H. unfold box_init. destruct (is_vecb 3 (vscale (1 / 2) l)) eqn:E; [|reflexivity]. apply Nat.eqb_eq in E. rewrite vscale_length in E. cbn [assert_ bind].
    destruct H as [H|(x & I & H)]; [congruence|]. destruct (forallb (Rleb 0) (vscale (1 / 2) l)) eqn:F; [|reflexivity]. exfalso.
    rewrite forallb_forall in F. specialize (F (1 / 2 * x)). rewrite Rleb_iff in F. assert (0 <= 1 / 2 * x); [apply F; unfold vscale; now apply (in_map (fun a => 1 / 2 * a))|lra].
Qed.
Lemma as_poly_agree h c r b dd p : box_init h c r = Ok b -> orthogonal 3 (pose_rot 3 r) ->
  ineqs_correct 3 (dd_ineqs dd) {| cdd_rows := map (cons 1) (b_vertices b); cdd_lin := [] |} -> box_as_poly dd b = Ok p ->
  poly_agree 3 p /\ p_vertices p = b_vertices b /\ forall x, length x = 3%nat -> poly_contains p x 0 = box_contains b x 0.
Proof.
  intros Hb HQ HI H. assert (B : is_box b) by (do 3 eexists; exact Hb). pose proof (box_init_inv _ _ _ _ Hb) as (Lh & _ & _ & _ & Er & M & Lc & _ & _ & EV & _).
  assert (RV : rows_len 3 (b_vertices b)). { rewrite EV. intros v I. apply in_map_iff in I as (u & <- & I). apply (move_len 3); auto. }
  assert (NV : b_vertices b <> []). { rewrite EV. destruct (len3_inv _ Lh) as (x & y & z & ->). discriminate. }
  destruct (from_vertices_agree 3 dd (b_vertices b) p) as [AG E]; auto. split; [auto|]. split; [auto|]. intros x Lx.
  pose proof (agree_contains 3 p x AG Lx) as K. rewrite E, box_hull_iff, <- box_contains_iff in K by (auto; now rewrite Er).
  destruct (poly_contains p x 0); destruct (box_contains b x 0); intuition congruence.
Qed.

(** ** simplex *)
Lemma lsum_map2_rsum (f : R -> vec -> R) n w V : length w = n -> length V = n -> lsum (map2 f w V) = rsum n (fun i => f (nth i w 0) (nth i V [])).
Proof.
  revert w V. induction n; intros [|a w] [|v V] H1 H2; try discriminate; [reflexivity|]. cbn [map2]. rewrite rsum_S_l. cbn [nth].
  change (lsum (f a v :: map2 f w V)) with (f a v + lsum (map2 f w V)). rewrite IHn by (cbn in *; congruence). reflexivity.
Qed.
Lemma simplex_hull e x : (forall a, In a e -> 0 < a) -> length x = length e ->
  (in_hull (length e) (zeros (length e) :: diag e) x <-> (forall i, (i < length e)%nat -> 0 <= nth i x 0) /\ rsum (length e) (fun i => nth i x 0 / nth i e 0) <= 1).
Proof.
  intros HE Lx. set (n := length e) in *. assert (PE : forall i, (i < n)%nat -> 0 < nth i e 0) by (intros; apply HE, nth_In; auto).
  assert (CO : forall w0 w j, length w = n -> (j < n)%nat -> nth j (combine_rows n (w0 :: w) (zeros n :: diag e)) 0 = nth j w 0 * nth j e 0).
  { intros w0 w j Lw Hj. rewrite nth_combine_rows by auto. cbn [map2]. match goal with |- lsum (?a :: ?l) = _ => change (lsum (a :: l)) with (a + lsum l) end.
    rewrite nth_zeros, (lsum_map2_rsum _ n) by (auto; apply diag_length). rewrite (rsum_ext n _ (fun i => if Nat.eqb i j then nth i w 0 * nth i e 0 else 0)).
    - rewrite rsum_delta by auto. ring.
    - intros i Hi. fold (entry (diag e) i j). rewrite entry_diag by auto. destruct (Nat.eqb_spec i j); ring. }
  split.
  - intros (w & Lw & [Hw Sw] & ->). destruct w as [|w0 w]; [discriminate|]. cbn in Lw. rewrite diag_length in Lw. apply eq_add_S in Lw. fold n in Lw.
    assert (H0 : 0 <= w0) by (apply Hw; now left). assert (HW : forall i, (i < n)%nat -> 0 <= nth i w 0) by (intros; apply Hw; right; apply nth_In; lia).
    split.
    + intros i Hi. rewrite CO by auto. apply Rmult_le_pos; auto. left. auto.
    + change (lsum (w0 :: w)) with (w0 + lsum w) in Sw. rewrite lsum_rsum, Lw in Sw. rewrite (rsum_ext n _ (fun i => nth i w 0)); [lra|]. intros i Hi. rewrite CO by auto. field. specialize (PE i Hi). lra.
  - intros [HX HS]. set (w := map (fun i => nth i x 0 / nth i e 0) (seq 0 n)). assert (Lw : length w = n) by (unfold w; now rewrite map_length, seq_length).
    assert (NW : forall i, (i < n)%nat -> nth i w 0 = nth i x 0 / nth i e 0) by (intros; unfold w; now rewrite nth_map_seq).
    exists ((1 - lsum w) :: w). assert (SW : lsum w = rsum n (fun i => nth i x 0 / nth i e 0)) by (rewrite lsum_rsum, Lw; apply rsum_ext; auto).
    split; [cbn; now rewrite diag_length, Lw|]. split.
    + split; [|change (lsum ((1 - lsum w) :: w)) with (1 - lsum w + lsum w); ring]. intros a [<-|I]; [lra|]. apply (In_nth _ _ 0) in I as (i & Hi & <-). rewrite Lw in Hi. rewrite NW by auto.
      apply Rmult_le_pos; auto. left. apply Rinv_0_lt_compat. auto.
    + apply (vec_ext n); [auto|apply combine_rows_length|]. intros i Hi. rewrite CO, NW by auto. field. specialize (PE i Hi). lra.
Qed.
Lemma simplex_points dd e p x : (0 < length e)%nat -> ineqs_correct (length e) (dd_ineqs dd) {| cdd_rows := map (cons 1) (zeros (length e) :: diag e); cdd_lin := [] |} ->
  poly_simplex dd e = Ok p -> length x = length e ->
  poly_agree (length e) p /\ (poly_contains p x 0 = true <-> (forall i, (i < length e)%nat -> 0 <= nth i x 0) /\ rsum (length e) (fun i => nth i x 0 / nth i e 0) <= 1).
Proof.
  intros Hn HI H Lx. unfold poly_simplex in H. apply bind_inv in H as (u & A & H). apply assert_inv in A. rewrite forallb_forall in A.
  assert (HE : forall a, In a e -> 0 < a) by (intros a I; apply Rltb_iff; auto).
  assert (RV : rows_len (length e) (zeros (length e) :: diag e)) by (intros v [<-|I]; [apply zeros_length|eapply is_mat_in; [apply is_mat_diag|exact I]]).
  assert (NV : zeros (length e) :: diag e <> []) by discriminate.
  destruct (from_vertices_agree (length e) dd _ p Hn NV RV HI H) as [AG EV].
  split; [auto|]. rewrite (agree_contains (length e)) by auto. rewrite EV. apply simplex_hull; auto.
Qed.
Lemma simplex_bad dd e : (exists a, In a e /\ a <= 0) -> poly_simplex dd e = Raise AssertionError.
Proof.
  intros (a & I & H). unfold poly_simplex. destruct (forallb (Rltb 0) e) eqn:F; [|reflexivity]. rewrite forallb_forall in F. specialize (F a I). rewrite Rltb_iff in F. lra.
Qed.

(** ** halfspaces *)
Lemma init_face_agree n dd f p : (0 < n)%nat -> (0 < length (ff_A f))%nat -> is_mat (length (ff_A f)) n (ff_A f) -> length (ff_b f) = length (ff_A f) ->
  gens_correct n (dd_gens dd) (ff_to_cdd f) -> poly_init dd (Some f) None = Ok p -> poly_agree n p /\ p_A p = ff_A f /\ p_b p = ff_b f.
Proof.
  intros Hn Lf Mf Lb G H. unfold poly_init in H. cbn [bind] in H. apply bind_inv in H as (s & Hs & H). apply bind_inv in Hs as (o & Ho & Hs).
  unfold ff_to_span_form in Ho. destruct G as [[E G]|[G1 G2]]; [rewrite sf_from_cdd_empty in Ho by auto; injection Ho as <-; discriminate|].
  destruct (sf_from_cdd_iff n _ G1) as (s' & Es & (V & EV & NV & RV) & RW & K). rewrite Es in Ho. injection Ho as <-. injection Hs as <-.
  destruct (sf_bounded s') eqn:EB; [|discriminate]. injection H as <-. apply sf_bounded_iff in EB as [_ EW].
  assert (ES : s' = {| sf_vertices := Some V; sf_rays := None |}) by (destruct s'; cbn in *; congruence).
  split; [|auto]. split.
  - split; [auto|]. split; [auto|]. split; [auto|]. split; [auto|]. exists V. auto.
  - intros x Lx. unfold p_A, p_b, p_vertices. cbn [p_face p_span]. rewrite EV. rewrite <- (hull_cone_nil n) by auto.
    rewrite <- (ff_cdd_set f x) by auto. rewrite <- G2, <- K by auto. unfold span_set. rewrite EV, EW. reflexivity.
Qed.
Lemma halfspaces_points n dd A b prune p x : (0 < n)%nat -> (0 < length A)%nat -> is_mat (length A) n A -> length b = length A ->
  (prune = true -> hcanon_correct n (dd_canon dd) {| cdd_rows := map2 (fun b a => b :: vneg a) b A; cdd_lin := [] |}) ->
  poly_from_halfspaces dd A b prune = Ok p -> gens_correct n (dd_gens dd) {| cdd_rows := map2 (fun b a => b :: vneg a) (p_b p) (p_A p); cdd_lin := [] |} ->
  length x = n -> poly_agree n p /\ (poly_contains p x 0 = true <-> halfspaces A b x).
Proof.
  intros Hn LA MA Lb HC H G Lx. unfold poly_from_halfspaces in H. cbn [face_form bind] in H. set (f := {| ff_A := A; ff_b := b |}) in *.
  assert (HP : exists g, poly_init dd (Some g) None = Ok p /\ (0 < length (ff_A g))%nat /\ is_mat (length (ff_A g)) n (ff_A g) /\ length (ff_b g) = length (ff_A g) /\ (halfspaces (ff_A g) (ff_b g) x <-> halfspaces A b x)).
  { destruct prune.
    - apply bind_inv in H as (g & Hg & H). exists g. split; [auto|]. destruct (HC eq_refl) as [HO HS]. unfold ff_canonical in Hg.
      destruct (ff_from_cdd_iff n _ _ x HO Hg Lx) as (L & M & P & I). split; [auto|]. split; [auto|]. split; [auto|]. rewrite I, HS by auto. apply (ff_cdd_set f). auto.
    - exists f. do 4 (split; [solve [auto]|]). reflexivity. }
  destruct HP as (g & Hg & Lg & Mg & Lbg & I).
  assert (EF : p_face p = g). { unfold poly_init in Hg. cbn [bind] in Hg. apply bind_inv in Hg as (s & _ & Hg). destruct (sf_bounded s); [|discriminate]. now injection Hg as <-. }
  unfold p_A, p_b in G. rewrite EF in G. destruct (init_face_agree n dd g p) as (AG & E1 & E2); auto. split; [auto|].
  rewrite poly_contains_halfspaces by (rewrite E1, E2; auto). rewrite E1, E2. exact I.
Qed.
Lemma halfspaces_total n dd A b B : (0 < n)%nat -> is_mat (length A) n A -> length b = length A ->
  let m := {| cdd_rows := map2 (fun b a => b :: vneg a) b A; cdd_lin := [] |} in
  gens_correct n (dd_gens dd) m -> proper_rays (dd_gens dd m) ->
  (forall x i, length x = n -> halfspaces A b x -> Rabs (nth i x 0) <= B) -> (exists x, length x = n /\ halfspaces A b x) ->
  exists p, poly_from_halfspaces dd A b false = Ok p.
Proof.
  intros Hn MA Lb m G PR HB (x & Lx & Hx). unfold poly_from_halfspaces, poly_init, ff_to_span_form. cbn [face_form bind]. set (f := {| ff_A := A; ff_b := b |}).
  assert (HS : forall y, h_set m y <-> halfspaces A b y) by (intros y; apply (ff_cdd_set f); auto).
  destruct G as [[E G]|[G1 G2]]; [exfalso; apply (G x Lx); now apply HS|].
  change (ff_to_cdd f) with m. destruct (gens_bounded n _ B G1 PR) as (V & -> & _).
  - intros y i Hy. assert (Ly : length y = n) by (destruct Hy as (w & _ & _ & _ & ->); apply combine_rows_length). apply HB; auto. apply HS, G2; auto.
  - cbn. eauto.
Qed.
Lemma halfspaces_empty n dd A b : length b = length A -> gens_correct n (dd_gens dd) {| cdd_rows := map2 (fun b a => b :: vneg a) b A; cdd_lin := [] |} ->
  (forall x, length x = n -> ~ halfspaces A b x) -> poly_from_halfspaces dd A b false = Raise AttributeError.
Proof.
  intros Lb G HE. unfold poly_from_halfspaces, poly_init, ff_to_span_form. cbn [face_form bind]. set (f := {| ff_A := A; ff_b := b |}). change {| cdd_rows := _; cdd_lin := [] |} with (ff_to_cdd f) in G.
  destruct G as [[E G]|[G1 G2]]; [rewrite sf_from_cdd_empty by auto; reflexivity|]. exfalso. destruct (v_ok_point n _ G1) as (x & Lx & Hx).
  apply (HE x Lx). apply (ff_cdd_set f); auto. apply G2; auto.
Qed.
(** a set containing a half-line *)
Lemma halfspaces_unbounded n dd A b y d : length b = length A -> gens_correct n (dd_gens dd) {| cdd_rows := map2 (fun b a => b :: vneg a) b A; cdd_lin := [] |} ->
  length y = n -> length d = n -> d <> zeros n -> (forall t, 0 <= t -> halfspaces A b (vadd y (vscale t d))) -> poly_from_halfspaces dd A b false = Raise ValueError.
Proof.
  intros Lb G Ly Ld Nd HT. unfold poly_from_halfspaces, poly_init, ff_to_span_form. cbn [face_form bind]. set (f := {| ff_A := A; ff_b := b |}). change {| cdd_rows := _; cdd_lin := [] |} with (ff_to_cdd f) in G.
  assert (HS : forall z, h_set (ff_to_cdd f) z <-> halfspaces A b z) by (intros z; apply (ff_cdd_set f); auto).
  assert (L : forall t, length (vadd y (vscale t d)) = n) by (intros; len).
  destruct G as [[E G]|[G1 G2]]; [exfalso; apply (G _ (L 0)), HS, HT; lra|].
  destruct (sf_from_cdd_iff n _ G1) as (s & -> & (V & EV & NV & RV) & RW & K). cbn [bind].
  destruct (sf_bounded s) eqn:EB; [exfalso|reflexivity]. apply sf_bounded_iff in EB as [_ EW].
  destruct (hull_bounded n V RV) as (B & HB).
  assert (HH : forall t, 0 <= t -> in_hull n V (vadd y (vscale t d))).
  { intros t Ht. apply hull_cone_nil; auto. specialize (HT t Ht). apply HS, G2, K in HT; auto. unfold span_set in HT. rewrite EV, EW in HT. exact HT. }
  assert (exists i, (i < n)%nat /\ nth i d 0 <> 0) as (i & Hi & Ni).
  { destruct (Exists_dec (fun i => nth i d 0 <> 0) (seq 0 n)) as [X|X]; [intro i; destruct (Req_EM_T (nth i d 0) 0); [right; lra|left; auto]| |].
    - apply Exists_exists in X as (i & I & N). apply in_seq in I. exists i. split; [lia|auto].
    - exfalso. apply Nd. apply (vec_ext n); [auto|apply zeros_length|]. intros i Hi. rewrite nth_zeros. destruct (Req_EM_T (nth i d 0) 0) as [Z|Z]; [auto|]. exfalso. apply X. apply Exists_exists. exists i. split; [apply in_seq; lia|auto]. }
  assert (BN : 0 <= B) by (eapply Rle_trans; [apply Rabs_pos|apply (HB _ i (HH 0 ltac:(lra)))]).
  set (a := Rabs (nth i d 0)). assert (Pa : 0 < a) by now apply Rabs_pos_lt.
  pose proof (HB _ i (HH 0 ltac:(lra))) as H0. pose proof (HB _ i (HH ((2 * B + 1) / a) ltac:(apply Rlt_le, Rdiv_lt_0_compat; lra))) as H1.
  rewrite nth_vadd, nth_vscale in H0, H1 by len. apply abs_le_inv in H0. apply abs_le_inv in H1.
  assert (Q : (2 * B + 1) / a * nth i d 0 = 2 * B + 1 \/ (2 * B + 1) / a * nth i d 0 = - (2 * B + 1)).
  { assert (C : nth i d 0 = a \/ nth i d 0 = - a) by (unfold a, Rabs; destruct (Rcase_abs (nth i d 0)); lra). destruct C as [-> | ->]; [left|right]; field; lra. }
  destruct Q as [Q|Q]; rewrite Q in H1; lra.
Qed.

(** ** rotation about the centre *)
Lemma ell_rotate_center h r c e M e' p tol : ell_init h r c = Ok e -> ell_rotate_about_center e M = Ok e' -> h <> [] -> orthogonal (length h) M ->
  length p = length h -> let c0 := pose_tr (length h) c in
  ell_contains e' (vadd (mat_vec M (vsub p c0)) c0) tol = ell_contains e p tol.
Proof.
  intros He He' Nh HM Lp c0. pose proof (ell_init_inv _ _ _ _ He) as (PH & E1 & E2 & E3 & MR & LC).
  set (n := length h) in *. rewrite E2 in MR. rewrite E3 in LC. fold c0 in E3, LC. assert (MM : is_mat n n M) by apply HM. assert (LM : length M = n) by apply MM. assert (Lv : forall x, length (mat_vec M x) = n) by (intros; now rewrite mat_vec_length).
  assert (T : ell_transform e (Some M) (Some (vsub c0 (mat_vec M c0))) = Ok e').
  { unfold ell_transform, e_dim. rewrite E1. fold n. rewrite (clean_transform_good (Some M) (Some (vsub c0 (mat_vec M c0))) n); [|exact MM|cbn; rewrite vsub_length; rewrite ?Lv; congruence]. cbn [bind fst snd pose_rot pose_tr]. unfold ell_rotate_about_center in He'. rewrite E3 in *. rewrite E1 in *.
    replace (vadd (mat_vec M c0) (vsub c0 (mat_vec M c0))) with c0; [exact He'|]. apply (vec_ext n); [auto|len|]. intros i Hi. rewrite nth_vadd, nth_vsub by len. ring. }
  rewrite <- (ell_transform_contains h r c e (Some M) (Some (vsub c0 (mat_vec M c0))) e' p tol He T Nh HM Lp). f_equal. cbn [pose_rot pose_tr]. unfold move. fold n.
  apply (vec_ext n); [len|len|]. intros i Hi. rewrite mat_vec_vsub by congruence. rewrite !nth_vadd, !nth_vsub by len. ring.
Qed.

(** ** InertialParameters.is_same *)
Lemma forallb_concat (L : list (list bool)) : forallb (fun b => b) (concat L) = forallb (forallb (fun b => b)) L.
Proof. induction L as [|l L IH]; [reflexivity|]. cbn. now rewrite forallb_app, IH. Qed.
Lemma forallb_map2_nth {A B C} (g : C -> bool) (f : A -> B -> C) d d' l l' : length l = length l' ->
  (forallb g (map2 f l l') = true <-> forall i, (i < length l)%nat -> g (f (nth i l d) (nth i l' d')) = true).
Proof.
  revert l'. induction l as [|a l IH]; intros [|b l'] H; try discriminate; cbn; [split; [intros _ i Hi; lia|auto]|]. rewrite andb_true_iff, IH by (cbn in H; congruence). split.
  - intros [H1 H2] [|i] Hi; auto. apply H2. lia.
  - intros K. split; [apply (K 0%nat); lia|]. intros i Hi. apply (K (S i)). lia.
Qed.
Lemma allclose_entries n m rtol atol A B : is_mat n m A -> is_mat n m B ->
  (allclose_mat rtol atol A B = true <-> forall i j, (i < n)%nat -> (j < m)%nat -> Rabs (entry A i j - entry B i j) <= atol + rtol * Rabs (entry B i j)).
Proof.
  intros MA MB. unfold allclose_mat. rewrite forallb_concat. assert (LA : length A = n) by apply MA. assert (LB : length B = n) by apply MB.
  rewrite (forallb_map2_nth _ _ [] []) by congruence. rewrite LA. split.
  - intros H i j Hi Hj. specialize (H i Hi). assert (L1 : length (nth i A []) = m) by (eapply is_mat_in; [exact MA|apply nth_In; lia]). assert (L2 : length (nth i B []) = m) by (eapply is_mat_in; [exact MB|apply nth_In; lia]).
    rewrite (forallb_map2_nth _ _ 0 0) in H by congruence. apply isclose_iff, H. lia.
  - intros H i Hi. assert (L1 : length (nth i A []) = m) by (eapply is_mat_in; [exact MA|apply nth_In; lia]). assert (L2 : length (nth i B []) = m) by (eapply is_mat_in; [exact MB|apply nth_In; lia]).
    apply (forallb_map2_nth _ _ 0 0); [congruence|]. intros j Hj. apply isclose_iff. apply (H i j); lia.
Qed.
Lemma ip_same_iff p q : ip_ok p -> ip_ok q ->
  (ip_is_same p q = true <-> forall i j, (i < 4)%nat -> (j < 4)%nat -> Rabs (entry (ip_J p) i j - entry (ip_J q) i j) <= / 100000000 + / 100000 * Rabs (entry (ip_J q) i j)).
Proof. intros Hp Hq. apply (allclose_entries 4 4); apply ip_J_ok; auto. Qed.
Lemma ip_same_refl p : ip_is_same p p = true.
Proof. apply allclose_mat_refl; unfold np_rtol, np_atol; lra. Qed.
Lemma ip_same_tiny p q : ip_ok p -> ip_ok q -> (forall i j, (i < 4)%nat -> (j < 4)%nat -> Rabs (entry (ip_J p) i j) <= / 200000000 /\ Rabs (entry (ip_J q) i j) <= / 200000000) ->
  ip_is_same p q = true.
Proof.
  intros Hp Hq H. apply ip_same_iff; auto. intros i j Hi Hj. destruct (H i j Hi Hj) as [H1 H2]. pose proof (Rabs_pos (entry (ip_J q) i j)). apply abs_le_inv in H1. apply abs_le_inv in H2.
  apply Rle_trans with (/ 100000000); [apply Rabs_le; lra|lra].
Qed.
Lemma ip_same_asymmetric : exists p q, ip_init 1 (Some (zeros 3)) None (Some (eye 3)) None false = Ok p /\
  ip_init (1 - (/ 100000000 + / 100000)) (Some (zeros 3)) None (Some (eye 3)) None false = Ok q /\ ip_is_same q p = true /\ ip_is_same p q = false.
Proof.
  pose (a := 1 - (/ 100000000 + / 100000)). fold a. assert (Pa : 0 < a) by (unfold a; lra).
  rewrite ip_init_hH by (auto; lra). rewrite ip_init_hH by (auto; lra).
  eexists _, _. split; [reflexivity|]. split; [reflexivity|]. set (p := {| ip_mass := 1; ip_com := _; ip_H := _ |}). set (q := {| ip_mass := a; ip_com := _; ip_H := _ |}).
  assert (Op : ip_ok p) by (split; [reflexivity|repeat constructor]). assert (Oq : ip_ok q) by (split; [reflexivity|repeat constructor]). split.
  - apply ip_same_iff; auto. intros i j Hi Hj.
    assert (E : entry (ip_J q) i j = entry (ip_J p) i j \/ entry (ip_J q) i j = a /\ entry (ip_J p) i j = 1).
    { do 4 (destruct i as [|i]; [do 4 (destruct j as [|j]; [cbn; try (left; reflexivity); try (left; field; lra); try (right; split; reflexivity)|]); lia|]). lia. }
    destruct E as [E|[E1 E2]]; [rewrite E|rewrite E1, E2].
    + replace (_ - _) with 0 by ring. rewrite Rabs_R0. pose proof (Rabs_pos (entry (ip_J p) i j)). lra.
    + rewrite Rabs_R1. apply Rabs_le. unfold a. lra.
  - destruct (ip_is_same p q) eqn:E; [|reflexivity]. exfalso. rewrite ip_same_iff in E by auto. specialize (E 3%nat 3%nat ltac:(lia) ltac:(lia)). cbn in E.
    rewrite (Rabs_right a) in E by lra. rewrite Rabs_right in E by (unfold a; lra). unfold a in E. lra.
Qed.

(** ** ConvexPolyhedron.mbe *)
Lemma ell_set_convex_n n h Q c : length h = n -> is_mat n n Q -> length c = n -> convex (ell_set h Q c).
Proof.
  intros Lh HQ Lc p q t _ (u & Lu & Hu & ->) (v & Lv & Hv & ->) Ht. rewrite Lh in *. exists (vadd (vscale (1 - t) u) (vscale t v)).
  assert (LQ : length Q = n) by apply HQ. rewrite Lh. split; [len|split].
  - apply Rle_trans with (1 * 1); [|lra]. apply norm_le_iff; [lra|]. eapply Rle_trans; [apply norm_triangle; len|]. rewrite !norm_vscale. rewrite (Rabs_right (1 - t)), (Rabs_right t) by lra.
    assert (norm u <= 1) by (apply norm_le_iff; lra). assert (norm v <= 1) by (apply norm_le_iff; lra). nra.
  - unfold move. replace (vmul h (vadd (vscale (1 - t) u) (vscale t v))) with (vadd (vscale (1 - t) (vmul h u)) (vscale t (vmul h v))).
    + rewrite mat_vec_vadd by len. rewrite !mat_vec_vscale. apply (vec_ext n); [len|len|]. intros i Hi. rewrite !nth_vadd, !nth_vscale, !nth_vadd by len. ring.
    + apply (vec_ext n); [len|len|]. intros i Hi. rewrite nth_vmul by len. rewrite !nth_vadd, !nth_vscale, !nth_vmul by len. ring.
Qed.
Lemma poly_mbe_contains d k p orth null_space eigh lstsq solver r A b w V :
  poly_agree d p -> (0 < k <= d)%nat -> hd_error (p_vertices p) = Some r ->
  let D := map (fun p => vsub p r) (p_vertices p) in let R := orth (transpose D) in
  orth_spec d k D R ->
  solver (mbe_points_constraints k (mat_mul D R) false) = (A, b) -> mbe_points_constraints k (mat_mul D R) false A b -> pos_def k A ->
  eigh A = (w, V) -> eigh_spec k A (w, V) -> lstsq_spec A (vneg b) (lstsq A (vneg b)) ->
  null_spec d k (transpose (mat_mul R V)) (null_space (transpose (mat_mul R V))) ->
  exists e, poly_mbe orth null_space eigh lstsq solver p = Ok e /\ e_dim e = d /\ orthogonal d (e_rot e) /\ e_half e = map Rinv w ++ zeros (d - k) /\
    forall x, length x = d -> poly_contains p x 0 = true -> ell_set (e_half e) (e_rot e) (e_center e) x.
Proof.
  intros HP Hk Hr D R HO HS HC HPD HE HES HL HN. pose proof HP as [(Hd & _ & _ & _ & W & EW & NW & RW) _]. assert (EV : p_vertices p = W) by (unfold p_vertices; now rewrite EW).
  destruct (mbe_of_points_contains d k (p_vertices p) orth null_space eigh lstsq solver r A b w V) as (e & E1 & E2 & E3 & E4 & E5); auto.
  { rewrite EV. exact RW. }
  exists e. repeat (split; [assumption|]). intros x Lx Hx. apply (agree_contains d) in Hx; auto. apply (hull_in_convex d _ (p_vertices p)); auto; [|rewrite EV; exact RW].
  unfold e_dim in E2. assert (LC : length (e_center e) = d).
  { clear - E1 E2. unfold mbe_of_points in E1. destruct (p_vertices p) as [|x l]; [discriminate|]. cbv zeta in E1. destruct (solver _) as [A0 b0]. destruct (eigh A0) as [w0 V0].
    pose proof (ell_init_inv _ _ _ _ E1) as (_ & EH & _ & _ & _ & LC). rewrite LC, <- EH. exact E2. }
  apply (ell_set_convex_n d); auto. apply E3.
Qed.
Lemma poly_mbe_minimal n p orth null_space eigh lstsq solver log_det r A b w V :
  poly_agree n p -> hd_error (p_vertices p) = Some r ->
  let D := map (fun p => vsub p r) (p_vertices p) in let R := orth (transpose D) in
  orthogonal n R ->
  solver (mbe_points_constraints n (mat_mul D R) false) = (A, b) -> mbe_points_constraints n (mat_mul D R) false A b -> pos_def n A ->
  log_det_spec n log_det -> (forall A' b', mbe_points_constraints n (mat_mul D R) false A' b' -> pos_def n A' -> log_det A' <= log_det A) ->
  eigh A = (w, V) -> eigh_spec n A (w, V) -> lstsq_spec A (vneg b) (lstsq A (vneg b)) ->
  null_spec n n (transpose (mat_mul R V)) (null_space (transpose (mat_mul R V))) ->
  exists e, poly_mbe orth null_space eigh lstsq solver p = Ok e /\
    forall h Q c e', ell_init h (Some Q) (Some c) = Ok e' -> length h = n -> orthogonal n Q -> (forall i, (i < n)%nat -> 0 < nth i h 0) ->
      (forall x, length x = n -> poly_contains p x 0 = true -> ell_set h Q c x) -> e_volume e <= e_volume e'.
Proof.
  intros HP Hr D R HO HS HC HPD HLD HM HE HES HL HN. pose proof HP as [(Hd & _ & _ & _ & W & EW & NW & RW) _]. assert (EV : p_vertices p = W) by (unfold p_vertices; now rewrite EW).
  destruct (mbe_of_points_minimal n (p_vertices p) orth null_space eigh lstsq solver log_det r A b w V) as (e & E1 & _ & _ & _ & E5); auto.
  { rewrite EV. exact RW. }
  exists e. split; [exact E1|]. intros h Q c e' He Lh HQ Ph K. apply (E5 h Q c e'); auto. intros q Hq. assert (Lq : length q = n) by (apply RW; rewrite <- EV; exact Hq).
  apply K; auto. apply (agree_contains n); auto. apply hull_vertex; auto. rewrite EV. exact RW.
Qed.
