(** Every shape is a compact set, so two shapes always have a closest pair of points. *)
From Verif Require Import Base.Vec Base.VecFacts Proofs.Coord Proofs.Hull Model.Util Model.Polydd Model.Poly Model.Ellipsoid Model.Box Model.Cylinder Model.RigidBody Model.Closest
  Spec.Basic Spec.Shapes Spec.ShapeObjects Spec.DoubleDesc Spec.PolySpec Spec.Bodies Spec.ClosestSpec Proofs.BoxP Proofs.PolyP Proofs.MustContain Proofs.CylP Proofs.EllP
  Proofs.CylCustom Proofs.RigidP Proofs.ClosestP Proofs.Compact.

Lemma bound_list (l : vec) : exists B, 0 <= B /\ forall i, Rabs (nth i l 0) <= B.
Proof.
  induction l as [|a l (B & H0 & HB)]; [exists 0; split; [lra|]; intros [|i]; cbn; rewrite Rabs_R0; lra|].
  exists (Rmax (Rabs a) B). pose proof (Rmax_l (Rabs a) B). pose proof (Rmax_r (Rabs a) B). split; [lra|].
  intros [|i]; cbn; [auto|]. specialize (HB i). lra.
Qed.
Lemma bound_rows (V : mat) : exists B, 0 <= B /\ forall v i, In v V -> Rabs (nth i v 0) <= B.
Proof.
  induction V as [|a l (B & H0 & HB)]; [exists 0; split; [lra|]; intros v i []|]. destruct (bound_list a) as (A & _ & HA).
  exists (Rmax A B). pose proof (Rmax_l A B). pose proof (Rmax_r A B). split; [lra|].
  intros v i [<-|Hv]; [specialize (HA i); lra|specialize (HB v i Hv); lra].
Qed.
Lemma near_zeros n B z : near n B z (zeros n) <-> forall i, (i < n)%nat -> Rabs (nth i z 0) <= B.
Proof. unfold near. split; intros H i Hi; specialize (H i Hi); rewrite nth_zeros, Rminus_0_r in *; auto. Qed.
Lemma coord_le_dot (u : vec) i : nth i u 0 * nth i u 0 <= dot u u.
Proof.
  revert i. induction u as [|a u IH]; intros [|i]; cbn [nth]; try (unfold dot; cbn; lra); rewrite dot_cons.
  - pose proof (dot_self_nonneg u). lra.
  - specialize (IH i). pose proof (sqr_nonneg a). lra.
Qed.
Lemma sqr_le_abs a r : 0 <= r -> a * a <= r * r -> Rabs a <= r.
Proof. intros Hr H. apply Rabs_le. nra. Qed.

Lemma compact_cube h : compact (length h) (in_cube h).
Proof.
  destruct (bound_list h) as (B & HB0 & HB).
  apply (compact_ineqs (length h) B nat (fun i z => Rabs (nth i z 0) - nth i h 0)).
  - intros z Lz. split.
    + intros (_ & H) i. destruct (Nat.lt_ge_cases i (length h)) as [Hi|Hi]; [specialize (H i Hi); lra|].
      rewrite !nth_overflow by lia. rewrite Rabs_R0. lra.
    + intros H. split; auto. intros i Hi. specialize (H i). lra.
  - intros i. apply contR_plus; [apply contR_abs, contR_nth|apply (contR_const _ (- nth i h 0))].
  - intros z Lz (_ & H). apply near_zeros. intros i Hi. specialize (H i Hi). specialize (HB i). apply abs_le_inv in HB. lra.
Qed.
Lemma compact_ball n : compact n (fun u => dot u u <= 1).
Proof.
  apply (compact_ineqs n 1 unit (fun _ z => dot z z - 1)).
  - intros z _. split; [intros H _; lra|intros H; specialize (H tt); lra].
  - intros _. apply contR_plus; [apply contR_dot_self|apply (contR_const _ (- 1))].
  - intros z Lz H. apply near_zeros. intros i Hi. apply sqr_le_abs; [lra|]. pose proof (coord_le_dot z i). lra.
Qed.

Lemma compact_box h Q c : is_mat 3 3 Q -> length c = 3%nat -> length h = 3%nat -> compact 3 (box_set h Q c).
Proof.
  intros HQ Hc Hh. apply (compact_image 3 3 (in_cube h) (move Q c)).
  - rewrite <- Hh. apply compact_cube.
  - intros i Hi. apply (contR_move 3 3); auto.
  - intros z Lz. now apply (move_len2 3 3).
  - intros p Lp. split.
    + intros (u & Hu & ->). exists u. split; [destruct Hu; lia|]. split; [exact Hu|reflexivity].
    + intros (u & _ & Hu & ->). now exists u.
Qed.
Lemma compact_ell h Q c : is_mat 3 3 Q -> length c = 3%nat -> length h = 3%nat -> compact 3 (ell_set h Q c).
Proof.
  intros HQ Hc Hh.
  apply (compact_image 3 3 (fun v => exists u, length u = 3%nat /\ dot u u <= 1 /\ v = vmul h u) (move Q c)).
  - apply (compact_image 3 3 (fun u => dot u u <= 1) (vmul h)).
    + apply compact_ball.
    + intros i Hi. apply contR_ext with (g := fun z => nth i h 0 * nth i z 0).
      * intros z Lz. apply nth_vmul. congruence.
      * apply contR_mult; [apply contR_const|apply contR_nth].
    + intros z Lz. rewrite vmul_length; congruence.
    + intros p Lp. reflexivity.
  - intros i Hi. apply (contR_move 3 3); auto.
  - intros z Lz. now apply (move_len2 3 3).
  - intros p Lp. split.
    + intros (u & Lu & Hu & ->). exists (vmul h u). split; [rewrite vmul_length; congruence|]. split; [|auto]. exists u. rewrite Lu. auto.
    + intros (v & Lv & (u & Lu & Hu & ->) & ->). exists u. rewrite Hh. auto.
Qed.
Lemma compact_cyl L r Q c : is_mat 3 3 Q -> length c = 3%nat -> 0 <= r -> compact 3 (cyl_set L r Q c).
Proof.
  intros HQ Hc Hr.
  apply (compact_image 3 3 (fun v => nth 0 v 0 * nth 0 v 0 + nth 1 v 0 * nth 1 v 0 <= r * r /\ Rabs (nth 2 v 0) <= L / 2) (move Q c)).
  - apply (compact_ineqs 3 (Rmax r (L / 2)) bool
      (fun b v => if b then nth 0 v 0 * nth 0 v 0 + nth 1 v 0 * nth 1 v 0 - r * r else Rabs (nth 2 v 0) - L / 2)).
    + intros z _. split.
      * intros (H1 & H2) [|]; lra.
      * intros H. pose proof (H true). pose proof (H false). cbn in *. lra.
    + intros [|]; (apply contR_plus; [|apply (contR_const _ (- _))]).
      * apply contR_plus; apply contR_mult; apply contR_nth.
      * apply contR_abs, contR_nth.
    + intros z Lz (H1 & H2). apply near_zeros. pose proof (Rmax_l r (L / 2)). pose proof (Rmax_r r (L / 2)).
      pose proof (sqr_nonneg (nth 0 z 0)). pose proof (sqr_nonneg (nth 1 z 0)).
      intros [|[|[|i]]] Hi; [| | |lia].
      * apply Rle_trans with r; auto. apply sqr_le_abs; lra.
      * apply Rle_trans with r; auto. apply sqr_le_abs; lra.
      * lra.
  - intros i Hi. apply (contR_move 3 3); auto.
  - intros z Lz. now apply (move_len2 3 3).
  - intros p Lp. split.
    + intros (x & y & z & H1 & H2 & ->). exists [x; y; z]. cbn. auto.
    + intros (v & Lv & (H1 & H2) & ->). destruct (len3_inv v Lv) as (x & y & z & ->). exists x, y, z. auto.
Qed.
Lemma compact_caps a b r : length a = 3%nat -> length b = 3%nat -> 0 <= r -> compact 3 (caps_set a b r).
Proof.
  intros La Lb Hr.
  apply (compact_image 4 3 (fun v => 0 <= hd 0 v <= 1 /\ dot (tl v) (tl v) <= r * r)
    (fun v => vadd (vadd (vscale (1 - hd 0 v) a) (vscale (hd 0 v) b)) (tl v))).
  - apply (compact_ineqs 4 (Rmax 1 r) (bool * bool)
      (fun t v => match t with (true, true) => - nth 0 v 0 | (true, false) => nth 0 v 0 - 1
        | _ => nth 1 v 0 * nth 1 v 0 + nth 2 v 0 * nth 2 v 0 + nth 3 v 0 * nth 3 v 0 - r * r end)).
    + intros z Lz. destruct (len4_inv z Lz) as (s & x & y & w & ->). unfold dot. cbn. split.
      * intros (H1 & H2) [[|] [|]]; lra.
      * intros H. pose proof (H (true, true)). pose proof (H (true, false)). pose proof (H (false, true)). cbn in *. lra.
    + intros [[|] [|]].
      * apply contR_opp, contR_nth.
      * apply contR_plus; [apply contR_nth|apply (contR_const _ (- (1)))].
      * apply contR_plus; [|apply (contR_const _ (- (r * r)))]. repeat apply contR_plus; apply contR_mult; apply contR_nth.
      * apply contR_plus; [|apply (contR_const _ (- (r * r)))]. repeat apply contR_plus; apply contR_mult; apply contR_nth.
    + intros z Lz (H1 & H2). apply near_zeros. pose proof (Rmax_l 1 r). pose proof (Rmax_r 1 r).
      destruct (len4_inv z Lz) as (s & x & y & w & ->). cbn in H1. pose proof (coord_le_dot (tl [s; x; y; w])) as H4.
      intros [|i] Hi; [cbn; apply Rabs_le; lra|]. apply Rle_trans with r; auto. apply sqr_le_abs; auto.
      specialize (H4 i). cbn [tl nth] in *. lra.
  - intros i Hi. apply contR_ext with (g := fun v => ((1 + - nth 0 v 0) * nth i a 0 + nth 0 v 0 * nth i b 0) + nth (S i) v 0).
    + intros z Lz. destruct (len4_inv z Lz) as (s & x & y & w & ->). cbn [hd tl].
      destruct (len3_inv a La) as (a0 & a1 & a2 & ->), (len3_inv b Lb) as (b0 & b1 & b2 & ->). destruct i as [|[|[|i]]]; try reflexivity. lia.
    + repeat first [apply contR_plus | apply contR_mult | apply contR_opp | apply contR_nth | apply contR_const].
  - intros z Lz. destruct z; [discriminate|]. cbn [hd tl]. injection Lz as Lz. len.
  - intros p Lp. split.
    + intros (q & (s & Hs & ->) & Hn). exists (s :: vsub p (vadd (vscale (1 - s) a) (vscale s b))). cbn [hd tl].
      split; [cbn; f_equal; len|]. split; [split; [auto|]|].
      * now apply norm_le_iff.
      * apply (vec_ext 3); [len|len|]. intros i Hi. rewrite nth_vadd, nth_vsub by len. ring.
    + intros (z & Lz & (Hs & Hd) & ->). destruct z as [|s u]; [discriminate|]. cbn [hd tl] in *.
      exists (vadd (vscale (1 - s) a) (vscale s b)). split; [exists s; auto|]. injection Lz as Lu.
      replace (vsub (vadd (vadd (vscale (1 - s) a) (vscale s b)) u) (vadd (vscale (1 - s) a) (vscale s b))) with u.
      * now apply norm_le_iff.
      * apply (vec_ext 3); [len|len|]. intros i Hi. rewrite nth_vsub, !nth_vadd by len. ring.
Qed.
Lemma compact_poly p : poly_agree 3 p -> compact 3 (halfspaces (p_A p) (p_b p)).
Proof.
  intros ((_ & _ & MA & Lb & V & EV & HV & LV) & H). destruct (bound_rows V) as (B & HB0 & HB).
  apply (compact_ineqs 3 B nat (fun i z => dot (nth i (p_A p) []) z - nth i (p_b p) 0)).
  - intros z Lz. split.
    + intros HZ i. destruct (Nat.lt_ge_cases i (length (p_A p))) as [Hi|Hi]; [specialize (HZ i Hi); lra|].
      rewrite !nth_overflow by lia. unfold dot. cbn. lra.
    + intros HZ i Hi. specialize (HZ i). lra.
  - intros i. apply contR_plus; [|apply (contR_const _ (- nth i (p_b p) 0))].
    destruct (Nat.lt_ge_cases i (length (p_A p))) as [Hi|Hi].
    + apply contR_dot_const. eapply is_mat_row; eauto.
    + rewrite nth_overflow by lia. apply (contR_const 3 0).
  - intros z Lz Hz. apply near_zeros. intros i Hi. apply H in Hz; auto. unfold p_vertices in Hz. rewrite EV in Hz. cbn in Hz.
    revert Hz. apply (hull_in_convex 3 (fun z => Rabs (nth i z 0) <= B)).
    + intros x y t Lxy Hx Hy Ht. rewrite nth_vadd, !nth_vscale by len. apply abs_le_inv in Hx, Hy. apply Rabs_le. nra.
    + exact LV.
    + auto.
Qed.
Lemma shape_compact s K : shape_is s K -> compact 3 K.
Proof.
  intros HS. destruct HS as [h c r b Hb HQ|q Hq|h r c e He Lh HQ|L R r c x Hx HQ|L R r c x k Hx Hk HQ].
  - pose proof (box_init_inv _ _ _ _ Hb) as (Lh & _ & _ & Ec & _ & _ & Lc & _). rewrite Ec in Lc. apply compact_box; auto. apply HQ.
  - now apply compact_poly.
  - pose proof (ell_init_inv _ _ _ _ He) as (_ & _ & Er & Ec & MR & Lc). rewrite Er, Ec, Lh in *. apply compact_ell; auto.
  - apply cyl_init_inv in Hx as (_ & Hr & MQ & Hc & _). now apply compact_cyl.
  - apply cyl_init_inv in Hx as (_ & Hr & MQ & Hc & _). apply compact_caps; auto; apply (move_len 3); auto.
Qed.

Lemma shape_nonempty s K : shape_is s K -> exists p, length p = 3%nat /\ K p.
Proof.
  intros HS. destruct HS as [h c r b Hb HQ|q Hq|h r c e He Lh HQ|L R r c x Hx HQ|L R r c x k Hx Hk HQ].
  - pose proof (box_init_inv _ _ _ _ Hb) as (Lh & Hh & _ & Ec & _ & _ & Lc & _). rewrite Ec in Lc.
    exists (move (pose_rot 3 r) (pose_tr 3 c) (zeros 3)). split; [apply (move_len2 3 3); auto; apply HQ|].
    exists (zeros 3). split; [|auto]. split; [now rewrite zeros_length|]. rewrite Lh. intros i Hi. rewrite nth_zeros, Rabs_R0. auto.
  - destruct Hq as ((_ & _ & MA & Lb & V & EV & HV & LV) & H). destruct V as [|v V]; [congruence|]. exists v. split; [apply LV; now left|].
    apply H; [apply LV; now left|]. unfold p_vertices. rewrite EV. apply hull_vertex; [exact LV|now left].
  - pose proof (ell_init_inv _ _ _ _ He) as (_ & _ & Er & Ec & MR & Lc). rewrite Er, Ec, Lh in *.
    exists (move (pose_rot 3 r) (pose_tr 3 c) (vmul h (zeros 3))). split; [now apply (move_len2 3 3)|].
    exists (zeros 3). split; [now rewrite zeros_length|]. split; [|auto]. unfold dot. cbn. lra.
  - apply cyl_init_inv in Hx as (HL & Hr & MQ & Hc & _). exists (move (pose_rot 3 r) (pose_tr 3 c) [0; 0; 0]).
    split; [now apply (move_len2 3 3)|]. exists 0, 0, 0. split; [nra|]. split; [rewrite Rabs_R0; lra|auto].
  - apply cyl_init_inv in Hx as (HL & Hr & MQ & Hc & _). exists (move (pose_rot 3 r) (pose_tr 3 c) [0; 0; L / 2]).
    split; [now apply (move_len2 3 3)|]. eexists. split; [exists 0; split; [lra|reflexivity]|].
    generalize dependent (pose_rot 3 r). generalize dependent (pose_tr 3 c). intros. apply norm_le_iff; auto.
    match goal with |- context [vsub ?a ?b] => replace (vsub a b) with (zeros 3) end; [unfold dot; cbn; nra|].
    destruct_vecs. unfold move. cbn. list_eq; ring.
Qed.
(** the minimum of a continuous function of two points *)
Lemma compact_closest K1 K2 : compact 3 K1 -> compact 3 K2 -> (exists p, length p = 3%nat /\ K1 p) -> (exists p, length p = 3%nat /\ K2 p) ->
  exists x y d, closest_pair K1 K2 x y d.
Proof.
  intros C1 C2 (p & Lp & Kp) (q & Lq & Kq).
  assert (S : forall x y : vec, length x = 3%nat -> firstn 3 (x ++ y) = x /\ skipn 3 (x ++ y) = y).
  { intros x y Lx. rewrite firstn_app, skipn_app, Lx, Nat.sub_diag, <- Lx, firstn_all, skipn_all. cbn. now rewrite app_nil_r. }
  destruct (compact_min (3 + 3) _ (fun z => dot (vsub (skipn 3 z) (firstn 3 z)) (vsub (skipn 3 z) (firstn 3 z))) 0 (compact_prod 3 3 K1 K2 C1 C2))
    as (a & La & (Ka1 & Ka2) & Ha).
  - assert (LL : forall z : vec, length z = (3 + 3)%nat -> length (vsub (skipn 3 z) (firstn 3 z)) = 3%nat).
    { intros z Lz. rewrite vsub_length; rewrite skipn_length; [|rewrite firstn_length]; lia. }
    apply (contR_dot _ _ _ 3); auto; intros i Hi;
      (apply contR_ext with (g := fun z => nth (3 + i) z 0 + - nth i z 0); [|apply contR_plus; [apply contR_nth|apply contR_opp, contR_nth]]);
      intros z Lz; destruct z as [|z0 [|z1 [|z2 [|z3 [|z4 [|z5 [|z6 z]]]]]]]; try discriminate; destruct i as [|[|[|i]]]; try reflexivity; lia.
  - exists (p ++ q). destruct (S p q Lp) as [-> ->]. split; [rewrite app_length; lia|auto].
  - intros z _ _. apply dot_self_nonneg.
  - exists (firstn 3 a), (skipn 3 a), (norm (vsub (skipn 3 a) (firstn 3 a))).
    split; [rewrite firstn_length; lia|]. split; [rewrite skipn_length; lia|]. split; [auto|]. split; [auto|]. split; [reflexivity|].
    intros x y Lx Ly Kx Ky. apply norm_le_dot. specialize (Ha (x ++ y)). destruct (S x y Lx) as [E1 E2]. rewrite E1, E2 in Ha.
    apply Ha; [rewrite app_length; lia|auto].
Qed.
Lemma closest_exists s1 s2 K1 K2 : shape_is s1 K1 -> shape_is s2 K2 ->
  exists xy, minimises closest_objective (closest_constraints s1 s2) xy.
Proof.
  intros H1 H2. destruct (compact_closest K1 K2) as (x & y & d & H); eauto using shape_compact, shape_nonempty.
  exists (x, y). eapply minimises_of_pair; eauto.
Qed.
