From Verif Require Import Base.Vec Base.Ext Base.VecFacts Spec.Basic Spec.Shapes Spec.ShapeObjects
  Model.Util Model.Polydd Model.Poly Model.Ellipsoid Model.Box Model.Constraint Proofs.Coord Proofs.Hull Proofs.BoxP Proofs.EllP
  Proofs.InertialT Proofs.LinAlg Proofs.EllForms Proofs.EllSame.

(** ** two different degenerate ellipsoids that compare equal *)
Definition skew_disc (x y : R) : Ell := {| e_half := [1; 0]; e_rot := [[3 / 5; - (4 / 5)]; [4 / 5; 3 / 5]]; e_center := [x; y] |}.
Ltac resolve_lt := repeat match goal with
  | |- context [Rltb ?a ?b] => first [ rewrite (proj2 (Rltb_iff a b)) by lra | rewrite (proj2 (Rltb_false a b)) by lra ]
  end.
Lemma skew_half_inv x y : e_half_inv (skew_disc x y) = [Fin 1; PInf].
Proof.
  rewrite half_inv_tiny. cbn [e_half skew_disc map]. rewrite tiny_0.
  rewrite tiny_proper_pos by (unfold np_atol; lra). rewrite Rinv_1. reflexivity.
Qed.
Lemma skew_S x y : e_S (skew_disc x y) = [[PInf; NInf]; [NInf; PInf]].
Proof.
  unfold e_S. rewrite skew_half_inv.
  cbn -[Rltb Rdiv]. unfold edot, esum. cbn -[Rltb Rdiv]. unfold inf_times. resolve_lt. cbn -[Rltb Rdiv]. unfold inf_times. resolve_lt. reflexivity.
Qed.
Lemma skew_Q x y : x < 0 -> 0 < y -> e_Q (skew_disc x y) = [[NInf; PInf; NInf]; [PInf; NInf; PInf]; [NInf; PInf; NInf]].
Proof.
  intros Hx Hy. unfold e_Q, Q_matrix. rewrite skew_S. cbn -[Rltb Rdiv]. unfold edot, esum. cbn -[Rltb Rdiv]. unfold inf_times.
  resolve_lt. cbn -[Rltb Rdiv]. unfold inf_times. resolve_lt. cbn -[Rltb Rdiv]. reflexivity.
Qed.
Lemma skew_init x y : ell_init [1; 0] (Some [[3 / 5; - (4 / 5)]; [4 / 5; 3 / 5]]) (Some [x; y]) = Ok (skew_disc x y).
Proof.
  rewrite ell_init_good; [reflexivity| | |reflexivity].
  - intros i Hi. cbn in Hi. destruct i as [|[|i]]; [cbn; lra|cbn; lra|lia].
  - split; [reflexivity|]. repeat constructor.
Qed.
Lemma rot345_orth : orthogonal 2 [[3 / 5; - (4 / 5)]; [4 / 5; 3 / 5]].
Proof.
  split; [split; [reflexivity|repeat constructor]|]. split; cbn; unfold dot; cbn; repeat f_equal; field.
Qed.
Lemma ell_is_same_false_positive : exists e f,
  is_ell e /\ is_ell f /\ orthogonal 2 (e_rot e) /\ orthogonal 2 (e_rot f) /\
  (exists p, length p = 2%nat /\ ell_set (e_half e) (e_rot e) (e_center e) p /\ ~ ell_set (e_half f) (e_rot f) (e_center f) p) /\
  forall tol, ell_is_same e f tol = Ok true.
Proof.
  exists (skew_disc (-1) 1), (skew_disc (-2) 2).
  split; [do 3 eexists; apply skew_init|]. split; [do 3 eexists; apply skew_init|].
  split; [apply rot345_orth|]. split; [apply rot345_orth|]. split.
  - exists [-1; 1]. split; [reflexivity|]. split.
    + exists [0; 0]. split; [reflexivity|]. split; [unfold dot; cbn; lra|]. cbn. unfold move, dot. cbn. f_equal; [lra|f_equal; lra].
    + intros (u & Lu & _ & E). destruct (len2_inv u Lu) as (a & b & ->). unfold move, dot in E. cbn in E. injection E as E1 E2. lra.
  - intro tol. unfold ell_is_same. cbn [e_dim e_half skew_disc length Nat.eqb]. rewrite !skew_Q by lra. reflexivity.
Qed.

(** ** half extents up to 1e-8 count as zero *)
Lemma tiny_flat a : 0 <= a -> tiny (if Rle_dec a np_atol then 0 else a) = tiny a.
Proof.
  intro H. destruct (Rle_dec a np_atol) as [L|L]; auto. rewrite tiny_0. unfold tiny. symmetry. apply Rleb_iff.
  rewrite Rabs_pos_eq; auto.
Qed.
Lemma zq_flat a x : 0 <= a -> zq (if Rle_dec a np_atol then 0 else a) x = zq a x.
Proof.
  intro H. unfold zq. rewrite tiny_flat by auto. destruct (tiny a) eqn:E; auto.
  destruct (Rle_dec a np_atol) as [L|L]; auto. unfold tiny in E. apply Rleb_false in E. rewrite Rabs_pos_eq in E by auto. lra.
Qed.
Lemma ell_contains_flat e p : is_ell e -> (0 < e_dim e)%nat -> orthogonal (e_dim e) (e_rot e) -> length p = e_dim e ->
  (ell_contains e p 0 = true <-> ell_set (flatten_half (e_half e)) (e_rot e) (e_center e) p).
Proof.
  intros He Hn HQ Hp. pose proof (ell_facts e He) as (H1 & H2 & H3).
  set (f := {| e_half := flatten_half (e_half e); e_rot := e_rot e; e_center := e_center e |}).
  assert (Df : e_dim f = e_dim e) by (unfold e_dim, f, flatten_half; cbn; rewrite map_length; reflexivity).
  assert (Hf : is_ell f).
  { exists (e_half f), (Some (e_rot f)), (Some (e_center f)). rewrite ell_init_good; [reflexivity| | |].
    - intros i Hi. change (length (e_half f)) with (e_dim f) in Hi. rewrite Df in Hi. unfold f, flatten_half. cbn.
      rewrite (nth_map_0 _ _ _ 0) by exact Hi. destruct (Rle_dec _ _); [lra|auto].
    - change (length (e_half f)) with (e_dim f). rewrite Df. exact H2.
    - change (length (e_half f)) with (e_dim f). rewrite Df. exact H3. }
  change (ell_set (flatten_half (e_half e)) (e_rot e) (e_center e) p) with (ell_set (e_half f) (e_rot f) (e_center f) p).
  assert (Hpr : proper_half (e_half f)).
  { intros i Hi. change (length (e_half f)) with (e_dim f) in Hi. rewrite Df in Hi. unfold f, flatten_half. cbn.
    rewrite (nth_map_0 _ _ _ 0) by exact Hi. destruct (Rle_dec _ _); [left|right]; lra. }
  rewrite <- (ell_contains_iff f) by (rewrite ?Df; auto).
  pose proof (vec_mat_len _ (vsub p (e_center e)) _ H2 Hn) as L.
  rewrite !ell_contains_local by (rewrite ?Df; auto). rewrite Df. cbn [e_center e_rot e_half f].
  assert (EZ : map2 zq (flatten_half (e_half e)) (vec_mat (vsub p (e_center e)) (e_rot e)) =
               map2 zq (e_half e) (vec_mat (vsub p (e_center e)) (e_rot e))).
  { unfold flatten_half. rewrite map2_map_l. apply map2_ext_in. intros a b Ha _. apply zq_flat.
    apply In_nth with (d := 0) in Ha as (i & Hi & <-). apply H1; auto. }
  rewrite EZ. split; intros [A B]; split; auto; intros i Hi Ht; apply A; auto.
  - unfold flatten_half in Ht. rewrite (nth_map_0 _ _ _ 0) in Ht by exact Hi. rewrite tiny_flat in Ht; auto.
  - unfold flatten_half. rewrite (nth_map_0 _ _ _ 0) by exact Hi. rewrite tiny_flat; auto.
Qed.
(** negative or wrongly shaped arguments *)
Lemma ell_init_negative h r c : (exists i, (i < length h)%nat /\ nth i h 0 < 0) -> ell_init h r c = Raise AssertionError.
Proof.
  intros (i & Hi & H). unfold ell_init, ell_init_ext. rewrite forallb_fin1. cbn [eleb].
  change (fun x => Rleb 0 x) with (Rleb 0). destruct (forallb (Rleb 0) h) eqn:E; [|reflexivity].
  rewrite forallb_nonneg in E. specialize (E i Hi). lra.
Qed.

(** ** surfaces *)
Lemma ell_on_surface_fat e p : is_ell e -> (0 < e_dim e)%nat -> orthogonal (e_dim e) (e_rot e) -> fat (e_half e) ->
  length p = e_dim e ->
  (ell_on_surface e p 0 = true <-> ell_boundary (e_half e) (e_rot e) (e_center e) p).
Proof.
  intros He Hn HQ Hf Hp. pose proof (ell_facts e He) as (H1 & H2 & H3).
  pose proof (vec_mat_len _ (vsub p (e_center e)) _ H2 Hn) as L.
  unfold ell_on_surface.
  assert (Z : existsb (fun b => b) (e_z e) = false).
  { rewrite e_z_tiny. apply not_true_is_false. intro T. apply existsb_exists in T as (b & Hb & ->).
    apply in_map_iff in Hb as (a & Ha & Hin). rewrite tiny_proper_pos in Ha; [discriminate|]. eapply fat_in; eauto. }
  rewrite Z, half_inv_fat, esq_fin, !map2_emul_fin, esum_fin by auto. cbn [eclose]. rewrite isclose_iff.
  rewrite vec_mat_mat_vec in *. set (y := mat_vec (transpose (e_rot e)) (vsub p (e_center e))) in *.
  assert (E : lsum (vmul (vmul (vsq (vinv (e_half e))) y) y) = lsum (map2 zq (e_half e) y)).
  { f_equal. assert (LL : length (e_half e) = length y) by (symmetry; exact L). clearbody y. clear -LL Hf. revert y LL.
    assert (Hin : forall a, In a (e_half e) -> np_atol < a) by (intros; eapply fat_in; eauto). clear Hf.
    induction (e_half e) as [|a h IH]; intros [|b y] LL; cbn in LL; try discriminate; [reflexivity|].
    unfold vmul, vsq, vinv in *. cbn. f_equal.
    - unfold zq. rewrite tiny_proper_pos by (apply Hin; now left). reflexivity.
    - apply IH; [intros; apply Hin; now right|lia]. }
  rewrite E. unfold ell_boundary. fold (e_dim e).
  assert (C : Rabs (lsum (map2 zq (e_half e) y) - 1) <= 0 + 0 * Rabs 1 <-> lsum (map2 zq (e_half e) y) = 1).
  { split.
    - intro A. rewrite Rmult_0_l, Rplus_0_l in A. assert (lsum (map2 zq (e_half e) y) - 1 = 0); [|lra].
      destruct (Req_dec (lsum (map2 zq (e_half e) y) - 1) 0) as [|N]; auto. apply Rabs_pos_lt in N. lra.
    - intros ->. unfold Rminus. rewrite Rplus_opp_r, Rabs_R0. lra. }
  rewrite C. split.
  - intro S. exists (unscale (e_half e) y). rewrite unscale_length by exact L. split; [reflexivity|]. split.
    + rewrite unscale_spec by exact L. exact S.
    + apply (move_inv (e_dim e)); auto; [rewrite vmul_length; rewrite ?unscale_length; auto|].
      fold y. apply vmul_unscale; [exact L|]. intros i Hi Ht. rewrite tiny_proper_pos in Ht; [discriminate|auto].
  - intros (u & Lu & Hu & Ep). apply (move_inv (e_dim e)) in Ep; auto; [|rewrite vmul_length; auto].
    fold y in Ep. rewrite <- Ep. rewrite <- Hu. symmetry. clear -Hf Lu.
    assert (Hin : forall a, In a (e_half e) -> np_atol < a) by (intros; eapply fat_in; eauto). clear Hf. unfold e_dim in Lu.
    revert u Lu. induction (e_half e) as [|a h IH]; intros [|b u] Lu; cbn in Lu; try discriminate; [reflexivity|].
    unfold vmul in *. cbn [map2 lsum fold_right]. rewrite dot_cons. change (fold_right Rplus 0) with lsum.
    rewrite (IH ltac:(intros; apply Hin; now right) u) by lia. f_equal.
    pose proof np_atol_pos. specialize (Hin a (or_introl eq_refl)). unfold zq. rewrite tiny_proper_pos by auto. field. lra.
Qed.
Lemma ell_on_surface_degenerate e p : is_ell e -> (0 < e_dim e)%nat -> orthogonal (e_dim e) (e_rot e) ->
  length p = e_dim e -> proper_half (e_half e) -> In 0 (e_half e) ->
  (ell_on_surface e p 0 = true <-> ell_set (e_half e) (e_rot e) (e_center e) p).
Proof.
  intros He Hn HQ Hp Hpr H0. unfold ell_on_surface.
  assert (Z : existsb (fun b => b) (e_z e) = true).
  { rewrite e_z_tiny. apply existsb_exists. exists true. split; [|reflexivity]. apply in_map_iff. exists 0. split; [apply tiny_0|auto]. }
  rewrite Z. apply ell_contains_iff; auto.
Qed.

Lemma abs_nth_le_norm v i : Rabs (nth i v 0) <= norm v.
Proof.
  destruct (Nat.lt_ge_cases i (length v)) as [H|H].
  - apply sqr_le_abs; [apply norm_nonneg|]. rewrite norm_sqr, (dot_rsum (length v)) by auto.
    apply (rsum_term_le (length v) (fun i => nth i v 0 * nth i v 0)); auto. intros; apply sqr_nonneg.
  - rewrite nth_overflow by auto. rewrite Rabs_R0. apply norm_nonneg.
Qed.
Lemma box_interior h Q c u : length h = 3%nat -> orthogonal 3 Q -> length c = 3%nat -> length u = 3%nat -> in_cube h u ->
  (interior_point 3 (box_set h Q c) (move Q c u) <-> forall i, (i < 3)%nat -> Rabs (nth i u 0) < nth i h 0).
Proof.
  intros Lh HQ Lc Lu Hu. pose proof HQ as (MQ & Q1 & Q2).
  split.
  - intros (eps & He & H) i Hi. destruct (Rlt_or_le (Rabs (nth i u 0)) (nth i h 0)) as [|Hle]; auto. exfalso.
    set (s := if Rle_dec 0 (nth i u 0) then 1 else -1).
    set (v := vadd u (vscale (s * (eps / 2)) (nth i (eye 3) []))).
    assert (Le : length (nth i (eye 3) []) = 3%nat) by (apply (is_mat_row 3 3); auto using is_mat_eye).
    assert (Lv : length v = 3%nat) by (unfold v; rewrite vadd_length; rewrite ?vscale_length; congruence).
    assert (Hq : box_set h Q c (move Q c v)).
    { apply H; [apply (move_len 3); auto|]. unfold move.
      replace (vsub (vadd (mat_vec Q v) c) (vadd (mat_vec Q u) c)) with (mat_vec Q (vsub v u)).
      - unfold norm. rewrite (orthogonal_dot 3) by (auto; rewrite vsub_length; congruence). fold (norm (vsub v u)).
        replace (vsub v u) with (vscale (s * (eps / 2)) (nth i (eye 3) [])).
        + rewrite norm_vscale. replace (norm (nth i (eye 3) [])) with 1.
          * rewrite Rabs_mult, (Rabs_pos_eq (eps / 2)) by lra. unfold s. destruct (Rle_dec 0 (nth i u 0));
            [rewrite Rabs_R1|rewrite (Rabs_left (-1)) by lra]; lra.
          * unfold norm. replace (dot (nth i (eye 3) []) (nth i (eye 3) [])) with 1; [symmetry; apply sqrt_1|].
            destruct i as [|[|[|i]]]; try lia; unfold dot; cbn; lra.
        + unfold v. vring 3%nat.
      - rewrite mat_vec_vsub by congruence. destruct MQ as [LQ _]. vext 3%nat. vnth. ring. }
    destruct Hq as (w & [Lw Hw] & E). apply (move_inv 3) in E; auto; [|congruence|apply (move_len 3); auto].
    assert (E2 : v = mat_vec (transpose Q) (vsub (move Q c v) c)) by (apply (move_inv 3); auto; apply (move_len 3); auto).
    rewrite <- E2 in E. subst w. rewrite Lh in Hw. specialize (Hw i Hi).
    assert (Ev : nth i v 0 = nth i u 0 + s * (eps / 2)).
    { unfold v. rewrite nth_vadd by (rewrite vscale_length; congruence). rewrite nth_vscale.
      replace (nth i (nth i (eye 3) []) 0) with 1; [ring|]. destruct i as [|[|[|i]]]; try lia; reflexivity. }
    rewrite Ev in Hw. unfold s in *. destruct (Rle_dec 0 (nth i u 0)) as [P|P].
    + rewrite Rabs_pos_eq in Hw by lra. rewrite Rabs_pos_eq in Hle by lra. lra.
    + rewrite Rabs_left in Hw by lra. rewrite Rabs_left in Hle by lra. lra.
  - intro H. exists (Rmin (nth 0 h 0 - Rabs (nth 0 u 0)) (Rmin (nth 1 h 0 - Rabs (nth 1 u 0)) (nth 2 h 0 - Rabs (nth 2 u 0)))).
    pose proof (H 0%nat ltac:(lia)) as A0. pose proof (H 1%nat ltac:(lia)) as A1. pose proof (H 2%nat ltac:(lia)) as A2.
    split; [repeat apply Rmin_glb_lt; lra|]. intros q Lq Hq.
    set (w := mat_vec (transpose Q) (vsub q c)).
    assert (Lw : length w = 3%nat) by (unfold w; rewrite mat_vec_length; apply (is_mat_transpose 3 3); auto; lia).
    assert (Eq : q = move Q c w) by (apply (move_inv 3); auto; lia).
    exists w. split; [|exact Eq]. split; [congruence|]. intros i Hi. rewrite Lh in Hi.
    assert (N : norm (vsub q (move Q c u)) = norm (vsub w u)).
    { rewrite Eq. unfold move. replace (vsub (vadd (mat_vec Q w) c) (vadd (mat_vec Q u) c)) with (mat_vec Q (vsub w u)).
      - unfold norm. rewrite (orthogonal_dot 3) by (auto; try lia; rewrite vsub_length; congruence). reflexivity.
      - rewrite mat_vec_vsub by congruence. destruct MQ as [LQ _]. vext 3%nat. vnth. ring. }
    rewrite N in Hq. pose proof (abs_nth_le_norm (vsub w u) i) as B. rewrite nth_vsub in B by congruence.
    pose proof (Rmin_l (nth 0 h 0 - Rabs (nth 0 u 0)) (Rmin (nth 1 h 0 - Rabs (nth 1 u 0)) (nth 2 h 0 - Rabs (nth 2 u 0)))).
    pose proof (Rmin_r (nth 0 h 0 - Rabs (nth 0 u 0)) (Rmin (nth 1 h 0 - Rabs (nth 1 u 0)) (nth 2 h 0 - Rabs (nth 2 u 0)))).
    pose proof (Rmin_l (nth 1 h 0 - Rabs (nth 1 u 0)) (nth 2 h 0 - Rabs (nth 2 u 0))).
    pose proof (Rmin_r (nth 1 h 0 - Rabs (nth 1 u 0)) (nth 2 h 0 - Rabs (nth 2 u 0))).
    pose proof (Rabs_triang (nth i w 0 - nth i u 0) (nth i u 0)) as T.
    replace (nth i w 0 - nth i u 0 + nth i u 0) with (nth i w 0) in T by ring.
    destruct i as [|[|[|i]]]; try lia; lra.
Qed.
Lemma box_on_surface_iff b p : is_box b -> orthogonal 3 (b_rot b) -> length p = 3%nat ->
  (box_on_surface b p 0 = true <->
   box_set (b_half b) (b_rot b) (b_center b) p /\ ~ interior_point 3 (box_set (b_half b) (b_rot b) (b_center b)) p).
Proof.
  intros Hb HQ Hp. pose proof Hb as (h & c & r & Hi). apply box_init_inv in Hi as HH.
  unfold box_on_surface. rewrite andb_true_iff, box_contains_iff by auto.
  assert (Lh : length (b_half b) = 3%nat) by (decompose [and] HH; congruence).
  assert (Lc : length (b_center b) = 3%nat) by (decompose [and] HH; auto).
  set (K := box_set (b_half b) (b_rot b) (b_center b)).
  assert (M : forall i, isclose 0 0 (Rabs (nth i (vec_mat (vsub p (b_center b)) (b_rot b)) 0)) (nth i (b_half b) 0) = true <->
    Rabs (nth i (vec_mat (vsub p (b_center b)) (b_rot b)) 0) = nth i (b_half b) 0).
  { intro i. rewrite isclose_iff, Rmult_0_l, Rplus_0_l. set (z := Rabs _ - _). split.
    - intro A. destruct (Req_dec z 0) as [|N]; [unfold z in *; lra|]. apply Rabs_pos_lt in N. lra.
    - intro A. unfold z. rewrite A. unfold Rminus. rewrite Rplus_opp_r, Rabs_R0. lra. }
  assert (KK : K p -> exists u, length u = 3%nat /\ in_cube (b_half b) u /\ p = move (b_rot b) (b_center b) u /\ vec_mat (vsub p (b_center b)) (b_rot b) = u).
  { intros (u & [L1 L2] & E). exists u. split; [congruence|]. split; [split; auto|]. split; [exact E|].
    rewrite vec_mat_mat_vec. symmetry. apply (move_inv 3); auto; try lia; congruence. }
  split.
  - intros [HK Hm]. split; [exact HK|]. destruct (KK HK) as (u & Lu & Cu & E & Eu). rewrite E.
    unfold K. rewrite box_interior by auto. intro HI. rewrite Eu in *.
    rewrite !orb_true_iff, !M in Hm. pose proof (HI 0%nat ltac:(lia)). pose proof (HI 1%nat ltac:(lia)). pose proof (HI 2%nat ltac:(lia)).
    destruct Hm as [[Hm|Hm]|Hm]; lra.
  - intros [HK HI]. split; [exact HK|]. destruct (KK HK) as (u & Lu & [Cu1 Cu2] & E & Eu). rewrite Eu in *.
    rewrite !orb_true_iff, !M. rewrite Lh in Cu2.
    destruct (Req_dec (Rabs (nth 0 u 0)) (nth 0 (b_half b) 0)) as [|N0]; [auto|].
    destruct (Req_dec (Rabs (nth 1 u 0)) (nth 1 (b_half b) 0)) as [|N1]; [auto|].
    destruct (Req_dec (Rabs (nth 2 u 0)) (nth 2 (b_half b) 0)) as [|N2]; [auto|].
    exfalso. apply HI. rewrite E. unfold K. apply box_interior; auto; [split; auto; rewrite Lh; auto|].
    intros i Hi'. specialize (Cu2 i Hi'). destruct i as [|[|[|i]]]; try lia; lra.
Qed.
