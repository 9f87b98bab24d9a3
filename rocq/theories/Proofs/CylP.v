(** Cylinders and capsules: constructors and membership (C25, C26, C31, C62). *)
From Verif Require Import Base.Vec Base.Ext Base.VecFacts Spec.Basic Spec.Shapes Spec.ShapeObjects Spec.Samples
  Model.Util Model.Inertial Model.Polydd Model.Poly Model.Ellipsoid Model.Box Model.Constraint Model.Cylinder
  Proofs.Coord Proofs.Hull Proofs.BoxP Proofs.EllP Proofs.InertialT Proofs.EllForms Proofs.SamplesP Proofs.ShapesW Proofs.MustContain.

Lemma bind_inv {A B} (x : res A) (f : A -> res B) y : bind x f = Ok y -> exists a, x = Ok a /\ f a = Ok y.
Proof. destruct x; cbn; try discriminate. eauto. Qed.
Lemma assert_inv b x : assert_ b = Ok x -> b = true.
Proof. unfold assert_. destruct b; [auto|discriminate]. Qed.

(** ** constructor *)
Definition disk_at (r : R) (Q : mat) (c : vec) (z : R) : Ell :=
  {| e_half := [r; r; 0]; e_rot := mat_mul Q (eye 3); e_center := vadd (mat_vec Q [0; 0; z]) c |}.
Definition disk0_at (r z : R) : Ell := {| e_half := [r; r; 0]; e_rot := eye 3; e_center := [0; 0; z] |}.
Definition cyl_of (L r : R) (Q : mat) (c : vec) : Cyl :=
  {| c_length := L; c_radius := r; c_rot := Q; c_center := c;
     c_ell1 := {| e_half := [L / 2]; e_rot := eye 1; e_center := [dot (col 2 Q) c] |};
     c_ell2 := {| e_half := [r; r]; e_rot := eye 2; e_center := mat_vec (transpose (transverse_axes Q)) c |};
     c_disk0s := [disk0_at r ((1 / 2) * L); disk0_at r (- ((1 / 2) * L))];
     c_disks := [disk_at r Q c ((1 / 2) * L); disk_at r Q c (- ((1 / 2) * L))] |}.
Lemma nonneg_rr0 r : 0 <= r -> forall i, (i < 3)%nat -> 0 <= nth i [r; r; 0] 0.
Proof. intros H [|[|[|i]]] Hi; cbn; try lra; lia. Qed.
Lemma transverse_len Q : is_mat 3 3 Q -> length (transpose (transverse_axes Q)) = 2%nat.
Proof. intro H. destruct_vecs. reflexivity. Qed.
Lemma disk_transform r Q c z : 0 <= r -> is_mat 3 3 Q -> length c = 3%nat ->
  ell_transform (disk0_at r z) (Some Q) (Some c) = Ok (disk_at r Q c z).
Proof.
  intros H1 H2 H3. unfold ell_transform. change (e_dim (disk0_at r z)) with 3%nat.
  rewrite clean_transform_good by auto. cbn [bind fst snd pose_rot pose_tr].
  change (e_half (disk0_at r z)) with [r; r; 0]. change (e_rot (disk0_at r z)) with (eye 3).
  change (e_center (disk0_at r z)) with [0; 0; z].
  rewrite ell_init_good; [reflexivity|apply nonneg_rr0; auto| |].
  - apply (is_mat_mul 3 3 3); auto using is_mat_eye.
  - change (length (vadd (mat_vec Q [0; 0; z]) c) = 3%nat). rewrite vadd_length; rewrite mat_vec_length; destruct H2; congruence.
Qed.
Lemma cyl_init_good L r ro co : 0 <= L -> 0 <= r -> is_mat 3 3 (pose_rot 3 ro) -> length (pose_tr 3 co) = 3%nat ->
  cyl_init L r ro co = Ok (cyl_of L r (pose_rot 3 ro) (pose_tr 3 co)).
Proof.
  intros H1 H2 H3 H4. unfold cyl_init. fold (pose_rot 3 ro). fold (pose_tr 3 co).
  rewrite (proj2 (Rleb_iff 0 L) H1), (proj2 (Rleb_iff 0 r) H2), (proj2 (is_matb_iff _ _ _) H3).
  unfold is_vecb. rewrite H4. cbn [bind assert_ Nat.eqb].
  rewrite (ell_init_good [L / 2]); cycle 1.
  { intros [|i] Hi; cbn in Hi |- *; [lra|lia]. }
  { apply is_mat_eye. }
  { reflexivity. }
  cbn [bind].
  rewrite (ell_init_good [r; r]); cycle 1.
  { intros [|[|i]] Hi; cbn in Hi |- *; [lra|lra|lia]. }
  { apply is_mat_eye. }
  { unfold pose_tr. rewrite mat_vec_length. apply transverse_len. exact H3. }
  cbn [bind].
  rewrite !(ell_init_good [r; r; 0]) by (first [apply nonneg_rr0; auto|apply is_mat_eye|reflexivity]).
  cbn [bind mapM].
  change (pose_rot (length [r; r; 0]) None) with (eye 3).
  fold (disk0_at r (1 / 2 * L)). fold (disk0_at r (- (1 / 2 * L))).
  cbn [pose_tr].
  change {| e_half := [r; r; 0]; e_rot := eye 3; e_center := [0; 0; 1 / 2 * L] |} with (disk0_at r (1 / 2 * L)).
  change {| e_half := [r; r; 0]; e_rot := eye 3; e_center := [0; 0; - (1 / 2 * L)] |} with (disk0_at r (- (1 / 2 * L))).
  rewrite !disk_transform by auto. cbn [bind]. reflexivity.
Qed.
Lemma cyl_init_inv L r ro co c : cyl_init L r ro co = Ok c ->
  0 <= L /\ 0 <= r /\ is_mat 3 3 (pose_rot 3 ro) /\ length (pose_tr 3 co) = 3%nat /\
  c = cyl_of L r (pose_rot 3 ro) (pose_tr 3 co).
Proof.
  intro H. assert (P : 0 <= L /\ 0 <= r /\ is_mat 3 3 (pose_rot 3 ro) /\ length (pose_tr 3 co) = 3%nat).
  { unfold cyl_init in H. fold (pose_rot 3 ro) in H. fold (pose_tr 3 co) in H.
    apply bind_inv in H as (x1 & A1 & H). apply assert_inv, Rleb_iff in A1.
    apply bind_inv in H as (x2 & A2 & H). apply assert_inv, Rleb_iff in A2.
    apply bind_inv in H as (x3 & A3 & H). apply assert_inv, is_matb_iff in A3.
    apply bind_inv in H as (x4 & A4 & H). apply assert_inv, Nat.eqb_eq in A4. auto. }
  destruct P as (P1 & P2 & P3 & P4). rewrite cyl_init_good in H by auto. injection H as <-. auto.
Qed.
Lemma cyl_init_raises L r ro co : L < 0 \/ r < 0 -> cyl_init L r ro co = Raise AssertionError.
Proof.
  intros H. unfold cyl_init. destruct (Rleb 0 L) eqn:E1; cbn [bind assert_]; [|reflexivity].
  apply Rleb_iff in E1. destruct (Rleb 0 r) eqn:E2; [apply Rleb_iff in E2; lra|reflexivity].
Qed.

(** ** local coordinates *)
Lemma move3 Q c p : orthogonal 3 Q -> length c = 3%nat -> length p = 3%nat ->
  exists x y z, p = move Q c [x; y; z] /\ mat_vec (transpose Q) (vsub p c) = [x; y; z].
Proof.
  intros HQ Hc Hp. assert (MQ : is_mat 3 3 Q) by apply HQ.
  assert (L : length (mat_vec (transpose Q) (vsub p c)) = 3%nat) by (rewrite mat_vec_length; apply (is_mat_transpose 3 3); auto).
  destruct (len3_inv _ L) as (x & y & z & E). exists x, y, z. split; [|exact E].
  apply (move_inv 3); auto.
Qed.
Lemma local_unique Q c u v : orthogonal 3 Q -> length c = 3%nat -> length u = 3%nat -> length v = 3%nat ->
  move Q c u = move Q c v -> u = v.
Proof.
  intros HQ Hc Hu Hv H. assert (MQ : is_mat 3 3 Q) by apply HQ. assert (L3 : (0 < 3)%nat) by lia.
  pose proof (proj1 (move_inv 3 _ _ _ _ HQ Hc Hu (move_len 3 _ _ u MQ Hc) L3) eq_refl) as E1.
  pose proof (proj1 (move_inv 3 _ _ _ _ HQ Hc Hv (move_len 3 _ _ v MQ Hc) L3) eq_refl) as E2.
  rewrite E1, E2, H. reflexivity.
Qed.
Lemma cyl_projections Q c p x y z : is_mat 3 3 Q -> length c = 3%nat -> length p = 3%nat ->
  mat_vec (transpose Q) (vsub p c) = [x; y; z] ->
  vsub [dot p (longitudinal_axis Q)] [dot (col 2 Q) c] = [z] /\
  vsub (vec_mat p (transverse_axes Q)) (mat_vec (transpose (transverse_axes Q)) c) = [x; y].
Proof.
  intros HQ Hc Hp E. destruct_vecs. cbn in E |- *. unfold dot in *. cbn in E |- *.
  injection E as E1 E2 E3. split; list_eq; lra.
Qed.
Lemma vec_mat_eye n v : length v = n -> vec_mat v (eye n) = v.
Proof. intro H. rewrite vec_mat_mat_vec, transpose_eye. apply mat_vec_eye; auto. Qed.

(** ** C25 *)
Definition within (tol h v2 : R) (vs : list R) : Prop :=
  (h <= / 100000000 -> forall v, In v vs -> Rabs v <= tol) /\ (/ 100000000 < h -> v2 <= (1 + tol) * (h * h)).
Lemma tiny_iff h : 0 <= h -> (tiny h = true <-> h <= / 100000000).
Proof. intro H. unfold tiny. rewrite Rabs_pos_eq by auto. rewrite Rleb_iff. reflexivity. Qed.
Lemma zq_scale h v : / 100000000 < h -> zq h v = v * v / (h * h).
Proof. intro H. unfold zq. rewrite tiny_proper_pos by exact H. field. lra. Qed.
Lemma div_le_iff a b t : 0 < b -> (a / b <= t <-> a <= t * b).
Proof.
  intro H. split; intro E.
  - apply Rmult_le_compat_r with (r := b) in E; [|lra]. unfold Rdiv in E. rewrite Rmult_assoc, Rinv_l, Rmult_1_r in E by lra. exact E.
  - apply Rmult_le_reg_r with b; [lra|]. unfold Rdiv. rewrite Rmult_assoc, Rinv_l, Rmult_1_r by lra. exact E.
Qed.
Lemma sphere_contains n h c p tol : (0 < n)%nat -> 0 <= h -> length c = n -> length p = n -> 0 <= tol ->
  (ell_contains {| e_half := repeat h n; e_rot := eye n; e_center := c |} p tol = true <->
   within tol h (dot (vsub p c) (vsub p c)) (vsub p c)).
Proof.
  intros Hn Hh Hc Hp Ht. assert (Lv : length (vsub p c) = n) by (rewrite vsub_length; congruence).
  rewrite ell_contains_local; cbn [e_half e_rot e_center]; unfold e_dim; cbn [e_half]; rewrite vec_mat_eye, ?repeat_length by auto; [|exact Lv].
  generalize dependent (vsub p c). clear p c Hc Hp. intros v Lv. unfold within.
  assert (TI : forall i, (i < n)%nat -> nth i (repeat h n) 0 = h) by (intros i Hi; apply repeat_nth || (apply (repeat_spec n); apply nth_In; rewrite repeat_length; auto)).
  destruct (Rle_dec h (/ 100000000)) as [H|H].
  - pose proof (proj2 (tiny_iff h Hh) H) as T. split.
    + intros [H1 H2]. split; [|lra]. intros _ x Hx. apply In_nth with (d := 0) in Hx as (i & Hi & <-).
      apply H1; [lia|]. rewrite TI by lia. exact T.
    + intros [H1 H2]. split.
      * intros i Hi _. apply H1; auto. apply nth_In. lia.
      * assert (E : lsum (map2 zq (repeat h n) v) = 0); [|lra]. clear -T. revert v; induction n as [|n IH]; intros [|x v]; cbn; auto.
        change (fold_right Rplus 0) with lsum. rewrite IH. unfold zq. rewrite T. ring.
  - apply Rnot_le_lt in H. assert (E : lsum (map2 zq (repeat h n) v) = dot v v / (h * h)).
    { clear -H Lv. revert v Lv; induction n as [|n IH]; intros [|x v] L; cbn in L; try discriminate; [unfold dot; cbn; lra|].
      rewrite dot_cons. cbn [repeat map2 lsum fold_right]. change (fold_right Rplus 0) with lsum. rewrite IH by lia. rewrite zq_scale by auto. field. lra. }
    assert (0 < h * h) by (apply Rmult_lt_0_compat; lra). rewrite E, div_le_iff by auto. split.
    + intros [_ H2]. split; [lra|]. intros _. exact H2.
    + intros [_ H2]. split; [|auto]. intros i Hi T. rewrite TI in T by auto. apply tiny_iff in T; [lra|auto].
Qed.
Lemma cyl_contains_local L r Q c p tol x y z : 0 <= L -> 0 <= r -> is_mat 3 3 Q -> length c = 3%nat -> length p = 3%nat ->
  mat_vec (transpose Q) (vsub p c) = [x; y; z] ->
  (cyl_contains (cyl_of L r Q c) p tol = true <->
   within default_tol (L / 2) (z * z) [z] /\ within default_tol r (x * x + y * y) [x; y]).
Proof.
  intros HL Hr HQ Hc Hp E. destruct (cyl_projections Q c p x y z HQ Hc Hp E) as [E1 E2].
  unfold cyl_contains. cbn [c_rot c_ell1 c_ell2 cyl_of]. rewrite andb_true_iff.
  assert (DT : 0 <= default_tol) by (unfold default_tol; lra).
  change [L / 2] with (repeat (L / 2) 1). change [r; r] with (repeat r 2).
  rewrite !sphere_contains; auto; try lia; try lra; try reflexivity.
  - rewrite E1, E2. unfold dot. cbn. rewrite !Rplus_0_r. reflexivity.
  - rewrite mat_vec_length. apply transverse_len, HQ.
  - rewrite vec_mat_length. destruct_vecs. reflexivity.
Qed.
Lemma cyl_contains_iff L r ro co c p tol : cyl_init L r ro co = Ok c -> orthogonal 3 (pose_rot 3 ro) -> length p = 3%nat ->
  (cyl_contains c p tol = true <->
   exists x y z, p = move (pose_rot 3 ro) (pose_tr 3 co) [x; y; z] /\
     (L / 2 <= / 100000000 -> Rabs z <= / 100000000) /\
     (/ 100000000 < L / 2 -> z * z <= (1 + / 100000000) * ((L / 2) * (L / 2))) /\
     (r <= / 100000000 -> Rabs x <= / 100000000 /\ Rabs y <= / 100000000) /\
     (/ 100000000 < r -> x * x + y * y <= (1 + / 100000000) * (r * r))).
Proof.
  intros H HQ Hp. apply cyl_init_inv in H as (HL & Hr & MQ & Hc & ->).
  destruct (move3 _ _ p HQ Hc Hp) as (x & y & z & E & EL).
  rewrite (cyl_contains_local _ _ _ _ _ _ x y z) by auto. unfold within, default_tol. split.
  - intros [[A1 A2] [B1 B2]]. exists x, y, z. repeat split; auto.
    + intro H. apply A1; auto. now left.
    + apply B1; auto. now left.
    + apply B1; auto. right. now left.
  - intros (x' & y' & z' & E' & A1 & A2 & B1 & B2).
    rewrite E in E'. apply (local_unique _ _ _ _ HQ Hc) in E'; [|reflexivity|reflexivity]. injection E' as <- <- <-.
    split; split; auto.
    + intros H v [<-|[]]; auto.
    + intros H v [<-|[<-|[]]]; apply B1; auto.
Qed.
Lemma sqr_abs_le a b : Rabs a <= b -> a * a <= b * b.
Proof. intro H. apply abs_le_inv in H. nra. Qed.
Lemma cyl_set_contains L r ro co c p tol : cyl_init L r ro co = Ok c -> orthogonal 3 (pose_rot 3 ro) ->
  cyl_set L r (pose_rot 3 ro) (pose_tr 3 co) p -> cyl_contains c p tol = true.
Proof.
  intros H HQ (x & y & z & H1 & H2 & ->). pose proof (cyl_init_inv _ _ _ _ _ H) as (HL & Hr & MQ & Hc & _).
  apply (proj2 (cyl_contains_iff _ _ _ _ _ _ tol H HQ (move_len 3 _ _ _ MQ Hc))).
  exists x, y, z. pose proof (sqr_nonneg r). pose proof (sqr_nonneg (L / 2)). pose proof (sqr_abs_le _ _ H2).
  assert (Rabs x <= r) by (apply sqr_le_abs; auto; pose proof (sqr_nonneg y); lra).
  assert (Rabs y <= r) by (apply sqr_le_abs; auto; pose proof (sqr_nonneg x); lra).
  repeat split; intros; try lra.
Qed.
Lemma cyl_contains_tol c p tol tol' : cyl_contains c p tol = cyl_contains c p tol'.
Proof. reflexivity. Qed.
Lemma cyl_w_total L r ro co : 0 <= L -> 0 <= r -> is_mat 3 3 (pose_rot 3 ro) -> length (pose_tr 3 co) = 3%nat ->
  exists c, cyl_init L r ro co = Ok c.
Proof. intros. eexists. apply cyl_init_good; auto. Qed.

(** ** C31 for cylinders *)
Lemma ell_set_eye n h c p : length h = n -> length c = n -> length p = n ->
  (ell_set h (eye n) c p <-> exists u, length u = n /\ dot u u <= 1 /\ vsub p c = vmul h u).
Proof.
  intros Hh Hc Hp. unfold ell_set, move. split; intros (u & Lu & Hu & E); exists u; (split; [congruence|]); (split; [auto|]).
  - subst p. rewrite mat_vec_eye by (rewrite vmul_length; congruence). apply vsub_vadd. rewrite vmul_length; congruence.
  - rewrite mat_vec_eye by (rewrite vmul_length; congruence). rewrite <- E, vadd_vsub; congruence.
Qed.
Lemma ball_coords n h v : 0 <= h -> length v = n ->
  ((exists u, length u = n /\ dot u u <= 1 /\ v = vmul (repeat h n) u) <-> dot v v <= h * h).
Proof.
  intros Hh Lv.
  assert (VS : forall u, length u = n -> vmul (repeat h n) u = vscale h u).
  { clear. intros u <-. induction u; cbn; auto. f_equal. exact IHu. }
  split.
  - intros (u & Lu & Hu & ->). rewrite VS by auto. rewrite dot_vscale_l, dot_vscale_r.
    pose proof (sqr_nonneg h). rewrite <- Rmult_assoc. rewrite <- (Rmult_1_r (h * h)) at 2. apply Rmult_le_compat_l; auto.
  - intro H. destruct (Req_EM_T h 0) as [->|E].
    + exists (zeros n). rewrite zeros_length, dot_zeros_l. split; [auto|]. split; [lra|]. rewrite VS by apply zeros_length.
      rewrite vscale_zeros. assert (dot v v = 0) by (pose proof (dot_self_nonneg v); lra). apply dot_self_zero in H0. congruence.
    + exists (vscale (/ h) v). rewrite vscale_length. split; [auto|]. rewrite VS by (rewrite vscale_length; auto).
      rewrite vscale_vscale, Rinv_r, vscale_1 by auto. split; [|reflexivity].
      rewrite dot_vscale_l, dot_vscale_r. assert (0 < h * h) by (apply Rmult_lt_0_compat; lra).
      replace (/ h * (/ h * dot v v)) with (dot v v / (h * h)) by (field; auto). apply div_le_iff; [auto|lra].
Qed.
Lemma ball_set n h c p : 0 <= h -> length c = n -> length p = n ->
  (ell_set (repeat h n) (eye n) c p <-> dot (vsub p c) (vsub p c) <= h * h).
Proof.
  intros Hh Hc Hp. rewrite ell_set_eye by (auto; apply repeat_length). apply ball_coords; auto. rewrite vsub_length; congruence.
Qed.
Lemma cyl_must_contain_iff L r ro co c p s : cyl_init L r ro co = Ok c -> orthogonal 3 (pose_rot 3 ro) -> length p = 3%nat ->
  (cyl_must_contain c p s <->
   (0 < s /\ cyl_set L r (pose_rot 3 ro) (pose_tr 3 co) (vscale (/ s) p)) \/ (s = 0 /\ p = zeros 3)).
Proof.
  intros H HQ Hp. apply cyl_init_inv in H as (HL & Hr & MQ & Hc & ->).
  set (Q := pose_rot 3 ro) in *. set (ce := pose_tr 3 co) in *. unfold cyl_must_contain. cbn [c_rot c_ell1 c_ell2 cyl_of].
  assert (LT : length (mat_vec (transpose (transverse_axes Q)) ce) = 2%nat) by (rewrite mat_vec_length; apply transverse_len; auto).
  assert (LP : length (vec_mat p (transverse_axes Q)) = 2%nat) by (rewrite vec_mat_length; clear -MQ; destruct_vecs; reflexivity).
  assert (H2 : 0 <= L / 2) by lra.
  pose proof (ell_init_good [L / 2] None (Some [dot (col 2 Q) ce])
    ltac:(intros [|i] Hi; cbn in Hi |- *; [lra|lia]) (is_mat_eye 1) eq_refl) as I1.
  pose proof (ell_init_good [r; r] None (Some (mat_vec (transpose (transverse_axes Q)) ce))
    ltac:(intros [|[|i]] Hi; cbn in Hi |- *; [lra|lra|lia]) (is_mat_eye 2) LT) as I2.
  pose proof (ell_must_contain_iff _ _ _ _ [dot p (longitudinal_axis Q)] s I1 ltac:(discriminate) (orthogonal_eye 1 ltac:(lia)) eq_refl) as J1.
  pose proof (ell_must_contain_iff _ _ _ _ (vec_mat p (transverse_axes Q)) s I2 ltac:(discriminate) (orthogonal_eye 2 ltac:(lia)) LP) as J2.
  cbn [length pose_rot pose_tr] in J1, J2. rewrite J1, J2. clear J1 J2 I1 I2.
  change [L / 2] with (repeat (L / 2) 1). change [r; r] with (repeat r 2).
  rewrite !ball_set by (auto; rewrite vscale_length; auto).
  destruct (Rtotal_order s 0) as [Hs|[->|Hs]].
  - split; [intros [[[A _]|[A _]] _]; lra|intros [[A _]|[A _]]; lra].
  - split.
    + intros [[[A _]|[_ A]] [[B _]|[_ B]]]; try lra. right. split; [auto|].
      assert (E0 : mat_vec (transpose Q) p = zeros 3).
      { clear -A B MQ Hp. clearbody Q. destruct_vecs. cbn in A, B |- *. unfold dot in *. cbn in A, B |- *.
        injection A as A. injection B as B1 B2. list_eq; lra. }
      transitivity (move Q (zeros 3) (mat_vec (transpose Q) p)).
      * apply (move_inv 3); auto using zeros_length. { rewrite E0. apply zeros_length. } rewrite vsub_zeros_r; auto.
      * rewrite E0. unfold move. rewrite mat_vec_zeros. replace (length Q) with 3%nat by (symmetry; apply MQ). apply vadd_zeros_r, zeros_length.
    + intros [[A _]|[_ ->]]; [lra|]. split; right; (split; [auto|]).
      * rewrite dot_zeros_l. reflexivity.
      * rewrite vec_mat_mat_vec, mat_vec_zeros, transverse_len by auto. reflexivity.
  - assert (Lp : length (vscale (/ s) p) = 3%nat) by (rewrite vscale_length; auto).
    destruct (move3 _ _ (vscale (/ s) p) HQ Hc Lp) as (x & y & z & E & EL).
    destruct (cyl_projections _ _ _ _ _ _ MQ Hc Lp EL) as [E1 E2].
    assert (S1 : vscale (/ s) [dot p (longitudinal_axis Q)] = [dot (vscale (/ s) p) (longitudinal_axis Q)])
      by (cbn; rewrite dot_vscale_l; reflexivity).
    assert (S2 : vscale (/ s) (vec_mat p (transverse_axes Q)) = vec_mat (vscale (/ s) p) (transverse_axes Q))
      by (rewrite !vec_mat_mat_vec, mat_vec_vscale; reflexivity).
    rewrite S1, S2, E1, E2. unfold dot. cbn [map2 lsum fold_right]. split.
    + intros [[[_ A]|[A _]] [[_ B]|[B _]]]; try lra. left. split; [auto|]. exists x, y, z. split; [lra|]. split; [|auto].
      apply sqr_le_abs; lra.
    + intros [[_ (x' & y' & z' & A & B & E')]|[A _]]; [|lra]. rewrite E in E'.
      apply (local_unique _ _ _ _ HQ Hc) in E'; [|reflexivity|reflexivity]. injection E' as <- <- <-.
      pose proof (sqr_abs_le _ _ B). split; left; (split; [auto|]); lra.
Qed.

(** ** capsules *)
Definition cap_at (r : R) (a : vec) : Ell := {| e_half := repeat r 3; e_rot := eye 3; e_center := a |}.
Definition end1 (L : R) (Q : mat) (c : vec) : vec := move Q c [0; 0; L / 2].
Definition end2 (L : R) (Q : mat) (c : vec) : vec := move Q c [0; 0; - (L / 2)].
Lemma endpoints_eq L r Q c : is_mat 3 3 Q -> length c = 3%nat ->
  cyl_endpoints (cyl_of L r Q c) = [end1 L Q c; end2 L Q c].
Proof.
  intros HQ Hc. unfold cyl_endpoints, end1, end2. cbn [c_length c_rot c_center cyl_of].
  destruct_vecs. unfold move. cbn. unfold dot. cbn. repeat (apply f_equal2; [list_eq; lra|]). reflexivity.
Qed.
Lemma end_len Q c z : is_mat 3 3 Q -> length c = 3%nat -> length (move Q c [0; 0; z]) = 3%nat.
Proof. intros; apply (move_len 3); auto. Qed.
Lemma sphere_good r a : 0 <= r -> length a = 3%nat -> ell_sphere r (Some a) = Ok (cap_at r a).
Proof.
  intros Hr Ha. unfold ell_sphere. rewrite Ha. replace (vscale r (ones 3)) with (repeat r 3) by (cbn; list_eq; lra).
  rewrite ell_init_good; [reflexivity| |apply is_mat_eye|exact Ha].
  intros [|[|[|i]]] Hi; cbn in Hi |- *; try lia; lra.
Qed.
Definition caps_of (L r : R) (Q : mat) (c : vec) : Caps :=
  {| k_cyl := cyl_of L r Q c; k_caps := [cap_at r (end1 L Q c); cap_at r (end2 L Q c)] |}.
Lemma caps_init_good L r Q c : 0 <= r -> is_mat 3 3 Q -> length c = 3%nat ->
  caps_init (cyl_of L r Q c) = Ok (caps_of L r Q c).
Proof.
  intros Hr HQ Hc. unfold caps_init. rewrite endpoints_eq by auto. cbn [mapM c_radius cyl_of].
  rewrite !sphere_good by (auto; apply end_len; auto). reflexivity.
Qed.
Lemma caps_inv L r ro co c k : cyl_init L r ro co = Ok c -> caps_init c = Ok k ->
  0 <= L /\ 0 <= r /\ is_mat 3 3 (pose_rot 3 ro) /\ length (pose_tr 3 co) = 3%nat /\
  k = caps_of L r (pose_rot 3 ro) (pose_tr 3 co).
Proof.
  intros H1 H2. apply cyl_init_inv in H1 as (HL & Hr & MQ & Hc & ->). rewrite caps_init_good in H2 by auto.
  injection H2 as <-. auto.
Qed.

Lemma dist_move Q c u v : orthogonal 3 Q -> length c = 3%nat -> length u = 3%nat -> length v = 3%nat ->
  dot (vsub (move Q c u) (move Q c v)) (vsub (move Q c u) (move Q c v)) = dot (vsub u v) (vsub u v).
Proof.
  intros HQ Hc Hu Hv. assert (MQ : is_mat 3 3 Q) by apply HQ.
  replace (vsub (move Q c u) (move Q c v)) with (mat_vec Q (vsub u v)).
  - apply (orthogonal_dot 3); auto; rewrite vsub_length; congruence.
  - rewrite mat_vec_vsub by congruence. unfold move. assert (LQ : forall w, length (mat_vec Q w) = 3%nat) by (intro w; rewrite mat_vec_length; apply MQ).
    pose proof (LQ u) as LU. pose proof (LQ v) as LV. revert LU LV. generalize (mat_vec Q u) (mat_vec Q v). intros a b LU LV.
    destruct_vecs. cbn. list_eq; ring.
Qed.
Lemma segment_local L Q c q : 0 <= L -> is_mat 3 3 Q -> length c = 3%nat ->
  (segment (end1 L Q c) (end2 L Q c) q <-> exists z, Rabs z <= L / 2 /\ q = move Q c [0; 0; z]).
Proof.
  intros HL HQ Hc. unfold segment, end1, end2.
  assert (E : forall s, vadd (vscale (1 - s) (move Q c [0; 0; L / 2])) (vscale s (move Q c [0; 0; - (L / 2)])) =
    move Q c [0; 0; (1 - 2 * s) * (L / 2)]).
  { intro s. destruct_vecs. unfold move. cbn. unfold dot. cbn. list_eq; ring. }
  split.
  - intros (s & Hs & ->). exists ((1 - 2 * s) * (L / 2)). split; [|apply E]. apply Rabs_le. nra.
  - intros (z & Hz & ->). apply abs_le_inv in Hz. destruct (Req_EM_T L 0) as [->|NL].
    + exists 0. split; [lra|]. rewrite E. do 3 f_equal. f_equal. lra.
    + exists ((1 - z / (L / 2)) / 2). split.
      * assert (-1 <= z / (L / 2) <= 1); [|lra]. split.
        -- apply Rmult_le_reg_r with (L / 2); [lra|]. replace (z / (L / 2) * (L / 2)) with z by (field; lra). lra.
        -- apply div_le_iff; lra.
      * rewrite E. do 4 f_equal. field. lra.
Qed.
Lemma norm_le_sqr v r : 0 <= r -> (norm v <= r <-> dot v v <= r * r).
Proof. intro. apply norm_le_iff; auto. Qed.
Lemma caps_local L r Q c x y z : 0 <= L -> 0 <= r -> orthogonal 3 Q -> length c = 3%nat ->
  (caps_set (end1 L Q c) (end2 L Q c) r (move Q c [x; y; z]) <->
   exists z0, Rabs z0 <= L / 2 /\ x * x + y * y + (z - z0) * (z - z0) <= r * r).
Proof.
  intros HL Hr HQ Hc. assert (MQ : is_mat 3 3 Q) by apply HQ. unfold caps_set. split.
  - intros (q & Hq & Hn). apply segment_local in Hq as (z0 & Hz & ->); auto. apply norm_le_iff in Hn; auto.
    exists z0. split; auto. rewrite dist_move in Hn by auto. unfold dot in Hn. cbn in Hn. lra.
  - intros (z0 & Hz & H). exists (move Q c [0; 0; z0]). split; [apply segment_local; eauto|].
    apply norm_le_iff; auto. rewrite dist_move by auto. unfold dot. cbn. lra.
Qed.
Lemma ball_local Q c r x y z z0 : orthogonal 3 Q -> length c = 3%nat -> 0 <= r ->
  (norm (vsub (move Q c [x; y; z]) (move Q c [0; 0; z0])) <= r <-> x * x + y * y + (z - z0) * (z - z0) <= r * r).
Proof.
  intros HQ Hc Hr. rewrite norm_le_iff by auto. rewrite dist_move by auto. unfold dot. cbn.
  split; intro; lra.
Qed.
(** the union of the two end balls and the cylinder is the set of points within r of the segment *)
Lemma caps_union L r ro co c k p : cyl_init L r ro co = Ok c -> caps_init c = Ok k ->
  orthogonal 3 (pose_rot 3 ro) -> length p = 3%nat -> exists a b, cyl_endpoints c = [a; b] /\
  (caps_set a b r p <-> norm (vsub p a) <= r \/ norm (vsub p b) <= r \/ cyl_set L r (pose_rot 3 ro) (pose_tr 3 co) p).
Proof.
  intros H1 H2 HQ Hp. pose proof (caps_inv _ _ _ _ _ _ H1 H2) as (HL & Hr & MQ & Hc & _).
  apply cyl_init_inv in H1 as (_ & _ & _ & _ & ->). set (Q := pose_rot 3 ro) in *. set (ce := pose_tr 3 co) in *.
  exists (end1 L Q ce), (end2 L Q ce). split; [apply endpoints_eq; auto|].
  destruct (move3 _ _ p HQ Hc Hp) as (x & y & z & -> & _). rewrite caps_local by auto.
  unfold end1, end2. rewrite !ball_local by auto. split.
  - intros (z0 & Hz & H). apply abs_le_inv in Hz. pose proof (sqr_nonneg (z - z0)).
    destruct (Rle_dec z (L / 2)) as [A|A]; [destruct (Rle_dec (- (L / 2)) z) as [B|B]|].
    + right. right. exists x, y, z. split; [lra|]. split; [apply Rabs_le; lra|reflexivity].
    + right. left. assert ((z - - (L / 2)) * (z - - (L / 2)) <= (z - z0) * (z - z0)) by nra. lra.
    + left. assert ((z - L / 2) * (z - L / 2) <= (z - z0) * (z - z0)) by nra. lra.
  - intros [H|[H|(x' & y' & z' & A & B & E)]].
    + exists (L / 2). split; [rewrite Rabs_pos_eq; lra|exact H].
    + exists (- (L / 2)). split; [rewrite Rabs_Ropp, Rabs_pos_eq; lra|exact H].
    + apply (local_unique _ _ _ _ HQ Hc) in E; [|reflexivity|reflexivity]. injection E as <- <- <-.
      exists z. split; [auto|]. lra.
Qed.
(** it is the convex hull of the two end balls *)
Lemma norm_conv t u v r : length u = length v -> 0 <= t <= 1 -> norm u <= r -> norm v <= r ->
  norm (vadd (vscale (1 - t) u) (vscale t v)) <= r.
Proof.
  intros L Ht Hu Hv. eapply Rle_trans; [apply norm_triangle; rewrite !vscale_length; auto|].
  rewrite !norm_vscale, !Rabs_pos_eq by lra. nra.
Qed.
Lemma caps_convex n a b r : length a = n -> length b = n -> convex (fun p => length p = n /\ caps_set a b r p).
Proof.
  intros La Lb p p' t _ [Lp (q & (s & Hs & ->) & Hn)] [Lp' (q' & (s' & Hs' & ->) & Hn')] Ht.
  split; [rewrite vadd_length; rewrite !vscale_length; congruence|].
  exists (vadd (vscale (1 - ((1 - t) * s + t * s')) a) (vscale ((1 - t) * s + t * s') b)). split.
  - exists ((1 - t) * s + t * s'). split; [nra|reflexivity].
  - match type of Hn with norm ?w <= r => set (u := w) in * end. match type of Hn' with norm ?w <= r => set (v := w) in * end.
    replace (vsub (vadd (vscale (1 - t) p) (vscale t p')) _) with (vadd (vscale (1 - t) u) (vscale t v)).
    + apply norm_conv; auto. unfold u, v. rewrite !vsub_length; rewrite ?vadd_length; rewrite ?vscale_length; congruence.
    + unfold u, v. assert (LL : forall k l : R, length (vadd (vscale k a) (vscale l b)) = n) by (intros; rewrite vadd_length; rewrite ?vscale_length; congruence).
      apply (vec_ext n).
      * rewrite vadd_length; rewrite ?vscale_length, ?vsub_length; rewrite ?LL; congruence.
      * rewrite vsub_length; rewrite ?vadd_length; rewrite ?vscale_length; rewrite ?LL; congruence.
      * intros i Hi. rewrite ?nth_vadd, ?nth_vsub, ?nth_vscale, ?nth_vsub, ?nth_vadd, ?nth_vscale;
          rewrite ?vadd_length; rewrite ?vscale_length, ?vsub_length; rewrite ?LL; rewrite ?vscale_length; try congruence.
        rewrite ?nth_vadd, ?nth_vscale by (rewrite ?vscale_length; congruence). ring.
Qed.
Lemma caps_hull n a b r p : length a = n -> length b = n -> length p = n -> 0 <= r ->
  (caps_set a b r p <-> exists p1 p2 t, length p1 = n /\ length p2 = n /\ norm (vsub p1 a) <= r /\ norm (vsub p2 b) <= r /\
     0 <= t <= 1 /\ p = vadd (vscale (1 - t) p1) (vscale t p2)).
Proof.
  intros La Lb Lp Hr. split.
  - intros (q & (s & Hs & ->) & Hn).
    assert (Lq : length (vadd (vscale (1 - s) a) (vscale s b)) = n) by (rewrite vadd_length; rewrite ?vscale_length; congruence).
    set (q := vadd (vscale (1 - s) a) (vscale s b)) in *. set (w := vsub p q) in *.
    assert (Lw : length w = n) by (unfold w; rewrite vsub_length; congruence).
    exists (vadd a w), (vadd b w), s. do 2 (split; [rewrite vadd_length; congruence|]).
    do 2 (split; [rewrite vadd_comm, vsub_vadd by congruence; exact Hn|]). split; [auto|].
    apply (vec_ext n); [auto|rewrite vadd_length; rewrite ?vscale_length, ?vadd_length; congruence|].
    intros i Hi. rewrite nth_vadd, !nth_vscale, !nth_vadd by (rewrite ?vscale_length, ?vadd_length; congruence).
    assert (W : nth i w 0 = nth i p 0 - ((1 - s) * nth i a 0 + s * nth i b 0)).
    { unfold w. rewrite nth_vsub by congruence. unfold q. rewrite nth_vadd, !nth_vscale by (rewrite ?vscale_length; congruence). reflexivity. }
    rewrite W. ring.
  - intros (p1 & p2 & t & L1 & L2 & H1 & H2 & Ht & ->).
    apply (caps_convex n a b r La Lb p1 p2 t); auto; [congruence| |]; (split; [auto|]).
    + exists a. split; [|auto]. exists 0. split; [lra|]. rewrite Rminus_0_r, vscale_1, vscale_0, vadd_zeros_r; auto; congruence.
    + exists b. split; [|auto]. exists 1. split; [lra|]. replace (1 - 1) with 0 by ring.
      rewrite vscale_1, vscale_0, vadd_zeros_l; auto; congruence.
Qed.

(** ** Capsule.contains *)
Lemma cap_contains r a p tol : 0 <= r -> length a = 3%nat -> length p = 3%nat -> 0 <= tol ->
  (ell_contains (cap_at r a) p tol = true <-> within tol r (dot (vsub p a) (vsub p a)) (vsub p a)).
Proof. intros. apply sphere_contains; auto; lia. Qed.
Lemma caps_contains_or L r Q c p tol : caps_contains (caps_of L r Q c) p tol = true <->
  ell_contains (cap_at r (end1 L Q c)) p tol = true \/ ell_contains (cap_at r (end2 L Q c)) p tol = true \/
  cyl_contains (cyl_of L r Q c) p tol = true.
Proof. unfold caps_contains. cbn [k_caps k_cyl caps_of map app existsb]. rewrite !orb_true_iff. intuition discriminate. Qed.
Lemma ball_within tol r v : 0 <= tol -> 0 <= r -> norm v <= r -> (r <= / 100000000 -> r <= tol \/ v = zeros (length v)) ->
  within tol r (dot v v) v.
Proof.
  intros Ht Hr Hv Hz. apply norm_le_iff in Hv; auto. split.
  - intros H x Hx. destruct (Hz H) as [A|A].
    + assert (Rabs x <= r); [|lra]. apply sqr_le_abs; auto. eapply Rle_trans; [|exact Hv].
      unfold dot. clear -Hx. induction v as [|a v IH]; [destruct Hx|]. cbn. change (fold_right Rplus 0) with lsum.
      destruct Hx as [->|Hx].
      * pose proof (dot_self_nonneg v) as P. unfold dot in P. lra.
      * specialize (IH Hx). pose proof (sqr_nonneg a). lra.
    + rewrite A in Hx. apply repeat_spec in Hx. subst. rewrite Rabs_R0. exact Ht.
  - intros _. pose proof (sqr_nonneg r). pose proof (Rmult_le_pos _ _ Ht H). lra.
Qed.
(** every point of the capsule is accepted.  For a radius of at most 1e-8 the caps are treated as
    points, so the tolerance must cover the radius. *)
Lemma caps_set_contains L r ro co c k p tol : cyl_init L r ro co = Ok c -> caps_init c = Ok k ->
  orthogonal 3 (pose_rot 3 ro) -> length p = 3%nat -> 0 <= tol -> r = 0 \/ / 100000000 < r \/ r <= tol ->
  (exists a b, cyl_endpoints c = [a; b] /\ caps_set a b r p) -> caps_contains k p tol = true.
Proof.
  intros H1 H2 HQ Hp Ht Hrt (a & b & E & HS).
  destruct (caps_union _ _ _ _ _ _ p H1 H2 HQ Hp) as (a' & b' & E' & U). rewrite E in E'. injection E' as <- <-.
  apply U in HS. pose proof (caps_inv _ _ _ _ _ _ H1 H2) as (HL & Hr & MQ & Hc & ->).
  pose proof H1 as H1'. apply cyl_init_inv in H1' as (_ & _ & _ & _ & ->). rewrite endpoints_eq in E by auto. injection E as <- <-.
  apply caps_contains_or.
  assert (LE : forall z, length (move (pose_rot 3 ro) (pose_tr 3 co) [0; 0; z]) = 3%nat) by (intro; apply end_len; auto).
  assert (Z : forall v, norm v <= r -> r <= / 100000000 -> r <= tol \/ v = zeros (length v)).
  { intros v Hv H. destruct Hrt as [->|[A|A]]; [right|lra|left; auto]. apply dot_self_zero.
    apply norm_le_iff in Hv; [|lra]. pose proof (dot_self_nonneg v). lra. }
  destruct HS as [HS|[HS|HS]].
  - left. apply cap_contains; auto. apply LE. apply ball_within; auto.
  - right. left. apply cap_contains; auto. apply LE. apply ball_within; auto.
  - right. right. eapply cyl_set_contains; eauto.
Qed.
Lemma within3 tol r m x y z : 0 <= r -> 0 <= tol <= m ->
  within tol r (x * x + y * y + z * z) [x; y; z] -> x * x + y * y + z * z <= (r * (1 + m) + 2 * m) * (r * (1 + m) + 2 * m).
Proof.
  intros Hr Hm [W1 W2]. assert (0 <= r * m) by (apply Rmult_le_pos; lra).
  destruct (Rle_dec r (/ 100000000)) as [A|A].
  - specialize (W1 A). pose proof (sqr_abs_le _ _ (W1 x ltac:(now left))). pose proof (sqr_abs_le _ _ (W1 y ltac:(right; now left))).
    pose proof (sqr_abs_le _ _ (W1 z ltac:(do 2 right; now left))). assert (tol * tol <= m * m) by nra. nra.
  - specialize (W2 ltac:(lra)). assert ((1 + tol) * (r * r) <= (1 + m) * (1 + m) * (r * r)).
    { apply Rmult_le_compat_r; [apply sqr_nonneg|]. nra. }
    nra.
Qed.
Lemma within2 tol r m x y : 0 <= r -> 0 <= tol <= m ->
  within tol r (x * x + y * y) [x; y] -> x * x + y * y <= (r * (1 + m) + 2 * m) * (r * (1 + m) + 2 * m).
Proof.
  intros Hr Hm [W1 W2]. replace (x * x + y * y) with (x * x + y * y + 0 * 0) by ring. apply (within3 tol); auto. split.
  - intros A v [<-|[<-|[<-|[]]]]; try (apply W1; auto; cbn; auto; fail). rewrite Rabs_R0. lra.
  - intro A. specialize (W2 A). lra.
Qed.
Lemma caps_contains_near L r ro co c k p tol : cyl_init L r ro co = Ok c -> caps_init c = Ok k ->
  orthogonal 3 (pose_rot 3 ro) -> length p = 3%nat -> 0 <= tol -> caps_contains k p tol = true ->
  exists a b, cyl_endpoints c = [a; b] /\ caps_set a b (r + (r + L + 3) * Rmax tol (/ 100000000)) p.
Proof.
  intros H1 H2 HQ Hp Ht HC. pose proof (caps_inv _ _ _ _ _ _ H1 H2) as (HL & Hr & MQ & Hc & ->).
  apply cyl_init_inv in H1 as (_ & _ & _ & _ & ->). set (Q := pose_rot 3 ro) in *. set (ce := pose_tr 3 co) in *.
  exists (end1 L Q ce), (end2 L Q ce). split; [apply endpoints_eq; auto|].
  set (m := Rmax tol (/ 100000000)). assert (M1 : tol <= m) by apply Rmax_l. assert (M2 : / 100000000 <= m) by apply Rmax_r.
  assert (M0 : 0 <= m) by lra. clearbody m.
  destruct (move3 _ _ p HQ Hc Hp) as (x & y & z & E & EL). subst p. 
  assert (P1 : 0 <= r * m) by (apply Rmult_le_pos; auto). assert (P2 : 0 <= L * m) by (apply Rmult_le_pos; auto).
  assert (BP : 0 <= r + (r + L + 3) * m) by lra. apply caps_local; auto.
  assert (MONO : forall B z0, Rabs z0 <= L / 2 -> 0 <= B <= r + (r + L + 3) * m -> x * x + y * y + (z - z0) * (z - z0) <= B * B ->
    exists z1, Rabs z1 <= L / 2 /\ x * x + y * y + (z - z1) * (z - z1) <= (r + (r + L + 3) * m) * (r + (r + L + 3) * m)).
  { intros B z0 A1 A2 A3. exists z0. split; [auto|]. nra. }
  assert (WCAP : forall z0, ell_contains (cap_at r (move Q ce [0; 0; z0])) (move Q ce [x; y; z]) tol = true ->
     x * x + y * y + (z - z0) * (z - z0) <= (r * (1 + m) + 2 * m) * (r * (1 + m) + 2 * m)).
  { intros z0 H. apply cap_contains in H; auto; [|apply (move_len 3); auto].
    assert (D : dot (vsub (move Q ce [x; y; z]) (move Q ce [0; 0; z0])) (vsub (move Q ce [x; y; z]) (move Q ce [0; 0; z0])) = x * x + y * y + (z - z0) * (z - z0)).
    { rewrite dist_move by auto. unfold dot. cbn. ring. }
    rewrite <- D. assert (LV : length (vsub (move Q ce [x; y; z]) (move Q ce [0; 0; z0])) = 3%nat)
      by (rewrite vsub_length; rewrite !(move_len 3) by auto; reflexivity).
    destruct (len3_inv _ LV) as (a1 & a2 & a3 & EV). rewrite EV in *. 
    replace (dot [a1; a2; a3] [a1; a2; a3]) with (a1 * a1 + a2 * a2 + a3 * a3) in * by (unfold dot; cbn; ring).
    apply (within3 tol); auto. }
  assert (H3 : r * (1 + m) + 2 * m <= r + (r + L + 3) * m) by lra.
  apply caps_contains_or in HC as [HC|[HC|HC]].
  - apply WCAP in HC. apply (MONO (r * (1 + m) + 2 * m) (L / 2)); auto. rewrite Rabs_pos_eq; lra. lra.
  - apply WCAP in HC. apply (MONO (r * (1 + m) + 2 * m) (- (L / 2))); auto. rewrite Rabs_Ropp, Rabs_pos_eq; lra. lra.
  - apply (cyl_contains_local L r Q ce _ tol x y z) in HC; auto. destruct HC as [WZ WXY].
    assert (DT : 0 <= default_tol <= m) by (unfold default_tol; lra).
    apply (within2 default_tol r m) in WXY; auto.
    assert (HZ : exists z0, Rabs z0 <= L / 2 /\ Rabs (z - z0) <= L / 2 * m + m).
    { assert (P3 : 0 <= L / 2 * m) by lra.
      destruct (Rle_dec (L / 2) z) as [A|A]; [|destruct (Rle_dec z (- (L / 2))) as [B|B]].
      - exists (L / 2). split; [rewrite Rabs_pos_eq; lra|]. rewrite Rabs_pos_eq by lra. destruct WZ as [W1 W2].
        destruct (Rle_dec (L / 2) (/ 100000000)) as [D|D].
        + specialize (W1 D z (or_introl eq_refl)). rewrite Rabs_pos_eq in W1 by lra. lra.
        + assert (z <= (1 + m) * (L / 2)); [|lra]. apply sqr_le; [nra|]. specialize (W2 ltac:(lra)).
          eapply Rle_trans; [exact W2|]. replace ((1 + m) * (L / 2) * ((1 + m) * (L / 2))) with ((1 + m) * (1 + m) * (L / 2 * (L / 2))) by ring.
          apply Rmult_le_compat_r; [apply sqr_nonneg|]. nra.
      - exists (- (L / 2)). split; [rewrite Rabs_Ropp, Rabs_pos_eq; lra|]. rewrite Rabs_left1 by lra. destruct WZ as [W1 W2].
        destruct (Rle_dec (L / 2) (/ 100000000)) as [D|D].
        + specialize (W1 D z (or_introl eq_refl)). rewrite Rabs_left1 in W1 by lra. lra.
        + assert (- z <= (1 + m) * (L / 2)); [|lra]. apply sqr_le; [nra|]. specialize (W2 ltac:(lra)).
          replace (- z * - z) with (z * z) by ring.
          eapply Rle_trans; [exact W2|]. replace ((1 + m) * (L / 2) * ((1 + m) * (L / 2))) with ((1 + m) * (1 + m) * (L / 2 * (L / 2))) by ring.
          apply Rmult_le_compat_r; [apply sqr_nonneg|]. nra.
      - exists z. split; [apply Rabs_le; lra|]. rewrite Rminus_diag_eq, Rabs_R0 by reflexivity. lra. }
    destruct HZ as (z0 & Z1 & Z2). apply sqr_abs_le in Z2.
    apply (MONO ((r * (1 + m) + 2 * m) + (L / 2 * m + m)) z0); auto.
    + split; lra.
    + assert (0 <= (r * (1 + m) + 2 * m) * (L / 2 * m + m)) by (apply Rmult_le_pos; lra). lra.
Qed.
(** the tol argument does not reach the cylinder: with tol = 0 a point outside is accepted *)
Lemma caps_contains_tol_zero : exists c k p, cyl_init 2 1 None None = Ok c /\ caps_init c = Ok k /\
  length p = 3%nat /\ caps_contains k p 0 = true /\
  forall a b, cyl_endpoints c = [a; b] -> ~ caps_set a b 1 p.
Proof.
  pose proof (cyl_init_good 2 1 None None ltac:(lra) ltac:(lra) (is_mat_eye 3) eq_refl) as I1. cbn [pose_rot pose_tr] in I1.
  pose proof (caps_init_good 2 1 (eye 3) (zeros 3) ltac:(lra) (is_mat_eye 3) eq_refl) as I2.
  set (p := move (eye 3) (zeros 3) [1 + / 1000000000; 0; 0]).
  assert (O : orthogonal 3 (eye 3)) by (apply orthogonal_eye; lia).
  assert (Lp : length p = 3%nat) by (apply (move_len 3); auto using is_mat_eye; apply is_mat_eye).
  exists (cyl_of 2 1 (eye 3) (zeros 3)), (caps_of 2 1 (eye 3) (zeros 3)), p.
  split; [exact I1|]. split; [exact I2|]. split; [exact Lp|]. split.
  - apply caps_contains_or. right. right. apply (cyl_contains_iff 2 1 None None _ p 0 I1 O Lp).
    exists (1 + / 1000000000), 0, 0. split; [reflexivity|]. rewrite Rabs_R0. repeat split; intros; lra.
  - intros a b E. rewrite endpoints_eq in E by (auto using is_mat_eye; apply is_mat_eye). injection E as <- <-.
    intro H. apply caps_local in H; [|lra|lra|exact O|reflexivity]. destruct H as (z0 & _ & H).
    pose proof (sqr_nonneg (0 - z0)). lra.
Qed.
Lemma caps_is_same_other k k' tol : caps_is_same false k k' tol = Ok false.
Proof. reflexivity. Qed.
Lemma caps_is_same_raises k k' tol : caps_is_same true k k' tol = Raise TypeError.
Proof. reflexivity. Qed.

(** ** C31 for capsules *)
Lemma cap_must_contain r a p s : 0 <= r -> length a = 3%nat -> length p = 3%nat ->
  (ell_must_contain (cap_at r a) p s <-> 0 <= s /\ norm (vsub p (vscale s a)) <= s * r).
Proof.
  intros Hr Ha Hp.
  pose proof (ell_init_good (repeat r 3) None (Some a)) as I. cbn [repeat length pose_rot pose_tr] in I.
  specialize (I ltac:(intros [|[|[|i]]] Hi; cbn in Hi |- *; try lia; lra) (is_mat_eye 3) Ha).
  pose proof (ell_must_contain_iff _ _ _ _ p s I ltac:(discriminate) (orthogonal_eye 3 ltac:(lia)) Hp) as J.
  cbn [length pose_rot pose_tr] in J. change [r; r; r] with (repeat r 3) in J. fold (cap_at r a) in J. rewrite J.
  rewrite ball_set by (auto; rewrite vscale_length; auto). destruct (Rtotal_order s 0) as [Hs|[->|Hs]].
  - split; [intros [[A _]|[A _]]; lra|intros [A _]; lra].
  - rewrite vscale_0, Ha, vsub_zeros_r, Rmult_0_l by auto. split.
    + intros [[A _]|[_ ->]]; [lra|]. split; [lra|]. unfold norm. rewrite dot_zeros_l, sqrt_0. lra.
    + intros [_ H]. right. split; [auto|]. rewrite <- Hp. apply dot_self_zero. rewrite <- norm_sqr.
      pose proof (norm_nonneg p). assert (norm p = 0) by lra. rewrite H1. ring.
  - assert (D : vsub p (vscale s a) = vscale s (vsub (vscale (/ s) p) a)).
    { rewrite vscale_vsub by (rewrite vscale_length; congruence). rewrite vscale_vscale, Rinv_r, vscale_1 by lra. reflexivity. }
    rewrite D, norm_vscale, Rabs_pos_eq by lra. rewrite <- norm_le_iff by auto. split.
    + intros [[_ H]|[H _]]; [|lra]. split; [lra|]. apply Rmult_le_compat_l; lra.
    + intros [_ H]. left. split; [auto|]. apply Rmult_le_reg_l with s; auto.
Qed.
Lemma caps_must_contain_iff L r ro co c k p s : cyl_init L r ro co = Ok c -> caps_init c = Ok k ->
  orthogonal 3 (pose_rot 3 ro) -> length p = 3%nat -> exists a b, cyl_endpoints c = [a; b] /\
  (caps_must_contain k p s <-> (0 < s /\ caps_set a b r (vscale (/ s) p)) \/ (s = 0 /\ p = zeros 3)).
Proof.
  intros H1 H2 HQ Hp. pose proof (caps_inv _ _ _ _ _ _ H1 H2) as (HL & Hr & MQ & Hc & ->).
  apply cyl_init_inv in H1 as (_ & _ & _ & _ & ->). set (Q := pose_rot 3 ro) in *. set (ce := pose_tr 3 co) in *.
  exists (end1 L Q ce), (end2 L Q ce). split; [apply endpoints_eq; auto|].
  assert (La : length (end1 L Q ce) = 3%nat) by (apply end_len; auto).
  assert (Lb : length (end2 L Q ce) = 3%nat) by (apply end_len; auto).
  unfold caps_must_contain. cbn [k_caps caps_of]. set (a := end1 L Q ce) in *. set (b := end2 L Q ce) in *. clearbody a b.
  split.
  - intros (p1 & p2 & t & L1 & L2 & C1 & C2 & T1 & T2 & ->).
    apply cap_must_contain in C1 as [_ C1]; auto. apply cap_must_contain in C2 as [_ C2]; auto.
    destruct (Req_EM_T s 0) as [->|Ns].
    + assert (t = 0) by lra. subst t. rewrite vscale_0, La, vsub_zeros_r, Rmult_0_l in C1 by auto.
      rewrite Rminus_0_r, vscale_0, Lb, vsub_zeros_r, Rmult_0_l in C2 by auto. right. split; [auto|].
      assert (N0 : forall v, length v = 3%nat -> norm v <= 0 -> v = zeros 3).
      { intros v Lv Hv. rewrite <- Lv. apply dot_self_zero. rewrite <- norm_sqr. pose proof (norm_nonneg v).
        assert (norm v = 0) by lra. rewrite H0. ring. }
      rewrite (N0 p1 L1 C1), (N0 p2 L2 C2). apply vadd_zeros_r, zeros_length.
    + left. assert (Hs : 0 < s) by lra. split; [auto|].
      exists (vadd (vscale (1 - (s - t) / s) a) (vscale ((s - t) / s) b)). split.
      * exists ((s - t) / s). split; [|reflexivity]. split.
        -- apply Rmult_le_pos; [lra|left; apply Rinv_0_lt_compat; auto].
        -- apply div_le_iff; lra.
      * set (w1 := vsub p1 (vscale t a)) in *. set (w2 := vsub p2 (vscale (s - t) b)) in *.
        assert (Lw1 : length w1 = 3%nat) by (unfold w1; rewrite vsub_length; rewrite ?vscale_length; congruence).
        assert (Lw2 : length w2 = 3%nat) by (unfold w2; rewrite vsub_length; rewrite ?vscale_length; congruence).
        replace (vsub (vscale (/ s) (vadd p1 p2)) _) with (vscale (/ s) (vadd w1 w2)).
        -- rewrite norm_vscale, Rabs_pos_eq by (left; apply Rinv_0_lt_compat; auto).
           apply Rmult_le_reg_l with s; auto. rewrite <- Rmult_assoc, Rinv_r, Rmult_1_l by lra.
           eapply Rle_trans; [apply norm_triangle; congruence|]. lra.
        -- apply (vec_ext 3).
           ++ rewrite vscale_length, vadd_length; congruence.
           ++ rewrite vsub_length; rewrite ?vscale_length, ?vadd_length; rewrite ?vscale_length; congruence.
           ++ intros i Hi. rewrite nth_vsub by (rewrite ?vscale_length, ?vadd_length; rewrite ?vscale_length; congruence).
              rewrite !nth_vscale, !nth_vadd, !nth_vscale by (rewrite ?vscale_length; congruence).
              unfold w1, w2. rewrite !nth_vsub, !nth_vscale by (rewrite ?vscale_length; congruence). field. lra.
  - intros [[Hs (q & (sg & Hsg & ->) & Hn)]|[-> ->]].
    + set (w := vsub (vscale (/ s) p) (vadd (vscale (1 - sg) a) (vscale sg b))) in *.
      assert (Lw : length w = 3%nat) by (unfold w; rewrite vsub_length; rewrite ?vscale_length, ?vadd_length; rewrite ?vscale_length; congruence).
      assert (G : forall t v, 0 <= t -> length v = 3%nat -> norm (vsub (vscale t (vadd v w)) (vscale t v)) <= t * r).
      { intros t v Ht Lv. replace (vsub (vscale t (vadd v w)) (vscale t v)) with (vscale t w).
        - rewrite norm_vscale, Rabs_pos_eq by auto. apply Rmult_le_compat_l; auto.
        - apply (vec_ext 3); [rewrite vscale_length; auto|rewrite vsub_length; rewrite !vscale_length, ?vadd_length; congruence|].
          intros i Hi. rewrite nth_vsub, !nth_vscale, nth_vadd by (rewrite ?vscale_length, ?vadd_length; congruence). ring. }
      exists (vscale ((1 - sg) * s) (vadd a w)), (vscale (s - (1 - sg) * s) (vadd b w)), ((1 - sg) * s).
      do 2 (split; [rewrite vscale_length, vadd_length; congruence|]).
      assert (T1 : 0 <= (1 - sg) * s) by (apply Rmult_le_pos; lra).
      assert (T2 : 0 <= sg * s) by (apply Rmult_le_pos; lra).
      split; [apply cap_must_contain; auto; rewrite ?vscale_length, ?vadd_length; try congruence; split; auto|].
      split; [apply cap_must_contain; auto; rewrite ?vscale_length, ?vadd_length; try congruence; split; [lra|apply G; auto; lra]|].
      split; [auto|]. split; [lra|].
      apply (vec_ext 3); [auto|rewrite vadd_length; rewrite !vscale_length, !vadd_length; congruence|].
      intros i Hi. rewrite nth_vadd, !nth_vscale, !nth_vadd by (rewrite ?vscale_length, ?vadd_length; congruence).
      unfold w. rewrite nth_vsub by (rewrite ?vscale_length, ?vadd_length; rewrite ?vscale_length; congruence).
      rewrite nth_vadd, !nth_vscale by (rewrite ?vscale_length; congruence). field. lra.
    + exists (zeros 3), (zeros 3), 0. do 2 (split; [reflexivity|]).
      assert (Z : forall v, length v = 3%nat -> ell_must_contain (cap_at r v) (zeros 3) 0).
      { intros v Lv. apply cap_must_contain; auto. split; [lra|]. rewrite vscale_0, Lv, vsub_zeros_r by auto.
        unfold norm. rewrite dot_zeros_l, sqrt_0. lra. }
      split; [apply Z; auto|]. rewrite Rminus_0_r. split; [apply Z; auto|]. split; [lra|]. split; [lra|].
      symmetry. apply vadd_zeros_r. reflexivity.
Qed.

(** ** C31 for boxes *)
Lemma box_face_len h c r b : box_init h c r = Ok b -> length (p_A (b_poly b)) = length (p_b (b_poly b)).
Proof.
  intro H. apply box_init_inv in H as (H1 & H2 & <- & _ & _ & H3 & H4 & H5 & H6 & _).
  change (length (b_A b) = length (b_b b)). rewrite H6, H5. rewrite vadd_length; rewrite ?mat_vec_length, mat_mul_length; reflexivity.
Qed.
Lemma map_add0 v : map (fun x => x + 0) v = v.
Proof. induction v; cbn; f_equal; auto. lra. Qed.
Lemma box_faces h c r b p : box_init h c r = Ok b -> orthogonal 3 (pose_rot 3 r) -> length p = 3%nat ->
  (halfspaces (p_A (b_poly b)) (p_b (b_poly b)) p <-> box_set h (pose_rot 3 r) (pose_tr 3 c) p).
Proof.
  intros H HQ Hp. rewrite <- (box_w_contains _ _ _ _ _ H HQ Hp). unfold box_contains.
  rewrite poly_contains_iff by (eapply box_face_len; eauto). rewrite map_add0. reflexivity.
Qed.
Lemma box_must_contain_iff h c r b p s : box_init h c r = Ok b -> orthogonal 3 (pose_rot 3 r) -> length p = 3%nat ->
  0 <= s -> (poly_must_contain (b_poly b) p s <->
   (0 < s /\ box_set h (pose_rot 3 r) (pose_tr 3 c) (vscale (/ s) p)) \/ (s = 0 /\ p = zeros 3)).
Proof.
  intros H HQ Hp Hs. pose proof (box_face_len _ _ _ _ H) as L. destruct (Req_EM_T s 0) as [->|Ns].
  - pose proof (box_init_inv _ _ _ _ H) as (L3 & _ & _ & Ec & Er & MR & LC & _ & _ & EV & _).
    rewrite (poly_must_contain_zero _ _ 3); auto.
    + intuition lra.
    + change (p_vertices (b_poly b)) with (b_vertices b). rewrite EV. intros v Hv. apply in_map_iff in Hv as (u & <- & _). apply (move_len 3); auto.
    + change (p_vertices (b_poly b)) with (b_vertices b). rewrite EV. destruct (len3_inv _ L3) as (x & y & z & ->). discriminate.
    + intros y Hy. rewrite (box_faces _ _ _ _ _ H HQ Hy), <- (box_w_vertices _ _ _ _ _ H Hy). reflexivity.
  - assert (0 < s) by lra. rewrite poly_must_contain_iff by auto. rewrite (box_faces _ _ _ _ _ H HQ) by (rewrite vscale_length; auto).
    intuition lra.
Qed.
Lemma poly_w_must_contain p x s : length (p_A p) = length (p_b p) -> 0 < s ->
  (poly_must_contain p x s <-> poly_contains p (vscale (/ s) x) 0 = true).
Proof. intros L Hs. rewrite poly_must_contain_iff, poly_contains_iff, map_add0 by auto. reflexivity. Qed.

(** ** C66: Cylinder.is_same *)
Lemma isclose_refl rt at_ x : 0 <= rt -> 0 <= at_ -> isclose rt at_ x x = true.
Proof.
  intros H1 H2. unfold isclose. apply Rleb_iff. rewrite Rminus_diag_eq, Rabs_R0 by reflexivity.
  pose proof (Rmult_le_pos _ _ H1 (Rabs_pos x)). lra.
Qed.
Lemma np_rtol_pos : 0 < np_rtol.
Proof. unfold np_rtol. lra. Qed.
Lemma allclose_vec_refl rt at_ x : 0 <= rt -> 0 <= at_ -> allclose_vec rt at_ x x = true.
Proof. intros H1 H2. unfold allclose_vec. induction x; cbn; auto. rewrite isclose_refl, IHx; auto. Qed.
Lemma allclose_mat_refl rt at_ M : 0 <= rt -> 0 <= at_ -> allclose_mat rt at_ M M = true.
Proof.
  intros H1 H2. unfold allclose_mat. induction M as [|r M IH]; auto. cbn [map2 concat]. rewrite forallb_app, IH.
  pose proof (allclose_vec_refl rt at_ r H1 H2) as A. unfold allclose_vec in A. rewrite A. reflexivity.
Qed.
Lemma cyl_is_same_refl c : cyl_is_same c c = true.
Proof.
  pose proof np_rtol_pos. pose proof np_atol_pos. unfold cyl_is_same.
  rewrite !isclose_refl, allclose_vec_refl, allclose_mat_refl by lra. reflexivity.
Qed.
(** turning a cylinder by 90 degrees about its own axis *)
Lemma quarter_orth : orthogonal 3 Q0.
Proof. split; [split; [reflexivity|repeat constructor]|]. split; cbn; unfold dot; cbn; list_eq; lra. Qed.
Lemma move_quarter Q c x y z : is_mat 3 3 Q -> length c = 3%nat ->
  move (mat_mul Q Q0) c [x; y; z] = move Q c [- y; x; z].
Proof. intros HQ Hc. destruct_vecs. unfold move, Q0. cbn. unfold dot. cbn. list_eq; ring. Qed.
Lemma cyl_set_quarter L r Q c p : is_mat 3 3 Q -> length c = 3%nat ->
  (cyl_set L r (mat_mul Q Q0) c p <-> cyl_set L r Q c p).
Proof.
  intros HQ Hc. split; intros (x & y & z & H1 & H2 & ->).
  - rewrite move_quarter by auto. exists (- y), x, z. split; [lra|auto].
  - exists y, (- x), z. split; [lra|]. split; [auto|]. rewrite move_quarter by auto. do 2 f_equal. f_equal; lra.
Qed.
Lemma isclose_inv rt at_ a b : isclose rt at_ a b = true -> Rabs (a - b) <= at_ + rt * Rabs b.
Proof. unfold isclose. apply Rleb_iff. Qed.
Lemma cyl_is_same_quarter L r Q c c1 c2 : cyl_init L r (Some Q) (Some c) = Ok c1 ->
  cyl_init L r (Some (mat_mul Q Q0)) (Some c) = Ok c2 -> orthogonal 3 Q ->
  orthogonal 3 (mat_mul Q Q0) /\
  (forall p, cyl_set L r Q c p <-> cyl_set L r (mat_mul Q Q0) c p) /\ cyl_is_same c1 c2 = false.
Proof.
  intros H1 H2 HQ. apply cyl_init_inv in H1 as (_ & _ & MQ & Hc & ->). apply cyl_init_inv in H2 as (_ & _ & _ & _ & ->).
  cbn [pose_rot pose_tr] in *.
  split; [apply orthogonal_mul; auto using quarter_orth; lia|].
  split; [intro p; symmetry; apply cyl_set_quarter; auto|].
  destruct (cyl_is_same _ _) eqn:E; [exfalso|reflexivity].
  unfold cyl_is_same in E. apply andb_true_iff in E as [_ E]. cbn [c_rot cyl_of] in E.
  destruct HQ as (_ & O & _). clear Hc c. unfold Q0 in E.
  assert (NN : np_atol + np_rtol * 1 <= 1 / 10) by (unfold np_atol, np_rtol; lra).
  pose proof np_rtol_pos as RP. pose proof np_atol_pos as AP.
  destruct_vecs. cbn in O. unfold dot in O. cbn in O. cbn in E. unfold dot in E. cbn in E.
  rewrite !andb_true_iff in E. destruct E as (E0 & E1 & E2 & E3 & E4 & E5 & E6 & E7 & E8 & _).
  apply isclose_inv in E0, E1, E3, E4, E6, E7.
  injection O as A1 A2 A3 A4 A5 A6 A7 A8 A9.
  match type of A1 with ?a * ?a + (?b * ?b + (?c * ?c + 0)) = 1 => set (a1 := a) in *; set (b1 := b) in *; set (d1 := c) in * end.
  match type of A5 with ?a * ?a + (?b * ?b + (?c * ?c + 0)) = 1 => set (a2 := a) in *; set (b2 := b) in *; set (d2 := c) in * end.
  assert (B : forall u v w e, u * u <= 1 -> Rabs (v - e) <= np_atol + np_rtol * Rabs e -> e = u -> w = v - u -> w * w <= 1 / 100).
  { intros u v w e Hu He -> ->. assert (Rabs u <= 1) by (apply sqr_le_abs; lra).
    assert (Rabs (v - u) <= 1 / 10).
    { eapply Rle_trans; [exact He|]. eapply Rle_trans; [|exact NN]. apply Rplus_le_compat_l. apply Rmult_le_compat_l; lra. }
    apply sqr_abs_le in H0. lra. }
  pose proof (sqr_nonneg a2). pose proof (sqr_nonneg b2). pose proof (sqr_nonneg d2).
  pose proof (B a2 _ (a1 - a2) _ ltac:(lra) E0 ltac:(unfold a2; ring) eq_refl).
  pose proof (B b2 _ (b1 - b2) _ ltac:(lra) E3 ltac:(unfold b2; ring) eq_refl).
  pose proof (B d2 _ (d1 - d2) _ ltac:(lra) E6 ltac:(unfold d2; ring) eq_refl).
  lra.
Qed.
Lemma cyl_example : exists c, cyl_init 2 1 (Some Q0) (Some t0) = Ok c.
Proof. apply cyl_w_total; try lra; [apply Q0_orth|reflexivity]. Qed.
Lemma caps_example : exists c k, cyl_init 2 1 (Some Q0) (Some t0) = Ok c /\ caps_init c = Ok k.
Proof.
  pose proof (cyl_init_good 2 1 (Some Q0) (Some t0) ltac:(lra) ltac:(lra) (proj1 Q0_orth) eq_refl) as H.
  do 2 eexists. split; [exact H|]. apply caps_init_good; [lra|apply Q0_orth|reflexivity].
Qed.
