(** Extremal ellipsoids of symmetric sets. *)
From Verif Require Import Base.Vec Base.VecFacts Base.Ext Spec.Basic Spec.Shapes Spec.ShapeObjects Spec.DoubleDesc Spec.PolySpec Spec.ExtremalSpec Spec.Geodesic Spec.John Model.Util Model.Polydd Model.Constraint Model.Ellipsoid Model.Poly Model.Extremal
  Proofs.LinAlg Proofs.Hull Proofs.EllP Proofs.ConstructP Proofs.MatAlg Proofs.Coord Proofs.ExtremalP Proofs.JohnR Proofs.JohnM Proofs.JohnEx Proofs.OracleP Proofs.SimilarP Proofs.AffineP.

(** * The centre of an ellipsoid is determined by its points *)
Section E.
Context (n : nat) (h : vec) (Q : mat) (c : vec) (Lh : length h = n) (MQ : is_mat n n Q) (Lc : length c = n).
Lemma set_len x : ell_set h Q c x -> length x = n.
Proof. intros (u & Lu & _ & ->). unfold move. pose proof (is_mat_length _ _ _ MQ). rewrite vadd_length; rewrite mat_vec_length; congruence. Qed.
Lemma set_reflect x : ell_set h Q c x -> ell_set h Q c (vsub (vscale 2 c) x).
Proof.
  intros (u & Lu & Hu & ->). exists (vscale (-1) u). split; [now rewrite vscale_length|]. split; [rewrite dot_vscale_l, dot_vscale_r; lra|].
  unfold move. replace (vmul h (vscale (-1) u)) with (vscale (-1) (vmul h u)).
  - rewrite mat_vec_vscale. pose proof (is_mat_length _ _ _ MQ). assert (length (mat_vec Q (vmul h u)) = n) by (rewrite mat_vec_length; auto). apply (vec_ext n); [len|len|]. intros i Hi. rewrite nth_vsub, !nth_vadd, !nth_vscale, ?nth_vadd by len. ring.
  - assert (L : length (vmul h u) = n) by (rewrite vmul_length; congruence). apply (vec_ext n); [now rewrite vscale_length|rewrite vmul_length; rewrite ?vscale_length; congruence|]. intros i Hi. rewrite nth_vscale, !nth_vmul, nth_vscale by (rewrite ?vscale_length; congruence). ring.
Qed.
Lemma set_center : ell_set h Q c c.
Proof.
  exists (zeros n). split; [now rewrite zeros_length|]. split; [rewrite dot_zeros_l; lra|]. unfold move. replace (vmul h (zeros n)) with (zeros n).
  - rewrite mat_vec_zeros. rewrite (is_mat_length _ _ _ MQ). vring n.
  - apply (vec_ext n); [apply zeros_length|rewrite vmul_length; rewrite ?zeros_length; auto|]. intros i Hi. rewrite nth_vmul, nth_zeros by (rewrite zeros_length; auto). ring.
Qed.
Lemma set_bound y : length y = n -> exists B, forall x, ell_set h Q c x -> dot y (vsub x c) <= B.
Proof.
  intros Ly. destruct (Nat.eq_dec n 0) as [E0|N0].
  { exists 0. intros x Hx. assert (y = []) as -> by (apply length_zero_iff_nil; congruence). unfold dot. cbn. lra. }
  assert (Hn : (0 < n)%nat) by lia. set (z := mat_vec (transpose Q) y). pose proof (is_mat_transpose _ _ _ MQ Hn) as TQ. assert (Lz : length z = n) by (unfold z; rewrite mat_vec_length; apply TQ).
  exists (norm (vmul h z)). intros x (u & Lu & Hu & ->). assert (Lv : length (vmul h u) = n) by (rewrite vmul_length; congruence). pose proof (is_mat_length _ _ _ MQ) as LQ.
  replace (vsub (move Q c (vmul h u)) c) with (mat_vec Q (vmul h u)).
  2:{ unfold move. assert (length (mat_vec Q (vmul h u)) = n) by (rewrite mat_vec_length; auto). vring n. }
  rewrite (dot_mat_vec_t n n) by auto. fold z. replace (dot z (vmul h u)) with (dot (vmul h z) u).
  - pose proof (cauchy_schwarz_norm (vmul h z) u) as CS. pose proof (Rle_abs (dot (vmul h z) u)). assert (norm u <= 1) by (apply norm_le_iff; lra). pose proof (norm_nonneg (vmul h z)). nra.
  - rewrite !(dot_rsum n) by (rewrite ?vmul_length; congruence). apply rsum_ext. intros i Hi. rewrite !nth_vmul by congruence. ring.
Qed.
Lemma fixed_center T T' t : inverse n T T' -> length t = n -> (forall x, length x = n -> (ell_set h Q c (move T t x) <-> ell_set h Q c x)) -> move T t c = c.
Proof.
  intros IT Lt HS. pose proof IT as (MT & MT' & _). pose proof (is_mat_length _ _ _ MT) as LT. pose proof (is_mat_length _ _ _ MT') as LT'. set (c' := move T t c). assert (Lc' : length c' = n) by (unfold c', move; rewrite vadd_length; rewrite mat_vec_length; congruence).
  destruct (Nat.eq_dec n 0) as [E0|N0]; [apply (vec_ext n); auto; intros; lia|]. assert (Hn : (0 < n)%nat) by lia.
  assert (R' : forall x, ell_set h Q c x -> ell_set h Q c (vsub (vscale 2 c') x)).
  { intros x Hx. pose proof (set_len x Hx) as Lx. set (y := move T' (vneg (mat_vec T' t)) x). assert (Ly : length y = n) by (unfold y, move; rewrite vadd_length; rewrite ?vneg_length, ?mat_vec_length; auto).
    assert (Ey : move T t y = x) by (apply (move_forth n T T' t x); auto). rewrite <- Ey in Hx. apply (proj1 (HS y Ly)) in Hx. apply set_reflect in Hx. apply (proj2 (HS (vsub (vscale 2 c) y) ltac:(len))) in Hx.
    replace (vsub (vscale 2 c') x) with (move T t (vsub (vscale 2 c) y)); auto. rewrite <- Ey. clearbody y. unfold c', move. assert (L1 : length (mat_vec T c) = n) by (rewrite mat_vec_length; auto). assert (L2 : length (mat_vec T y) = n) by (rewrite mat_vec_length; auto).
    rewrite mat_vec_vsub by len. rewrite mat_vec_vscale. apply (vec_ext n); [len|len|]. intros i Hi. rewrite nth_vadd, !nth_vsub, !nth_vscale, !nth_vadd by len. ring. }
  set (dl := vsub c' c). assert (Ld : length dl = n) by (unfold dl; len).
  assert (ST : forall x, ell_set h Q c x -> ell_set h Q c (vadd x (vscale 2 dl))).
  { intros x Hx. pose proof (set_len x Hx) as Lx. pose proof (R' _ (set_reflect x Hx)) as G. replace (vadd x (vscale 2 dl)) with (vsub (vscale 2 c') (vsub (vscale 2 c) x)); auto. unfold dl. apply (vec_ext n); [len|len|]. intros i Hi. rewrite nth_vadd, !nth_vsub, !nth_vscale, !nth_vsub by len. ring. }
  assert (SK : forall k, ell_set h Q c (vadd c (vscale (2 * INR k) dl))).
  { induction k as [|k IH]; [replace (vadd c (vscale (2 * INR 0) dl)) with c; [apply set_center|]; apply (vec_ext n); [auto|len|]; intros i Hi; rewrite nth_vadd, nth_vscale by len; change (INR 0) with 0; ring|].
    apply ST in IH. rewrite S_INR. replace (vadd c (vscale (2 * (INR k + 1)) dl)) with (vadd (vadd c (vscale (2 * INR k) dl)) (vscale 2 dl)); auto. apply (vec_ext n); [len|len|]. intros i Hi. rewrite !nth_vadd, !nth_vscale by len. ring. }
  destruct (set_bound dl Ld) as (B & HB). destruct (Req_dec (dot dl dl) 0) as [Z|Z].
  - apply dot_self_zero in Z. rewrite Ld in Z. fold c'. apply (vec_ext n); auto. intros i Hi. pose proof (f_equal (fun v => nth i v 0) Z) as K. cbn beta in K. unfold dl in K. rewrite nth_zeros, nth_vsub in K by congruence. lra.
  - exfalso. pose proof (dot_self_nonneg dl) as P. assert (P' : 0 < dot dl dl) by lra. destruct (archimed (B / dot dl dl)) as (A1 & _).
    set (k := Z.to_nat (up (B / dot dl dl))). assert (Hk : B / dot dl dl < INR k).
    { unfold k. destruct (Z_le_gt_dec 0 (up (B / dot dl dl))) as [G|G]; [rewrite INR_IZR_INZ, Z2Nat.id by auto; lra|]. replace (Z.to_nat (up (B / dot dl dl))) with 0%nat by lia. change (INR 0) with 0. assert (IZR (up (B / dot dl dl)) <= 0) by (apply (IZR_le _ 0); lia). lra. }
    specialize (HB _ (SK k)). replace (vsub (vadd c (vscale (2 * INR k) dl)) c) with (vscale (2 * INR k) dl) in HB.
    + rewrite dot_vscale_r in HB. apply (Rmult_lt_compat_r (dot dl dl)) in Hk; auto. unfold Rdiv in Hk. rewrite Rmult_assoc, Rinv_l in Hk by lra. pose proof (pos_INR k). nra.
    + apply (vec_ext n); [len|len|]. intros i Hi. rewrite nth_vsub, nth_vadd by len. ring.
Qed.
End E.

Lemma mbe_shape orth null_space eigh lstsq solver points e : mbe_of_points orth null_space eigh lstsq solver points = Ok e ->
  is_mat (length (e_half e)) (length (e_half e)) (e_rot e) /\ length (e_center e) = length (e_half e).
Proof.
  unfold mbe_of_points. destruct points as [|r ps]; [discriminate|]. destruct (solver _) as [A b]. destruct (eigh A) as [w V]. intros H. apply ell_init_inv in H as (_ & E1 & _ & _ & M & L). rewrite E1. auto.
Qed.
(** a symmetry of the hull is one of the bounding ellipsoid *)
Lemma mbe_symmetric d T T' t points k orth null_space eigh lstsq solver :
  (0 < d)%nat -> inverse d T T' -> length t = d -> (forall x, In x points -> length x = d) -> same_hull d (map (move T t) points) points ->
  mbe_oracles d k orth null_space eigh lstsq solver points ->
  exists e, mbe_of_points orth null_space eigh lstsq solver points = Ok e /\ move T t (e_center e) = e_center e /\
    forall x, length x = d -> (ell_set (e_half e) (e_rot e) (e_center e) (move T t x) <-> ell_set (e_half e) (e_rot e) (e_center e) x).
Proof.
  intros Hd HT Lt HP HS H1. destruct (affine_run d Hd T T' HT t Lt k orth null_space eigh lstsq solver points HP H1) as (orth' & null' & eigh' & lstsq' & solver' & e & e' & H' & E1 & E2 & E3).
  assert (HP' : forall x, In x (map (move T t) points) -> length x = d) by (intros x Hx; apply in_map_iff in Hx as (p & <- & Hp); apply (am_len d T T' HT t Lt)).
  change (map (fun p => move T t p) points) with (map (move T t) points) in *.
  destruct (mbe_of_points_function d (map (move T t) points) points k orth' null' eigh' lstsq' solver' k orth null_space eigh lstsq solver) as (f & f' & F1 & F2 & _ & D2 & F3); auto.
  rewrite E2 in F1. injection F1 as <-. rewrite E1 in F2. injection F2 as <-. exists e. split; auto.
  assert (SY : forall x, length x = d -> (ell_set (e_half e) (e_rot e) (e_center e) (move T t x) <-> ell_set (e_half e) (e_rot e) (e_center e) x)) by (intros x Lx; rewrite <- F3; now apply E3).
  split; auto. destruct (mbe_shape _ _ _ _ _ _ _ E1) as (M & L). unfold e_dim in D2. rewrite D2 in M, L. now apply (fixed_center d (e_half e) (e_rot e) (e_center e) D2 M L T T' t).
Qed.
Lemma poly_mbe_symmetric d T T' t p k orth null_space eigh lstsq solver :
  (0 < d)%nat -> inverse d T T' -> length t = d -> (forall x, In x (p_vertices p) -> length x = d) -> same_hull d (map (move T t) (p_vertices p)) (p_vertices p) ->
  mbe_oracles d k orth null_space eigh lstsq solver (p_vertices p) ->
  exists e, poly_mbe orth null_space eigh lstsq solver p = Ok e /\ move T t (e_center e) = e_center e /\
    forall x, length x = d -> (ell_set (e_half e) (e_rot e) (e_center e) (move T t x) <-> ell_set (e_half e) (e_rot e) (e_center e) x).
Proof. intros Hd HT Lt HP HS H1. exact (mbe_symmetric d T T' t (p_vertices p) k orth null_space eigh lstsq solver Hd HT Lt HP HS H1). Qed.
(** a symmetry of the inequalities is one of the inscribed ellipsoid *)
Lemma mie_symmetric n T T' t A b eigh inv solver :
  (0 < n)%nat -> inverse n T T' -> length t = n -> (0 < length b)%nat -> is_mat (length b) n A ->
  (forall x, length x = n -> (halfspaces A b (move T t x) <-> halfspaces A b x)) -> mie_oracles n eigh inv solver A b false ->
  exists e, mie_inequality_form eigh inv solver A b false = Ok e /\ move T t (e_center e) = e_center e /\
    forall x, length x = n -> (ell_set (e_half e) (e_rot e) (e_center e) (move T t x) <-> ell_set (e_half e) (e_rot e) (e_center e) x).
Proof.
  intros Hn HT Lt Hb MA HS H1. destruct (mie_affine n T T' t A b A b eigh inv solver eigh inv solver) as (e & e2 & E1 & E2 & E3); auto. rewrite E1 in E2. injection E2 as <-. exists e. split; auto. split; auto.
  pose proof H1 as Q1. unfold mie_oracles in Q1. cbv zeta in Q1. destruct Q1 as ((ld & HL & OP) & I1 & G1 & W1). destruct (solver _) as [B c] eqn:S1. cbn [fst snd] in *. destruct OP as (F1 & D1 & O1). destruct (eigh (inv _)) as [w V] eqn:EV. cbn [fst snd] in *.
  destruct (mie_form_ball n A b false eigh inv solver B c w V) as (e0 & X1 & X2 & X3 & X4 & X5 & _); auto. rewrite E1 in X1. injection X1 as <-.
  assert (Lc : length (e_center e) = n) by (rewrite X4; apply F1). apply (fixed_center n (e_half e) (e_rot e) (e_center e) X3 (proj1 X5) Lc T T' t); auto.
Qed.

(** * Concrete cases *)
Lemma two_points : inverse 2 [[-1; 0]; [0; -1]] [[-1; 0]; [0; -1]] /\ map (move [[-1; 0]; [0; -1]] [4; 2]) [[1; 0]; [3; 2]] = [[3; 2]; [1; 0]] /\
  same_hull 2 [[3; 2]; [1; 0]] [[1; 0]; [3; 2]] /\ exists k orth null_space eigh lstsq solver, mbe_oracles 2 k orth null_space eigh lstsq solver [[1; 0]; [3; 2]].
Proof.
  assert (RL : forall P : mat, Forall (fun x => length x = 2%nat) P -> rows_len 2 P) by (intros P H; exact H || (intros x Hx; rewrite Forall_forall in H; auto)).
  split; [|split; [|split]].
  - split; [split; [reflexivity|repeat constructor]|]. split; [split; [reflexivity|repeat constructor]|]. split; (apply (mat_ext 2 2); [split; [reflexivity|repeat constructor]|split; [reflexivity|repeat constructor]|]; intros i j Hi Hj; destruct i as [|[|i]], j as [|[|j]]; try lia; unfold entry; cbn; ring).
  - unfold move, mat_vec, vadd, dot. cbn. repeat (f_equal; try ring).
  - intros x. split; apply hull_mono; try (apply RL; repeat constructor); intros v [<-|[<-|[]]]; (apply hull_vertex; [apply RL; repeat constructor|cbn; tauto]).
  - apply mbe_oracles_exist; [lia|intros x [<-|[<-|[]]]; reflexivity|]. exists [1; 0], [3; 2]. split; [now left|]. split; [right; now left|]. intro E. injection E. lra.
Qed.
Lemma reflected_interval : inverse 1 [[-1]] [[-1]] /\
  (forall x, length x = 1%nat -> (halfspaces [[1]; [-1]] [3; 1] (move [[-1]] [2] x) <-> halfspaces [[1]; [-1]] [3; 1] x)) /\
  mie_oracles 1 (fun _ => ([/ 4], [[1]])) (fun _ => [[/ 4]]) (fun _ => ([[2]], [1])) [[1]; [-1]] [3; 1] false.
Proof.
  split; [|split; [|exact stretch_solver]].
  - split; [split; [reflexivity|repeat constructor]|]. split; [split; [reflexivity|repeat constructor]|]. split; cbn; repeat (f_equal; try ring).
  - intros x Lx. destruct (len1_inv _ Lx) as (a & ->). split; intros H [|[|i]] Hi; cbn in Hi; try lia; pose proof (H 0%nat ltac:(cbn; lia)) as H0; pose proof (H 1%nat ltac:(cbn; lia)) as H1; cbn in H0, H1 |- *; lra.
Qed.
