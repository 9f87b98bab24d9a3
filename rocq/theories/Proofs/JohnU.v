(** The extremal-ellipsoid programs have at most one solution. *)
From Verif Require Import Base.Vec Base.VecFacts Proofs.Coord Proofs.Hull Base.Ext Model.Util Model.Constraint Model.Extremal
  Spec.Basic Spec.Shapes Spec.ExtremalSpec Spec.Geodesic Proofs.LinAlg Proofs.MatAlg Proofs.EllP Proofs.BoxP Proofs.MustContain Proofs.ExtremalP Proofs.ExtremalOpt Proofs.Decomp Proofs.LogDet.

Section U.
Context (n : nat) (Hn : (0 < n)%nat) (log_det : mat -> R) (HL : log_det_spec n log_det).
#[local] Hint Resolve is_mat_madd is_mat_mscale mm_ok tr_ok is_mat_eye : mat.
Ltac mok := auto 20 with mat.

Lemma psd_var_SPD A : cp_psd_var n A -> pos_def n A -> SPD n A.
Proof. intros (MA & TA & _) P. split; [exact MA|]. split; [|exact P]. intros i j Hi Hj. rewrite <- TA at 1. apply entry_transpose. now rewrite (is_mat_ncols _ _ _ MA). Qed.
Lemma SPD_psd_var A : SPD n A -> cp_psd_var n A /\ pos_def n A.
Proof.
  intros (MA & SA & PA). split; [|exact PA]. split; [exact MA|]. split; [apply (symmetric_transpose n); auto|].
  intros z Lz. destruct (list_eq_dec Req_EM_T z (zeros n)) as [->|N]; [unfold quad; rewrite dot_zeros_l; lra|]. apply Rlt_le, PA; auto.
Qed.
(** two maximisers with feasible midpoint agree *)
Lemma log_det_strict X Y l : SPD n X -> SPD n Y -> log_det X = l -> log_det Y = l -> log_det (madd (mscale (1 - / 2) X) (mscale (/ 2) Y)) <= l -> X = Y.
Proof.
  intros HX HY EX EY HM. set (Z := madd _ _) in *. assert (HZ : SPD n Z) by (apply SPD_mix; auto; lra).
  destruct (SPD_inverse n Hn Z HZ) as (Z' & IZ). pose proof IZ as (_ & HZ' & _).
  destruct (log_det_support n Hn log_det HL X Z Z' HX HZ IZ) as [B1 S1]. destruct (log_det_support n Hn log_det HL Y Z Z' HY HZ IZ) as [B2 S2].
  assert (E : (1 - / 2) * trace (mat_mul Z' X) + / 2 * trace (mat_mul Z' Y) = INR n).
  { rewrite <- (trace_mix n) by (auto; (apply HX || apply HY)). now apply (trace_inv_self n). }
  rewrite S1, S2 by lra. reflexivity.
Qed.
Lemma mscale_SPD t A : 0 < t -> SPD n A -> SPD n (mscale t A).
Proof.
  intros Ht (MA & SA & PA). split; [mok|]. split.
  - intros i j Hi Hj. rewrite !entry_mscale. now rewrite (SA i j).
  - intros x Lx Nx. rewrite quad_mscale. apply Rmult_lt_0_compat; auto.
Qed.
(** enlarging a matrix enlarges log_det *)
Lemma log_det_grow X Y : SPD n X -> SPD n Y -> (forall x, length x = n -> quad X x <= quad Y x) -> X <> Y -> log_det X < log_det Y.
Proof.
  intros HX HY HQ NE. destruct (SPD_inverse n Hn Y HY) as (Y' & IY). destruct (log_det_support n Hn log_det HL X Y Y' HX HY IY) as [B S].
  destruct (SPD_diag n Hn Y HY) as (U & b & HU & Lb & Pb & EY).
  assert (PY : PSD n Y').
  { pose proof (congruent_inverse n Hn U b HU Lb Pb) as IC. rewrite <- EY in IC. rewrite (inv_unique n Hn _ _ _ IY IC).
    destruct (congd_psd n U (map Rinv b) Hn HU) as (C1 & C2 & C3); [now rewrite map_length|now apply inv_pos_in|]. split; [exact C1|]. split; [now apply transpose_symmetric|exact C3]. }
  assert (T : trace (mat_mul Y' X) <= trace (mat_mul Y' Y)).
  { destruct (decomp_exists n Y' PY) as (zs & D). pose proof PY as (MY' & _). rewrite !(trace_comm n Hn Y') by (auto; (apply HX || apply HY)).
    rewrite !(trace_decomp n _ zs) by (auto; (apply HX || apply HY)). apply lsum_map_le. intros z Hz. apply HQ. now apply D. }
  rewrite (trace_inv_self n Y Y' IY) in T. destruct (Rle_lt_or_eq_dec _ _ B) as [L|E]; [lra|]. exfalso. auto.
Qed.

Lemma mat_vec_half A B x : is_mat n n A -> is_mat n n B -> length x = n ->
  mat_vec (madd (mscale (1 - / 2) A) (mscale (/ 2) B)) x = vscale (/ 2) (vadd (mat_vec A x) (mat_vec B x)).
Proof.
  intros MA MB Lx. rewrite (mat_vec_madd n n) by mok. rewrite !mat_vec_mscale. assert (LA : length (mat_vec A x) = n) by (rewrite mat_vec_length; apply MA).
  assert (LB : length (mat_vec B x) = n) by (rewrite mat_vec_length; apply MB). apply (vec_ext n); [len|len|]. intros i Hi.
  rewrite ?nth_vscale, !nth_vadd, !nth_vscale by len. field.
Qed.
Lemma half_sphere A B : (exists r, A = mscale r (eye n)) -> (exists r, B = mscale r (eye n)) -> exists r, madd (mscale (1 - / 2) A) (mscale (/ 2) B) = mscale r (eye n).
Proof.
  intros (r & ->) (s & ->). exists (/ 2 * (r + s)). apply (mat_ext n n); mok. intros i j Hi Hj. rewrite (entry_madd _ _ n n) by mok. rewrite !entry_mscale. field.
Qed.
Lemma vsub_zero x y : length x = n -> length y = n -> dot (vsub x y) (vsub x y) = 0 -> x = y.
Proof.
  intros Lx Ly E. apply dot_self_zero in E. apply (vec_ext n); auto. intros i Hi. assert (X : nth i (vsub x y) 0 = 0) by (rewrite E; apply nth_zeros).
  rewrite nth_vsub in X by len. lra.
Qed.

(** * The minimum bounding ellipsoid *)
Lemma mbe_unique P sphere A1 b1 A2 b2 : (forall x, In x P -> length x = n) ->
  mbe_points_constraints n P sphere A1 b1 -> pos_def n A1 -> mbe_points_constraints n P sphere A2 b2 -> pos_def n A2 ->
  (forall A b, mbe_points_constraints n P sphere A b -> pos_def n A -> log_det A <= log_det A1) ->
  (forall A b, mbe_points_constraints n P sphere A b -> pos_def n A -> log_det A <= log_det A2) -> A1 = A2 /\ b1 = b2.
Proof.
  intros HP F1 D1 F2 D2 O1 O2. pose proof F1 as (V1 & L1 & C1 & S1). pose proof F2 as (V2 & L2 & C2 & S2).
  pose proof (psd_var_SPD A1 V1 D1) as P1. pose proof (psd_var_SPD A2 V2 D2) as P2. assert (EQ : log_det A2 = log_det A1) by (apply Rle_antisym; eauto).
  pose proof P1 as (M1 & _). pose proof P2 as (M2 & _).
  set (M := madd (mscale (1 - / 2) A1) (mscale (/ 2) A2)). set (m := vscale (/ 2) (vadd b1 b2)). assert (Lm : length m = n) by (unfold m; len).
  assert (PM : SPD n M) by (apply SPD_mix; auto; lra). destruct (SPD_psd_var M PM) as (VM & DM).
  assert (EM : forall x, length x = n -> vadd (mat_vec M x) m = vscale (/ 2) (vadd (vadd (mat_vec A1 x) b1) (vadd (mat_vec A2 x) b2))).
  { intros x Lx. unfold M, m. rewrite mat_vec_half by auto. assert (LA : length (mat_vec A1 x) = n) by (rewrite mat_vec_length; apply M1).
    assert (LB : length (mat_vec A2 x) = n) by (rewrite mat_vec_length; apply M2). vring n. }
  assert (FM : mbe_points_constraints n P sphere M m).
  { split; [exact VM|]. split; [exact Lm|]. split.
    - intros x Hx. pose proof (HP x Hx) as Lx. rewrite EM, norm_vscale, Rabs_right by (auto; lra). specialize (C1 x Hx). specialize (C2 x Hx).
      assert (LA : length (mat_vec A1 x) = n) by (rewrite mat_vec_length; apply M1). assert (LB : length (mat_vec A2 x) = n) by (rewrite mat_vec_length; apply M2).
      pose proof (norm_triangle (vadd (mat_vec A1 x) b1) (vadd (mat_vec A2 x) b2) ltac:(len)). lra.
    - intros Sp. apply half_sphere; auto. }
  assert (E : A1 = A2) by (apply (log_det_strict A1 A2 (log_det A1)); auto; apply (O1 M m); auto). split; [exact E|].
  destruct (Req_dec (dot (vsub b1 b2) (vsub b1 b2)) 0) as [Z|NZ]; [now apply vsub_zero|]. exfalso. subst A2.
  set (d := dot (vsub b1 b2) (vsub b1 b2)) in *. assert (Pd : 0 < d) by (pose proof (dot_self_nonneg (vsub b1 b2)); unfold d in *; lra).
  set (t := 1 + d / 8). assert (Pt : 0 < t) by (unfold t; lra). pose proof (mscale_SPD t A1 Pt P1) as PT. destruct (SPD_psd_var _ PT) as (VT & DT).
  assert (FT : mbe_points_constraints n P sphere (mscale t A1) (vscale t m)).
  { split; [exact VT|]. split; [len|]. split.
    - intros x Hx. pose proof (HP x Hx) as Lx. specialize (C1 x Hx). specialize (C2 x Hx). assert (LA : length (mat_vec A1 x) = n) by (rewrite mat_vec_length; apply M1).
      set (u := vadd (mat_vec A1 x) b1) in *. set (v := vadd (mat_vec A1 x) b2) in *. assert (Lu : length u = n) by (unfold u; len). assert (Lv : length v = n) by (unfold v; len).
      assert (EW : vadd (mat_vec (mscale t A1) x) (vscale t m) = vscale (t * / 2) (vadd u v)) by (rewrite mat_vec_mscale; unfold u, v, m; vring n; field).
      rewrite EW. apply (norm_le_iff _ 1); [lra|]. apply (norm_le_iff _ 1) in C1; [|lra]. apply (norm_le_iff _ 1) in C2; [|lra].
      assert (ED : vsub b1 b2 = vsub u v) by (unfold u, v; vring n). 
      assert (ES : dot (vadd u v) (vadd u v) = 2 * dot u u + 2 * dot v v - d).
      { unfold d. rewrite ED. clear - Lu Lv. rewrite (dot_rsum n), (dot_rsum n u), (dot_rsum n v), (dot_rsum n (vsub u v)) by len. rewrite <- !rsum_scal, <- rsum_plus, <- rsum_minus. apply rsum_ext. intros i Hi. rewrite !nth_vadd, !nth_vsub by len. ring. }
      rewrite dot_vscale_l, dot_vscale_r, ES. pose proof (dot_self_nonneg (vadd u v)) as N. rewrite ES in N. assert (d <= 4) by lra.
      assert (2 * dot u u + 2 * dot v v - d <= 4 - d) by lra. 
      apply Rle_trans with (t * / 2 * (t * / 2 * (4 - d))); [repeat (apply Rmult_le_compat_l; [lra|]); lra|]. unfold t. assert (0 < d * d) by nra. assert (0 < d * d * d) by nra. nra.
    - intros Sp. destruct (S1 Sp) as (r & ->). exists (t * r). apply (mat_ext n n); mok. intros i j Hi Hj. rewrite !entry_mscale. ring. }
  specialize (O1 _ _ FT DT). assert (NE : A1 <> mscale t A1).
  { intros EE. assert (X : quad A1 (unit_vec n 0) = quad (mscale t A1) (unit_vec n 0)) by now rewrite <- EE. rewrite quad_mscale in X.
    assert (0 < quad A1 (unit_vec n 0)); [|unfold t in X; nra]. apply D1; [apply unit_vec_length|]. intros Z. assert (Y : nth 0 (unit_vec n 0) 0 = nth 0 (zeros n) 0) by now rewrite Z.
    unfold unit_vec in Y. rewrite nth_map_seq, nth_zeros in Y by auto. cbn in Y. lra. }
  pose proof (log_det_grow A1 (mscale t A1) P1 PT) as G. assert (log_det A1 < log_det (mscale t A1)); [|lra]. apply G; auto.
  intros x Lx. rewrite quad_mscale. destruct V1 as (_ & _ & Q1). specialize (Q1 x Lx). unfold t. nra.
Qed.

(** * The maximum inscribed ellipsoid *)
Lemma mie_unique H h B1 c1 B2 c2 : is_mat (length h) n H -> forall sphere,
  mie_constraints n H h sphere B1 c1 -> pos_def n B1 -> mie_constraints n H h sphere B2 c2 -> pos_def n B2 ->
  (forall B c, mie_constraints n H h sphere B c -> pos_def n B -> log_det B <= log_det B1) ->
  (forall B c, mie_constraints n H h sphere B c -> pos_def n B -> log_det B <= log_det B2) -> B1 = B2 /\ (sphere = false -> c1 = c2).
Proof.
  intros MH sphere F1 D1 F2 D2 O1 O2. pose proof F1 as (V1 & L1 & C1 & S1). pose proof F2 as (V2 & L2 & C2 & S2).
  pose proof (psd_var_SPD B1 V1 D1) as P1. pose proof (psd_var_SPD B2 V2 D2) as P2. assert (EQ : log_det B2 = log_det B1) by (apply Rle_antisym; eauto).
  pose proof P1 as (M1 & _). pose proof P2 as (M2 & _).
  assert (HA : forall i, (i < length h)%nat -> length (nth i H []) = n) by (intros i Hi; now apply (is_mat_row (length h) n)).
  set (M := madd (mscale (1 - / 2) B1) (mscale (/ 2) B2)). set (m := vscale (/ 2) (vadd c1 c2)). assert (Lm : length m = n) by (unfold m; len).
  assert (PM : SPD n M) by (apply SPD_mix; auto; lra). destruct (SPD_psd_var M PM) as (VM & DM).
  assert (Dm : forall a, length a = n -> dot a m = / 2 * (dot a c1 + dot a c2)) by (intros a La; unfold m; rewrite dot_vscale_r, dot_vadd_r by len; ring).
  assert (FM : mie_constraints n H h sphere M m).
  { split; [exact VM|]. split; [exact Lm|]. split.
    - intros i Hi. specialize (C1 i Hi). specialize (C2 i Hi). specialize (HA i Hi). set (a := nth i H []) in *. unfold M. rewrite mat_vec_half, norm_vscale, Rabs_right, Dm by (auto; lra).
      assert (LA : length (mat_vec B1 a) = n) by (rewrite mat_vec_length; apply M1). assert (LB : length (mat_vec B2 a) = n) by (rewrite mat_vec_length; apply M2).
      pose proof (norm_triangle (mat_vec B1 a) (mat_vec B2 a) ltac:(len)). lra.
    - intros Sp. apply half_sphere; auto. }
  assert (E : B1 = B2) by (apply (log_det_strict B1 B2 (log_det B1)); auto; apply (O1 M m); auto). split; [exact E|]. intros ->.
  destruct (Req_dec (dot (vsub c1 c2) (vsub c1 c2)) 0) as [Z|NZ]; [now apply vsub_zero|]. exfalso. subst B2.
  set (u := vscale (/ 2) (vsub c1 c2)). assert (Lu : length u = n) by (unfold u; len).
  assert (Pu : 0 < dot u u). { unfold u. rewrite dot_vscale_l, dot_vscale_r. pose proof (dot_self_nonneg (vsub c1 c2)). nra. }
  assert (Nu : 0 < norm u) by (unfold norm; now apply sqrt_lt_R0).
  set (t := / norm u). assert (Pt : 0 < t) by now apply Rinv_0_lt_compat.
  assert (Mo : is_mat n n (outer u u)) by (rewrite <- Lu at 1 2; apply is_mat_outer).
  set (T := madd B1 (mscale t (outer u u))). assert (MT : is_mat n n T) by (unfold T; mok).
  assert (QT : forall x, length x = n -> quad T x = quad B1 x + t * (dot u x * dot u x)) by (intros x Lx; unfold T; rewrite (quad_madd n n) by mok; rewrite quad_mscale, quad_outer; ring).
  assert (PT : SPD n T).
  { split; [exact MT|]. split.
    - intros i j Hi Hj. unfold T. rewrite !(entry_madd _ _ n n) by mok. rewrite !entry_mscale. rewrite (proj1 (proj2 P1) i j) by auto. do 2 f_equal. rewrite !entry_outer by lia. ring.
    - intros x Lx Nx. rewrite QT by auto. specialize (D1 x Lx Nx). pose proof (sqr_nonneg (dot u x)). nra. }
  destruct (SPD_psd_var T PT) as (VT & DT).
  assert (FT : mie_constraints n H h false T m).
  { split; [exact VT|]. split; [exact Lm|]. split; [|discriminate]. intros i Hi. specialize (C1 i Hi). specialize (C2 i Hi). specialize (HA i Hi). set (a := nth i H []) in *.
    unfold T. rewrite (mat_vec_madd n n) by mok. rewrite mat_vec_mscale, mat_vec_outer, Dm by auto.
    assert (LA : length (mat_vec B1 a) = n) by (rewrite mat_vec_length; apply M1).
    pose proof (norm_triangle (mat_vec B1 a) (vscale t (vscale (dot u a) u)) ltac:(len)) as N. rewrite !norm_vscale, (Rabs_right t) in N by lra.
    assert (X : t * (Rabs (dot u a) * norm u) = Rabs (dot u a)) by (unfold t; field; lra). rewrite X in N.
    assert (Y : dot u a = / 2 * (dot a c1 - dot a c2)) by (unfold u; rewrite dot_vscale_l, dot_comm, dot_vsub_r by len; ring).
    assert (Rabs (dot u a) <= nth i h 0 - norm (mat_vec B1 a) - / 2 * (dot a c1 + dot a c2)); [|lra]. rewrite Y. apply Rabs_le. lra. }
  specialize (O1 _ _ FT DT). assert (log_det B1 < log_det T); [|lra]. apply log_det_grow; auto.
  - intros x Lx. rewrite QT by auto. pose proof (sqr_nonneg (dot u x)). nra.
  - intros EE. specialize (QT u Lu). rewrite <- EE in QT. assert (0 < t * (dot u u * dot u u)); [|lra]. apply Rmult_lt_0_compat; auto. now apply Rmult_lt_0_compat.
Qed.
End U.
