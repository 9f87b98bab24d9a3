(** The extremal-ellipsoid programs have a solution exactly when the data allow one. *)
From Coq Require Import Classical.
From Verif Require Import Base.Vec Base.VecFacts Spec.Basic Spec.Shapes Spec.ExtremalSpec Spec.Geodesic Spec.John Model.Util Model.Constraint Model.Ellipsoid Model.Extremal
  Proofs.LinAlg Proofs.BoxP Proofs.MatAlg Proofs.Coord Proofs.Compact Proofs.EllP Proofs.EllForms Proofs.EllMore Proofs.MustContain Proofs.ExtremalP Proofs.ExtremalOpt Proofs.LogDet Proofs.JohnU Proofs.JohnE.

Lemma sphere_compact n : compact n (fun z => dot z z = 1).
Proof.
  apply (compact_ineqs n 1 bool (fun b z => if b then dot z z + - 1 else 1 + - dot z z)).
  - intros z Lz. split; [intros E []; rewrite E; lra|]. intros H. pose proof (H true). pose proof (H false). cbn in *. lra.
  - intros []; apply contR_plus; try apply contR_opp; try apply contR_dot_self; apply contR_const.
  - intros z Lz E i Hi. rewrite nth_zeros, Rminus_0_r. apply Rle_trans with (norm z); [apply abs_nth_le_norm|]. unfold norm. rewrite E, sqrt_1. lra.
Qed.
Lemma unit_nonzero n y : length y = n -> dot y y = 1 -> y <> zeros n.
Proof. intros L E ->. rewrite dot_zeros_l in E. lra. Qed.
Lemma normalise n y : length y = n -> y <> zeros n -> exists t, 0 < t /\ dot (vscale t y) (vscale t y) = 1.
Proof.
  intros L N. pose proof (dot_self_nonneg y). assert (P : 0 < dot y y). { destruct (Req_dec (dot y y) 0) as [Z|]; [|lra]. exfalso. apply N. apply dot_self_zero in Z. congruence. }
  exists (/ sqrt (dot y y)). pose proof (sqrt_lt_R0 _ P). split; [now apply Rinv_0_lt_compat|]. rewrite dot_vscale_l, dot_vscale_r. rewrite <- (sqrt_sqrt (dot y y)) at 3 by lra. field. lra.
Qed.
(** points on no hyperplane are spread in every direction *)
Lemma spans_width n P : spans n P -> (forall p, In p P -> length p = n) ->
  exists e, 0 < e /\ forall y, length y = n -> dot y y = 1 -> exists p q, In p P /\ In q P /\ e < Rabs (dot y p - dot y q).
Proof.
  intros HS HP. apply NNPP. intros HX.
  destruct (sphere_compact n (fun e y => forall p q, In p P -> In q P -> Rabs (dot y p - dot y q) <= e)) as (a & La & Ha & H).
  - intros e e' z He H p q Hp Hq. specialize (H p q Hp Hq). lra.
  - intros e He. apply NNPP. intros HY. apply HX. exists e. split; auto. intros y Ly Ey. apply NNPP. intros HZ. apply HY. exists y. split; auto. split; auto.
    intros p q Hp Hq. destruct (Rle_lt_dec (Rabs (dot y p - dot y q)) e); auto. exfalso. apply HZ. eauto.
  - apply (unit_nonzero n a); auto. apply HS; auto. intros p q Hp Hq.
    assert (C : contR n (fun z => Rabs (dot p z + - dot q z))) by (apply contR_abs, contR_plus; [|apply contR_opp]; apply contR_dot_const; auto).
    assert (Z : Rabs (dot p a + - dot q a) <= 0).
    { destruct (Rle_lt_dec (Rabs (dot p a + - dot q a)) 0) as [|Pos]; auto. exfalso. set (d := Rabs (dot p a + - dot q a)) in *.
      destruct (C a (d / 4) La ltac:(lra)) as (e & He & N). destruct (H (Rmin e (d / 4)) ltac:(apply Rmin_pos; lra)) as (z & Lz & Kz & Fz & Nz).
      specialize (N z Lz (near_le _ _ _ _ _ (Rmin_l _ _) Nz)). fold d in N. specialize (Fz p q Hp Hq). rewrite !(dot_comm z) in Fz. pose proof (Rmin_r e (d / 4)).
      unfold Rminus in Fz. apply abs_le_inv in N. lra. }
    apply abs_le_inv in Z. rewrite !(dot_comm a). lra.
Qed.
Lemma points_bounded (P : mat) : exists r, 0 < r /\ forall p, In p P -> norm p <= r.
Proof.
  induction P as [|p P (r & Hr & H)]; [exists 1; split; [lra|easy]|]. exists (Rmax r (norm p)). split; [apply Rlt_le_trans with r; [auto|apply Rmax_l]|].
  intros q [<-|Hq]; [apply Rmax_r|]. apply Rle_trans with r; [auto|apply Rmax_l].
Qed.

Section X.
Context (n : nat) (Hn : (0 < n)%nat) (log_det : mat -> R) (HL : log_det_spec n log_det).
#[local] Hint Resolve is_mat_madd is_mat_mscale mm_ok tr_ok is_mat_eye : mat.
Ltac mok := auto 20 with mat.

Lemma SPD_eye : SPD n (eye n).
Proof.
  split; [mok|]. split; [intros i j Hi Hj; rewrite !entry_eye by auto; now rewrite Nat.eqb_sym|].
  intros x Lx Nx. unfold quad. rewrite mat_vec_eye by auto. pose proof (dot_self_nonneg x). destruct (Req_dec (dot x x) 0) as [Z|]; [|lra]. exfalso. apply Nx. apply dot_self_zero in Z. congruence.
Qed.
Lemma eig_vec V w j : orthogonal n V -> length w = n -> (j < n)%nat ->
  exists v, length v = n /\ dot v v = 1 /\ mat_vec (congruent V w) v = vscale (nth j w 0) v.
Proof.
  intros HV Lw Hj. pose proof HV as (MV & V1 & V2). assert (LV : length V = n) by apply MV. exists (mat_vec V (unit_vec n j)). assert (Lu : length (unit_vec n j) = n) by apply unit_vec_length.
  split; [len|]. split.
  - rewrite (orthonormal_dot n n) by (auto using orthogonal_orthonormal). rewrite dot_unit_vec by auto. unfold unit_vec. rewrite nth_map_seq by auto. now rewrite Nat.eqb_refl.
  - change (congruent V w) with (congd V w). rewrite (congd_mat_vec n) by (auto; len). rewrite (orthonormal_apply n n) by (auto using orthogonal_orthonormal).
    rewrite <- mat_vec_vscale. f_equal. apply (vec_ext n); [rewrite vmul_length; congruence|len|]. intros i Hi. rewrite nth_vmul, nth_vscale by congruence.
    unfold unit_vec. rewrite nth_map_seq by auto. destruct (Nat.eqb_spec i j); [subst; ring|ring].
Qed.
Lemma congruent_norm V w x W : orthogonal n V -> length w = n -> (forall a, In a w -> 0 <= a <= W) -> 0 <= W -> length x = n ->
  norm (mat_vec (congruent V w) x) <= W * norm x.
Proof.
  intros HV Lw Hw HW Lx. pose proof HV as (MV & V1 & V2). assert (LV : length V = n) by apply MV. pose proof (is_mat_transpose _ _ _ MV Hn) as TV.
  change (congruent V w) with (congd V w). rewrite (congd_mat_vec n) by auto. set (y := mat_vec (transpose V) x). assert (Ly : length y = n) by (unfold y; rewrite mat_vec_length; apply TV).
  assert (Lwy : length (vmul w y) = n) by (rewrite vmul_length; congruence).
  apply norm_le_iff; [apply Rmult_le_pos; auto using norm_nonneg|]. rewrite (orthonormal_dot n n) by (auto using orthogonal_orthonormal).
  replace (W * norm x * (W * norm x)) with (W * W * (norm x * norm x)) by ring. rewrite norm_sqr.
  replace (dot x x) with (dot y y) by (unfold y; apply (orthonormal_dot n n); auto using orthogonal_orthonormal, orthogonal_transpose).
  rewrite !(dot_rsum n) by auto. rewrite <- rsum_scal. apply rsum_le. intros i Hi. rewrite nth_vmul by congruence.
  assert (B : 0 <= nth i w 0 <= W) by (apply Hw, nth_In; lia). pose proof (sqr_nonneg (nth i y 0)). replace (nth i w 0 * nth i y 0 * (nth i w 0 * nth i y 0)) with (nth i w 0 * nth i w 0 * (nth i y 0 * nth i y 0)) by ring.
  apply Rmult_le_compat_r; [auto|]. nra.
Qed.
Lemma congruent_sym V w : orthogonal n V -> length w = n -> is_mat n n (congruent V w) /\ transpose (congruent V w) = congruent V w.
Proof.
  intros HV Lw. pose proof HV as (MV & _). assert (MC : is_mat n n (congd V w)) by (apply congd_is_mat; auto). split; [exact MC|]. apply (symmetric_transpose n); auto. apply congd_sym; auto.
Qed.
(** multiples of the identity, entry by entry *)
Definition sphere_ij (sphere : bool) (ij : nat * nat) (A : mat) : R :=
  if sphere then Rabs (entry A (fst ij) (snd ij) + - (entry A 0 0 * entry (eye n) (fst ij) (snd ij))) else 0.
Lemma sphere_iff sphere A : is_mat n n A -> (forall ij, (fst ij < n)%nat /\ (snd ij < n)%nat -> sphere_ij sphere ij A <= 0) <-> (sphere = true -> exists r, A = mscale r (eye n)).
Proof.
  intros MA. split.
  - intros H ->. exists (entry A 0 0). apply (mat_ext n n); mok. intros i j Hi Hj. specialize (H (i, j) ltac:(auto)). cbn in H. apply abs_le_inv in H. rewrite entry_mscale. lra.
  - intros H (i & j) (Hi & Hj). unfold sphere_ij. cbn in *. destruct sphere; [|lra]. destruct (H eq_refl) as (r & ->). rewrite !entry_mscale, (entry_eye n 0 0) by auto. cbn [Nat.eqb].
    replace (r * entry (eye n) i j + - (r * 1 * entry (eye n) i j)) with 0 by ring. rewrite Rabs_R0. lra.
Qed.
Lemma sphere_cont sphere ij N X : (fst ij < n)%nat /\ (snd ij < n)%nat -> contM n N X -> contR N (fun z => sphere_ij sphere ij (X z)).
Proof.
  intros (Hi & Hj) (MX & CX). unfold sphere_ij. destruct sphere; [|apply contR_const]. apply contR_abs, contR_plus; [now apply CX|]. apply contR_opp, contR_mult; [now apply CX|apply contR_const].
Qed.

(** * The minimum bounding ellipsoid *)
Definition mbe_g P sphere (t : {x : vec | In x P} + {ij : nat * nat | (fst ij < n)%nat /\ (snd ij < n)%nat}) (A : mat) (b : vec) : R :=
  match t with
  | inl x => dot (vadd (mat_vec A (proj1_sig x)) b) (vadd (mat_vec A (proj1_sig x)) b) + - 1
  | inr ij => sphere_ij sphere (proj1_sig ij) A
  end.
Lemma mbe_g_iff P sphere A b : SPD n A -> length b = n -> mbe_points_constraints n P sphere A b <-> forall t, mbe_g P sphere t A b <= 0.
Proof.
  intros HA Lb. destruct (SPD_psd_var n A HA) as (VA & _). split.
  - intros (_ & _ & C & S) [(x & Hx)|(ij & Hij)]; cbn.
    + specialize (C x Hx). apply (norm_le_iff _ 1) in C; lra.
    + apply (proj2 (sphere_iff sphere A (proj1 HA))); auto.
  - intros H. split; [exact VA|]. split; [exact Lb|]. split.
    + intros x Hx. specialize (H (inl (exist _ x Hx))). cbn in H. apply (norm_le_iff _ 1); lra.
    + apply (sphere_iff sphere A (proj1 HA)). intros ij Hij. apply (H (inr (exist _ ij Hij))).
Qed.
Lemma mbe_exists P sphere : (forall x, In x P -> length x = n) -> wide n P sphere ->
  exists A b, log_det_optimal n log_det (mbe_points_constraints n P sphere) A b.
Proof.
  intros HP HW.
  assert (EB : exists r e, In r P /\ 0 < e /\ forall V w b, orthogonal n V -> length w = n -> (forall a, In a w -> 0 <= a) -> length b = n -> (forall t, mbe_g P sphere t (congruent V w) b <= 0) -> forall a, In a w -> a <= e).
  { assert (D : forall V w b p q, orthogonal n V -> length w = n -> length b = n -> (forall t, mbe_g P sphere t (congruent V w) b <= 0) -> In p P -> In q P -> norm (mat_vec (congruent V w) (vsub p q)) <= 2).
    { intros V w b p q HV Lw Lb Ht Hp Hq. pose proof (HP p Hp) as Lp. pose proof (HP q Hq) as Lq. destruct (congruent_sym V w HV Lw) as (MA & _). set (A := congruent V w) in *. assert (LA : length A = n) by apply MA.
      assert (N : forall x, In x P -> norm (vadd (mat_vec A x) b) <= 1) by (intros x Hx; specialize (Ht (inl (exist _ x Hx))); cbn in Ht; apply (norm_le_iff _ 1); lra).
      rewrite mat_vec_vsub by len. assert (length (mat_vec A p) = n) by len. assert (length (mat_vec A q) = n) by len.
      replace (vsub (mat_vec A p) (mat_vec A q)) with (vadd (vadd (mat_vec A p) b) (vscale (-1) (vadd (mat_vec A q) b))) by vring n.
      eapply Rle_trans; [apply norm_triangle; len|]. rewrite norm_vscale. replace (Rabs (-1)) with 1 by (rewrite Rabs_left; lra). pose proof (N p Hp). pose proof (N q Hq). lra. }
    destruct sphere; cbn in HW.
    - destruct HW as (p & q & Hp & Hq & Npq). pose proof (HP p Hp) as Lp. pose proof (HP q Hq) as Lq. exists p, (2 / norm (vsub p q)). split; [auto|].
      assert (Pn : 0 < norm (vsub p q)). { pose proof (norm_nonneg (vsub p q)). destruct (Req_dec (norm (vsub p q)) 0) as [Z|]; [|lra]. exfalso. apply Npq. apply (vsub_zero n); auto. rewrite <- norm_sqr, Z. ring. }
      split; [apply Rdiv_lt_0_compat; lra|]. intros V w b HV Lw Hw Lb Ht a Ha. destruct (In_nth _ _ 0 Ha) as (j & Hj & <-). rewrite Lw in Hj.
      specialize (D V w b p q HV Lw Lb Ht Hp Hq). destruct (congruent_sym V w HV Lw) as (MA & _).
      destruct (proj1 (sphere_iff true _ MA)) as (r & Er); auto; [intros ij Hij; apply (Ht (inr (exist _ ij Hij)))|].
      destruct (eig_vec V w j HV Lw Hj) as (v & Lv & Nv & Ev). rewrite Er in *. rewrite mat_vec_mscale, mat_vec_eye in Ev by auto. rewrite mat_vec_mscale, mat_vec_eye, norm_vscale in D by len.
      assert (X : r = nth j w 0). { assert (Y : dot v (vscale r v) = dot v (vscale (nth j w 0) v)) by now rewrite Ev. rewrite !dot_vscale_r, Nv in Y. lra. }
      subst r. specialize (Hw _ Ha). rewrite Rabs_right in D by lra. apply (Rmult_le_reg_r (norm (vsub p q))); [auto|]. unfold Rdiv. rewrite Rmult_assoc, Rinv_l by lra. lra.
    - destruct (spans_width n P HW HP) as (e & He & Hwd). 
      assert (IP : exists r, In r P). { destruct (Hwd (unit_vec n 0) (unit_vec_length _ _)) as (p & _ & Hp & _); [|eauto]. rewrite dot_unit_vec by (auto using unit_vec_length). unfold unit_vec. rewrite nth_map_seq by auto. reflexivity. }
      destruct IP as (r & Hr). exists r, (2 / e). split; [auto|]. split; [apply Rdiv_lt_0_compat; lra|]. intros V w b HV Lw Hw Lb Ht a Ha. destruct (In_nth _ _ 0 Ha) as (j & Hj & <-). rewrite Lw in Hj.
      destruct (eig_vec V w j HV Lw Hj) as (v & Lv & Nv & Ev). destruct (Hwd v Lv Nv) as (p & q & Hp & Hq & Hpq). specialize (D V w b p q HV Lw Lb Ht Hp Hq). specialize (Hw _ Ha).
      destruct (congruent_sym V w HV Lw) as (MA & TA). pose proof (HP p Hp) as Lp. pose proof (HP q Hq) as Lq.
      assert (X : nth j w 0 * dot v (vsub p q) = dot v (mat_vec (congruent V w) (vsub p q))) by (rewrite (sym_dot n) by (auto; len); now rewrite Ev, dot_vscale_l).
      pose proof (cauchy_schwarz_norm v (mat_vec (congruent V w) (vsub p q))) as CS. rewrite <- X, Rabs_mult, (Rabs_right (nth j w 0)) in CS by lra. rewrite dot_vsub_r in CS by len. replace (norm v) with 1 in CS by (unfold norm; now rewrite Nv, sqrt_1).
      apply (Rmult_le_reg_r e); [auto|]. unfold Rdiv. rewrite Rmult_assoc, Rinv_l by lra. nra. }
  destruct EB as (r & e & Hr & He & EB). destruct (points_bounded P) as (rho & Hrho & Prho).
  destruct (log_det_max n Hn _ (mbe_g P sphere) (Rmax e (1 + e * norm r))) with (log_det := log_det) (A0 := mscale (/ rho) (eye n)) (b0 := zeros n) as (A & b & PA & Lb & FA & MA); auto.
  - intros [(x & Hx)|(ij & Hij)] N X y CX Cy Ly; cbn; [|apply sphere_cont; auto]. pose proof (HP x Hx) as Lx. pose proof CX as (MX & _). assert (LX : forall z, length (X z) = n) by (intros z; apply MX).
    apply contR_plus; [|apply contR_const]. assert (C : contV N n (fun z => vadd (mat_vec (X z) x) (y z))).
    { intros i Hi. apply (contR_ext _ _ (fun z => nth i (mat_vec (X z) x) 0 + nth i (y z) 0)); [intros z _; specialize (LX z); specialize (Ly z); rewrite nth_vadd; [reflexivity|len]|].
      apply contR_plus; [|now apply Cy]. apply (contV_mat_vec n N X (fun _ => x)); auto. apply contV_const. }
    apply (contR_dot N _ _ n); auto; intros z _; specialize (LX z); specialize (Ly z); len.
  - intros V w b HV Lw Hw Lb Ht. specialize (EB V w b HV Lw Hw Lb Ht). split; [intros a Ha; apply Rle_trans with e; [auto|apply Rmax_l]|]. intros i Hi.
    apply Rle_trans with (1 + e * norm r); [|apply Rmax_r]. apply Rle_trans with (norm b); [apply abs_nth_le_norm|].
    pose proof (HP r Hr) as Lr. destruct (congruent_sym V w HV Lw) as (MA & _). assert (LA : length (congruent V w) = n) by apply MA.
    pose proof (Ht (inl (exist _ r Hr))) as T. cbn in T. assert (N1 : norm (vadd (mat_vec (congruent V w) r) b) <= 1) by (apply (norm_le_iff _ 1); lra).
    pose proof (congruent_norm V w r e HV Lw ltac:(intros a Ha; split; auto) ltac:(lra) Lr) as N2.
    assert (LAr : length (mat_vec (congruent V w) r) = n) by len.
    replace b with (vadd (vadd (mat_vec (congruent V w) r) b) (vscale (-1) (mat_vec (congruent V w) r))) by vring n.
    eapply Rle_trans; [apply norm_triangle; len|]. rewrite norm_vscale. replace (Rabs (-1)) with 1 by (rewrite Rabs_left; lra). lra.
  - apply mscale_SPD; [now apply Rinv_0_lt_compat|apply SPD_eye].
  - len.
  - intros [(x & Hx)|(ij & Hij)]; cbn.
    + pose proof (HP x Hx) as Lx. rewrite mat_vec_mscale, mat_vec_eye by auto. replace (vadd (vscale (/ rho) x) (zeros n)) with (vscale (/ rho) x) by vring n.
      specialize (Prho x Hx). assert (norm (vscale (/ rho) x) <= 1); [|apply (norm_le_iff _ 1) in H; lra]. pose proof (Rinv_0_lt_compat rho Hrho). rewrite norm_vscale, Rabs_right by lra.
      apply Rle_trans with (/ rho * rho); [apply Rmult_le_compat_l; lra|]. rewrite Rinv_l; lra.
    + apply (proj2 (sphere_iff sphere (mscale (/ rho) (eye n)) ltac:(mok))); eauto.
  - exists A, b. destruct (SPD_psd_var n A PA) as (VA & DA). split; [now apply mbe_g_iff|]. split; [exact DA|]. intros A' b' F' D'. pose proof F' as (V' & L' & _). pose proof (psd_var_SPD n Hn A' V' D') as P'.
    apply (MA A' b'); auto. now apply mbe_g_iff.
Qed.

(** a square and its square root *)
Lemma congruent_square V w : orthogonal n V -> length w = n -> mat_mul (congruent V w) (congruent V w) = congruent V (vmul w w).
Proof.
  intros HV Lw. pose proof HV as (MV & V1 & V2). pose proof (dg_ok n Hn w Lw) as MD. unfold congruent. pose proof (mm_assoc n Hn) as AS.
  rewrite (AS (mat_mul V (diag w)) (transpose V)) by mok. rewrite <- (AS (transpose V) (mat_mul V (diag w))) by mok. rewrite <- (AS (transpose V) V) by mok. rewrite V1, (mm_eye_l n Hn) by mok.
  rewrite <- (dg_mul n Hn) by auto. rewrite !AS by mok. reflexivity.
Qed.
Lemma lsum_ln_sq w : all_pos w -> lsum (map ln (vmul w w)) = 2 * lsum (map ln w).
Proof.
  unfold vmul. induction w as [|a w IH]; intros H; cbn; [ring|]. change (fold_right Rplus 0) with lsum. rewrite ln_mult by (apply H; now left). rewrite IH; [ring|]. intros x Hx. apply H. now right.
Qed.
Lemma vmul_pos w : all_pos w -> all_pos (vmul w w).
Proof. unfold vmul. induction w as [|a w IH]; intros H x; cbn; [easy|]. intros [<-|Hx]; [assert (0 < a) by (apply H; now left); nra|]. apply IH; auto. intros y Hy. apply H. now right. Qed.
Lemma square_log_det A : SPD n A -> log_det (mat_mul A A) = 2 * log_det A /\ SPD n (mat_mul A A).
Proof.
  intros HA. destruct (SPD_diag n Hn A HA) as (V & w & HV & Lw & Pw & ->). assert (L2 : length (vmul w w) = n) by (rewrite vmul_length; congruence). rewrite congruent_square by auto. split.
  - unfold congruent. rewrite !HL by (auto; now apply vmul_pos). now apply lsum_ln_sq.
  - destruct (congd_psd n V (vmul w w) Hn HV L2 (vmul_pos w Pw)) as (C1 & C2 & _). split; [exact C1|]. split; [now apply transpose_symmetric|]. apply (congd_pos_def n); auto. now apply vmul_pos.
Qed.
Lemma square_root X : SPD n X -> exists A, SPD n A /\ mat_mul A A = X.
Proof.
  intros HX. destruct (SPD_diag n Hn X HX) as (V & w & HV & Lw & Pw & ->). exists (congruent V (map sqrt w)).
  assert (Ls : length (map sqrt w) = n) by now rewrite map_length. assert (Ps : all_pos (map sqrt w)) by (intros a Ha; apply in_map_iff in Ha as (x & <- & Hx); apply sqrt_lt_R0; auto). split.
  - destruct (congd_psd n V _ Hn HV Ls Ps) as (C1 & C2 & _). split; [exact C1|]. split; [now apply transpose_symmetric|]. now apply (congd_pos_def n).
  - rewrite congruent_square by auto. f_equal. clear - Pw. unfold vmul. induction w as [|a w IH]; cbn; [reflexivity|]. f_equal; [apply sqrt_sqrt, Rlt_le, Pw; now left|]. apply IH. intros x Hx. apply Pw. now right.
Qed.
Lemma SPD_plus_outer X y : SPD n X -> length y = n -> y <> zeros n ->
  SPD n (madd X (outer y y)) /\ log_det X < log_det (madd X (outer y y)).
Proof.
  intros HX Ly Ny. pose proof HX as (MX & SX & PX). assert (Mo : is_mat n n (outer y y)) by (rewrite <- Ly at 1 2; apply is_mat_outer).
  assert (Q : forall x, length x = n -> quad (madd X (outer y y)) x = quad X x + dot y x * dot y x) by (intros x Lx; rewrite (quad_madd n n), quad_outer by mok; reflexivity).
  assert (HY : SPD n (madd X (outer y y))).
  { split; [mok|]. split; [intros i j Hi Hj; rewrite !(entry_madd _ _ n n), !entry_outer by mok; rewrite (SX i j) by auto; ring|]. intros x Lx Nx. rewrite Q by auto. specialize (PX x Lx Nx). pose proof (sqr_nonneg (dot y x)). lra. }
  split; [exact HY|]. apply (log_det_grow n Hn log_det HL); auto.
  - intros x Lx. rewrite Q by auto. pose proof (sqr_nonneg (dot y x)). lra.
  - intros E. specialize (Q y Ly). rewrite <- E in Q. pose proof (dot_self_nonneg y). apply Ny. rewrite <- Ly. apply dot_self_zero. nra.
Qed.
Lemma mbe_needs_width P sphere A b : (forall x, In x P -> length x = n) -> log_det_optimal n log_det (mbe_points_constraints n P sphere) A b -> wide n P sphere.
Proof.
  intros HP (F & D & O). pose proof F as (VA & Lb & C & S). pose proof (psd_var_SPD n Hn A VA D) as PA. pose proof PA as (MA & SA & _). assert (LA : length A = n) by apply MA. destruct sphere; cbn.
  - apply NNPP. intros HX. set (c := match P with [] => zeros n | p :: _ => p end). assert (Lc : length c = n) by (unfold c; destruct P; [len|apply HP; now left]).
    assert (PT : SPD n (mscale 2 A)) by (apply mscale_SPD; auto; lra). destruct (SPD_psd_var n _ PT) as (VT & DT).
    assert (FT : mbe_points_constraints n P true (mscale 2 A) (vneg (mat_vec (mscale 2 A) c))).
    { split; [exact VT|]. split; [rewrite mat_vec_mscale; len|]. split.
      - intros x Hx. pose proof (HP x Hx) as Lx. assert (x = c) by (apply NNPP; intros N; apply HX; exists x, c; split; auto; split; auto; unfold c; destruct P; [easy|now left]). subst x.
        assert (length (mat_vec (mscale 2 A) c) = n) by (rewrite mat_vec_mscale; len). replace (vadd (mat_vec (mscale 2 A) c) (vneg (mat_vec (mscale 2 A) c))) with (zeros n) by vring n.
        unfold norm. rewrite dot_zeros_l, sqrt_0. lra.
      - intros _. destruct (S eq_refl) as (r & ->). exists (2 * r). apply (mat_ext n n); mok. intros i j Hi Hj. rewrite !entry_mscale. ring. }
    specialize (O _ _ FT DT). assert (log_det A < log_det (mscale 2 A)); [|lra]. apply (log_det_grow n Hn log_det HL); auto.
    + intros x Lx. rewrite quad_mscale. destruct VA as (_ & _ & QA). specialize (QA x Lx). lra.
    + intros E. assert (X : quad A (unit_vec n 0) = quad (mscale 2 A) (unit_vec n 0)) by now rewrite <- E. rewrite quad_mscale in X. assert (0 < quad A (unit_vec n 0)); [|lra].
      apply D; [apply unit_vec_length|]. apply unit_nonzero; [apply unit_vec_length|]. rewrite dot_unit_vec by (auto using unit_vec_length). unfold unit_vec. rewrite nth_map_seq by auto. reflexivity.
  - intros y Ly Hy. apply NNPP. intros Ny. set (gam := match P with [] => 0 | p :: _ => dot y p end).
    assert (Hg : forall x, In x P -> dot y x = gam) by (intros x Hx; unfold gam; destruct P; [easy|]; apply Hy; auto; now left).
    destruct (square_log_det A PA) as (LD & PAA). destruct (SPD_plus_outer _ y PAA Ly Ny) as (PX & G). set (X := madd (mat_mul A A) (outer y y)) in *.
    destruct (square_root X PX) as (A' & PA' & EA'). destruct (square_log_det A' PA') as (LD' & _). rewrite EA' in LD'.
    destruct (SPD_inverse n Hn A' PA') as (B & IB). pose proof IB as (MA' & MB & I1 & I2). destruct (SPD_psd_var n A' PA') as (VA' & DA'). assert (LA' : length A' = n) by apply MA'. assert (LB : length B = n) by apply MB.
    set (s := vsub (mat_vec A b) (vscale gam y)). assert (Ls : length s = n) by (unfold s; len). set (b' := mat_vec B s). assert (Lb' : length b' = n) by (unfold b'; len).
    assert (Eb : mat_vec A' b' = s) by (unfold b'; rewrite <- (mat_vec_mat_mul n n n) by auto; rewrite I1; now apply mat_vec_eye).
    assert (Mo : is_mat n n (outer y y)) by (rewrite <- Ly at 1 2; apply is_mat_outer). destruct VA as (_ & TA & _). destruct VA' as (_ & TA' & QA').
    assert (Q : forall x, length x = n -> dot (vadd (mat_vec A' x) b') (vadd (mat_vec A' x) b') =
        dot (vadd (mat_vec A x) b) (vadd (mat_vec A x) b) + (dot y x - gam) * (dot y x - gam) + (dot b' b' - dot b b - gam * gam)).
    { intros x Lx. assert (LAx : length (mat_vec A x) = n) by len. assert (LAx' : length (mat_vec A' x) = n) by len.
      rewrite !dot_vadd_l, !dot_vadd_r by len. rewrite (dot_comm b' (mat_vec A' x)), (dot_comm b (mat_vec A x)).
      assert (E1 : dot (mat_vec A' x) (mat_vec A' x) = dot (mat_vec A x) (mat_vec A x) + dot y x * dot y x).
      { rewrite <- (sym_dot n A' x (mat_vec A' x)), <- (sym_dot n A x (mat_vec A x)) by auto. rewrite <- !(mat_vec_mat_mul n n n) by auto. rewrite EA'. unfold X.
        rewrite (mat_vec_madd n n) by mok. rewrite mat_vec_outer. assert (length (mat_vec (mat_mul A A) x) = n) by (rewrite mat_vec_length; apply PAA). rewrite dot_vadd_r by len. rewrite dot_vscale_r, (dot_comm x y). ring. }
      assert (E2 : dot (mat_vec A' x) b' = dot (mat_vec A x) b - gam * dot y x).
      { rewrite <- (sym_dot n A' x b'), <- (sym_dot n A x b) by auto. rewrite Eb. unfold s. rewrite dot_vsub_r by len. rewrite dot_vscale_r, (dot_comm x y). ring. }
      rewrite E1, E2. ring. }
    assert (K : dot b' b' - dot b b - gam * gam <= 0).
    { set (x0 := vscale (-1) (mat_vec B b')). assert (LBb : length (mat_vec B b') = n) by len. assert (L0 : length x0 = n) by (unfold x0; len). specialize (Q x0 L0).
      assert (E0 : vadd (mat_vec A' x0) b' = zeros n) by (unfold x0; rewrite mat_vec_vscale, <- (mat_vec_mat_mul n n n), I1, mat_vec_eye by auto; vring n).
      rewrite E0, dot_zeros_l in Q. pose proof (dot_self_nonneg (vadd (mat_vec A x0) b)). pose proof (sqr_nonneg (dot y x0 - gam)). lra. }
    assert (F' : mbe_points_constraints n P false A' b').
    { split; [split; auto|]. split; [exact Lb'|]. split; [|discriminate]. intros x Hx. apply (norm_le_iff _ 1); [lra|]. rewrite Q, Hg by auto. specialize (C x Hx). apply (norm_le_iff _ 1) in C; [|lra]. lra. }
    specialize (O _ _ F' DA'). lra.
Qed.

(** * The maximum inscribed ellipsoid *)
Definition mie_g (H : mat) (h : vec) sphere (t : {iu : nat * vec | (fst iu < length h)%nat /\ length (snd iu) = n /\ dot (snd iu) (snd iu) <= 1} + {ij : nat * nat | (fst ij < n)%nat /\ (snd ij < n)%nat}) (B : mat) (c : vec) : R :=
  match t with
  | inl iu => dot (snd (proj1_sig iu)) (mat_vec B (nth (fst (proj1_sig iu)) H [])) + dot (nth (fst (proj1_sig iu)) H []) c + - nth (fst (proj1_sig iu)) h 0
  | inr ij => sphere_ij sphere (proj1_sig ij) B
  end.
Lemma norm_support v r : length v = n -> (forall u, length u = n -> dot u u <= 1 -> dot u v <= r) <-> norm v <= r.
Proof.
  intros Lv. split.
  - intros H. destruct (list_eq_dec Req_EM_T v (zeros n)) as [->|N].
    + unfold norm. rewrite dot_zeros_l, sqrt_0. specialize (H (zeros n) ltac:(len)). rewrite dot_zeros_l in H. apply H. lra.
    + destruct (normalise n v Lv N) as (t & Ht & E). specialize (H (vscale t v) ltac:(len) ltac:(lra)). rewrite dot_vscale_l in H. rewrite dot_vscale_l, dot_vscale_r in E.
      assert (X : t * norm v = 1). { pose proof (norm_nonneg v). pose proof (norm_sqr v). assert ((t * norm v) * (t * norm v) = 1) by (rewrite <- E, <- H1; ring). assert (0 <= t * norm v) by (apply Rmult_le_pos; lra). generalize dependent (t * norm v). intros. nra. }
      rewrite <- norm_sqr in H. replace (norm v) with (t * norm v * norm v) by (rewrite X; ring). lra.
  - intros Hv u Lu Hu. pose proof (cauchy_schwarz_norm u v) as CS. apply abs_le_inv in CS. assert (norm u <= 1) by (apply (norm_le_iff _ 1); lra). pose proof (norm_nonneg v). pose proof (norm_nonneg u). nra.
Qed.
Lemma mie_g_iff H h sphere B c : is_mat (length h) n H -> SPD n B -> length c = n -> mie_constraints n H h sphere B c <-> forall t, mie_g H h sphere t B c <= 0.
Proof.
  intros MH HB Lc. destruct (SPD_psd_var n B HB) as (VB & _). pose proof HB as (MB & _). assert (LB : length B = n) by apply MB.
  assert (LR : forall i, length (mat_vec B (nth i H [])) = n) by (intros; len). split.
  - intros (_ & _ & C & S) [((i & u) & Hi & Lu & Nu)|(ij & Hij)]; cbn [mie_g proj1_sig fst snd] in *.
    + specialize (C i Hi). pose proof (proj2 (norm_support (mat_vec B (nth i H [])) (nth i h 0 - dot (nth i H []) c) (LR i)) ltac:(lra) u Lu Nu). lra.
    + apply (proj2 (sphere_iff sphere B MB)); auto.
  - intros K. split; [exact VB|]. split; [exact Lc|]. split.
    + intros i Hi. assert (norm (mat_vec B (nth i H [])) <= nth i h 0 - dot (nth i H []) c); [|lra]. apply (norm_support _ _ (LR i)). intros u Lu Nu.
      specialize (K (inl (exist _ (i, u) (conj Hi (conj Lu Nu))))). cbn [mie_g proj1_sig fst snd] in K. lra.
    + apply (sphere_iff sphere B MB). intros ij Hij. apply (K (inr (exist _ ij Hij))).
Qed.
Lemma mie_exists H h sphere : is_mat (length h) n H -> solid_halfspaces n H h -> bounded_halfspaces n H h ->
  exists B c, log_det_optimal n log_det (mie_constraints n H h sphere) B c.
Proof.
  intros MH (q & rho & Lq & Hrho & HQ) (r & HR). assert (HA : forall i, (i < length h)%nat -> length (nth i H []) = n) by (intros i Hi; now apply (is_mat_row (length h) n)).
  assert (LH : length H = length h) by apply MH.
  destruct (log_det_max n Hn _ (mie_g H h sphere) r) with (log_det := log_det) (A0 := mscale rho (eye n)) (b0 := q) as (B & c & PB & Lc & FB & OB); auto.
  - intros [((i & u) & Hi & Lu & Nu)|(ij & Hij)] N X y CX Cy Ly; cbn [mie_g proj1_sig fst snd] in *; [|apply sphere_cont; auto]. pose proof CX as (MX & _). assert (LX : forall z, length (X z) = n) by (intros z; apply MX).
    apply contR_plus; [apply contR_plus|apply contR_const].
    + apply (contR_dot N (fun _ => u) _ n); [apply contV_const|apply (contV_mat_vec n N X (fun _ => nth i H [])); auto; apply contV_const|auto|]. intros z _. specialize (LX z). len.
    + apply (contR_dot N (fun _ => nth i H []) y n); auto. apply contV_const.
  - intros V w c HV Lw Hw Lc Ht. destruct (congruent_sym V w HV Lw) as (MB & TB). set (B := congruent V w) in *. assert (LB : length B = n) by apply MB.
    assert (IN : forall u, length u = n -> dot u u <= 1 -> norm (vadd (mat_vec B u) c) <= r).
    { intros u Lu Nu. apply HR; [len|]. intros i Hi. rewrite LH in Hi. specialize (Ht (inl (exist _ (i, u) (conj Hi (conj Lu Nu))))). cbn [mie_g proj1_sig fst snd] in Ht. specialize (HA i Hi). rewrite dot_vadd_r by len. rewrite (sym_dot n) by auto. rewrite (dot_comm (mat_vec B (nth i H [])) u). lra. }
    assert (SY : forall v, length v = n -> norm (vadd v c) <= r -> norm (vadd (vscale (-1) v) c) <= r -> norm v <= r /\ norm c <= r).
    { intros v Lv N1 N2. split.
      - assert (X : v = vscale (/ 2) (vadd (vadd v c) (vscale (-1) (vadd (vscale (-1) v) c)))) by (vring n; field). rewrite X, norm_vscale, Rabs_right by lra.
        pose proof (norm_triangle (vadd v c) (vscale (-1) (vadd (vscale (-1) v) c)) ltac:(len)) as T. rewrite norm_vscale in T. replace (Rabs (-1)) with 1 in T by (rewrite Rabs_left; lra). lra.
      - assert (X : c = vscale (/ 2) (vadd (vadd v c) (vadd (vscale (-1) v) c))) by (vring n; field). rewrite X, norm_vscale, Rabs_right by lra.
        pose proof (norm_triangle (vadd v c) (vadd (vscale (-1) v) c) ltac:(len)) as T. lra. }
    assert (BD : forall u, length u = n -> dot u u <= 1 -> norm (mat_vec B u) <= r /\ norm c <= r).
    { intros u Lu Nu. apply SY; [len|now apply IN|]. rewrite <- mat_vec_vscale. apply IN; [len|]. rewrite dot_vscale_l, dot_vscale_r. lra. }
    split.
    + intros a Ha. destruct (In_nth _ _ 0 Ha) as (j & Hj & <-). rewrite Lw in Hj. destruct (eig_vec V w j HV Lw Hj) as (v & Lv & Nv & Ev). destruct (BD v Lv ltac:(lra)) as (N & _). unfold B in N. rewrite Ev, norm_vscale in N.
      replace (norm v) with 1 in N by (unfold norm; now rewrite Nv, sqrt_1). pose proof (Rle_abs (nth j w 0)). lra.
    + intros i Hi. apply Rle_trans with (norm c); [apply abs_nth_le_norm|]. apply (BD (zeros n)); [len|]. rewrite dot_zeros_l. lra.
  - apply mscale_SPD; [auto|apply SPD_eye].
  - assert (PB : SPD n (mscale rho (eye n))) by (apply mscale_SPD; [auto|apply SPD_eye]). apply mie_g_iff; auto.
    destruct (mie_feasible n H h (mscale rho (eye n)) q MH) as (_ & K). destruct K as (K1 & K2 & K3 & _).
    + destruct (SPD_psd_var n _ PB) as ((C1 & C2 & C3) & _). split; [split; [auto|split; [now apply transpose_symmetric|auto]]|]. split; [exact Lq|].
      intros x (u & Lu & Hu & ->). rewrite mat_vec_mscale, mat_vec_eye by auto. apply HQ; [len|]. unfold ball. replace (vsub (vadd (vscale rho u) q) q) with (vscale rho u) by vring n.
      rewrite norm_vscale, Rabs_right by lra. apply (Rmult_le_compat_l rho) in Hu; lra.
    + split; auto. split; auto. split; auto. intros _. now exists rho.
  - exists B, c. destruct (SPD_psd_var n B PB) as (VB & DB). split; [now apply mie_g_iff|]. split; [exact DB|]. intros B' c' F' D'. pose proof F' as (V' & L' & _). pose proof (psd_var_SPD n Hn B' V' D') as P'.
    apply (OB B' c'); auto. now apply mie_g_iff.
Qed.
Lemma vec_upper (f : nat -> R) k : exists M, 0 < M /\ forall i, (i < k)%nat -> f i <= M.
Proof.
  induction k as [|k (M & HM & H)]; [exists 1; split; [lra|lia]|]. exists (Rmax M (f k)). split; [apply Rlt_le_trans with M; [auto|apply Rmax_l]|].
  intros i Hi. destruct (Nat.eq_dec i k) as [->|]; [apply Rmax_r|]. apply Rle_trans with M; [apply H; lia|apply Rmax_l].
Qed.
Lemma mie_needs_solid H h sphere B c : is_mat (length h) n H -> mie_constraints n H h sphere B c -> pos_def n B -> solid_halfspaces n H h.
Proof.
  intros MH F D. pose proof F as (VB & Lc & C & S). pose proof (psd_var_SPD n Hn B VB D) as PB. destruct (SPD_diag n Hn B PB) as (V & w & HV & Lw & Pw & EB).
  pose proof PB as (MB & SB & _). assert (LB : length B = n) by apply MB.
  assert (F0 : mie_constraints n H h false B c) by (split; auto; split; auto; split; auto; discriminate). destruct (proj1 (mie_feasible n H h B c MH) F0) as (_ & _ & IN).
  destruct (vec_upper (fun i => / nth i w 0) n) as (M & HM & UM). exists c, (/ M). split; [auto|]. split; [now apply Rinv_0_lt_compat|]. intros x Lx Hx. apply IN.
  pose proof (congruent_inverse n Hn V w HV Lw Pw) as (_ & MI & I1 & I2). rewrite <- EB in I1, I2. set (B' := congruent V (map Rinv w)) in *. assert (LB' : length B' = n) by apply MI.
  exists (mat_vec B' (vsub x c)). assert (Ld : length (vsub x c) = n) by len. split; [len|]. split.
  - eapply Rle_trans; [apply (congruent_norm V (map Rinv w) (vsub x c) M HV); auto; [now rewrite map_length| |lra]|].
    + intros a Ha. apply in_map_iff in Ha as (y & <- & Hy). destruct (In_nth _ _ 0 Hy) as (i & Hi & <-). split; [apply Rlt_le, Rinv_0_lt_compat, Pw; auto|]. apply UM. lia.
    + unfold ball in Hx. apply (Rmult_le_compat_l M) in Hx; [|lra]. rewrite Rinv_r in Hx; lra.
  - rewrite <- (mat_vec_mat_mul n n n) by auto. rewrite I1, mat_vec_eye by auto. vring n.
Qed.
Lemma mie_needs_bounded H h B c : is_mat (length h) n H -> log_det_optimal n log_det (mie_constraints n H h false) B c -> bounded_halfspaces n H h.
Proof.
  intros MH (F & D & O). pose proof F as (VB & Lc & C & _). pose proof (psd_var_SPD n Hn B VB D) as PB. pose proof PB as (MB & _). assert (LB : length B = n) by apply MB.
  assert (HA : forall i, (i < length h)%nat -> length (nth i H []) = n) by (intros i Hi; now apply (is_mat_row (length h) n)). assert (LH : length H = length h) by apply MH.
  apply NNPP. intros NB. destruct (vec_upper (fun i => nth i h 0 - dot (nth i H []) c) (length h)) as (M & HM & UM).
  destruct (sphere_compact n (fun e y => forall i, (i < length h)%nat -> dot (nth i H []) y <= e)) as (d & Ld & Nd & Hd).
  - intros e e' z He K i Hi. specialize (K i Hi). lra.
  - intros e He. apply NNPP. intros NX. apply NB. exists (norm c + M / e). intros x Lx Hx. destruct (Rle_lt_dec (norm x) (norm c + M / e)) as [|Big]; auto. exfalso. apply NX.
    assert (T : norm x - norm c <= norm (vsub x c)) by (pose proof (norm_triangle (vsub x c) c ltac:(len)) as T; replace (vadd (vsub x c) c) with x in T by vring n; lra).
    assert (PM : 0 < M / e) by (apply Rdiv_lt_0_compat; lra). set (m := norm (vsub x c)) in *. assert (Pm : 0 < m) by lra. exists (vscale (/ m) (vsub x c)). split; [len|]. split.
    + rewrite dot_vscale_l, dot_vscale_r, <- norm_sqr. fold m. field. lra.
    + intros i Hi. specialize (HA i Hi). rewrite dot_vscale_r, dot_vsub_r by len. rewrite <- LH in Hi. specialize (Hx i Hi). rewrite LH in Hi. specialize (UM i Hi). cbn in UM.
      apply (Rmult_le_reg_l m); [auto|]. rewrite <- Rmult_assoc, Rinv_r, Rmult_1_l by lra. assert (M < m * e); [|lra]. assert (M / e * e < m * e) by (apply Rmult_lt_compat_r; lra). replace (M / e * e) with M in * by (field; lra). auto.
  - assert (R0 : forall i, (i < length h)%nat -> dot (nth i H []) d <= 0).
    { intros i Hi. specialize (HA i Hi). assert (Cn : contR n (fun z => dot (nth i H []) z)) by now apply contR_dot_const. destruct (Rle_lt_dec (dot (nth i H []) d) 0) as [|Pos]; auto. exfalso. set (v := dot (nth i H []) d) in *.
      destruct (Cn d (v / 4) Ld ltac:(lra)) as (e & He & N). destruct (Hd (Rmin e (v / 4)) ltac:(apply Rmin_pos; lra)) as (z & Lz & Kz & Fz & Nz).
      specialize (N z Lz (near_le _ _ _ _ _ (Rmin_l _ _) Nz)). fold v in N. specialize (Fz i Hi). pose proof (Rmin_r e (v / 4)). apply abs_le_inv in N. lra. }
    destruct (SPD_plus_outer B d PB Ld (unit_nonzero n d Ld Nd)) as (PT & G). destruct (SPD_psd_var n _ PT) as (VT & DT).
    assert (Mo : is_mat n n (outer d d)) by (rewrite <- Ld at 1 2; apply is_mat_outer).
    assert (FT : mie_constraints n H h false (madd B (outer d d)) (vadd c d)).
    { split; [exact VT|]. split; [len|]. split; [|discriminate]. intros i Hi. specialize (HA i Hi). specialize (C i Hi). specialize (R0 i Hi). set (a := nth i H []) in *.
      rewrite (mat_vec_madd n n), mat_vec_outer, dot_vadd_r by (auto; len). assert (LBa : length (mat_vec B a) = n) by len.
      pose proof (norm_triangle (mat_vec B a) (vscale (dot d a) d) ltac:(len)) as T. rewrite norm_vscale in T. replace (norm d) with 1 in T by (unfold norm; now rewrite Nd, sqrt_1).
      rewrite (dot_comm d a), Rabs_left1 in T by auto. rewrite (dot_comm d a). lra. }
    specialize (O _ _ FT DT). lra.
Qed.
(** * Summary *)
Lemma mbe_exists_iff P sphere : (forall x, In x P -> length x = n) ->
  ((exists A b, log_det_optimal n log_det (mbe_points_constraints n P sphere) A b) <-> wide n P sphere).
Proof. intros HP. split; [intros (A & b & H); now apply (mbe_needs_width P sphere A b)|now apply mbe_exists]. Qed.
Lemma mbe_optimal_unique P sphere A1 b1 A2 b2 : (forall x, In x P -> length x = n) ->
  log_det_optimal n log_det (mbe_points_constraints n P sphere) A1 b1 -> log_det_optimal n log_det (mbe_points_constraints n P sphere) A2 b2 -> A1 = A2 /\ b1 = b2.
Proof. intros HP (F1 & D1 & O1) (F2 & D2 & O2). now apply (mbe_unique n Hn log_det HL P sphere). Qed.
Lemma mie_exists_iff H h : is_mat (length h) n H ->
  ((exists B c, log_det_optimal n log_det (mie_constraints n H h false) B c) <-> solid_halfspaces n H h /\ bounded_halfspaces n H h).
Proof.
  intros MH. split; [|intros (S & B); now apply mie_exists]. intros (B & c & HO). split; [|now apply (mie_needs_bounded H h B c)].
  destruct HO as (F & D & _). now apply (mie_needs_solid H h false B c).
Qed.
Lemma mie_optimal_unique H h sphere B1 c1 B2 c2 : is_mat (length h) n H ->
  log_det_optimal n log_det (mie_constraints n H h sphere) B1 c1 -> log_det_optimal n log_det (mie_constraints n H h sphere) B2 c2 -> B1 = B2 /\ (sphere = false -> c1 = c2).
Proof. intros MH (F1 & D1 & O1) (F2 & D2 & O2). now apply (mie_unique n Hn log_det HL H h B1 c1 B2 c2 MH sphere). Qed.
End X.
