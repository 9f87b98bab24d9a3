(** C47, C48, C49: the vertex constraints of polyhedra and the custom constraints of boxes and cylinders. *)
From Verif Require Import Base.Vec Base.VecFacts Spec.Basic Spec.Objects Spec.Realizable Spec.Shapes Spec.ShapeObjects Spec.PolySpec
  Model.Util Model.Constraint Model.Inertial Model.Polydd Model.Poly Model.Box Model.Cylinder Model.Ellipsoid Model.Realize
  Proofs.Coord Proofs.LinAlg Proofs.UtilP Proofs.InertialP Proofs.Hull Proofs.BoxP Proofs.CylP Proofs.PolyP Proofs.InertialT Proofs.Decomp Proofs.PimP Proofs.SdpP.

(** ** sums of matrices *)
Lemma fold_madd_is_mat n m l A : is_mat n m A -> (forall B, In B l -> is_mat n m B) -> is_mat n m (fold_left madd l A).
Proof. revert A; induction l as [|B l IH]; intros A HA Hl; cbn; auto. apply IH; [apply is_mat_madd; auto; apply Hl; now left|intros; apply Hl; now right]. Qed.
Lemma fold_madd_entry n m l A i j : is_mat n m A -> (forall B, In B l -> is_mat n m B) -> (i < n)%nat -> (j < m)%nat ->
  entry (fold_left madd l A) i j = entry A i j + lsum (map (fun B => entry B i j) l).
Proof.
  revert A; induction l as [|B l IH]; intros A HA Hl Hi Hj; [cbn [fold_left map lsum fold_right]; ring|]. assert (HB : is_mat n m B) by (apply Hl; now left).
  cbn [fold_left map]. rewrite IH; auto; [|now apply is_mat_madd|intros; apply Hl; now right]. rewrite (entry_madd A B n m) by auto. cbn [lsum fold_right]. change (fold_right Rplus 0) with lsum. ring.
Qed.
Lemma entry_zeros2 n m i j : entry (zeros2 n m) i j = 0.
Proof.
  unfold entry, zeros2. destruct (Nat.lt_ge_cases i n) as [H|H].
  - rewrite (nth_indep _ [] (zeros m)) by (now rewrite repeat_length). rewrite nth_repeat. apply nth_zeros.
  - rewrite (nth_overflow (repeat (zeros m) n)) by (now rewrite repeat_length). now destruct j.
Qed.
Lemma sub_mat_33 J : is_mat 4 4 J -> is_mat 3 3 (sub_mat 3 3 J).
Proof. intro HJ. destruct_vecs. split; [reflexivity|repeat constructor]. Qed.
Lemma msum_is_mat n m l : (forall B, In B l -> is_mat n m B) -> is_mat n m (msum n m l).
Proof. apply fold_madd_is_mat, is_mat_zeros2. Qed.
Lemma msum_entry n m l i j : (forall B, In B l -> is_mat n m B) -> (i < n)%nat -> (j < m)%nat -> entry (msum n m l) i j = lsum (map (fun B => entry B i j) l).
Proof. intros Hl Hi Hj. unfold msum. rewrite (fold_madd_entry n m) by (auto using is_mat_zeros2). rewrite entry_zeros2. ring. Qed.
(** sum of c f(v) over the weights and the rows of V *)
Definition vsum (f : vec -> R) (w : vec) (V : mat) : R := lsum (map2 (fun c v => c * f v) w V).
Lemma vsum_cons f c w v V : vsum f (c :: w) (v :: V) = c * f v + vsum f w V.
Proof. reflexivity. Qed.
Lemma vsum_lin f k w ms V : length w = length V -> length ms = length V -> vsum f (vadd (vscale k w) ms) V = k * vsum f w V + vsum f ms V.
Proof.
  revert w ms; induction V as [|v V IH]; intros [|c w] [|m ms] H1 H2; try discriminate; [unfold vsum; cbn; ring|].
  change (vadd (vscale k (c :: w)) (m :: ms)) with ((k * c + m) :: vadd (vscale k w) ms). rewrite !vsum_cons, IH by (cbn in *; lia). ring.
Qed.
Lemma vsum_zeros f V : vsum f (zeros (length V)) V = 0.
Proof. induction V as [|v V IH]; [reflexivity|]. change (zeros (length (v :: V))) with (0 :: zeros (length V)). rewrite vsum_cons, IH. ring. Qed.
Lemma vsum_nonneg f w V : (forall i, 0 <= nth i w 0) -> (forall v, In v V -> 0 <= f v) -> 0 <= vsum f w V.
Proof.
  revert V; induction w as [|c w IH]; intros [|v V] Hw Hf; try (unfold vsum; cbn; lra). rewrite vsum_cons. pose proof (Hw 0%nat) as H0. cbn in H0.
  pose proof (Hf v ltac:(now left)). assert (0 <= vsum f w V) by (apply IH; [intro i; exact (Hw (S i))|intros; apply Hf; now right]). nra.
Qed.
Lemma vsum_ext f g w V : (forall v, In v V -> f v = g v) -> vsum f w V = vsum g w V.
Proof. revert V; induction w as [|c w IH]; intros [|v V] H; try reflexivity. rewrite !vsum_cons, (H v), IH; auto; [intros; apply H; now right|now left]. Qed.
Lemma vsum_plus f g w V : vsum (fun v => f v + g v) w V = vsum f w V + vsum g w V.
Proof. revert V; induction w as [|c w IH]; intros [|v V]; try (unfold vsum; cbn; ring). rewrite !vsum_cons, IH. ring. Qed.
Lemma vsum_scal k f w V : vsum (fun v => k * f v) w V = k * vsum f w V.
Proof. revert V; induction w as [|c w IH]; intros [|v V]; try (unfold vsum; cbn; ring). rewrite !vsum_cons, IH. ring. Qed.
Lemma vsum_one w V : length w = length V -> vsum (fun _ => 1) w V = lsum w.
Proof. revert V; induction w as [|c w IH]; intros [|v V] H; try discriminate; [reflexivity|]. rewrite vsum_cons, IH by (cbn in H; lia). cbn [lsum fold_right]. change (fold_right Rplus 0) with lsum. ring. Qed.
Lemma nth_combine_vsum n w V j : (j < n)%nat -> nth j (combine_rows n w V) 0 = vsum (fun v => nth j v 0) w V.
Proof. intro H. rewrite nth_combine_rows by exact H. reflexivity. Qed.

Lemma jensen w V (f : vec -> R) : length w = length V -> weights w -> vsum f w V * vsum f w V <= vsum (fun v => f v * f v) w V.
Proof.
  intros L (Hw & H1). set (t := vsum f w V).
  assert (N : 0 <= vsum (fun v => (f v - t) * (f v - t)) w V).
  { apply vsum_nonneg; [|intros; apply Rle_0_sqr]. intro i. destruct (Nat.lt_ge_cases i (length w)) as [Hi|Hi]; [apply Hw, nth_In, Hi|rewrite nth_overflow by exact Hi; lra]. }
  rewrite (vsum_ext _ (fun v => f v * f v + (- 2 * t * f v + t * t * 1))) in N by (intros; ring).
  rewrite !vsum_plus, !vsum_scal, vsum_one, H1 in N by exact L. fold t in N. lra.
Qed.
(** weights at every point of a system add up to masses at the rows of V *)
Lemma spread V (s : pms) (E I : (vec -> R) -> Prop) : pms_nonneg s ->
  (forall mp, In mp s -> exists w, length w = length V /\ (forall i, 0 <= nth i w 0) /\
     (forall f, E f -> f (snd mp) = vsum f w V) /\ (forall f, I f -> f (snd mp) <= vsum f w V)) ->
  exists ms, length ms = length V /\ (forall i, 0 <= nth i ms 0) /\
     (forall f, E f -> lsum (map (fun mp => fst mp * f (snd mp)) s) = vsum f ms V) /\
     (forall f, I f -> lsum (map (fun mp => fst mp * f (snd mp)) s) <= vsum f ms V).
Proof.
  induction s as [|mp s IH]; intros Hn Hw.
  - exists (zeros (length V)). split; [apply repeat_length|]. split; [intro i; rewrite nth_zeros; lra|]. split; intros f _; rewrite vsum_zeros; cbn; lra.
  - destruct IH as (ms & L & P & HE & HI); [intros x Hx; apply Hn; now right|intros x Hx; apply Hw; now right|].
    destruct (Hw mp ltac:(now left)) as (w & L' & P' & HE' & HI'). pose proof (Hn mp ltac:(now left)) as Hm.
    exists (vadd (vscale (fst mp) w) ms). split; [rewrite vadd_length; rewrite vscale_length; congruence|]. split; [|split].
    + intro i. destruct (Nat.lt_ge_cases i (length ms)) as [Hi|Hi].
      * rewrite nth_vadd by (rewrite vscale_length; congruence). rewrite nth_vscale. specialize (P i). specialize (P' i). nra.
      * rewrite nth_overflow; [lra|]. rewrite vadd_length; rewrite vscale_length; lia.
    + intros f Hf. rewrite vsum_lin by auto. cbn [map lsum fold_right]. change (fold_right Rplus 0) with lsum. rewrite (HE f Hf), (HE' f Hf). reflexivity.
    + intros f Hf. rewrite vsum_lin by auto. cbn [map lsum fold_right]. change (fold_right Rplus 0) with lsum. specialize (HI f Hf). specialize (HI' f Hf). nra.
Qed.
Lemma map_map2 {A B C D} (g : C -> D) (f : A -> B -> C) l l' : map g (map2 f l l') = map2 (fun a b => g (f a b)) l l'.
Proof. revert l'; induction l as [|a l IH]; intros [|b l']; cbn; f_equal; auto. Qed.
Lemma map2_map_r {A B B' C} (f : A -> B -> C) (g : B' -> B) l l' : map2 f l (map g l') = map2 (fun a b => f a (g b)) l l'.
Proof. revert l'; induction l as [|a l IH]; intros [|b l']; cbn; f_equal; auto. Qed.
Lemma outer_sum_is_mat n ms V : rows_len n V -> forall B, In B (map2 (fun m v => mscale m (outer v v)) ms V) -> is_mat n n B.
Proof.
  intros HV B HB. apply (in_map2 _ _ _ _ 0 []) in HB as (i & _ & Hi & ->). assert (L : length (nth i V []) = n) by (apply HV, nth_In, Hi).
  apply is_mat_mscale. pattern n at 1 2. rewrite <- L. apply is_mat_outer; auto.
Qed.
Lemma outer_sum_entry n ms V i j : rows_len n V -> (i < n)%nat -> (j < n)%nat ->
  entry (msum n n (map2 (fun m v => mscale m (outer v v)) ms V)) i j = vsum (fun v => nth i v 0 * nth j v 0) ms V.
Proof.
  intros HV Hi Hj. rewrite msum_entry by (auto; now apply outer_sum_is_mat). rewrite map_map2. unfold vsum. f_equal.
  revert ms; induction V as [|v V IH]; intros [|m ms]; cbn [map2]; try reflexivity. assert (Lv : length v = n) by (apply HV; now left). f_equal.
  - rewrite entry_mscale, entry_outer by lia. reflexivity.
  - apply IH. intros u Hu. apply HV. now right.
Qed.
Lemma quad_fold n l A x : is_mat n n A -> (forall B, In B l -> is_mat n n B) -> length x = n -> quad (fold_left madd l A) x = quad A x + lsum (map (fun B => quad B x) l).
Proof.
  revert A; induction l as [|B l IH]; intros A HA Hl Hx; [cbn [fold_left map lsum fold_right]; ring|]. assert (HB : is_mat n n B) by (apply Hl; now left).
  cbn [fold_left map]. rewrite IH; auto; [|now apply is_mat_madd|intros; apply Hl; now right]. rewrite (quad_madd n n) by auto. cbn [lsum fold_right]. change (fold_right Rplus 0) with lsum. ring.
Qed.
Lemma outer_sum_quad n ms V x : rows_len n V -> length x = n ->
  quad (msum n n (map2 (fun m v => mscale m (outer v v)) ms V)) x = vsum (fun v => dot x v * dot x v) ms V.
Proof.
  intros HV Hx. unfold msum. rewrite (quad_fold n) by (auto using is_mat_zeros2; now apply outer_sum_is_mat). rewrite map_map2.
  replace (quad (zeros2 n n) x) with 0.
  - rewrite Rplus_0_l. unfold vsum. f_equal. revert ms; induction V as [|v V IH]; intros [|m ms]; cbn [map2]; try reflexivity. assert (Lv : length v = n) by (apply HV; now left). f_equal.
    + rewrite quad_mscale, quad_outer by congruence. now rewrite (dot_comm x v).
    + apply IH. intros u Hu. apply HV. now right.
  - replace (zeros2 n n) with (mscale 0 (zeros2 n n)); [rewrite quad_mscale; ring|]. apply (mat_ext n n); [apply is_mat_mscale, is_mat_zeros2|apply is_mat_zeros2|]. intros. rewrite entry_mscale, !entry_zeros2. ring.
Qed.
Lemma quad_sub3 J x : is_mat 4 4 J -> length x = 3%nat -> quad (sub_mat 3 3 J) x = quad J (x ++ [0]).
Proof. intros HJ Hx. destruct_vecs. unfold quad. cbn. ring. Qed.
Lemma pim_quad s J x : pms_ok s -> pms_nonneg s -> pim_of s J -> length x = 4%nat ->
  quad J x = lsum (map (fun mp => fst mp * (dot x (snd mp ++ [1]) * dot x (snd mp ++ [1]))) s).
Proof.
  intros Ho Hn HJ Hx. rewrite (quad_decomp 4 _ _ _ (pim_decomp s J Ho Hn HJ) Hx). rewrite map_map. f_equal. apply map_ext_in. intros mp Hm.
  unfold pim_z. rewrite dot_vscale_l, (dot_comm x). pose proof (sqrt_sqrt (fst mp) (Hn mp Hm)) as E. rewrite <- E at 3. ring.
Qed.
Lemma dot_pad0 x p : length x = length p -> dot (x ++ [0]) (p ++ [1]) = dot x p.
Proof. revert p; induction x as [|a x IH]; intros [|b p] H; try discriminate; [cbn; ring|]. cbn [app]. rewrite !dot_cons, IH by (cbn in H; lia). reflexivity. Qed.

(** ** vertex constraints of polyhedra *)
Lemma vertex_masses V s : rows_len 3 V -> pms_ok s -> pms_nonneg s -> pms_in (in_hull 3 V) s ->
  exists ms, length ms = length V /\ (forall i, 0 <= nth i ms 0) /\ lsum (map fst s) = lsum ms /\
  (forall j, (j < 3)%nat -> lsum (map (fun mp => fst mp * nth j (snd mp) 0) s) = vsum (fun v => nth j v 0) ms V) /\
  (forall x, length x = 3%nat -> lsum (map (fun mp => fst mp * (dot x (snd mp) * dot x (snd mp))) s) <= vsum (fun v => dot x v * dot x v) ms V).
Proof.
  intros HV Ho Hn Hin.
  destruct (spread V s (fun f => f = (fun _ => 1) \/ exists j, (j < 3)%nat /\ f = (fun v => nth j v 0)) (fun f => exists x, length x = 3%nat /\ f = (fun v => dot x v * dot x v)) Hn) as (ms & L & P & HE & HI).
  - intros mp Hm. destruct (Hin mp Hm) as (w & Lw & Hw & ->). exists w. split; [exact Lw|]. split; [|split].
    + intro i. destruct (Nat.lt_ge_cases i (length w)) as [Hi|Hi]; [apply Hw, nth_In, Hi|rewrite nth_overflow by exact Hi; lra].
    + intros f [->|(j & Hj & ->)]; [rewrite vsum_one by exact Lw; symmetry; apply Hw|now apply nth_combine_vsum].
    + intros f (x & Lx & ->). rewrite (dot_combine_rows 3) by auto. exact (jensen w V (fun v => dot x v) Lw Hw).
  - exists ms. split; [exact L|]. split; [exact P|]. split; [|split].
    + rewrite <- (vsum_one ms V L). rewrite <- HE by (now left). f_equal. apply map_ext. intros; ring.
    + intros j Hj. apply (HE (fun v => nth j v 0)). right. eauto.
    + intros x Hx. apply (HI (fun v => dot x v * dot x v)). eauto.
Qed.
Lemma pim_vec s J : pms_ok s -> pim_of s J -> entry J 3 3 = lsum (map fst s) /\
  (forall j, (j < 3)%nat -> entry J j 3 = lsum (map (fun mp => fst mp * nth j (snd mp) 0) s)) /\
  (forall i j, (i < 3)%nat -> (j < 3)%nat -> entry J i j = lsum (map (fun mp => fst mp * (nth i (snd mp) 0 * nth j (snd mp) 0)) s)).
Proof.
  intros Ho (_ & HE). assert (L3 : forall mp, In mp s -> nth 3 (snd mp ++ [1]) 0 = 1) by (intros mp Hm; rewrite app_nth2; rewrite (Ho mp Hm); auto).
  assert (LJ : forall mp i, In mp s -> (i < 3)%nat -> nth i (snd mp ++ [1]) 0 = nth i (snd mp) 0) by (intros mp i Hm Hi; rewrite app_nth1; auto; now rewrite (Ho mp Hm)).
  split; [|split].
  - rewrite HE by lia. f_equal. apply map_ext_in. intros mp Hm. rewrite L3 by auto. ring.
  - intros j Hj. rewrite HE by lia. f_equal. apply map_ext_in. intros mp Hm. rewrite L3, LJ by auto. ring.
  - intros i j Hi Hj. rewrite HE by lia. f_equal. apply map_ext_in. intros mp Hm. rewrite !LJ by auto. ring.
Qed.
Lemma vec_mat_vsum n ms V j : rows_len n V -> V <> [] -> length ms = length V -> (j < n)%nat -> nth j (vec_mat ms V) 0 = vsum (fun v => nth j v 0) ms V.
Proof.
  intros HV Hne L Hj. assert (EN : ncols V = n) by (destruct V as [|v V]; [easy|]; cbn; apply HV; now left).
  rewrite nth_vec_mat by lia. unfold vsum. clear HV Hne EN. revert ms L; induction V as [|v V IH]; intros [|m ms] L; try discriminate; [reflexivity|].
  cbn [col map map2 lsum fold_right]. change (fold_right Rplus 0) with lsum. fold (col j V). rewrite dot_cons, IH by (cbn in L; lia). reflexivity.
Qed.
Lemma poly_vertex p v J eps : poly_ok 3 p -> pv_value v J -> is_mat 4 4 J -> 0 <= eps ->
  exists P, poly_moment_vertex_constraints p v eps = Ok P /\ (P -> PSD 4 (msub J (mscale eps (eye 4)))) /\
  (realizable_J (in_hull 3 (p_vertices p)) J -> PSD 4 (msub J (mscale eps (eye 4))) -> P).
Proof.
  intros (_ & _ & _ & _ & V & Es & Hne & HV) Hv HJ Heps. unfold poly_moment_vertex_constraints.
  assert (Ed : p_dim p = 3%nat) by (unfold p_dim, sf_dim; rewrite Es; cbn; destruct V as [|u V]; [easy|]; cbn; apply HV; now left).
  assert (Ev : p_vertices p = V) by (unfold p_vertices; now rewrite Es). assert (En : p_nv p = length V) by (unfold p_nv, sf_nv; now rewrite Es).
  rewrite Ed, Ev, En, (pv_ok v J eps Hv HJ Heps). cbn [Nat.eqb assert_ bind]. eexists. split; [reflexivity|].
  assert (EM : is_mat 4 4 (msub J (mscale eps (eye 4)))) by (apply is_mat_msub; auto; apply is_mat_mscale, is_mat_eye). split.
  - intros (ms & _ & (Es' & Hp) & _). now apply psd_shift.
  - intros (s & Ho & Hn & Hin & HP) Hpsd. destruct (vertex_masses V s HV Ho Hn Hin) as (ms & L & Pm & E1 & E2 & E3). destruct (pim_vec s J Ho HP) as (F1 & F2 & _).
    exists ms. split; [split; auto|]. split; [now apply psd_shift|]. split; [now rewrite F1|]. split.
    + apply (vec_ext 3); [reflexivity|rewrite vec_mat_length; destruct V as [|u V']; [easy|]; cbn; apply HV; now left|].
      intros j Hj. rewrite (vec_mat_vsum 3) by auto. rewrite nth_map_seq by lia. rewrite F2, E2 by auto. reflexivity.
    + intros x Hx. rewrite map2_map_r. rewrite (quad_msub 3 3); auto; [|exact (msum_is_mat 3 3 _ (outer_sum_is_mat 3 ms V HV))|now apply sub_mat_33].
      rewrite outer_sum_quad, quad_sub3 by auto. rewrite (pim_quad s J) by (auto; rewrite app_length; cbn; lia).
      specialize (E3 x Hx). erewrite (map_ext_in _ (fun mp => fst mp * (dot x (snd mp) * dot x (snd mp)))); [lra|].
      intros mp Hm. rewrite dot_pad0; [reflexivity|]. rewrite Hx. symmetry. now apply Ho.
Qed.

(** ** custom constraints of boxes *)
Lemma vsum_map_rows f g w V : vsum f w (map g V) = vsum (fun v => f (g v)) w V.
Proof. unfold vsum. now rewrite map2_map_r. Qed.
(** products of two homogeneous coordinates *)
Definition mom2 (i j : nat) (v : vec) : R := nth i (v ++ [1]) 0 * nth j (v ++ [1]) 0.
Lemma cube_coord h u : Rabs u <= h -> exists t, -1 <= t <= 1 /\ u = t * h.
Proof.
  intro H. apply abs_le_inv in H. destruct (Req_dec h 0) as [->|Hh].
  - exists 0. split; lra.
  - exists (u / h). assert (0 < h) by lra. split; [|field; lra]. split; [apply Rmult_le_reg_r with h; auto|apply Rmult_le_reg_r with h; auto]; unfold Rdiv; rewrite Rmult_assoc, Rinv_l by lra; lra.
Qed.
Lemma corner_weights h u : length h = 3%nat -> in_cube h u -> exists w, length w = length (box_vertices h) /\ (forall i, 0 <= nth i w 0) /\
  (forall f, (exists i j, (i < 4)%nat /\ (j < 4)%nat /\ (i <> j \/ i = 3%nat) /\ f = mom2 i j) -> f u = vsum f w (box_vertices h)) /\
  (forall f, (exists i, (i < 3)%nat /\ f = mom2 i i) -> f u <= vsum f w (box_vertices h)).
Proof.
  intros Lh (Lu & Hu). rewrite Lh in Lu, Hu. destruct_vecs.
  destruct (cube_coord _ _ (Hu 0%nat ltac:(lia))) as (t0 & T0 & E0). destruct (cube_coord _ _ (Hu 1%nat ltac:(lia))) as (t1 & T1 & E1).
  destruct (cube_coord _ _ (Hu 2%nat ltac:(lia))) as (t2 & T2 & E2). cbn in E0, E1, E2. subst.
  exists (map (fun c => (1 + nth 0 c 0 * t0) / 2 * ((1 + nth 1 c 0 * t1) / 2) * ((1 + nth 2 c 0 * t2) / 2)) (sign_combos 3)).
  split; [reflexivity|]. split; [|split].
  - assert (G : forall a b c, 0 <= a -> 0 <= b -> 0 <= c -> 0 <= a / 2 * (b / 2) * (c / 2)) by (intros; repeat apply Rmult_le_pos; lra).
    intro i. do 8 (destruct i as [|i]; [cbn; apply G; lra|]). rewrite nth_overflow; [lra|cbn; lia].
  - intros f (i & j & Hi & Hj & Hd & ->).
    destruct i as [|[|[|[|i]]]], j as [|[|[|[|j]]]]; try lia; unfold vsum, mom2; cbn; field.
  - intros f (i & Hi & ->).
    assert (G : forall t a S, S = a * a -> -1 <= t <= 1 -> t * a * (t * a) <= S).
    { intros t a S -> Ht. assert (0 <= a * a) by apply Rle_0_sqr. assert (t * t <= 1) by nra. replace (t * a * (t * a)) with ((t * t) * (a * a)) by ring. nra. }
    destruct i as [|[|[|i]]]; try lia; unfold vsum, mom2; cbn; apply G; try assumption; field.
Qed.
Lemma box_local h Q c p : orthogonal 3 Q -> length c = 3%nat -> length h = 3%nat -> box_set h Q c p -> in_cube h (to_local Q c p).
Proof.
  intros HQ Hc Hh (u & Hu & E). assert (Lu : length u = 3%nat) by (destruct Hu; congruence). replace (to_local Q c p) with u; [exact Hu|]. unfold to_local.
  refine (proj1 (move_inv 3 Q c u p HQ Hc Lu _ _) E); [rewrite E; apply move_len; auto; apply HQ|lia].
Qed.
Lemma corners_len h : length h = 3%nat -> length (box_vertices h) = 8%nat /\ rows_len 3 (box_vertices h) /\ rows_len 4 (map (fun w => w ++ [1]) (box_vertices h)).
Proof.
  intro Lh. destruct_vecs. split; [reflexivity|]. split; intros v Hv; cbn in Hv; repeat (destruct Hv as [<-|Hv]; [reflexivity|]); easy.
Qed.
(** z^T (inverse transform) = y *)
Lemma inv_T_dual Q c x t : orthogonal 3 Q -> length c = 3%nat -> length x = 3%nat ->
  vec_mat (mat_vec (transpose Q) x ++ [dot c x + t]) (inv_T Q c) = x ++ [t].
Proof.
  intros HQ Hc Hx. pose proof HQ as (MQ & Q1 & Q2). pose proof (orthogonal_transpose 3 Q HQ ltac:(lia)) as HT.
  assert (E1 : vec_mat (mat_vec (transpose Q) x ++ [dot c x + t]) (inv_T Q c) =
    mat_vec Q (mat_vec (transpose Q) x) ++ [dot c x + t - dot (mat_vec (transpose Q) c) (mat_vec (transpose Q) x)]).
  { clear HQ Q1 Q2 HT. destruct_vecs. cbn. list_eq; ring. }
  rewrite E1. rewrite (orthogonal_dot 3) by (auto; lia). rewrite <- (mat_vec_mat_mul 3 3 3); auto; [|now apply HT]. rewrite Q2, mat_vec_eye by auto. f_equal. f_equal. ring.
Qed.
Lemma diag_excess A B z : is_mat 4 4 A -> is_mat 4 4 B -> symmetric 4 A -> symmetric 4 B -> upper_tri_eq 4 B A -> entry B 3 3 = entry A 3 3 -> length z = 4%nat ->
  quad A z - quad B z = (entry A 0 0 - entry B 0 0) * (nth 0 z 0 * nth 0 z 0) + (entry A 1 1 - entry B 1 1) * (nth 1 z 0 * nth 1 z 0) + (entry A 2 2 - entry B 2 2) * (nth 2 z 0 * nth 2 z 0).
Proof.
  intros HA HB SA SB HU H3 Hz.
  pose proof (HU 0%nat 1%nat ltac:(lia)) as U01. pose proof (HU 0%nat 2%nat ltac:(lia)) as U02. pose proof (HU 0%nat 3%nat ltac:(lia)) as U03.
  pose proof (HU 1%nat 2%nat ltac:(lia)) as U12. pose proof (HU 1%nat 3%nat ltac:(lia)) as U13. pose proof (HU 2%nat 3%nat ltac:(lia)) as U23.
  assert (L : forall M, symmetric 4 M -> entry M 1 0 = entry M 0 1 /\ entry M 2 0 = entry M 0 2 /\ entry M 3 0 = entry M 0 3 /\ entry M 2 1 = entry M 1 2 /\ entry M 3 1 = entry M 1 3 /\ entry M 3 2 = entry M 2 3)
    by (intros M HM; repeat split; apply HM; lia).
  destruct (L A SA) as (A1 & A2 & A3 & A4 & A5 & A6). destruct (L B SB) as (B1 & B2 & B3 & B4 & B5 & B6). clear L HU SA SB.
  destruct_vecs. cbn in *. unfold quad. cbn. subst. ring.
Qed.

Lemma corner_sum_sym n ms V : rows_len n V -> symmetric n (msum n n (map2 (fun m v => mscale m (outer v v)) ms V)).
Proof. intros HV i j Hi Hj. rewrite !outer_sum_entry by auto. apply vsum_ext. intros. ring. Qed.
Lemma vsum_two f k g w V : vsum (fun v => f v + k * g v) w V = vsum f w V + k * vsum g w V.
Proof. now rewrite vsum_plus, vsum_scal. Qed.
Lemma box_custom h c r b v J eps : box_init h c r = Ok b -> orthogonal 3 (pose_rot 3 r) -> pv_value v J -> is_mat 4 4 J -> 0 <= eps ->
  exists P, box_moment_custom_vertex_constraints b v eps = Ok P /\ (P -> PSD 4 (msub J (mscale eps (eye 4)))) /\
  (realizable_J (box_set h (pose_rot 3 r) (pose_tr 3 c)) J -> PSD 4 (msub J (mscale eps (eye 4))) -> P) /\
  (P -> exists P', poly_moment_vertex_constraints (b_poly b) v eps = Ok P' /\ P').
Proof.
  intros Hb HQ Hv HJ Heps. pose proof (box_init_inv h c r b Hb) as (Lh & _ & Eh & Ec & Er & MQ & Lc & _ & _ & EV & _). rewrite Er in MQ. rewrite Ec in Lc.
  unfold box_moment_custom_vertex_constraints. rewrite (pv_ok v J eps Hv HJ Heps). cbn [bind]. rewrite Er, Ec, Eh.
  destruct (transform_inv_ok _ _ MQ Lc) as (ET & MT). rewrite ET. cbn [bind]. set (Q := pose_rot 3 r) in *. set (t := pose_tr 3 c) in *.
  set (J0 := mat_mul (mat_mul (inv_T Q t) J) (transpose (inv_T Q t))). destruct (corners_len h Lh) as (L8 & R3 & R4).
  eexists. split; [reflexivity|]. split; [|split].
  - intros (ms & _ & Hp & _). now apply psd_shift.
  - intros (s & Ho & Hn & Hin & HP) Hpsd. destruct (pms_local_pim Q t s J MQ Lc Ho Hn HP) as (L1 & L2 & _ & L3). fold J0 in L3.
    destruct (spread (box_vertices h) (pms_local Q t s) (fun f => exists i j, (i < 4)%nat /\ (j < 4)%nat /\ (i <> j \/ i = 3%nat) /\ f = mom2 i j)
      (fun f => exists i, (i < 3)%nat /\ f = mom2 i i) L2) as (ms & Lm & Pm & HE & HI).
    { intros mp Hm. apply in_map_iff in Hm as (mp' & <- & Hm). cbn [snd]. apply corner_weights; [exact Lh|]. apply box_local; auto. }
    exists ms. split; [split; [congruence|intros; apply Pm]|]. cbv zeta. split; [now apply psd_shift|].
    assert (EE : forall i j, (i < 4)%nat -> (j < 4)%nat -> entry (msum 4 4 (map2 (fun m V => mscale m (outer V V)) ms (map (fun w => w ++ [1]) (box_vertices h)))) i j = vsum (mom2 i j) ms (box_vertices h)).
    { intros i j Hi Hj. rewrite outer_sum_entry by auto. now rewrite vsum_map_rows. }
    assert (EJ : forall i j, (i < 4)%nat -> (j < 4)%nat -> entry J0 i j = lsum (map (fun mp => fst mp * mom2 i j (snd mp)) (pms_local Q t s))).
    { intros i j Hi Hj. rewrite L3 by auto. f_equal. apply map_ext. intro mp. unfold mom2. ring. }
    split; [|split].
    + rewrite EE, EJ by lia. apply HE. exists 3%nat, 3%nat. repeat split; auto.
    + intros i j Hij. rewrite EE, EJ by lia. apply HE. exists i, j. repeat split; try lia.
    + intros i Hi. rewrite EE, EJ by lia. apply HI. eauto.
  - intros (ms & (Lm & Pm) & Hp & H3 & HU & HD). cbv zeta in *.
    assert (Hpsd : PSD 4 (msub J (mscale eps (eye 4)))) by (now apply psd_shift).
    assert (PJ : PSD 4 J) by (eapply psd_unshift; eauto).
    assert (MJ0 : is_mat 4 4 J0) by (apply (is_mat_mul 4 4 4); [apply (is_mat_mul 4 4 4); auto; lia|apply is_mat_transpose; auto; lia|lia]).
    assert (SJ0 : symmetric 4 J0) by (apply symmetric_congr_4; auto; apply PJ).
    set (Jv := msum 4 4 (map2 (fun m V => mscale m (outer V V)) ms (map (fun w => w ++ [1]) (box_vertices h)))) in *.
    assert (MJv : is_mat 4 4 Jv) by (exact (msum_is_mat 4 4 _ (outer_sum_is_mat 4 ms _ R4))).
    assert (SJv : symmetric 4 Jv) by (now apply corner_sum_sym).
    set (W := map (move Q t) (box_vertices h)).
    assert (KEY : forall x k, length x = 3%nat -> vsum (fun w => (dot x w + k) * (dot x w + k)) ms W - quad J (x ++ [k]) =
      (entry Jv 0 0 - entry J0 0 0) * (nth 0 (mat_vec (transpose Q) x) 0 * nth 0 (mat_vec (transpose Q) x) 0)
      + (entry Jv 1 1 - entry J0 1 1) * (nth 1 (mat_vec (transpose Q) x) 0 * nth 1 (mat_vec (transpose Q) x) 0)
      + (entry Jv 2 2 - entry J0 2 2) * (nth 2 (mat_vec (transpose Q) x) 0 * nth 2 (mat_vec (transpose Q) x) 0)).
    { intros x k Hx. assert (Lz : length (mat_vec (transpose Q) x) = 3%nat) by (rewrite mat_vec_length; apply (is_mat_transpose 3 3); auto; lia).
      set (z := mat_vec (transpose Q) x ++ [dot t x + k]). assert (L4 : length z = 4%nat) by (unfold z; rewrite app_length, Lz; reflexivity).
      pose proof (diag_excess Jv J0 z MJv MJ0 SJv SJ0 HU H3 L4) as D.
      assert (Ez : forall i, (i < 3)%nat -> nth i z 0 = nth i (mat_vec (transpose Q) x) 0) by (intros i Hi; unfold z; rewrite app_nth1 by lia; reflexivity).
      rewrite !Ez in D by lia. rewrite <- D. f_equal.
      - unfold Jv. rewrite outer_sum_quad by auto. unfold W. rewrite !vsum_map_rows. apply vsum_ext. intros w Hw.
        assert (Lw : length w = 3%nat) by (now apply R3).
        assert (Ed : dot z (w ++ [1]) = dot x (move Q t w) + k); [|now rewrite Ed].
        unfold z, move. clear - MQ Lc Hx Lw. generalize Q t MQ Lc. intros Q0 t0 MQ0 Lt0. clear MQ Lc Q t. destruct_vecs. cbn. ring.
      - unfold J0. rewrite (quad_congr 4 4) by (auto; lia). unfold z. rewrite inv_T_dual by auto. reflexivity. }
    assert (LW : length ms = length W) by (unfold W; rewrite map_length; congruence).
    assert (RW : rows_len 3 W) by (intros w Hw; apply in_map_iff in Hw as (u & <- & Hu); apply (move_len 3); auto).
    assert (QJ : forall x k, length x = 3%nat -> quad J (x ++ [k]) = quad J (x ++ [0]) + 2 * k * dot x (map (fun i => entry J i 3) (seq 0 3)) + k * k * entry J 3 3).
    { intros x k Hx. destruct PJ as (_ & SJ & _). clear - HJ SJ Hx. pose proof (SJ 0%nat 3%nat ltac:(lia) ltac:(lia)) as E0.
      pose proof (SJ 1%nat 3%nat ltac:(lia) ltac:(lia)) as E1. pose proof (SJ 2%nat 3%nat ltac:(lia) ltac:(lia)) as E2. clear SJ.
      destruct_vecs. cbn in *. subst. unfold quad. cbn. ring. }
    assert (VS : forall x k, vsum (fun w => (dot x w + k) * (dot x w + k)) ms W = vsum (fun w => dot x w * dot x w) ms W + 2 * k * vsum (fun w => dot x w) ms W + k * k * lsum ms).
    { intros x k. rewrite <- (vsum_one ms W LW). rewrite <- !vsum_scal, <- !vsum_plus. apply vsum_ext. intros; ring. }
    assert (E33 : entry J 3 3 = lsum ms).
    { pose proof (KEY [0; 0; 0] 1 eq_refl) as K1. pose proof (KEY [0; 0; 0] 0 eq_refl) as K0. rewrite VS, QJ in K1 by reflexivity. rewrite VS in K0.
      rewrite (vsum_ext (fun w => dot [0; 0; 0] w) (fun w => 0 * 0)) in K1 by (intros w _; change [0; 0; 0] with (zeros 3); rewrite dot_zeros_l; ring). rewrite vsum_scal in K1.
      change [0; 0; 0] with (zeros 3) in K1 at 4. rewrite dot_zeros_l in K1. lra. }
    assert (E1 : forall x, length x = 3%nat -> dot x (map (fun i => entry J i 3) (seq 0 3)) = vsum (fun w => dot x w) ms W).
    { intros x Hx. pose proof (KEY x 1 Hx) as K1. pose proof (KEY x 0 Hx) as K0. rewrite VS, QJ in K1 by auto. rewrite VS in K0. lra. }
    pose proof (box_agree h c r b Hb HQ) as (Hok & _). destruct Hok as (_ & _ & _ & _ & V & Es & Hne & HV).
    assert (Ev : V = W) by (unfold W; rewrite <- Er, <- Ec, <- EV; unfold b_vertices, p_vertices; now rewrite Es).
    unfold poly_moment_vertex_constraints.
    assert (Ed : p_dim (b_poly b) = 3%nat) by (unfold p_dim, sf_dim; rewrite Es; cbn; destruct V as [|u V']; [easy|]; cbn; apply HV; now left).
    assert (Epv : p_vertices (b_poly b) = V) by (unfold p_vertices; now rewrite Es). assert (En : p_nv (b_poly b) = length V) by (unfold p_nv, sf_nv; now rewrite Es).
    rewrite Ed, Epv, En, (pv_ok v J eps Hv HJ Heps). cbn [Nat.eqb assert_ bind]. eexists. split; [reflexivity|]. rewrite Ev in *.
    exists ms. split; [split; [congruence|]|].
    { intros i Hi. apply Pm. rewrite <- LW in Hi. congruence. }
    split; [exact Hp|]. split; [exact E33|]. split.
    + apply (vec_ext 3); [reflexivity|rewrite vec_mat_length; destruct W as [|u W']; [easy|]; cbn; apply RW; now left|].
      intros j Hj. rewrite (vec_mat_vsum 3) by auto.
      assert (U : forall w, length w = 3%nat -> dot (nth j (eye 3) []) w = nth j w 0) by (intros w Lw; destruct_vecs; destruct j as [|[|[|j]]]; try lia; cbn; ring).
      rewrite <- U by reflexivity. rewrite E1 by (apply (is_mat_row 3 3); [apply is_mat_eye|exact Hj]). apply vsum_ext. intros w Hw. now apply U, RW.
    + intros x Hx. rewrite map2_map_r. rewrite (quad_msub 3 3); auto; [|exact (msum_is_mat 3 3 _ (outer_sum_is_mat 3 ms W RW))|now apply sub_mat_33].
      rewrite outer_sum_quad, quad_sub3 by auto. pose proof (KEY x 0 Hx) as K0. rewrite VS in K0.
      pose proof (HD 0%nat ltac:(lia)). pose proof (HD 1%nat ltac:(lia)). pose proof (HD 2%nat ltac:(lia)).
      pose proof (Rle_0_sqr (nth 0 (mat_vec (transpose Q) x) 0)). pose proof (Rle_0_sqr (nth 1 (mat_vec (transpose Q) x) 0)). pose proof (Rle_0_sqr (nth 2 (mat_vec (transpose Q) x) 0)).
      unfold Rsqr in *. nra.
Qed.
