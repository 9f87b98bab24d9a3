(** C49, C52: the custom constraints of cylinders; the margin eps on flat shapes. *)
From Verif Require Import Base.Vec Base.VecFacts Spec.Basic Spec.Objects Spec.Realizable Spec.Shapes Spec.ShapeObjects Spec.PolySpec
  Model.Util Model.Constraint Model.Inertial Model.Polydd Model.Poly Model.Box Model.Cylinder Model.Ellipsoid Model.Realize
  Proofs.Coord Proofs.LinAlg Proofs.UtilP Proofs.InertialP Proofs.Hull Proofs.BoxP Proofs.EllP Proofs.CylP Proofs.PolyP Proofs.InertialT Proofs.Decomp Proofs.PimP
  Proofs.RealizeE Proofs.SdpP Proofs.VertexP.

(** ** a flat shape has no matrix with a margin *)
Lemma realizable_flat_margin (K : vec -> Prop) y J eps : length y = 4%nat -> (forall p, length p = 3%nat -> K p -> dot y (p ++ [1]) = 0) -> 0 < dot y y ->
  0 < eps -> realizable_J K J -> ~ PSD 4 (msub J (mscale eps (eye 4))).
Proof.
  intros Ly Hy Ny He (s & Ho & Hn & Hin & HP) (_ & _ & H). specialize (H y Ly).
  rewrite (quad_msub 4 4), quad_mscale, (quad_eye 4), (pim_quad s J) in H by (auto; try apply HP; apply is_mat_mscale, is_mat_eye).
  rewrite (map_ext_in _ (fun _ => 0 * 0)) in H; [|intros mp Hm; rewrite Hy by auto; ring]. rewrite lsum_map_scal in H. nra.
Qed.
Lemma ell_flat h Q c i p : orthogonal 3 Q -> length c = 3%nat -> length h = 3%nat -> (i < 3)%nat -> nth i h 0 = 0 -> ell_set h Q c p ->
  dot (col i Q ++ [- dot (col i Q) c]) (p ++ [1]) = 0.
Proof.
  intros HQ Hc Hh Hi Hz (u & Lu & _ & E).
  assert (Lp : length p = 3%nat) by (rewrite E; apply move_len; auto; apply HQ).
  assert (Lm : length (vmul h u) = 3%nat) by (unfold vmul; rewrite map2_length; lia).
  pose proof (proj1 (move_inv 3 Q c (vmul h u) p HQ Hc Lm Lp ltac:(lia)) E) as E'.
  assert (F : nth i (vmul h u) 0 = 0) by (unfold vmul; rewrite (nth_map2 Rmult h u 0 0 0) by (try lia; ring); rewrite Hz; ring).
  rewrite E' in F. destruct HQ as (MQ & _). clear - MQ Hc Lp Hi F. destruct_vecs. destruct i as [|[|[|i]]]; try lia; cbn in *; lra.
Qed.
Lemma col_unit Q i : orthogonal 3 Q -> (i < 3)%nat -> dot (col i Q) (col i Q) = 1.
Proof.
  intros (MQ & Q1 & _) Hi. assert (E : entry (mat_mul (transpose Q) Q) i i = 1) by (rewrite Q1, entry_eye, Nat.eqb_refl; auto).
  clear Q1. destruct_vecs. destruct i as [|[|[|i]]]; try lia; cbn in *; lra.
Qed.
Lemma ell_flat_margin h r c e i ut v J eps : ell_init h r c = Ok e -> length h = 3%nat -> orthogonal 3 (pose_rot 3 r) -> proper_half h ->
  (i < 3)%nat -> nth i h 0 = 0 -> pv_value v J -> is_mat 4 4 J -> 0 < eps ->
  exists P, ell_moment_constraints ut e v eps = Ok P /\ ~ P.
Proof.
  intros Hi Lh HQ Hpr Hlt Hz Hv HJ He. destruct (ell_w_constraints h r c e Hi Lh ut v J eps HQ Hpr Hv HJ ltac:(lra)) as (P & E & H).
  exists P. split; [exact E|]. rewrite H. intros (Hp & HR).
  assert (Lc : length (pose_tr 3 c) = 3%nat).
  { pose proof (ell_init_inv h r c e Hi) as G. destruct G as (_ & _ & _ & G1 & _ & G2). rewrite Lh in G1, G2. now rewrite <- G1. }
  refine (realizable_flat_margin _ (col i (pose_rot 3 r) ++ [- dot (col i (pose_rot 3 r)) (pose_tr 3 c)]) J eps _ _ _ He HR Hp).
  - rewrite app_length, col_length. destruct HQ as ((L & _) & _). rewrite L. reflexivity.
  - intros p Lp Kp. apply (ell_flat h); auto.
  - pose proof (col_unit _ i HQ Hlt) as U. assert (G : forall a b, dot (a ++ [b]) (a ++ [b]) = dot a a + b * b) by (induction a as [|x a IH]; intro b; [cbn; ring|cbn [app]; rewrite !dot_cons, IH; ring]).
    rewrite G, U. pose proof (Rle_0_sqr (- dot (col i (pose_rot 3 r)) (pose_tr 3 c))) as S. unfold Rsqr in S. lra.
Qed.

(** ** the two halves of a system in a cylinder *)
Definition top_share (L z : R) : R := if Reqb L 0 then 1 / 2 else (z + L / 2) / L.
Lemma top_share_spec L z : 0 <= L -> Rabs z <= L / 2 -> 0 <= top_share L z <= 1 /\ z = (2 * top_share L z - 1) * (L / 2).
Proof.
  intros HL Hz. apply abs_le_inv in Hz. unfold top_share. destruct (Reqb L 0) eqn:E.
  - apply Reqb_iff in E. subst. lra.
  - apply Reqb_false in E. assert (P : 0 < L) by lra. split; [|field; lra]. split.
    + apply Rmult_le_pos; [lra|]. apply Rlt_le, Rinv_0_lt_compat, P.
    + apply Rmult_le_reg_r with L; auto. unfold Rdiv. rewrite Rmult_assoc, Rinv_l by lra. lra.
Qed.
Definition half_system (L : R) (top : bool) (s : pms) : pms :=
  map (fun mp => let '(m, p) := mp in
       let a := top_share L (nth 2 p 0) in
       (m * (if top then a else 1 - a), [nth 0 p 0; nth 1 p 0; if top then L / 2 else - (L / 2)])) s.
Lemma pim_exists s : pms_ok s -> exists J, pim_of s J.
Proof.
  intro Ho. exists (map (fun i => map (fun j => lsum (map (fun mp => fst mp * nth i (snd mp ++ [1]) 0 * nth j (snd mp ++ [1]) 0) s)) (seq 0 4)) (seq 0 4)).
  split; [split; [reflexivity|repeat constructor]|]. intros i j Hi Hj. unfold entry.
  rewrite (nth_indep _ [] (map (fun j => lsum (map (fun mp => fst mp * nth 0 (snd mp ++ [1]) 0 * nth j (snd mp ++ [1]) 0) s)) (seq 0 4))) by (rewrite map_length, seq_length; exact Hi).
  rewrite (map_nth (fun i => map (fun j => lsum (map (fun mp => fst mp * nth i (snd mp ++ [1]) 0 * nth j (snd mp ++ [1]) 0) s)) (seq 0 4))).
  rewrite seq_nth by exact Hi. now rewrite nth_map_seq by exact Hj.
Qed.
Lemma half_sum L s (f : vec -> R) k : 0 <= L -> (forall mp, In mp s -> exists x y z, snd mp = [x; y; z] /\ Rabs z <= L / 2 /\ 
     (k = true -> f [x; y; z] = top_share L z * f [x; y; L / 2] + (1 - top_share L z) * f [x; y; - (L / 2)]) /\
     (k = false -> f [x; y; z] <= top_share L z * f [x; y; L / 2] + (1 - top_share L z) * f [x; y; - (L / 2)])) -> pms_nonneg s ->
  let S := lsum (map (fun mp => fst mp * f (snd mp)) (half_system L true s)) + lsum (map (fun mp => fst mp * f (snd mp)) (half_system L false s)) in
  (k = true -> lsum (map (fun mp => fst mp * f (snd mp)) s) = S) /\ (k = false -> lsum (map (fun mp => fst mp * f (snd mp)) s) <= S).
Proof.
  intros HL H Hn S. unfold S, half_system. rewrite !map_map, <- lsum_map_plus. split; intro Hk.
  - apply lsum_map_ext. intros [m p] Hm. destruct (H _ Hm) as (x & y & z & E & Hz & H1 & _). cbn [snd] in E. subst p. cbn [fst snd nth]. rewrite (H1 Hk). ring.
  - apply lsum_map_le. intros [m p] Hm. destruct (H _ Hm) as (x & y & z & E & Hz & _ & H1). cbn [snd] in E. subst p. cbn [fst snd nth].
    specialize (H1 Hk). pose proof (Hn _ Hm) as Pm. cbn in Pm. nra.
Qed.

Lemma half_mom L i j x y z : 0 <= L -> Rabs z <= L / 2 -> (i < 4)%nat -> (j < 4)%nat ->
  ((i <> 2%nat \/ j <> 2%nat) -> mom2 i j [x; y; z] = top_share L z * mom2 i j [x; y; L / 2] + (1 - top_share L z) * mom2 i j [x; y; - (L / 2)]) /\
  (mom2 i j [x; y; z] <= top_share L z * mom2 i j [x; y; L / 2] + (1 - top_share L z) * mom2 i j [x; y; - (L / 2)]).
Proof.
  intros HL Hz Hi Hj. destruct (top_share_spec L z HL Hz) as (Ha & E). set (a := top_share L z) in *. clearbody a.
  assert (G : (i <> 2%nat \/ j <> 2%nat) -> mom2 i j [x; y; z] = a * mom2 i j [x; y; L / 2] + (1 - a) * mom2 i j [x; y; - (L / 2)]).
  { intro N. subst z. destruct i as [|[|[|[|i]]]], j as [|[|[|[|j]]]]; try lia; unfold mom2; cbn; field. }
  split; [exact G|]. destruct (Nat.eq_dec i 2) as [->|N]; [|rewrite G by auto; lra]. destruct (Nat.eq_dec j 2) as [->|N]; [|rewrite G by auto; lra].
  subst z. unfold mom2. cbn. assert (0 <= L / 2 * (L / 2)) by (apply Rle_0_sqr). assert (0 <= a * (1 - a)) by nra. nra.
Qed.
Lemma disk_init r z : 0 <= r -> ell_init [r; r; 0] None (Some [0; 0; z]) = Ok (disk0_at r z).
Proof. intro Hr. rewrite ell_init_good; [reflexivity|apply nonneg_rr0; exact Hr|apply is_mat_eye|reflexivity]. Qed.
Lemma disk_point r x y z : 0 <= r -> x * x + y * y <= r * r -> ell_set [r; r; 0] (eye 3) [0; 0; z] [x; y; z].
Proof.
  intros Hr H. destruct (Req_dec r 0) as [->|N].
  - exists [0; 0; 0]. split; [reflexivity|]. split; [cbn; lra|]. assert (x = 0) by nra. assert (y = 0) by nra. subst. cbn. list_eq; ring.
  - exists [x / r; y / r; 0]. split; [reflexivity|]. split.
    + cbn. replace (x / r * (x / r) + (y / r * (y / r) + (0 * 0 + 0))) with ((x * x + y * y) / (r * r)) by (field; lra).
      apply Rmult_le_reg_r with (r * r); [nra|]. unfold Rdiv. rewrite Rmult_assoc, Rinv_l by nra. lra.
    + cbn. list_eq; field; lra.
Qed.
Lemma disk_proper r : r = 0 \/ / 100000000 < r -> proper_half [r; r; 0].
Proof. intros H [|[|[|i]]] Hi; cbn in *; auto; lia. Qed.
Lemma half_in L R s top : 0 <= L -> 0 <= R -> (forall mp, In mp s -> exists x y z, snd mp = [x; y; z] /\ x * x + y * y <= R * R /\ Rabs z <= L / 2) -> pms_nonneg s ->
  pms_ok (half_system L top s) /\ pms_nonneg (half_system L top s) /\ pms_in (ell_set [R; R; 0] (eye 3) [0; 0; if top then L / 2 else - (L / 2)]) (half_system L top s).
Proof.
  intros HL HR H Hn. split; [|split]; intros mp Hm; apply in_map_iff in Hm as ([m p] & <- & Hm); cbn [fst snd]; [reflexivity| |].
  - destruct (H _ Hm) as (x & y & z & E & _ & Hz). cbn in E. subst p. cbn [nth]. destruct (top_share_spec L z HL Hz) as (Ha & _). pose proof (Hn _ Hm) as Pm. cbn in Pm.
    destruct top; apply Rmult_le_pos; lra.
  - destruct (H _ Hm) as (x & y & z & E & Hr & _). cbn in E. subst p. cbn [nth]. now apply disk_point.
Qed.
Lemma two_msum A B i j : is_mat 4 4 A -> is_mat 4 4 B -> (i < 4)%nat -> (j < 4)%nat -> entry (msum 4 4 [A; B]) i j = entry A i j + entry B i j.
Proof. intros HA HB Hi Hj. rewrite msum_entry by (auto; intros M [<-|[<-|[]]]; auto). cbn. ring. Qed.
Lemma cyl_custom_ok L R ro co c ut v J eps : cyl_init L R ro co = Ok c -> (R = 0 \/ / 100000000 < R) -> pv_value v J -> is_mat 4 4 J -> 0 <= eps ->
  exists P, cyl_moment_custom_vertex_constraints ut c v eps = Ok P /\ (P -> PSD 4 (msub J (mscale eps (eye 4)))) /\ (P -> eps = 0).
Proof.
  intros Hc HR Hv HJ Heps. apply cyl_init_inv in Hc as (PL & PR & MQ & Lc & ->). unfold cyl_moment_custom_vertex_constraints.
  rewrite (pv_ok v J eps Hv HJ Heps). cbn [bind c_rot c_center c_disk0s cyl_of]. destruct (transform_inv_ok _ _ MQ Lc) as (ET & MT). rewrite ET. cbn [bind].
  assert (D : forall z Jk, is_mat 4 4 Jk -> exists P, ell_moment_constraints ut (disk0_at R z) (PVmat Jk) eps = Ok P /\ (0 < eps -> ~ P)).
  { intros z Jk HJk. assert (OE : orthogonal 3 (pose_rot 3 None)) by (apply orthogonal_eye; lia). destruct Heps as [He|<-].
    - destruct (ell_flat_margin [R; R; 0] None (Some [0; 0; z]) (disk0_at R z) 2 ut (PVmat Jk) Jk eps (disk_init R z PR) eq_refl OE (disk_proper R HR) ltac:(lia) eq_refl eq_refl HJk He) as (P & E & N).
      exists P. auto.
    - destruct (ell_w_constraints0 [R; R; 0] None (Some [0; 0; z]) (disk0_at R z) (disk_init R z PR) eq_refl ut (PVmat Jk) Jk OE (disk_proper R HR) eq_refl HJk) as (P & E & _).
      exists P. split; [exact E|lra]. }
  cbn [map all_constraints]. destruct (D (1 / 2 * L) (zeros2 4 4) (is_mat_zeros2 4 4)) as (P1 & E1 & _). rewrite E1. cbn [bind].
  destruct (D (- (1 / 2 * L)) (zeros2 4 4) (is_mat_zeros2 4 4)) as (P2 & E2 & _). rewrite E2. cbn [bind].
  eexists. split; [reflexivity|]. split.
  - intros (Js & _ & _ & Hp & _). now apply psd_shift.
  - intros (Js & L2 & FJ & _ & (P & EP & HP) & _). destruct Js as [|Ja [|Jb [|]]]; try discriminate L2.
    destruct (Rle_lt_or_eq_dec 0 eps Heps) as [He|<-]; [|reflexivity]. exfalso. cbn [all_constraints] in EP.
    inversion FJ as [|? ? (MJa & _) FJ']. destruct (D (1 / 2 * L) Ja MJa) as (Pa & Ea & Na). rewrite Ea in EP. cbn [bind] in EP.
    destruct (ell_moment_constraints ut (disk0_at R (- (1 / 2 * L))) (PVmat Jb) eps) as [Pb| |]; cbn [bind] in EP; try discriminate. injection EP as <-. apply Na; tauto.
Qed.
Lemma Ok_eq {A} (a b : A) : Ok a = Ok b -> a = b.
Proof. now injection 1. Qed.
Lemma cyl_custom L R ro co c ut v J : cyl_init L R ro co = Ok c -> orthogonal 3 (pose_rot 3 ro) -> (R = 0 \/ / 100000000 < R) -> pv_value v J -> is_mat 4 4 J ->
  realizable_J (cyl_set L R (pose_rot 3 ro) (pose_tr 3 co)) J -> exists P, cyl_moment_custom_vertex_constraints ut c v 0 = Ok P /\ P.
Proof.
  intros Hc HQ HR Hv HJ HRz. destruct (cyl_custom_ok L R ro co c ut v J 0 Hc HR Hv HJ ltac:(lra)) as (P & EP & _). exists P. split; [exact EP|].
  apply cyl_init_inv in Hc as (PL & PR & MQ & Lc & ->). unfold cyl_moment_custom_vertex_constraints in EP.
  rewrite (pv_ok v J 0 Hv HJ ltac:(lra)) in EP. cbn [bind c_rot c_center c_disk0s cyl_of] in EP. destruct (transform_inv_ok _ _ MQ Lc) as (ET & MT). rewrite ET in EP. cbn [bind] in EP.
  set (Q := pose_rot 3 ro) in *. set (t := pose_tr 3 co) in *. set (J0 := mat_mul (mat_mul (inv_T Q t) J) (transpose (inv_T Q t))) in *.
  destruct HRz as (s & Ho & Hn & Hin & HP). destruct (pms_local_pim Q t s J MQ Lc Ho Hn HP) as (L1 & L2 & L3). fold J0 in L3. set (s0 := pms_local Q t s) in *.
  assert (H0 : forall mp, In mp s0 -> exists x y z, snd mp = [x; y; z] /\ x * x + y * y <= R * R /\ Rabs z <= L / 2).
  { intros mp Hm. apply in_map_iff in Hm as (mp' & <- & Hm). apply cyl_local; auto. }
  destruct (half_in L R s0 true PL PR H0 L2) as (T1 & T2 & T3). destruct (half_in L R s0 false PL PR H0 L2) as (B1 & B2 & B3). cbv iota in T3, B3.
  destruct (pim_exists _ T1) as (Jt & HJt). destruct (pim_exists _ B1) as (Jb & HJb).
  assert (OE : orthogonal 3 (pose_rot 3 None)) by (apply orthogonal_eye; lia).
  assert (D : forall z s Jk, pms_ok s -> pms_nonneg s -> pms_in (ell_set [R; R; 0] (eye 3) [0; 0; z]) s -> pim_of s Jk ->
    exists P, ell_moment_constraints ut (disk0_at R z) (PVmat Jk) 0 = Ok P /\ P).
  { intros z s' Jk O' N' I' HJk. destruct (ell_w_constraints0 [R; R; 0] None (Some [0; 0; z]) (disk0_at R z) (disk_init R z PR) eq_refl ut (PVmat Jk) Jk OE (disk_proper R HR) eq_refl (proj1 HJk)) as (P' & E' & H').
    exists P'. split; [exact E'|]. apply H'. exists s'. auto. }
  assert (Eh : 1 / 2 * L = L / 2) by field. rewrite Eh in EP.
  destruct (all_constraints _ _ (map (fun _ : Ell => zeros2 4 4) _)) as [PZ| |]; cbn [bind] in EP; try discriminate. apply Ok_eq in EP. subst P.
  exists [Jt; Jb]. split; [reflexivity|].
  assert (PSDk : forall s Jk, pms_ok s -> pms_nonneg s -> pim_of s Jk -> cp_psd_var 4 Jk).
  { intros s' Jk O' N' HJk. pose proof (decomp_psd _ _ _ (pim_decomp s' Jk O' N' HJk)) as (M' & S' & P'). split; [exact M'|]. split; [now apply (symmetric_transpose 4)|exact P']. }
  split; [constructor; [now apply (PSDk _ Jt T1)|constructor; [now apply (PSDk _ Jb B1)|constructor]]|]. cbv zeta. split.
  { apply psd_shift; auto. rewrite (msub_zero J HJ). exact (decomp_psd _ _ _ (pim_decomp s J Ho Hn HP)). }
  split.
  { destruct (D _ _ _ T1 T2 T3 HJt) as (Pt & Et & Ht). destruct (D _ _ _ B1 B2 B3 HJb) as (Pb & Eb & Hb). cbn [all_constraints]. rewrite Et. cbn [bind]. rewrite Eb. cbn [bind]. eexists. split; [reflexivity|]. auto. }
  assert (ES : forall i j, (i < 4)%nat -> (j < 4)%nat -> entry (msum 4 4 [Jt; Jb]) i j =
     lsum (map (fun mp => fst mp * mom2 i j (snd mp)) (half_system L true s0)) + lsum (map (fun mp => fst mp * mom2 i j (snd mp)) (half_system L false s0))).
  { intros i j Hi Hj. rewrite (two_msum Jt Jb i j (proj1 HJt) (proj1 HJb) Hi Hj). f_equal; [rewrite (proj2 HJt) by auto|rewrite (proj2 HJb) by auto]; apply lsum_map_ext; intros; unfold mom2; ring. }
  assert (EJ : forall i j, (i < 4)%nat -> (j < 4)%nat -> entry J0 i j = lsum (map (fun mp => fst mp * mom2 i j (snd mp)) s0)).
  { intros i j Hi Hj. rewrite (proj2 L3) by auto. apply lsum_map_ext; intros; unfold mom2; ring. }
  assert (EQ : forall i j, (i < 4)%nat -> (j < 4)%nat -> (i <> 2%nat \/ j <> 2%nat) -> entry J0 i j = entry (msum 4 4 [Jt; Jb]) i j).
  { intros i j Hi Hj N. rewrite ES, EJ by auto. apply (half_sum L s0 (mom2 i j) true); auto. intros mp Hm. destruct (H0 mp Hm) as (x & y & z & E & _ & Hz). exists x, y, z.
    split; [exact E|]. split; [exact Hz|]. destruct (half_mom L i j x y z PL Hz Hi Hj) as (G1 & G2). split; intro; auto. }
  split; [intros i j Hij; apply EQ; lia|]. split; [apply EQ; lia|]. split; [apply EQ; lia|]. split; [|apply EQ; lia].
  rewrite ES, EJ by lia. apply (half_sum L s0 (mom2 2 2) false); auto. intros mp Hm. destruct (H0 mp Hm) as (x & y & z & E & _ & Hz). exists x, y, z.
  split; [exact E|]. split; [exact Hz|]. destruct (half_mom L 2 2 x y z PL Hz ltac:(lia) ltac:(lia)) as (G1 & G2). split; intro; [discriminate|auto].
Qed.
(** a radius in (0, 1e-8]: the flat disks have reduced matrices of the wrong size *)
Lemma cyl_custom_thin L R ro co c v J eps : cyl_init L R ro co = Ok c -> 0 < R <= / 100000000 -> pv_value v J -> is_mat 4 4 J -> 0 <= eps ->
  cyl_moment_custom_vertex_constraints false c v eps = Raise ValueError.
Proof.
  intros Hc HR Hv HJ Heps. apply cyl_init_inv in Hc as (PL & PR & MQ & Lc & ->). unfold cyl_moment_custom_vertex_constraints.
  rewrite (pv_ok v J eps Hv HJ Heps). cbn [bind c_rot c_center c_disk0s cyl_of]. destruct (transform_inv_ok _ _ MQ Lc) as (ET & MT). rewrite ET. cbn [bind map all_constraints].
  assert (E : ell_moment_constraints false (disk0_at R (1 / 2 * L)) (PVmat (zeros2 4 4)) eps = Raise ValueError); [|now rewrite E].
  apply (ell_w_mixed [R; R; 0] None (Some [0; 0; 1 / 2 * L]) _ (disk_init R (1 / 2 * L) PR) eq_refl _ (zeros2 4 4)); auto using is_mat_zeros2.
  - exists 2%nat. auto.
  - exists 0%nat. cbn. split; [lia|lra].
  - reflexivity.
Qed.
