(** scripts/theory: what each script derives. *)
From Verif Require Import Base.Vec Base.VecFacts Spec.Basic Spec.Objects Spec.Shapes Spec.ShapeObjects Spec.Realizable Spec.Limit
  Model.Util Model.Inertial Model.Polydd Model.Poly Model.Ellipsoid Model.Box Model.Theory
  Proofs.Coord Proofs.InertialP Proofs.InertialT Proofs.BoxP Proofs.EllP Proofs.DensityP Proofs.MoreEx Proofs.TheoryP Proofs.TheoryQ Spec.Samples.

Lemma mat3_limit_scal k F L : is_mat 3 3 L -> mat_tends_to_0r 3 3 F L -> (forall d, 0 < d -> is_mat 3 3 (F d)) -> mat_tends_to_0r 3 3 (fun d => mdivs (F d) k) (mdivs L k).
Proof.
  intros HL (_ & H) HF. destruct (mat33_inv _ HL) as (l1 & l2 & l3 & l4 & l5 & l6 & l7 & l8 & l9 & ->).
  split; [split; [reflexivity|repeat constructor]|]. intros i j Hi Hj.
  apply tends_ext with (g := fun d => / k * entry (F d) i j).
  - intros d D. destruct (mat33_inv _ (HF d D)) as (q1 & q2 & q3 & q4 & q5 & q6 & q7 & q8 & q9 & ->).
    destruct i as [|[|[|i]]]; try lia; destruct j as [|[|[|j]]]; try lia; unfold entry; cbn; unfold Rdiv; ring.
  - eapply tends_eq; [apply tends_scal, H; auto|].
    destruct i as [|[|[|i]]]; try lia; destruct j as [|[|[|j]]]; try lia; unfold entry; cbn; unfold Rdiv; ring.
Qed.
Lemma layer_is_mat a b c d : is_mat 3 3 (th_layer a b c d).
Proof. split; [reflexivity|repeat constructor]. Qed.
Lemma dparams_0 m s1 s2 s3 : ip_H (dparams m s1 s2 s3 (pose_rot 3 None) (pose_tr 3 None)) = diag [m * s1; m * s2; m * s3].
Proof. unfold dparams, pose_rot, pose_tr. cbn. list_eq; ring. Qed.
Lemma dparams_I m s1 s2 s3 : ip_I (dparams m s1 s2 s3 (pose_rot 3 None) (pose_tr 3 None)) = Ok (th_dual (diag [m * s1; m * s2; m * s3])).
Proof. unfold ip_I. rewrite dparams_0. reflexivity. Qed.

Lemma shell_script k s1 s2 s3 a b c : 0 < k -> 0 <= a -> 0 <= b -> 0 <= c -> 0 < a * b + a * c + b * c ->
  let d := k * (a * b + a * c + b * c) in
  s1 = a * a * (a * b + a * c + 3 * b * c) / d -> s2 = b * b * (a * b + 3 * a * c + b * c) / d -> s3 = c * c * (3 * a * b + a * c + b * c) / d ->
  mat_tends_to_0r 3 3 (fun d => mdivs (th_layer a b c d) k) (th_dual (diag [1 * s1; 1 * s2; 1 * s3])) /\
  th_moment (th_dual (diag [1 * s1; 1 * s2; 1 * s3])) = diag [1 * s1; 1 * s2; 1 * s3].
Proof.
  intros Hk Ha Hb Hc Hd d -> -> ->. split.
  - replace (th_dual _) with (mdivs (th_dual (shell_moment a b c)) k).
    + apply mat3_limit_scal; [split; [reflexivity|repeat constructor]|now apply layer_limit|intros; apply layer_is_mat].
    + unfold d, th_dual, shell_moment. cbn. list_eq; field; lra.
  - assert (0 < d) by (unfold d; apply Rmult_lt_0_compat; lra). unfold th_moment, th_dual. cbn. list_eq; field; lra.
Qed.
Lemma box_shell_script a b c B : box_init [a; b; c] None None = Ok B -> 0 < a * b + a * c + b * c ->
  exists p I, box_hollow_density_params B 1 = Ok p /\ ip_I p = Ok I /\ mat_tends_to_0r 3 3 (fun d => mdivs (th_layer a b c d) 3) I /\
    th_moment I = ip_H p /\ th_shell_parax a b c = (ip_H p, I).
Proof.
  intros HB Hd. pose proof (box_init_inv _ _ _ _ HB) as (_ & N & _).
  pose proof (N 0%nat ltac:(lia)) as Ha. pose proof (N 1%nat ltac:(lia)) as Hb. pose proof (N 2%nat ltac:(lia)) as Hc. cbn in Ha, Hb, Hc. clear N.
  eexists. eexists. split; [apply (box_hollow_ok _ _ _ _ 1 a b c HB eq_refl ltac:(lra) Hd)|]. rewrite dparams_0. split; [apply dparams_I|].
  destruct (shell_script 3 _ _ _ a b c ltac:(lra) Ha Hb Hc Hd eq_refl eq_refl eq_refl) as (L & M). split; [exact L|]. split; [exact M|].
  unfold th_shell_parax, th_dual. cbv zeta. f_equal; cbn; list_eq; field; repeat split; lra.
Qed.
Lemma ell_shell_script a b c B : ell_init [a; b; c] None None = Ok B -> 0 < a * b + a * c + b * c ->
  exists p I, ell_hollow_density_params B 1 = Ok p /\ ip_I p = Ok I /\ mat_tends_to_0r 3 3 (fun d => mdivs (th_layer a b c d) 5) I /\
    th_moment I = ip_H p.
Proof.
  intros HB Hd. pose proof (ell_init_inv _ _ _ _ HB) as (N & _). cbn [length] in N.
  pose proof (N 0%nat ltac:(lia)) as Ha. pose proof (N 1%nat ltac:(lia)) as Hb. pose proof (N 2%nat ltac:(lia)) as Hc. cbn in Ha, Hb, Hc. clear N.
  eexists. eexists. split; [apply (ell_hollow_ok _ _ _ _ 1 a b c HB eq_refl ltac:(lra) Hd)|]. rewrite dparams_0. split; [apply dparams_I|].
  exact (shell_script 5 _ _ _ a b c ltac:(lra) Ha Hb Hc Hd eq_refl eq_refl eq_refl).
Qed.
Lemma sphere_layer_limit r : 0 < r -> tends_to_0r (th_sphere_layer r) (5 * r ^ 2 / 3).
Proof.
  intro Hr. apply tends_cont with (g := fun d => (5 * (r * r * r * r) + 10 * (r * r * r) * d + 10 * (r * r) * (d * d) + 5 * r * (d * d * d) + d * d * d * d) / (3 * (r * r) + 3 * r * d + d * d)).
  - intros d D. unfold th_sphere_layer. pose proof (Rmult_lt_0_compat r r). pose proof (Rmult_lt_0_compat r d). pose proof (Rmult_lt_0_compat d d). field.
    split; [lra|]. replace ((r + d) ^ 3 - r ^ 3) with (d * (3 * (r * r) + 3 * (r * d) + d * d)) by ring. apply Rgt_not_eq, Rmult_lt_0_compat; lra.
  - apply continuity_pt_div; [reg|reg|]. pose proof (Rmult_lt_0_compat r r). lra.
  - field. lra.
Qed.
(** the scalar script and the matrix script agree on spheres: I = 2 / 5 of the scalar limit *)
Lemma sphere_shell_script r B : ell_init [r; r; r] None None = Ok B -> 0 < r ->
  exists p l, ell_hollow_density_params B 1 = Ok p /\ tends_to_0r (th_sphere_layer r) l /\ ip_I p = Ok (mscale (2 / 5 * l) (eye 3)) /\ ip_H p = mscale (r ^ 2 / 3) (eye 3).
Proof.
  intros HB Hr. pose proof (Rmult_lt_0_compat r r). eexists. eexists. split; [apply (ell_hollow_ok _ _ _ _ 1 r r r HB eq_refl ltac:(lra) ltac:(lra))|].
  split; [now apply sphere_layer_limit|]. rewrite dparams_0, dparams_I. split; [f_equal; unfold th_dual|]; cbn; list_eq; field; lra.
Qed.
Lemma edge_script a b c B : box_init [a; b; c] None None = Ok B -> 0 < a + b + c ->
  exists p I, box_wireframe_density_params B 1 = Ok p /\ ip_I p = Ok I /\ th_edge a b c = (ip_H p, I).
Proof.
  intros HB Hd. eexists. eexists. split; [apply (box_wireframe_ok _ _ _ _ 1 a b c HB eq_refl ltac:(lra) Hd)|]. rewrite dparams_0. split; [apply dparams_I|].
  unfold th_edge, th_dual. cbv zeta. f_equal; cbn; list_eq; field; repeat split; lra.
Qed.
Lemma move_id v : length v = 3%nat -> move (eye 3) (zeros 3) v = v.
Proof. intro L. destruct_vecs. unfold move. cbn. list_eq; ring. Qed.
Lemma vertex_script a b c B : box_init [a; b; c] None None = Ok B ->
  th_corners a b c = b_vertices B /\
  (let s := map (fun v => (1 / 8, v)) (b_vertices B) in
   is_mat 3 3 (fst (th_vertex a b c)) /\ (forall i j, (i < 3)%nat -> (j < 3)%nat -> entry (fst (th_vertex a b c)) i j = pms_second s i j) /\
   pms_mass s = 1) /\
  fst (th_vertex a b c) = diag [a ^ 2; b ^ 2; c ^ 2] /\ H2I (fst (th_vertex a b c)) = Ok (snd (th_vertex a b c)).
Proof.
  intro HB. pose proof (box_init_inv _ _ _ _ HB) as (_ & _ & _ & E2 & E3 & _ & _ & _ & _ & V & _).
  assert (E : th_corners a b c = b_vertices B).
  { rewrite V, E2, E3. unfold pose_rot, pose_tr. cbn. unfold move. cbn. unfold th_corners. list_eq; ring. }
  split; [exact E|]. rewrite <- E. split; [|split].
  - cbv zeta. split; [split; [reflexivity|repeat constructor]|]. split.
    + intros i j Hi Hj. destruct i as [|[|[|i]]]; try lia; destruct j as [|[|[|j]]]; try lia; unfold entry, pms_second; cbn; field.
    + unfold pms_mass. cbn. field.
  - cbn. list_eq; field.
  - reflexivity.
Qed.
Lemma cubes r B : box_init [r; r; r] None None = Ok B -> 0 < r ->
  (exists p, box_uniform_density_params B 1 = Ok p /\ ip_H p = mscale (r ^ 2 * 3 / 9) (eye 3)) /\
  (exists p, box_hollow_density_params B 1 = Ok p /\ ip_H p = mscale (r ^ 2 * 5 / 9) (eye 3)) /\
  (exists p, box_wireframe_density_params B 1 = Ok p /\ ip_H p = mscale (r ^ 2 * 7 / 9) (eye 3)) /\
  fst (th_vertex r r r) = mscale (r ^ 2 * 9 / 9) (eye 3).
Proof.
  intros HB Hr. pose proof (Rmult_lt_0_compat r r). split; [|split; [|split]].
  - eexists. split; [apply (box_uniform_ok _ _ _ _ 1 HB ltac:(lra))|]. rewrite dparams_0. cbn. list_eq; field.
  - eexists. split; [apply (box_hollow_ok _ _ _ _ 1 r r r HB eq_refl ltac:(lra) ltac:(lra))|]. rewrite dparams_0. cbn. list_eq; field; lra.
  - eexists. split; [apply (box_wireframe_ok _ _ _ _ 1 r r r HB eq_refl ltac:(lra) ltac:(lra))|]. rewrite dparams_0. cbn. list_eq; field; lra.
  - cbn. list_eq; field.
Qed.

(** ** the realizability scripts *)
Lemma cuboid_script rx ry rz Hxy Hxz Hyz hx hy hz m al : 0 < rx -> 0 < ry -> 0 < rz ->
  mat_vec (th_cuboid_A rx ry rz) (th_cuboid_mu rx ry rz Hxy Hxz Hyz hx hy hz m al) = [Hxy; Hxz; Hyz; hx; hy; hz; m].
Proof. intros. unfold th_cuboid_mu, th_cuboid_subst. cbn. list_eq; field; lra. Qed.
Definition third (s : pms) : R := lsum (map (fun mp => fst mp * nth 0 (snd mp) 0 * nth 1 (snd mp) 0 * nth 2 (snd mp) 0) s).
Definition mu_of (rx ry rz : R) (s : pms) : vec :=
  th_cuboid_mu rx ry rz (pms_second s 0 1) (pms_second s 0 2) (pms_second s 1 2) (pms_first s 0) (pms_first s 1) (pms_first s 2) (pms_mass s) (third s).
Lemma mu_nil rx ry rz i : 0 < rx -> 0 < ry -> 0 < rz -> nth i (mu_of rx ry rz []) 0 = 0.
Proof.
  intros. unfold mu_of, pms_second, pms_first, pms_mass, third, th_cuboid_mu, th_cuboid_subst. cbn [map lsum fold_right].
  do 8 (destruct i as [|i]; [cbn; field; lra|]). destruct i; reflexivity.
Qed.
Lemma mu_cons rx ry rz k x y z s i : 0 < rx -> 0 < ry -> 0 < rz ->
  nth i (mu_of rx ry rz ((k, [x; y; z]) :: s)) 0 = k * nth i (th_cuboid_phi rx ry rz x y z) 0 + nth i (mu_of rx ry rz s) 0.
Proof.
  intros. assert (LC : forall a l, lsum (a :: l) = a + lsum l) by reflexivity.
  unfold mu_of, pms_second, pms_first, pms_mass, third. cbn [map fst snd nth]. rewrite !LC.
  unfold th_cuboid_mu, th_cuboid_subst, th_cuboid_phi, vdivs. cbn [map nth].
  repeat match goal with |- context [lsum ?l] => generalize (lsum l); intro end.
  do 8 (destruct i as [|i]; [field; lra|]). destruct i; cbn; ring.
Qed.
Lemma mu_sum rx ry rz s i : 0 < rx -> 0 < ry -> 0 < rz -> pms_ok s ->
  nth i (mu_of rx ry rz s) 0 = lsum (map (fun mp => fst mp * nth i (th_cuboid_phi rx ry rz (nth 0 (snd mp) 0) (nth 1 (snd mp) 0) (nth 2 (snd mp) 0)) 0) s).
Proof.
  intros Hx Hy Hz. induction s as [|[k p] s IH]; intro Hs; [now apply mu_nil|].
  destruct (len3_inv p (Hs _ (or_introl eq_refl))) as (x & y & z & ->). rewrite mu_cons, IH by (auto; intros mp Hmp; apply Hs; now right). reflexivity.
Qed.
Lemma phi_nonneg rx ry rz x y z i : 0 < rx -> 0 < ry -> 0 < rz -> - rx <= x <= rx -> - ry <= y <= ry -> - rz <= z <= rz ->
  0 <= nth i (th_cuboid_phi rx ry rz x y z) 0.
Proof.
  intros. assert (D : 0 < 8 * rx * ry * rz). { apply Rmult_lt_0_compat; [apply Rmult_lt_0_compat|]; lra. }
  do 8 (destruct i as [|i]; [cbn; apply Rmult_le_pos; [apply Rmult_le_pos; [apply Rmult_le_pos|]; lra|apply Rlt_le, Rinv_0_lt_compat; exact D]|]). destruct i; cbn; lra.
Qed.
Lemma cuboid_certificate rx ry rz s : 0 < rx -> 0 < ry -> 0 < rz -> pms_ok s -> pms_nonneg s -> pms_in (box_set [rx; ry; rz] (eye 3) (zeros 3)) s ->
  let mu := th_cuboid_mu rx ry rz (pms_second s 0 1) (pms_second s 0 2) (pms_second s 1 2) (pms_first s 0) (pms_first s 1) (pms_first s 2) (pms_mass s)
    (lsum (map (fun mp => fst mp * nth 0 (snd mp) 0 * nth 1 (snd mp) 0 * nth 2 (snd mp) 0) s)) in
  let t := combine mu (th_corners rx ry rz) in
  length mu = 8%nat /\ pms_nonneg t /\ pms_mass t = pms_mass s /\
  (forall i, (i < 3)%nat -> pms_first t i = pms_first s i) /\
  (forall i j, (i < 3)%nat -> (j < 3)%nat -> i <> j -> pms_second t i j = pms_second s i j) /\
  (forall i, (i < 3)%nat -> pms_second s i i <= pms_second t i i /\ pms_second t i i = pms_mass s * nth i [rx; ry; rz] 0 ^ 2).
Proof.
  intros Hx Hy Hz Ok Nn In mu t. split; [reflexivity|].
  assert (Sym : forall i j, pms_second s i j = pms_second s j i).
  { intros i j. unfold pms_second. f_equal. apply map_ext. intros mp. ring. }
  assert (Mu : forall i, 0 <= nth i mu 0).
  { intro i. change mu with (mu_of rx ry rz s). rewrite mu_sum by auto. clear t mu Sym. induction s as [|[k p] s IH]; [cbn; lra|]. cbn [map lsum fold_right fst snd].
    apply Rplus_le_le_0_compat.
    - destruct (len3_inv p (Ok _ (or_introl eq_refl))) as (x & y & z & ->). pose proof (In _ (or_introl eq_refl)) as B. apply box_region in B; [|lra..]. destruct B as (B1 & B2 & B3).
      apply Rmult_le_pos; [apply (Nn _ (or_introl eq_refl))|]. cbn [nth]. now apply phi_nonneg.
    - apply IH; intros mp Hmp; [apply Ok|apply Nn|apply In]; now right. }
  assert (D : forall i, (i < 3)%nat -> pms_second s i i <= pms_mass s * nth i [rx; ry; rz] 0 ^ 2).
  { intros i Hi. clear t mu Mu Sym. unfold pms_second, pms_mass. induction s as [|[k p] s IH]; [cbn; lra|]. cbn [map lsum fold_right fst snd].
    assert (IH' := IH (fun mp Hmp => Ok mp (or_intror Hmp)) (fun mp Hmp => Nn mp (or_intror Hmp)) (fun mp Hmp => In mp (or_intror Hmp))).
    pose proof (Nn _ (or_introl eq_refl)) as K. cbn in K.
    destruct (len3_inv p (Ok _ (or_introl eq_refl))) as (x & y & z & ->). pose proof (In _ (or_introl eq_refl)) as B. apply box_region in B; [|lra..]. destruct B as (B1 & B2 & B3).
    rewrite Rmult_plus_distr_r. apply Rplus_le_compat; [|exact IH']. rewrite Rmult_assoc. apply Rmult_le_compat_l; [exact K|].
    destruct i as [|[|[|i]]]; try lia; cbn [nth]; rewrite <- Rsqr_pow2; change (?a * ?a) with (Rsqr a); apply neg_pos_Rsqr_le; lra. }
  repeat split.
  - intros [k v] Hin. apply in_combine_l in Hin. apply (In_nth _ _ 0) in Hin as (i & _ & <-). apply Mu.
  - unfold t, mu, th_cuboid_mu, th_cuboid_subst, pms_mass at 1. cbn. field. lra.
  - intros i Hi. unfold t, mu, th_cuboid_mu, th_cuboid_subst. unfold pms_first at 1. destruct i as [|[|[|i]]]; try lia; cbn; field; lra.
  - intros i j Hi Hj Hne. unfold t, mu, th_cuboid_mu, th_cuboid_subst. unfold pms_second at 1.
    destruct i as [|[|[|i]]]; try lia; destruct j as [|[|[|j]]]; try lia; try (now contradiction Hne); rewrite 1?(Sym 1%nat 0%nat), 1?(Sym 2%nat 0%nat), 1?(Sym 2%nat 1%nat); cbn; field; lra.
  - assert (E : pms_second t i i = pms_mass s * nth i [rx; ry; rz] 0 ^ 2).
    { unfold t, mu, th_cuboid_mu, th_cuboid_subst. unfold pms_second at 1. destruct i as [|[|[|i]]]; try lia; cbn; field; lra. }
    rewrite E. now apply D.
  - unfold t, mu, th_cuboid_mu, th_cuboid_subst. unfold pms_second at 1. destruct i as [|[|[|i]]]; try lia; cbn; field; lra.
Qed.

Lemma cylinder_script rz px py pz : 0 < rz -> - rz <= pz <= rz ->
  let s := [((rz + pz) / (2 * rz), [px; py; rz]); ((rz - pz) / (2 * rz), [px; py; - rz])] in
  pms_nonneg s /\ pim_of s (th_cylinder_P rz px py pz) /\
  forall i j, (i < 4)%nat -> (j < 4)%nat ->
    entry (th_cylinder_P rz px py pz) i j = if Nat.eqb i 2 && Nat.eqb j 2 then rz ^ 2 else nth i [px; py; pz; 1] 0 * nth j [px; py; pz; 1] 0.
Proof.
  intros Hr Hp s. split; [|split].
  - intros mp [<-|[<-|[]]]; cbn; apply Rmult_le_pos; try lra; apply Rlt_le, Rinv_0_lt_compat; lra.
  - split; [split; [reflexivity|repeat constructor]|]. intros i j Hi Hj.
    destruct i as [|[|[|[|i]]]]; try lia; destruct j as [|[|[|[|j]]]]; try lia; unfold entry; cbn; field; lra.
  - intros i j Hi Hj. destruct i as [|[|[|[|i]]]]; try lia; destruct j as [|[|[|[|j]]]]; try lia; unfold entry; cbn; field; lra.
Qed.

(** the weights of one point, and the weights of a body as their sum *)
Lemma phi_script rx ry rz x y z : 0 < rx -> 0 < ry -> 0 < rz -> box_set [rx; ry; rz] (eye 3) (zeros 3) [x; y; z] ->
  let t := combine (th_cuboid_phi rx ry rz x y z) (th_corners rx ry rz) in
  length t = 8%nat /\ pms_nonneg t /\ pms_mass t = 1 /\ (forall i, (i < 3)%nat -> pms_first t i = nth i [x; y; z] 0) /\
  mat_vec (th_cuboid_A rx ry rz) (th_cuboid_phi rx ry rz x y z) = [x * y; x * z; y * z; x; y; z; 1].
Proof.
  intros Hx Hy Hz HB t. destruct (proj1 (box_region rx ry rz x y z ltac:(lra) ltac:(lra) ltac:(lra)) HB) as (B1 & B2 & B3). split; [reflexivity|]. split; [|split; [|split]].
  - intros mp Hmp. destruct mp as [k p]. apply in_combine_l in Hmp. cbn [fst]. destruct (In_nth _ _ 0 Hmp) as (i & _ & <-). now apply phi_nonneg.
  - unfold t, pms_mass, th_cuboid_phi. cbn. field. lra.
  - intros i Hi. unfold t, pms_first, th_cuboid_phi. destruct i as [|[|[|i]]]; [| | |lia]; cbn; field; lra.
  - unfold th_cuboid_phi. cbn. list_eq; field; lra.
Qed.
Lemma phi_sum rx ry rz s i : 0 < rx -> 0 < ry -> 0 < rz -> pms_ok s ->
  nth i (th_cuboid_mu rx ry rz (pms_second s 0 1) (pms_second s 0 2) (pms_second s 1 2) (pms_first s 0) (pms_first s 1) (pms_first s 2) (pms_mass s)
    (lsum (map (fun mp => fst mp * nth 0 (snd mp) 0 * nth 1 (snd mp) 0 * nth 2 (snd mp) 0) s))) 0 =
  lsum (map (fun mp => fst mp * nth i (th_cuboid_phi rx ry rz (nth 0 (snd mp) 0) (nth 1 (snd mp) 0) (nth 2 (snd mp) 0)) 0) s).
Proof. exact (mu_sum rx ry rz s i). Qed.

Lemma theory_case : exists b e b0 e0, box_init [1; 2; 3] (Some t0) (Some Q0) = Ok b /\ ell_init [1; 2; 3] (Some Q0) (Some t0) = Ok e /\
  box_init [1; 2; 3] None None = Ok b0 /\ ell_init [2; 2; 2] None None = Ok e0 /\
  (exists s, pms_ok s /\ pms_nonneg s /\ pms_in (box_set [1; 2; 3] (eye 3) (zeros 3)) s /\ pms_mass s = 3 /\ pms_second s 0 1 = 2) /\
  0 < 3 /\ - 3 <= -1 <= 3.
Proof.
  destruct volumes_case as (b & e & _ & Hb & He & _). exists b, e.
  destruct (box_init_good [1; 2; 3] None None eq_refl) as (b0 & Hb0); [intros [|[|[|i]]] Hi; cbn; try lra; lia|split; [reflexivity|repeat constructor]|reflexivity|].
  exists b0. eexists. split; [exact Hb|]. split; [exact He|]. split; [exact Hb0|]. split.
  - apply ell_init_good; [intros [|[|[|i]]] Hi; cbn in *; try lra; lia|split; [reflexivity|repeat constructor]|reflexivity].
  - split; [|lra]. exists [(1, [1; 2; 3]); (2, [0; -1; 1])]. split; [|split; [|split; [|split]]].
    + intros mp [<-|[<-|[]]]; reflexivity.
    + intros mp [<-|[<-|[]]]; cbn; lra.
    + intros mp [<-|[<-|[]]]; cbn [snd]; apply box_region; lra.
    + unfold pms_mass. cbn. lra.
    + unfold pms_second. cbn. lra.
Qed.
