(** Lemmas about the constructor, dynamics, spatial vectors and transforms (C10-C15, C19). *)
From Verif Require Import Proofs.Coord Model.Util Model.Spatial Model.Inertial
  Model.Constraint Spec.Objects Proofs.InertialP Proofs.InertialT.

(** ** C10 *)
(** inertia of a mass at c about the origin: |c|^2 1 - c c^T *)

Lemma parallel_axis_agree m c Ic : 0 <= m -> length c = 3%nat -> is_mat 3 3 Ic ->
  exists p, ip_init m None (Some c) None (Some Ic) true = Ok p /\
    ip_init m None (Some c) None (Some (madd Ic (parallel_axis m c))) false = Ok p /\
    ip_mass p = m /\ ip_com p = c /\
    ip_I p = Ok (madd Ic (parallel_axis m c)) /\ ip_Ic p = Ok Ic.
Proof.
  intros Hm Hc HI. unfold ip_init. rewrite Rleb_true by lra. cbn [bind assert_].
  rewrite (I2H_ok Ic) by auto. cbn [bind]. eexists. split; [reflexivity|].
  unfold parallel_axis, ip_I, ip_Ic, ip_Hc. destruct_vecs. cbn [ip_mass ip_com ip_H].
  split; [|split; [|split; [|split]]]; try reflexivity.
  - cbn. f_equal. apply ip_eq; cbn; list_eq; field.
  - cbn. f_equal. list_eq; field.
  - cbn. f_equal. list_eq; field.
Qed.
Lemma second_moment_translate m c Hc : 0 <= m -> length c = 3%nat -> is_mat 3 3 Hc ->
  exists p, ip_init m None (Some c) (Some Hc) None true = Ok p /\
    ip_mass p = m /\ ip_com p = c /\ ip_H p = madd Hc (mscale m (outer c c)) /\ ip_Hc p = Hc.
Proof.
  intros Hm Hlc HI. unfold ip_init. rewrite Rleb_true by lra. cbn [bind assert_].
  eexists. split; [reflexivity|]. unfold ip_Hc. destruct_vecs. cbn [ip_mass ip_com ip_H].
  split; [|split; [|split]]; try reflexivity. cbn. list_eq; ring.
Qed.
(** a point mass: neither H nor I given *)
Lemma point_mass_init m c b : 0 <= m -> length c = 3%nat ->
  exists p, ip_init m None (Some c) None None b = Ok p /\ describes p [(m, c)].
Proof.
  intros Hm Hc. unfold ip_init. rewrite Rleb_true by lra. cbn [bind assert_].
  eexists. split; [reflexivity|]. unfold describes. destruct_vecs.
  destruct b; cbn; apply has_moments_coords; cbn; repeat split; ring.
Qed.
Lemma init_h_com m h H I b : 0 < m ->
  ip_init m (Some h) None H I b = ip_init m None (Some (vdivs h m)) H I b.
Proof.
  intros Hm. unfold ip_init. rewrite Rleb_true by lra. cbn [bind assert_].
  rewrite Reqb_neq by lra. reflexivity.
Qed.
Lemma init_errors m h com H I b :
  (m < 0 -> ip_init m h com H I b = Raise AssertionError) /\
  (0 <= m -> h <> None -> com <> None -> ip_init m h com H I b = Raise ValueError) /\
  (0 <= m -> h = None \/ com = None -> H <> None -> I <> None ->
     ip_init m h com H I b = Raise ValueError).
Proof.
  unfold ip_init. split; [|split].
  - intros Hm. now rewrite (proj2 (Rleb_false 0 m)) by auto.
  - intros Hm H1 H2. rewrite Rleb_true by lra. destruct h; [|congruence].
    destruct com; [reflexivity|congruence].
  - intros Hm H1 H2 H3. rewrite Rleb_true by lra. destruct H; [|congruence]. destruct I; [|congruence].
    destruct H1 as [-> | ->]; [destruct com|destruct h]; reflexivity.
Qed.

(** ** C11-C13 *)
Lemma sv_adjoint_ok w1 w2 w3 v1 v2 v3 :
  sv_adjoint {| sv_vec := [w1; w2; w3; v1; v2; v3] |} =
  Ok [[0; - w3; w2; 0; 0; 0]; [w3; 0; - w1; 0; 0; 0]; [- w2; w1; 0; 0; 0; 0];
      [0; - v3; v2; 0; - w3; w2]; [v3; 0; - v1; w3; 0; - w1]; [- v2; v1; 0; - w2; w1; 0]].
Proof. reflexivity. Qed.


Lemma ip_M_coords m c1 c2 c3 a b c d e f g h i :
  ip_M {| ip_mass := m; ip_com := [c1; c2; c3]; ip_H := [[a; b; c]; [d; e; f]; [g; h; i]] |} =
  Ok [[a + (e + (i + 0)) - a; 0 - b; 0 - c; 0; - (m * c3); m * c2];
      [0 - d; a + (e + (i + 0)) - e; 0 - f; m * c3; 0; - (m * c1)];
      [0 - g; 0 - h; a + (e + (i + 0)) - i; - (m * c2); m * c1; 0];
      [- 0; - - (m * c3); - (m * c2); m; 0; 0];
      [- (m * c3); - 0; - - (m * c1); 0; m; 0];
      [- - (m * c2); - (m * c1); - 0; 0; 0; m]].
Proof.
  unfold ip_M, ip_I. cbn. f_equal. list_eq; ring.
Qed.

Lemma ip_M_ok p : ip_ok p -> exists M, ip_M p = Ok M /\ is_mat 6 6 M.
Proof.
  destruct p as [m c H]; intros [Hc HH]; cbn [ip_com ip_H] in *. destruct_vecs.
  rewrite ip_M_coords. eexists; split; [reflexivity|]. split; [reflexivity|repeat constructor].
Qed.

Lemma body_wrench_ok p V A : ip_ok p -> sv_ok V -> sv_ok A ->
  exists M ad f, ip_M p = Ok M /\ sv_adjoint V = Ok ad /\ ip_body_wrench p V A = Ok f /\
    sv_ok f /\
    sv_vec f = vsub (mat_vec M (sv_vec A)) (mat_vec (mat_mul (transpose ad) M) (sv_vec V)).
Proof.
  destruct p as [m c H]; destruct V as [V]; destruct A as [A]. unfold sv_ok.
  intros [Hc HH] HV HA; cbn [ip_com ip_H sv_vec] in *. destruct_vecs.
  unfold ip_body_wrench.
  rewrite ip_M_coords, sv_adjoint_ok. do 3 eexists. repeat (split; [reflexivity|]). reflexivity.
Qed.

Lemma regressor_wrench p V A : ip_ok p -> symmetric 3 (ip_H p) -> sv_ok V -> sv_ok A ->
  exists Y v f, regressor V A = Ok Y /\ ip_vec p = Ok v /\ ip_body_wrench p V A = Ok f /\
    mat_vec Y v = sv_vec f.
Proof.
  intros Hp HS HV HA. 
  destruct (body_wrench_ok p V A Hp HV HA) as (M & ad & f & EM & Ead & Ef & _ & Hf).
  rewrite Ef.
  destruct p as [m c H]; destruct V as [V]; destruct A as [A]. unfold sv_ok in *.
  destruct Hp as [Hc HH]; cbn [ip_com ip_H sv_vec] in *.
  destruct_vecs. apply sym33 in HS as (-> & -> & ->).
  rewrite ip_M_coords in EM. injection EM as <-. rewrite sv_adjoint_ok in Ead. injection Ead as <-.
  do 3 eexists. split; [reflexivity|]. split; [reflexivity|]. split; [reflexivity|].
  rewrite Hf. cbn. list_eq; ring.
Qed.

(** velocity and acceleration of the material point at p *)
(** the wrench (torque about the origin, force) that Newton's law requires for the point mass *)

Lemma lsum_map_coord_6 (F : R * vec -> vec) s : (forall mp, In mp s -> length (F mp) = 6%nat) ->
  fold_right vadd (zeros 6) (map F s) =
  map (fun k => lsum (map (fun mp => nth k (F mp) 0) s)) (seq 0 6).
Proof.
  induction s as [|mp s IH]; intros H.
  - reflexivity.
  - cbn [map fold_right]. rewrite IH by (intros; apply H; right; auto).
    apply (vec_ext 6).
    + rewrite vadd_length; rewrite H by (left; auto); reflexivity.
    + reflexivity.
    + intros k Hk. rewrite nth_vadd by (rewrite H by (left; auto); reflexivity).
      rewrite !nth_map_seq by auto. reflexivity.
Qed.

Lemma point_wrench_sums w1 w2 w3 v1 v2 v3 al1 al2 al3 a1 a2 a3 s k : pms_ok s -> (k < 6)%nat ->
  lsum (map (fun mp => nth k (point_wrench [w1; w2; w3] [v1; v2; v3] [al1; al2; al3] [a1; a2; a3] mp) 0) s)
  = let m := pms_mass s in
    let h := pms_first s in let H := pms_second s in
    let c1 := a1 + (w2 * v3 - w3 * v2) in
    let c2 := a2 + (w3 * v1 - w1 * v3) in
    let c3 := a3 + (w1 * v2 - w2 * v1) in
    (* f = m (c + B p) *)
    let b11 := - w2 * w2 - w3 * w3 in let b12 := w1 * w2 - al3 in let b13 := w1 * w3 + al2 in
    let b21 := w1 * w2 + al3 in let b22 := - w1 * w1 - w3 * w3 in let b23 := w2 * w3 - al1 in
    let b31 := w1 * w3 - al2 in let b32 := w2 * w3 + al1 in let b33 := - w1 * w1 - w2 * w2 in
    nth k [ h 1%nat * c3 + b31 * H 1%nat 0%nat + b32 * H 1%nat 1%nat + b33 * H 1%nat 2%nat
            - (h 2%nat * c2 + b21 * H 2%nat 0%nat + b22 * H 2%nat 1%nat + b23 * H 2%nat 2%nat);
            h 2%nat * c1 + b11 * H 2%nat 0%nat + b12 * H 2%nat 1%nat + b13 * H 2%nat 2%nat
            - (h 0%nat * c3 + b31 * H 0%nat 0%nat + b32 * H 0%nat 1%nat + b33 * H 0%nat 2%nat);
            h 0%nat * c2 + b21 * H 0%nat 0%nat + b22 * H 0%nat 1%nat + b23 * H 0%nat 2%nat
            - (h 1%nat * c1 + b11 * H 1%nat 0%nat + b12 * H 1%nat 1%nat + b13 * H 1%nat 2%nat);
            m * c1 + b11 * h 0%nat + b12 * h 1%nat + b13 * h 2%nat;
            m * c2 + b21 * h 0%nat + b22 * h 1%nat + b23 * h 2%nat;
            m * c3 + b31 * h 0%nat + b32 * h 1%nat + b33 * h 2%nat ] 0.
Proof.
  intros Hs Hk. induction s as [|[m p] s IH].
  - destruct k as [|[|[|[|[|[|k]]]]]]; try lia; cbn; ring.
  - apply pms_ok_cons in Hs as [Hp Hs]. cbn [map lsum fold_right].
    change (fold_right Rplus 0) with lsum. rewrite (IH Hs). cbv zeta.
    rewrite !pms_first_cons, !pms_second_cons, pms_mass_cons. clear IH. destruct_vecs.
    destruct k as [|[|[|[|[|[|k]]]]]]; try lia; cbn; ring.
Qed.

Lemma body_wrench_newton p s w v al a : describes p s -> pms_ok s ->
  length w = 3%nat -> length v = 3%nat -> length al = 3%nat -> length a = 3%nat ->
  exists f, ip_body_wrench p {| sv_vec := w ++ v |} {| sv_vec := al ++ a |} = Ok f /\
    sv_vec f = fold_right vadd (zeros 6) (map (point_wrench w v al a) s).
Proof.
  intros Hd Hs Hw Hv Hal Ha. destruct (describes_ok _ _ Hd) as [Hp HS].
  destruct (body_wrench_ok p {| sv_vec := w ++ v |} {| sv_vec := al ++ a |} Hp)
    as (M & ad & f & EM & Ead & Ef & _ & Hf).
  { unfold sv_ok; cbn. rewrite app_length. lia. }
  { unfold sv_ok; cbn. rewrite app_length. lia. }
  exists f. split; auto. rewrite Hf. rewrite lsum_map_coord_6.
  2:{ intros mp Hmp. specialize (Hs _ Hmp). unfold point_wrench. destruct mp as [m p']. cbn [fst snd] in *.
      destruct_vecs. reflexivity. }
  destruct p as [m c H]; destruct Hp as [Hc HH]; unfold describes, ip_h in *;
    cbn [ip_mass ip_com ip_H] in *. destruct_vecs. cbn [app] in *.
  rewrite ip_M_coords in EM. injection EM as <-. rewrite sv_adjoint_ok in Ead. injection Ead as <-.
  apply has_moments_coords in Hd
      as (E1 & (E2 & E3 & E4) & (E5 & E6 & E7) & (E8 & E9 & E10) & (E11 & E12 & E13)).
  apply sym33 in HS as (S1 & S2 & S3).
  cbn [seq map]. rewrite !point_wrench_sums by (auto; lia). cbv zeta. cbn [nth].
  rewrite <- E1, <- E2, <- E3, <- E4, <- E5, <- E6, <- E7, <- E8, <- E9, <- E10,
      <- E11, <- E12, <- E13. clear - S1 S2 S3. subst. cbn. list_eq; ring.
Qed.

Lemma kinetic_energy p s w v : describes p s -> pms_ok s -> length w = 3%nat -> length v = 3%nat ->
  exists M, ip_M p = Ok M /\
    quad M (w ++ v) =
    lsum (map (fun mp => fst mp * norm2 (point_velocity w v (snd mp))) s).
Proof.
  intros Hd Hs Hw Hv. destruct (describes_ok _ _ Hd) as [[Hc HH] HS].
  destruct p as [m c H]; unfold describes, ip_h in *; cbn [ip_mass ip_com ip_H] in *.
  destruct (len3_inv w Hw) as (w1 & w2 & w3 & ->). destruct (len3_inv v Hv) as (v1 & v2 & v3 & ->).
  assert (K : forall s, pms_ok s ->
    lsum (map (fun mp => fst mp * norm2 (point_velocity [w1; w2; w3] [v1; v2; v3] (snd mp))) s) =
    pms_mass s * (v1 * v1 + v2 * v2 + v3 * v3)
    + 2 * (pms_first s 0 * (v2 * w3 - v3 * w2) + pms_first s 1 * (v3 * w1 - v1 * w3)
           + pms_first s 2 * (v1 * w2 - v2 * w1))
    + (w2 * w2 + w3 * w3) * pms_second s 0 0 + (w1 * w1 + w3 * w3) * pms_second s 1 1
    + (w1 * w1 + w2 * w2) * pms_second s 2 2
    - 2 * w1 * w2 * pms_second s 0 1 - 2 * w1 * w3 * pms_second s 0 2 - 2 * w2 * w3 * pms_second s 1 2).
  { clear. induction s as [|[m p] s IH]; intros Hs.
    - cbn; ring.
    - apply pms_ok_cons in Hs as [Hp Hs]. cbn [map lsum fold_right fst snd].
      change (fold_right Rplus 0) with lsum. rewrite (IH Hs).
      rewrite !pms_first_cons, !pms_second_cons, pms_mass_cons. destruct_vecs. cbn. ring. }
  rewrite K by auto. destruct_vecs. rewrite ip_M_coords. eexists; split; [reflexivity|].
  apply has_moments_coords in Hd
      as (E1 & (E2 & E3 & E4) & (E5 & E6 & E7) & (E8 & E9 & E10) & (E11 & E12 & E13)).
  apply sym33 in HS as (S1 & S2 & S3).
  rewrite <- E1, <- E2, <- E3, <- E4, <- E5, <- E6, <- E7, <- E9, <- E10, <- E13.
  clear - S1 S2 S3. subst. cbn. ring.
Qed.

Lemma kinetic_energy_nonneg p V : ip_ok p -> PSD 4 (ip_J p) -> length V = 6%nat ->
  exists M, ip_M p = Ok M /\ 0 <= quad M V.
Proof.
  intros [Hc HH] (_ & HS & HP) HV. destruct p as [m c H]; cbn [ip_mass ip_com ip_H] in *.
  destruct (len6_inv V HV) as (w1 & w2 & w3 & v1 & v2 & v3 & ->).
  destruct_vecs. apply sym44 in HS as (S1 & S2 & S3 & S4 & S5 & S6). subst.
  rewrite ip_M_coords. eexists; split; [reflexivity|].
  match type of HP with forall x, _ -> 0 <= quad ?J x =>
    pose proof (HP [0; - w3; w2; v1] eq_refl) as Q1;
    pose proof (HP [w3; 0; - w1; v2] eq_refl) as Q2;
    pose proof (HP [- w2; w1; 0; v3] eq_refl) as Q3
  end.
  match goal with |- 0 <= ?q =>
    match type of Q1 with 0 <= ?q1 => match type of Q2 with 0 <= ?q2 => match type of Q3 with 0 <= ?q3 =>
      replace q with (q1 + q2 + q3) by (cbn; ring) end end end end.
  lra.
Qed.

Lemma ip_M_symmetric p M : ip_ok p -> symmetric 3 (ip_H p) -> ip_M p = Ok M -> symmetric 6 M.
Proof.
  intros [Hc HH] HS E. destruct p as [m c H]; cbn [ip_mass ip_com ip_H] in *.
  destruct_vecs. apply sym33 in HS as (-> & -> & ->). rewrite ip_M_coords in E. injection E as <-.
  intros i j Hi Hj.
  destruct i as [|[|[|[|[|[|i]]]]]]; destruct j as [|[|[|[|[|[|j]]]]]]; try lia; cbn; ring.
Qed.

Lemma gyroscopic_power p V : ip_ok p -> sv_ok V ->
  exists f, ip_body_wrench p V {| sv_vec := zeros 6 |} = Ok f /\ dot (sv_vec V) (sv_vec f) = 0.
Proof.
  intros Hp HV.
  destruct (body_wrench_ok p V {| sv_vec := zeros 6 |} Hp HV eq_refl)
    as (M & ad & f & EM & Ead & Ef & _ & Hf).
  exists f. split; auto. rewrite Hf.
  destruct p as [m c H]; destruct V as [V]; destruct Hp as [Hc HH]; unfold sv_ok in *;
    cbn [ip_mass ip_com ip_H sv_vec] in *. destruct_vecs.
  rewrite ip_M_coords in EM. injection EM as <-. rewrite sv_adjoint_ok in Ead. injection Ead as <-.
  cbn. ring.
Qed.

(** ** C14 *)
Lemma skew3_cross a b : length a = 3%nat -> length b = 3%nat ->
  exists S, skew3 a = Ok S /\ is_mat 3 3 S /\ mat_vec S b = cross a b /\ transpose S = mneg S.
Proof.
  intros Ha Hb. destruct_vecs. eexists. split; [reflexivity|]. split; [apply is_mat33|].
  split; cbn; list_eq; ring.
Qed.
Lemma lift3_vech A x : is_mat 3 3 A -> symmetric 3 A -> length x = 3%nat ->
  exists L v, lift3 x = Ok L /\ vech A 0 = Ok v /\ mat_vec L v = mat_vec A x.
Proof.
  intros HA HS Hx. destruct_vecs. apply sym33 in HS as (-> & -> & ->).
  do 2 eexists. split; [reflexivity|]. split; [reflexivity|]. cbn. list_eq; ring.
Qed.
Lemma lift6_M p V : ip_ok p -> symmetric 3 (ip_H p) -> sv_ok V ->
  exists L v M, lift6 V = Ok L /\ ip_vec p = Ok v /\ ip_M p = Ok M /\ mat_vec L v = mat_vec M (sv_vec V).
Proof.
  intros [Hc HH] HS HV. destruct p as [m c H]; destruct V as [V]; unfold sv_ok in *;
    cbn [ip_mass ip_com ip_H sv_vec] in *. destruct_vecs. apply sym33 in HS as (-> & -> & ->).
  rewrite ip_M_coords.
  do 3 eexists. split; [reflexivity|]. split; [reflexivity|]. split; [reflexivity|]. cbn. list_eq; ring.
Qed.
Lemma contact_jacobian_wrench p f : length p = 3%nat -> length f = 3%nat ->
  exists C, contact_jacobian p = Ok C /\ mat_vec C f = cross p f ++ f.
Proof.
  intros Hp Hf. destruct_vecs. eexists; split; [reflexivity|]. cbn. list_eq; ring.
Qed.
Lemma not_3_raise v : length v <> 3%nat ->
  skew3 v = Raise AssertionError /\ lift3 v = Raise AssertionError /\
  contact_jacobian v = Raise AssertionError.
Proof.
  intros H. unfold contact_jacobian. destruct v as [|a [|b [|c [|d v]]]]; cbn in *; auto; congruence.
Qed.

(** ** C15 *)
Lemma sv_init_ok l a : length l = 3%nat -> length a = 3%nat ->
  sv_init (Some l) (Some a) = Ok {| sv_vec := a ++ l |}.
Proof. intros Hl Ha. unfold sv_init, is_vecb. rewrite Hl, Ha. reflexivity. Qed.
Lemma sv_from_vec_ok v : length v = 6%nat -> sv_from_vec v = Ok {| sv_vec := v |}.
Proof. intros H. destruct_vecs. reflexivity. Qed.
Lemma sv_from_vec_raise v : length v <> 6%nat -> sv_from_vec v = Raise AssertionError.
Proof. intros H. unfold sv_from_vec, is_vecb. apply Nat.eqb_neq in H. now rewrite H. Qed.
Lemma sv_parts s : sv_ok s -> sv_vec s = sv_angular s ++ sv_linear s /\
  length (sv_angular s) = 3%nat /\ length (sv_linear s) = 3%nat.
Proof. destruct s as [v]; unfold sv_ok; cbn; intros H. destruct_vecs. auto. Qed.
Lemma sv_ops s o c : sv_ok s -> sv_ok o ->
  sv_add s o = Ok {| sv_vec := vadd (sv_vec s) (sv_vec o) |} /\
  sv_sub s o = Ok {| sv_vec := vsub (sv_vec s) (sv_vec o) |} /\
  sv_mul s c = Ok {| sv_vec := vscale c (sv_vec s) |} /\
  (c <> 0 -> sv_div s c = Ok {| sv_vec := vscale (/ c) (sv_vec s) |}) /\
  sv_div s 0 = NonFinite.
Proof.
  destruct s as [v], o as [w]; unfold sv_ok; cbn [sv_vec]; intros H1 H2. destruct_vecs.
  repeat split.
  - intros Hc. unfold sv_div. rewrite Reqb_neq by auto. cbn. f_equal. f_equal.
    list_eq; unfold Rdiv; ring.
  - unfold sv_div. now rewrite Reqb_refl.
Qed.
(** spatial motion cross product *)
Lemma sv_adjoint_cross V W : sv_ok V -> sv_ok W ->
  exists ad, sv_adjoint V = Ok ad /\ mat_vec ad (sv_vec W) = motion_cross (sv_vec V) (sv_vec W).
Proof.
  destruct V as [v], W as [w]; unfold sv_ok; cbn [sv_vec]; intros H1 H2. destruct_vecs.
  rewrite sv_adjoint_ok. eexists; split; [reflexivity|]. cbn. list_eq; ring.
Qed.
Lemma motion_cross_antisym V W : length V = 6%nat -> length W = 6%nat ->
  motion_cross V W = vneg (motion_cross W V) /\ motion_cross V V = zeros 6.
Proof. intros. destruct_vecs. split; cbn; list_eq; ring. Qed.
Lemma motion_cross_jacobi U V W : length U = 6%nat -> length V = 6%nat -> length W = 6%nat ->
  vadd (vadd (motion_cross U (motion_cross V W)) (motion_cross V (motion_cross W U)))
       (motion_cross W (motion_cross U V)) = zeros 6.
Proof. intros. destruct_vecs. cbn; list_eq; ring. Qed.

(** ** C19 *)
Lemma clean_transform_ok n r t : is_mat n n r -> length t = n ->
  clean_transform (Some r) (Some t) n = Ok (r, t).
Proof.
  intros Hr Ht. unfold clean_transform, is_vecb. apply is_matb_iff in Hr. rewrite Hr.
  apply Nat.eqb_eq in Ht. now rewrite Ht.
Qed.
Lemma mat_vec_aug r t p : length r = length t ->
  Forall (fun row => length row = length p) r ->
  mat_vec (map2 (fun a b => a ++ [b]) r t) (p ++ [1]) = vadd (mat_vec r p) t.
Proof.
  revert t; induction r as [|a r IH]; intros [|b t] Hl HF; try discriminate; auto.
  inversion HF; subst. cbn. f_equal.
  - change (fold_right Rplus 0 (map2 Rmult (a ++ [b]) (p ++ [1]))) with (dot (a ++ [b]) (p ++ [1])).
    rewrite dot_app by auto. cbn. ring.
  - apply IH; auto.
Qed.
Lemma transform_matrix_apply n r t p : is_mat n n r -> length t = n -> length p = n ->
  exists T, transform_matrix (Some r) (Some t) n = Ok T /\
    mat_vec T (p ++ [1]) = vadd (mat_vec r p) t ++ [1].
Proof.
  intros Hr Ht Hp. unfold transform_matrix. rewrite clean_transform_ok by auto. cbn [bind fst snd].
  eexists; split; [reflexivity|]. unfold mat_vec at 1. rewrite map_app.
  change (map (fun r0 => dot r0 (p ++ [1])) ?x) with (mat_vec x (p ++ [1])).
  destruct Hr as [Hl HF]. rewrite mat_vec_aug.
  - f_equal. unfold mat_vec. cbn [map]. f_equal. rewrite dot_app by (rewrite zeros_length; auto).
    rewrite dot_zeros_l. cbn. ring.
  - congruence.
  - rewrite Hp; auto.
Qed.
Lemma transform_matrix_default n : transform_matrix None None n =
  transform_matrix (Some (eye n)) (Some (zeros n)) n.
Proof.
  unfold transform_matrix. rewrite clean_transform_ok; auto using is_mat_eye. apply zeros_length.
Qed.
Lemma transform_matrix_inv_3 Q t : orthogonal 3 Q -> length t = 3%nat ->
  exists T Ti, transform_matrix (Some Q) (Some t) 3 = Ok T /\
    transform_matrix_inv (Some Q) (Some t) 3 = Ok Ti /\
    mat_mul T Ti = eye 4 /\ mat_mul Ti T = eye 4.
Proof.
  intros HQ Ht. pose proof (orthogonal_is_mat _ _ HQ) as HQm.
  unfold transform_matrix_inv. rewrite clean_transform_ok by auto. cbn [bind fst snd].
  assert (HT : is_mat 3 3 (transpose Q)) by (apply is_mat_transpose; auto; lia).
  unfold transform_matrix. rewrite !clean_transform_ok; auto.
  2:{ rewrite mat_vec_length, mneg_length. apply (is_mat_length _ _ _ HT). }
  do 2 eexists. split; [reflexivity|]. split; [reflexivity|]. cbn [fst snd].
  destruct (mat33_inv Q HQm) as (a & b & c & d & e & f & g & h & i & ->).
  destruct (len3_inv t Ht) as (x & y & z & ->).
  apply orth33_eqs in HQ as [(A1 & A2 & A3 & A4 & A5 & A6) (B1 & B2 & B3 & B4 & B5 & B6)].
  split; cbn; list_eq; try ring; try lra.
  - transitivity (x * (1 - (a * a + b * b + c * c)) - y * (a * d + b * e + c * f)
                  - z * (a * g + b * h + c * i)); [ring|]. rewrite A1, A4, A5; ring.
  - transitivity (y * (1 - (d * d + e * e + f * f)) - x * (a * d + b * e + c * f)
                  - z * (d * g + e * h + f * i)); [ring|]. rewrite A2, A4, A6; ring.
  - transitivity (z * (1 - (g * g + h * h + i * i)) - x * (a * g + b * h + c * i)
                  - y * (d * g + e * h + f * i)); [ring|]. rewrite A3, A5, A6; ring.
Qed.
Lemma transform_matrix_inv_other n Q t : n <> 3%nat -> is_mat n n Q -> length t = n ->
  transform_matrix_inv (Some Q) (Some t) n = Raise AssertionError.
Proof.
  intros Hn HQ Ht. unfold transform_matrix_inv. rewrite clean_transform_ok by auto. cbn [bind fst snd].
  unfold transform_matrix, clean_transform.
  destruct (is_matb 3 3 (transpose Q)) eqn:E; [|reflexivity].
  exfalso. apply is_matb_iff in E. destruct E as [E1 E2].
  rewrite transpose_length in E1. destruct n as [|n].
  - destruct HQ as [HQ _]. destruct Q; [|discriminate]. cbn in E1. discriminate.
  - rewrite (is_mat_ncols _ _ _ HQ) in E1 by lia. congruence.
Qed.
