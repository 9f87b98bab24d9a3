(** Inertial parameters of uniform mass distributions. *)
From Coq Require Import FunctionalExtensionality.
From Verif Require Import Base.Vec Base.VecFacts Spec.Basic Spec.Objects Spec.Shapes Spec.ShapeObjects Spec.Integrals
  Model.Util Model.Inertial Model.Polydd Model.Poly Model.Ellipsoid Model.Box Model.Cylinder
  Proofs.Coord Proofs.InertialP Proofs.InertialT Proofs.BoxP Proofs.EllP Proofs.CylP Proofs.CylCustom Proofs.TransformP Proofs.IntegralP.

(** ** what the common tail computes *)
Definition dparams (m s1 s2 s3 : R) (Q : mat) (c : vec) : IP :=
  {| ip_mass := m; ip_com := c;
     ip_H := madd (mat_mul (mat_mul Q (diag [m * s1; m * s2; m * s3])) (transpose Q)) (mscale m (outer c c)) |}.
Definition dparams0 (m s1 s2 s3 : R) : IP := {| ip_mass := m; ip_com := vdivs (zeros 3) m; ip_H := diag [m * s1; m * s2; m * s3] |}.
Lemma dparams0_ok m s1 s2 s3 : 0 < m -> ip_init m (Some (zeros 3)) None (Some (diag [m * s1; m * s2; m * s3])) None false = Ok (dparams0 m s1 s2 s3).
Proof. intro H. now rewrite ip_init_hH. Qed.
Lemma dparams_transform m s1 s2 s3 Q c : 0 < m -> is_mat 3 3 Q -> length c = 3%nat ->
  ip_transform (dparams0 m s1 s2 s3) (Some Q) (Some c) = Ok (dparams m s1 s2 s3 Q c).
Proof.
  intros Hm HQ Hc. rewrite ip_transform_ok by (cbn; lra). cbn [rot_of tr_of]. unfold dparams, dparams0, ip_Hc. cbn [ip_mass ip_com ip_H].
  assert (E : vadd (mat_vec Q (vdivs (zeros 3) m)) c = c) by (destruct_vecs; cbn; unfold Rdiv; list_eq; ring).
  rewrite E. do 2 f_equal. f_equal. f_equal. f_equal. unfold Rdiv. cbn. list_eq; unfold Rdiv; ring.
Qed.
Lemma density_ok m s1 s2 s3 Q c : 0 < m -> is_mat 3 3 Q -> length c = 3%nat ->
  density_params m (diag [m * s1; m * s2; m * s3]) Q c = Ok (dparams m s1 s2 s3 Q c).
Proof. intros Hm HQ Hc. unfold density_params. rewrite dparams0_ok by auto. cbn [bind]. now apply dparams_transform. Qed.
Lemma density_massless H Q c : density_params 0 H Q c = NonFinite.
Proof. unfold density_params, ip_init. rewrite Rleb_true by lra. cbn [assert_ bind]. now rewrite Reqb_refl. Qed.

(** ** uniform mass *)
Definition dom3 (D : domain) : Prop := forall f g I, (forall a b c, f [a; b; c] = g [a; b; c]) -> D f I -> D g I.
Lemma dom3_box_volume h : dom3 (box_volume h).
Proof.
  intros f g I E. unfold box_volume. destruct h as [|x [|y [|z [|]]]]; auto.
  replace (fun a b c => g [a; b; c]) with (fun a b c => f [a; b; c]); auto. repeat (apply functional_extensionality; intro). apply E.
Qed.
Lemma dom3_box_shell h : dom3 (box_shell h).
Proof.
  intros f g I E. unfold box_shell. destruct h as [|x [|y [|z [|]]]]; auto. cbv zeta. intro H.
  repeat (match goal with H : sum_of (_ :: _) _ |- _ => destruct H as (? & ? & ? & H & ?) end). subst.
  repeat (apply sum_cons; [match goal with H : integral2 _ _ _ _ ?F ?I |- integral2 _ _ _ _ ?G ?I => replace G with F; [exact H|]; repeat (apply functional_extensionality; intro); apply E end|]).
  exact H.
Qed.
Lemma dom3_box_frame h : dom3 (box_frame h).
Proof.
  intros f g I E. unfold box_frame. destruct h as [|x [|y [|z [|]]]]; auto. cbv zeta. intro H.
  repeat (match goal with H : sum_of (_ :: _) _ |- _ => destruct H as (? & ? & ? & H & ?) end). subst.
  repeat (apply sum_cons; [match goal with H : integral ?F _ _ ?I |- integral ?G _ _ ?I => replace G with F; [exact H|]; repeat (apply functional_extensionality; intro); apply E end|]).
  exact H.
Qed.
Lemma dom3_cyl_volume L r : dom3 (cyl_volume L r).
Proof.
  intros f g I E. unfold cyl_volume. replace (fun z x y => g [x; y; z]) with (fun z x y => f [x; y; z]); auto. repeat (apply functional_extensionality; intro). apply E.
Qed.
Lemma dom3_ell_volume h : dom3 (ell_volume h).
Proof.
  intros f g I E. unfold ell_volume. destruct h as [|x [|y [|z [|]]]]; auto.
  replace (fun a b c => g [a; b; c]) with (fun a b c => f [a; b; c]); auto. repeat (apply functional_extensionality; intro). apply E.
Qed.
Lemma dom3_ell_surface x y z : dom3 (ell_surface [x; y; z]).
Proof.
  intros f g I E. unfold ell_surface. match goal with |- integral2 _ _ _ _ ?F _ -> integral2 _ _ _ _ ?G _ => replace G with F; auto end.
  repeat (apply functional_extensionality; intro). f_equal. apply E.
Qed.
Lemma dom3_stretch x y z D : dom3 D -> dom3 (stretch [x; y; z] D).
Proof. intros H f g I E. unfold stretch. apply H. intros. apply E. Qed.
Lemma dom3_plate x y : dom3 (plate x y).
Proof.
  intros f g I E. unfold plate. replace (fun a b => g [a; b; 0]) with (fun a b => f [a; b; 0]); auto. repeat (apply functional_extensionality; intro). apply E.
Qed.

Lemma stretch_moments x y z D V s1 s2 s3 : dom3 D -> moments_of D V s1 s2 s3 -> moments_of (stretch [x; y; z] D) V (x * x * s1) (y * y * s2) (z * z * s3).
Proof.
  intros HD H a0 a1 a2 a3 b0 b1 b2 b3. unfold stretch.
  pose proof (H a0 (a1 * x) (a2 * y) (a3 * z) b0 (b1 * x) (b2 * y) (b3 * z)) as K.
  replace (V * (a0 * b0 + a1 * b1 * (x * x * s1) + a2 * b2 * (y * y * s2) + a3 * b3 * (z * z * s3)))
    with (V * (a0 * b0 + a1 * x * (b1 * x) * s1 + a2 * y * (b2 * y) * s2 + a3 * z * (b3 * z) * s3)) by ring.
  eapply HD; [|exact K]. intros. unfold affine. cbn. ring.
Qed.

Lemma uniform_of_moments D V s1 s2 s3 m Q c : dom3 D -> moments_of D V s1 s2 s3 -> 0 < V -> is_mat 3 3 Q -> length c = 3%nat ->
  uniform_mass D m Q c (dparams m s1 s2 s3 Q c).
Proof.
  intros HD HM HV HQ Hc. split; [reflexivity|]. exists V. split; [exact HV|].
  destruct (mat33_inv _ HQ) as (q1 & q2 & q3 & q4 & q5 & q6 & q7 & q8 & q9 & ->). destruct (len3_inv _ Hc) as (c1 & c2 & c3 & ->). split; [|split].
  - pose proof (HM 1 0 0 0 1 0 0 0) as K. replace V with (V * (1 * 1 + 0 * 0 * s1 + 0 * 0 * s2 + 0 * 0 * s3)) by ring. eapply HD; [|exact K]. intros. unfold affine. cbn. ring.
  - intros i Hi.
    assert (exists a0 a1 a2 a3, (forall a b d, nth i (move [[q1; q2; q3]; [q4; q5; q6]; [q7; q8; q9]] [c1; c2; c3] [a; b; d]) 0 = affine a0 a1 a2 a3 [a; b; d])
      /\ nth i [c1; c2; c3] 0 = a0) as (a0 & a1 & a2 & a3 & E1 & E2).
    { destruct i as [|[|[|i]]]; [exists c1, q1, q2, q3|exists c2, q4, q5, q6|exists c3, q7, q8, q9|lia]; split; try reflexivity; intros; unfold affine; cbn; ring. }
    exists (V * a0). split.
    + pose proof (HM a0 a1 a2 a3 1 0 0 0) as K. replace (V * a0) with (V * (a0 * 1 + a1 * 0 * s1 + a2 * 0 * s2 + a3 * 0 * s3)) by ring.
      eapply HD; [|exact K]. intros. rewrite E1. unfold affine. cbn. ring.
    + cbn [dparams ip_mass ip_com]. rewrite nth_vscale, E2. field. lra.
  - intros i j Hi Hj.
    assert (R : forall i, (i < 3)%nat -> exists a0 a1 a2 a3, (forall a b d, nth i (move [[q1; q2; q3]; [q4; q5; q6]; [q7; q8; q9]] [c1; c2; c3] [a; b; d]) 0 = affine a0 a1 a2 a3 [a; b; d])
      /\ nth i [c1; c2; c3] 0 = a0 /\ nth i [[q1; q2; q3]; [q4; q5; q6]; [q7; q8; q9]] [] = [a1; a2; a3]).
    { clear. intros i Hi. destruct i as [|[|[|i]]]; [exists c1, q1, q2, q3|exists c2, q4, q5, q6|exists c3, q7, q8, q9|lia]; repeat split; try reflexivity; intros; unfold affine; cbn; ring. }
    destruct (R i Hi) as (a0 & a1 & a2 & a3 & E1 & E2 & E3). destruct (R j Hj) as (b0 & b1 & b2 & b3 & F1 & F2 & F3).
    exists (V * (a0 * b0 + a1 * b1 * s1 + a2 * b2 * s2 + a3 * b3 * s3)). split.
    + eapply HD; [|apply HM]. intros. now rewrite E1, F1.
    + transitivity (m * (a0 * b0 + a1 * b1 * s1 + a2 * b2 * s2 + a3 * b3 * s3)); [|field; lra]. clear R E1 F1.
      destruct i as [|[|[|i]]]; try lia; destruct j as [|[|[|j]]]; try lia; cbn in E2, E3, F2, F3; subst; injection E3 as -> -> ->; injection F3 as -> -> ->; unfold entry; cbn; ring.
Qed.

(** ** normal forms of the five methods *)
Lemma box_uniform_ok h c r b m : box_init h c r = Ok b -> 0 < m ->
  box_uniform_density_params b m = Ok (dparams m (nth 0 h 0 * nth 0 h 0 / 3) (nth 1 h 0 * nth 1 h 0 / 3) (nth 2 h 0 * nth 2 h 0 / 3) (pose_rot 3 r) (pose_tr 3 c)).
Proof.
  intros Hb Hm. apply box_init_inv in Hb as (L3 & _ & E1 & E2 & E3 & MQ & LC & _). unfold box_uniform_density_params. rewrite Rleb_true by lra. cbn [assert_ bind].
  rewrite <- E2, <- E3, <- density_ok by auto. f_equal. rewrite E1. clear -L3. destruct_vecs. cbn. unfold Rdiv. list_eq; ring.
Qed.
Lemma box_hollow_ok h c r b m x y z : box_init h c r = Ok b -> h = [x; y; z] -> 0 < m -> 0 < x * y + x * z + y * z ->
  let d := 3 * (x * y + x * z + y * z) in
  box_hollow_density_params b m = Ok (dparams m (x * x * (x * y + x * z + 3 * y * z) / d) (y * y * (x * y + 3 * x * z + y * z) / d)
    (z * z * (3 * x * y + x * z + y * z) / d) (pose_rot 3 r) (pose_tr 3 c)).
Proof.
  intros Hb -> Hm Hd d. apply box_init_inv in Hb as (L3 & _ & E1 & E2 & E3 & MQ & LC & _). unfold box_hollow_density_params. rewrite Rleb_true by lra. cbn [assert_ bind].
  rewrite E1. cbv zeta. rewrite Reqb_neq by lra. rewrite <- E2, <- E3, <- density_ok by auto. f_equal. cbn. unfold d, Rdiv. list_eq; ring.
Qed.
Lemma box_wireframe_ok h c r b m x y z : box_init h c r = Ok b -> h = [x; y; z] -> 0 < m -> 0 < x + y + z ->
  let d := x + y + z in
  box_wireframe_density_params b m = Ok (dparams m (x * x * (x / 3 + y + z) / d) (y * y * (x + y / 3 + z) / d) (z * z * (x + y + z / 3) / d) (pose_rot 3 r) (pose_tr 3 c)).
Proof.
  intros Hb -> Hm Hd d. apply box_init_inv in Hb as (L3 & _ & E1 & E2 & E3 & MQ & LC & _). unfold box_wireframe_density_params. rewrite Rleb_true by lra. cbn [assert_ bind].
  rewrite E1. cbv zeta. rewrite Reqb_neq by lra. rewrite <- E2, <- E3, <- density_ok by auto. f_equal. cbn. unfold d, Rdiv. list_eq; ring.
Qed.
Lemma ell_uniform_ok h r c e m : ell_init h r c = Ok e -> length h = 3%nat -> 0 < m ->
  ell_uniform_density_params e m = Ok (dparams m (nth 0 h 0 * nth 0 h 0 / 5) (nth 1 h 0 * nth 1 h 0 / 5) (nth 2 h 0 * nth 2 h 0 / 5) (pose_rot 3 r) (pose_tr 3 c)).
Proof.
  intros He L3 Hm. apply ell_init_inv in He as (_ & E1 & E2 & E3 & MQ & LC). rewrite L3 in *. unfold ell_uniform_density_params. rewrite Rleb_true by lra. cbn [assert_ bind].
  rewrite <- E2, <- E3, <- density_ok by auto. f_equal. rewrite E1. clear -L3. destruct_vecs. cbn. unfold Rdiv. list_eq; ring.
Qed.
Lemma ell_hollow_ok h r c e m x y z : ell_init h r c = Ok e -> h = [x; y; z] -> 0 < m -> 0 < x * y + x * z + y * z ->
  let d := 5 * (x * y + x * z + y * z) in
  ell_hollow_density_params e m = Ok (dparams m (x * x * (x * y + x * z + 3 * y * z) / d) (y * y * (x * y + 3 * x * z + y * z) / d)
    (z * z * (3 * x * y + x * z + y * z) / d) (pose_rot 3 r) (pose_tr 3 c)).
Proof.
  intros He -> Hm Hd d. apply ell_init_inv in He as (_ & E1 & E2 & E3 & MQ & LC). cbn [length] in *. unfold ell_hollow_density_params. rewrite Rleb_true by lra. cbn [assert_ bind].
  rewrite E1. cbv zeta. rewrite Reqb_neq by lra. rewrite <- E2, <- E3, <- density_ok by auto. f_equal. cbn. unfold d, Rdiv. list_eq; ring.
Qed.
Lemma cyl_uniform_ok L R r c x m : cyl_init L R r c = Ok x -> 0 < m ->
  cyl_uniform_density_params x m = Ok (dparams m (R * R / 4) (R * R / 4) (L * L / 12) (pose_rot 3 r) (pose_tr 3 c)).
Proof.
  intros Hx Hm. apply cyl_init_inv in Hx as (HL & HR & MQ & LC & ->). unfold cyl_uniform_density_params. rewrite Rleb_true by lra. cbn [assert_ bind cyl_of c_radius c_length c_rot c_center].
  rewrite <- density_ok by auto. f_equal. cbn. unfold Rdiv. list_eq; ring.
Qed.

(** ** C57 *)
Lemma pos3 x y z : (forall i, (i < 3)%nat -> 0 < nth i [x; y; z] 0) -> 0 < x /\ 0 < y /\ 0 < z.
Proof. intro H. exact (conj (H 0%nat ltac:(lia)) (conj (H 1%nat ltac:(lia)) (H 2%nat ltac:(lia)))). Qed.
Lemma nonneg3 x y z : (forall i, (i < 3)%nat -> 0 <= nth i [x; y; z] 0) -> 0 <= x /\ 0 <= y /\ 0 <= z.
Proof. intro H. exact (conj (H 0%nat ltac:(lia)) (conj (H 1%nat ltac:(lia)) (H 2%nat ltac:(lia)))). Qed.

Lemma box_uniform_integral h c r b m : box_init h c r = Ok b -> (forall i, (i < 3)%nat -> 0 < nth i h 0) -> 0 < m ->
  exists p, box_uniform_density_params b m = Ok p /\ uniform_mass (box_volume h) m (pose_rot 3 r) (pose_tr 3 c) p.
Proof.
  intros Hb Hp Hm. eexists. split; [now apply (box_uniform_ok h c r)|]. apply box_init_inv in Hb as (L3 & _ & E1 & E2 & E3 & MQ & LC & _). rewrite E2, E3 in *.
  destruct (len3_inv _ L3) as (x & y & z & ->). destruct (pos3 _ _ _ Hp) as (Px & Py & Pz). cbn [nth].
  apply (uniform_of_moments _ (8 * x * y * z)); auto; [apply dom3_box_volume|apply box_volume_moments|]. repeat apply Rmult_lt_0_compat; lra.
Qed.
Lemma box_uniform_flat h c r b m : box_init h c r = Ok b -> 0 < m ->
  exists p, box_uniform_density_params b m = Ok p /\ uniform_mass (stretch h (box_volume [1; 1; 1])) m (pose_rot 3 r) (pose_tr 3 c) p.
Proof.
  intros Hb Hm. eexists. split; [now apply (box_uniform_ok h c r)|]. apply box_init_inv in Hb as (L3 & _ & E1 & E2 & E3 & MQ & LC & _). rewrite E2, E3 in *.
  destruct (len3_inv _ L3) as (x & y & z & ->). cbn [nth]. pose proof (stretch_moments x y z _ _ _ _ _ (dom3_box_volume _) (box_volume_moments 1 1 1)) as K.
  unfold Rdiv. apply (uniform_of_moments _ 8); auto; [apply dom3_stretch, dom3_box_volume| |lra].
  replace 8 with (8 * 1 * 1 * 1) by ring. intros a0 a1 a2 a3 b0 b1 b2 b3. pose proof (K a0 a1 a2 a3 b0 b1 b2 b3) as K1.
  match type of K1 with stretch _ _ _ ?A => match goal with |- stretch _ _ _ ?B => replace B with A; [exact K1|] end end. field.
Qed.
Lemma box_hollow_integral h c r b m : box_init h c r = Ok b -> 0 < nth 0 h 0 * nth 1 h 0 + nth 0 h 0 * nth 2 h 0 + nth 1 h 0 * nth 2 h 0 -> 0 < m ->
  exists p, box_hollow_density_params b m = Ok p /\ uniform_mass (box_shell h) m (pose_rot 3 r) (pose_tr 3 c) p.
Proof.
  intros Hb Hp Hm. pose proof (box_init_inv _ _ _ _ Hb) as (L3 & _ & E1 & E2 & E3 & MQ & LC & _). rewrite E2, E3 in *.
  destruct (len3_inv _ L3) as (x & y & z & ->). cbn [nth] in Hp. eexists. split; [now apply (box_hollow_ok _ _ _ _ _ x y z Hb)|].
  apply (uniform_of_moments _ (8 * (x * y + x * z + y * z))); auto; [apply dom3_box_shell|apply box_shell_moments; lra|lra].
Qed.
Lemma box_wireframe_integral h c r b m : box_init h c r = Ok b -> 0 < nth 0 h 0 + nth 1 h 0 + nth 2 h 0 -> 0 < m ->
  exists p, box_wireframe_density_params b m = Ok p /\ uniform_mass (box_frame h) m (pose_rot 3 r) (pose_tr 3 c) p.
Proof.
  intros Hb Hp Hm. pose proof (box_init_inv _ _ _ _ Hb) as (L3 & _ & E1 & E2 & E3 & MQ & LC & _). rewrite E2, E3 in *.
  destruct (len3_inv _ L3) as (x & y & z & ->). cbn [nth] in Hp. eexists. split; [now apply (box_wireframe_ok _ _ _ _ _ x y z Hb)|].
  apply (uniform_of_moments _ (8 * (x + y + z))); auto; [apply dom3_box_frame|apply box_frame_moments; lra|lra].
Qed.
Lemma ell_uniform_integral h r c e m : ell_init h r c = Ok e -> length h = 3%nat -> (forall i, (i < 3)%nat -> 0 < nth i h 0) -> 0 < m ->
  exists p, ell_uniform_density_params e m = Ok p /\ uniform_mass (ell_volume h) m (pose_rot 3 r) (pose_tr 3 c) p.
Proof.
  intros He L3 Hp Hm. eexists. split; [now apply (ell_uniform_ok h r c)|]. apply ell_init_inv in He as (_ & E1 & E2 & E3 & MQ & LC). rewrite L3 in *. rewrite E2, E3 in *.
  destruct (len3_inv _ L3) as (x & y & z & ->). destruct (pos3 _ _ _ Hp) as (Px & Py & Pz). cbn [nth].
  apply (uniform_of_moments _ (4 / 3 * PI * x * y * z)); auto; [apply dom3_ell_volume|now apply ell_volume_moments|]. pose proof PI_RGT_0. do 3 (apply Rmult_lt_0_compat; [|lra]). lra.
Qed.
Lemma ell_uniform_flat h r c e m : ell_init h r c = Ok e -> length h = 3%nat -> 0 < m ->
  exists p, ell_uniform_density_params e m = Ok p /\ uniform_mass (stretch h (ell_volume [1; 1; 1])) m (pose_rot 3 r) (pose_tr 3 c) p.
Proof.
  intros He L3 Hm. eexists. split; [now apply (ell_uniform_ok h r c)|]. apply ell_init_inv in He as (_ & E1 & E2 & E3 & MQ & LC). rewrite L3 in *. rewrite E2, E3 in *.
  destruct (len3_inv _ L3) as (x & y & z & ->). cbn [nth].
  pose proof (stretch_moments x y z _ _ _ _ _ (dom3_ell_volume _) (ell_volume_moments 1 1 1 ltac:(lra) ltac:(lra) ltac:(lra))) as K.
  apply (uniform_of_moments _ (4 / 3 * PI * 1 * 1 * 1)); auto; [apply dom3_stretch, dom3_ell_volume| |pose proof PI_RGT_0; lra].
  intros a0 a1 a2 a3 b0 b1 b2 b3. pose proof (K a0 a1 a2 a3 b0 b1 b2 b3) as K1.
  match type of K1 with stretch _ _ _ ?A => match goal with |- stretch _ _ _ ?B => replace B with A; [exact K1|] end end. field.
Qed.
Lemma cyl_uniform_integral L R r c x m : cyl_init L R r c = Ok x -> 0 < L -> 0 < R -> 0 < m ->
  exists p, cyl_uniform_density_params x m = Ok p /\ uniform_mass (cyl_volume L R) m (pose_rot 3 r) (pose_tr 3 c) p.
Proof.
  intros Hx HL HR Hm. eexists. split; [now apply (cyl_uniform_ok L R r c)|]. apply cyl_init_inv in Hx as (_ & _ & MQ & LC & _).
  apply (uniform_of_moments _ (PI * (R * R) * L)); auto; [apply dom3_cyl_volume|apply cyl_volume_moments; lra|]. pose proof PI_RGT_0. apply Rmult_lt_0_compat; [|lra]. apply Rmult_lt_0_compat; nra.
Qed.
Lemma cyl_uniform_flat L R r c x m : cyl_init L R r c = Ok x -> 0 < m ->
  exists p, cyl_uniform_density_params x m = Ok p /\ uniform_mass (stretch [R; R; L] (cyl_volume 1 1)) m (pose_rot 3 r) (pose_tr 3 c) p.
Proof.
  intros Hx Hm. eexists. split; [now apply (cyl_uniform_ok L R r c)|]. apply cyl_init_inv in Hx as (_ & _ & MQ & LC & _).
  pose proof (stretch_moments R R L _ _ _ _ _ (dom3_cyl_volume _ _) (cyl_volume_moments 1 1 ltac:(lra))) as K.
  apply (uniform_of_moments _ (PI * (1 * 1) * 1)); auto; [apply dom3_stretch, dom3_cyl_volume| |pose proof PI_RGT_0; lra].
  intros a0 a1 a2 a3 b0 b1 b2 b3. pose proof (K a0 a1 a2 a3 b0 b1 b2 b3) as K1.
  match type of K1 with stretch _ _ _ ?A => match goal with |- stretch _ _ _ ?B => replace B with A; [exact K1|] end end. field.
Qed.
(** the regions of integration are the shapes *)
Lemma Rabs_le_iff1 a b : Rabs a <= b -> - b <= a <= b.
Proof. unfold Rabs. destruct (Rcase_abs a); lra. Qed.
Definition id_move (u : vec) : length u = 3%nat -> move (eye 3) (zeros 3) u = u.
Proof. intro L. destruct_vecs. unfold move. cbn. list_eq; ring. Qed.
Lemma box_region x y z a b c : 0 <= x -> 0 <= y -> 0 <= z ->
  box_set [x; y; z] (eye 3) (zeros 3) [a; b; c] <-> - x <= a <= x /\ - y <= b <= y /\ - z <= c <= z.
Proof.
  intros Hx Hy Hz. split.
  - intros (u & (Lu & Hu) & E). cbn in Lu. rewrite id_move in E by exact Lu. subst u.
    pose proof (Hu 0%nat ltac:(cbn; lia)) as A. pose proof (Hu 1%nat ltac:(cbn; lia)) as B. pose proof (Hu 2%nat ltac:(cbn; lia)) as C. cbn in A, B, C.
    apply Rabs_le_iff1 in A, B, C. auto.
  - intros (A & B & C). exists [a; b; c]. split; [|now rewrite id_move]. split; [reflexivity|]. intros i Hi. cbn in Hi.
    destruct i as [|[|[|i]]]; try lia; cbn; now apply Rabs_le.
Qed.
Lemma cyl_region L r a b c : 0 <= r ->
  cyl_set L r (eye 3) (zeros 3) [a; b; c] <-> - (L / 2) <= c <= L / 2 /\ - r <= a <= r /\ - sqrt (r * r - a * a) <= b <= sqrt (r * r - a * a).
Proof.
  intros Hr. split.
  - intros (x & y & z & H1 & H2 & E). rewrite id_move in E by reflexivity. injection E as -> -> ->. apply Rabs_le_iff1 in H2.
    split; [exact H2|]. split; [nra|]. apply Rabs_le_iff1. rewrite <- sqrt_Rsqr_abs. apply sqrt_le_1_alt. unfold Rsqr. lra.
  - intros (H1 & H2 & H3). exists a, b, c. split; [|split; [now apply Rabs_le|now rewrite id_move]].
    assert (P : 0 <= r * r - a * a) by nra. pose proof (sqrt_sqrt _ P) as E. pose proof (sqrt_pos (r * r - a * a)). nra.
Qed.
Lemma ell_region x y z a b c : 0 < x -> 0 < y -> 0 < z ->
  ell_set [x; y; z] (eye 3) (zeros 3) [a; b; c] <->
  - x <= a <= x /\ - (y * sqrt (1 - (a / x) ^ 2)) <= b <= y * sqrt (1 - (a / x) ^ 2) /\
  - (z * sqrt (1 - (a / x) ^ 2 - (b / y) ^ 2)) <= c <= z * sqrt (1 - (a / x) ^ 2 - (b / y) ^ 2).
Proof.
  intros Hx Hy Hz.
  assert (S : forall h s t, 0 < h -> 0 <= s -> (- (h * sqrt s) <= h * t <= h * sqrt s <-> t * t <= s)).
  { intros h s t Hh Hs. pose proof (sqrt_sqrt s Hs) as E. pose proof (sqrt_pos s). split; intro K.
    - assert (- sqrt s <= t <= sqrt s) by (split; apply (Rmult_le_reg_l h); lra). nra.
    - assert (- sqrt s <= t <= sqrt s) by (split; nra). split; nra. }
  assert (R : ell_set [x; y; z] (eye 3) (zeros 3) [a; b; c] <-> exists u v w, a = x * u /\ b = y * v /\ c = z * w /\ u * u + v * v + w * w <= 1).
  { split.
    - intros (u & Lu & H & E). cbn in Lu. destruct (len3_inv _ Lu) as (u1 & u2 & u3 & ->). rewrite id_move in E by reflexivity. cbn in E. injection E as -> -> ->.
      exists u1, u2, u3. cbn in H. repeat split; lra.
    - intros (u & v & w & -> & -> & -> & H). exists [u; v; w]. split; [reflexivity|]. split; [cbn; lra|]. now rewrite id_move by reflexivity. }
  rewrite R. clear R. split.
  - intros (u & v & w & -> & -> & -> & H).
    replace (x * u / x) with u by (field; lra). replace (y * v / y) with v by (field; lra). rewrite <- !Rsqr_pow2. unfold Rsqr.
    assert (0 <= u * u) by nra. assert (0 <= v * v) by nra. assert (0 <= w * w) by nra. assert (- 1 <= u <= 1) by (split; nra). split; [split; nra|]. split; apply S; lra.
  - intros (H1 & H2 & H3). exists (a / x), (b / y), (c / z). split; [field; lra|]. split; [field; lra|]. split; [field; lra|].
    assert (E1 : a = x * (a / x)) by (field; lra). assert (E2 : b = y * (b / y)) by (field; lra). assert (E3 : c = z * (c / z)) by (field; lra).
    revert H1 H2 H3 E1 E2 E3. generalize (a / x) (b / y) (c / z). intros u v w H1 H2 H3 E1 E2 E3. rewrite <- !Rsqr_pow2 in *. unfold Rsqr in *. subst a b c.
    assert (- 1 <= u <= 1) by (split; nra). assert (U : 0 <= 1 - u * u) by nra. apply S in H2; auto.
    assert (V : 0 <= 1 - u * u - v * v) by lra. apply S in H3; auto. lra.
Qed.
