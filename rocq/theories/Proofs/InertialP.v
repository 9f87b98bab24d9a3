(** Lemmas about Model/Inertial.v (C01-C08, C10-C15). *)
From Verif Require Import Proofs.Coord Model.Util Model.Spatial Model.Inertial
  Model.Constraint Spec.Objects.

Lemma H2I_ok X : is_mat 3 3 X -> H2I X = Ok (msub (mscale (trace X) (eye 3)) X).
Proof. intros H. unfold H2I. apply is_matb_iff in H. now rewrite H. Qed.
Lemma I2H_ok X : is_mat 3 3 X -> I2H X = Ok (msub (mscale ((1 / 2) * trace X) (eye 3)) X).
Proof. intros H. unfold I2H. apply is_matb_iff in H. now rewrite H. Qed.
Lemma H2I_raise X : ~ is_mat 3 3 X -> H2I X = Raise AssertionError.
Proof.
  intros H. unfold H2I. destruct (is_matb 3 3 X) eqn:E; auto. apply is_matb_iff in E; contradiction.
Qed.
Lemma I2H_raise X : ~ is_mat 3 3 X -> I2H X = Raise AssertionError.
Proof.
  intros H. unfold I2H. destruct (is_matb 3 3 X) eqn:E; auto. apply is_matb_iff in E; contradiction.
Qed.
Lemma H2I_shape X I : H2I X = Ok I -> is_mat 3 3 X /\ is_mat 3 3 I.
Proof.
  unfold H2I. destruct (is_matb 3 3 X) eqn:E; simpl; intros H; inversion H; subst.
  apply is_matb_iff in E. split; auto.
  apply is_mat_msub; auto. apply is_mat33.
Qed.

Lemma I2H_H2I X : is_mat 3 3 X -> exists Y, H2I X = Ok Y /\ I2H Y = Ok X.
Proof.
  intros H. rewrite H2I_ok by auto. eexists; split; [reflexivity|]. 
  destruct_vecs. cbn. f_equal. list_eq; field.
Qed.
Lemma H2I_I2H X : is_mat 3 3 X -> exists Y, I2H X = Ok Y /\ H2I Y = Ok X.
Proof.
  intros H. rewrite I2H_ok by auto. eexists; split; [reflexivity|]. 
  destruct_vecs. cbn. f_equal. list_eq; field.
Qed.
Lemma H2I_point_mass m p w : length p = 3%nat -> length w = 3%nat ->
  exists Y, H2I (mscale m (outer p p)) = Ok Y /\
            mat_vec Y w = vscale m (cross p (cross w p)).
Proof.
  intros Hp Hw. rewrite H2I_ok.
  - eexists; split; [reflexivity|]. destruct_vecs. cbn. list_eq; ring.
  - rewrite <- Hp. apply is_mat_mscale, is_mat_outer.
Qed.
Lemma H2I_symmetric X Y : H2I X = Ok Y -> symmetric 3 X -> symmetric 3 Y.
Proof.
  intros H HS. destruct (H2I_shape _ _ H) as [HX _]. rewrite H2I_ok in H by auto.
  destruct_vecs. apply sym33 in HS as (-> & -> & ->). cbn in H. inversion H; subst; clear H.
  intros i j Hi Hj.
  destruct i as [|[|[|i]]]; destruct j as [|[|[|j]]]; try lia; cbn; lra.
Qed.
Lemma I2H_symmetric X Y : I2H X = Ok Y -> symmetric 3 X -> symmetric 3 Y.
Proof.
  intros H HS. assert (HX : is_mat 3 3 X).
  { unfold I2H in H. destruct (is_matb 3 3 X) eqn:E; simpl in H; [|discriminate].
    now apply is_matb_iff in E. }
  rewrite I2H_ok in H by auto.
  destruct_vecs. apply sym33 in HS as (-> & -> & ->). cbn in H. inversion H; subst; clear H.
  intros i j Hi Hj.
  destruct i as [|[|[|i]]]; destruct j as [|[|[|j]]]; try lia; cbn; lra.
Qed.

(** ** constructor *)

Lemma ip_eq p q : ip_mass p = ip_mass q -> ip_com p = ip_com q -> ip_H p = ip_H q -> p = q.
Proof. destruct p, q; simpl; intros; subst; auto. Qed.

Lemma Rleb_true x y : x <= y -> Rleb x y = true.
Proof. apply Rleb_iff. Qed.
Lemma Reqb_neq x y : x <> y -> Reqb x y = false.
Proof. apply Reqb_false. Qed.
Lemma Reqb_refl x : Reqb x x = true.
Proof. now apply Reqb_iff. Qed.

Lemma ip_init_hH m h H : 0 < m ->
  ip_init m (Some h) None (Some H) None false =
  Ok {| ip_mass := m; ip_com := vdivs h m; ip_H := H |}.
Proof.
  intros Hm. unfold ip_init. rewrite Rleb_true by lra. simpl. rewrite Reqb_neq by lra. reflexivity.
Qed.
Lemma ip_init_cH m c H : 0 <= m ->
  ip_init m None (Some c) (Some H) None false = Ok {| ip_mass := m; ip_com := c; ip_H := H |}.
Proof. intros Hm. unfold ip_init. now rewrite Rleb_true by lra. Qed.

Lemma vech3 a b c d e f g h i :
  vech [[a; b; c]; [d; e; f]; [g; h; i]] 0 = Ok [a; b; c; e; f; i].
Proof. reflexivity. Qed.

Lemma ip_vec_ok p : ip_ok p -> exists Y, ip_I p = Ok Y /\ is_mat 3 3 Y /\
  ip_vec p = Ok [ip_mass p; nth 0 (ip_h p) 0; nth 1 (ip_h p) 0; nth 2 (ip_h p) 0;
                 entry Y 0 0; entry Y 0 1; entry Y 0 2; entry Y 1 1; entry Y 1 2; entry Y 2 2].
Proof.
  intros [Hc HH]. destruct p as [m c H]; simpl in *. unfold ip_vec, ip_I, ip_h; simpl.
  rewrite H2I_ok by auto. eexists; split; [reflexivity|]. destruct_vecs. split; [apply is_mat33|].
  reflexivity.
Qed.

Ltac ip_simp := unfold ip_init; rewrite ?Rleb_true by lra; cbn [bind assert_];
  rewrite ?Reqb_neq by lra; cbn [bind assert_].

Ltac sym3 := intros ?i ?j ?Hi ?Hj;
  repeat match goal with i : nat, H : (?i < _)%nat |- _ => 
    is_var i; destruct i as [|[|[|[|i]]]]; try (exfalso; lia); clear H end;
  cbn; try reflexivity; try lra.

(** ** C02 *)
Lemma from_vec_vec v : length v = 10%nat -> 0 < nth 0 v 0 ->
  exists p, ip_from_vec v = Ok p /\ ip_ok p /\ ip_mass p = nth 0 v 0 /\
            symmetric 3 (ip_H p) /\ ip_vec p = Ok v.
Proof.
  intros Hv Hm. destruct_vecs. cbn [nth] in Hm.
  unfold ip_from_vec. cbn [is_vecb length Nat.eqb bind assert_ nth skipn firstn]. ip_simp.
  rewrite I2H_ok by apply is_mat33. cbn [bind].
  eexists; split; [reflexivity|]. repeat split; cbn [ip_mass ip_com ip_H nth]; auto.
  - simpl. repeat constructor.
  - sym3.
  - cbn. f_equal. list_eq; field; lra.
Qed.
Lemma vec_from_vec p : ip_ok p -> 0 < ip_mass p -> symmetric 3 (ip_H p) ->
  exists v, ip_vec p = Ok v /\ length v = 10%nat /\ ip_from_vec v = Ok p.
Proof.
  intros [Hc HH] Hm HS. destruct p as [m c H]; cbn [ip_mass ip_com ip_H] in *.
  unfold ip_vec, ip_I. cbn [ip_mass ip_com ip_H]. rewrite H2I_ok by auto. cbn [bind].
  destruct_vecs. apply sym33 in HS as (-> & -> & ->).
  cbn. eexists; split; [reflexivity|]. split; [reflexivity|].
  unfold ip_from_vec. cbn [is_vecb length Nat.eqb bind assert_ nth skipn firstn]. ip_simp.
  rewrite I2H_ok by apply is_mat33. cbn. f_equal. f_equal.
  - list_eq; field; lra.
  - list_eq; field; lra.
Qed.
Lemma from_vec_length v : length v <> 10%nat -> ip_from_vec v = Raise AssertionError.
Proof.
  intros H. unfold ip_from_vec, is_vecb. apply Nat.eqb_neq in H. now rewrite H.
Qed.
Lemma from_vec_negative v : length v = 10%nat -> nth 0 v 0 < 0 -> ip_from_vec v = Raise AssertionError.
Proof.
  intros Hv H. unfold ip_from_vec, is_vecb. rewrite Hv. cbn [Nat.eqb bind assert_].
  unfold ip_init. rewrite (proj2 (Rleb_false 0 _)) by auto. reflexivity.
Qed.
Lemma from_vec_massless v : length v = 10%nat -> nth 0 v 0 = 0 -> ip_from_vec v = NonFinite.
Proof.
  intros Hv H. destruct_vecs. cbn in H. subst. unfold ip_from_vec.
  cbn [is_vecb length Nat.eqb bind assert_ nth skipn firstn].
  unfold ip_init. rewrite Rleb_true by lra. rewrite Reqb_refl. cbn [bind assert_].
  rewrite I2H_ok by apply is_mat33. reflexivity.
Qed.

(** ** C03 *)
Lemma ip_J_ok p : ip_ok p -> is_mat 4 4 (ip_J p).
Proof.
  destruct p as [m c H]; intros [H1 H2]; cbn [ip_com ip_H] in *. destruct_vecs. apply is_mat44.
Qed.
Lemma ip_J_symmetric p : ip_ok p -> symmetric 3 (ip_H p) -> symmetric 4 (ip_J p).
Proof.
  destruct p as [m c H]; intros [H1 H2] HS; cbn [ip_com ip_H] in *. destruct_vecs.
  apply sym33 in HS as (-> & -> & ->). apply sym44_intro.
Qed.
Lemma ip_J_entries p : ip_ok p ->
  (forall i j, (i < 3)%nat -> (j < 3)%nat -> entry (ip_J p) i j = entry (ip_H p) i j) /\
  (forall i, (i < 3)%nat -> entry (ip_J p) i 3 = ip_mass p * nth i (ip_com p) 0 /\
                            entry (ip_J p) 3 i = ip_mass p * nth i (ip_com p) 0) /\
  entry (ip_J p) 3 3 = ip_mass p.
Proof.
  destruct p as [m c H]; intros [H1 H2]; cbn [ip_com ip_H ip_mass] in *. destruct_vecs.
  split; [|split; [|reflexivity]].
  - sym3.
  - intros i Hi. destruct i as [|[|[|i]]]; try lia; split; reflexivity.
Qed.
Lemma pim_roundtrip p : ip_ok p -> 0 < ip_mass p -> ip_from_pim (ip_J p) = Ok p.
Proof.
  destruct p as [m c H]; intros [H1 H2] Hm; cbn [ip_com ip_H ip_mass] in *. destruct_vecs.
  unfold ip_from_pim. cbn. ip_simp. cbn. f_equal. f_equal. list_eq; field; lra.
Qed.
Lemma from_pim_ok J : is_mat 4 4 J -> 0 < entry J 3 3 ->
  ip_from_pim J = Ok {| ip_mass := entry J 3 3; ip_com := vdivs (firstn 3 (nth 3 J [])) (entry J 3 3);
                        ip_H := sub_mat 3 3 J |}.
Proof.
  intros HJ Hm. unfold ip_from_pim. apply is_matb_iff in HJ. rewrite HJ. cbn [bind assert_].
  now apply ip_init_hH.
Qed.
Lemma from_pim_J J : is_mat 4 4 J -> symmetric 4 J -> 0 < entry J 3 3 ->
  exists p, ip_from_pim J = Ok p /\ ip_ok p /\ ip_mass p = entry J 3 3 /\
            symmetric 3 (ip_H p) /\ ip_J p = J.
Proof.
  intros HJ HS Hm. rewrite from_pim_ok by auto. eexists; split; [reflexivity|].
  destruct_vecs. apply sym44 in HS as (-> & -> & -> & -> & -> & ->). cbn in Hm.
  cbn [ip_mass ip_com ip_H]. repeat split; try reflexivity.
  - repeat constructor.
  - sym3.
  - cbn. list_eq; try reflexivity; field; lra.
Qed.
Lemma from_pim_row J : is_mat 4 4 J -> 0 < entry J 3 3 ->
  exists p, ip_from_pim J = Ok p /\ ip_ok p /\ ip_mass p = entry J 3 3 /\
   (forall i, (i < 3)%nat -> nth i (ip_com p) 0 = entry J 3 i / entry J 3 3) /\
   (forall i j, (i < 3)%nat -> (j < 3)%nat -> entry (ip_H p) i j = entry J i j).
Proof.
  intros HJ Hm. rewrite from_pim_ok by auto. eexists; split; [reflexivity|].
  destruct_vecs. cbn in Hm. cbn [ip_mass ip_com ip_H]. repeat split; try reflexivity.
  - repeat constructor.
  - intros i Hi. destruct i as [|[|[|i]]]; try lia; reflexivity.
  - sym3.
Qed.
Lemma from_pim_shape J : ~ is_mat 4 4 J -> ip_from_pim J = Raise AssertionError.
Proof.
  intros H. unfold ip_from_pim. destruct (is_matb 4 4 J) eqn:E; auto.
  apply is_matb_iff in E; contradiction.
Qed.
Lemma from_pim_negative J : is_mat 4 4 J -> entry J 3 3 < 0 -> ip_from_pim J = Raise AssertionError.
Proof.
  intros HJ H. unfold ip_from_pim. apply is_matb_iff in HJ; rewrite HJ. cbn [bind assert_].
  unfold ip_init. now rewrite (proj2 (Rleb_false 0 _)) by auto.
Qed.
Lemma from_pim_massless J : is_mat 4 4 J -> entry J 3 3 = 0 -> ip_from_pim J = NonFinite.
Proof.
  intros HJ H. unfold ip_from_pim. apply is_matb_iff in HJ; rewrite HJ. cbn [bind assert_].
  unfold ip_init. rewrite Rleb_true by lra. rewrite H, Reqb_refl. reflexivity.
Qed.

(** ** C04 *)
Lemma pim_must_equal_vec_J p v : ip_ok p -> symmetric 3 (ip_H p) -> ip_vec p = Ok v ->
  pim_must_equal_vec v = Ok (ip_J p).
Proof.
  destruct p as [m c H]; intros [H1 H2] HS; cbn [ip_com ip_H ip_mass] in *.
  unfold ip_vec, ip_I. cbn [ip_mass ip_com ip_H]. rewrite H2I_ok by auto. cbn [bind].
  destruct_vecs. apply sym33 in HS as (-> & -> & ->). intros E. injection E as <-.
  unfold pim_must_equal_vec. cbn. f_equal. list_eq; field.
Qed.
Lemma pim_must_equal_vec_matches v : length v = 10%nat -> 0 < nth 0 v 0 ->
  exists p, ip_from_vec v = Ok p /\ pim_must_equal_vec v = Ok (ip_J p).
Proof.
  intros Hv Hm. destruct (from_vec_vec v Hv Hm) as (p & E & Hp & _ & HS & Ev).
  exists p. split; auto. now apply pim_must_equal_vec_J.
Qed.
Lemma pim_must_equal_vec_shape v : length v <> 10%nat -> pim_must_equal_vec v = Raise AssertionError.
Proof. intros H. unfold pim_must_equal_vec, is_vecb. apply Nat.eqb_neq in H. now rewrite H. Qed.
Lemma pim_must_equal_vec_linear a b v w X Y : length v = 10%nat -> length w = 10%nat ->
  pim_must_equal_vec v = Ok X -> pim_must_equal_vec w = Ok Y ->
  pim_must_equal_vec (vadd (vscale a v) (vscale b w)) = Ok (madd (mscale a X) (mscale b Y)).
Proof.
  intros Hv Hw. destruct_vecs. unfold pim_must_equal_vec. cbn.
  intros E F; injection E as <-; injection F as <-. cbn. f_equal. list_eq; field.
Qed.
Lemma pim_must_equal_vec_inj v w X : length v = 10%nat -> length w = 10%nat ->
  pim_must_equal_vec v = Ok X -> pim_must_equal_vec w = Ok X -> v = w.
Proof.
  intros Hv Hw. destruct_vecs. unfold pim_must_equal_vec. cbn.
  intros E F; injection E as <-. injection F. intros. list_eq; lra.
Qed.
