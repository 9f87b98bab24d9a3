(** Lemmas about transforms, sums and point masses (C05-C08). *)
From Verif Require Import Proofs.Coord Model.Util Model.Spatial Model.Inertial
  Model.Constraint Spec.Objects Proofs.InertialP.


Lemma ip_transform_ok p r t : 0 <= ip_mass p ->
  ip_transform p r t =
  Ok {| ip_mass := ip_mass p;
        ip_com := vadd (mat_vec (rot_of r) (ip_com p)) (tr_of t);
        ip_H := madd (mat_mul (mat_mul (rot_of r) (ip_Hc p)) (transpose (rot_of r)))
                  (mscale (ip_mass p) (outer (vadd (mat_vec (rot_of r) (ip_com p)) (tr_of t))
                                             (vadd (mat_vec (rot_of r) (ip_com p)) (tr_of t)))) |}.
Proof. intros Hm. unfold ip_transform. now rewrite ip_init_cH. Qed.

Lemma ip_transform_is_ok p r t q : ip_ok p -> is_mat 3 3 (rot_of r) -> length (tr_of t) = 3%nat ->
  0 <= ip_mass p -> ip_transform p r t = Ok q ->
  ip_ok q /\ ip_mass q = ip_mass p /\ ip_com q = vadd (mat_vec (rot_of r) (ip_com p)) (tr_of t).
Proof.
  intros [Hc HH] Hr Ht Hm. rewrite ip_transform_ok by auto. intros E; injection E as <-.
  cbn [ip_mass ip_com ip_H]. split; [|split; reflexivity].
  generalize dependent (rot_of r). generalize dependent (tr_of t). intros t' Ht r' Hr.
  destruct p as [m c H]; unfold ip_Hc; cbn [ip_mass ip_com ip_H] in *. destruct_vecs.
  split; [reflexivity|]. cbn. apply is_mat33.
Qed.

Lemma transform_matrix_ok r t : is_mat 3 3 (rot_of r) -> length (tr_of t) = 3%nat ->
  transform_matrix r t 3 = Ok (map2 (fun a b => a ++ [b]) (rot_of r) (tr_of t) ++ [[0; 0; 0; 1]]).
Proof.
  intros Hr Ht. unfold transform_matrix, clean_transform.
  destruct r as [r|]; cbn [rot_of] in *.
  - apply is_matb_iff in Hr as Hr'. rewrite Hr'. cbn [bind assert_].
    destruct t as [t|]; cbn [tr_of] in *; [unfold is_vecb; rewrite Ht|]; reflexivity.
  - cbn [bind]. destruct t as [t|]; cbn [tr_of] in *; [unfold is_vecb; rewrite Ht|]; reflexivity.
Qed.

(** congruence *)
Lemma ip_transform_J p r t : ip_ok p -> is_mat 3 3 (rot_of r) -> length (tr_of t) = 3%nat ->
  0 <= ip_mass p ->
  exists q T, ip_transform p r t = Ok q /\ transform_matrix r t 3 = Ok T /\ is_mat 4 4 T /\
    ip_J q = mat_mul (mat_mul T (ip_J p)) (transpose T).
Proof.
  intros [Hc HH] Hr Ht Hm. rewrite ip_transform_ok, transform_matrix_ok by auto.
  do 2 eexists. split; [reflexivity|]. split; [reflexivity|].
  generalize dependent (rot_of r). generalize dependent (tr_of t). intros t' Ht r' Hr.
  destruct p as [m c H]; unfold ip_Hc; cbn [ip_mass ip_com ip_H] in *. destruct_vecs.
  split; [apply is_mat44|]. cbn. list_eq; ring.
Qed.

Lemma ip_Hc_transform p r t q : ip_ok p -> is_mat 3 3 (rot_of r) -> length (tr_of t) = 3%nat ->
  0 <= ip_mass p -> ip_transform p r t = Ok q ->
  ip_Hc q = mat_mul (mat_mul (rot_of r) (ip_Hc p)) (transpose (rot_of r)).
Proof.
  intros [Hc HH] Hr Ht Hm. rewrite ip_transform_ok by auto. intros E; injection E as <-.
  unfold ip_Hc at 1. cbn [ip_mass ip_com ip_H].
  generalize dependent (rot_of r). generalize dependent (tr_of t). intros t' Ht r' Hr.
  assert (is_mat 3 3 (ip_Hc p)).
  { destruct p as [m c H]; unfold ip_Hc; cbn [ip_mass ip_com ip_H] in *. destruct_vecs.
    cbn. apply is_mat33. }
  generalize dependent (ip_Hc p). intros X HX.
  assert (HY : is_mat 3 3 (mat_mul (mat_mul r' X) (transpose r'))).
  { destruct_vecs. cbn. apply is_mat33. }
  generalize dependent (mat_mul (mat_mul r' X) (transpose r')). intros Y HY.
  destruct p as [m c H]; cbn [ip_mass ip_com ip_H] in *. destruct_vecs.
  cbn. list_eq; ring.
Qed.

(** the composition of two rigid transforms *)
Lemma ip_transform_compose p R1 t1 R2 t2 :
  ip_ok p -> is_mat 3 3 R1 -> length t1 = 3%nat -> is_mat 3 3 R2 -> length t2 = 3%nat ->
  0 <= ip_mass p ->
  exists q, ip_transform p (Some R1) (Some t1) = Ok q /\
    ip_transform q (Some R2) (Some t2) =
    ip_transform p (Some (mat_mul R2 R1)) (Some (vadd (mat_vec R2 t1) t2)).
Proof.
  intros Hp HR1 Ht1 HR2 Ht2 Hm.
  pose proof (ip_transform_ok p (Some R1) (Some t1) Hm) as Eq.
  eexists; split; [exact Eq|].
  match goal with |- ip_transform ?q _ _ = _ => set (q0 := q) in * end.
  pose proof (ip_Hc_transform p (Some R1) (Some t1) q0 Hp HR1 Ht1 Hm Eq) as EH.
  rewrite !ip_transform_ok by auto. cbn [rot_of tr_of] in *. rewrite EH.
  assert (EC : vadd (mat_vec R2 (ip_com q0)) t2 =
               vadd (mat_vec (mat_mul R2 R1) (ip_com p)) (vadd (mat_vec R2 t1) t2)).
  { destruct Hp as [Hc HH]. subst q0. cbn [ip_com]. clear - Hc HR1 HR2 Ht1 Ht2.
    generalize dependent (ip_com p). intros c Hc.
    destruct_vecs. cbn. list_eq; ring. }
  rewrite EC. cbn [ip_mass q0].
  assert (HX : is_mat 3 3 (ip_Hc p)).
  { destruct Hp as [Hc HH]. destruct p as [m c H]; unfold ip_Hc; cbn [ip_mass ip_com ip_H] in *.
    destruct_vecs. cbn. apply is_mat33. }
  assert (EM : mat_mul (mat_mul R2 (mat_mul (mat_mul R1 (ip_Hc p)) (transpose R1))) (transpose R2) =
    mat_mul (mat_mul (mat_mul R2 R1) (ip_Hc p)) (transpose (mat_mul R2 R1))).
  { clear - HX HR1 HR2. generalize dependent (ip_Hc p). intros X HX.
    assert (HT1 : is_mat 3 3 (transpose R1)) by (apply is_mat_transpose; auto; lia).
    assert (HT2 : is_mat 3 3 (transpose R2)) by (apply is_mat_transpose; auto; lia).
    rewrite (transpose_mat_mul 3 3 3) by (auto; lia).
    assert (K : forall A B, is_mat 3 3 A -> is_mat 3 3 B -> is_mat 3 3 (mat_mul A B)).
    { intros A B HA HB. eapply is_mat_mat_mul; eauto. eapply is_mat_ncols; eauto; lia. }
    rewrite <- !(mat_mul_assoc 3 3 3 3) by (auto; lia). reflexivity. }
  now rewrite EM.
Qed.

Lemma ip_transform_identity p r t : ip_ok p -> 0 <= ip_mass p ->
  rot_of r = eye 3 -> tr_of t = zeros 3 -> ip_transform p r t = Ok p.
Proof.
  intros [Hc HH] Hm Er Et. rewrite ip_transform_ok by auto. rewrite Er, Et.
  destruct p as [m c H]; unfold ip_Hc; cbn [ip_mass ip_com ip_H] in *. destruct_vecs.
  apply f_equal. apply ip_eq; cbn; list_eq; ring.
Qed.

Lemma orthogonal_is_mat n Q : orthogonal n Q -> is_mat n n Q.
Proof. intros H; apply H. Qed.

Lemma orth33_eqs a b c d e f g h i : orthogonal 3 [[a; b; c]; [d; e; f]; [g; h; i]] ->
  (a * a + b * b + c * c = 1 /\ d * d + e * e + f * f = 1 /\ g * g + h * h + i * i = 1 /\
   a * d + b * e + c * f = 0 /\ a * g + b * h + c * i = 0 /\ d * g + e * h + f * i = 0) /\
  (a * a + d * d + g * g = 1 /\ b * b + e * e + h * h = 1 /\ c * c + f * f + i * i = 1 /\
   a * b + d * e + g * h = 0 /\ a * c + d * f + g * i = 0 /\ b * c + e * f + h * i = 0).
Proof.
  intros (_ & H1 & H2). cbn in H1, H2. injection H1. injection H2. intros. repeat split; lra.
Qed.

Lemma vadd_vneg x : vadd x (vneg x) = zeros (length x).
Proof. vring (length x). Qed.

Lemma ip_transform_inverse p Q t : ip_ok p -> orthogonal 3 Q -> length t = 3%nat -> 0 <= ip_mass p ->
  exists q, ip_transform p (Some Q) (Some t) = Ok q /\
    ip_transform q (Some (transpose Q)) (Some (vneg (mat_vec (transpose Q) t))) = Ok p.
Proof.
  intros Hp HQ Ht Hm. pose proof (orthogonal_is_mat _ _ HQ) as HQm.
  assert (HT : is_mat 3 3 (transpose Q)) by (apply is_mat_transpose; auto; lia).
  pose proof (is_mat_length _ _ _ HT) as HL.
  destruct (ip_transform_compose p Q t (transpose Q) (vneg (mat_vec (transpose Q) t)))
    as (q & Eq & E); auto.
  { rewrite vneg_length, mat_vec_length; auto. }
  exists q; split; auto. rewrite E. apply ip_transform_identity; auto; cbn [rot_of tr_of].
  - apply HQ.
  - rewrite vadd_vneg, mat_vec_length, HL. reflexivity.
Qed.

(** ** C06: point masses *)
Lemma pms_mass_cons m p s : pms_mass ((m, p) :: s) = m + pms_mass s.
Proof. reflexivity. Qed.
Lemma pms_first_cons m p s i : pms_first ((m, p) :: s) i = m * nth i p 0 + pms_first s i.
Proof. reflexivity. Qed.
Lemma pms_second_cons m p s i j :
  pms_second ((m, p) :: s) i j = m * nth i p 0 * nth j p 0 + pms_second s i j.
Proof. reflexivity. Qed.
Lemma pms_ok_cons m p s : pms_ok ((m, p) :: s) -> length p = 3%nat /\ pms_ok s.
Proof.
  intros H. split; [apply (H (m, p)); left; auto|]. intros mp Hmp; apply H; right; auto.
Qed.

Lemma nth_move Q t p i : is_mat 3 3 Q -> length t = 3%nat -> length p = 3%nat -> (i < 3)%nat ->
  nth i (move Q t p) 0 =
  entry Q i 0 * nth 0 p 0 + entry Q i 1 * nth 1 p 0 + entry Q i 2 * nth 2 p 0 + nth i t 0.
Proof.
  intros HQ Ht Hp Hi. destruct_vecs. destruct i as [|[|[|i]]]; try lia; cbn; ring.
Qed.
Lemma move_length Q t p : is_mat 3 3 Q -> length t = 3%nat -> length (move Q t p) = 3%nat.
Proof.
  intros HQ Ht. unfold move. pose proof (is_mat_length _ _ _ HQ). rewrite vadd_length; len.
Qed.

Lemma pms_move_mass Q t s : pms_mass (pms_move Q t s) = pms_mass s.
Proof. unfold pms_mass, pms_move. rewrite map_map. reflexivity. Qed.
Lemma pms_move_first Q t s i : is_mat 3 3 Q -> length t = 3%nat -> pms_ok s -> (i < 3)%nat ->
  pms_first (pms_move Q t s) i =
  entry Q i 0 * pms_first s 0 + entry Q i 1 * pms_first s 1 + entry Q i 2 * pms_first s 2
  + nth i t 0 * pms_mass s.
Proof.
  intros HQ Ht Hs Hi. induction s as [|[m p] s IH].
  - cbn. ring.
  - apply pms_ok_cons in Hs as [Hp Hs]. cbn [pms_move map fst snd].
    rewrite !pms_first_cons, pms_mass_cons, nth_move by auto.
    change (map _ s) with (pms_move Q t s). rewrite IH by auto. ring.
Qed.
Lemma pms_move_second Q t s i j : is_mat 3 3 Q -> length t = 3%nat -> pms_ok s ->
  (i < 3)%nat -> (j < 3)%nat ->
  pms_second (pms_move Q t s) i j =
    entry Q i 0 * entry Q j 0 * pms_second s 0 0 + entry Q i 0 * entry Q j 1 * pms_second s 0 1
  + entry Q i 0 * entry Q j 2 * pms_second s 0 2 + entry Q i 1 * entry Q j 0 * pms_second s 1 0
  + entry Q i 1 * entry Q j 1 * pms_second s 1 1 + entry Q i 1 * entry Q j 2 * pms_second s 1 2
  + entry Q i 2 * entry Q j 0 * pms_second s 2 0 + entry Q i 2 * entry Q j 1 * pms_second s 2 1
  + entry Q i 2 * entry Q j 2 * pms_second s 2 2
  + nth j t 0 * (entry Q i 0 * pms_first s 0 + entry Q i 1 * pms_first s 1 + entry Q i 2 * pms_first s 2)
  + nth i t 0 * (entry Q j 0 * pms_first s 0 + entry Q j 1 * pms_first s 1 + entry Q j 2 * pms_first s 2)
  + nth i t 0 * nth j t 0 * pms_mass s.
Proof.
  intros HQ Ht Hs Hi Hj. induction s as [|[m p] s IH].
  - cbn. ring.
  - apply pms_ok_cons in Hs as [Hp Hs]. cbn [pms_move map fst snd].
    rewrite !pms_second_cons, !pms_first_cons, pms_mass_cons, !nth_move by auto.
    change (map _ s) with (pms_move Q t s). rewrite IH by auto. ring.
Qed.

(** a parameter object describes a system of point masses *)

Lemma has_moments_coords s m hx hy hz a b c d e f g h i :
  has_moments s m [hx; hy; hz] [[a; b; c]; [d; e; f]; [g; h; i]] <->
  (m = pms_mass s /\ (hx = pms_first s 0 /\ hy = pms_first s 1 /\ hz = pms_first s 2) /\
   (a = pms_second s 0 0 /\ b = pms_second s 0 1 /\ c = pms_second s 0 2) /\
   (d = pms_second s 1 0 /\ e = pms_second s 1 1 /\ f = pms_second s 1 2) /\
   (g = pms_second s 2 0 /\ h = pms_second s 2 1 /\ i = pms_second s 2 2)).
Proof.
  split.
  - intros (H1 & (_ & H2) & (_ & H3)). split; auto.
    split; [repeat split; [apply (H2 0%nat)|apply (H2 1%nat)|apply (H2 2%nat)]; lia|].
    repeat split.
    + apply (H3 0%nat 0%nat); lia.
    + apply (H3 0%nat 1%nat); lia.
    + apply (H3 0%nat 2%nat); lia.
    + apply (H3 1%nat 0%nat); lia.
    + apply (H3 1%nat 1%nat); lia.
    + apply (H3 1%nat 2%nat); lia.
    + apply (H3 2%nat 0%nat); lia.
    + apply (H3 2%nat 1%nat); lia.
    + apply (H3 2%nat 2%nat); lia.
  - intros (H1 & (H2 & H3 & H4) & (H5 & H6 & H7) & (H8 & H9 & H10) & (H11 & H12 & H13)).
    split; auto. split; [split; [reflexivity|]|split; [apply is_mat33|]].
    + intros k Hk. destruct k as [|[|[|k]]]; try lia; assumption.
    + intros k l Hk Hl. destruct k as [|[|[|k]]]; destruct l as [|[|[|l]]]; try lia; assumption.
Qed.

Lemma pms_second_sym s i j : pms_second s i j = pms_second s j i.
Proof. unfold pms_second. apply lsum_map_ext. intros; ring. Qed.

Lemma describes_ok p s : describes p s -> ip_ok p /\ symmetric 3 (ip_H p).
Proof.
  intros (H1 & (H2 & _) & (H3 & H4)). repeat split; auto.
  - unfold ip_h in H2. rewrite vscale_length in H2; auto.
  - apply H3.
  - apply H3.
  - intros i j Hi Hj. rewrite !H4 by auto. apply pms_second_sym.
Qed.

Lemma transform_describes p r t s : describes p s -> pms_ok s -> 0 <= ip_mass p ->
  is_mat 3 3 (rot_of r) -> length (tr_of t) = 3%nat ->
  exists q, ip_transform p r t = Ok q /\ describes q (pms_move (rot_of r) (tr_of t) s).
Proof.
  intros Hd Hs Hm Hr Ht. destruct (describes_ok _ _ Hd) as [[Hc HH] _].
  rewrite ip_transform_ok by auto. eexists; split; [reflexivity|].
  generalize dependent (rot_of r). generalize dependent (tr_of t). intros t' Ht r' Hr.
  unfold describes in *.
  destruct p as [m c H]; unfold ip_Hc, ip_h in *; cbn [ip_mass ip_com ip_H] in *.
  split; [|split; split].
  - rewrite pms_move_mass. apply Hd.
  - pose proof (is_mat_length _ _ _ Hr). rewrite vscale_length, vadd_length; len.
  - intros i Hi. rewrite pms_move_first by auto. destruct_vecs.
    apply has_moments_coords in Hd as (E1 & (E2 & E3 & E4) & _).
    rewrite <- E1, <- E2, <- E3, <- E4. destruct i as [|[|[|i]]]; try lia; cbn; ring.
  - destruct_vecs. cbn. apply is_mat33.
  - intros i j Hi Hj. rewrite pms_move_second by auto. destruct_vecs.
    apply has_moments_coords in Hd
      as (E1 & (E2 & E3 & E4) & (E5 & E6 & E7) & (E8 & E9 & E10) & (E11 & E12 & E13)).
    rewrite <- E1, <- E2, <- E3, <- E4, <- E5, <- E6, <- E7, <- E8, <- E9, <- E10,
      <- E11, <- E12, <- E13.
    destruct i as [|[|[|i]]]; destruct j as [|[|[|j]]]; try lia; cbn; ring.
Qed.

(** central inertia *)
Lemma trace33 a b c d e f g h i : trace [[a; b; c]; [d; e; f]; [g; h; i]] = a + e + i.
Proof. cbn. ring. Qed.

Lemma trace_congr_orth Q X : orthogonal 3 Q -> is_mat 3 3 X ->
  trace (mat_mul (mat_mul Q X) (transpose Q)) = trace X.
Proof.
  intros HQ HX. pose proof (orthogonal_is_mat _ _ HQ) as HQm.
  destruct (mat33_inv Q HQm) as (a & b & c & d & e & f & g & h & i & ->).
  destruct (mat33_inv X HX) as (x11 & x12 & x13 & x21 & x22 & x23 & x31 & x32 & x33 & ->).
  apply orth33_eqs in HQ as [_ (E1 & E2 & E3 & E4 & E5 & E6)].
  rewrite trace33. cbn.
  transitivity (x11 * (a * a + d * d + g * g) + x22 * (b * b + e * e + h * h)
    + x33 * (c * c + f * f + i * i) + (x12 + x21) * (a * b + d * e + g * h)
    + (x13 + x31) * (a * c + d * f + g * i) + (x23 + x32) * (b * c + e * f + h * i)); [ring|].
  rewrite E1, E2, E3, E4, E5, E6. ring.
Qed.

Lemma H2I_congr Q X : orthogonal 3 Q -> is_mat 3 3 X -> exists Y,
  H2I X = Ok Y /\
  H2I (mat_mul (mat_mul Q X) (transpose Q)) = Ok (mat_mul (mat_mul Q Y) (transpose Q)).
Proof.
  intros HQ HX. pose proof (orthogonal_is_mat _ _ HQ) as HQm.
  assert (HT : is_mat 3 3 (transpose Q)) by (apply is_mat_transpose; auto; lia).
  exists (msub (mscale (trace X) (eye 3)) X). rewrite H2I_ok by auto. split; auto.
  assert (K : is_mat 3 3 (mat_mul (mat_mul Q X) (transpose Q))).
  { destruct_vecs. cbn. apply is_mat33. }
  rewrite H2I_ok, trace_congr_orth by auto. f_equal.
  generalize (trace X). intros k. destruct HQ as (_ & _ & HQ).
  destruct (mat33_inv Q HQm) as (a & b & c & d & e & f & g & h & i & ->).
  destruct (mat33_inv X HX) as (x11 & x12 & x13 & x21 & x22 & x23 & x31 & x32 & x33 & ->).
  transitivity (msub (mscale k (mat_mul [[a; b; c]; [d; e; f]; [g; h; i]]
     (transpose [[a; b; c]; [d; e; f]; [g; h; i]])))
     (mat_mul (mat_mul [[a; b; c]; [d; e; f]; [g; h; i]]
       [[x11; x12; x13]; [x21; x22; x23]; [x31; x32; x33]])
     (transpose [[a; b; c]; [d; e; f]; [g; h; i]]))); [now rewrite HQ|].
  clear. cbn. list_eq; ring.
Qed.

Lemma ip_Ic_transform p r t q : ip_ok p -> orthogonal 3 (rot_of r) -> length (tr_of t) = 3%nat ->
  0 <= ip_mass p -> ip_transform p r t = Ok q ->
  exists Y, ip_Ic p = Ok Y /\ ip_Ic q = Ok (mat_mul (mat_mul (rot_of r) Y) (transpose (rot_of r))).
Proof.
  intros Hp Hr Ht Hm E. unfold ip_Ic.
  rewrite (ip_Hc_transform p r t q) by (auto using orthogonal_is_mat).
  apply H2I_congr; auto. destruct Hp as [Hc HH]. destruct p as [m c H].
  unfold ip_Hc; cbn [ip_mass ip_com ip_H] in *. destruct_vecs. cbn. apply is_mat33.
Qed.

Lemma symmetric_congr_3 Q X : is_mat 3 3 Q -> is_mat 3 3 X -> symmetric 3 X ->
  symmetric 3 (mat_mul (mat_mul Q X) (transpose Q)).
Proof.
  intros HQ HX HS. destruct_vecs. apply sym33 in HS as (-> & -> & ->).
  intros i j Hi Hj. destruct i as [|[|[|i]]]; destruct j as [|[|[|j]]]; try lia; cbn; ring.
Qed.
Lemma symmetric_congr_4 Q X : is_mat 4 4 Q -> is_mat 4 4 X -> symmetric 4 X ->
  symmetric 4 (mat_mul (mat_mul Q X) (transpose Q)).
Proof.
  intros HQ HX HS. apply transpose_symmetric.
  - apply (is_mat_congr 4); auto; lia.
  - assert (HT : is_mat 4 4 (transpose Q)) by (apply is_mat_transpose; auto; lia).
    assert (HQX : is_mat 4 4 (mat_mul Q X)).
    { eapply is_mat_mat_mul; eauto. eapply is_mat_ncols; eauto; lia. }
    rewrite (transpose_mat_mul 4 4 4) by (auto; lia).
    rewrite (transpose_mat_mul 4 4 4) by (auto; lia).
    rewrite (transpose_involutive 4 4) by (auto; lia).
    rewrite (symmetric_transpose 4 X) by auto.
    rewrite (mat_mul_assoc 4 4 4 4) by (auto; lia). reflexivity.
Qed.

Lemma PSD_congr n m A T : PSD n A -> is_mat m n T -> (0 < n)%nat -> (0 < m)%nat ->
  symmetric m (mat_mul (mat_mul T A) (transpose T)) ->
  PSD m (mat_mul (mat_mul T A) (transpose T)).
Proof.
  intros (HA & HS & HP) HT Hn Hm Hsym. split; [|split; auto].
  - now apply (is_mat_congr n).
  - intros x Hx. rewrite (quad_congr n m) by auto. apply HP.
    rewrite vec_mat_length. eapply is_mat_ncols; eauto.
Qed.

Lemma ip_transform_PSD p r t q : ip_ok p -> is_mat 3 3 (rot_of r) -> length (tr_of t) = 3%nat ->
  0 <= ip_mass p -> PSD 4 (ip_J p) -> ip_transform p r t = Ok q -> PSD 4 (ip_J q).
Proof.
  intros Hp Hr Ht Hm HP E.
  destruct (ip_transform_J p r t Hp Hr Ht Hm) as (q' & T & E' & _ & HT & HJ).
  rewrite E in E'; injection E' as <-. rewrite HJ.
  apply (PSD_congr 4); auto; try lia. apply symmetric_congr_4; auto; apply HP.
Qed.

(** ** C07: sums *)
Lemma ip_add_ok p q : 0 < ip_mass p + ip_mass q ->
  ip_add p q = Ok {| ip_mass := ip_mass p + ip_mass q;
                     ip_com := vdivs (vadd (ip_h p) (ip_h q)) (ip_mass p + ip_mass q);
                     ip_H := madd (ip_H p) (ip_H q) |}.
Proof. apply ip_init_hH. Qed.

Lemma ip_add_J p q : ip_ok p -> ip_ok q -> 0 < ip_mass p + ip_mass q ->
  exists r, ip_add p q = Ok r /\ ip_ok r /\ ip_mass r = ip_mass p + ip_mass q /\
    ip_J r = madd (ip_J p) (ip_J q).
Proof.
  intros [Hc HH] [Hc' HH'] Hm. rewrite ip_add_ok by auto. eexists; split; [reflexivity|].
  destruct p as [m c H], q as [m' c' H']; unfold ip_h in *; cbn [ip_mass ip_com ip_H] in *.
  destruct_vecs. split; [split; [reflexivity|apply is_mat33]|]. split; [reflexivity|].
  cbn. list_eq; try ring; field; lra.
Qed.
Lemma madd_comm A B : madd A B = madd B A.
Proof.
  unfold madd. revert B; induction A as [|a A IH]; intros [|b B]; simpl; auto.
  now rewrite IH, vadd_comm.
Qed.
Lemma madd_assoc A B C : madd A (madd B C) = madd (madd A B) C.
Proof.
  unfold madd. revert B C; induction A as [|a A IH]; intros [|b B] [|c C]; simpl; auto.
  now rewrite IH, vadd_assoc.
Qed.
Lemma ip_add_comm p q : ip_add p q = ip_add q p.
Proof. unfold ip_add. now rewrite Rplus_comm, vadd_comm, madd_comm. Qed.

Lemma vscale_vdivs c x : c <> 0 -> vscale c (vdivs x c) = x.
Proof. intros Hc. vext (length x). vnth. field; auto. Qed.

Lemma ip_h_mk m c H : ip_h {| ip_mass := m; ip_com := c; ip_H := H |} = vscale m c.
Proof. reflexivity. Qed.
Lemma ip_add_assoc p q r : 0 < ip_mass p + ip_mass q -> 0 < ip_mass q + ip_mass r ->
  0 < ip_mass p + ip_mass q + ip_mass r ->
  exists pq qr, ip_add p q = Ok pq /\ ip_add q r = Ok qr /\ ip_add pq r = ip_add p qr.
Proof.
  intros H1 H2 H3. do 2 eexists. split; [apply ip_add_ok; auto|]. split; [apply ip_add_ok; auto|].
  unfold ip_add. rewrite !ip_h_mk. cbn [ip_mass ip_com ip_H].
  rewrite !vscale_vdivs by lra. rewrite vadd_assoc, madd_assoc, Rplus_assoc. reflexivity.
Qed.
Lemma ip_add_massless p q : ip_mass p = 0 -> ip_mass q = 0 -> ip_add p q = NonFinite.
Proof.
  intros H1 H2. unfold ip_add, ip_init. rewrite H1, H2. rewrite Rleb_true by lra.
  replace (0 + 0) with 0 by ring. rewrite Reqb_refl. reflexivity.
Qed.

Lemma pms_mass_app s s' : pms_mass (s ++ s') = pms_mass s + pms_mass s'.
Proof. unfold pms_mass. now rewrite map_app, lsum_app. Qed.
Lemma pms_first_app s s' i : pms_first (s ++ s') i = pms_first s i + pms_first s' i.
Proof. unfold pms_first. now rewrite map_app, lsum_app. Qed.
Lemma pms_second_app s s' i j : pms_second (s ++ s') i j = pms_second s i j + pms_second s' i j.
Proof. unfold pms_second. now rewrite map_app, lsum_app. Qed.

Lemma ip_add_describes p q s s' : describes p s -> describes q s' -> 0 < ip_mass p + ip_mass q ->
  exists r, ip_add p q = Ok r /\ describes r (s ++ s').
Proof.
  intros Hp Hq Hm. rewrite ip_add_ok by auto. eexists; split; [reflexivity|].
  unfold describes in *. unfold ip_h; cbn [ip_mass ip_com ip_H].
  rewrite vscale_vdivs by lra.
  destruct Hp as (H1 & (H2 & H3) & (H4 & H5)). destruct Hq as (H1' & (H2' & H3') & (H4' & H5')).
  split; [|split; split].
  - rewrite pms_mass_app. congruence.
  - rewrite vadd_length; congruence.
  - intros i Hi. rewrite nth_vadd by congruence. rewrite pms_first_app, H3, H3'; auto.
  - now apply is_mat_madd.
  - intros i j Hi Hj. rewrite (entry_madd _ _ 3 3) by auto. rewrite pms_second_app, H5, H5'; auto.
Qed.

Lemma py_sum_snoc l p : py_sum (l ++ [p]) =
  let* a := py_sum l in
  let* s := match a with IntZero => ip_radd p IntZero | Params q => ip_add q p end in
  Ok (Params s).
Proof. unfold py_sum. rewrite fold_left_app. reflexivity. Qed.

Lemma py_sum_J l : l <> [] -> (forall p, In p l -> ip_ok p /\ 0 < ip_mass p) ->
  exists r, py_sum l = Ok (Params r) /\ ip_ok r /\
    ip_mass r = lsum (map ip_mass l) /\ 0 < ip_mass r /\
    forall i j, (i < 4)%nat -> (j < 4)%nat ->
      entry (ip_J r) i j = lsum (map (fun p => entry (ip_J p) i j) l).
Proof.
  intros Hne. induction l as [|p l IH] using rev_ind; [congruence|]. intros H.
  rewrite py_sum_snoc. destruct l as [|q l].
  - cbn [py_sum fold_left bind ip_radd app map]. exists p. destruct (H p) as [Hp Hm]; [left; auto|].
    split; auto. split; auto. cbn. split; [ring|]. split; auto. intros; ring.
  - destruct IH as (r & E & Hr & Em & Hm & EJ); [discriminate| |].
    { intros p' Hp'. apply H. apply in_or_app; auto. }
    rewrite E. cbn [bind]. destruct (H p) as [Hp Hmp]; [apply in_or_app; right; left; auto|].
    destruct (ip_add_J r p) as (r' & E' & Hr' & Em' & EJ'); auto; [lra|].
    rewrite E'. cbn [bind]. exists r'. split; auto. split; auto.
    rewrite map_app, lsum_app, <- Em, Em'. cbn [map lsum fold_right].
    split; [ring|]. split; [lra|]. intros i j Hi Hj.
    rewrite map_app, lsum_app, <- EJ by auto. rewrite EJ'.
    rewrite (entry_madd _ _ 4 4) by (auto using ip_J_ok). cbn [map lsum fold_right]. ring.
Qed.
Lemma py_sum_describes l : l <> [] ->
  (forall p s, In (p, s) l -> describes p s /\ 0 < ip_mass p) ->
  exists r, py_sum (map fst l) = Ok (Params r) /\ describes r (concat (map snd l)).
Proof.
  intros Hne H. enough (exists r, py_sum (map fst l) = Ok (Params r) /\ 0 < ip_mass r /\
    describes r (concat (map snd l))) as (r & A & _ & B) by eauto.
  induction l as [|[p s] l IH] using rev_ind; [congruence|].
  rewrite map_app. cbn [map fst snd]. rewrite py_sum_snoc, map_app, concat_app. destruct l as [|q l].
  - cbn. exists p. destruct (H p s) as [Hp Hm]; [left; auto|]. rewrite !app_nil_r; auto.
  - destruct IH as (r & E & Hm & Hd); [discriminate| |].
    { intros p' s' Hp'. apply H. apply in_or_app; auto. }
    rewrite E. cbn [bind]. destruct (H p s) as [Hp Hmp]; [apply in_or_app; right; left; auto|].
    destruct (ip_add_describes r p _ _ Hd Hp) as (r' & E' & Hd'); [lra|].
    rewrite E'. cbn [bind]. exists r'. split; auto. cbn [map snd concat]. rewrite app_nil_r.
    split; auto. rewrite ip_add_ok in E' by lra. injection E' as <-. cbn. lra.
Qed.

(** ** C08 *)
Lemma fold_madd_entries Xs X i j : is_mat 4 4 X -> Forall (is_mat 4 4) Xs -> (i < 4)%nat ->
  is_mat 4 4 (fold_left madd Xs X) /\
  entry (fold_left madd Xs X) i j = entry X i j + lsum (map (fun Y => entry Y i j) Xs).
Proof.
  revert X; induction Xs as [|Y Xs IH]; intros X HX HXs Hi; cbn [fold_left].
  - split; auto. cbn. ring.
  - inversion HXs; subst. destruct (IH (madd X Y)) as [A B]; auto.
    { now apply is_mat_madd. }
    split; auto. rewrite B, (entry_madd _ _ 4 4) by auto. cbn [map lsum fold_right].
    change (fold_right Rplus 0) with lsum. ring.
Qed.

Definition pm_matrix (m : R) (p : vec) : mat := mscale m (outer p p).

Lemma pm_matrices_is_mat ms ps : Forall (fun p => length p = 3%nat) ps ->
  Forall (is_mat 4 4) (map2 pm_matrix ms (map homogeneous ps)).
Proof.
  intros H. apply Forall_forall. intros X HX. apply in_map2 in HX as (m & P & _ & HP & ->).
  apply in_map_iff in HP as (p & <- & Hp). rewrite Forall_forall in H. specialize (H p Hp).
  apply is_mat_mscale. replace 4%nat with (length (homogeneous p)); [apply is_mat_outer|].
  unfold homogeneous. rewrite app_length, H. reflexivity.
Qed.


Lemma pm_matrices_sums ms ps i j : length ms = length ps ->
  lsum (map (fun Y => entry Y i j) (map2 pm_matrix ms (map homogeneous ps))) =
  lsum (map (fun mp => fst mp * nth i (homogeneous (snd mp)) 0 * nth j (homogeneous (snd mp)) 0)
            (system ms ps)).
Proof.
  unfold system. revert ps; induction ms as [|m ms IH]; intros [|p ps] H; try discriminate.
  - reflexivity.
  - cbn [map map2 combine lsum fold_right fst snd]. 
    change (fold_right Rplus 0) with lsum. rewrite IH by (cbn in H; lia).
    unfold pm_matrix at 1. rewrite entry_mscale, entry_outer. ring.
Qed.
Lemma nth_homogeneous_lt p i : length p = 3%nat -> (i < 3)%nat -> nth i (homogeneous p) 0 = nth i p 0.
Proof. intros Hp Hi. unfold homogeneous. apply app_nth1. lia. Qed.
Lemma nth_homogeneous_3 p : length p = 3%nat -> nth 3 (homogeneous p) 0 = 1.
Proof. intros Hp. destruct_vecs. reflexivity. Qed.

Lemma system_ok ms ps : Forall (fun p => length p = 3%nat) ps -> pms_ok (system ms ps).
Proof.
  intros H [m p] Hmp. apply in_combine_r in Hmp. rewrite Forall_forall in H. apply H; auto.
Qed.

Lemma from_point_masses_J ms ps : length ms = length ps -> ms <> [] ->
  Forall (fun p => length p = 3%nat) ps ->
  exists J, ip_from_point_masses ms ps = ip_from_pim J /\ is_mat 4 4 J /\ symmetric 4 J /\
    entry J 3 3 = pms_mass (system ms ps) /\
    (forall i, (i < 3)%nat -> entry J 3 i = pms_first (system ms ps) i) /\
    (forall i j, (i < 3)%nat -> (j < 3)%nat -> entry J i j = pms_second (system ms ps) i j).
Proof.
  intros Hl Hne Hps. unfold ip_from_point_masses. apply Nat.eqb_eq in Hl as Hl'. rewrite Hl'.
  cbn [bind assert_].
  change (fun m p => mscale m (outer p p)) with pm_matrix.
  pose proof (pm_matrices_is_mat ms ps Hps) as HX.
  pose proof (fun i j => pm_matrices_sums ms ps i j Hl) as HS.
  pose proof (system_ok ms ps Hps) as Hsys.
  destruct (map2 pm_matrix ms (map homogeneous ps)) as [|X Xs] eqn:E.
  { destruct ms; [congruence|]. destruct ps; [discriminate|]. discriminate. }
  inversion HX; subst. eexists; split; [reflexivity|].
  assert (EN : forall i j, (i < 4)%nat -> entry (fold_left madd Xs X) i j =
     lsum (map (fun mp => fst mp * nth i (homogeneous (snd mp)) 0 * nth j (homogeneous (snd mp)) 0)
            (system ms ps))).
  { intros i j Hi. rewrite <- HS. cbn [map lsum fold_right].
    now destruct (fold_madd_entries Xs X i j) as [_ ->]. }
  assert (HM : is_mat 4 4 (fold_left madd Xs X)) by (apply (fold_madd_entries Xs X 0 0); auto; lia).
  split; auto. split; [|split; [|split]].
  - intros i j Hi Hj. rewrite !EN by auto. apply lsum_map_ext. intros; ring.
  - rewrite EN by lia. unfold pms_mass. apply lsum_map_ext. intros mp Hmp.
    rewrite !nth_homogeneous_3 by (apply Hsys; auto). ring.
  - intros i Hi. rewrite EN by lia. unfold pms_first. apply lsum_map_ext. intros mp Hmp.
    rewrite nth_homogeneous_3, nth_homogeneous_lt by (auto; apply Hsys; auto). ring.
  - intros i j Hi Hj. rewrite EN by lia. unfold pms_second. apply lsum_map_ext. intros mp Hmp.
    rewrite !nth_homogeneous_lt by (auto; apply Hsys; auto). ring.
Qed.

Lemma lsum_nil_pos : ~ 0 < lsum []. Proof. cbn. lra. Qed.

Lemma from_point_masses_describes ms ps : length ms = length ps ->
  Forall (fun p => length p = 3%nat) ps -> 0 < lsum ms ->
  exists p, ip_from_point_masses ms ps = Ok p /\ describes p (system ms ps).
Proof.
  intros Hl Hps Hm.
  assert (Hne : ms <> []) by (intros ->; now apply lsum_nil_pos in Hm).
  destruct (from_point_masses_J ms ps Hl Hne Hps) as (J & E & HJ & HS & H33 & H1 & H2).
  assert (Em : pms_mass (system ms ps) = lsum ms).
  { unfold pms_mass, system. clear - Hl. revert ps Hl; induction ms as [|m ms IH]; intros [|p ps] Hl;
      try discriminate; auto. cbn. f_equal. apply IH. cbn in Hl; lia. }
  assert (Hpos : 0 < entry J 3 3) by (rewrite H33, Em; auto).
  destruct (from_pim_row J HJ Hpos) as (p & Ep & Hp & Hmass & Hcom & HH).
  exists p. split; [congruence|]. split; [|split; split].
  - congruence.
  - unfold ip_h. rewrite vscale_length. apply Hp.
  - intros i Hi. unfold ip_h. rewrite nth_vscale, Hcom, Hmass by auto. rewrite <- H1 by auto. field. lra.
  - apply Hp.
  - intros i j Hi Hj. rewrite HH by auto. auto.
Qed.

Lemma pms_quad s a b c d : pms_ok s ->
  lsum (map (fun mp => fst mp * dot [a; b; c; d] (snd mp ++ [1]) * dot [a; b; c; d] (snd mp ++ [1])) s)
  = a * (a * pms_second s 0 0 + b * pms_second s 0 1 + c * pms_second s 0 2 + d * pms_first s 0)
  + b * (a * pms_second s 1 0 + b * pms_second s 1 1 + c * pms_second s 1 2 + d * pms_first s 1)
  + c * (a * pms_second s 2 0 + b * pms_second s 2 1 + c * pms_second s 2 2 + d * pms_first s 2)
  + d * (a * pms_first s 0 + b * pms_first s 1 + c * pms_first s 2 + d * pms_mass s).
Proof.
  induction s as [|[m p] s IH]; intros Hs.
  - cbn. ring.
  - apply pms_ok_cons in Hs as [Hp Hs]. specialize (IH Hs).
    rewrite !pms_first_cons, !pms_second_cons, pms_mass_cons. cbn [map lsum fold_right fst snd].
    change (fold_right Rplus 0) with lsum. rewrite IH. destruct_vecs. cbn. ring.
Qed.
Lemma quad_J_describes p s x : describes p s -> pms_ok s -> length x = 4%nat ->
  quad (ip_J p) x = lsum (map (fun mp => fst mp *
     (dot x (snd mp ++ [1])) * (dot x (snd mp ++ [1]))) s).
Proof.
  intros Hd Hs Hx. destruct (describes_ok _ _ Hd) as [[Hc HH] _].
  destruct p as [m c H]; unfold describes, ip_h in *; cbn [ip_mass ip_com ip_H] in *.
  destruct_vecs. rewrite pms_quad by auto. apply has_moments_coords in Hd
      as (E1 & (E2 & E3 & E4) & (E5 & E6 & E7) & (E8 & E9 & E10) & (E11 & E12 & E13)).
  rewrite <- E1, <- E2, <- E3, <- E4, <- E5, <- E6, <- E7, <- E8, <- E9, <- E10,
      <- E11, <- E12, <- E13. cbn. ring.
Qed.
Lemma describes_PSD p s : describes p s -> pms_ok s -> pms_nonneg s -> PSD 4 (ip_J p).
Proof.
  intros Hd Hs Hn. destruct (describes_ok _ _ Hd) as [Hok Hsym]. split; [|split].
  - now apply ip_J_ok.
  - now apply ip_J_symmetric.
  - intros x Hx. rewrite (quad_J_describes p s) by auto. apply lsum_nonneg.
    intros y Hy. apply in_map_iff in Hy as (mp & <- & Hmp). specialize (Hn _ Hmp).
    rewrite Rmult_assoc. apply Rmult_le_pos; auto. apply sqr_nonneg.
Qed.

Lemma describes_com_hull p s : describes p s -> pms_ok s -> pms_nonneg s -> 0 < ip_mass p ->
  in_hull 3 (map snd s) (ip_com p).
Proof.
  intros Hd Hs Hn Hm. destruct (describes_ok _ _ Hd) as [[Hc HH] _].
  destruct Hd as (E1 & (E2 & E3) & _).
  exists (map (fun mp => / ip_mass p * fst mp) s). split; [|split; [split|]].
  - now rewrite !map_length.
  - intros x Hx. apply in_map_iff in Hx as (mp & <- & Hmp). apply Rmult_le_pos; auto.
    left. now apply Rinv_0_lt_compat.
  - rewrite (lsum_map_scal fst). fold (pms_mass s). rewrite <- E1. field. lra.
  - apply (vec_ext 3); [auto| |].
    + reflexivity.
    + intros i Hi. unfold combine_rows. rewrite nth_map_seq by auto.
      specialize (E3 i Hi). unfold ip_h in E3. rewrite nth_vscale in E3.
      transitivity (/ ip_mass p * pms_first s i). { rewrite <- E3. field. lra. }
      unfold pms_first. rewrite <- lsum_map_scal. rewrite map2_map_l.
      clear. induction s as [|mp s IH]; cbn [map map2 lsum fold_right]; auto.
      change (fold_right Rplus 0) with lsum. rewrite IH. ring.
Qed.

Lemma from_point_masses_errors ms ps : Forall (fun p => length p = 3%nat) ps ->
  (length ms <> length ps -> ip_from_point_masses ms ps = Raise AssertionError) /\
  (ms = [] -> ps = [] -> ip_from_point_masses ms ps = Raise AttributeError) /\
  (length ms = length ps -> lsum ms < 0 -> ip_from_point_masses ms ps = Raise AssertionError) /\
  (length ms = length ps -> ms <> [] -> lsum ms = 0 -> ip_from_point_masses ms ps = NonFinite).
Proof.
  intros Hps. split; [|split; [|split]].
  - intros H. unfold ip_from_point_masses. apply Nat.eqb_neq in H. now rewrite H.
  - intros -> ->. reflexivity.
  - intros Hl Hm. assert (Hne : ms <> []) by (intros ->; cbn in Hm; lra).
    destruct (from_point_masses_J ms ps Hl Hne Hps) as (J & E & HJ & HS & H33 & _).
    rewrite E. apply from_pim_negative; auto. rewrite H33.
    replace (pms_mass (system ms ps)) with (lsum ms); auto.
    unfold pms_mass, system. clear - Hl. revert ps Hl; induction ms as [|m ms IH]; intros [|p ps] Hl;
      try discriminate; auto. cbn. f_equal. apply IH. cbn in Hl; lia.
  - intros Hl Hne Hm. 
    destruct (from_point_masses_J ms ps Hl Hne Hps) as (J & E & HJ & HS & H33 & _).
    rewrite E. apply from_pim_massless; auto. rewrite H33. rewrite <- Hm.
    unfold pms_mass, system. clear - Hl. revert ps Hl; induction ms as [|m ms IH]; intros [|p ps] Hl;
      try discriminate; auto. cbn. f_equal. apply IH. cbn in Hl; lia.
Qed.
