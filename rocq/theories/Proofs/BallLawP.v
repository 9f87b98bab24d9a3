(** C103: the second moments of the samplers for balls, ellipsoids and cylinders. *)
From Coq Require Import Permutation FinFun.
From Coquelicot Require Import Coquelicot.
From Verif Require Import Base.Vec Base.VecFacts Spec.Basic Spec.Shapes Spec.ShapeObjects Spec.Integrals Spec.RandomSpec Spec.Symmetric
  Model.Util Model.Polydd Model.Poly Model.Inertial Model.Ellipsoid Model.Box Model.Cylinder Model.Random
  Proofs.Coord Proofs.Decomp Proofs.EllP Proofs.EllForms Proofs.BoxP Proofs.CylP Proofs.IntegralP Proofs.DensityP Proofs.RandomP Proofs.UniformP Proofs.ExpectP.

(** ** the radius *)
Definition rad (d : nat) (c : R) : R := if Rle_dec c 0 then 0 else Rpower c (1 / INR d).
Lemma rad_rpow d c : 0 <= c -> rpow c (1 / INR d) = rad d c.
Proof. intro H. unfold rad, rpow, Reqb. destruct (Rle_dec c 0), (Req_EM_T c 0); auto; lra. Qed.
Lemma rad_pos d c : 0 <= rad d c.
Proof. unfold rad. destruct Rle_dec; [lra|left; apply exp_pos]. Qed.
Lemma rad_small d e : (0 < d)%nat -> 0 < e -> exists del, 0 < del /\ forall c, Rabs c < del -> rad d c <= e.
Proof.
  intros Hd He. exists (e ^ d). split; [now apply pow_lt|]. intros c Hc. destruct (Rle_dec c 0) as [N|N].
  - unfold rad. destruct Rle_dec; lra.
  - rewrite <- rad_rpow by lra. apply rpow_le; auto; try lra. rewrite Rabs_pos_eq in Hc by lra. lra.
Qed.
Lemma rad_derive d c : (0 < d)%nat -> 0 < c -> is_derive (fun c => c * (rad d c * rad d c) * (INR d / (INR d + 2))) c (rad d c * rad d c).
Proof.
  intros Hd Hc. pose proof (lt_0_INR _ Hd) as Pd.
  apply (is_derive_ext_loc (fun c => c * (exp (1 / INR d * ln c) * exp (1 / INR d * ln c)) * (INR d / (INR d + 2)))).
  { exists (mkposreal c Hc). intros t Ht. cbn in Ht. unfold ball in Ht. cbn in Ht. unfold AbsRing_ball, abs, minus, plus, opp in Ht. cbn in Ht.
    apply Rabs_def2 in Ht. unfold rad, Rpower. destruct (Rle_dec t 0); [lra|reflexivity]. }
  unfold rad. destruct (Rle_dec c 0); [lra|]. unfold Rpower. set (E := exp (1 / INR d * ln c)).
  evar (l : R). replace (E * E) with l; [apply is_derive_Reals|]; unfold l; [|]; cycle 1.
  2: { apply is_derive_Reals. auto_derive; [lra|reflexivity]. }
  fold E. field. lra.
Qed.
Lemma rad_derive0 d : (0 < d)%nat -> is_derive (fun c => c * (rad d c * rad d c) * (INR d / (INR d + 2))) 0 (rad d 0 * rad d 0).
Proof.
  intros Hd. pose proof (lt_0_INR _ Hd) as Pd. replace (rad d 0 * rad d 0) with 0 by (unfold rad; destruct Rle_dec; lra).
  apply is_derive_Reals. intros e He. set (m := Rmin 1 (e / 2)). assert (Pm : 0 < m /\ m <= 1 /\ m <= e / 2) by (unfold m, Rmin; destruct Rle_dec; lra).
  destruct (rad_small d m Hd) as (del & Pdel & H); [lra|]. exists (mkposreal del Pdel). intros h Nh Hh. cbn in Hh. specialize (H h Hh). rewrite Rplus_0_l.
  replace ((h * (rad d h * rad d h) * (INR d / (INR d + 2)) - 0 * (rad d 0 * rad d 0) * (INR d / (INR d + 2))) / h - 0) with (rad d h * rad d h * (INR d / (INR d + 2))) by (field; lra).
  pose proof (rad_pos d h) as P0. assert (K : 0 < INR d / (INR d + 2) <= 1).
  { split; [apply Rdiv_lt_0_compat; lra|]. apply (Rmult_le_reg_r (INR d + 2)); [lra|]. unfold Rdiv. rewrite Rmult_assoc, Rinv_l by lra. lra. }
  assert (Q : 0 <= rad d h * rad d h <= m * 1) by (split; [now apply Rmult_le_pos|apply Rmult_le_compat; lra]).
  rewrite Rabs_pos_eq by (apply Rmult_le_pos; lra). apply (Rle_lt_trans _ (rad d h * rad d h * 1)); [apply Rmult_le_compat_l; lra|lra].
Qed.
Lemma rad_continuous d c : (0 < d)%nat -> 0 <= c -> continuous (fun c => rad d c * rad d c) c.
Proof.
  intros Hd Hc. destruct (Rle_dec c 0) as [N|N].
  - replace c with 0 by lra. apply continuity_pt_filterlim. intros e He. set (m := Rmin 1 (e / 2)). assert (Pm : 0 < m /\ m <= 1 /\ m <= e / 2) by (unfold m, Rmin; destruct Rle_dec; lra).
    destruct (rad_small d m Hd) as (del & Pdel & H); [lra|]. exists del. split; [exact Pdel|]. intros x [_ Hx]. cbn in *. unfold R_dist in *. rewrite Rminus_0_r in Hx. specialize (H x Hx).
    replace (rad d 0) with 0 by (unfold rad; destruct Rle_dec; lra). rewrite Rmult_0_l, Rminus_0_r. pose proof (rad_pos d x).
    assert (Q : 0 <= rad d x * rad d x <= m * 1) by (split; [now apply Rmult_le_pos|apply Rmult_le_compat; lra]). rewrite Rabs_pos_eq; lra.
  - assert (Pc : 0 < c) by lra. apply (continuous_ext_loc _ (fun c => exp (1 / INR d * ln c) * exp (1 / INR d * ln c))).
    + exists (mkposreal c Pc). intros t Ht. unfold ball in Ht. cbn in Ht. unfold AbsRing_ball, abs, minus, plus, opp in Ht. cbn in Ht.
      apply Rabs_def2 in Ht. unfold rad, Rpower. destruct (Rle_dec t 0); [lra|reflexivity].
    + apply (ex_derive_continuous (fun c => exp (1 / INR d * ln c) * exp (1 / INR d * ln c))). auto_derive. auto.
Qed.
Lemma rad_integral d : (0 < d)%nat -> integral (fun c => rad d c * rad d c) 0 1 (INR d / (INR d + 2)).
Proof.
  intro Hd. pose proof (lt_0_INR _ Hd) as Pd. unfold integral.
  assert (E1 : rad d 1 = 1). { unfold rad. destruct Rle_dec; [lra|]. unfold Rpower. rewrite ln_1, Rmult_0_r. apply exp_0. }
  pose proof (is_RInt_derive (fun c => c * (rad d c * rad d c) * (INR d / (INR d + 2))) (fun c => rad d c * rad d c) 0 1) as H.
  assert (HD : forall x, Rmin 0 1 <= x <= Rmax 0 1 -> 0 <= x) by (intros x; rewrite Rmin_left by lra; lra).
  specialize (H (fun x Hx => match Rle_lt_or_eq_dec 0 x (HD x Hx) with left p => rad_derive d x Hd p | right q => eq_rect 0 (fun x => is_derive (fun c => c * (rad d c * rad d c) * (INR d / (INR d + 2))) x (rad d x * rad d x)) (rad_derive0 d Hd) x q end) (fun x Hx => rad_continuous d x Hd (HD x Hx))).
  match type of H with is_RInt _ _ _ ?v => replace (INR d / (INR d + 2)) with v; [exact H|] end.
  unfold minus, plus, opp. cbn. rewrite E1. change (@eq R (1 * (1 * 1) * (INR d / (INR d + 2)) + - (0 * (rad d 0 * rad d 0) * (INR d / (INR d + 2)))) (INR d / (INR d + 2))). field. lra.
Qed.
Lemma rad_integral_k d k : (0 < d)%nat -> integral (fun c => rad d c * rad d c * k) 0 1 (INR d / (INR d + 2) * k).
Proof.
  intro Hd. unfold integral. pose proof (is_RInt_scal _ 0 1 k _ (rad_integral d Hd)) as H. eapply is_RInt_ext; [|replace (INR d / (INR d + 2) * k) with (scal k (INR d / (INR d + 2))); [exact H|]].
  - intros. unfold scal. cbn. unfold mult. cbn. apply Rmult_comm.
  - unfold scal. cbn. unfold mult. cbn. apply Rmult_comm.
Qed.

(** ** the direction *)
Section Direction.
Context (d : nat) (law : (vec -> R) -> R -> Prop) (HL : symmetric_law d law).
Lemma law1 : law (fun _ => 1) 1. Proof. apply HL. Qed.
Lemma law_lin F G a b s t : law F a -> law G b -> law (fun x => s * F x + t * G x) (s * a + t * b). Proof. apply HL. Qed.
Lemma law_unique F a b : law F a -> law F b -> a = b. Proof. apply HL. Qed.
Lemma law_ext F G a : (forall x, length x = d -> x <> zeros d -> F x = G x) -> law F a -> law G a. Proof. apply HL. Qed.
Lemma law_negate F a i : (i < d)%nat -> law F a -> law (fun x => F (negate_at i x)) a. Proof. apply HL. Qed.
Lemma law_exchange F a i j : (i < d)%nat -> (j < d)%nat -> law F a -> law (fun x => F (exchange i j x)) a. Proof. apply HL. Qed.
Lemma law_scal F a s : law F a -> law (fun x => s * F x) (s * a).
Proof. intro H. replace (s * a) with (s * a + 0 * 1) by ring. eapply law_ext; [|exact (law_lin F (fun _ => 1) a 1 s 0 H law1)]. intros. cbv beta. ring. Qed.
Lemma law_plus F G a b : law F a -> law G b -> law (fun x => F x + G x) (a + b).
Proof. intros H K. replace (a + b) with (1 * a + 1 * b) by ring. eapply law_ext; [|exact (law_lin F G a b 1 1 H K)]. intros. cbv beta. ring. Qed.
Lemma law_const k : law (fun _ => k) k.
Proof. replace k with (k * 1) by ring. apply (law_scal _ 1 k law1). Qed.
Lemma nth_negate i x k : (k < length x)%nat -> nth k (negate_at i x) 0 = if Nat.eqb k i then - nth k x 0 else nth k x 0.
Proof. intro H. unfold negate_at. now rewrite nth_map_seq. Qed.
Lemma nth_exchange i j x k : (k < length x)%nat -> nth k (exchange i j x) 0 = nth (if Nat.eqb k i then j else if Nat.eqb k j then i else k) x 0.
Proof. intro H. unfold exchange. now rewrite nth_map_seq. Qed.
Lemma negate_length i x : length (negate_at i x) = length x. Proof. unfold negate_at. now rewrite map_length, seq_length. Qed.
Lemma exchange_length i j x : length (exchange i j x) = length x. Proof. unfold exchange. now rewrite map_length, seq_length. Qed.
Lemma dot_as_sum x : dot x x = lsum (map (fun k => nth k x 0 * nth k x 0) (seq 0 (length x))).
Proof.
  clear. assert (E : x = map (fun k => nth k x 0) (seq 0 (length x))). { apply (nth_ext _ _ 0 0); [now rewrite map_length, seq_length|]. intros k Hk. now rewrite nth_map_seq. }
  rewrite E at 1 2. generalize (seq 0 (length x)) as l. induction l as [|a l IH]; [reflexivity|].
  assert (LC : forall a l, lsum (a :: l) = a + lsum l) by reflexivity. cbn [map]. rewrite LC, <- IH. reflexivity.
Qed.
Lemma dot_negate i x : dot (negate_at i x) (negate_at i x) = dot x x.
Proof. clear. rewrite !dot_as_sum, negate_length. f_equal. apply map_ext_in. intros k I. apply in_seq in I. rewrite nth_negate by lia. destruct (Nat.eqb k i); ring. Qed.
Lemma dot_exchange i j x : (i < length x)%nat -> (j < length x)%nat -> dot (exchange i j x) (exchange i j x) = dot x x.
Proof.
  clear. intros Hi Hj. rewrite !dot_as_sum, exchange_length. set (s := fun k => if Nat.eqb k i then j else if Nat.eqb k j then i else k).
  transitivity (lsum (map (fun k => nth k x 0 * nth k x 0) (map s (seq 0 (length x))))).
  - rewrite map_map. f_equal. apply map_ext_in. intros k I. apply in_seq in I. rewrite nth_exchange by lia. reflexivity.
  - apply lsum_map_perm. assert (SS : forall k, s (s k) = k).
    { intro k. unfold s. destruct (Nat.eqb_spec k i); [|destruct (Nat.eqb_spec k j)]; subst; rewrite ?Nat.eqb_refl; auto; [destruct (Nat.eqb_spec j i); auto|].
      destruct (Nat.eqb_spec k i); [lia|]. destruct (Nat.eqb_spec k j); lia. }
    assert (SB : forall k, (k < length x)%nat -> (s k < length x)%nat) by (intros k; unfold s; destruct (Nat.eqb k i), (Nat.eqb k j); lia).
    apply NoDup_Permutation.
    + apply FinFun.Injective_map_NoDup; [|apply seq_NoDup]. intros a b E. rewrite <- (SS a), <- (SS b). now f_equal.
    + apply seq_NoDup.
    + intro k. rewrite in_map_iff, in_seq. split.
      * intros (y & <- & I). apply in_seq in I. split; [lia|]. apply SB. lia.
      * intros [_ H]. exists (s k). split; [apply SS|]. apply in_seq. split; [lia|]. apply SB. lia.
Qed.
Lemma norm_dot x y : dot x x = dot y y -> norm x = norm y.
Proof. clear. unfold norm. now intros ->. Qed.
Lemma first_zero i : (i < d)%nat -> law (fun x => nth i x 0 / norm x) 0.
Proof.
  intro Hi. destruct (proj1 (proj2 (proj2 (proj2 (proj2 (proj2 (proj2 HL)))))) i Hi) as [a Ha].
  assert (E : a = -1 * a). { eapply law_unique; [|apply (law_scal (fun x => nth i x 0 / norm x) a (-1)); exact Ha]. eapply law_ext; [|exact (law_negate (fun x => nth i x 0 / norm x) a i Hi Ha)].
    intros x Lx _. cbv beta. rewrite nth_negate by lia. rewrite Nat.eqb_refl, (norm_dot _ x) by apply dot_negate. unfold Rdiv. ring. }
  assert (Z : a = 0) by lra. rewrite Z in Ha. exact Ha.
Qed.
Lemma second_cross i j : (i < d)%nat -> (j < d)%nat -> i <> j -> law (fun x => nth i x 0 * nth j x 0 / dot x x) 0.
Proof.
  intros Hi Hj N. destruct (proj2 (proj2 (proj2 (proj2 (proj2 (proj2 (proj2 HL)))))) i j Hi Hj) as [a Ha].
  assert (E : a = -1 * a). { eapply law_unique; [|apply (law_scal (fun x => nth i x 0 * nth j x 0 / dot x x) a (-1)); exact Ha]. eapply law_ext; [|exact (law_negate (fun x => nth i x 0 * nth j x 0 / dot x x) a i Hi Ha)].
    intros x Lx _. cbv beta. rewrite !nth_negate by lia. rewrite Nat.eqb_refl, (proj2 (Nat.eqb_neq j i)), dot_negate by auto. unfold Rdiv. ring. }
  assert (Z : a = 0) by lra. rewrite Z in Ha. exact Ha.
Qed.
Lemma law_sum (F : nat -> vec -> R) a l : (forall k, In k l -> law (F k) a) -> law (fun x => lsum (map (fun k => F k x) l)) (INR (length l) * a).
Proof.
  induction l as [|k l IH]; intros H.
  - change (INR (length [])) with 0. rewrite Rmult_0_l. apply (law_const 0).
  - cbn [length]. rewrite S_INR. replace ((INR (length l) + 1) * a) with (a + INR (length l) * a) by ring.
    apply (law_plus (F k) (fun x => lsum (map (fun k => F k x) l))); [apply H; now left|apply IH; intros; apply H; now right].
Qed.
Lemma dot_nonzero x : length x = d -> x <> zeros d -> 0 < dot x x.
Proof. intros <- N. pose proof (norm_pos _ N) as P. rewrite <- (norm_sqr x). now apply Rmult_lt_0_compat. Qed.
Lemma second_same i : (i < d)%nat -> law (fun x => nth i x 0 * nth i x 0 / dot x x) (/ INR d).
Proof.
  intros Hi. destruct (proj2 (proj2 (proj2 (proj2 (proj2 (proj2 (proj2 HL)))))) i i Hi Hi) as [a Ha].
  assert (A : forall k, (k < d)%nat -> law (fun x => nth k x 0 * nth k x 0 / dot x x) a).
  { intros k Hk. eapply law_ext; [|exact (law_exchange (fun x => nth i x 0 * nth i x 0 / dot x x) a i k Hi Hk Ha)]. intros x Lx _. cbv beta. rewrite nth_exchange, dot_exchange by lia. rewrite Nat.eqb_refl. reflexivity. }
  assert (S : law (fun _ => 1) (INR d * a)).
  { eapply law_ext; [|replace d with (length (seq 0 d)) at 1 by apply seq_length; apply (law_sum (fun k x => nth k x 0 * nth k x 0 / dot x x) a (seq 0 d)); intros k I; apply in_seq in I; apply A; lia].
    intros x Lx Nx. cbv beta. pose proof (dot_nonzero x Lx Nx). pose proof (dot_as_sum x) as E. rewrite Lx in E. set (D := dot x x) in *.
    transitivity (/ D * lsum (map (fun k => nth k x 0 * nth k x 0) (seq 0 d))); [|rewrite <- E; field; lra].
    rewrite <- lsum_map_scal. f_equal. apply map_ext. intro k. unfold Rdiv. ring. }
  apply (law_unique _ _ 1) in S; [|exact law1]. assert (0 < INR d) by (apply lt_0_INR; lia). replace (/ INR d) with a; [exact Ha|]. apply (Rmult_eq_reg_l (INR d)); [|lra]. rewrite S. field. lra.
Qed.
End Direction.

(** ** the ball *)
Definition bpt (d : nat) (x : vec) (c : R) : vec := vscale (rad d c) (vscale (/ norm x) x).
Lemma ball_run d x c : (2 <= d)%nat -> length x = d -> x <> zeros d -> unit_draw c -> random_points_in_ball d [x] [c] = Ok [bpt d x c].
Proof.
  intros Hd Lx Nx [Hc _]. unfold random_points_in_ball, random_points_on_hypersphere. rewrite (proj2 (Nat.leb_le 1 d)), (proj2 (Nat.leb_le 1 (d - 1))) by lia. cbn [assert_ bind mapM].
  destruct (normalize_good x) as [-> N1]; [congruence|]. cbn [bind map2]. now rewrite rad_rpow.
Qed.
Lemma nth_bpt d x c i : length x = d -> nth i (bpt d x c) 0 = rad d c * (nth i x 0 / norm x).
Proof. intros Lx. unfold bpt. rewrite !nth_vscale. unfold Rdiv. ring. Qed.
Lemma bpt_sq d x c i j : length x = d -> x <> zeros d -> nth i (bpt d x c) 0 * nth j (bpt d x c) 0 = rad d c * rad d c * (nth i x 0 * nth j x 0 / dot x x).
Proof.
  intros Lx Nx. rewrite !nth_bpt by auto. rewrite <- norm_sqr. assert (P : 0 < norm x) by (apply norm_pos; congruence). field. lra.
Qed.
Lemma ball_first d law i : symmetric_law d law -> (2 <= d)%nat -> (i < d)%nat ->
  mean_point d law (fun x c => random_points_in_ball d [x] [c]) (fun p => nth i p 0) 0.
Proof.
  intros HL Hd Hi. exists (fun x c => rad d c * (nth i x 0 / norm x)), (fun _ => 0). split; [|split].
  - intros x c Lx Nx Hc. exists (bpt d x c). split; [now apply ball_run|now apply nth_bpt].
  - intros c _. pose proof (law_scal d law HL (fun x => nth i x 0 / norm x) 0 (rad d c) (first_zero d law HL i Hi)) as H. rewrite Rmult_0_r in H. exact H.
  - apply (integral_eq _ 0 1 (scal (1 - 0) 0)); [apply (is_RInt_const 0 1 0)|]. unfold scal. cbn. unfold mult. cbn. ring.
Qed.
Lemma ball_second d law i j : symmetric_law d law -> (2 <= d)%nat -> (i < d)%nat -> (j < d)%nat ->
  mean_point d law (fun x c => random_points_in_ball d [x] [c]) (fun p => nth i p 0 * nth j p 0) (if Nat.eqb i j then / (INR d + 2) else 0).
Proof.
  intros HL Hd Hi Hj. assert (Pd : 0 < INR d) by (apply lt_0_INR; lia).
  exists (fun x c => if Reqb (dot x x) 0 then 0 else rad d c * rad d c * (nth i x 0 * nth j x 0 / dot x x)), (fun c => rad d c * rad d c * (if Nat.eqb i j then / INR d else 0)). split; [|split].
  - intros x c Lx Nx Hc. exists (bpt d x c). split; [now apply ball_run|]. pose proof (dot_nonzero d law HL x Lx Nx). rewrite Reqb_false by lra. now apply bpt_sq.
  - intros c _. eapply (law_ext d law HL); [|apply (law_scal d law HL (fun x => nth i x 0 * nth j x 0 / dot x x))].
    + intros x Lx Nx. cbv beta. pose proof (dot_nonzero d law HL x Lx Nx). rewrite Reqb_false by lra. reflexivity.
    + destruct (Nat.eqb_spec i j) as [<-|N]; [exact (second_same d law HL i Hi)|exact (second_cross d law HL i j Hi Hj N)].
  - eapply integral_eq; [apply rad_integral_k; lia|]. destruct (Nat.eqb i j); field; lra.
Qed.

(** products of affine functions of a point in the ball *)
Lemma affine3 law r a0 a1 a2 a3 b0 b1 b2 b3 : symmetric_law 3 law ->
  law (fun x => affine a0 a1 a2 a3 (vscale r (vscale (/ norm x) x)) * affine b0 b1 b2 b3 (vscale r (vscale (/ norm x) x)))
    (a0 * b0 + r * r * ((a1 * b1 + a2 * b2 + a3 * b3) / 3)).
Proof.
  intros HL. pose proof (first_zero 3 law HL) as F. pose proof (second_cross 3 law HL) as C. pose proof (second_same 3 law HL) as S.
  pose proof (F 0 ltac:(lia))%nat as F0. pose proof (F 1 ltac:(lia))%nat as F1. pose proof (F 2 ltac:(lia))%nat as F2.
  pose proof (S 0 ltac:(lia))%nat as S0. pose proof (S 1 ltac:(lia))%nat as S1. pose proof (S 2 ltac:(lia))%nat as S2.
  pose proof (C 0 1 ltac:(lia) ltac:(lia) ltac:(lia))%nat as C01. pose proof (C 0 2 ltac:(lia) ltac:(lia) ltac:(lia))%nat as C02. pose proof (C 1 2 ltac:(lia) ltac:(lia) ltac:(lia))%nat as C12. clear F C S.
  pose proof (law_lin 3 law HL) as L. pose proof (law_const 3 law HL (a0 * b0)) as K.
  pose proof (L _ _ _ _ 1 (r * (a0 * b1 + a1 * b0)) K F0) as K1. pose proof (L _ _ _ _ 1 (r * (a0 * b2 + a2 * b0)) K1 F1) as K2. pose proof (L _ _ _ _ 1 (r * (a0 * b3 + a3 * b0)) K2 F2) as K3.
  pose proof (L _ _ _ _ 1 (r * r * (a1 * b1)) K3 S0) as K4. pose proof (L _ _ _ _ 1 (r * r * (a2 * b2)) K4 S1) as K5. pose proof (L _ _ _ _ 1 (r * r * (a3 * b3)) K5 S2) as K6.
  pose proof (L _ _ _ _ 1 (r * r * (a1 * b2 + a2 * b1)) K6 C01) as K7. pose proof (L _ _ _ _ 1 (r * r * (a1 * b3 + a3 * b1)) K7 C02) as K8. pose proof (L _ _ _ _ 1 (r * r * (a2 * b3 + a3 * b2)) K8 C12) as K9.
  clear - K9 HL. match type of K9 with law _ ?v => replace (a0 * b0 + r * r * ((a1 * b1 + a2 * b2 + a3 * b3) / 3)) with v end.
  - eapply (law_ext 3 law HL); [|exact K9]. intros x Lx Nx. cbv beta. assert (P : 0 < norm x) by (apply norm_pos; congruence). rewrite <- norm_sqr. destruct x as [|x0 [|x1 [|x2 [|]]]]; try discriminate Lx.
    set (m := norm _) in *. unfold affine. cbn. field. lra.
  - change (INR 3) with (1 + 1 + 1). field.
Qed.
Lemma affine2 law r a0 a1 a2 b0 b1 b2 : symmetric_law 2 law ->
  law (fun x => (a0 + a1 * (r * (/ norm x * nth 0 x 0)) + a2 * (r * (/ norm x * nth 1 x 0))) * (b0 + b1 * (r * (/ norm x * nth 0 x 0)) + b2 * (r * (/ norm x * nth 1 x 0))))
    (a0 * b0 + r * r * ((a1 * b1 + a2 * b2) / 2)).
Proof.
  intros HL. pose proof (first_zero 2 law HL) as F. pose proof (second_cross 2 law HL) as C. pose proof (second_same 2 law HL) as S.
  pose proof (F 0 ltac:(lia))%nat as F0. pose proof (F 1 ltac:(lia))%nat as F1. 
  pose proof (S 0 ltac:(lia))%nat as S0. pose proof (S 1 ltac:(lia))%nat as S1.
  pose proof (C 0 1 ltac:(lia) ltac:(lia) ltac:(lia))%nat as C01. clear F C S.
  pose proof (law_lin 2 law HL) as L. pose proof (law_const 2 law HL (a0 * b0)) as K.
  pose proof (L _ _ _ _ 1 (r * (a0 * b1 + a1 * b0)) K F0) as K1. pose proof (L _ _ _ _ 1 (r * (a0 * b2 + a2 * b0)) K1 F1) as K2.
  pose proof (L _ _ _ _ 1 (r * r * (a1 * b1)) K2 S0) as K4. pose proof (L _ _ _ _ 1 (r * r * (a2 * b2)) K4 S1) as K5.
  pose proof (L _ _ _ _ 1 (r * r * (a1 * b2 + a2 * b1)) K5 C01) as K9.
  clear - K9 HL. match type of K9 with law _ ?v => replace (a0 * b0 + r * r * ((a1 * b1 + a2 * b2) / 2)) with v end.
  - eapply (law_ext 2 law HL); [|exact K9]. intros x Lx Nx. cbv beta. assert (P : 0 < norm x) by (apply norm_pos; congruence). rewrite <- norm_sqr. destruct x as [|x0 [|x1 [|]]]; try discriminate Lx.
    set (m := norm _) in *. cbn. field. lra.
  - change (INR 2) with (1 + 1). field.
Qed.
Lemma rad_integral_c d a k : (0 < d)%nat -> integral (fun c => a + rad d c * rad d c * k) 0 1 (a + INR d / (INR d + 2) * k).
Proof.
  intros Hd. unfold integral. pose proof (is_RInt_plus _ _ 0 1 _ _ (is_RInt_const 0 1 a) (rad_integral_k d k Hd)) as H.
  match type of H with is_RInt _ _ _ ?v => replace (a + INR d / (INR d + 2) * k) with v; [exact H|] end.
  unfold plus, scal. cbn. unfold mult. cbn. change (@eq R ((1 - 0) * a + INR d / (INR d + 2) * k) (a + INR d / (INR d + 2) * k)). ring.
Qed.

(** ** the ellipsoid *)
Lemma ell_affine h r c e law (al be : vec -> R) a0 a1 a2 a3 b0 b1 b2 b3 : symmetric_law 3 law -> ell_init h r c = Ok e -> length h = 3%nat ->
  (forall b, length b = 3%nat -> al (vadd (mat_vec (congd (pose_rot 3 r) h) b) (pose_tr 3 c)) = affine a0 a1 a2 a3 b) ->
  (forall b, length b = 3%nat -> be (vadd (mat_vec (congd (pose_rot 3 r) h) b) (pose_tr 3 c)) = affine b0 b1 b2 b3 b) ->
  mean_point 3 law (fun x u => ell_random_points e [x] [u]) (fun p => al p * be p) (a0 * b0 + (a1 * b1 + a2 * b2 + a3 * b3) / 5).
Proof.
  intros HL He Lh Ha Hb.
  exists (fun x u => affine a0 a1 a2 a3 (bpt 3 x u) * affine b0 b1 b2 b3 (bpt 3 x u)), (fun u => a0 * b0 + rad 3 u * rad 3 u * ((a1 * b1 + a2 * b2 + a3 * b3) / 3)). split; [|split].
  - intros x u Lx Nx Hu. assert (LB : length (bpt 3 x u) = 3%nat) by (unfold bpt; rewrite !vscale_length; exact Lx). eexists. split.
    + rewrite (ell_random_eq h r c e [x] [u] 3 He ltac:(lia) Lh [bpt 3 x u]); [reflexivity|apply ball_run; auto|]. intros p [<-|[]]. exact LB.
    + now rewrite Ha, Hb.
  - intros u _. exact (affine3 law (rad 3 u) a0 a1 a2 a3 b0 b1 b2 b3 HL).
  - eapply integral_eq; [apply rad_integral_c; lia|]. change (INR 3) with (1 + 1 + 1). field.
Qed.
Lemma congd_rows r h c i : is_mat 3 3 (congd (pose_rot 3 r) h) -> length (pose_tr 3 c) = 3%nat -> (i < 3)%nat -> forall b, length b = 3%nat ->
  nth i (vadd (mat_vec (congd (pose_rot 3 r) h) b) (pose_tr 3 c)) 0 =
  affine (nth i (pose_tr 3 c) 0) (entry (congd (pose_rot 3 r) h) i 0) (entry (congd (pose_rot 3 r) h) i 1) (entry (congd (pose_rot 3 r) h) i 2) b.
Proof.
  intros M L Hi b Lb. revert M. generalize (congd (pose_rot 3 r) h). intros A M. destruct (pose_tr 3 c) as [|c0 [|c1 [|c2 [|]]]]; try discriminate L. destruct_vecs.
  unfold affine, entry. destruct i as [|[|[|i]]]; try lia; cbn; ring.
Qed.
Lemma ell_mean h r c e law i : symmetric_law 3 law -> ell_init h r c = Ok e -> length h = 3%nat -> (i < 3)%nat ->
  mean_point 3 law (fun x u => ell_random_points e [x] [u]) (fun p => nth i p 0) (nth i (e_center e) 0).
Proof.
  intros HL He Lh Hi. pose proof (ell_init_inv _ _ _ _ He) as (_ & _ & Er & Ec & MQ & Lc). rewrite Lh in *. rewrite Er in MQ. rewrite Ec in *. assert (MA : is_mat 3 3 (congd (pose_rot 3 r) h)) by (apply congd_is_mat; auto; lia).
  pose proof (ell_affine h r c e law (fun p => nth i p 0) (fun _ => 1) _ _ _ _ 1 0 0 0 HL He Lh (congd_rows r h c i MA Lc Hi) ltac:(intros; unfold affine; ring)) as (F & G & H1 & H2 & H3).
  exists F, G. split; [|split; [exact H2|eapply integral_eq; [exact H3|field]]]. intros x u Lx Nx Hu. destruct (H1 x u Lx Nx Hu) as (p & E & <-). exists p. split; [exact E|ring].
Qed.
Lemma ell_second h r c e law i j : symmetric_law 3 law -> ell_init h r c = Ok e -> length h = 3%nat -> orthogonal 3 (pose_rot 3 r) -> (i < 3)%nat -> (j < 3)%nat ->
  exists q, ell_uniform_density_params e 1 = Ok q /\
    mean_point 3 law (fun x u => ell_random_points e [x] [u]) (fun p => nth i p 0 * nth j p 0) (entry (ip_H q) i j).
Proof.
  intros HL He Lh HQ Hi Hj. eexists. split; [apply (ell_uniform_ok h r c e 1 He Lh); lra|].
  pose proof (ell_init_inv _ _ _ _ He) as (_ & _ & Er & Ec & MQ & Lc). rewrite Lh in *. rewrite Er in MQ. rewrite Ec in *. assert (MA : is_mat 3 3 (congd (pose_rot 3 r) h)) by (apply congd_is_mat; auto; lia).
  pose proof (ell_affine h r c e law (fun p => nth i p 0) (fun p => nth j p 0) _ _ _ _ _ _ _ _ HL He Lh (congd_rows r h c i MA Lc Hi) (congd_rows r h c j MA Lc Hj)) as K.
  match type of K with mean_point _ _ _ _ ?v => match goal with |- mean_point _ _ _ _ ?w => replace w with v; [exact K|] end end. clear K.
  unfold dparams. cbn [ip_H]. pose proof (congd_mul 3 (pose_rot 3 r) h h HQ Lh Lh ltac:(lia)) as E. pose proof (congd_sym 3 (pose_rot 3 r) h MQ Lh ltac:(lia)) as Sy.
  assert (E5 : forall a b, (a < 3)%nat -> (b < 3)%nat -> entry (mat_mul (mat_mul (pose_rot 3 r) (diag [1 * (nth 0 h 0 * nth 0 h 0 / 5); 1 * (nth 1 h 0 * nth 1 h 0 / 5); 1 * (nth 2 h 0 * nth 2 h 0 / 5)])) (transpose (pose_rot 3 r))) a b = entry (congd (pose_rot 3 r) (vmul h h)) a b / 5).
  { intros a b Ha Hb. revert MQ. clear - Lh Ha Hb. unfold congd. generalize (pose_rot 3 r). intros Q MQ. destruct_vecs. unfold entry. destruct a as [|[|[|a]]]; try lia; destruct b as [|[|[|b]]]; try lia; cbn; field. }
  assert (ES : forall a b, (a < 3)%nat -> (b < 3)%nat -> entry (congd (pose_rot 3 r) h) a b = entry (congd (pose_rot 3 r) h) b a) by (intros; apply Sy; lia).
  assert (MB : is_mat 3 3 (mat_mul (mat_mul (pose_rot 3 r) (diag [1 * (nth 0 h 0 * nth 0 h 0 / 5); 1 * (nth 1 h 0 * nth 1 h 0 / 5); 1 * (nth 2 h 0 * nth 2 h 0 / 5)])) (transpose (pose_rot 3 r)))) by (apply (congd_is_mat 3); auto).
  rewrite <- E in E5. revert ES E5 MA MB. generalize (mat_mul (mat_mul (pose_rot 3 r) (diag [1 * (nth 0 h 0 * nth 0 h 0 / 5); 1 * (nth 1 h 0 * nth 1 h 0 / 5); 1 * (nth 2 h 0 * nth 2 h 0 / 5)])) (transpose (pose_rot 3 r))).
  generalize (congd (pose_rot 3 r) h). clear - Lc Hi Hj. intros A B ES E5 MA MB.
  assert (MO : is_mat 3 3 (mscale 1 (outer (pose_tr 3 c) (pose_tr 3 c)))). { revert Lc. generalize (pose_tr 3 c). intros t Lt. destruct t as [|? [|? [|? [|]]]]; try discriminate Lt. split; [reflexivity|]. repeat constructor. }
  rewrite (entry_madd _ _ 3 3 i j MB MO Hi), entry_mscale, entry_outer, E5 by auto.
  rewrite (ES j 0%nat), (ES j 1%nat), (ES j 2%nat) by lia. clear ES E5 MB MO. destruct_vecs. unfold entry. destruct i as [|[|[|i]]]; try lia; destruct j as [|[|[|j]]]; try lia; cbn; field.
Qed.

(** ** the cylinder *)
Lemma cyl_run L r ro co cy z x u : cyl_init L r ro co = Ok cy -> length x = 2%nat -> x <> zeros 2 -> unit_draw u ->
  cyl_random_points cy [z] [x] [u] = Ok [vadd (mat_vec (pose_rot 3 ro) (vscale r (bpt 2 x u) ++ [L * z])) (pose_tr 3 co)].
Proof.
  intros Hc Lx Nx Hu. apply cyl_init_inv in Hc as (_ & _ & MQ & Lc & ->). unfold cyl_random_points. cbn [cyl_of c_radius c_length c_rot c_center]. rewrite (ball_run 2 x u) by (auto; lia). cbn [bind map map2 mat_mul].
  do 3 f_equal. apply (vec_mat_transpose 3); auto. rewrite app_length, vscale_length. unfold bpt. rewrite !vscale_length, Lx. reflexivity.
Qed.
Lemma cyl_affine L r ro co cy law (al be : vec -> R) a0 a1 a2 a3 b0 b1 b2 b3 : symmetric_law 2 law -> cyl_init L r ro co = Ok cy ->
  (forall b, length b = 3%nat -> al (vadd (mat_vec (pose_rot 3 ro) b) (pose_tr 3 co)) = affine a0 a1 a2 a3 b) ->
  (forall b, length b = 3%nat -> be (vadd (mat_vec (pose_rot 3 ro) b) (pose_tr 3 co)) = affine b0 b1 b2 b3 b) ->
  mean_point_z 2 law (fun z x u => cyl_random_points cy [z] [x] [u]) (fun p => al p * be p) (a0 * b0 + (a1 * b1 + a2 * b2) * (r * r / 4) + a3 * b3 * (L * L / 12)).
Proof.
  intros HL Hc Ha Hb. exists (fun z => (a0 + a3 * (L * z)) * (b0 + b3 * (L * z)) + (a1 * b1 + a2 * b2) * (r * r / 4)). split.
  - intros z Hz. assert (LB : forall x u, length x = 2%nat -> length (vscale r (bpt 2 x u) ++ [L * z]) = 3%nat) by (intros x u Lx; rewrite app_length; unfold bpt; rewrite !vscale_length, Lx; reflexivity).
    exists (fun x u => affine a0 a1 a2 a3 (vscale r (bpt 2 x u) ++ [L * z]) * affine b0 b1 b2 b3 (vscale r (bpt 2 x u) ++ [L * z])),
      (fun u => (a0 + a3 * (L * z)) * (b0 + b3 * (L * z)) + rad 2 u * rad 2 u * (r * r * ((a1 * b1 + a2 * b2) / 2))). split; [|split].
    + intros x u Lx Nx Hu. eexists. split; [apply (cyl_run L r ro co); auto|]. now rewrite Ha, Hb by auto.
    + intros u _. pose proof (affine2 law (r * rad 2 u) (a0 + a3 * (L * z)) a1 a2 (b0 + b3 * (L * z)) b1 b2 HL) as K.
      match type of K with law _ ?v => replace ((a0 + a3 * (L * z)) * (b0 + b3 * (L * z)) + rad 2 u * rad 2 u * (r * r * ((a1 * b1 + a2 * b2) / 2))) with v by field end.
      eapply (law_ext 2 law HL); [|exact K]. intros x Lx Nx. cbv beta. destruct x as [|x0 [|x1 [|]]]; try discriminate Lx. unfold affine, bpt. cbn -[norm]. ring.
    + eapply integral_eq; [apply rad_integral_c; lia|]. change (INR 2) with (1 + 1). field.
  - pose proof (affine_integral 1 ((a1 * b1 + a2 * b2) * (r * r / 4)) a0 (a3 * L) b0 (b3 * L) (1 / 2)) as K.
    eapply integral_ext; [|eapply integral_eq; [exact K|field]]. intros. cbv beta. ring.
Qed.
Lemma pose_rows Q t i : is_mat 3 3 Q -> length t = 3%nat -> (i < 3)%nat -> forall b, length b = 3%nat ->
  nth i (vadd (mat_vec Q b) t) 0 = affine (nth i t 0) (entry Q i 0) (entry Q i 1) (entry Q i 2) b.
Proof. intros M L Hi b Lb. destruct_vecs. unfold affine, entry. destruct i as [|[|[|i]]]; try lia; cbn; ring. Qed.
Lemma mean_point_z_eq d law run (f g : vec -> R) I J : (forall p, f p = g p) -> I = J -> mean_point_z d law run f I -> mean_point_z d law run g J.
Proof.
  intros E <- (K & H1 & H2). exists K. split; [|exact H2]. intros z Hz. destruct (H1 z Hz) as (F & G & A & B & C). exists F, G. split; [|auto].
  intros x c Lx Nx Hc. destruct (A x c Lx Nx Hc) as (p & E1 & E2). exists p. split; [exact E1|]. now rewrite <- E.
Qed.
Lemma cyl_mean L r ro co cy law i : symmetric_law 2 law -> cyl_init L r ro co = Ok cy -> (i < 3)%nat ->
  mean_point_z 2 law (fun z x u => cyl_random_points cy [z] [x] [u]) (fun p => nth i p 0) (nth i (pose_tr 3 co) 0).
Proof.
  intros HL Hc Hi. pose proof (cyl_init_inv _ _ _ _ _ Hc) as (_ & _ & MQ & Lc & _).
  eapply mean_point_z_eq; [| |apply (cyl_affine L r ro co cy law (fun p => nth i p 0) (fun _ => 1) _ _ _ _ 1 0 0 0 HL Hc (pose_rows _ _ i MQ Lc Hi)); intros; unfold affine; ring]; [intros; cbv beta; ring|field].
Qed.
Lemma cyl_second L r ro co cy law i j : symmetric_law 2 law -> cyl_init L r ro co = Ok cy -> (i < 3)%nat -> (j < 3)%nat ->
  exists q, cyl_uniform_density_params cy 1 = Ok q /\
    mean_point_z 2 law (fun z x u => cyl_random_points cy [z] [x] [u]) (fun p => nth i p 0 * nth j p 0) (entry (ip_H q) i j).
Proof.
  intros HL Hc Hi Hj. eexists. split; [apply (cyl_uniform_ok L r ro co cy 1 Hc); lra|]. pose proof (cyl_init_inv _ _ _ _ _ Hc) as (_ & _ & MQ & Lc & _).
  eapply mean_point_z_eq; [| |apply (cyl_affine L r ro co cy law (fun p => nth i p 0) (fun p => nth j p 0) _ _ _ _ _ _ _ _ HL Hc (pose_rows _ _ i MQ Lc Hi) (pose_rows _ _ j MQ Lc Hj))]; [reflexivity|].
  unfold dparams. cbn [ip_H]. revert MQ Lc. clear - Hi Hj. generalize (pose_rot 3 ro) (pose_tr 3 co). intros Q t MQ Lc. destruct_vecs.
  unfold entry. destruct i as [|[|[|i]]]; try lia; destruct j as [|[|[|j]]]; try lia; cbn; field.
Qed.

(** ** every point of a sample is the point of its own draws *)
Lemma ball_rows d X u B : random_points_in_ball d X u = Ok B -> length u = length X -> length B = length X /\
  forall k, (k < length X)%nat -> random_points_in_ball d [nth k X []] [nth k u 0] = Ok [nth k B []].
Proof.
  unfold random_points_in_ball, random_points_on_hypersphere. destruct (Nat.leb 1 d); [|discriminate]. destruct (Nat.leb 1 (d - 1)); [|discriminate]. cbn [assert_ bind].
  revert u B. induction X as [|x X IH]; intros [|a u] B H L; try discriminate L; cbn [mapM bind map2] in *.
  - injection H as <-. split; [reflexivity|]. cbn. lia.
  - destruct (normalize_row x) as [y| |] eqn:Ey; try discriminate H. cbn [bind] in H. destruct (mapM normalize_row X) as [S| |] eqn:ES; try discriminate H. cbn [bind map2] in H. injection H as <-.
    destruct (IH u (map2 (fun a x => vscale (rpow a (1 / INR d)) x) u S)) as [L1 H1]; [reflexivity|now injection L|]. split; [cbn; now rewrite L1|].
    intros [|k] Hk; [cbn; rewrite Ey; reflexivity|]. cbn [nth]. apply H1. cbn in Hk. lia.
Qed.
Lemma ell_rows e X u P : ell_random_points e X u = Ok P -> length u = length X -> length P = length X /\
  forall k, (k < length X)%nat -> ell_random_points e [nth k X []] [nth k u 0] = Ok [nth k P []].
Proof.
  unfold ell_random_points. intros H L. apply bind_inv in H as (B & EB & H). injection H as <-. destruct (ball_rows _ _ _ _ EB L) as [LB HB].
  unfold mat_mul at 1. rewrite !map_length. split; [exact LB|]. intros k Hk. rewrite HB by auto. cbn [bind]. f_equal. unfold mat_mul at 1. cbn [map]. f_equal.
  set (M := mat_mul (mat_mul (e_rot e) (diag (e_half e))) (transpose (e_rot e))). change (mat_mul B M) with (map (fun v => vec_mat v M) B).
  rewrite map_map, (nth_indep (map (fun x => vadd (vec_mat x M) (e_center e)) B) [] (vadd (vec_mat [] M) (e_center e))) by (rewrite map_length; lia).
  symmetry. apply (map_nth (fun x => vadd (vec_mat x M) (e_center e))).
Qed.
Lemma cyl_rows cy Z X u P : cyl_random_points cy Z X u = Ok P -> length u = length X -> length Z = length X -> length P = length X /\
  forall k, (k < length X)%nat -> cyl_random_points cy [nth k Z 0] [nth k X []] [nth k u 0] = Ok [nth k P []].
Proof.
  unfold cyl_random_points. intros H L LZ. apply bind_inv in H as (B & EB & H). injection H as <-. destruct (ball_rows _ _ _ _ EB L) as [LB HB].
  unfold mat_mul at 1. rewrite !map_length, map2_length, !map_length, LB, LZ, Nat.min_id. split; [reflexivity|]. intros k Hk. rewrite HB by auto. cbn [bind map map2]. f_equal. unfold mat_mul. cbn [map]. f_equal.
  rewrite map_map. clear HB EB L. rewrite <- LB in *. clear LB X u. revert Z LZ k Hk. induction B as [|b B IH]; intros [|z Z] LZ k Hk; try discriminate LZ; [cbn in Hk; lia|].
  destruct k as [|k]; [reflexivity|]. cbn [map map2 nth]. apply IH; [now injection LZ|cbn in Hk; lia].
Qed.

(** ** means are unique *)
Lemma mean_point_unique d law run stat I J : symmetric_law d law -> mean_point d law run stat I -> mean_point d law run stat J -> I = J.
Proof.
  intros HL (F & G & A & B & C) (F' & G' & A' & B' & C'). eapply integral_unique; [exact C|]. eapply integral_ext; [|exact C']. intros c Hc. rewrite Rmin_left, Rmax_right in Hc by lra. cbv beta.
  assert (U : unit_draw c) by (split; lra). eapply (law_unique d law HL); [apply B'; auto|]. eapply (law_ext d law HL); [|apply B; auto]. intros x Lx Nx. cbv beta.
  destruct (A x c Lx Nx U) as (p & E & <-). destruct (A' x c Lx Nx U) as (p' & E' & <-). congruence.
Qed.

(** ** a law with the symmetries: one of the six unit vectors along the axes *)
Definition axis_law (F : vec -> R) (a : R) : Prop :=
  a = (F [1; 0; 0] + F [-1; 0; 0] + F [0; 1; 0] + F [0; -1; 0] + F [0; 0; 1] + F [0; 0; -1]) / 6.

Lemma axis_law_symmetric : symmetric_law 3 axis_law.
Proof.
  unfold axis_law. split; [field|]. split; [intros F G a b s t -> ->; field|]. split; [intros; congruence|].
  assert (N : forall a b c : R, a <> 0 \/ b <> 0 \/ c <> 0 -> [a; b; c] <> zeros 3) by (intros a b c H E; injection E; intros; intuition).
  split. { intros F G a H ->. rewrite !H by (try reflexivity; apply N; lra). reflexivity. }
  split. { intros F a i Hi ->. destruct i as [|[|[|i]]]; try lia; unfold negate_at; cbn; rewrite ?Ropp_0, ?Ropp_involutive; replace (- -1) with 1 by ring; replace (- (1)) with (-1) by ring; field. }
  split. { intros F a i j Hi Hj ->. destruct i as [|[|[|i]]]; try lia; destruct j as [|[|[|j]]]; try lia; unfold exchange; cbn; field. }
  split; intros; eexists; reflexivity.
Qed.
Definition axis_law2 (F : vec -> R) (a : R) : Prop := a = (F [1; 0] + F [-1; 0] + F [0; 1] + F [0; -1]) / 4.
Lemma axis_law2_symmetric : symmetric_law 2 axis_law2.
Proof.
  unfold axis_law2. split; [field|]. split; [intros F G a b s t -> ->; field|]. split; [intros; congruence|].
  assert (N : forall a b : R, a <> 0 \/ b <> 0 -> [a; b] <> zeros 2) by (intros a b H E; injection E; intros; intuition).
  split. { intros F G a H ->. rewrite !H by (try reflexivity; apply N; lra). reflexivity. }
  split. { intros F a i Hi ->. destruct i as [|[|i]]; try lia; unfold negate_at; cbn; rewrite ?Ropp_0, ?Ropp_involutive; replace (- -1) with 1 by ring; replace (- (1)) with (-1) by ring; field. }
  split. { intros F a i j Hi Hj ->. destruct i as [|[|i]]; try lia; destruct j as [|[|j]]; try lia; unfold exchange; cbn; field. }
  split; intros; eexists; reflexivity.
Qed.
Lemma ball_case : exists e cy law law2, ell_init [3; 2; 1] (Some [[0; -1; 0]; [1; 0; 0]; [0; 0; 1]]) (Some [1; 2; 3]) = Ok e /\ orthogonal 3 [[0; -1; 0]; [1; 0; 0]; [0; 0; 1]] /\
  cyl_init 4 2 None (Some [1; 2; 3]) = Ok cy /\ symmetric_law 3 law /\ symmetric_law 2 law2.
Proof.
  assert (HQ : orthogonal 3 [[0; -1; 0]; [1; 0; 0]; [0; 0; 1]]). { split; [split; [reflexivity|repeat constructor]|]. split; cbn; list_eq; ring. }
  destruct (cyl_w_total 4 2 None (Some [1; 2; 3])) as [cy Hc]; [lra|lra|apply is_mat_eye|reflexivity|].
  eexists. exists cy, axis_law, axis_law2. split; [apply ell_init_good; [intros [|[|[|k]]] H; cbn in *; try lra; lia|apply HQ|reflexivity]|]. split; [exact HQ|]. split; [exact Hc|]. split; [apply axis_law_symmetric|apply axis_law2_symmetric].
Qed.
