(** C46, C52: the moment relaxations of polyhedra and cylinders. *)
From Verif Require Import Base.Vec Base.VecFacts Spec.Basic Spec.Objects Spec.Realizable Spec.Moments Spec.Shapes Spec.ShapeObjects Spec.PolySpec
  Model.Util Model.Constraint Model.Inertial Model.Moment Model.Polydd Model.Poly Model.Box Model.Cylinder Model.Ellipsoid Model.Realize
  Proofs.Coord Proofs.LinAlg Proofs.UtilP Proofs.InertialP Proofs.BoxP Proofs.CylP Proofs.PolynomialP Proofs.BasisP Proofs.MomentP
  Proofs.Decomp Proofs.PimP.

Lemma pim_of_decomp s J : pms_nonneg s -> decomp 4 (map pim_z s) J -> pim_of s J.
Proof.
  intros Hn (HJ & _ & HE). split; [exact HJ|]. intros i j Hi Hj. rewrite HE, map_map by auto. f_equal. apply map_ext_in. intros mp Hm.
  unfold pim_z. rewrite !nth_vscale. pose proof (sqrt_sqrt (fst mp) (Hn mp Hm)) as E. rewrite <- E at 3. ring.
Qed.

(** ** the first rows of the moment matrix *)
Lemma nth_firstn_lt {A} (l : list A) k i d : (i < k)%nat -> nth i (firstn k l) d = nth i l d.
Proof. revert l i; induction k as [|k IH]; intros [|a l] [|i] H; cbn; auto; try lia. apply IH. lia. Qed.
Lemma bidx_first d : (0 < d)%nat -> bidx 3 d 0 = repeat 0%nat 3 /\ forall i, (i < 3)%nat -> bidx 3 d (1 + i) = unit_idx 3 i.
Proof.
  intro Hd. pose proof (basis_first 3 d Hd) as E. split.
  - rewrite <- (nth_firstn_lt _ 4) by lia. rewrite E. reflexivity.
  - intros i Hi. rewrite <- (nth_firstn_lt _ 4) by lia. rewrite E. destruct i as [|[|[|i]]]; try lia; reflexivity.
Qed.
Lemma basis_four d : (0 < d)%nat -> (4 <= length (basis_list 3 d))%nat.
Proof.
  intro Hd. pose proof (f_equal (@length _) (basis_first 3 d Hd)) as E. rewrite firstn_length in E. cbn [length map seq] in E. lia.
Qed.
Lemma pms_measure s : pms_ok s -> pms_nonneg s -> measure_ok 3 s.
Proof. intros Ho Hn wx Hw. auto. Qed.
Lemma moments_match_measure s J d : (0 < d)%nat -> pms_ok s -> pim_of s J -> moments_match J (moment_matrix s 3 d).
Proof.
  intros Hd Ho (_ & HE). destruct (bidx_first d Hd) as (B0 & B1). pose proof (basis_four d Hd) as L.
  assert (M1 : forall mp i, In mp s -> (i < 3)%nat -> mono (snd mp) (unit_idx 3 i) = nth i (snd mp ++ [1]) 0).
  { intros mp i Hm Hi. rewrite app_nth1 by (rewrite (Ho mp Hm); auto). rewrite <- (Ho mp Hm). apply mono_unit. rewrite (Ho mp Hm). exact Hi. }
  assert (M0 : forall mp : R * vec, mono (snd mp) (repeat 0%nat 3) = 1) by (intro mp; apply mono_zero).
  assert (L3 : forall mp, In mp s -> nth 3 (snd mp ++ [1]) 0 = 1) by (intros mp Hm; rewrite app_nth2; rewrite (Ho mp Hm); auto).
  unfold moments_match, moment_matrix, integral. split; [|split].
  - rewrite HE, entry_gram by lia. unfold integral. f_equal. apply map_ext_in. intros mp Hm. rewrite B0, M0, L3 by auto. ring.
  - intros i Hi. rewrite HE, entry_gram by lia. unfold integral. f_equal. apply map_ext_in. intros mp Hm. rewrite B0, M0, B1, M1, L3 by auto. ring.
  - intros i j Hi Hj. rewrite HE, entry_gram by lia. unfold integral. f_equal. apply map_ext_in. intros mp Hm. rewrite !B1, !M1 by auto. ring.
Qed.
Lemma gram_nil g B : gram [] g B = zeros2 (length B) (length B).
Proof.
  unfold gram, zeros2, integral. cbn [map lsum fold_right].
  assert (E : forall (A : list idx) (C : list idx), map (fun _ => map (fun _ => 0) C) A = repeat (zeros (length C)) (length A)).
  { induction A as [|a A IH]; intro C; [reflexivity|]. cbn. f_equal; [|apply IH]. unfold zeros. induction C; cbn; congruence. }
  apply E.
Qed.

(** the constraints are satisfied by the moments of a point-mass system on which every polynomial is non-negative *)
Definition poly_small (d : nat) (p : pol) : Prop := pol_ok 3 p /\ exists deg, pol_degree p = Ok deg /\ (deg <= 2 * d)%nat.
Lemma sdp_for_ok J polys d : (0 < d)%nat -> (forall p, In p polys -> poly_small d p) ->
  exists P, sdp_for J polys d = Ok P /\
  forall s, pms_ok s -> pms_nonneg s -> pim_of s J -> (forall p mp, In p polys -> In mp s -> 0 <= peval p (snd mp)) -> P.
Proof.
  intros Hd Hp. destruct (mm_init_ok 3 d Hd) as (m & E & En & Ed & Er & Ei). assert (Hm : is_mm 3 d m) by (split; auto).
  unfold sdp_for. rewrite E. cbn [bind].
  assert (Z : zeros2 (mm_r m) (mm_r m) = moment_matrix [] 3 d) by (rewrite Er; symmetry; apply gram_nil).
  assert (M0 : measure_ok 3 []) by (intros wx []).
  destruct (moment_matrix_constraints 3 d m [] Hm M0) as (cs & Ec & _).
  destruct (localizing_constraints_hold 3 d m [] polys Hm M0) as (ls & El & _).
  { intros p Hin. destruct (Hp p Hin) as (H1 & H2). split; [exact H1|]. split; [exact H2|]. intros wx []. }
  rewrite Z, Ec, El. cbn [bind]. pose proof (basis_four d Hd). assert (F : Nat.ltb (mm_r m) 4 = false) by (apply Nat.ltb_ge; lia). rewrite F.
  eexists. split; [reflexivity|]. intros s Ho Hn HJ Hs. pose proof (pms_measure s Ho Hn) as Hmu. exists (moment_matrix s 3 d).
  split; [apply PSD_var; [rewrite Er; lia|now apply (moment_matrix_psd 3 d)]|]. split; [now apply (moment_matrix_constraints 3 d)|].
  split; [apply (localizing_constraints_hold 3 d); auto|now apply moments_match_measure].
  intros p Hin. destruct (Hp p Hin) as (H1 & H2). split; [exact H1|]. split; [exact H2|]. intros wx Hw. auto.
Qed.
Lemma degree_bound p k : p <> [] -> (forall kv, In kv p -> (degree_of (fst kv) <= k)%nat) -> exists deg, pol_degree p = Ok deg /\ (deg <= k)%nat.
Proof.
  intros Hp Hk. destruct (degree_total p Hp) as (deg & E). exists deg. split; [exact E|]. apply degree_max in E as ((kv & Hin & <-) & _). auto.
Qed.

(** ** polyhedra *)
Lemma affine_in a b kv : In kv (pol_affine a b 0) -> (degree_of (fst kv) <= 1)%nat.
Proof.
  unfold pol_affine. rewrite affine_table. intro H. rewrite pol_init_filter in H by apply affine_table_ok. apply filter_In in H as (H & _).
  destruct H as [<-|H]; cbn [fst].
  - assert (Z : forall k, degree_of (repeat 0%nat k) = 0%nat) by (induction k; cbn; auto). rewrite Z. lia.
  - apply in_map_iff in H as (i & <- & Hi). cbn [fst]. apply in_seq in Hi. destruct Hi as (_ & Hi). cbn in Hi. clear - Hi.
    revert i Hi; generalize (length a). induction n as [|n IH]; intros i Hi; [lia|]. destruct i as [|i].
    + rewrite unit_0. cbn. assert (Z : forall k, degree_of (repeat 0%nat k) = 0%nat) by (induction k; cbn; auto). rewrite Z. lia.
    + rewrite unit_S. cbn. apply IH. lia.
Qed.
Lemma affine_nonempty a b : (exists i, (i < length a)%nat /\ nth i a 0 <> 0) \/ b <> 0 -> pol_affine a b 0 <> [].
Proof.
  intros H. unfold pol_affine. rewrite affine_table, pol_init_filter by apply affine_table_ok. intro E.
  assert (F : forall kv, In kv ((repeat 0%nat (length a), b) :: map (fun i => (unit_idx (length a) i, - nth i a 0)) (seq 0 (length a))) -> snd kv = 0).
  { intros kv Hk. destruct (isclose 0 0 (snd kv) 0) eqn:Ei; [now apply isclose_zero|]. assert (In kv []); [|easy]. rewrite <- E. apply filter_In. rewrite Ei. auto. }
  destruct H as [(i & Hi & N)|N].
  - apply N. specialize (F (unit_idx (length a) i, - nth i a 0)). cbn [snd] in F. rewrite <- (Ropp_involutive (nth i a 0)), F; [ring|].
    right. apply in_map_iff. exists i. split; [reflexivity|]. apply in_seq. lia.
  - apply N. apply (F (repeat 0%nat (length a), b)). now left.
Qed.
Lemma in_map2 {A B C} (f : A -> B -> C) l1 l2 c da db : In c (map2 f l1 l2) -> exists i, (i < length l1)%nat /\ (i < length l2)%nat /\ c = f (nth i l1 da) (nth i l2 db).
Proof.
  revert l2; induction l1 as [|a l1 IH]; intros [|b l2] H; cbn in H; try easy. destruct H as [<-|H].
  - exists 0%nat. cbn. split; [lia|]. split; [lia|reflexivity].
  - apply IH in H as (i & H1 & H2 & ->). exists (S i). cbn. split; [lia|]. split; [lia|reflexivity].
Qed.
Lemma poly_sdp p v J eps d : p_dim p = 3%nat -> (forall a, In a (p_A p) -> length a = 3%nat) -> faces_ok (p_A p) (p_b p) ->
  pv_value v J -> is_mat 4 4 J -> 0 <= eps -> (0 < d)%nat ->
  exists P, poly_moment_sdp_constraints p v eps d = Ok P /\ (realizable_J (halfspaces (p_A p) (p_b p)) J -> P).
Proof.
  intros Hdim HA Hf Hv HJ Heps Hd. unfold poly_moment_sdp_constraints. rewrite Hdim, (pv_ok v J eps Hv HJ Heps). cbn [Nat.eqb assert_ bind fst].
  destruct (sdp_for_ok J (p_polys p) d Hd) as (P & E & H).
  - intros q Hq. unfold p_polys in Hq. apply (in_map2 _ _ _ _ [] 0) in Hq as (i & H1 & H2 & ->).
    assert (La : length (nth i (p_A p) []) = 3%nat) by (apply HA, nth_In, H1). split.
    + rewrite <- La. apply affine_ok.
    + destruct (degree_bound (pol_affine (nth i (p_A p) []) (nth i (p_b p) 0) 0) 1) as (deg & E & B).
      * apply affine_nonempty. rewrite La. auto.
      * intros kv Hk. eapply affine_in; eauto.
      * exists deg. split; [exact E|lia].
  - exists P. split; [exact E|]. intros (s & Ho & Hn & Hin & HP). apply (H s); auto. intros q mp Hq Hm.
    unfold p_polys in Hq. apply (in_map2 _ _ _ _ [] 0) in Hq as (i & H1 & H2 & ->).
    assert (La : length (nth i (p_A p) []) = 3%nat) by (apply HA, nth_In, H1).
    rewrite affine_peval by (rewrite La; apply Ho, Hm). specialize (Hin mp Hm i H1). lra.
Qed.

(** ** boxes *)
Lemma box_faces h c r b : box_init h c r = Ok b -> orthogonal 3 (pose_rot 3 r) ->
  p_dim (b_poly b) = 3%nat /\ (forall a, In a (p_A (b_poly b)) -> length a = 3%nat) /\ faces_ok (p_A (b_poly b)) (p_b (b_poly b)) /\
  length (p_A (b_poly b)) = length (p_b (b_poly b)).
Proof.
  intros Hb HQ. apply box_init_inv in Hb as (H1 & H2 & H3 & H4 & H5 & H6 & H7 & H8 & H9 & H10 & H11). rewrite <- H5 in HQ.
  change (p_A (b_poly b)) with (b_A b). change (p_b (b_poly b)) with (b_b b). split; [|split; [|split]].
  - unfold p_dim, sf_dim. unfold b_vertices, p_vertices in H10. unfold sf_bounded in H11.
    destruct (sf_rays (p_span (b_poly b))); [discriminate|]. destruct (sf_vertices (p_span (b_poly b))) as [V|]; [|discriminate].
    rewrite H10. assert (RL : forall v, In v (map (move (b_rot b) (b_center b)) (box_vertices h)) -> length v = 3%nat).
    { intros v Hv. apply in_map_iff in Hv as (u & <- & Hu). apply (move_len 3); auto. }
    unfold ncols. destruct (map (move (b_rot b) (b_center b)) (box_vertices h)) as [|v0 V'] eqn:EV.
    + destruct (len3_inv _ H1) as (x & y & z & ->). discriminate.
    + cbn. apply RL. now left.
  - assert (MA : is_mat 6 3 (b_A b)) by (rewrite H8; apply (is_mat_mul 6 3 3); [split; [reflexivity|repeat constructor]|apply is_mat_transpose; auto|]; lia).
    intros a Ha. eapply is_mat_in; eauto.
  - intros i Hi. left. rewrite H8 in Hi |- *. destruct HQ as (MQ & Q1 & Q2). clear - MQ Q1 Hi.
    set (Q := b_rot b) in *. clearbody Q. destruct_vecs. unfold eye in Q1. cbn in Q1. injection Q1 as E00 E01 E02 E10 E11 E12 E20 E21 E22.
    assert (G : forall a b c, a * a + (b * b + (c * c + 0)) = 1 -> a <> 0 \/ b <> 0 \/ c <> 0).
    { intros a a' c E. destruct (Req_dec a 0) as [->|]; [|auto]. destruct (Req_dec a' 0) as [->|]; [|auto]. destruct (Req_dec c 0) as [->|]; [lra|auto]. }
    assert (G' : forall k (u : vec), length u = 3%nat -> (nth 0 u 0 <> 0 \/ nth 1 u 0 <> 0 \/ nth 2 u 0 <> 0) -> k <> 0 ->
       exists j, (j < 3)%nat /\ nth j (vscale k u) 0 <> 0).
    { intros k u _ [N|[N|N]] Nk; [exists 0%nat|exists 1%nat|exists 2%nat]; (split; [lia|]); rewrite nth_vscale; now apply Rmult_integral_contrapositive. }
    assert (G2 : forall (w w' : vec), w = w' -> (exists j, (j < 3)%nat /\ nth j w' 0 <> 0) -> exists j, (j < 3)%nat /\ nth j w 0 <> 0) by (intros w w' ->; auto).
    destruct i as [|[|[|[|[|[|i]]]]]]; cbn [nth]; [ | | | | | |cbn in Hi; lia];
      [eapply G2; [|apply (G' 1 [x; x2; x5])]|eapply G2; [|apply (G' (-1) [x; x2; x5])]|eapply G2; [|apply (G' 1 [x0; x3; x6])]
      |eapply G2; [|apply (G' (-1) [x0; x3; x6])]|eapply G2; [|apply (G' 1 [x1; x4; x7])]|eapply G2; [|apply (G' (-1) [x1; x4; x7])]];
      try reflexivity; try lra; try (apply G; cbn; lra). all: cbn; list_eq; ring.
  - rewrite H9, H8. rewrite vadd_length; rewrite ?mat_vec_length, mat_mul_length; reflexivity.
Qed.

Lemma halfspaces_box h c r b x : box_init h c r = Ok b -> orthogonal 3 (pose_rot 3 r) -> length x = 3%nat ->
  (halfspaces (p_A (b_poly b)) (p_b (b_poly b)) x <-> box_set h (pose_rot 3 r) (pose_tr 3 c) x).
Proof.
  intros Hb HQ Hx. destruct (box_faces h c r b Hb HQ) as (_ & _ & _ & L).
  assert (Hb' : is_box b) by (do 3 eexists; exact Hb). pose proof (box_init_inv _ _ _ _ Hb) as (_ & _ & E1 & E2 & E3 & _).
  rewrite <- E1, <- E2, <- E3. rewrite <- E3 in HQ. rewrite <- (box_contains_iff b x Hb' HQ Hx). unfold box_contains. rewrite poly_contains_iff by exact L.
  rewrite (map_ext _ (fun b => b) (fun b => Rplus_0_r b)), map_id. reflexivity.
Qed.
Lemma realizable_mono (K K' : vec -> Prop) J : (forall p, length p = 3%nat -> K p -> K' p) -> realizable_J K J -> realizable_J K' J.
Proof. intros H (s & Ho & Hn & Hi & HJ). exists s. split; [auto|]. split; [auto|]. split; [|auto]. intros mp Hm. apply H; auto. Qed.
Lemma box_sdp h c r b v J eps d : box_init h c r = Ok b -> orthogonal 3 (pose_rot 3 r) -> pv_value v J -> is_mat 4 4 J -> 0 <= eps -> (0 < d)%nat ->
  exists P, poly_moment_sdp_constraints (b_poly b) v eps d = Ok P /\ (realizable_J (box_set h (pose_rot 3 r) (pose_tr 3 c)) J -> P).
Proof.
  intros Hb HQ Hv HJ Heps Hd. destruct (box_faces h c r b Hb HQ) as (H1 & H2 & H3 & _).
  destruct (poly_sdp (b_poly b) v J eps d H1 H2 H3 Hv HJ Heps Hd) as (P & E & H). exists P. split; [exact E|]. intro HR. apply H.
  eapply realizable_mono; [|exact HR]. intros p Lp Hp. now apply (halfspaces_box h c r b).
Qed.

(** ** coordinates of the local frame *)
Definition to_local (Q : mat) (c p : vec) : vec := mat_vec (transpose Q) (vsub p c).
Definition pms_local (Q : mat) (c : vec) (s : pms) : pms := map (fun mp => (fst mp, to_local Q c (snd mp))) s.
Definition inv_T (Q : mat) (c : vec) : mat := map2 (fun r t => r ++ [t]) (transpose Q) (mat_vec (mneg (transpose Q)) c) ++ [[0; 0; 0; 1]].
Lemma transform_inv_ok Q c : is_mat 3 3 Q -> length c = 3%nat -> transform_matrix_inv (Some Q) (Some c) 3 = Ok (inv_T Q c) /\ is_mat 4 4 (inv_T Q c).
Proof.
  intros HQ Hc. split.
  - unfold transform_matrix_inv. rewrite (clean_transform_good (Some Q) (Some c)) by auto. cbn [bind pose_rot pose_tr fst snd].
    unfold transform_matrix. pose proof (is_mat_transpose 3 3 Q HQ ltac:(lia)) as HT.
    rewrite (clean_transform_good (Some (transpose Q))); [reflexivity|exact HT|]. cbn [pose_tr]. rewrite mat_vec_length.
    unfold mneg. rewrite map_length. apply HT.
  - destruct_vecs. apply is_mat44.
Qed.
Lemma inv_T_point Q c p w : is_mat 3 3 Q -> length c = 3%nat -> length p = 3%nat ->
  mat_vec (inv_T Q c) (p ++ [w]) = mat_vec (transpose Q) (vsub p (vscale w c)) ++ [w].
Proof. intros HQ Hc Hp. destruct_vecs. cbn. list_eq; ring. Qed.
Lemma to_local_length Q c p : is_mat 3 3 Q -> length (to_local Q c p) = 3%nat.
Proof. intro HQ. unfold to_local. rewrite mat_vec_length. apply (is_mat_transpose 3 3); auto; lia. Qed.
Lemma pms_local_pim Q c s J : is_mat 3 3 Q -> length c = 3%nat -> pms_ok s -> pms_nonneg s -> pim_of s J ->
  pms_ok (pms_local Q c s) /\ pms_nonneg (pms_local Q c s) /\
  pim_of (pms_local Q c s) (mat_mul (mat_mul (inv_T Q c) J) (transpose (inv_T Q c))).
Proof.
  intros HQ Hc Ho Hn HJ. split; [|split].
  - intros mp Hm. apply in_map_iff in Hm as (mp' & <- & Hm). apply to_local_length, HQ.
  - intros mp Hm. apply in_map_iff in Hm as (mp' & <- & Hm). cbn. auto.
  - apply pim_of_decomp; [intros mp Hm; apply in_map_iff in Hm as (mp' & <- & Hm); cbn; auto|].
    replace (map pim_z (pms_local Q c s)) with (map (mat_vec (inv_T Q c)) (map pim_z s)).
    + apply (decomp_congr 4 4); [lia|lia|now apply transform_inv_ok|now apply pim_decomp].
    + unfold pms_local. rewrite !map_map. apply map_ext_in. intros mp Hm. unfold pim_z. cbn [fst snd].
      rewrite mat_vec_vscale. f_equal. rewrite inv_T_point by (auto; apply Ho, Hm). now rewrite vscale_1.
Qed.
Lemma cyl_local L r Q c p : orthogonal 3 Q -> length c = 3%nat -> cyl_set L r Q c p ->
  exists x y z, to_local Q c p = [x; y; z] /\ x * x + y * y <= r * r /\ Rabs z <= L / 2.
Proof.
  intros HQ Hc (x & y & z & H1 & H2 & E). exists x, y, z. split; [|auto]. symmetry. unfold to_local.
  refine (proj1 (move_inv 3 Q c [x; y; z] p HQ Hc eq_refl _ _) E); [rewrite E; apply move_len; auto; apply HQ|lia].
Qed.

(** ** cylinders *)
Lemma cyl_polys_small c d : (0 < d)%nat -> forall p, In p (cyl_poly0s c) -> poly_small d p.
Proof.
  intros Hd p Hp. unfold cyl_poly0s in Hp.
  assert (NI : isclose 0 0 1 0 = false) by (apply not_true_is_false; rewrite isclose_zero; lra).
  assert (NJ : isclose 0 0 (-1) 0 = false) by (apply not_true_is_false; rewrite isclose_zero; lra).
  assert (G : forall tbl k v, In (k, v) tbl -> v <> 0 -> NoDup (map fst tbl) -> (forall kv, In kv tbl -> length (fst kv) = 3%nat /\ (degree_of (fst kv) <= 2)%nat) ->
    poly_small d (pol_init tbl 0)).
  { intros tbl k v Hin Hv ND Hb. split; [apply pol_init_ok; intros; now apply Hb|].
    rewrite pol_init_filter by exact ND. destruct (degree_bound (filter (fun kv => negb (isclose 0 0 (snd kv) 0)) tbl) 2) as (deg & E & B).
    - intro E. assert (F : In (k, v) []); [|easy]. rewrite <- E. apply filter_In. split; [exact Hin|]. cbn [snd].
      destruct (isclose 0 0 v 0) eqn:Ei; [apply isclose_zero in Ei; contradiction|reflexivity].
    - intros kv Hk. apply filter_In in Hk as (Hk & _). now apply Hb.
    - exists deg. split; [exact E|lia]. }
  assert (ND2 : NoDup [[0; 0; 1]%nat; [0; 0; 0]%nat]) by (repeat constructor; cbn; intuition discriminate).
  assert (ND3 : NoDup [[2; 0; 0]%nat; [0; 2; 0]%nat; [0; 0; 0]%nat]) by (repeat constructor; cbn; intuition discriminate).
  destruct Hp as [<-|[<-|[<-|[]]]].
  - apply (G _ [0; 0; 1]%nat 1); [now left|lra|exact ND2|]. intros kv [<-|[<-|[]]]; cbn; lia.
  - apply (G _ [0; 0; 1]%nat (-1)); [now left|lra|exact ND2|]. intros kv [<-|[<-|[]]]; cbn; lia.
  - apply (G _ [2; 0; 0]%nat (-1)); [now left|lra|exact ND3|]. intros kv [<-|[<-|[<-|[]]]]; cbn; lia.
Qed.
Lemma cyl_polys_nonneg c x y z p : x * x + y * y <= c_radius c * c_radius c -> Rabs z <= c_length c / 2 -> In p (cyl_poly0s c) -> 0 <= peval p [x; y; z].
Proof.
  intros Hr Hz Hp. unfold cyl_poly0s in Hp.
  assert (ND2 : NoDup [[0; 0; 1]%nat; [0; 0; 0]%nat]) by (repeat constructor; cbn; intuition discriminate).
  assert (ND3 : NoDup [[2; 0; 0]%nat; [0; 2; 0]%nat; [0; 0; 0]%nat]) by (repeat constructor; cbn; intuition discriminate).
  apply abs_le_inv in Hz. destruct Hp as [<-|[<-|[<-|[]]]]; rewrite pol_init_peval by assumption; unfold peval; cbn; nra.
Qed.
Lemma cyl_sdp L R ro co c v J eps d : cyl_init L R ro co = Ok c -> orthogonal 3 (pose_rot 3 ro) -> pv_value v J -> is_mat 4 4 J -> 0 <= eps -> (0 < d)%nat ->
  exists P, cyl_moment_sdp_constraints c v eps d = Ok P /\ (realizable_J (cyl_set L R (pose_rot 3 ro) (pose_tr 3 co)) J -> P).
Proof.
  intros Hc HQ Hv HJ Heps Hd. apply cyl_init_inv in Hc as (_ & _ & MQ & Lc & ->). unfold cyl_moment_sdp_constraints.
  rewrite (pv_ok v J eps Hv HJ Heps). cbn [bind fst c_rot c_center cyl_of]. destruct (transform_inv_ok _ _ MQ Lc) as (ET & MT). rewrite ET. cbn [bind].
  set (c := cyl_of L R (pose_rot 3 ro) (pose_tr 3 co)).
  destruct (sdp_for_ok (mat_mul (mat_mul (inv_T (pose_rot 3 ro) (pose_tr 3 co)) J) (transpose (inv_T (pose_rot 3 ro) (pose_tr 3 co)))) (cyl_poly0s c) d Hd (cyl_polys_small c d Hd)) as (P & E & H).
  exists P. split; [exact E|]. intros (s & Ho & Hn & Hin & HP). destruct (pms_local_pim _ _ s J MQ Lc Ho Hn HP) as (L1 & L2 & L3).
  apply (H _ L1 L2 L3). intros p mp Hp Hm. apply in_map_iff in Hm as (mp' & <- & Hm). cbn [snd].
  destruct (cyl_local _ _ _ _ _ HQ Lc (Hin mp' Hm)) as (x & y & z & -> & H1 & H2). now apply (cyl_polys_nonneg c).
Qed.

(** ** C52: eps has no effect in the moment relaxations *)
Lemma point_pim m p : length p = 3%nat -> exists J, pim_of [(m, p)] J /\ entry J 3 3 = m.
Proof.
  intro Lp. exists (mscale m (outer (p ++ [1]) (p ++ [1]))). destruct_vecs. split.
  - split; [apply is_mat44|]. intros i j Hi Hj. destruct i as [|[|[|[|i]]]], j as [|[|[|[|j]]]]; cbn; try lia; ring.
  - cbn. ring.
Qed.
Lemma small_not_psd J eps : is_mat 4 4 J -> entry J 3 3 < eps -> ~ PSD 4 (msub J (mscale eps (eye 4))).
Proof.
  intros HJ H (_ & _ & P). specialize (P [0; 0; 0; 1] eq_refl). destruct_vecs. unfold quad in P. cbn in P, H. lra.
Qed.
Lemma small_realizable (K : vec -> Prop) p eps : K p -> length p = 3%nat -> 0 < eps ->
  exists J, realizable_J K J /\ is_mat 4 4 J /\ 0 < entry J 3 3 /\ ~ PSD 4 (msub J (mscale eps (eye 4))).
Proof.
  intros Kp Lp He. destruct (point_pim (eps / 2) p Lp) as (J & HJ & E). exists J. pose proof HJ as (MJ & _). split; [|split; [exact MJ|split; [lra|]]].
  - exists [(eps / 2, p)]. split; [intros mp [<-|[]]; exact Lp|]. split; [intros mp [<-|[]]; cbn; lra|]. split; [intros mp [<-|[]]; exact Kp|exact HJ].
  - apply small_not_psd; auto. lra.
Qed.
Lemma box_sdp_eps h c r b eps d : box_init h c r = Ok b -> orthogonal 3 (pose_rot 3 r) -> 0 < eps -> (0 < d)%nat ->
  exists J P, is_mat 4 4 J /\ poly_moment_sdp_constraints (b_poly b) (PVmat J) eps d = Ok P /\ P /\ 0 < entry J 3 3 /\ ~ PSD 4 (msub J (mscale eps (eye 4))).
Proof.
  intros Hb HQ He Hd. pose proof (box_init_inv _ _ _ _ Hb) as (Lh & Ph & _ & E2 & E3 & MQ & Lc & _). rewrite E2, E3 in *.
  destruct (small_realizable (box_set h (pose_rot 3 r) (pose_tr 3 c)) (pose_tr 3 c) eps) as (J & HR & MJ & Pm & N); auto.
  - exists (zeros 3). split; [split; [auto|]|].
    + intros i Hi. rewrite nth_zeros, Rabs_R0. apply Ph. congruence.
    + generalize (pose_rot 3 r) (pose_tr 3 c) MQ Lc. intros Q t MQ' Lt. destruct_vecs. cbn. list_eq; ring.
  - destruct (box_sdp h c r b (PVmat J) J eps d Hb HQ eq_refl MJ ltac:(lra) Hd) as (P & E & H). exists J, P. auto.
Qed.
Lemma poly_sdp_eps p x eps d : p_dim p = 3%nat -> (forall a, In a (p_A p) -> length a = 3%nat) -> faces_ok (p_A p) (p_b p) ->
  length x = 3%nat -> halfspaces (p_A p) (p_b p) x -> 0 < eps -> (0 < d)%nat ->
  exists J P, is_mat 4 4 J /\ poly_moment_sdp_constraints p (PVmat J) eps d = Ok P /\ P /\ 0 < entry J 3 3 /\ ~ PSD 4 (msub J (mscale eps (eye 4))).
Proof.
  intros H1 H2 H3 Lx Hx He Hd. destruct (small_realizable _ x eps Hx Lx He) as (J & HR & MJ & Pm & N).
  destruct (poly_sdp p (PVmat J) J eps d H1 H2 H3 eq_refl MJ ltac:(lra) Hd) as (P & E & H). exists J, P. auto.
Qed.
Lemma cyl_sdp_eps L R ro co c eps d : cyl_init L R ro co = Ok c -> orthogonal 3 (pose_rot 3 ro) -> 0 < eps -> (0 < d)%nat ->
  exists J P, is_mat 4 4 J /\ cyl_moment_sdp_constraints c (PVmat J) eps d = Ok P /\ P /\ 0 < entry J 3 3 /\ ~ PSD 4 (msub J (mscale eps (eye 4))).
Proof.
  intros Hc HQ He Hd. pose proof (cyl_init_inv _ _ _ _ _ Hc) as (PL & PR & MQ & Lc & _).
  destruct (small_realizable (cyl_set L R (pose_rot 3 ro) (pose_tr 3 co)) (pose_tr 3 co) eps) as (J & HR & MJ & Pm & N); auto.
  - exists 0, 0, 0. split; [nra|]. split; [rewrite Rabs_R0; lra|].
    generalize (pose_rot 3 ro) (pose_tr 3 co) MQ Lc. intros Q t MQ' Lt. destruct_vecs. cbn. list_eq; ring.
  - destruct (cyl_sdp L R ro co c (PVmat J) J eps d Hc HQ eq_refl MJ ltac:(lra) Hd) as (P & E & H). exists J, P. auto.
Qed.
