(** C46: what the moment relaxations imply about the mass, the first moments and the second moments. *)
From Verif Require Import Base.Vec Base.VecFacts Spec.Basic Spec.Objects Spec.Realizable Spec.Moments Spec.Shapes Spec.ShapeObjects Spec.PolySpec
  Model.Util Model.Constraint Model.Inertial Model.Moment Model.Polydd Model.Poly Model.Box Model.Cylinder Model.Ellipsoid Model.Realize
  Proofs.Coord Proofs.LinAlg Proofs.UtilP Proofs.InertialP Proofs.Hull Proofs.BoxP Proofs.CylP Proofs.PolynomialP Proofs.BasisP Proofs.MomentP
  Proofs.Decomp Proofs.PimP Proofs.SdpP Proofs.InertialT Proofs.VertexP Proofs.RealizeP Proofs.RealizeE Proofs.CylCustom.

Lemma mapM_all {A B} (f : A -> res B) l bs a : mapM f l = Ok bs -> In a l -> exists b, f a = Ok b /\ In b bs.
Proof.
  revert bs; induction l as [|x l IH]; intros bs E H; [easy|]. cbn in E. apply bind_inv in E as (b & E1 & E). apply bind_inv in E as (bs' & E2 & E). injection E as <-.
  destruct H as [->|H]; [exists b; split; [exact E1|now left]|]. destruct (IH _ E2 H) as (b' & F1 & F2). exists b'. split; [exact F1|now right].
Qed.
Lemma mapM_nth {A B} (f : A -> res B) l bs i da db : mapM f l = Ok bs -> (i < length l)%nat -> f (nth i l da) = Ok (nth i bs db).
Proof.
  revert bs i; induction l as [|x l IH]; intros bs i E Hi; cbn in Hi; [lia|]. cbn in E. apply bind_inv in E as (b & E1 & E). apply bind_inv in E as (bs' & E2 & E). injection E as <-.
  destruct i as [|i]; cbn; [exact E1|]. apply IH; auto; lia.
Qed.

Lemma cp_psd_var_diag n X i : cp_psd_var n X -> (i < n)%nat -> 0 <= entry X i i.
Proof.
  intros (HM & HT & HP) Hi. apply (fpsd_diag n (entry X) i); [|exact Hi]. apply fpsd_of_PSD. split; [exact HM|]. split; [|exact HP].
  intros a b Ha Hb. rewrite <- HT at 1. apply entry_transpose. rewrite (is_mat_ncols n n); auto; lia.
Qed.
Lemma iadd_zero_r n (a : idx) : length a = n -> map2 Nat.add a (repeat 0%nat n) = a.
Proof. revert n; induction a as [|x a IH]; intros [|n] H; cbn in *; try easy. f_equal; [lia|]. apply IH. lia. Qed.
(** the value of a table of coefficients under a linear functional on monomials *)
Definition functional (ell : idx -> R) (p : pol) : R := lsum (map (fun kv => snd kv * ell (fst kv)) p).
Lemma functional_init ell c : NoDup (map fst c) -> functional ell (pol_init c 0) = functional ell c.
Proof.
  intro H. rewrite pol_init_filter by exact H. clear H. unfold functional. induction c as [|[k v] c IH]; [reflexivity|]. cbn [filter snd].
  destruct (isclose 0 0 v 0) eqn:E; cbn [negb map lsum fold_right snd fst] in *.
  - change (fold_right Rplus 0) with lsum in *. rewrite IH. apply isclose_zero in E as ->. lra.
  - change (fold_right Rplus 0) with lsum in *. rewrite IH. reflexivity.
Qed.
Lemma localize_zero p : pol_ok 3 p -> exists q, pol_localize p (Index (repeat 0%nat 3)) = Ok q /\ forall ell, functional ell q = functional ell p.
Proof.
  intros Hp. rewrite (localize_unfold 3) by (auto; apply Hp). pose proof (shift_ok 3 p (repeat 0%nat 3) Hp eq_refl) as S.
  eexists. split; [reflexivity|]. intro ell. rewrite fold_set_nodup by apply S. rewrite functional_init by apply S. unfold functional. rewrite map_map. f_equal.
  apply map_ext_in. intros kv Hk. cbn [fst snd]. rewrite iadd_zero_r by now apply Hp. reflexivity.
Qed.
Lemma substitute_functional q m t : pol_substitute q m = Ok t ->
  t = functional (fun u => match dict_get elt_eqb (Index u) m with Some v => v | None => 0 end) q.
Proof.
  intro E. set (ell := fun u => _). assert (H : forall kv, In kv q -> dict_get elt_eqb (Index (fst kv)) m = Some (ell (fst kv))).
  { intros [k v] Hk. cbn [fst]. unfold ell. destruct dict_get eqn:D; [reflexivity|]. rewrite (substitute_missing q m k v Hk D) in E. discriminate. }
  rewrite (substitute_some q m ell H) in E. injection E as <-. reflexivity.
Qed.
Lemma sdp_for_sound J polys d P : (0 < d)%nat -> (forall p, In p polys -> pol_ok 3 p) -> sdp_for J polys d = Ok P -> P ->
  exists (ell : idx -> R) M, cp_psd_var (length (basis_list 3 d)) M /\ moments_match J M /\
    (forall i j, (i <= j < length (basis_list 3 d))%nat -> ell (iadd (bidx 3 d i) (bidx 3 d j)) = entry M i j) /\
    forall p, In p polys -> 0 <= functional ell p.
Proof.
  intros Hd Hp E HP. destruct (mm_init_ok 3 d Hd) as (s & Es & En & Ed & Er & Ei). assert (Hs : is_mm 3 d s) by (split; auto).
  unfold sdp_for in E. rewrite Es in E. cbn [bind] in E. apply bind_inv in E as (c1 & _ & E). apply bind_inv in E as (c2 & _ & E).
  destruct (Nat.ltb (mm_r s) 4); [discriminate|]. injection E as <-. destruct HP as (M & VM & (cs & Ec & Hc) & (ls & El & Hl) & Hm).
  pose proof VM as (MM & _ & _). destruct (var_map_ok 3 d s M Hs MM) as (m & Em & V1 & V2).
  set (ell := fun u => match dict_get elt_eqb (Index u) m with Some v => v | None => 0 end).
  destruct (moment_constraints_iff 3 d s M Hs MM) as (cs' & Ec' & Hiff). rewrite Ec in Ec'. injection Ec' as <-.
  pose proof (proj1 Hiff Hc) as Hcons. clear Hiff.
  assert (Hell : forall i j, (i <= j < mm_r s)%nat -> ell (iadd (bidx 3 d i) (bidx 3 d j)) = entry M i j).
  { intros i j Hij. unfold ell. specialize (V2 i j Hij). destruct dict_get as [v|] eqn:Ev; [|easy]. apply V1 in Ev as (k & l & Hkl & Eu & ->). symmetry. now apply Hcons. }
  exists ell, M. rewrite <- Er. split; [exact VM|]. split; [exact Hm|]. split; [exact Hell|].
  intros p Hin. unfold mm_localizing_constraints in El. rewrite (proj2 (is_matb_iff _ _ _) MM), Em in El. cbn [assert_ bind] in El.
  destruct (mapM_all _ _ _ _ El Hin) as (c & Ecp & Hcin). apply Hl in Hcin. apply bind_inv in Ecp as (deg & Edeg & Ecp).
  apply bind_inv in Ecp as (Ls & ELs & Ecp). apply bind_inv in Ecp as (L & EL & Ecp). injection Ecp as <-. destruct Hcin as (Lv & HLv & Heq).
  unfold mm_localizing_matrix in ELs. apply bind_inv in ELs as (r & Erd & ELs). unfold pol_dim_sub in Erd. rewrite En, Ed in Erd.
  destruct (Nat.ltb d (half_up deg)) eqn:Lt; [discriminate|]. injection Erd as Erd.
  assert (Pr : (0 < r)%nat).
  { rewrite <- Erd, <- basis_length. assert (In (repeat 0%nat 3) (basis_list 3 (d - half_up deg))) by (apply basis_in; split; [reflexivity|rewrite degree_repeat; lia]).
    destruct (basis_list 3 (d - half_up deg)); [easy|cbn; lia]. }
  pose proof (mapM_length _ _ _ ELs) as LL. rewrite seq_length in LL.
  pose proof (mapM_nth _ _ _ 0 0%nat [] ELs ltac:(rewrite seq_length; lia)) as R0. rewrite seq_nth in R0 by lia. cbn [Nat.add] in R0.
  pose proof (mapM_length _ _ _ R0) as LR. rewrite seq_length in LR.
  pose proof (mapM_nth _ _ _ 0 0%nat [] R0 ltac:(rewrite seq_length; lia)) as R00. rewrite seq_nth in R00 by lia. cbn [Nat.add] in R00.
  destruct (bidx_first d Hd) as (B0 & _). pose proof (basis_four d Hd) as B4.
  rewrite (mm_index_ok 3 d s) in R00 by (auto; lia). rewrite B0 in R00. cbn [bind] in R00. change (iadd (repeat 0%nat 3) (repeat 0%nat 3)) with (repeat 0%nat 3) in R00.
  destruct (localize_zero p (Hp p Hin)) as (q & Eq & Fq). rewrite Eq in R00. injection R00 as R00.
  pose proof (mapM_nth _ _ _ 0 [] [] EL ltac:(lia)) as S0. pose proof (mapM_nth _ _ _ 0 [] 0 S0 ltac:(lia)) as S00. rewrite <- R00 in S00.
  apply substitute_functional in S00. fold ell in S00. rewrite Fq in S00. change (nth 0 (nth 0 L []) 0) with (entry L 0 0) in S00.
  rewrite <- S00, <- Heq by lia. apply (cp_psd_var_diag _ _ _ HLv). lia.
Qed.
Lemma match_psd d J M : (0 < d)%nat -> is_mat 4 4 J -> symmetric 4 J -> moments_match J M -> cp_psd_var (length (basis_list 3 d)) M -> PSD 4 J.
Proof.
  intros Hd HJ SJ (E0 & E1 & E2) (HM & HT & HP). set (N := length (basis_list 3 d)) in *. assert (B4 : (4 <= N)%nat) by now apply basis_four.
  assert (PM : PSD N M).
  { split; [exact HM|]. split; [|exact HP]. intros a b Ha Hb. rewrite <- HT at 1. apply entry_transpose. rewrite (is_mat_ncols N N); auto; lia. }
  destruct (decomp_exists N M PM) as (zs & _ & _ & HE).
  apply (decomp_psd 4 (map (fun z => [nth 1 z 0; nth 2 z 0; nth 3 z 0; nth 0 z 0]) zs)). split; [exact HJ|]. split.
  - intros z Hz. apply in_map_iff in Hz as (z' & <- & _). reflexivity.
  - intros i j Hi Hj. rewrite map_map.
    assert (G : forall i, (i < 3)%nat -> entry J i 3 = lsum (map (fun z => nth (1 + i) z 0 * nth 0 z 0) zs)).
    { intros k Hk. rewrite E1, HE by lia. f_equal. apply map_ext. intro z. ring. }
    assert (G3 : forall i j, (i < 3)%nat -> (j < 3)%nat -> entry J i j = lsum (map (fun z => nth (1 + i) z 0 * nth (1 + j) z 0) zs)).
    { intros k l Hk Hl. rewrite E2, HE by lia. reflexivity. }
    assert (G0 : entry J 3 3 = lsum (map (fun z => nth 0 z 0 * nth 0 z 0) zs)) by (rewrite E0, HE by lia; reflexivity).
    destruct (Nat.eq_dec i 3) as [->|Ni], (Nat.eq_dec j 3) as [->|Nj].
    + exact G0.
    + rewrite SJ by lia. rewrite G by lia. f_equal. apply map_ext. intro z. destruct j as [|[|[|j]]]; [cbn; ring|cbn; ring|cbn; ring|lia].
    + rewrite G by lia. f_equal. apply map_ext. intro z. destruct i as [|[|[|i]]]; [cbn; ring|cbn; ring|cbn; ring|lia].
    + rewrite G3 by lia. f_equal. apply map_ext. intro z. destruct i as [|[|[|i]]]; try lia; destruct j as [|[|[|j]]]; try lia; reflexivity.
Qed.
(** values of the functional on the monomials of degree at most 2 *)
Lemma ell_low d J M (ell : idx -> R) : (0 < d)%nat -> moments_match J M ->
  (forall i j, (i <= j < length (basis_list 3 d))%nat -> ell (iadd (bidx 3 d i) (bidx 3 d j)) = entry M i j) ->
  ell [0; 0; 0]%nat = entry J 3 3 /\ (forall i, (i < 3)%nat -> ell (unit_idx 3 i) = entry J i 3) /\
  (forall i j, (i <= j < 3)%nat -> ell (iadd (unit_idx 3 i) (unit_idx 3 j)) = entry J i j).
Proof.
  intros Hd (E0 & E1 & E2) H. destruct (bidx_first d Hd) as (B0 & B1). pose proof (basis_four d Hd) as B4. split; [|split].
  - specialize (H 0%nat 0%nat ltac:(lia)). rewrite B0 in H. rewrite E0. exact H.
  - intros i Hi. specialize (H 0%nat (1 + i)%nat ltac:(lia)). rewrite B0, B1 in H by auto. rewrite iadd_zero_l in H by apply unit_idx_length. rewrite E1 by auto. exact H.
  - intros i j Hij. specialize (H (1 + i)%nat (1 + j)%nat ltac:(lia)). rewrite !B1 in H by lia. rewrite E2 by lia. exact H.
Qed.
Lemma poly_sdp_sound p v J eps d P : (forall a, In a (p_A p) -> length a = 3%nat) -> length (p_A p) = length (p_b p) ->
  pv_value v J -> is_mat 4 4 J -> symmetric 4 J -> 0 <= eps -> (0 < d)%nat -> poly_moment_sdp_constraints p v eps d = Ok P -> P ->
  PSD 4 J /\ (0 < entry J 3 3 -> halfspaces (p_A p) (p_b p) (com_J J)).
Proof.
  intros HA HL Hv HJ SJ Heps Hd E HP. unfold poly_moment_sdp_constraints in E. apply bind_inv in E as (u & _ & E).
  rewrite (pv_ok v J eps Hv HJ Heps) in E. cbn [bind fst] in E.
  assert (Hok : forall q, In q (p_polys p) -> pol_ok 3 q).
  { intros q Hq. unfold p_polys in Hq. apply (in_map2 _ _ _ _ [] 0) in Hq as (i & H1 & H2 & ->). rewrite <- (HA (nth i (p_A p) [])) by (apply nth_In, H1). apply affine_ok. }
  destruct (sdp_for_sound J (p_polys p) d P Hd Hok E HP) as (ell & M & VM & Hm & Hell & Hf). split; [eapply match_psd; eauto|].
  intros Pm i Hi. destruct (ell_low d J M ell Hd Hm Hell) as (L0 & L1 & _).
  assert (Hq : In (pol_affine (nth i (p_A p) []) (nth i (p_b p) 0) 0) (p_polys p)).
  { unfold p_polys. rewrite <- (nth_map2 (fun a b => pol_affine a b 0) (p_A p) (p_b p) [] 0 (pol_affine [] 0 0) i HL eq_refl). apply nth_In. rewrite map2_length. lia. }
  apply Hf in Hq. pose proof (HA _ (nth_In _ [] Hi)) as La. set (a := nth i (p_A p) []) in *. set (b := nth i (p_b p) 0) in *. clearbody a b.
  unfold pol_affine in Hq. rewrite affine_table in Hq. rewrite functional_init in Hq by apply affine_table_ok. rewrite La in Hq.
  unfold functional in Hq. cbn [map seq lsum fold_right fst snd] in Hq. rewrite !L1 in Hq by lia. change (repeat 0%nat 3) with [0; 0; 0]%nat in Hq. rewrite L0 in Hq.
  unfold com_J. cbn [map seq]. destruct (len3_inv _ La) as (x & y & z & ->). cbn [nth] in Hq. unfold dot. cbn [map2 lsum fold_right].
  apply (Rmult_le_reg_r (entry J 3 3)); [exact Pm|]. 
  replace ((x * (entry J 0 3 / entry J 3 3) + (y * (entry J 1 3 / entry J 3 3) + (z * (entry J 2 3 / entry J 3 3) + 0))) * entry J 3 3) with (x * entry J 0 3 + y * entry J 1 3 + z * entry J 2 3) by (field; lra).
  lra.
Qed.
Lemma box_sdp_sound h c r b v J eps d P : box_init h c r = Ok b -> orthogonal 3 (pose_rot 3 r) -> pv_value v J -> is_mat 4 4 J -> symmetric 4 J -> 0 <= eps -> (0 < d)%nat ->
  poly_moment_sdp_constraints (b_poly b) v eps d = Ok P -> P ->
  PSD 4 J /\ (0 < entry J 3 3 -> box_set h (pose_rot 3 r) (pose_tr 3 c) (com_J J)).
Proof.
  intros Hb HQ Hv HJ SJ Heps Hd E HP. destruct (box_faces h c r b Hb HQ) as (_ & H2 & _ & H4).
  destruct (poly_sdp_sound (b_poly b) v J eps d P H2 H4 Hv HJ SJ Heps Hd E HP) as (H & K). split; [exact H|]. intro Pm.
  refine (proj1 (halfspaces_box h c r b _ Hb HQ _) (K Pm)). reflexivity.
Qed.

(** ** cylinders *)
Definition local_J (Q : mat) (c : vec) (J : mat) : mat := mat_mul (mat_mul (inv_T Q c) J) (transpose (inv_T Q c)).
Lemma local_J_mat Q c J : is_mat 3 3 Q -> length c = 3%nat -> is_mat 4 4 J -> is_mat 4 4 (local_J Q c J).
Proof.
  intros HQ Hc HJ. destruct (transform_inv_ok Q c HQ Hc) as (_ & MT).
  apply (is_mat_mul 4 4 4); [apply (is_mat_mul 4 4 4); auto; lia|apply is_mat_transpose; auto; lia|lia].
Qed.
Lemma local_J_sym Q c J : is_mat 3 3 Q -> length c = 3%nat -> is_mat 4 4 J -> symmetric 4 J -> symmetric 4 (local_J Q c J).
Proof. intros HQ Hc HJ SJ. destruct (transform_inv_ok Q c HQ Hc) as (_ & MT). now apply symmetric_congr_4. Qed.
Lemma quad_local Q c J x t : orthogonal 3 Q -> length c = 3%nat -> is_mat 4 4 J -> length x = 3%nat ->
  quad (local_J Q c J) (mat_vec (transpose Q) x ++ [dot c x + t]) = quad J (x ++ [t]).
Proof.
  intros HQ Hc HJ Hx. pose proof HQ as (MQ & _ & _). destruct (transform_inv_ok Q c MQ Hc) as (_ & MT). unfold local_J.
  assert (Lz : length (mat_vec (transpose Q) x ++ [dot c x + t]) = 4%nat) by (rewrite app_length, mat_vec_length, (is_mat_length 3 3); [reflexivity|apply is_mat_transpose; auto; lia]).
  rewrite (quad_congr 4 4) by (auto; lia). now rewrite inv_T_dual.
Qed.
Lemma local_J_psd Q c J : orthogonal 3 Q -> length c = 3%nat -> is_mat 4 4 J -> symmetric 4 J -> PSD 4 (local_J Q c J) -> PSD 4 J.
Proof.
  intros HQ Hc HJ SJ (_ & _ & HP). split; [exact HJ|]. split; [exact SJ|]. intros z Lz. destruct (len4_inv _ Lz) as (x & y & w & t & ->).
  change [x; y; w; t] with ([x; y; w] ++ [t]). rewrite <- (quad_local Q c) by auto. apply HP. rewrite app_length, mat_vec_length.
  rewrite (is_mat_length 3 3); [reflexivity|]. apply is_mat_transpose; [apply HQ|lia].
Qed.
Lemma local_J_psd' Q c J : is_mat 3 3 Q -> length c = 3%nat -> PSD 4 J -> PSD 4 (local_J Q c J).
Proof.
  intros HQ Hc (HJ & SJ & HP). destruct (transform_inv_ok Q c HQ Hc) as (_ & MT). apply (PSD_congr 4); auto; try lia; [split; auto|].
  now apply symmetric_congr_4.
Qed.
Lemma local_J_last Q c J : is_mat 3 3 Q -> length c = 3%nat -> is_mat 4 4 J ->
  map (fun i => entry (local_J Q c J) i 3) (seq 0 3) = mat_vec (transpose Q) (vsub (map (fun i => entry J i 3) (seq 0 3)) (vscale (entry J 3 3) c)) /\
  entry (local_J Q c J) 3 3 = entry J 3 3.
Proof. intros HQ Hc HJ. unfold local_J, inv_T. destruct_vecs. cbn. split; [list_eq; ring|ring]. Qed.
Lemma psd_minor J i : PSD 4 J -> (i < 3)%nat -> entry J i 3 * entry J i 3 <= entry J i i * entry J 3 3.
Proof.
  intros (HJ & SJ & HP) Hi. assert (D : forall k, (k < 4)%nat -> 0 <= entry J k k) by (intros k Hk; apply (fpsd_diag 4 (entry J) k); [apply fpsd_of_PSD; split; auto|auto]).
  pose proof (SJ i 3%nat ltac:(lia) ltac:(lia)) as ES.
  assert (G : forall a b, 0 <= a * a * entry J i i + 2 * a * b * entry J i 3 + b * b * entry J 3 3).
  { intros a b. specialize (HP (map (fun k => if Nat.eqb k i then a else if Nat.eqb k 3 then b else 0) (seq 0 4)) eq_refl). clear SJ D. unfold quad in HP.
    destruct i as [|[|[|i]]]; try lia; destruct_vecs; cbn in *; nra. }
  pose proof (D 3%nat ltac:(lia)) as D3. destruct (Rle_lt_or_eq_dec 0 (entry J 3 3) D3) as [Pm|Zm].
  - specialize (G (entry J 3 3) (- entry J i 3)). nra.
  - rewrite <- Zm in *. destruct (Req_dec (entry J i 3) 0) as [->|N]; [nra|]. exfalso.
    specialize (G 1 (- (entry J i i + 1) / (2 * entry J i 3))).
    replace (1 * 1 * entry J i i + 2 * 1 * (- (entry J i i + 1) / (2 * entry J i 3)) * entry J i 3 + - (entry J i i + 1) / (2 * entry J i 3) * (- (entry J i i + 1) / (2 * entry J i 3)) * 0) with (-1) in G by (field; auto). lra.
Qed.
Lemma cyl_com L r Q c J : orthogonal 3 Q -> length c = 3%nat -> is_mat 4 4 J -> PSD 4 (local_J Q c J) -> 0 < entry J 3 3 ->
  Rabs (entry (local_J Q c J) 2 3) <= L / 2 * entry J 3 3 -> entry (local_J Q c J) 0 0 + entry (local_J Q c J) 1 1 <= r * r * entry J 3 3 ->
  cyl_set L r Q c (com_J J).
Proof.
  intros HQ Hc HJ HP Pm Hz Hr. pose proof HQ as (MQ & _ & _). destruct (local_J_last Q c J MQ Hc HJ) as (EL & E3).
  pose proof (psd_minor _ 0 HP ltac:(lia)) as M0. pose proof (psd_minor _ 1 HP ltac:(lia)) as M1. rewrite E3 in M0, M1.
  set (m := entry J 3 3) in *. set (x := entry (local_J Q c J) 0 3) in *. set (y := entry (local_J Q c J) 1 3) in *. set (z := entry (local_J Q c J) 2 3) in *.
  set (a := entry (local_J Q c J) 0 0) in *. set (a' := entry (local_J Q c J) 1 1) in *.
  exists (x / m), (y / m), (z / m). split; [|split].
  - apply (Rmult_le_reg_r (m * m)); [nra|]. replace ((x / m * (x / m) + y / m * (y / m)) * (m * m)) with (x * x + y * y) by (field; lra). nra.
  - unfold Rdiv at 1. rewrite Rabs_mult, Rabs_inv, (Rabs_pos_eq m) by lra. apply (Rmult_le_reg_r m); [lra|]. rewrite Rmult_assoc, Rinv_l by lra. lra.
  - refine (proj2 (move_inv 3 Q c [x / m; y / m; z / m] (com_J J) HQ Hc eq_refl eq_refl ltac:(lia)) _).
    transitivity (vscale (/ m) [x; y; z]); [cbn; list_eq; field; lra|]. unfold x, y, z.
    change [entry (local_J Q c J) 0 3; entry (local_J Q c J) 1 3; entry (local_J Q c J) 2 3] with (map (fun i => entry (local_J Q c J) i 3) (seq 0 3)).
    rewrite EL. rewrite <- mat_vec_vscale. f_equal. unfold com_J. fold m. clearbody m. clear - Pm Hc. destruct_vecs. cbn. list_eq; field; lra.
Qed.
Lemma cyl_sdp_sound L R ro co c v J eps d P : cyl_init L R ro co = Ok c -> orthogonal 3 (pose_rot 3 ro) -> pv_value v J -> is_mat 4 4 J -> symmetric 4 J -> 0 <= eps -> (0 < d)%nat ->
  cyl_moment_sdp_constraints c v eps d = Ok P -> P ->
  PSD 4 J /\ (0 < entry J 3 3 -> cyl_set L R (pose_rot 3 ro) (pose_tr 3 co) (com_J J)).
Proof.
  intros Hc HQ Hv HJ SJ Heps Hd E HP. apply cyl_init_inv in Hc as (_ & _ & MQ & Lc & ->). unfold cyl_moment_sdp_constraints in E.
  rewrite (pv_ok v J eps Hv HJ Heps) in E. cbn [bind fst c_rot c_center cyl_of] in E. destruct (transform_inv_ok _ _ MQ Lc) as (ET & MT). rewrite ET in E. cbn [bind] in E.
  change (mat_mul (mat_mul (inv_T (pose_rot 3 ro) (pose_tr 3 co)) J) (transpose (inv_T (pose_rot 3 ro) (pose_tr 3 co)))) with (local_J (pose_rot 3 ro) (pose_tr 3 co) J) in E.
  set (cy := {| c_length := L |}) in E || set (cy := cyl_of L R (pose_rot 3 ro) (pose_tr 3 co)) in E.
  set (Q := pose_rot 3 ro) in *. set (t := pose_tr 3 co) in *.
  destruct (sdp_for_sound _ _ d P Hd (fun q Hq => proj1 (cyl_polys_small cy d Hd q Hq)) E HP) as (ell & M & VM & Hm & Hell & Hf).
  assert (P0 : PSD 4 (local_J Q t J)) by (eapply match_psd; eauto; [now apply local_J_mat|now apply local_J_sym]).
  split; [now apply (local_J_psd Q t)|]. intro Pm. destruct (ell_low d _ M ell Hd Hm Hell) as (L0 & L1 & L2).
  pose proof (local_J_last Q t J MQ Lc HJ) as (_ & E3). rewrite E3 in L0.
  pose proof (L1 2%nat ltac:(lia)) as Z1. pose proof (L2 0%nat 0%nat ltac:(lia)) as X2. pose proof (L2 1%nat 1%nat ltac:(lia)) as Y2. cbn in Z1, X2, Y2.
  assert (ND2 : NoDup [[0; 0; 1]%nat; [0; 0; 0]%nat]) by (repeat constructor; cbn; intuition discriminate).
  assert (ND3 : NoDup [[2; 0; 0]%nat; [0; 2; 0]%nat; [0; 0; 0]%nat]) by (repeat constructor; cbn; intuition discriminate).
  pose proof (Hf _ (or_introl eq_refl)) as F1. pose proof (Hf _ (or_intror (or_introl eq_refl))) as F2. pose proof (Hf _ (or_intror (or_intror (or_introl eq_refl)))) as F3.
  rewrite functional_init in F1, F2, F3 by assumption. unfold functional in F1, F2, F3. cbn [map lsum fold_right fst snd] in F1, F2, F3.
  rewrite Z1, L0 in F1, F2. rewrite X2, Y2, L0 in F3. change (c_length cy) with L in *. change (c_radius cy) with R in *.
  apply cyl_com; auto; [apply Rabs_le; lra|]. cbn [pow] in F3. lra.
Qed.

(** ** vertices *)
Lemma second_quad J x : is_mat 4 4 J -> length x = 3%nat -> second_J J x = quad (sub_mat 3 3 J) x.
Proof. intros HJ Hx. destruct_vecs. unfold second_J, quad. cbn. ring. Qed.
Lemma vsum_le f g w V : (forall i, 0 <= nth i w 0) -> (forall v, In v V -> f v <= g v) -> vsum f w V <= vsum g w V.
Proof.
  intros Hw H. assert (E : vsum (fun v => g v + (-1) * f v) w V = vsum g w V + (-1) * vsum f w V) by (rewrite vsum_plus, vsum_scal; reflexivity).
  assert (0 <= vsum (fun v => g v + (-1) * f v) w V); [|lra]. apply vsum_nonneg; auto. intros v Hv. specialize (H v Hv). lra.
Qed.
Lemma nonneg_nth n ms : cp_nonneg_var n ms -> forall i, 0 <= nth i ms 0.
Proof. intros (L & H) i. destruct (Nat.lt_ge_cases i n) as [Hi|Hi]; [auto|]. rewrite nth_overflow by lia. lra. Qed.
Lemma vertex_sound p v J eps P : poly_ok 3 p -> pv_value v J -> is_mat 4 4 J -> 0 <= eps -> poly_moment_vertex_constraints p v eps = Ok P -> P ->
  (0 < entry J 3 3 -> in_hull 3 (p_vertices p) (com_J J)) /\
  (forall x B, length x = 3%nat -> (forall u, In u (p_vertices p) -> Rabs (dot x u) <= B) -> second_J J x <= B * B * entry J 3 3).
Proof.
  intros (_ & _ & _ & _ & V & Es & Hne & HV) Hv HJ Heps. unfold poly_moment_vertex_constraints.
  assert (Ed : p_dim p = 3%nat) by (unfold p_dim, sf_dim; rewrite Es; cbn; destruct V as [|u V]; [easy|]; cbn; apply HV; now left).
  assert (Ev : p_vertices p = V) by (unfold p_vertices; now rewrite Es). assert (En : p_nv p = length V) by (unfold p_nv, sf_nv; now rewrite Es).
  rewrite Ed, Ev, En, (pv_ok v J eps Hv HJ Heps). cbn [Nat.eqb assert_ bind]. intros E HP. apply Ok_eq in E. subst P.
  destruct HP as (ms & Hms & _ & E33 & Eh & HH). pose proof (nonneg_nth _ _ Hms) as Pm. destruct Hms as (Lm & _).
  assert (Eh' : forall j, (j < 3)%nat -> entry J j 3 = vsum (fun v => nth j v 0) ms V).
  { intros j Hj. rewrite <- (vec_mat_vsum 3) by auto. rewrite <- Eh, nth_map_seq by lia. reflexivity. }
  split.
  - intro Pos. set (m := entry J 3 3) in *. exists (vscale (/ m) ms). split; [|split].
    + rewrite vscale_length. exact Lm.
    + split.
      * intros w Hw. apply in_map_iff in Hw as (u & <- & Hu). apply Rmult_le_pos; [apply Rlt_le, Rinv_0_lt_compat, Pos|].
        destruct (In_nth _ _ 0 Hu) as (k & _ & <-). apply Pm.
      * unfold vscale. rewrite lsum_map_scal, map_id. rewrite <- E33. apply Rinv_l. lra.
    + apply (vec_ext 3); [reflexivity|apply combine_rows_length; auto|]. intros j Hj. rewrite nth_combine_vsum by auto.
      unfold com_J. rewrite nth_map_seq by lia. rewrite Nat.add_0_l || idtac. fold m. rewrite Eh' by auto.
      assert (G : forall f w W, vsum f (vscale (/ m) w) W = / m * vsum f w W).
      { intro f. induction w as [|a w IH]; intros [|u W]; cbn; try (unfold vsum; cbn; ring). change (fold_right Rplus 0) with lsum.
        change (vsum f ((/ m * a) :: vscale (/ m) w) (u :: W) = / m * vsum f (a :: w) (u :: W)). rewrite !vsum_cons, IH. ring. }
      rewrite G. unfold Rdiv. ring.
  - intros x B Lx HB. rewrite second_quad by auto. specialize (HH x Lx). rewrite map2_map_r in HH.
    rewrite (quad_msub 3 3) in HH; auto; [|exact (msum_is_mat 3 3 _ (outer_sum_is_mat 3 ms V HV))|now apply sub_mat_33].
    rewrite outer_sum_quad in HH by auto.
    assert (S : vsum (fun w => dot x w * dot x w) ms V <= vsum (fun _ => B * B * 1) ms V).
    { apply vsum_le; [exact Pm|]. intros u Hu. specialize (HB u Hu). apply abs_le_inv in HB. nra. }
    rewrite vsum_scal, vsum_one in S by auto. rewrite <- E33 in S. lra.
Qed.

(** ** disks *)
Lemma disk_moments R z J : 0 <= R -> realizable_J (ell_set [R; R; 0] (eye 3) [0; 0; z]) J ->
  entry J 0 0 + entry J 1 1 <= R * R * entry J 3 3 /\ entry J 2 3 = z * entry J 3 3 /\ entry J 2 2 = z * z * entry J 3 3 /\ 0 <= entry J 3 3.
Proof.
  intros PR (s & Ho & Hn & Hin & HJ & HE).
  assert (S : forall mp, In mp s -> exists x y, snd mp = [x; y; z] /\ x * x + y * y <= R * R).
  { intros mp Hm. destruct (Hin mp Hm) as (u & Lu & Hu & E). cbn in Lu. destruct (len3_inv _ Lu) as (a & b & c & ->). exists (R * a), (R * b). split.
    - rewrite E. cbn. list_eq; ring.
    - cbn in Hu. assert (a * a + b * b <= 1) by nra. assert (0 <= R * R) by nra. nra. }
  rewrite !HE by lia. repeat split.
  - rewrite <- lsum_map_plus, <- lsum_map_scal. apply lsum_map_le. intros mp Hm. destruct (S mp Hm) as (x & y & E & H). pose proof (Hn mp Hm). rewrite E. cbn. nra.
  - rewrite <- lsum_map_scal. f_equal. apply map_ext_in. intros mp Hm. destruct (S mp Hm) as (x & y & E & H). rewrite E. cbn. ring.
  - rewrite <- lsum_map_scal. f_equal. apply map_ext_in. intros mp Hm. destruct (S mp Hm) as (x & y & E & H). rewrite E. cbn. ring.
  - apply lsum_nonneg. intros t Ht. apply in_map_iff in Ht as (mp & <- & Hm). destruct (S mp Hm) as (x & y & E & H). pose proof (Hn mp Hm). rewrite E. cbn. nra.
Qed.
Lemma local_axis Q c J : is_mat 3 3 Q -> length c = 3%nat -> is_mat 4 4 J -> entry (local_J Q c J) 2 2 = quad J (col 2 Q ++ [- dot (col 2 Q) c]).
Proof.
  intros HQ Hc HJ. destruct (transform_inv_ok Q c HQ Hc) as (_ & MT). transitivity (quad (local_J Q c J) [0; 0; 1; 0]).
  - pose proof (local_J_mat Q c J HQ Hc HJ) as M. generalize (local_J Q c J) M. clear. intros X M. destruct_vecs. unfold quad. cbn. ring.
  - unfold local_J. rewrite (quad_congr 4 4) by (auto; lia). f_equal. clear HJ MT. unfold inv_T. destruct_vecs. cbn. list_eq; ring.
Qed.
Lemma cyl_custom_sound L R ro co c ut v J P : cyl_init L R ro co = Ok c -> orthogonal 3 (pose_rot 3 ro) -> (R = 0 \/ / 100000000 < R) -> pv_value v J -> is_mat 4 4 J ->
  cyl_moment_custom_vertex_constraints ut c v 0 = Ok P -> P ->
  (0 < entry J 3 3 -> cyl_set L R (pose_rot 3 ro) (pose_tr 3 co) (com_J J)) /\
  quad J (col 2 (pose_rot 3 ro) ++ [- dot (col 2 (pose_rot 3 ro)) (pose_tr 3 co)]) <= L / 2 * (L / 2) * entry J 3 3.
Proof.
  intros Hc HQ HR Hv HJ EP HP. destruct (cyl_custom_ok L R ro co c ut v J 0 Hc HR Hv HJ ltac:(lra)) as (P' & EP' & Hpsd & _).
  rewrite EP in EP'. apply Ok_eq in EP'. subst P'. specialize (Hpsd HP). rewrite msub_zero in Hpsd by auto.
  apply cyl_init_inv in Hc as (PL & PR & MQ & Lc & ->). unfold cyl_moment_custom_vertex_constraints in EP.
  rewrite (pv_ok v J 0 Hv HJ ltac:(lra)) in EP. cbn [bind c_rot c_center c_disk0s cyl_of] in EP. destruct (transform_inv_ok _ _ MQ Lc) as (ET & MT). rewrite ET in EP. cbn [bind] in EP.
  apply bind_inv in EP as (u & _ & EP). apply Ok_eq in EP. subst P. cbv zeta in HP.
  change (mat_mul (mat_mul (inv_T (pose_rot 3 ro) (pose_tr 3 co)) J) (transpose (inv_T (pose_rot 3 ro) (pose_tr 3 co)))) with (local_J (pose_rot 3 ro) (pose_tr 3 co) J) in HP.
  set (Q := pose_rot 3 ro) in *. set (t := pose_tr 3 co) in *. pose proof (local_J_psd' Q t J MQ Lc Hpsd) as P0.
  destruct HP as (Js & L2 & FJ & _ & (P' & EP & HP) & HU & H0 & H1 & H2 & H3). destruct Js as [|Ja [|Jb [|]]]; try discriminate L2.
  inversion FJ as [|? ? (MJa & _) FJ']. inversion FJ' as [|? ? (MJb & _) _]. subst.
  assert (OE : orthogonal 3 (pose_rot 3 None)) by (apply orthogonal_eye; lia).
  destruct (ell_w_constraints0 [R; R; 0] None (Some [0; 0; 1 / 2 * L]) _ (disk_init R (1 / 2 * L) PR) eq_refl ut (PVmat Ja) Ja OE (disk_proper R HR) eq_refl MJa) as (Pa & Ea & Ia).
  destruct (ell_w_constraints0 [R; R; 0] None (Some [0; 0; - (1 / 2 * L)]) _ (disk_init R (- (1 / 2 * L)) PR) eq_refl ut (PVmat Jb) Jb OE (disk_proper R HR) eq_refl MJb) as (Pb & Eb & Ib).
  cbn [all_constraints] in EP. rewrite Ea, Eb in EP. cbn [bind] in EP. apply Ok_eq in EP. subst P'. destruct HP as (HPa & HPb & _).
  apply Ia in HPa. apply Ib in HPb. clear Ia Ib Ea Eb. cbn [pose_rot pose_tr] in HPa, HPb.
  apply disk_moments in HPa as (A1 & A2 & A3 & A4); [|exact PR]. apply disk_moments in HPb as (B1 & B2 & B3 & B4); [|exact PR].
  pose proof (HU 2%nat 3%nat ltac:(lia)) as U. pose proof (local_J_last Q t J MQ Lc HJ) as (_ & E3). rewrite E3 in H3.
  rewrite !two_msum in * by (auto; lia).
  split; [intro Pm|rewrite <- local_axis by auto; nra].
  apply cyl_com; auto; [|rewrite H0, H1, H3; lra]. rewrite U, H3, A2, B2. apply Rabs_le. nra.
Qed.

(** ** calls that raise *)
Lemma mapM_raise {A B} (f : A -> res B) l e : (forall a, In a l -> (exists b, f a = Ok b) \/ f a = Raise e) -> (exists a, In a l /\ f a = Raise e) -> mapM f l = Raise e.
Proof.
  induction l as [|x l IH]; intros H (a & Ha & E); [easy|]. cbn. destruct (H x (or_introl eq_refl)) as [(b & Eb)|Ee]; [|now rewrite Ee].
  destruct Ha as [->|Ha]; [congruence|]. rewrite Eb. cbn [bind]. rewrite IH; [reflexivity|intros; apply H; now right|eauto].
Qed.
Lemma poly_trivial_face p v J eps d i : p_dim p = 3%nat -> (forall a, In a (p_A p) -> length a = 3%nat) -> length (p_A p) = length (p_b p) ->
  (i < length (p_A p))%nat -> nth i (p_A p) [] = zeros 3 -> nth i (p_b p) 0 = 0 -> pv_value v J -> is_mat 4 4 J -> 0 <= eps -> (0 < d)%nat ->
  poly_moment_sdp_constraints p v eps d = Raise ValueError.
Proof.
  intros Hdim HA HL Hi Ha Hb Hv HJ Heps Hd. unfold poly_moment_sdp_constraints. rewrite Hdim, (pv_ok v J eps Hv HJ Heps). cbn [Nat.eqb assert_ bind fst].
  destruct (mm_init_ok 3 d Hd) as (m & E & En & Ed & Er & Ei). assert (Hm : is_mm 3 d m) by (split; auto).
  unfold sdp_for. rewrite E. cbn [bind].
  assert (Z : zeros2 (mm_r m) (mm_r m) = moment_matrix [] 3 d) by (rewrite Er; symmetry; apply gram_nil).
  assert (M0 : measure_ok 3 []) by (intros wx []).
  destruct (moment_matrix_constraints 3 d m [] Hm M0) as (cs & Ec & _). rewrite Z, Ec. cbn [bind]. rewrite <- Z.
  assert (MZ : is_matb (mm_r m) (mm_r m) (zeros2 (mm_r m) (mm_r m)) = true) by apply (proj2 (is_matb_iff _ _ _)), is_mat_zeros2.
  destruct (var_map_ok 3 d m _ Hm (is_mat_zeros2 (mm_r m) (mm_r m))) as (vm & Evm & _).
  assert (G : mm_localizing_constraints m (zeros2 (mm_r m) (mm_r m)) (p_polys p) = Raise ValueError); [|now rewrite G].
  unfold mm_localizing_constraints. rewrite MZ, Evm. cbn [assert_ bind]. apply mapM_raise.
  - intros q Hq. destruct (list_eq_dec (fun a b : idx * R => match list_eq_dec Nat.eq_dec (fst a) (fst b), Req_EM_T (snd a) (snd b) with
      | left e1, left e2 => left (injective_projections a b e1 e2) | right n, _ => right (fun e => n (f_equal fst e)) | _, right n => right (fun e => n (f_equal snd e)) end) q []) as [->|N].
    + right. reflexivity.
    + left. unfold p_polys in Hq. apply (in_map2 _ _ _ _ [] 0) in Hq as (k & H1 & H2 & ->). assert (La : length (nth k (p_A p) []) = 3%nat) by (apply HA, nth_In, H1).
      set (q := pol_affine (nth k (p_A p) []) (nth k (p_b p) 0) 0) in *.
      destruct (degree_bound q 1 N) as (deg & Edg & B); [intros kv Hk; eapply affine_in; eauto|].
      destruct (localizing_constraints_hold 3 d m [] [q] Hm M0) as (ls & El & _).
      { intros q' [<-|[]]. split; [rewrite <- La; apply affine_ok|]. split; [exists deg; split; [exact Edg|lia]|intros wx []]. }
      rewrite <- Z in El. unfold mm_localizing_constraints in El. rewrite MZ, Evm in El. cbn [assert_ bind mapM] in El. apply bind_inv in El as (c & Ec' & _). eauto.
  - exists (pol_affine (zeros 3) 0 0). split.
    + replace (pol_affine (zeros 3) 0 0) with (pol_affine (nth i (p_A p) []) (nth i (p_b p) 0) 0) by (now rewrite Ha, Hb). unfold p_polys. rewrite <- (nth_map2 (fun a b => pol_affine a b 0) (p_A p) (p_b p) [] 0 (pol_affine [] 0 0) i HL eq_refl). apply nth_In. rewrite map2_length. lia.
    + assert (EZ : pol_affine (zeros 3) 0 0 = []); [|rewrite EZ; reflexivity].
      unfold pol_affine. rewrite affine_table, pol_init_filter by apply affine_table_ok. cbn [length zeros repeat seq map nth].
      cbn [filter snd]. replace (- 0) with 0 by ring. rewrite (proj2 (isclose_zero 0) eq_refl). reflexivity.
Qed.
Lemma sdp_order_zero J q qs deg : pol_degree q = Ok deg -> (0 < deg)%nat -> sdp_for J (q :: qs) 0 = Raise ValueError.
Proof.
  intros Ed Hd. unfold sdp_for. change (mm_init 3 0) with (Ok {| mm_n := 3; mm_d := 0; mm_r := 1; mm_indices := [[NpZero]] |}). cbn [bind mm_r].
  set (s := {| mm_n := 3 |}). change (zeros2 1 1) with [[0]]. assert (V : mm_var_map s [[0]] = Ok [(NpZero, 0)]) by reflexivity.
  assert (C : exists cs, mm_moment_constraints s [[0]] = Ok cs) by (eexists; reflexivity). destruct C as (cs & C). rewrite C. cbn [bind].
  assert (B : is_matb 1 1 [[0]] = true) by reflexivity.
  unfold mm_localizing_constraints. change (mm_r s) with 1%nat. rewrite B, V. cbn [assert_ bind mapM]. rewrite Ed. cbn [bind].
  unfold mm_localizing_matrix, pol_dim_sub. change (mm_d s) with 0%nat.
  assert (H : Nat.ltb 0 (half_up deg) = true); [|now rewrite H].
  apply Nat.ltb_lt. destruct (half_up deg) eqn:E; [|lia]. pose proof (proj1 (half_up_le deg 0) ltac:(lia)). lia.
Qed.
Lemma cyl_order_zero L R ro co c v J eps : cyl_init L R ro co = Ok c -> pv_value v J -> is_mat 4 4 J -> 0 <= eps ->
  cyl_moment_sdp_constraints c v eps 0 = Raise ValueError.
Proof.
  intros Hc Hv HJ Heps. apply cyl_init_inv in Hc as (_ & _ & MQ & Lc & ->). unfold cyl_moment_sdp_constraints.
  rewrite (pv_ok v J eps Hv HJ Heps). cbn [bind fst c_rot c_center cyl_of]. destruct (transform_inv_ok _ _ MQ Lc) as (ET & MT). rewrite ET. cbn [bind].
  set (cy := cyl_of _ _ _ _). unfold cyl_poly0s.
  destruct (cyl_polys_small cy 1 ltac:(lia) _ (or_introl eq_refl)) as (_ & deg & Ed & _).
  apply (sdp_order_zero _ _ _ deg Ed). apply degree_max in Ed as (_ & Hd).
  assert (In ([0; 0; 1]%nat, 1) (pol_init [([0; 0; 1]%nat, 1); ([0; 0; 0]%nat, 1 / 2 * c_length cy)] 0)) as Hin.
  { rewrite pol_init_filter by (repeat constructor; cbn; intuition discriminate). apply filter_In. split; [now left|]. cbn [snd].
    destruct (isclose 0 0 1 0) eqn:Ei; [apply isclose_zero in Ei; lra|reflexivity]. }
  apply Hd in Hin. cbn in Hin. lia.
Qed.
