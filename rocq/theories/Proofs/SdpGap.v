(** C81: the moment relaxations accept every positive functional, and so more than the shapes realize. *)
From Verif Require Import Base.Vec Base.VecFacts Spec.Basic Spec.Objects Spec.Realizable Spec.Moments Spec.Shapes Spec.ShapeObjects Spec.PolySpec
  Model.Util Model.Constraint Model.Inertial Model.Moment Model.Polydd Model.Poly Model.Box Model.Cylinder Model.Ellipsoid Model.Realize
  Proofs.Coord Proofs.LinAlg Proofs.UtilP Proofs.InertialP Proofs.Hull Proofs.BoxP Proofs.CylP Proofs.PolynomialP Proofs.BasisP Proofs.MomentP
  Proofs.Decomp Proofs.PimP Proofs.SdpP Proofs.SdpSound Proofs.InertialT Proofs.VertexP Proofs.RealizeP Proofs.RealizeE Proofs.CylCustom Proofs.RigidP.

(** ** moment and localizing matrices of a functional on monomials *)
Definition hmat (ell : idx -> R) (B : list idx) : mat := map (fun a => map (fun b => ell (iadd a b)) B) B.
Definition lmat (ell : idx -> R) (p : pol) (B : list idx) : mat := map (fun a => map (fun b => functional (fun u => ell (iadd u (iadd a b))) p) B) B.
Lemma is_mat_square {A} (f : A -> A -> R) B : is_mat (length B) (length B) (map (fun a => map (fun b => f a b) B) B).
Proof. split; [apply map_length|]. apply Forall_forall. intros r H. apply in_map_iff in H as (a & <- & _). apply map_length. Qed.
Lemma entry_square (f : idx -> idx -> R) B i j : (i < length B)%nat -> (j < length B)%nat ->
  entry (map (fun a => map (fun b => f a b) B) B) i j = f (nth i B []) (nth j B []).
Proof. intros Hi Hj. unfold entry. rewrite (nth_map_0 _ _ _ []) by auto. rewrite (nth_map_0 _ _ _ []) by auto. reflexivity. Qed.
Lemma hmat_ok n d s ell : is_mm n d s -> is_mat (mm_r s) (mm_r s) (hmat ell (basis_list n d)).
Proof. intro Hs. apply is_mm_inv in Hs as (_ & _ & _ & -> & _). apply is_mat_square. Qed.
Lemma hmat_constraints n d s ell : is_mm n d s -> exists cs, mm_moment_constraints s (hmat ell (basis_list n d)) = Ok cs /\ forall c, In c cs -> c.
Proof.
  intros Hs. destruct (moment_constraints_iff n d s _ Hs (hmat_ok n d s ell Hs)) as (cs & E & I). exists cs. split; [exact E|]. apply I.
  pose proof (is_mm_inv _ _ _ Hs) as (_ & _ & _ & Er & _). rewrite Er. intros i j k l Hij Hkl Eu. unfold hmat.
  rewrite !entry_square by lia. now rewrite Eu.
Qed.
Lemma hmat_lookup n d s ell : is_mm n d s -> exists m, mm_var_map s (hmat ell (basis_list n d)) = Ok m /\
  forall u, length u = n -> (degree_of u <= 2 * d)%nat -> dict_get elt_eqb (Index u) m = Some (ell u).
Proof.
  intros Hs. destruct (var_map_ok n d s _ Hs (hmat_ok n d s ell Hs)) as (m & E & H1 & H2). exists m. split; [exact E|].
  pose proof (is_mm_inv _ _ _ Hs) as (_ & _ & _ & Er & _). rewrite Er in *. intros u Lu Du.
  destruct (cover n d u Lu Du) as (i & j & Hij & ->). specialize (H2 i j Hij). destruct dict_get as [v|] eqn:Ev; [|easy].
  apply H1 in Ev as (k & l & Hkl & -> & ->). unfold hmat. rewrite entry_square by lia. reflexivity.
Qed.
Lemma localize_functional n p i : pol_ok n p -> length i = n -> exists q, pol_localize p (Index i) = Ok q /\ pol_ok n q /\
  forall ell, functional ell q = functional (fun u => ell (iadd u i)) p.
Proof.
  intros Hp Hi. destruct (localize_some n p i Hp Hi) as (q & Eq & Oq & _). exists q. split; [exact Eq|]. split; [exact Oq|]. intro ell.
  rewrite (localize_unfold n) in Eq by (auto; apply Hp). injection Eq as <-. pose proof (shift_ok n p i Hp Hi) as S.
  rewrite fold_set_nodup by apply S. rewrite functional_init by apply S. unfold functional. rewrite map_map. reflexivity.
Qed.
Lemma hmat_entry n d s ell m p deg i j : is_mm n d s -> pol_ok n p -> pol_degree p = Ok deg -> (deg <= 2 * d)%nat ->
  (forall u, length u = n -> (degree_of u <= 2 * d)%nat -> dict_get elt_eqb (Index u) m = Some (ell u)) ->
  let B := basis_list n (d - half_up deg) in (i < length B)%nat -> (j < length B)%nat ->
  exists q, (let* k := mm_index s i j in pol_localize p k) = Ok q /\
  pol_substitute q m = Ok (functional (fun u => ell (iadd u (iadd (nth i B []) (nth j B [])))) p).
Proof.
  intros Hs Hp Hdeg Hd Hm B Hi Hj. pose proof (is_mm_inv _ _ _ Hs) as (_ & _ & _ & Er & _).
  pose proof (proj2 (half_up_le deg d) Hd) as Hv. destruct (basis_split n d (d - half_up deg) ltac:(lia)) as [t Et]. fold B in Et.
  assert (LB : (length B <= length (basis_list n d))%nat) by (rewrite Et, app_length; lia).
  rewrite (mm_index_ok n d) by (auto; rewrite Er; lia). cbn [bind].
  assert (Ei : bidx n d i = nth i B []) by (rewrite Et, app_nth1; auto). assert (Ej : bidx n d j = nth j B []) by (rewrite Et, app_nth1; auto).
  rewrite Ei, Ej. assert (Li : length (nth i B []) = n) by (apply bidx_len; auto). assert (Lj : length (nth j B []) = n) by (apply bidx_len; auto).
  assert (Lk : length (iadd (nth i B []) (nth j B [])) = n) by (apply iadd_length; auto).
  destruct (localize_functional n p _ Hp Lk) as (q & Eq & Oq & Fq). exists q. split; [exact Eq|].
  rewrite (substitute_some q m ell).
  - rewrite <- Fq. reflexivity.
  - intros kv Hkv. apply Hm; [apply Oq; auto|]. destruct (localize_keys n p _ q kv Hp Lk Eq Hkv) as (kv' & Hkv' & ->).
    apply degree_max in Hdeg as [_ Hdeg]. specialize (Hdeg _ Hkv'). pose proof (bidx_deg n (d - half_up deg) i Hi) as Di. pose proof (bidx_deg n (d - half_up deg) j Hj) as Dj.
    fold B in Di, Dj. pose proof (half_up_ge deg). pose proof (proj2 Hp _ Hkv') as Lkv. rewrite !degree_iadd by congruence. lia.
Qed.
Lemma hmat_localize n d s ell p deg : is_mm n d s -> pol_ok n p -> pol_degree p = Ok deg -> (deg <= 2 * d)%nat ->
  mm_localize s (hmat ell (basis_list n d)) p = Ok (lmat ell p (basis_list n (d - half_up deg))).
Proof.
  intros Hs Hp Hdeg Hd. destruct (hmat_lookup n d s ell Hs) as (m & Em & Hm). unfold mm_localize.
  rewrite (proj2 (is_matb_iff _ _ _) (hmat_ok n d s ell Hs)), Em, Hdeg. cbn [assert_ bind].
  pose proof (is_mm_inv _ _ _ Hs) as (_ & En & Ed & Er & _). pose proof (proj2 (half_up_le deg d) Hd) as Hv. set (B := basis_list n (d - half_up deg)).
  unfold pol_dim_sub. rewrite En, Ed. destruct (Nat.ltb_spec d (half_up deg)) as [C|C]; [lia|]. cbn [bind]. rewrite <- basis_length. fold B.
  rewrite (mapM_ok _ (fun i => map (fun j => functional (fun u => ell (iadd u (iadd (nth i B []) (nth j B [])))) p) (seq 0 (length B)))).
  - f_equal. unfold lmat. rewrite <- (map_nth_seq (fun a => map (fun b => functional (fun u => ell (iadd u (iadd a b))) p) B) B []).
    apply map_ext. intro i. apply (map_nth_seq (fun b => functional (fun u => ell (iadd u (iadd (nth i B []) b))) p) B []).
  - intros i Hi. apply in_seq in Hi. apply mapM_ok. intros j Hj. apply in_seq in Hj.
    destruct (hmat_entry n d s ell m p deg i j Hs Hp Hdeg Hd Hm) as (q & E1 & E2); [fold B; lia|fold B; lia|].
    destruct (mm_index s i j) as [k|e|]; cbn [bind] in *; [rewrite E1; cbn [bind]; exact E2|discriminate E1|discriminate E1].
Qed.
Lemma localizing_list n d s M polys : is_mm n d s -> is_mat (mm_r s) (mm_r s) M ->
  (forall p, In p polys -> exists L, mm_localize s M p = Ok L /\ PSD (length L) L) ->
  exists cs, mm_localizing_constraints s M polys = Ok cs /\ forall c, In c cs -> c.
Proof.
  intros Hs HM. destruct (var_map_ok n d s M Hs HM) as (m & Em & _). unfold mm_localizing_constraints.
  assert (B : is_matb (mm_r s) (mm_r s) M = true) by now apply is_matb_iff.
  induction polys as [|p ps IH]; intro H; [rewrite B, Em; exists []; split; [reflexivity|intros c []]|].
  destruct IH as (cs & Ecs & Hcs); [intros; apply H; now right|]. destruct (H p (or_introl eq_refl)) as (L & EL & PL).
  destruct (localizing_iff n d s M p L Hs EL) as (c & Ec & Ic). unfold mm_localizing_constraints in Ec. rewrite B, Em in Ec, Ecs |- *.
  cbn [assert_ bind mapM] in *. apply bind_inv in Ec as (c' & Ec & E'). injection E' as ->. rewrite Ec. cbn [bind]. rewrite Ecs. cbn [bind].
  exists (c :: cs). split; [reflexivity|]. intros c' [<-|H']; [now apply Ic|exact (Hcs _ H')].
Qed.
Lemma sdp_functional J polys d ell : (0 < d)%nat -> (forall p, In p polys -> poly_small d p) ->
  PSD (length (basis_list 3 d)) (hmat ell (basis_list 3 d)) -> moments_match J (hmat ell (basis_list 3 d)) ->
  (forall p deg, In p polys -> pol_degree p = Ok deg -> PSD (length (basis_list 3 (d - half_up deg))) (lmat ell p (basis_list 3 (d - half_up deg)))) ->
  exists P, sdp_for J polys d = Ok P /\ P.
Proof.
  intros Hd Hp PM HJ HL. destruct (mm_init_ok 3 d Hd) as (m & E & En & Ed & Er & Ei). assert (Hm : is_mm 3 d m) by (split; auto).
  unfold sdp_for. rewrite E. cbn [bind].
  assert (Z : zeros2 (mm_r m) (mm_r m) = moment_matrix [] 3 d) by (rewrite Er; symmetry; apply gram_nil).
  assert (M0 : measure_ok 3 []) by (intros wx []).
  destruct (moment_matrix_constraints 3 d m [] Hm M0) as (cs & Ec & _).
  destruct (localizing_constraints_hold 3 d m [] polys Hm M0) as (ls & El & _).
  { intros p Hin. destruct (Hp p Hin) as (H1 & H2). split; [exact H1|]. split; [exact H2|]. intros wx []. }
  rewrite Z, Ec, El. cbn [bind]. pose proof (basis_four d Hd). assert (F : Nat.ltb (mm_r m) 4 = false) by (apply Nat.ltb_ge; lia). rewrite F.
  eexists. split; [reflexivity|]. exists (hmat ell (basis_list 3 d)).
  split; [apply PSD_var; [rewrite Er; lia|now rewrite Er]|]. split; [now apply (hmat_constraints 3 d)|]. split; [|exact HJ].
  apply (localizing_list 3 d); auto; [now apply hmat_ok|]. intros p Hin. destruct (Hp p Hin) as (Op & deg & Edeg & Ddeg).
  eexists. split; [now apply (hmat_localize 3 d m ell p deg)|]. unfold lmat at 1. rewrite map_length. now apply HL.
Qed.

(** ** a functional that is positive but not the integral of a measure on the square *)
Definition gap_table : mat := [[43; 23; 33; 19; 277]; [21; 0; 7; -10]; [31; 7; 11]; [18; -4]; [29]].
Definition gap (u : idx) : R := match u with [a; 0%nat; c] => nth c (nth a gap_table []) 0 | _ => 0 end.
Definition J_gap : mat := [[31; 0; 0; 21]; [0; 0; 0; 0]; [0; 0; 33; 23]; [21; 0; 23; 43]].
Lemma J_gap_ok : is_mat 4 4 J_gap /\ symmetric 4 J_gap.
Proof. split; [apply is_mat44|]. intros i j Hi Hj. destruct i as [|[|[|[|i]]]], j as [|[|[|[|j]]]]; try lia; reflexivity. Qed.
Lemma basis_32 : basis_list 3 2 = [[0;0;0]; [1;0;0]; [0;1;0]; [0;0;1]; [2;0;0]; [1;1;0]; [1;0;1]; [0;2;0]; [0;1;1]; [0;0;2]]%nat.
Proof. reflexivity. Qed.
Lemma basis_31 : basis_list 3 1 = [[0;0;0]; [1;0;0]; [0;1;0]; [0;0;1]]%nat.
Proof. reflexivity. Qed.
Lemma hmat_sym ell B : symmetric (length B) (hmat ell B).
Proof. intros i j Hi Hj. unfold hmat. rewrite !entry_square by auto. now rewrite iadd_comm. Qed.
Lemma lmat_sym ell p B : symmetric (length B) (lmat ell p B).
Proof.
  intros i j Hi Hj. unfold lmat. rewrite !(entry_square (fun a b => functional (fun u => ell (iadd u (iadd a b))) p)) by auto.
  now rewrite (iadd_comm (nth i B []) (nth j B [])).
Qed.
Lemma gap_psd : PSD (length (basis_list 3 2)) (hmat gap (basis_list 3 2)).
Proof.
  split; [apply is_mat_square|]. split; [apply hmat_sym|]. rewrite basis_32. intros z Lz. cbn [length] in Lz.
  destruct z as [|a [|b [|y1 [|c [|d [|y2 [|e [|y3 [|y4 [|f [|]]]]]]]]]]]; try discriminate Lz. unfold quad, dot. cbn. clear Lz.
  assert (S : forall k x, 0 <= k -> 0 <= k * (x * x)) by (intros; apply Rmult_le_pos; nra).
  pose proof (S 30930499227088 ((43) * a + (21) * b + (23) * c + (31) * d + (33) * f) ltac:(lra)) as S1.
  pose proof (S 34675447564 ((892) * b + (-483) * c + (123) * d + (301) * e + (-392) * f) ltac:(lra)) as S2.
  pose proof (S 114370196 ((13037) * c + (-7165) * d + (9625) * e + (-3200) * f) ltac:(lra)) as S3.
  pose proof (S 4247927 ((24016) * d + (12581) * e + (-176068) * f) ltac:(lra)) as S4.
  pose proof (S 125011793 ((1329) * e + (22412) * f) ltac:(lra)) as S5.
  pose proof (S 133751717481650400 f ltac:(lra)) as S6. clear S. lra.
Qed.
Lemma gap_match : moments_match J_gap (hmat gap (basis_list 3 2)).
Proof.
  rewrite basis_32. split; [reflexivity|]. split.
  - intros i Hi. destruct i as [|[|[|i]]]; try lia; reflexivity.
  - intros i j Hi Hj. destruct i as [|[|[|i]]], j as [|[|[|j]]]; try lia; reflexivity.
Qed.
Lemma lmat_psd p : (forall a b c d, 0 <= quad (lmat gap p (basis_list 3 1)) [a; b; c; d]) -> PSD 4 (lmat gap p (basis_list 3 1)).
Proof.
  intro H. split; [apply (is_mat_square (fun a b => functional (fun u => gap (iadd u (iadd a b))) p) (basis_list 3 1))|]. split; [exact (lmat_sym gap p (basis_list 3 1))|].
  intros z Lz. destruct (len4_inv _ Lz) as (a & b & c & d & ->). apply H.
Qed.
Lemma functional_affine ell a b : length a = 3%nat ->
  functional ell (pol_affine a b 0) = b * ell [0; 0; 0]%nat - (nth 0 a 0 * ell [1; 0; 0]%nat + nth 1 a 0 * ell [0; 1; 0]%nat + nth 2 a 0 * ell [0; 0; 1]%nat).
Proof.
  intro La. unfold pol_affine. rewrite affine_table. rewrite functional_init by apply affine_table_ok. rewrite La. unfold functional. cbn. ring.
Qed.
Lemma small_degree p : (exists kv, In kv p /\ (0 < degree_of (fst kv))%nat) -> (forall kv, In kv p -> (degree_of (fst kv) <= 2)%nat) ->
  forall deg, pol_degree p = Ok deg -> half_up deg = 1%nat.
Proof.
  intros (kv & Hk & Dk) H deg E. apply degree_max in E as ((kv' & Hk' & E) & Hm). specialize (Hm _ Hk). specialize (H _ Hk').
  assert (deg = 1 \/ deg = 2)%nat as [->| ->] by lia; reflexivity.
Qed.
Lemma affine_half a b : length a = 3%nat -> (exists i, (i < 3)%nat /\ nth i a 0 <> 0) -> forall deg, pol_degree (pol_affine a b 0) = Ok deg -> half_up deg = 1%nat.
Proof.
  intros La (i & Hi & N). apply small_degree.
  - exists (unit_idx 3 i, - nth i a 0). split.
    + unfold pol_affine. rewrite affine_table, pol_init_filter by apply affine_table_ok. apply filter_In. split.
      * right. rewrite La. apply in_map_iff. exists i. split; [reflexivity|]. apply in_seq. lia.
      * cbn [snd]. destruct (isclose 0 0 (- nth i a 0) 0) eqn:E; [|reflexivity]. apply isclose_zero in E. exfalso. apply N. lra.
    + destruct i as [|[|[|i]]]; try lia; cbn; lia.
  - intros kv Hk. apply affine_in in Hk. lia.
Qed.
Lemma box_gap_polys b : box_init [1; 1; 1] None None = Ok b ->
  p_polys (b_poly b) = [pol_affine [1; 0; 0] 1 0; pol_affine [-1; 0; 0] 1 0; pol_affine [0; 1; 0] 1 0; pol_affine [0; -1; 0] 1 0; pol_affine [0; 0; 1] 1 0; pol_affine [0; 0; -1] 1 0].
Proof.
  intro Hb. apply box_init_inv in Hb as (_ & _ & _ & E2 & E3 & _ & _ & E8 & E9 & _). unfold p_polys.
  assert (EA : b_A b = [[1; 0; 0]; [-1; 0; 0]; [0; 1; 0]; [0; -1; 0]; [0; 0; 1]; [0; 0; -1]]) by (rewrite E8, E3; cbn; list_eq; ring).
  assert (Eb : b_b b = [1; 1; 1; 1; 1; 1]) by (rewrite E9, EA, E2; cbn; list_eq; ring).
  change (p_A (b_poly b)) with (b_A b). change (p_b (b_poly b)) with (b_b b). rewrite EA, Eb. reflexivity.
Qed.
Ltac gap_quad := unfold quad, lmat; rewrite basis_31; cbn [map]; rewrite !functional_affine by reflexivity; unfold dot; cbn.
Lemma box_gap b : box_init [1; 1; 1] None None = Ok b -> forall eps, 0 <= eps -> exists P, poly_moment_sdp_constraints (b_poly b) (PVmat J_gap) eps 2 = Ok P /\ P.
Proof.
  intros Hb eps Heps. assert (HQ : orthogonal 3 (pose_rot 3 None)) by (apply orthogonal_eye; lia). destruct (box_faces _ _ _ b Hb HQ) as (Hdim & HA & Hf & _).
  unfold poly_moment_sdp_constraints. rewrite Hdim, (pv_ok (PVmat J_gap) J_gap eps eq_refl (proj1 J_gap_ok) Heps). cbn [Nat.eqb assert_ bind fst].
  rewrite (box_gap_polys b Hb). apply (sdp_functional _ _ 2 gap ltac:(lia)).
  - intros q Hq. assert (G : forall a b, length a = 3%nat -> (exists i, (i < 3)%nat /\ nth i a 0 <> 0) -> poly_small 2 (pol_affine a b 0)).
    { intros a b' La Na. split; [rewrite <- La; apply affine_ok|]. destruct (degree_bound (pol_affine a b' 0) 1) as (deg & E & B).
      - apply affine_nonempty. rewrite La. auto.
      - intros kv Hk. eapply affine_in; eauto.
      - exists deg. split; [exact E|lia]. }
    destruct Hq as [<-|[<-|[<-|[<-|[<-|[<-|[]]]]]]]; apply G; try reflexivity;
      [exists 0%nat|exists 0%nat|exists 1%nat|exists 1%nat|exists 2%nat|exists 2%nat]; (split; [lia|cbn; lra]).
  - exact gap_psd.
  - exact gap_match.
  - assert (G : forall a b deg, length a = 3%nat -> (exists i, (i < 3)%nat /\ nth i a 0 <> 0) -> pol_degree (pol_affine a b 0) = Ok deg -> (forall x y z t, 0 <= quad (lmat gap (pol_affine a b 0) (basis_list 3 1)) [x; y; z; t]) ->
      PSD (length (basis_list 3 (2 - half_up deg))) (lmat gap (pol_affine a b 0) (basis_list 3 (2 - half_up deg)))).
    { intros a b' deg La Na E H. rewrite (affine_half a b' La Na deg E). change (2 - 1)%nat with 1%nat. now apply lmat_psd. }
    intros q deg Hq E. destruct Hq as [<-|[<-|[<-|[<-|[<-|[<-|[]]]]]]]; apply G; try reflexivity; try exact E;
      try ((exists 0%nat; split; [lia|cbn; lra]) || (exists 1%nat; split; [lia|cbn; lra]) || (exists 2%nat; split; [lia|cbn; lra])); clear; intros a b y c; gap_quad.
    + pose proof (Rle_0_sqr (22 * a + (-10) * b + 23 * c)) as S1. pose proof (Rle_0_sqr (93 * b + 38 * c)) as S2. pose proof (Rle_0_sqr c) as S3. unfold Rsqr in *. lra.
    + pose proof (Rle_0_sqr (64 * a + 52 * b + 23 * c)) as S1. pose proof (Rle_0_sqr (108 * b + (-187) * c)) as S2. pose proof (Rle_0_sqr c) as S3. unfold Rsqr in *. lra.
    + pose proof (Rle_0_sqr (43 * a + 21 * b + 23 * c)) as S1. pose proof (Rle_0_sqr (892 * b + (-483) * c)) as S2. pose proof (Rle_0_sqr c) as S3. unfold Rsqr in *. lra.
    + pose proof (Rle_0_sqr (43 * a + 21 * b + 23 * c)) as S1. pose proof (Rle_0_sqr (892 * b + (-483) * c)) as S2. pose proof (Rle_0_sqr c) as S3. unfold Rsqr in *. lra.
    + pose proof (Rle_0_sqr (20 * a + 21 * b + (-10) * c)) as S1. pose proof (Rle_0_sqr (39 * b + 70 * c)) as S2. pose proof (Rle_0_sqr c) as S3. unfold Rsqr in *. lra.
    + pose proof (Rle_0_sqr (66 * a + 21 * b + 56 * c)) as S1. pose proof (Rle_0_sqr (689 * b + (-238) * c)) as S2. pose proof (Rle_0_sqr c) as S3. unfold Rsqr in *. lra.
Qed.
(** no masses with x, z <= 1 have these moments *)
Lemma gap_not_realizable (K : vec -> Prop) : (forall p, length p = 3%nat -> K p -> nth 0 p 0 <= 1 /\ nth 2 p 0 <= 1) -> ~ realizable_J K J_gap.
Proof.
  intros HK (s & Ho & Hn & Hin & (_ & HE)).
  assert (N : 0 <= lsum (map (fun mp => fst mp * ((1 - nth 0 (snd mp) 0) * (1 - nth 2 (snd mp) 0))) s)).
  { apply lsum_nonneg. intros t Ht. apply in_map_iff in Ht as (mp & <- & Hm). destruct (HK _ (Ho mp Hm) (Hin mp Hm)). pose proof (Hn mp Hm).
    apply Rmult_le_pos; [auto|]. apply Rmult_le_pos; lra. }
  assert (E : lsum (map (fun mp => fst mp * ((1 - nth 0 (snd mp) 0) * (1 - nth 2 (snd mp) 0))) s) = entry J_gap 3 3 + (-1) * entry J_gap 0 3 + (-1) * entry J_gap 2 3 + entry J_gap 0 2).
  { rewrite !HE by lia. rewrite <- !lsum_map_scal, <- !lsum_map_plus. f_equal. apply map_ext_in. intros mp Hm. destruct (len3_inv _ (Ho mp Hm)) as (x & y & z & ->). cbn. ring. }
  rewrite E in N. cbn in N. lra.
Qed.
Lemma cyl_gap c : cyl_init 2 1 None None = Ok c -> forall eps, 0 <= eps -> exists P, cyl_moment_sdp_constraints c (PVmat J_gap) eps 2 = Ok P /\ P.
Proof.
  intros Hc eps Heps. apply cyl_init_inv in Hc as (_ & _ & MQ & Lc & ->). unfold cyl_moment_sdp_constraints.
  rewrite (pv_ok (PVmat J_gap) J_gap eps eq_refl (proj1 J_gap_ok) Heps). cbn [bind fst c_rot c_center cyl_of]. destruct (transform_inv_ok _ _ MQ Lc) as (ET & MT). rewrite ET. cbn [bind].
  set (c := cyl_of 2 1 (pose_rot 3 None) (pose_tr 3 None)).
  assert (EJ : mat_mul (mat_mul (inv_T (pose_rot 3 None) (pose_tr 3 None)) J_gap) (transpose (inv_T (pose_rot 3 None) (pose_tr 3 None))) = J_gap).
  { unfold inv_T. cbn. unfold J_gap. list_eq; ring. }
  rewrite EJ. apply (sdp_functional _ _ 2 gap ltac:(lia)).
  - apply cyl_polys_small. lia.
  - exact gap_psd.
  - exact gap_match.
  - assert (ND2 : NoDup [[0; 0; 1]%nat; [0; 0; 0]%nat]) by (repeat constructor; cbn; intuition discriminate).
    assert (ND3 : NoDup [[2; 0; 0]%nat; [0; 2; 0]%nat; [0; 0; 0]%nat]) by (repeat constructor; cbn; intuition discriminate).
    assert (H1 : forall tbl k v deg, In (k, v) tbl -> v <> 0 -> (0 < degree_of k)%nat -> NoDup (map fst tbl) -> (forall kv, In kv tbl -> (degree_of (fst kv) <= 2)%nat) ->
      pol_degree (pol_init tbl 0) = Ok deg -> (forall x y z t, 0 <= quad (lmat gap (pol_init tbl 0) (basis_list 3 1)) [x; y; z; t]) ->
      PSD (length (basis_list 3 (2 - half_up deg))) (lmat gap (pol_init tbl 0) (basis_list 3 (2 - half_up deg)))).
    { intros tbl k v deg Hin Nv Dk ND Hb E H. rewrite (small_degree (pol_init tbl 0)) with (deg := deg); [now apply lmat_psd| | |exact E].
      - exists (k, v). split; [|exact Dk]. rewrite pol_init_filter by exact ND. apply filter_In. split; [exact Hin|]. cbn [snd].
        destruct (isclose 0 0 v 0) eqn:Ei; [apply isclose_zero in Ei; contradiction|reflexivity].
      - intros kv Hk. rewrite pol_init_filter in Hk by exact ND. apply filter_In in Hk as (Hk & _). auto. }
    intros p deg Hp E. unfold cyl_poly0s in Hp. destruct Hp as [<-|[<-|[<-|[]]]].
    + apply (H1 _ [0; 0; 1]%nat 1); [now left|lra|cbn; lia|exact ND2| |exact E|].
      * intros kv [<-|[<-|[]]]; cbn; lia.
      * intros a b y d. unfold quad, lmat. rewrite basis_31. cbn [map]. rewrite !functional_init by exact ND2. unfold functional, dot. cbn.
        pose proof (Rle_0_sqr (66 * a + 21 * b + 56 * d)) as S1. pose proof (Rle_0_sqr (689 * b + (-238) * d)) as S2. pose proof (Rle_0_sqr d) as S3. unfold Rsqr in *. lra.
    + apply (H1 _ [0; 0; 1]%nat (-1)); [now left|lra|cbn; lia|exact ND2| |exact E|].
      * intros kv [<-|[<-|[]]]; cbn; lia.
      * intros a b y d. unfold quad, lmat. rewrite basis_31. cbn [map]. rewrite !functional_init by exact ND2. unfold functional, dot. cbn.
        pose proof (Rle_0_sqr (20 * a + 21 * b + (-10) * d)) as S1. pose proof (Rle_0_sqr (39 * b + 70 * d)) as S2. pose proof (Rle_0_sqr d) as S3. unfold Rsqr in *. lra.
    + apply (H1 _ [2; 0; 0]%nat (-1)); [now left|lra|cbn; lia|exact ND3| |exact E|].
      * intros kv [<-|[<-|[<-|[]]]]; cbn; lia.
      * intros a b y d. unfold quad, lmat. rewrite basis_31. cbn [map]. rewrite !functional_init by exact ND3. unfold functional, dot. cbn.
        pose proof (Rle_0_sqr (12 * a + 3 * b + 16 * d)) as S1. pose proof (Rle_0_sqr b) as S2. pose proof (Rle_0_sqr d) as S3. unfold Rsqr in *. lra.
Qed.

(** ** vertices of the cube *)
Definition J_cut : mat := [[4; 0; -2; 0]; [0; 4; -2; 0]; [-2; -2; 3; 2]; [0; 0; 2; 4]].
Lemma J_cut_psd : PSD 4 J_cut.
Proof.
  split; [apply is_mat44|]. split.
  - intros i j Hi Hj. destruct i as [|[|[|[|i]]]], j as [|[|[|[|j]]]]; try lia; reflexivity.
  - intros z Lz. destruct (len4_inv _ Lz) as (a & b & c & d & ->). unfold quad, dot. cbn.
    pose proof (Rle_0_sqr (2 * a - c)) as S1. pose proof (Rle_0_sqr (2 * b - c)) as S2. pose proof (Rle_0_sqr (c + 2 * d)) as S3. unfold Rsqr in *. lra.
Qed.
Lemma box_cut b : box_init [1; 1; 1] None None = Ok b -> exists P, box_moment_custom_vertex_constraints b (PVmat J_cut) 0 = Ok P /\ P.
Proof.
  intro Hb. pose proof J_cut_psd as HPSD. pose proof HPSD as (MJ & SJ & HP). pose proof (box_init_inv _ _ _ b Hb) as (Lh & _ & Eh & Ec & Er & MQ & Lc & _). rewrite Er in MQ. rewrite Ec in Lc.
  unfold box_moment_custom_vertex_constraints. rewrite (pv_ok (PVmat J_cut) J_cut 0 eq_refl MJ ltac:(lra)). cbn [bind]. rewrite Er, Ec, Eh.
  destruct (transform_inv_ok _ _ MQ Lc) as (ET & MT). rewrite ET. cbn [bind]. eexists. split; [reflexivity|].
  assert (EJ : mat_mul (mat_mul (inv_T (pose_rot 3 None) (pose_tr 3 None)) J_cut) (transpose (inv_T (pose_rot 3 None) (pose_tr 3 None))) = J_cut).
  { unfold inv_T. cbn. unfold J_cut. list_eq; ring. }
  rewrite EJ. clear EJ. destruct (corners_len [1; 1; 1] eq_refl) as (_ & _ & R4).
  exists [0; 1; 1; 0; 1; 0; 1; 0]. split; [split; [reflexivity|]; intros [|[|[|[|[|[|[|[|i]]]]]]]] Hi; cbn; lra || lia|]. cbv zeta.
  assert (EE : forall i j, (i < 4)%nat -> (j < 4)%nat -> entry (msum 4 4 (map2 (fun m V => mscale m (outer V V)) [0; 1; 1; 0; 1; 0; 1; 0] (map (fun w => w ++ [1]) (box_vertices [1; 1; 1])))) i j
    = vsum (mom2 i j) [0; 1; 1; 0; 1; 0; 1; 0] (box_vertices [1; 1; 1])) by (intros i j Hi Hj; rewrite outer_sum_entry by auto; now rewrite vsum_map_rows).
  split; [apply psd_shift; [exact MJ|now apply psd_shift0]|].
  split; [rewrite EE by lia; unfold vsum, mom2, J_cut; cbn; lra|]. split.
  - intros i j Hij. rewrite EE by lia. destruct i as [|[|[|i]]], j as [|[|[|[|j]]]]; try lia; unfold vsum, mom2, J_cut; cbn; lra.
  - intros i Hi. rewrite EE by lia. destruct i as [|[|[|i]]]; try lia; unfold vsum, mom2, J_cut; cbn; lra.
Qed.
(** the masses would lie on the plane x + y + 2 z = 1, where 3 + (x + y) - 2 (x^2 + y^2) - x y >= 0 *)
Lemma cut_not_realizable (K : vec -> Prop) : (forall p, length p = 3%nat -> K p -> -1 <= nth 0 p 0 <= 1 /\ -1 <= nth 1 p 0 <= 1 /\ -1 <= nth 2 p 0 <= 1) -> ~ realizable_J K J_cut.
Proof.
  intros HK (s & Ho & Hn & Hin & (_ & HE)).
  set (f := fun mp : R * vec => fst mp * ((nth 0 (snd mp) 0 + nth 1 (snd mp) 0 + 2 * nth 2 (snd mp) 0 - 1) * (nth 0 (snd mp) 0 + nth 1 (snd mp) 0 + 2 * nth 2 (snd mp) 0 - 1))).
  set (g := fun mp : R * vec => fst mp * (3 + nth 0 (snd mp) 0 + nth 1 (snd mp) 0 - 2 * (nth 0 (snd mp) 0 * nth 0 (snd mp) 0 + nth 1 (snd mp) 0 * nth 1 (snd mp) 0) - nth 0 (snd mp) 0 * nth 1 (snd mp) 0)).
  assert (Ef : lsum (map f s) = entry J_cut 0 0 + entry J_cut 1 1 + 4 * entry J_cut 2 2 + entry J_cut 3 3 + 2 * entry J_cut 0 1 + 4 * entry J_cut 0 2 + 4 * entry J_cut 1 2
    + (-2) * entry J_cut 0 3 + (-2) * entry J_cut 1 3 + (-4) * entry J_cut 2 3).
  { rewrite !HE by lia. rewrite <- !lsum_map_scal, <- !lsum_map_plus. f_equal. apply map_ext_in. intros mp Hm. unfold f. destruct (len3_inv _ (Ho mp Hm)) as (x & y & z & ->). cbn. ring. }
  assert (Eg : lsum (map g s) = 3 * entry J_cut 3 3 + entry J_cut 0 3 + entry J_cut 1 3 + (-2) * entry J_cut 0 0 + (-2) * entry J_cut 1 1 + (-1) * entry J_cut 0 1).
  { rewrite !HE by lia. rewrite <- !lsum_map_scal, <- !lsum_map_plus. f_equal. apply map_ext_in. intros mp Hm. unfold g. destruct (len3_inv _ (Ho mp Hm)) as (x & y & z & ->). cbn. ring. }
  assert (Zf : lsum (map f s) = 0) by (rewrite Ef; cbn; lra). assert (Ng : lsum (map g s) = -4) by (rewrite Eg; cbn; lra). clear Ef Eg HE.
  assert (F0 : forall mp, In mp s -> f mp = 0).
  { assert (P : forall mp, In mp s -> 0 <= f mp) by (intros mp Hm; unfold f; apply Rmult_le_pos; [auto|apply Rle_0_sqr]). clear - Zf P.
    induction s as [|mp s IH]; [easy|]. cbn in Zf. change (fold_right Rplus 0) with lsum in Zf.
    assert (0 <= lsum (map f s)) by (apply lsum_nonneg; intros t Ht; apply in_map_iff in Ht as (mp' & <- & Hm); apply P; now right).
    pose proof (P mp (or_introl eq_refl)). intros mp' [<-|Hm]; [lra|]. apply IH; [lra|intros; apply P; now right|exact Hm]. }
  assert (0 <= lsum (map g s)); [|lra]. apply lsum_nonneg. intros t Ht. apply in_map_iff in Ht as (mp & <- & Hm).
  specialize (F0 mp Hm). pose proof (Hn mp Hm) as Pm. destruct (HK _ (Ho mp Hm) (Hin mp Hm)) as (Hx & Hy & Hz). unfold f, g in *. clear - F0 Pm Hx Hy Hz.
  destruct (Rle_lt_or_eq_dec _ _ Pm) as [Q|Q]; [|rewrite <- Q; lra]. apply Rmult_integral in F0 as [F0|F0]; [lra|]. apply Rmult_integral in F0.
  set (x := nth 0 (snd mp) 0) in *. set (y := nth 1 (snd mp) 0) in *. set (z := nth 2 (snd mp) 0) in *. clearbody x y z. assert (S : -1 <= x + y) by lra. clear F0 Hz.
  apply Rmult_le_pos; [auto|]. clear Q Pm.
  destruct (Rle_dec 0 y) as [Y|Y].
  { pose proof (Rmult_le_pos (1 - x) (1 + x)) as A. pose proof (Rmult_le_pos y (1 - y)) as B. pose proof (Rmult_le_pos (1 + x) (1 - y)) as C. lra. }
  destruct (Rle_dec 0 x) as [X|X].
  { pose proof (Rmult_le_pos (1 - y) (1 + y)) as A. pose proof (Rmult_le_pos x (1 - x)) as B. pose proof (Rmult_le_pos (1 + y) (1 - x)) as C. lra. }
  pose proof (Rmult_le_pos (1 + (x + y)) (3 - 2 * (x + y))) as A. pose proof (Rmult_le_pos (- x) (- y)) as B. lra.
Qed.
