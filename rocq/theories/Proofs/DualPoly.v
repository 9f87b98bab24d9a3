(** C88: the vertex constraints of a polyhedron test exactly the convex quadratics; realizable matrices pass all of them. *)
From Coq Require Import Classical.
From Verif Require Import Base.Vec Base.VecFacts Spec.Basic Spec.Objects Spec.Realizable Spec.Shapes Spec.ShapeObjects Spec.PolySpec Spec.Bodies Spec.Quadratic
  Model.Util Model.Constraint Model.Inertial Model.Polydd Model.Poly Model.Ellipsoid Model.Box Model.Cylinder Model.Realize Model.RigidBody
  Proofs.Coord Proofs.EllPairP Proofs.LinAlg Proofs.MatAlg Proofs.InertialP Proofs.Hull Proofs.Compact Proofs.ClosestE Proofs.Decomp Proofs.PimP Proofs.SdpP Proofs.VertexP Proofs.SdpSound Proofs.CylP Proofs.CylCustom Proofs.Carath Proofs.RealizeW Proofs.SdpGap Proofs.SdpGapW Proofs.SdpLimit Proofs.SdpLimitB Proofs.SdpLimitW Proofs.Duality Proofs.DualBox Proofs.DualCone.

Lemma qint_outer S z : is_mat 4 4 S -> length z = 4%nat -> qint S (outer z z) = quad S z.
Proof. intros HS Lz. unfold qint, quad. destruct_vecs. cbn. ring. Qed.
Lemma qint_outer_neg S z : is_mat 4 4 S -> length z = 4%nat -> qint S (mscale (-1) (outer z z)) = - quad S z.
Proof. intros HS Lz. unfold qint, quad. destruct_vecs. cbn. ring. Qed.
Lemma outer_ok (z : vec) : length z = 4%nat -> is_mat 4 4 (outer z z) /\ symmetric 4 (outer z z).
Proof. intro L. split; [rewrite <- L at 1 2; apply is_mat_outer; auto|]. intros i j _ _. rewrite !entry_outer. ring. Qed.
Lemma hom_length (v : vec) (t : R) : length v = 3%nat -> length (v ++ [t]) = 4%nat.
Proof. intro H. rewrite app_length, H. reflexivity. Qed.
(** ** realizable matrices *)
Lemma qint_pim S J s : is_mat 4 4 S -> pms_ok s -> pim_of s J -> qint S J = lsum (map (fun mp => fst mp * qval S (snd mp)) s).
Proof.
  intros HS Ho (HJ & HE). assert (SJ : symmetric 4 J) by (intros i j Hi Hj; rewrite !HE by auto; f_equal; apply map_ext; intro; ring).
  rewrite qint_qsum by auto. unfold qsum. rewrite (rsum_ext 4 _ (fun i => rsum 4 (fun j => lsum (map (fun mp => entry S i j * (fst mp * nth i (snd mp ++ [1]) 0 * nth j (snd mp ++ [1]) 0)) s)))).
  - rewrite (rsum_ext 4 _ (fun i => lsum (map (fun mp => rsum 4 (fun j => entry S i j * (fst mp * nth i (snd mp ++ [1]) 0 * nth j (snd mp ++ [1]) 0))) s))) by (intros; apply rsum_lsum). rewrite rsum_lsum. f_equal. apply map_ext_in. intros mp Hm.
    rewrite qval_qsum by auto. unfold qsum. rewrite <- rsum_scal. apply rsum_ext. intros i Hi. rewrite <- rsum_scal. apply rsum_ext. intros j Hj. unfold mom2. ring.
  - intros i Hi. apply rsum_ext. intros j Hj. rewrite HE by auto. clear. induction s as [|mp s IH]; [cbn; ring|]. cbn [map]. rewrite !lsum_c, <- IH. ring.
Qed.
Lemma realizable_scale K t J : 0 <= t -> realizable_J K J -> realizable_J K (mscale t J).
Proof.
  intros Ht (s & Ho & Hn & Hi & (MJ & HJ)). exists (map (fun mp => (t * fst mp, snd mp)) s). split; [|split; [|split; [|split]]].
  - intros mp Hm. apply in_map_iff in Hm as (m0 & <- & Hm). cbn [snd]; now apply Ho.
  - intros mp Hm. apply in_map_iff in Hm as (m0 & <- & Hm). cbn. apply Rmult_le_pos; auto.
  - intros mp Hm. apply in_map_iff in Hm as (m0 & <- & Hm). cbn [snd]; now apply Hi.
  - now apply is_mat_mscale.
  - intros i j Hii Hj. rewrite entry_mscale, HJ by auto. clear. induction s as [|mp s IH]; [cbn; ring|]. cbn [map fst snd]. rewrite !lsum_c, <- IH. ring.
Qed.
Lemma realizable_zero K : realizable_J K (zeros2 4 4).
Proof. exists []. split; [intros ? []|]. split; [intros ? []|]. split; [intros ? []|]. split; [apply is_mat_zeros2|]. intros i j Hi Hj. destruct i as [|[|[|[|i]]]]; try lia; destruct j as [|[|[|[|j]]]]; try lia; reflexivity. Qed.
Lemma realizable_point (K : vec -> Prop) x : length x = 3%nat -> K x -> realizable_J K (outer (x ++ [1]) (x ++ [1])).
Proof.
  intros Lx Kx. exists [(1, x)]. split; [intros mp [<-|[]]; exact Lx|]. split; [intros mp [<-|[]]; cbn; lra|]. split; [intros mp [<-|[]]; exact Kx|]. split; [now apply outer_ok, hom_length|].
  intros i j Hi Hj. rewrite entry_outer. cbn [map fst snd]. rewrite lsum_c. change (lsum []) with 0. ring.
Qed.
Lemma realizable_tests K J : compact 3 K -> is_mat 4 4 J -> symmetric 4 J ->
  (realizable_J K J <-> forall S, is_mat 4 4 S -> symmetric 4 S -> (forall x, length x = 3%nat -> K x -> qval S x <= 0) -> qint S J <= 0).
Proof.
  intros HK HJ SJ. split.
  - intros (s & Ho & Hn & Hi & HP) S HS SS Hq. rewrite (qint_pim S J s) by auto. clear HP. induction s as [|mp s IH]; [cbn; lra|]. cbn [map]. rewrite lsum_c.
    assert (fst mp * qval S (snd mp) <= 0). { pose proof (Hn mp ltac:(now left)). assert (qval S (snd mp) <= 0) by (apply Hq; [apply Ho|apply Hi]; now left). nra. }
    assert (lsum (map (fun mp => fst mp * qval S (snd mp)) s) <= 0) by (apply IH; intros m Hm; [apply Ho|apply Hn|apply Hi]; now right). lra.
  - intro H. apply NNPP. intro HN. destruct (mat_sep (realizable_J K) J HJ SJ) as (S & HS & SS & Neg & Pos); auto.
    + intros A MA SA HA. apply realizable_closed; auto. intros e He. destruct (HA e He) as (A' & _ & _ & H1 & H2). eauto.
    + intros A B MA SA MB SB H1 H2. apply (realizable_mono (fun x => K x \/ K x)); [tauto|]. now apply realizable_add.
    + intros t A Ht MA SA HR. now apply realizable_scale.
    + apply realizable_zero.
    + specialize (H S HS SS). assert (qint S J <= 0); [|lra]. apply H. intros x Lx Kx. unfold qval. rewrite <- qint_outer by auto using hom_length. destruct (outer_ok (x ++ [1]) (hom_length x 1 Lx)). apply Neg; auto. now apply realizable_point.
Qed.
Lemma compact_union n (K1 K2 : vec -> Prop) : compact n K1 -> compact n K2 -> compact n (fun x => K1 x \/ K2 x).
Proof.
  intros H1 H2 F HA HN. destruct (classic (forall e, 0 < e -> exists z, length z = n /\ K1 z /\ F e z)) as [Y|Y].
  - destruct (H1 F HA Y) as (a & La & Ka & Ha). exists a. split; [auto|]. split; [auto|]. intros e He. destruct (Ha e He) as (z & A & B & C). exists z. auto.
  - apply not_all_ex_not in Y as (e0 & Y). apply imply_to_and in Y as (He0 & Y).
    assert (Z : forall e, 0 < e -> exists z, length z = n /\ K2 z /\ F e z).
    { intros e He. destruct (HN (Rmin e e0)) as (z & Lz & [Kz|Kz] & Fz); [now apply Rmin_pos| |].
      - exfalso. apply Y. exists z. split; [auto|]. split; [auto|]. apply (HA (Rmin e e0)); [split; [now apply Rmin_pos|apply Rmin_r]|auto].
      - exists z. split; [auto|]. split; [auto|]. apply (HA (Rmin e e0)); [split; [now apply Rmin_pos|apply Rmin_l]|auto]. }
    destruct (H2 F HA Z) as (a & La & Ka & Ha). exists a. split; [auto|]. split; [auto|]. intros e He. destruct (Ha e He) as (z & A & B & C). exists z. auto.
Qed.
Lemma union_compact ss Ks : Forall2 shape_is ss Ks -> compact 3 (union_of Ks).
Proof.
  induction 1 as [|s K ss Ks HK HF IH].
  - intros F HA HN. destruct (HN 1 ltac:(lra)) as (z & _ & (K & [] & _) & _).
  - apply (compact_ext 3 (fun x => K x \/ union_of Ks x)); [|apply compact_union; auto; now apply (shape_compact s)]. intros x _. split.
    + intros [H|(K' & HI & H)]; [exists K; split; [now left|auto]|exists K'; split; [now right|auto]].
    + intros (K' & [<-|HI] & H); [now left|right; exists K'; auto].
Qed.
Lemma shape_tests s K J : shape_is s K -> is_mat 4 4 J -> symmetric 4 J ->
  (realizable_J K J <-> forall S, is_mat 4 4 S -> symmetric 4 S -> (forall x, length x = 3%nat -> K x -> qval S x <= 0) -> qint S J <= 0).
Proof. intros Hs. apply realizable_tests. now apply (shape_compact s). Qed.
Lemma body_tests ut b Ks v J : Forall2 shape_is (bd_shapes b) Ks -> (forall s, In s (bd_shapes b) -> shape_proper s) -> pv_value v J -> is_mat 4 4 J -> symmetric 4 J ->
  ((forall d, (0 < d)%nat -> exists P, rb_moment_sdp_constraints ut b v 0 d = Ok P /\ P) <->
   forall S, is_mat 4 4 S -> symmetric 4 S -> (forall x, length x = 3%nat -> union_of Ks x -> qval S x <= 0) -> qint S J <= 0).
Proof. intros HF HP Hv HJ SJ. rewrite (body_all ut b Ks v J) by auto. apply realizable_tests; auto. now apply (union_compact (bd_shapes b)). Qed.
Lemma body_certificate ut b Ks v J : Forall2 shape_is (bd_shapes b) Ks -> (forall s, In s (bd_shapes b) -> shape_proper s) -> pv_value v J -> is_mat 4 4 J -> symmetric 4 J ->
  (exists d P, (0 < d)%nat /\ rb_moment_sdp_constraints ut b v 0 d = Ok P /\ ~ P) ->
  exists S, is_mat 4 4 S /\ symmetric 4 S /\ (forall x, length x = 3%nat -> union_of Ks x -> qval S x <= 0) /\ 0 < qint S J.
Proof.
  intros HF HP Hv HJ SJ (d & P & Hd & E & HN). apply NNPP. intro X. apply HN. assert (Y : forall S, is_mat 4 4 S -> symmetric 4 S -> (forall x, length x = 3%nat -> union_of Ks x -> qval S x <= 0) -> qint S J <= 0).
  { intros S HS SS Hq. apply Rnot_lt_le. intro L. apply X. exists S. auto. }
  apply (body_tests ut b Ks v J HF HP Hv HJ SJ) with (d := d) in Y; [|exact Hd]. destruct Y as (P' & E' & HP'). rewrite E in E'. injection E' as <-. exact HP'.
Qed.
(** ** convex quadratics *)
Definition convexS (S : mat) : Prop := forall u, length u = 3%nat -> 0 <= qdir S u.
Definition lin3 (S : mat) (x : nat -> R) (w : R) : R := 2 * (entry S 0 3 * x 0%nat + entry S 1 3 * x 1%nat + entry S 2 3 * x 2%nat) + entry S 3 3 * w.
Lemma convex_decomp S : is_mat 4 4 S -> symmetric 4 S -> convexS S -> exists zs, (forall z, In z zs -> length z = 3%nat) /\
  (forall i j, (i < 3)%nat -> (j < 3)%nat -> entry S i j = lsum (map (fun z => nth i z 0 * nth j z 0) zs)).
Proof.
  intros HS SS HC. assert (E : forall i j, (i < 3)%nat -> (j < 3)%nat -> entry (sub_mat 3 3 S) i j = entry S i j).
  { intros i j Hi Hj. clear - HS Hi Hj. destruct_vecs. destruct i as [|[|[|i]]]; try lia; destruct j as [|[|[|j]]]; try lia; reflexivity. }
  destruct (decomp_exists 3 (sub_mat 3 3 S)) as (zs & _ & H1 & H2).
  - split; [now apply sub_mat_33|]. split; [intros i j Hi Hj; rewrite !E by auto; apply SS; lia|]. intros x Lx. rewrite quad_sub3 by auto. now apply HC.
  - exists zs. split; [exact H1|]. intros i j Hi Hj. rewrite <- E by auto. now apply H2.
Qed.
Lemma qsum_split S A zs : symmetric 4 S -> (forall i j, (i < 4)%nat -> (j < 4)%nat -> A i j = A j i) ->
  (forall i j, (i < 3)%nat -> (j < 3)%nat -> entry S i j = lsum (map (fun z => nth i z 0 * nth j z 0) zs)) ->
  qsum S A = lsum (map (fun z => rsum 3 (fun i => rsum 3 (fun j => nth i z 0 * nth j z 0 * A i j))) zs) + lin3 S (fun i => A i 3%nat) (A 3%nat 3%nat).
Proof.
  intros SS SA HE. assert (E : lsum (map (fun z => rsum 3 (fun i => rsum 3 (fun j => nth i z 0 * nth j z 0 * A i j))) zs) = rsum 3 (fun i => rsum 3 (fun j => entry S i j * A i j))).
  { rewrite <- rsum_lsum. apply rsum_ext. intros i Hi. rewrite <- rsum_lsum. apply rsum_ext. intros j Hj. rewrite HE by auto. generalize (A i j). clear. intro a. induction zs as [|z zs IH]; [cbn; ring|]. cbn [map]. rewrite !lsum_c, IH. ring. }
  rewrite E. unfold qsum, lin3. cbn [rsum]. rewrite (SA 3%nat 0%nat), (SA 3%nat 1%nat), (SA 3%nat 2%nat), (SS 3%nat 0%nat), (SS 3%nat 1%nat), (SS 3%nat 2%nat) by lia. ring.
Qed.
Lemma sq_rsum z x : length z = 3%nat -> length x = 3%nat -> dot z x * dot z x = rsum 3 (fun i => rsum 3 (fun j => nth i z 0 * nth j z 0 * mom2 i j x)).
Proof. intros Lz Lx. unfold mom2. destruct_vecs. cbn. ring. Qed.
Lemma qdir_rsum J z : is_mat 4 4 J -> length z = 3%nat -> qdir J z = rsum 3 (fun i => rsum 3 (fun j => nth i z 0 * nth j z 0 * entry J i j)).
Proof. intros HJ Lz. unfold qdir, quad. destruct_vecs. cbn. ring. Qed.
Lemma qval_split S zs x : is_mat 4 4 S -> symmetric 4 S -> (forall z, In z zs -> length z = 3%nat) ->
  (forall i j, (i < 3)%nat -> (j < 3)%nat -> entry S i j = lsum (map (fun z => nth i z 0 * nth j z 0) zs)) -> length x = 3%nat ->
  qval S x = lsum (map (fun z => dot z x * dot z x) zs) + lin3 S (fun i => nth i x 0) 1.
Proof.
  intros HS SS Hz HE Lx. rewrite qval_qsum by auto. rewrite (qsum_split S _ zs) by (auto; intros; unfold mom2; ring). f_equal.
  - f_equal. apply map_ext_in. intros z Iz. symmetry. apply sq_rsum; auto.
  - unfold mom2, lin3. clear HE SS. destruct_vecs. cbn. ring.
Qed.
Lemma qint_split S zs J : is_mat 4 4 S -> symmetric 4 S -> is_mat 4 4 J -> symmetric 4 J -> (forall z, In z zs -> length z = 3%nat) ->
  (forall i j, (i < 3)%nat -> (j < 3)%nat -> entry S i j = lsum (map (fun z => nth i z 0 * nth j z 0) zs)) ->
  qint S J = lsum (map (fun z => qdir J z) zs) + lin3 S (fun i => entry J i 3) (entry J 3 3).
Proof.
  intros HS SS HJ SJ Hz HE. rewrite qint_qsum by auto. rewrite (qsum_split S _ zs) by (auto; intros; now apply SJ). f_equal.
  f_equal. apply map_ext_in. intros z Iz. symmetry. apply qdir_rsum; auto.
Qed.
Lemma vsum_lsum {A} (f : A -> vec -> R) (l : list A) w V : vsum (fun v => lsum (map (fun a => f a v) l)) w V = lsum (map (fun a => vsum (f a) w V) l).
Proof. induction l as [|a l IH]; cbn [map]; [rewrite (vsum_ext _ (fun v => 0 * 0)) by (intros; cbn; ring); rewrite (vsum_scal 0 (fun _ => 0)); cbn; ring|]. rewrite lsum_c, <- IH, <- vsum_plus. apply vsum_ext. intros v _. now rewrite lsum_c. Qed.
Lemma vsum_qval_split S zs w V : is_mat 4 4 S -> symmetric 4 S -> (forall z, In z zs -> length z = 3%nat) ->
  (forall i j, (i < 3)%nat -> (j < 3)%nat -> entry S i j = lsum (map (fun z => nth i z 0 * nth j z 0) zs)) -> rows_len 3 V -> length w = length V ->
  vsum (qval S) w V = lsum (map (fun z => vsum (fun v => dot z v * dot z v) w V) zs) + lin3 S (fun i => vsum (fun v => nth i v 0) w V) (lsum w).
Proof.
  intros HS SS Hz HE HV Lw. rewrite (vsum_ext _ (fun v => lsum (map (fun z => dot z v * dot z v) zs) + lin3 S (fun i => nth i v 0) 1)) by (intros v Hv; apply qval_split; auto).
  rewrite vsum_plus, vsum_lsum. f_equal. unfold lin3. rewrite <- (vsum_one w V Lw).
  rewrite (vsum_ext _ (fun v => 2 * entry S 0 3 * nth 0 v 0 + (2 * entry S 1 3 * nth 1 v 0 + (2 * entry S 2 3 * nth 2 v 0 + entry S 3 3 * 1)))) by (intros; ring).
  rewrite !vsum_plus, !vsum_scal. ring.
Qed.
Lemma lsum_map_le {A} (f g : A -> R) l : (forall a, In a l -> f a <= g a) -> lsum (map f l) <= lsum (map g l).
Proof. induction l as [|a l IH]; intro H; [cbn; lra|]. cbn [map]. rewrite !lsum_c. pose proof (H a ltac:(now left)). specialize (IH ltac:(intros; apply H; now right)). lra. Qed.
Lemma convex_hull_le S V x : is_mat 4 4 S -> symmetric 4 S -> convexS S -> rows_len 3 V -> (forall v, In v V -> qval S v <= 0) -> in_hull 3 V x -> qval S x <= 0.
Proof.
  intros HS SS HC HV Hq (w & Lw & Hw & ->). destruct (convex_decomp S HS SS HC) as (zs & Hz & HE).
  assert (Lx : length (combine_rows 3 w V) = 3%nat) by (apply combine_rows_length; auto).
  assert (Pw : forall i, 0 <= nth i w 0) by (intro i; destruct (Nat.lt_ge_cases i (length w)) as [Hi|Hi]; [apply Hw, nth_In, Hi|rewrite nth_overflow by exact Hi; lra]).
  apply Rle_trans with (vsum (qval S) w V); [|apply vsum_nonpos; auto].
  rewrite (qval_split S zs), (vsum_qval_split S zs) by auto. destruct Hw as (Hw & W1). apply Rplus_le_compat.
  - apply lsum_map_le. intros z Iz. rewrite (dot_combine_rows 3) by auto. apply (jensen w V (fun v => dot z v) Lw). now split.
  - apply Req_le. unfold lin3. rewrite W1, !nth_combine_vsum by lia. reflexivity.
Qed.
(** ** masses at the vertices *)
Definition pacc (V : mat) (J : mat) : Prop := exists ms, length ms = length V /\ (forall i, 0 <= nth i ms 0) /\
  forall S, is_mat 4 4 S -> symmetric 4 S -> convexS S -> qint S J <= vsum (qval S) ms V.
Lemma vsum_scale f t w V : vsum f (vscale t w) V = t * vsum f w V.
Proof. revert V; induction w as [|c w IH]; intros [|v V]; try (unfold vsum; cbn; ring). change (vscale t (c :: w)) with (t * c :: vscale t w). rewrite !vsum_cons, IH. ring. Qed.
Lemma qint_add S A B : is_mat 4 4 S -> is_mat 4 4 A -> symmetric 4 A -> is_mat 4 4 B -> symmetric 4 B -> qint S (madd A B) = qint S A + qint S B.
Proof.
  intros HS HA SA HB SB. rewrite !qint_qsum; auto using is_mat_madd; [|intros i j Hi Hj; rewrite !(entry_madd _ _ 4 4) by auto; now rewrite SA, SB]. unfold qsum. rewrite <- rsum_plus. apply rsum_ext. intros i Hi. rewrite <- rsum_plus. apply rsum_ext. intros j Hj. rewrite (entry_madd _ _ 4 4) by auto. ring.
Qed.
Lemma qint_scale S t A : is_mat 4 4 S -> is_mat 4 4 A -> symmetric 4 A -> qint S (mscale t A) = t * qint S A.
Proof.
  intros HS HA SA. rewrite !qint_qsum; auto using is_mat_mscale; [|intros i j Hi Hj; rewrite !entry_mscale; now rewrite SA]. unfold qsum. rewrite <- rsum_scal. apply rsum_ext. intros i Hi. rewrite <- rsum_scal. apply rsum_ext. intros j Hj. rewrite entry_mscale. ring.
Qed.
Lemma qint_zero S : is_mat 4 4 S -> qint S (zeros2 4 4) = 0.
Proof. intro HS. unfold qint. destruct_vecs. cbn. ring. Qed.
Lemma vsum_near f z a n V e : length z = n -> length a = n -> length V = n -> near n e z a -> Rabs (vsum f z V - vsum f a V) <= e * lsum (map (fun v => Rabs (f v)) V).
Proof.
  intros Lz La LV HN. subst n. revert z a La LV HN; induction V as [|v V IH]; intros [|c z] [|b a] La LV HN; try discriminate.
  - unfold vsum. cbn. rewrite Rminus_diag_eq, Rabs_R0 by reflexivity. lra.
  - rewrite !vsum_cons. cbn [map]. rewrite lsum_c. replace (c * f v + vsum f z V - (b * f v + vsum f a V)) with ((c - b) * f v + (vsum f z V - vsum f a V)) by ring. eapply Rle_trans; [apply Rabs_triang|]. rewrite Rabs_mult, Rmult_plus_distr_l. apply Rplus_le_compat.
    + apply Rmult_le_compat_r; [apply Rabs_pos|]. apply (HN 0%nat). cbn; lia.
    + apply IH; cbn in *; try lia. intros i Hi. apply (HN (S i)). cbn; lia.
Qed.
Lemma qint_near S A B e : is_mat 4 4 S -> is_mat 4 4 A -> symmetric 4 A -> is_mat 4 4 B -> symmetric 4 B -> closeJ e A B -> Rabs (qint S A - qint S B) <= e * rsum 4 (fun i => rsum 4 (fun j => Rabs (entry S i j))).
Proof.
  intros HS HA SA HB SB HC. rewrite !qint_qsum by auto. unfold qsum. replace (rsum 4 (fun i => rsum 4 (fun j => entry S i j * entry A i j)) - rsum 4 (fun i => rsum 4 (fun j => entry S i j * entry B i j))) with (rsum 4 (fun i => rsum 4 (fun j => entry S i j * (entry A i j - entry B i j)))) by (cbn [rsum]; ring).
  rewrite <- rsum_scal. eapply Rle_trans; [apply rsum_abs|]. apply rsum_le. intros i Hi. rewrite <- rsum_scal. eapply Rle_trans; [apply rsum_abs|]. apply rsum_le. intros j Hj. rewrite Rabs_mult, Rmult_comm. apply Rmult_le_compat_r; [apply Rabs_pos|]. now apply HC.
Qed.
Lemma le_slack a b c : 0 <= c -> (forall e, 0 < e -> a <= b + e * c) -> a <= b.
Proof.
  intros Hc H. apply Rnot_lt_le. intro L. specialize (H ((a - b) / (2 * (c + 1)))). assert (P : 0 < (a - b) / (2 * (c + 1))) by (apply Rdiv_lt_0_compat; lra). specialize (H P).
  assert ((a - b) / (2 * (c + 1)) * c <= (a - b) / 2); [|lra]. replace ((a - b) / 2) with ((a - b) / (2 * (c + 1)) * (c + 1)) by (field; lra). apply Rmult_le_compat_l; lra.
Qed.
Definition aff (a : vec) (t : R) : mat := [[0; 0; 0; nth 0 a 0 / 2]; [0; 0; 0; nth 1 a 0 / 2]; [0; 0; 0; nth 2 a 0 / 2]; [nth 0 a 0 / 2; nth 1 a 0 / 2; nth 2 a 0 / 2; t]].
Lemma aff_ok a t : length a = 3%nat -> is_mat 4 4 (aff a t) /\ symmetric 4 (aff a t) /\ convexS (aff a t) /\ (forall x, length x = 3%nat -> qval (aff a t) x = dot a x + t) /\
  forall J, is_mat 4 4 J -> symmetric 4 J -> qint (aff a t) J = nth 0 a 0 * entry J 0 3 + nth 1 a 0 * entry J 1 3 + nth 2 a 0 * entry J 2 3 + t * entry J 3 3.
Proof.
  intro La. split; [split; [reflexivity|repeat constructor]|]. split; [intros i j Hi Hj; destruct i as [|[|[|[|i]]]]; try lia; destruct j as [|[|[|[|j]]]]; try lia; reflexivity|]. split; [|split].
  - intros u Lu. apply Req_le. unfold qdir, quad, aff. destruct_vecs. cbn. field.
  - intros x Lx. unfold qval, quad, aff. destruct_vecs. cbn. field.
  - intros J HJ SJ. pose proof (SJ 3 0 ltac:(lia) ltac:(lia))%nat as Y1. pose proof (SJ 3 1 ltac:(lia) ltac:(lia))%nat as Y2. pose proof (SJ 3 2 ltac:(lia) ltac:(lia))%nat as Y3. clear SJ. unfold qint, aff. destruct_vecs. cbn in *. subst. field.
Qed.
Lemma pacc_mass V J ms : is_mat 4 4 J -> symmetric 4 J -> length ms = length V -> rows_len 3 V -> (forall S, is_mat 4 4 S -> symmetric 4 S -> convexS S -> qint S J <= vsum (qval S) ms V) ->
  entry J 3 3 = lsum ms /\ (forall j, (j < 3)%nat -> entry J j 3 = vsum (fun v => nth j v 0) ms V).
Proof.
  intros HJ SJ Lm HV H. assert (G : forall a t, length a = 3%nat -> nth 0 a 0 * entry J 0 3 + nth 1 a 0 * entry J 1 3 + nth 2 a 0 * entry J 2 3 + t * entry J 3 3 <= vsum (fun v => dot a v + t) ms V).
  { intros a t La. destruct (aff_ok a t La) as (M & Sy & Cv & Eq & EJ). specialize (H _ M Sy Cv). rewrite EJ in H by auto. rewrite (vsum_ext _ (fun v => dot a v + t)) in H by (intros v Hv; apply Eq; auto). exact H. }
  split.
  - pose proof (G [0; 0; 0] 1 eq_refl) as G1. pose proof (G [0; 0; 0] (-1) eq_refl) as G2. cbn [nth] in G1, G2. rewrite (vsum_ext _ (fun v => 1 * 1)) in G1 by (intros v Hv; apply HV in Hv; destruct_vecs; cbn; ring). rewrite (vsum_ext _ (fun v => (-1) * 1)) in G2 by (intros v Hv; apply HV in Hv; destruct_vecs; cbn; ring).
    rewrite (vsum_scal 1 (fun _ => 1)), vsum_one in G1 by auto. rewrite (vsum_scal (-1) (fun _ => 1)), vsum_one in G2 by auto. lra.
  - intros j Hj. assert (K : forall k, k = 1 \/ k = -1 -> k * entry J j 3 <= k * vsum (fun v => nth j v 0) ms V).
    { intros k _. pose proof (G (vscale k (e_ 3 j)) 0 ltac:(now rewrite vscale_length, e_length)) as Gj. rewrite (vsum_ext _ (fun v => k * nth j v 0)) in Gj.
      - rewrite vsum_scal in Gj. destruct j as [|[|[|j]]]; try lia; cbn in Gj; lra.
      - intros v Hv. apply HV in Hv. destruct j as [|[|[|j]]]; try lia; destruct_vecs; cbn; ring. }
    pose proof (K 1 (or_introl eq_refl)). pose proof (K (-1) (or_intror eq_refl)). lra.
Qed.
Lemma nth_le_lsum ms i : (forall i, 0 <= nth i ms 0) -> nth i ms 0 <= lsum ms.
Proof.
  revert i; induction ms as [|m ms IH]; intros i H; [destruct i; cbn; lra|]. rewrite lsum_c. assert (N : forall i, 0 <= nth i ms 0) by (intro k; apply (H (S k))). assert (0 <= lsum ms). { clear - N. induction ms as [|m ms IH]; [cbn; lra|]. rewrite lsum_c. pose proof (N 0%nat) as N0. cbn in N0. specialize (IH (fun k => N (S k))). lra. }
  pose proof (H 0%nat) as Hz. cbn in Hz. destruct i as [|i]; cbn [nth]; [lra|]. specialize (IH i N). lra.
Qed.
Lemma pacc_closed V A : rows_len 3 V -> is_mat 4 4 A -> symmetric 4 A -> (forall e, 0 < e -> exists A', is_mat 4 4 A' /\ symmetric 4 A' /\ closeJ e A' A /\ pacc V A') -> pacc V A.
Proof.
  intros HV MA SA H. set (n := length V).
  set (F := fun e (z : vec) => length z = n /\ (forall i, 0 <= nth i z 0) /\ exists A', is_mat 4 4 A' /\ symmetric 4 A' /\ closeJ (Rmin e 1) A' A /\ forall S, is_mat 4 4 S -> symmetric 4 S -> convexS S -> qint S A' <= vsum (qval S) z V).
  destruct (pickn F n (entry A 3 3 + 1)) as (a & La & Ha).
  - intros e e' z He (Lz & Pz & A' & H1 & H2 & H3 & H4). split; [auto|]. split; [auto|]. exists A'. split; [auto|]. split; [auto|]. split; [|auto]. intros i j Hi Hj. eapply Rle_trans; [apply H3; auto|]. apply Rle_min_compat_r. lra.
  - intros e He. destruct (H (Rmin e 1)) as (A' & H1 & H2 & H3 & ms & Lm & Pm & HS); [apply Rmin_pos; lra|]. exists ms. split; [auto|]. split; [auto|]. exists A'. auto.
  - intros e z i He (Lz & Pz & A' & H1 & H2 & H3 & H4) Hi. rewrite Rabs_pos_eq by auto. destruct (pacc_mass V A' z H1 H2 Lz HV H4) as (E & _). pose proof (nth_le_lsum z i Pz) as B. pose proof (abs_le_inv _ _ (H3 3%nat 3%nat ltac:(lia) ltac:(lia))). pose proof (Rmin_r e 1). lra.
  - exists a. split; [exact La|]. split.
    + intro i. destruct (Nat.lt_ge_cases i n) as [Hi|Hi]; [|rewrite nth_overflow by lia; lra]. assert (- nth i a 0 <= 0); [|lra]. apply (le_slack _ _ 1); [lra|]. intros e He. destruct (Ha e He) as (z & (_ & Pz & _) & Nz). specialize (Pz i). pose proof (abs_le_inv _ _ (Nz i Hi)). lra.
    + intros S HS SS HC. set (c1 := rsum 4 (fun i => rsum 4 (fun j => Rabs (entry S i j)))). set (c2 := lsum (map (fun v => Rabs (qval S v)) V)).
      assert (C1 : 0 <= c1) by (unfold c1; do 2 (apply rsum_nonneg; intros); apply Rabs_pos). assert (C2 : 0 <= c2) by (unfold c2; apply lsum_nonneg; intros x Hx; apply in_map_iff in Hx as (w & <- & _); apply Rabs_pos).
      apply (le_slack _ _ (c1 + c2)); [lra|]. intros e He. destruct (Ha e He) as (z & (Lz & Pz & A' & H1 & H2 & H3 & H4) & Nz). specialize (H4 S HS SS HC).
      pose proof (abs_le_inv _ _ (qint_near S A' A (Rmin e 1) HS H1 H2 MA SA H3)) as Q1. pose proof (abs_le_inv _ _ (vsum_near (qval S) z a n V e Lz La eq_refl Nz)) as Q2. fold c1 in Q1. fold c2 in Q2.
      assert (Rmin e 1 * c1 <= e * c1) by (apply Rmult_le_compat_r; [auto|apply Rmin_l]). lra.
Qed.
Lemma pacc_dual V J : rows_len 3 V -> is_mat 4 4 J -> symmetric 4 J -> (forall S, is_mat 4 4 S -> symmetric 4 S -> convexS S -> (forall v, In v V -> qval S v <= 0) -> qint S J <= 0) -> pacc V J.
Proof.
  intros HV HJ SJ H. apply NNPP. intro HN. destruct (mat_sep (pacc V) J HJ SJ) as (S & HS & SS & Neg & Pos); auto.
  - intros A MA SA. now apply pacc_closed.
  - intros A B MA SA MB SB (m1 & L1 & P1 & H1) (m2 & L2 & P2 & H2). exists (vadd (vscale 1 m1) m2). split; [rewrite vadd_length; rewrite ?vscale_length; congruence|]. split.
    + intro i. destruct (Nat.lt_ge_cases i (length V)) as [Hi|Hi]; [|rewrite nth_overflow; [lra|rewrite vadd_length; rewrite ?vscale_length; congruence]]. rewrite nth_vadd by (rewrite ?vscale_length; congruence). rewrite nth_vscale. specialize (P1 i). specialize (P2 i). lra.
    + intros S HS SS HC. rewrite qint_add, vsum_lin by auto. specialize (H1 S HS SS HC). specialize (H2 S HS SS HC). lra.
  - intros t A Ht MA SA (m1 & L1 & P1 & H1). exists (vscale t m1). split; [rewrite vscale_length; auto|]. split; [intro i; rewrite nth_vscale; apply Rmult_le_pos; auto|]. intros S HS SS HC. rewrite qint_scale, vsum_scale by auto. apply Rmult_le_compat_l; auto.
  - exists (zeros (length V)). split; [unfold zeros; apply repeat_length|]. split; [intro i; rewrite nth_zeros; lra|]. intros S HS SS HC. rewrite qint_zero, vsum_zeros by auto. lra.
  - assert (HC : convexS S).
    { intros u Lu. destruct (outer_ok (u ++ [0]) (hom_length u 0 Lu)) as (MO & SO). unfold qdir. assert (qint S (mscale (-1) (outer (u ++ [0]) (u ++ [0]))) <= 0); [|rewrite qint_outer_neg in * by auto using hom_length; lra].
      apply Neg; [now apply is_mat_mscale|intros i j Hi Hj; rewrite !entry_mscale, !entry_outer; ring|]. exists (zeros (length V)). split; [unfold zeros; apply repeat_length|]. split; [intro i; rewrite nth_zeros; lra|].
      intros S' HS' SS' HC'. rewrite vsum_zeros, qint_outer_neg by auto using hom_length. specialize (HC' u Lu). unfold qdir in HC'. lra. }
    assert (qint S J <= 0); [|lra]. apply H; auto. intros v Hv. pose proof (HV v Hv) as Lv. destruct (outer_ok (v ++ [1]) (hom_length v 1 Lv)) as (MO & SO). unfold qval. rewrite <- qint_outer by auto using hom_length. apply Neg; auto.
    destruct (In_nth V v [] Hv) as (k & Hk & Ek). exists (e_ (length V) k). split; [apply e_length|]. split.
    + intro i. destruct (Nat.lt_ge_cases i (length V)) as [Hi|Hi]; [|rewrite nth_overflow by (rewrite e_length; lia); lra]. rewrite nth_e by auto. destruct (Nat.eqb i k); lra.
    + intros S' HS' SS' _. rewrite qint_outer by auto using hom_length. apply Req_le. change (quad S' (v ++ [1])) with (qval S' v). rewrite <- Ek. clear - Hk. unfold e_. revert k Hk. 
      assert (Z : forall f W, vsum f (map (fun _ => 0) W) W = 0) by (intros f W; induction W as [|w W IH]; [reflexivity|cbn [map]; rewrite vsum_cons, IH; ring]).
      induction V as [|w V IH]; intros k Hk; [cbn in Hk; lia|]. cbn [length seq map]. rewrite <- seq_shift, map_map, vsum_cons. destruct k as [|k].
      * cbn [nth Nat.eqb]. replace (map (fun x => 0) (seq 0 (length V))) with (map (fun _ : vec => 0) V); [rewrite Z; ring|]. clear. generalize 0%nat. induction V as [|w V IH]; intro s; [reflexivity|]. cbn [length seq map]. now rewrite (IH (S s)).
      * cbn [nth Nat.eqb]. rewrite <- IH by (cbn in Hk; lia). ring.
Qed.
Theorem poly_tests_exact p v J eps : poly_ok 3 p -> pv_value v J -> is_mat 4 4 J -> 0 <= eps ->
  exists P, poly_moment_vertex_constraints p v eps = Ok P /\
  (P <-> PSD 4 (msub J (mscale eps (eye 4))) /\
    forall S, is_mat 4 4 S -> symmetric 4 S -> (forall u, length u = 3%nat -> 0 <= qdir S u) -> (forall x, in_hull 3 (p_vertices p) x -> qval S x <= 0) -> qint S J <= 0).
Proof.
  intros (_ & _ & _ & _ & V & Es & Hne & HV) Hv HJ Heps. unfold poly_moment_vertex_constraints.
  assert (Ed : p_dim p = 3%nat) by (unfold p_dim, sf_dim; rewrite Es; cbn; destruct V as [|u V]; [easy|]; cbn; apply HV; now left).
  assert (Ev : p_vertices p = V) by (unfold p_vertices; now rewrite Es). assert (En : p_nv p = length V) by (unfold p_nv, sf_nv; now rewrite Es).
  rewrite Ed, Ev, En, (pv_ok v J eps Hv HJ Heps). cbn [Nat.eqb assert_ bind]. eexists. split; [reflexivity|].
  assert (QE : forall ms x, length x = 3%nat -> quad (msub (msum 3 3 (map2 (fun m V0 => mscale m V0) ms (map (fun w => outer w w) V))) (sub_mat 3 3 J)) x = vsum (fun v => dot x v * dot x v) ms V - quad J (x ++ [0])).
  { intros ms x Lx. rewrite map2_map_r. rewrite (quad_msub 3 3); auto; [|exact (msum_is_mat 3 3 _ (outer_sum_is_mat 3 ms V HV))|now apply sub_mat_33]. now rewrite outer_sum_quad, quad_sub3 by auto. }
  split.
  - intros (ms & (Lm & Pm) & Hp & E33 & EV & HM). split; [now apply psd_shift|]. assert (SJ : symmetric 4 J) by (apply transpose_symmetric; auto; symmetry; apply Hp).
    intros S HS SS HC Hq. destruct (convex_decomp S HS SS HC) as (zs & Hz & HE). rewrite (qint_split S zs) by auto.
    assert (Pm' : forall i, 0 <= nth i ms 0) by (intro i; destruct (Nat.lt_ge_cases i (length V)); [now apply Pm|rewrite nth_overflow by lia; lra]).
    apply Rle_trans with (vsum (qval S) ms V); [|apply vsum_nonpos; auto; intros w Hw; apply Hq, hull_vertex; auto].
    rewrite (vsum_qval_split S zs) by auto. apply Rplus_le_compat.
    + apply lsum_map_le. intros z Iz. specialize (HM z (Hz z Iz)). rewrite QE in HM by auto. unfold qdir. lra.
    + apply Req_le. unfold lin3. rewrite E33. assert (EJ : forall j, (j < 3)%nat -> entry J j 3 = vsum (fun v => nth j v 0) ms V).
      { intros j Hj. rewrite <- (vec_mat_vsum 3) by auto. rewrite <- EV. now rewrite nth_map_seq by lia. }
      rewrite !EJ by lia. reflexivity.
  - intros (Hpsd & HT). apply psd_shift in Hpsd; auto. assert (SJ : symmetric 4 J) by (apply transpose_symmetric; auto; symmetry; apply Hpsd).
    destruct (pacc_dual V J HV HJ SJ) as (ms & Lm & Pm & HS).
    + intros S HS SS HC Hq. apply HT; auto. intros x Hx. now apply (convex_hull_le S V).
    + destruct (pacc_mass V J ms HJ SJ Lm HV HS) as (E33 & EV). exists ms. split; [split; auto|]. split; [exact Hpsd|]. split; [exact E33|]. split.
      * apply (vec_ext 3); [reflexivity|rewrite vec_mat_length; destruct V as [|u V']; [easy|]; cbn; apply HV; now left|]. intros j Hj. rewrite (vec_mat_vsum 3) by auto. rewrite nth_map_seq by lia. now apply EV.
      * intros x Lx. rewrite QE by auto. destruct (outer_ok (x ++ [0]) (hom_length x 0 Lx)) as (MO & SO). specialize (HS _ MO SO).
        assert (C : convexS (outer (x ++ [0]) (x ++ [0]))) by (intros u Lu; unfold qdir; rewrite quad_outer; apply Rle_0_sqr). specialize (HS C).
        rewrite (vsum_ext _ (fun v => dot x v * dot x v)) in HS by (intros w Hw; unfold qval; rewrite quad_outer, dot_pad0 by (rewrite Lx; symmetry; now apply HV); reflexivity).
        assert (EQ : qint (outer (x ++ [0]) (x ++ [0])) J = quad J (x ++ [0])) by (clear - HJ Lx; unfold qint, quad; destruct_vecs; cbn; ring). lra.
Qed.
Lemma box_tests_gap : exists b J S, box_init [1; 1; 1] None None = Ok b /\ PSD 4 J /\ (exists P, box_moment_custom_vertex_constraints b (PVmat J) 0 = Ok P /\ P) /\
  is_mat 4 4 S /\ symmetric 4 S /\ (forall x, length x = 3%nat -> box_set [1; 1; 1] (pose_rot 3 None) (pose_tr 3 None) x -> qval S x <= 0) /\ 0 < qint S J /\
  exists i, (i < 3)%nat /\ qdir S (col i (pose_rot 3 None)) < 0.
Proof.
  destruct s6_shapes as (HQ & (b & Hb) & _). pose proof J_cut_psd as HP. pose proof HP as (MJ & SJ & _). exists b, J_cut.
  assert (HN : ~ realizable_J (box_set [1; 1; 1] (pose_rot 3 None) (pose_tr 3 None)) J_cut) by (apply cut_not_realizable; intros p Lp; exact (cube_bounds p Lp)).
  assert (X : exists S, is_mat 4 4 S /\ symmetric 4 S /\ (forall x, length x = 3%nat -> box_set [1; 1; 1] (pose_rot 3 None) (pose_tr 3 None) x -> qval S x <= 0) /\ 0 < qint S J_cut).
  { apply NNPP. intro X. apply HN. apply (shape_tests (SBox b)); auto; [now constructor|]. intros S HS SS Hq. apply Rnot_lt_le. intro L. apply X. exists S. auto. }
  destruct X as (S & HS & SS & Hq & Pos). exists S. pose proof (box_cut b Hb) as HA. split; [exact Hb|]. split; [exact HP|]. split; [exact HA|]. split; [exact HS|]. split; [exact SS|]. split; [exact Hq|]. split; [exact Pos|].
  apply NNPP. intro X. destruct (box_tests_exact [1; 1; 1] None None b (PVmat J_cut) J_cut 0 Hb HQ eq_refl MJ ltac:(lra)) as (P & EP & HE). destruct HA as (P' & EP' & HP'). rewrite EP in EP'. injection EP' as <-. apply HE in HP' as (_ & HT).
  assert (qint S J_cut <= 0); [|lra]. apply HT; auto. intros i Hi. apply Rnot_lt_le. intro L. apply X. exists i. auto.
Qed.
