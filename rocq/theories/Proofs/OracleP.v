(** The linear algebra routines mbe_of_points calls can always keep their promises. *)
From Coq Require Import Classical.
From Verif Require Import Base.Vec Base.VecFacts Base.Ext Spec.Basic Spec.Shapes Spec.ShapeObjects Spec.DoubleDesc Spec.PolySpec Spec.ExtremalSpec Spec.John Model.Util Model.Polydd Model.Constraint Model.Ellipsoid Model.Poly Model.Extremal
  Proofs.LinAlg Proofs.Hull Proofs.EllP Proofs.ConstructP Proofs.JohnR Proofs.MatAlg Proofs.Coord Proofs.Spectral Proofs.ExtremalP Proofs.LogDet Proofs.Motion Proofs.JohnEx.

(** * Orthonormal families as lists of vectors *)
Section O.
Context (d : nat) (Hd : (0 < d)%nat).
Fixpoint onl (L : list vec) : Prop :=
  match L with [] => True | l :: L' => length l = d /\ dot l l = 1 /\ (forall m, In m L' -> dot l m = 0) /\ onl L' end.
Definition perp (L : list vec) (x : vec) : Prop := forall l, In l L -> dot l x = 0.
Definition sp (L : list vec) (p : vec) : Prop := forall x, length x = d -> perp L x -> dot p x = 0.
Fixpoint rest (L : list vec) (p : vec) : vec :=
  match L with [] => p | l :: L' => vsub (rest L' p) (vscale (dot l p) l) end.
Lemma onl_len L l : onl L -> In l L -> length l = d.
Proof. induction L as [|m L IH]; intros H []; [subst; apply H|apply IH; [apply H|auto]]. Qed.
Lemma rest_len L p : onl L -> length p = d -> length (rest L p) = d.
Proof. induction L as [|l L IH]; cbn; intros H Hp; auto. destruct H as (Hl & _ & _ & H). rewrite vsub_length; [now apply IH|rewrite vscale_length, Hl; now apply IH]. Qed.
Lemma rest_perp L p x : onl L -> length p = d -> perp L x -> dot x (rest L p) = dot x p.
Proof.
  induction L as [|l L IH]; cbn [rest]; intros H Hp Hx; auto. destruct H as (Hl & _ & _ & H).
  rewrite dot_vsub_r by (rewrite vscale_length, rest_len; auto). rewrite dot_vscale_r, IH; [|auto|auto|intros m Hm; apply Hx; now right].
  rewrite (dot_comm x l), (Hx l) by (now left). ring.
Qed.
Lemma perp_rest L p : onl L -> length p = d -> perp L (rest L p).
Proof.
  induction L as [|l L IH]; intros H Hp m Hm; [destruct Hm|]. destruct H as (Hl & H1 & HO & H). cbn [rest].
  rewrite dot_vsub_r by (rewrite vscale_length, rest_len; auto). rewrite dot_vscale_r. destruct Hm as [<-|Hm].
  - rewrite H1, rest_perp; auto; [ring|]. intros m Hm. rewrite dot_comm. now apply HO.
  - rewrite (IH H Hp m Hm), (dot_comm m l), (HO m Hm). ring.
Qed.
Lemma zero_or L p : onl L -> length p = d -> (forall x, length x = d -> perp L x -> dot x x = 0) -> sp L p.
Proof.
  intros HL Hp HZ x Hx HX. rewrite dot_comm. specialize (HZ x Hx HX). apply dot_self_zero in HZ. rewrite HZ. apply dot_zeros_l.
Qed.
(** a vector as a unit vector *)
Lemma normalise q : length q = d -> dot q q <> 0 -> exists e c, length e = d /\ dot e e = 1 /\ c <> 0 /\ e = vscale c q.
Proof.
  intros Lq N. pose proof (dot_self_nonneg q) as P. assert (0 < sqrt (dot q q)) by (apply sqrt_lt_R0; lra).
  exists (vscale (/ sqrt (dot q q)) q), (/ sqrt (dot q q)). rewrite vscale_length, dot_vscale_l, dot_vscale_r. split; auto. split; [|split; [apply Rinv_neq_0_compat; lra|reflexivity]].
  rewrite <- (sqrt_sqrt (dot q q)) at 3 by auto. field. lra.
Qed.
(** Gram-Schmidt *)
Lemma gram_schmidt D : (forall p, In p D -> length p = d) -> exists L, onl L /\ (forall p, In p D -> sp L p) /\ (forall l, In l L -> sp D l).
Proof.
  induction D as [|p D IH]; intros HD.
  - exists []. split; [exact I|]. split; intros ? [].
  - destruct IH as (L & HL & H1 & H2); [intros; apply HD; now right|]. assert (Lp : length p = d) by (apply HD; now left).
    destruct (Req_dec (dot (rest L p) (rest L p)) 0) as [E|E].
    + exists L. split; auto. split.
      * intros q [<-|Hq]; auto. intros x Hx HX. rewrite dot_comm, <- (rest_perp L p x) by auto. apply dot_self_zero in E. rewrite E. apply dot_zeros_r.
      * intros l Hl x Hx HX. apply (H2 l Hl x Hx). intros m Hm. apply HX. now right.
    + destruct (normalise (rest L p)) as (e & c & Le & He & Hc & Ee); [now apply rest_len|auto|]. exists (e :: L). split; [|split].
      * cbn. repeat (split; auto). intros m Hm. rewrite Ee, dot_vscale_l, (dot_comm (rest L p)), (perp_rest L p HL Lp m Hm). ring.
      * intros q [<-|Hq] x Hx HX.
        -- rewrite dot_comm, <- (rest_perp L p x); auto; [|intros m Hm; apply HX; now right]. specialize (HX e (or_introl eq_refl)). rewrite Ee, dot_vscale_l in HX. rewrite dot_comm.
           apply Rmult_integral in HX as [HX|HX]; [contradiction|exact HX].
        -- apply (H1 q Hq x Hx). intros m Hm. apply HX. now right.
      * intros l [<-|Hl] x Hx HX.
        -- rewrite Ee, dot_vscale_l, dot_comm, rest_perp; auto; [rewrite dot_comm, (HX p) by (now left); ring|]. intros m Hm. apply (H2 m Hm x Hx). intros r Hr. apply HX. now right.
        -- apply (H2 l Hl x Hx). intros m Hm. apply HX. now right.
Qed.
(** * The matrix whose columns are the vectors *)
Definition cols (L : list vec) : mat := match L with [] => repeat [] d | _ => transpose L end.
Lemma onl_mat L : onl L -> is_mat (length L) d L.
Proof. intros H. split; auto. apply Forall_forall. intros l Hl. eapply onl_len; eauto. Qed.
Lemma cols_mat L : onl L -> is_mat d (length L) (cols L).
Proof.
  intros H. destruct L as [|l L]; [|apply is_mat_transpose; [now apply onl_mat|cbn; lia]].
  split; [apply repeat_length|]. apply Forall_forall. intros r Hr. apply repeat_spec in Hr. now subst.
Qed.
Lemma cols_tr L : onl L -> transpose (cols L) = L.
Proof.
  intros H. destruct L as [|l L]; [|apply (transpose_involutive (length (l :: L)) d); [now apply onl_mat|cbn; lia|auto]].
  unfold cols. destruct d; [lia|]. reflexivity.
Qed.
Lemma onl_dot L i j : onl L -> (i < length L)%nat -> (j < length L)%nat -> dot (nth i L []) (nth j L []) = if Nat.eqb i j then 1 else 0.
Proof.
  revert i j. induction L as [|l L IH]; intros i j H Hi Hj; cbn [length] in *; [lia|]. destruct H as (Hl & H1 & HO & H). destruct i as [|i], j as [|j]; cbn [nth Nat.eqb].
  - exact H1.
  - apply HO. apply nth_In. lia.
  - rewrite dot_comm. apply HO. apply nth_In. lia.
  - apply IH; auto; lia.
Qed.
Lemma dot_onl L : (forall l, In l L -> length l = d) -> (forall i j, (i < length L)%nat -> (j < length L)%nat -> dot (nth i L []) (nth j L []) = if Nat.eqb i j then 1 else 0) -> onl L.
Proof.
  induction L as [|l L IH]; cbn; intros HL H; auto. split; [apply HL; now left|]. split; [apply (H 0%nat 0%nat); lia|]. split.
  - intros m Hm. destruct (In_nth L m [] Hm) as (j & Hj & <-). apply (H 0%nat (S j)); lia.
  - apply IH; [intros; apply HL; now right|]. intros i j Hi Hj. apply (H (S i) (S j)); lia.
Qed.
Lemma col_tr L j : (forall l, In l L -> length l = d) -> (j < length L)%nat -> col j (transpose L) = nth j L [].
Proof.
  intros HL Hj. assert (M : is_mat (length L) d L) by (split; auto; now apply Forall_forall). apply (vec_ext d).
  - rewrite col_length, transpose_length. apply (is_mat_ncols (length L)); auto. lia.
  - apply (is_mat_row (length L) d); auto.
  - intros i Hi. rewrite nth_col, entry_transpose by (rewrite (is_mat_ncols (length L) d); auto; lia). reflexivity.
Qed.
Lemma cols_on L : onl L -> orthonormal d (length L) (cols L).
Proof.
  intros H. pose proof (cols_mat L H) as M. split; auto. rewrite (cols_tr L H). destruct L as [|l L]; [reflexivity|]. change (cols (l :: L)) with (transpose (l :: L)) in *. set (K := l :: L) in *.
  assert (NC : ncols (transpose K) = length K) by (apply (is_mat_ncols d); auto).
  apply (mat_ext (length K) (length K)); [|apply is_mat_eye|].
  - apply (is_mat_mat_mul _ _ _ _ d); auto. now apply onl_mat.
  - intros i j Hi Hj. rewrite entry_mat_mul, entry_eye, col_tr by (auto; try (intros; eapply onl_len; eauto); rewrite ?NC; auto). apply onl_dot; auto.
Qed.
Lemma on_cols k W : (0 < k)%nat -> orthonormal d k W -> onl (transpose W) /\ length (transpose W) = k.
Proof.
  intros Hk (M & E). pose proof (is_mat_transpose _ _ _ M Hd) as T. split; [|apply T]. apply dot_onl.
  - intros l Hl. apply (proj1 (Forall_forall _ _) (proj2 T) l Hl).
  - rewrite (is_mat_length _ _ _ T). intros i j Hi Hj. rewrite <- (entry_eye k) by auto. rewrite <- E, entry_mat_mul.
    + f_equal. rewrite nth_transpose; [reflexivity|]. rewrite (is_mat_ncols d k); auto.
    + now rewrite (is_mat_length _ _ _ T).
    + now rewrite (is_mat_ncols d k).
Qed.
Lemma onl_short L : onl L -> (length L <= d)%nat.
Proof.
  intros H. destruct (le_lt_dec (length L) d) as [|G]; auto. exfalso. pose proof (cols_on L H) as O. pose proof (proj1 O) as M.
  destruct (kernel_exists (length L) (cols L)) as (x & Lx & Nx & Hx).
  - rewrite (is_mat_length _ _ _ M). exact G.
  - intros r Hr. apply (proj1 (Forall_forall _ _) (proj2 M) r Hr).
  - apply Nx. rewrite <- (orthonormal_apply d (length L) (cols L) x) by auto. replace (mat_vec (cols L) x) with (zeros d).
    + rewrite mat_vec_zeros, cols_tr; auto.
    + apply (vec_ext d); [apply zeros_length|rewrite mat_vec_length; apply M|]. intros i Hi. rewrite nth_zeros, nth_mat_vec by (rewrite (is_mat_length _ _ _ M); auto). symmetry. apply Hx. apply nth_In. now rewrite (is_mat_length _ _ _ M).
Qed.
(** * Completion *)
Lemma completion m : forall L, onl L -> (length L + m = d)%nat ->
  exists N, onl N /\ length N = m /\ (forall n l, In n N -> In l L -> dot n l = 0) /\ forall z, length z = d -> perp L z -> perp N z -> dot z z = 0.
Proof.
  induction m as [|m IH]; intros L HL E.
  - exists []. split; [exact I|]. split; auto. split; [intros ? ? []|]. intros z Lz HZ _. destruct (Req_dec (dot z z) 0) as [|N]; auto. exfalso.
    destruct (normalise z Lz N) as (e & c & Le & He & Hc & Ee). assert (O : onl (e :: L)) by (cbn; repeat (split; auto); intros l Hl; rewrite Ee, dot_vscale_l, dot_comm, (HZ l Hl); ring).
    apply onl_short in O. cbn in O. lia.
  - destruct (kernel_exists d L) as (x & Lx & Nx & Hx); [lia|intros; eapply onl_len; eauto|].
    assert (N : dot x x <> 0) by (intros Z; apply Nx; apply dot_self_zero in Z; now rewrite Lx in Z).
    destruct (normalise x Lx N) as (e & c & Le & He & Hc & Ee). assert (EL : forall l, In l L -> dot e l = 0) by (intros l Hl; rewrite Ee, dot_vscale_l, dot_comm, (Hx l Hl); ring).
    assert (O : onl (e :: L)) by (cbn; repeat (split; auto)).
    destruct (IH (e :: L) O) as (N' & O' & L' & P' & Z'); [cbn; lia|]. exists (e :: N'). split; [|split; [cbn; lia|split]].
    + cbn. repeat (split; auto). intros n Hn. rewrite dot_comm. apply P'; auto. now left.
    + intros n l [<-|Hn] Hl; auto. apply P'; auto. now right.
    + intros z Lz H1 H2. apply Z'; auto.
      * intros l [<-|Hl]; [apply H2; now left|auto].
      * intros n Hn. apply H2. now right.
Qed.
(** ** the projection on the span *)
Lemma sp_proj L p : onl L -> length p = d -> sp L p -> mat_vec (cols L) (mat_vec L p) = p.
Proof.
  intros HL Lp HS. pose proof (cols_on L HL) as O. pose proof (proj1 O) as M. set (u := mat_vec (cols L) (mat_vec L p)).
  assert (Lu : length u = d) by (unfold u; rewrite mat_vec_length; apply M). assert (LL : length (mat_vec L p) = length L) by apply mat_vec_length.
  assert (Lq : length (vsub p u) = d) by (rewrite vsub_length; congruence).
  assert (Q : mat_vec L (vsub p u) = zeros (length L)).
  { rewrite mat_vec_vsub by congruence. unfold u. replace (mat_vec L (mat_vec (cols L) (mat_vec L p))) with (mat_vec L p).
    - apply (vec_ext (length L)); [rewrite vsub_length; auto|apply zeros_length|]. intros i Hi. rewrite nth_vsub, nth_zeros by auto. ring.
    - rewrite <- (cols_tr L HL) at 2. symmetry. now apply (orthonormal_apply d (length L)). }
  assert (PQ : perp L (vsub p u)).
  { intros l Hl. destruct (In_nth L l [] Hl) as (i & Hi & <-). rewrite <- nth_mat_vec by auto. now rewrite Q, nth_zeros. }
  assert (Z : dot (vsub p u) (vsub p u) = 0).
  { rewrite dot_vsub_l by congruence. rewrite (HS _ Lq PQ). unfold u at 1. rewrite dot_comm, (dot_mat_vec_t d (length L)) by auto. rewrite cols_tr, Q by auto. rewrite dot_zeros_l. ring. }
  apply dot_self_zero in Z. rewrite Lq in Z. apply (vec_ext d); auto. intros i Hi. pose proof (f_equal (fun v => nth i v 0) Z) as E. cbn in E. rewrite nth_vsub, nth_zeros in E by congruence. lra.
Qed.
Lemma orth_exists D : (forall p, In p D -> length p = d) -> exists k W, (k <= d)%nat /\ orth_spec d k D W /\
  (forall y, length y = k -> (forall p, In p D -> dot (mat_vec W y) p = 0) -> y = zeros k) /\ ((exists p, In p D /\ dot p p <> 0) -> (0 < k)%nat).
Proof.
  intros HD. destruct (gram_schmidt D HD) as (L & HL & H1 & H2). exists (length L), (cols L). pose proof (cols_on L HL) as O. pose proof (proj1 O) as M. split; [now apply onl_short|]. split; [|split].
  - split; auto. intros p Hp. rewrite cols_tr by auto. apply sp_proj; auto.
  - intros y Ly HY. rewrite <- (orthonormal_apply d (length L) (cols L) y) by auto. rewrite cols_tr by auto. apply (vec_ext (length L)); [now rewrite mat_vec_length|apply zeros_length|].
    intros i Hi. rewrite nth_zeros, nth_mat_vec by auto. apply (H2 (nth i L []) (nth_In _ _ Hi)); [rewrite mat_vec_length; apply M|]. intros p Hp. rewrite dot_comm. now apply HY.
  - intros (p & Hp & N). destruct L as [|l L]; [|cbn; lia]. exfalso. apply N. apply (H1 p Hp p (HD p Hp)). intros ? [].
Qed.
Lemma null_exists k W : (0 < k <= d)%nat -> orthonormal d k W -> exists N, null_spec d k (transpose W) N.
Proof.
  intros Hk HW. destruct (on_cols k W) as (HL & LL); [lia|auto|]. set (L := transpose W) in *. destruct (completion (d - k) L HL) as (N & HN & LN & HP & HZ); [lia|].
  exists (cols N). pose proof (cols_on N HN) as O. rewrite LN in O. pose proof (proj1 O) as M. split; auto. split.
  - intros v Lv. apply (vec_ext k); [rewrite mat_vec_length; auto|apply zeros_length|]. intros i Hi. rewrite nth_zeros, nth_mat_vec by lia.
    rewrite (dot_mat_vec_t d (d - k)); auto; [|apply (onl_len L); auto; apply nth_In; lia]. rewrite cols_tr by auto. replace (mat_vec N (nth i L [])) with (zeros (d - k)); [apply dot_zeros_l|].
    apply (vec_ext (d - k)); [apply zeros_length|rewrite mat_vec_length; auto|]. intros j Hj. rewrite nth_zeros, nth_mat_vec by lia. symmetry. apply HP; apply nth_In; lia.
  - intros x Lx HX. rewrite cols_tr by auto. apply sp_proj; auto. intros z Lz Hz. rewrite dot_comm, <- (rest_perp N x z) by auto.
    assert (Lr : length (rest N x) = d) by now apply rest_len. assert (Z : dot (rest N x) (rest N x) = 0).
    { apply HZ; auto; [|now apply perp_rest]. intros l Hl. rewrite rest_perp; auto.
      - destruct (In_nth L l [] Hl) as (i & Hi & <-). rewrite <- nth_mat_vec by auto. now rewrite HX, nth_zeros.
      - intros n Hn. now apply HP. }
    apply dot_self_zero in Z. rewrite Z. apply dot_zeros_r.
Qed.
Lemma lstsq_exists A y : exists x, lstsq_spec A y x.
Proof.
  destruct (classic (exists x', length x' = ncols A /\ mat_vec A x' = y)) as [(x & Lx & Ex)|N].
  - exists x. split; auto.
  - exists (zeros (ncols A)). split; [apply zeros_length|]. intros H. contradiction.
Qed.
End O.

(** * mbe_of_points has a run exactly if two of the points differ *)
Lemma diff_sub d p q : length p = d -> length q = d -> (dot (vsub p q) (vsub p q) = 0 <-> p = q).
Proof.
  intros Lp Lq. split.
  - intros Z. apply dot_self_zero in Z. rewrite vsub_length, Lp in Z by congruence. apply (vec_ext d); auto. intros i Hi. pose proof (f_equal (fun v => nth i v 0) Z) as E. cbn in E. rewrite nth_vsub, nth_zeros in E by congruence. lra.
  - intros ->. rewrite dot_vsub_l, !dot_vsub_r by auto. ring.
Qed.
Lemma mbe_oracles_exist d points : (0 < d)%nat -> (forall x, In x points -> length x = d) ->
  ((exists k orth null_space eigh lstsq solver, mbe_oracles d k orth null_space eigh lstsq solver points) <-> exists p q, In p points /\ In q points /\ p <> q).
Proof.
  intros Hd HP. split.
  - intros (k & orth & null_space & eigh & lstsq & solver & r & Er & Hk & HO & (log_det & HL & Hopt) & _).
    apply NNPP. intros N. assert (EQ : forall p, In p points -> p = r).
    { intros p Hp. apply NNPP. intros Ne. apply N. exists p, r. split; auto. split; auto. destruct points as [|r' P]; [discriminate|]. injection Er as ->. now left. }
    set (D := map (fun p => vsub p r) points) in *. set (W := orth (transpose D)) in *. pose proof HO as ((MW & _) & _).
    assert (NC : ncols W = k) by now apply (is_mat_ncols d).
    assert (PL : forall x, In x (mat_mul D W) -> length x = k) by (intros x Hx; unfold mat_mul in Hx; apply in_map_iff in Hx as (z & <- & _); now rewrite vec_mat_length).
    assert (WD : wide k (mat_mul D W) false) by (apply (mbe_exists_all k log_det (mat_mul D W) false); [lia|auto|auto|]; eexists; eexists; exact Hopt).
    assert (Z : forall x, In x (mat_mul D W) -> x = vec_mat (vsub r r) W).
    { intros x Hx. unfold mat_mul in Hx. apply in_map_iff in Hx as (z & <- & Hz). unfold D in Hz. apply in_map_iff in Hz as (p & <- & Hp). now rewrite (EQ p Hp). }
    specialize (WD (ones k)). assert (E : ones k = zeros k).
    { apply WD; [apply repeat_length|]. intros p q Hp Hq. now rewrite (Z p Hp), (Z q Hq). }
    destruct k; [lia|]. cbn in E. injection E. lra.
  - intros (p & q & Hp & Hq & Ne). destruct points as [|r P] eqn:EP; [destruct Hp|]. rewrite <- EP in *. assert (Lr : length r = d) by (apply HP; rewrite EP; now left).
    set (D := map (fun p => vsub p r) points). assert (HD : forall x, In x D -> length x = d).
    { intros x Hx. apply in_map_iff in Hx as (z & <- & Hz). rewrite vsub_length; rewrite (HP z Hz); auto. }
    destruct (orth_exists d Hd D HD) as (k & W & Kd & HO & HI & K0). pose proof HO as (HW & HF). pose proof (proj1 HW) as MW.
    assert (NZ : exists x, In x D /\ dot x x <> 0).
    { destruct (Req_dec (dot (vsub p r) (vsub p r)) 0) as [E|E]; [|exists (vsub p r); split; auto; apply in_map_iff; eauto].
      destruct (Req_dec (dot (vsub q r) (vsub q r)) 0) as [E'|E']; [|exists (vsub q r); split; auto; apply in_map_iff; eauto].
      apply (diff_sub d) in E, E'; auto. exfalso. apply Ne. congruence. }
    specialize (K0 NZ). assert (NC : ncols W = k) by now apply (is_mat_ncols d).
    assert (PL : forall x, In x (mat_mul D W) -> length x = k) by (intros x Hx; unfold mat_mul in Hx; apply in_map_iff in Hx as (z & <- & _); now rewrite vec_mat_length).
    destruct (log_det_exists k K0) as (log_det & HL).
    assert (R0 : In (vsub r r) D) by (apply in_map_iff; exists r; split; auto; rewrite EP; now left).
    assert (WD : wide k (mat_mul D W) false).
    { intros y Ly HY. apply HI; auto. assert (F : forall x, In x D -> dot (mat_vec W y) x = dot y (vec_mat x W)).
      { intros x Hx. rewrite dot_comm, (dot_mat_vec d k) by auto. apply dot_comm. }
      intros x Hx. rewrite (F x Hx), (HY (vec_mat x W) (vec_mat (vsub r r) W)) by (unfold mat_mul; now apply (in_map (fun v => vec_mat v W))). rewrite <- (F _ R0).
      rewrite dot_vsub_r by auto. ring. }
    apply (mbe_exists_all k log_det (mat_mul D W) false) in WD as (A & b & Hopt); auto.
    pose proof Hopt as (((MA & TA & _) & Lb & _) & _). destruct (spectral k A K0 MA) as (wV & HV); [now apply transpose_symmetric|].
    destruct (lstsq_exists A (vneg b)) as (c & Hc).
    assert (HWV : orthonormal d k (mat_mul W (snd wV))) by (apply orthonormal_mul; auto; apply HV).
    destruct (null_exists d Hd k _ (conj K0 Kd) HWV) as (N & HN).
    exists k, (fun _ => W), (fun _ => N), (fun _ => wV), (fun _ _ => c), (fun _ => (A, b)). exists r. split; [now rewrite EP|]. cbv zeta. cbn [fst snd]. fold D.
    split; [lia|]. split; auto. split; [exists log_det; auto|]. split; auto.
Qed.
Lemma mbe_run_ok d k orth null_space eigh lstsq solver points : (0 < d)%nat -> (forall x, In x points -> length x = d) -> mbe_oracles d k orth null_space eigh lstsq solver points ->
  exists e, mbe_of_points orth null_space eigh lstsq solver points = Ok e /\ e_dim e = d /\ orthogonal d (e_rot e) /\ forall p, In p points -> ell_set (e_half e) (e_rot e) (e_center e) p.
Proof.
  intros Hd HP (r & Er & H). cbv zeta in H. destruct H as (Hk & HO & (ld & _ & (HF & HPD & _)) & HE & HL & HN). destruct (solver _) as [A b] eqn:ES. cbn [fst snd] in *. destruct (eigh A) as [w V] eqn:EE. cbn [fst snd] in *.
  destruct (mbe_of_points_contains d k points orth null_space eigh lstsq solver r A b w V) as (e & E1 & E2 & E3 & _ & E5); auto. exists e. auto.
Qed.
Lemma mbe_defined d points : (0 < d)%nat -> (forall x, In x points -> length x = d) -> (exists p q, In p points /\ In q points /\ p <> q) ->
  exists S : vec -> Prop,
    (exists k orth null_space eigh lstsq solver, mbe_oracles d k orth null_space eigh lstsq solver points) /\
    (forall k orth null_space eigh lstsq solver, mbe_oracles d k orth null_space eigh lstsq solver points ->
      exists e, mbe_of_points orth null_space eigh lstsq solver points = Ok e /\ e_dim e = d /\ orthogonal d (e_rot e) /\ forall x, ell_set (e_half e) (e_rot e) (e_center e) x <-> S x) /\
    forall x, in_hull d points x -> S x.
Proof.
  intros Hd HP HN. pose proof (proj2 (mbe_oracles_exist d points Hd HP) HN) as RUN. destruct RUN as (k & orth & null_space & eigh & lstsq & solver & H).
  destruct (mbe_run_ok d k orth null_space eigh lstsq solver points Hd HP H) as (e & E1 & E2 & E3 & E4).
  exists (ell_set (e_half e) (e_rot e) (e_center e)). split; [exists k, orth, null_space, eigh, lstsq, solver; auto|]. split.
  - intros k' orth' null' eigh' lstsq' solver' H'. destruct (mbe_run_ok d k' orth' null' eigh' lstsq' solver' points Hd HP H') as (e' & E1' & E2' & E3' & E4').
    destruct (JohnR.mbe_of_points_function d points points k orth null_space eigh lstsq solver k' orth' null' eigh' lstsq' solver') as (f & f' & F1 & F2 & _ & _ & F5); auto; [intros x; tauto|].
    rewrite E1 in F1. rewrite E1' in F2. injection F1 as <-. injection F2 as <-. exists e'. repeat (split; auto); apply F5.
  - intros x Hx. apply (Hull.hull_in_convex d _ points); auto. unfold e_dim in E2. assert (LC : length (e_center e) = d).
    { clear - E1 E2. unfold mbe_of_points in E1. destruct points as [|y l]; [discriminate|]. cbv zeta in E1. destruct (solver _) as [A0 b0]. destruct (eigh A0) as [w0 V0].
      pose proof (EllP.ell_init_inv _ _ _ _ E1) as (_ & EH & _ & _ & _ & LC). rewrite LC, <- EH. exact E2. }
    apply (ConstructP.ell_set_convex_n d); auto. apply E3.
Qed.
(** three points on a line *)
Lemma collinear_run : (exists k orth null_space eigh lstsq solver, mbe_oracles 2 k orth null_space eigh lstsq solver [[0; 0]; [1; 1]; [2; 2]]) /\
  ~ (exists k orth null_space eigh lstsq solver, mbe_oracles 2 k orth null_space eigh lstsq solver [[1; 1]; [1; 1]]).
Proof.
  assert (L : forall P : mat, Forall (fun x => length x = 2%nat) P -> forall x, In x P -> length x = 2%nat) by (intros P H; now apply Forall_forall). split.
  - apply mbe_oracles_exist; [lia|apply L; repeat constructor|]. exists [0; 0], [1; 1]. split; [now left|]. split; [right; now left|]. intro E. injection E. lra.
  - intro H. apply mbe_oracles_exist in H; [|lia|apply L; repeat constructor]. destruct H as (p & q & Hp & Hq & N). apply N. destruct Hp as [<-|[<-|[]]], Hq as [<-|[<-|[]]]; reflexivity.
Qed.
Lemma orth_exists_all d D : (0 < d)%nat -> (forall p, In p D -> length p = d) -> exists k W, (k <= d)%nat /\ orth_spec d k D W /\
  forall y, length y = k -> (forall p, In p D -> dot (mat_vec W y) p = 0) -> y = zeros k.
Proof. intros Hd HD. destruct (orth_exists d Hd D HD) as (k & W & H1 & H2 & H3 & _). eauto. Qed.
Lemma null_exists_all d k W : (0 < k <= d)%nat -> orthonormal d k W -> exists N, null_spec d k (transpose W) N.
Proof. intros Hk HW. apply null_exists; auto. lia. Qed.
Lemma diagonal_on : orthonormal 2 1 [[3 / 5]; [4 / 5]].
Proof. split; [repeat (constructor; try reflexivity)|]. cbn. repeat f_equal. field. Qed.
