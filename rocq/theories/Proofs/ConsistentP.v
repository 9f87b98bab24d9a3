(** Physical consistency (C09). *)
From Verif Require Import Proofs.Coord Model.Util Model.Spatial Model.Inertial
  Model.Constraint Spec.Objects Proofs.InertialP Proofs.InertialT Proofs.LinAlg.

Lemma FMI r a : fold_left Rmin r a <= a.
Proof.
  revert a; induction r as [|c r IH]; intros a; cbn [fold_left]; [lra|].
  specialize (IH (Rmin a c)). pose proof (Rmin_l a c). lra.
Qed.
Lemma FMX r a : a <= fold_left Rmax r a.
Proof.
  revert a; induction r as [|c r IH]; intros a; cbn [fold_left]; [lra|].
  specialize (IH (Rmax a c)). pose proof (Rmax_l a c). lra.
Qed.
Lemma fold_Rmin_le r a b : In b (a :: r) -> fold_left Rmin r a <= b.
Proof.
  revert a; induction r as [|c r IH]; intros a H; cbn [fold_left].
  - destruct H as [->|[]]. lra.
  - destruct H as [->|[->|H]].
    + pose proof (FMI r (Rmin b c)); pose proof (Rmin_l b c); lra.
    + pose proof (FMI r (Rmin a b)); pose proof (Rmin_r a b); lra.
    + apply IH. right; auto.
Qed.
Lemma fold_Rmin_in r a : In (fold_left Rmin r a) (a :: r).
Proof.
  revert a; induction r as [|c r IH]; intros a; cbn [fold_left]; [left; auto|].
  destruct (IH (Rmin a c)) as [H|H].
  - rewrite <- H. unfold Rmin. destruct (Rle_dec a c); cbn; auto.
  - right; right; auto.
Qed.
Lemma lmin_le l b : In b l -> lmin l <= b.
Proof. destruct l as [|a r]; [intros []|]. apply fold_Rmin_le. Qed.
Lemma lmin_in l : l <> [] -> In (lmin l) l.
Proof. destruct l as [|a r]; [congruence|]. intros _. apply fold_Rmin_in. Qed.
Lemma fold_Rmax_ge r a b : In b (a :: r) -> b <= fold_left Rmax r a.
Proof.
  revert a; induction r as [|c r IH]; intros a H; cbn [fold_left].
  - destruct H as [->|[]]. lra.
  - destruct H as [->|[->|H]].
    + pose proof (FMX r (Rmax b c)); pose proof (Rmax_l b c); lra.
    + pose proof (FMX r (Rmax a b)); pose proof (Rmax_r a b); lra.
    + apply IH. right; auto.
Qed.
Lemma fold_Rmax_in r a : In (fold_left Rmax r a) (a :: r).
Proof.
  revert a; induction r as [|c r IH]; intros a; cbn [fold_left]; [left; auto|].
  destruct (IH (Rmax a c)) as [H|H].
  - rewrite <- H. unfold Rmax. destruct (Rle_dec a c); cbn; auto.
  - right; right; auto.
Qed.
Lemma lmax_ge l b : In b l -> b <= lmax l.
Proof. destruct l as [|a r]; [intros []|]. apply fold_Rmax_ge. Qed.
Lemma lmax_in l : l <> [] -> In (lmax l) l.
Proof. destruct l as [|a r]; [congruence|]. intros _. apply fold_Rmax_in. Qed.

(** what np.linalg.eigvals promises *)

Lemma dot_pos_of_nonzero n x : length x = n -> x <> zeros n -> 0 < dot x x.
Proof.
  intros Hx Hne. pose proof (dot_self_nonneg x). destruct (Req_dec (dot x x) 0) as [E|E]; [|lra].
  apply dot_self_zero in E. rewrite Hx in E. contradiction.
Qed.

Lemma eigs_psd n M eigs eps : (0 < n)%nat -> is_mat n n M -> symmetric n M -> eigvals_spec n M eigs ->
  (eps <= lmin eigs <-> PSD n (msub M (mscale eps (eye n)))).
Proof.
  intros Hn HM HS He. fold (shiftm M eps n).
  destruct (min_eigenvalue n M Hn HM HS) as (l & Hl & Hq).
  assert (Hin : In l eigs) by now apply He.
  split.
  - intros H. split; [now apply shiftm_is_mat|]. split; [now apply shiftm_sym|].
    intros x Hx. rewrite quad_shiftm by auto. specialize (Hq x Hx).
    assert (eps <= l) by (apply Rle_trans with (lmin eigs); auto; apply lmin_le; auto).
    pose proof (dot_self_nonneg x).
    assert (eps * dot x x <= l * dot x x) by (apply Rmult_le_compat_r; auto). lra.
  - intros (_ & _ & HP). assert (Hne : eigs <> []) by (intros ->; destruct Hin).
    pose proof (proj1 (He _) (lmin_in eigs Hne)) as (x & Hx & Hx0 & Ex).
    specialize (HP x Hx). rewrite quad_shiftm in HP by auto. unfold quad in HP.
    rewrite Ex, dot_vscale_r in HP. pose proof (dot_pos_of_nonzero n x Hx Hx0).
    apply (Rmult_le_reg_r (dot x x)); auto. lra.
Qed.

Lemma consistent_iff p eigs eps : ip_ok p -> symmetric 3 (ip_H p) -> eigvals_spec 4 (ip_J p) eigs ->
  (ip_consistent eigs eps = true <-> PSD 4 (msub (ip_J p) (mscale eps (eye 4)))).
Proof.
  intros Hp HS He. unfold ip_consistent. rewrite Rleb_iff.
  apply eigs_psd; auto; try lia; try (now apply ip_J_ok); now apply ip_J_symmetric.
Qed.

(** ** a body exists *)
(** six point masses with given mass, centre and central second moment sum of d d^T *)
Definition six (m : R) (c d1 d2 d3 : vec) : pms :=
  let k := sqrt (3 / m) in
  [(m / 6, vadd c (vscale k d1)); (m / 6, vsub c (vscale k d1));
   (m / 6, vadd c (vscale k d2)); (m / 6, vsub c (vscale k d2));
   (m / 6, vadd c (vscale k d3)); (m / 6, vsub c (vscale k d3))].

Lemma six_moments m c d1 d2 d3 : 0 < m -> length c = 3%nat ->
  length d1 = 3%nat -> length d2 = 3%nat -> length d3 = 3%nat ->
  pms_mass (six m c d1 d2 d3) = m /\
  (forall i, (i < 3)%nat -> pms_first (six m c d1 d2 d3) i = m * nth i c 0) /\
  (forall i j, (i < 3)%nat -> (j < 3)%nat -> pms_second (six m c d1 d2 d3) i j =
     m * nth i c 0 * nth j c 0 + (nth i d1 0 * nth j d1 0 + nth i d2 0 * nth j d2 0 + nth i d3 0 * nth j d3 0)).
Proof.
  intros Hm Hc H1 H2 H3. unfold six. set (k := sqrt (3 / m)).
  assert (Hk : k * k = 3 / m).
  { apply sqrt_sqrt. left. apply Rdiv_lt_0_compat; lra. }
  split; [|split].
  - unfold pms_mass. cbn. field.
  - intros i Hi. unfold pms_first. cbn [map lsum fold_right fst snd]. vnth. field.
  - intros i j Hi Hj. unfold pms_second. cbn [map lsum fold_right fst snd]. vnth.
    set (ci := nth i c 0). set (cj := nth j c 0).
    set (a := nth i d1 0). set (a' := nth j d1 0). set (b := nth i d2 0). set (b' := nth j d2 0).
    set (e := nth i d3 0). set (e' := nth j d3 0).
    transitivity (m * ci * cj + m / 3 * (k * k) * (a * a' + b * b' + e * e')); [field|].
    rewrite Hk. field. lra.
Qed.

Lemma ip_Hc_psd p : ip_ok p -> 0 < ip_mass p -> PSD 4 (ip_J p) -> PSD 3 (ip_Hc p).
Proof.
  intros [Hc HH] Hm (HJ & HS & HP). destruct p as [m c H]; unfold ip_Hc, ip_h in *;
    cbn [ip_mass ip_com ip_H] in *.
  destruct (len3_inv c Hc) as (c1 & c2 & c3 & ->).
  destruct (mat33_inv H HH) as (a & b & d & e & f & g & h & i & j & ->).
  apply sym44 in HS as (S1 & S2 & _ & S4 & _ & _). subst.
  split; [apply is_mat33|]. split; [sym3|].
  intros x Hx. destruct (len3_inv x Hx) as (x1 & x2 & x3 & ->).
  specialize (HP [x1; x2; x3; - (c1 * x1 + c2 * x2 + c3 * x3)] eq_refl).
  match goal with |- 0 <= ?y => match type of HP with 0 <= ?z => replace y with z end end; auto.
  cbn. ring.
Qed.

Lemma body_exists p : ip_ok p -> 0 < ip_mass p -> PSD 4 (ip_J p) ->
  exists s, pms_ok s /\ (forall mp, In mp s -> 0 < fst mp) /\ describes p s.
Proof.
  intros Hp Hm HP. pose proof (ip_Hc_psd p Hp Hm HP) as HC.
  destruct (PSD_decompose 3 _ HC) as (vs & Hl & Hv & HE).
  destruct (len3_inv vs Hl) as (d1 & d2 & d3 & ->).
  assert (H1 : length d1 = 3%nat) by (apply Hv; cbn; auto).
  assert (H2 : length d2 = 3%nat) by (apply Hv; cbn; auto).
  assert (H3 : length d3 = 3%nat) by (apply Hv; cbn; auto).
  destruct Hp as [Hc HH].
  destruct (six_moments (ip_mass p) (ip_com p) d1 d2 d3 Hm Hc H1 H2 H3) as (M0 & M1 & M2).
  exists (six (ip_mass p) (ip_com p) d1 d2 d3). split; [|split].
  - intros mp Hin. unfold six in Hin. cbn in Hin.
    repeat (destruct Hin as [<-|Hin]; [cbn [snd]; len|]). destruct Hin.
  - intros mp Hin. unfold six in Hin. cbn in Hin.
    repeat (destruct Hin as [<-|Hin]; [cbn [fst]; lra|]). destruct Hin.
  - split; [now rewrite M0|]. split; split.
    + unfold ip_h. now rewrite vscale_length.
    + intros i Hi. unfold ip_h. rewrite nth_vscale, M1; auto.
    + exact HH.
    + intros i j Hi Hj. rewrite M2 by auto. specialize (HE i j Hi Hj). unfold ip_Hc in HE.
      rewrite (entry_msub _ _ 3 3) in HE; auto.
      2:{ apply is_mat_mscale. rewrite <- Hc. apply is_mat_outer. }
      rewrite entry_mscale, entry_outer in HE. cbn [map lsum fold_right] in HE. lra.
Qed.

Lemma consistent_iff_body p eigs : ip_ok p -> symmetric 3 (ip_H p) -> eigvals_spec 4 (ip_J p) eigs ->
  0 < ip_mass p ->
  (ip_consistent eigs 0 = true <->
   exists s, pms_ok s /\ (forall mp, In mp s -> 0 < fst mp) /\ describes p s).
Proof.
  intros Hp HS He Hm. rewrite (consistent_iff p eigs 0 Hp HS He).
  assert (E : msub (ip_J p) (mscale 0 (eye 4)) = ip_J p).
  { pose proof (ip_J_ok p Hp) as HJ. destruct (mat44_inv _ HJ) as (? & ? & ? & ? & ? & ? & ? & ? & ? & ? & ? & ? & ? & ? & ? & ? & ->).
    cbn. list_eq; ring. }
  rewrite E. split.
  - intros HP. apply body_exists; auto.
  - intros (s & Hs & Hpos & Hd). apply (describes_PSD p s); auto.
    intros mp Hmp. left. auto.
Qed.

(** the eigenvalues of a diagonal matrix are its diagonal *)
Lemma eigvals_diag d : eigvals_spec (length d) (diag d) d.
Proof.
  intros l. split.
  - intros Hin. destruct (In_nth d l 0 Hin) as (k & Hk & E).
    exists (map (fun i => if Nat.eqb i k then 1 else 0) (seq 0 (length d))).
    assert (L : length (map (fun i => if Nat.eqb i k then 1 else 0) (seq 0 (length d))) = length d)
      by now rewrite map_length, seq_length.
    split; [exact L|]. split.
    + intros H. assert (H' := f_equal (fun v => nth k v 0) H). cbv beta in H'.
      rewrite nth_map_seq, nth_zeros, Nat.eqb_refl in H' by auto. lra.
    + rewrite mat_vec_diag by auto. apply (vec_ext (length d)); [len|len|].
      intros i Hi. rewrite nth_vmul, nth_vscale, nth_map_seq by auto.
      destruct (Nat.eqb_spec i k) as [->|]; [rewrite E; ring|ring].
  - intros (x & Hx & Hne & E). rewrite mat_vec_diag in E by auto.
    destruct (in_dec Req_EM_T l d) as [|Hn]; auto. exfalso. apply Hne.
    apply (vec_ext (length d)); [auto|len|]. intros i Hi. rewrite nth_zeros.
    assert (E' := f_equal (fun v => nth i v 0) E). cbv beta in E'.
    rewrite nth_vmul, nth_vscale in E' by auto.
    assert (nth i d 0 <> l) by (intros <-; apply Hn, nth_In; auto).
    apply Rmult_eq_reg_l with (nth i d 0 - l); lra.
Qed.
