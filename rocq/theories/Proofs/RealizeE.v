(** C50-C52: the realizability test and constraints of ellipsoids. *)
From Verif Require Import Base.Vec Base.VecFacts Base.Ext Spec.Basic Spec.Objects Spec.Samples Spec.Realizable Spec.Shapes Spec.ShapeObjects
  Model.Util Model.Polydd Model.Constraint Model.Inertial Model.Ellipsoid Model.Realize
  Proofs.Coord Proofs.LinAlg Proofs.UtilP Proofs.InertialP Proofs.ConsistentP Proofs.BoxP Proofs.EllP Proofs.EllForms Proofs.Decomp Proofs.PimP
  Proofs.RealizeP.

Fixpoint expand (mask : list bool) (z : vec) : vec :=
  match mask with
  | [] => []
  | true :: m => hd 0 z :: expand m (tl z)
  | false :: m => 0 :: expand m z
  end.
Lemma symmetric_diag d : symmetric (length d) (diag d).
Proof.
  intros i j Hi Hj. rewrite !entry_diag by auto. rewrite (Nat.eqb_sym j i). destruct (Nat.eqb_spec i j) as [->|]; reflexivity.
Qed.
(** ** the reduced form of a degenerate ellipsoid *)
Lemma QV_spec e : is_ell e -> e_dim e = 3%nat -> proper_half (e_half e) ->
  exists Qr V, QV_degenerate e = Ok (fin2 Qr, V) /\ let r := e_rank e in
  is_mat (r + 1) (r + 1) Qr /\ symmetric (r + 1) Qr /\ is_mat 4 (r + 1) V /\
  (forall y w, length y = 3%nat -> flat_ok (e_half e) y ->
     exists z, length z = (r + 1)%nat /\ mat_vec V z = vadd (mat_vec (e_rot e) y) (vscale w (e_center e)) ++ [w] /\
               quad Qr z = w * w - lsum (map2 zq (e_half e) y)) /\
  (forall z, length z = (r + 1)%nat -> exists y w, length y = 3%nat /\ flat_ok (e_half e) y /\
     mat_vec V z = vadd (mat_vec (e_rot e) y) (vscale w (e_center e)) ++ [w] /\
     quad Qr z = w * w - lsum (map2 zq (e_half e) y)).
Proof.
  intros He Hd Hpr. destruct (ell_facts e He) as (_ & HQ & Hc). rewrite Hd in *.
  pose proof (rank_count e Hd Hpr) as Er. unfold QV_degenerate. rewrite Er, e_z_tiny, half_inv_tiny. clear Er.
  assert (Lh : length (e_half e) = 3%nat) by exact Hd. destruct e as [h Q c]. cbn [e_half e_rot e_center] in *. clear He Hd Hpr.
  unfold flat_ok. destruct_vecs. cbn [map length].
  exists (diag (select [negb (tiny x); negb (tiny x0); negb (tiny x1)] [- (/ x * / x); - (/ x0 * / x0); - (/ x1 * / x1)] ++ [1])).
  exists (map2 (fun (row : vec) (c : R) => row ++ [c])
           (select_cols [negb (tiny x); negb (tiny x0); negb (tiny x1)]
              [[x5; x6; x7]; [x8; x9; x10]; [x11; x12; x13]]) [x2; x3; x4] ++
         [zeros (length (filter negb [tiny x; tiny x0; tiny x1])) ++ [1]]).
  assert (Z0 : forall y : vec, (forall i, (i < 3)%nat -> tiny (nth i [x; x0; x1] 0) = true -> nth i y 0 = 0) <->
    (tiny x = true -> nth 0 y 0 = 0) /\ (tiny x0 = true -> nth 1 y 0 = 0) /\ (tiny x1 = true -> nth 2 y 0 = 0)).
  { intro y. split; [intro H; repeat split; intro E; [apply (H 0%nat)|apply (H 1%nat)|apply (H 2%nat)]; auto; lia|].
    intros (H0 & H1 & H2) i Hi. destruct i as [|[|[|i]]]; cbn; auto; lia. }
  split.
  { destruct (tiny x), (tiny x0), (tiny x1); cbn; unfold fin2, fin1; cbn; do 2 f_equal; list_eq; f_equal; ring. }
  cbv zeta. split; [|split; [|split; [|split]]].
  - destruct (tiny x), (tiny x0), (tiny x1); match goal with |- is_mat _ _ (diag ?d) => exact (is_mat_diag d) end.
  - destruct (tiny x), (tiny x0), (tiny x1); match goal with |- symmetric _ (diag ?d) => exact (symmetric_diag d) end.
  - destruct (tiny x), (tiny x0), (tiny x1); split; repeat constructor.
  - intros y w Ly Hz. exists (select [negb (tiny x); negb (tiny x0); negb (tiny x1)] y ++ [w]).
    apply Z0 in Hz as (H0 & H1 & H2). destruct_vecs. cbn [nth] in *. unfold zq. cbn [map2 lsum fold_right].
    destruct (tiny x), (tiny x0), (tiny x1); rewrite ?H0, ?H1, ?H2 by reflexivity; (split; [reflexivity|]); (split; [cbn; list_eq; ring|unfold quad; cbn; ring]).
  - intros z Lz. exists (expand [negb (tiny x); negb (tiny x0); negb (tiny x1)] z), (last z 0).
    rewrite Z0.
    destruct (tiny x) eqn:E0, (tiny x0) eqn:E1, (tiny x1) eqn:E2; cbn in Lz;
      repeat (let a := fresh "a" in destruct z as [|a z]; cbn in Lz; try discriminate Lz);
      (split; [reflexivity|]); (split; [cbn; repeat split; intro; congruence || reflexivity|]);
      (split; [cbn; list_eq; ring|unfold quad, zq; cbn; rewrite ?E0, ?E1, ?E2; ring]).
Qed.

Lemma decomp_build n zs : (forall z, In z zs -> length z = n) -> exists J, decomp n zs J.
Proof.
  intro H. exists (map (fun i => map (fun j => lsum (map (fun z => nth i z 0 * nth j z 0) zs)) (seq 0 n)) (seq 0 n)).
  split; [|split; [exact H|]].
  - split; [now rewrite map_length, seq_length|]. apply Forall_forall. intros r Hr. apply in_map_iff in Hr as (i & <- & _).
    now rewrite map_length, seq_length.
  - intros i j Hi Hj. unfold entry. rewrite (nth_indep _ [] (map (fun j => lsum (map (fun z => nth 0 z 0 * nth j z 0) zs)) (seq 0 n))) by (now rewrite map_length, seq_length).
    rewrite (map_nth (fun i => map (fun j => lsum (map (fun z => nth i z 0 * nth j z 0) zs)) (seq 0 n))), seq_nth by auto.
    now rewrite nth_map_seq by auto.
Qed.

Section Ell.
Variable e : Ell.
Hypothesis He : is_ell e.
Hypothesis Hd : e_dim e = 3%nat.
Hypothesis HQ : orthogonal 3 (e_rot e).
Hypothesis Hpr : proper_half (e_half e).
Let K := ell_set (e_half e) (e_rot e) (e_center e).

Lemma e_lens : length (e_half e) = 3%nat /\ length (e_center e) = 3%nat /\ is_mat 3 3 (e_rot e).
Proof. destruct (ell_facts e He) as (_ & H1 & H2). rewrite Hd in *. auto. Qed.
Lemma nondegenerate_fat : e_is_degenerate e = false -> fat (e_half e).
Proof.
  intro H. unfold e_is_degenerate in H. apply Nat.ltb_ge in H. rewrite (rank_count e Hd Hpr), Hd in H.
  destruct e_lens as (L & _). intros i Hi. destruct (Hpr i Hi) as [E|E]; [|exact E]. exfalso.
  assert (T : tiny (nth i (e_half e) 0) = true) by (rewrite E; apply tiny_0). clear E. unfold e_dim in Hd. clear - H L T Hi.
  revert H L T Hi. generalize (e_half e). intros h H L T Hi. destruct_vecs. cbn in H.
  destruct i as [|[|[|i]]]; cbn in T, Hi; try lia; rewrite T in H; cbn in H; revert H;
    repeat match goal with |- context [tiny ?a] => destruct (tiny a); cbn end; lia.
Qed.
Lemma degenerate_has_zero : (exists i, (i < 3)%nat /\ nth i (e_half e) 0 = 0) -> e_is_degenerate e = true.
Proof.
  intros (i & Hi & E). destruct (e_is_degenerate e) eqn:D; auto. destruct e_lens as (L & _).
  pose proof (nondegenerate_fat D i ltac:(lia)) as F. rewrite E in F. lra.
Qed.

Lemma reduced_iff Qr V J : is_mat 4 4 J -> QV_degenerate e = Ok (fin2 Qr, V) ->
  ((exists Jr, cp_psd_var (e_rank e + 1) Jr /\ 0 <= trace (mat_mul Qr Jr) /\ J = mat_mul (mat_mul V Jr) (transpose V)) <-> realizable_J K J).
Proof.
  intros HJ EQ. destruct (QV_spec e He Hd Hpr) as (Qr' & V' & E & MQ & SQ & MV & Fw & Bw). rewrite EQ in E. injection E as E E'. subst V'.
  assert (Qr' = Qr) as -> by (rewrite <- (to_R_fin2 Qr), <- (to_R_fin2 Qr'), E; reflexivity).
  set (r := e_rank e) in *. clearbody r. destruct e_lens as (Lh & Lc & MR).
  assert (LR : forall y, length (mat_vec (e_rot e) y) = 3%nat) by (intro y; rewrite mat_vec_length; apply MR).
  assert (Lx : forall y w, length (vadd (mat_vec (e_rot e) y) (vscale w (e_center e))) = 3%nat) by (intros; rewrite vadd_length; rewrite ?vscale_length, ?LR; auto).
  split.
  - intros (Jr & (MJr & TJr & PJr) & Tr & ->). assert (Pr : PSD (r + 1) Jr) by (split; [exact MJr|]; split; [now apply transpose_symmetric|exact PJr]).
    destruct (decomp_exists _ _ Pr) as (zs & Hz). rewrite (trace_decomp (r + 1) _ zs) in Tr by (auto; lia).
    destruct (split_nonneg (r + 1) Qr MQ SQ zs) as (zs' & Hz' & HE'); [apply Hz|exact Tr|].
    assert (Hd' : decomp (r + 1) zs' Jr).
    { destruct Hz as (M & Lz & HE). split; [exact M|]. split; [intros z Hin; apply Hz', Hin|]. intros i j Hi Hj. rewrite HE by auto. apply HE'. }
    apply (decomp_congr (r + 1) 4 V) in Hd'; auto; try lia.
    apply (realizable_of_decomp _ (e_center e) (map (mat_vec V) zs')); auto; [apply center_in; auto|].
    intros x w Hin Lx'. apply in_map_iff in Hin as (z & Ez & Hin). destruct (Hz' z Hin) as (Lz & Nz).
    destruct (Bw z Lz) as (y & w' & Ly & Fy & Ev & Eq). rewrite Ev in Ez. apply app_inj_tail in Ez as [Ex Ew]. subst w'.
    assert (Ey : mat_vec (transpose (e_rot e)) (vsub x (vscale w (e_center e))) = y).
    { symmetry. refine (proj1 (move_inv 3 (e_rot e) (vscale w (e_center e)) y x HQ _ Ly Lx' _) _); [rewrite vscale_length; auto|lia|symmetry; exact Ex]. }
    split; intro W.
    + apply (ell_point_zero (e_half e) (e_rot e) (e_center e) x w); auto; rewrite Ey; auto. lra.
    + apply ell_in; auto; rewrite Ey; auto. lra.
  - intros (s & Ho & Hn & Hin & Hp).
    assert (Hs : exists zs, (forall z, In z zs -> length z = (r + 1)%nat /\ 0 <= quad Qr z) /\ map (mat_vec V) zs = map pim_z s).
    { clear Hp HJ. induction s as [|[m p] s IH]; [exists []; split; [intros z []|reflexivity]|].
      destruct IH as (zs & H1 & H2); [intros mp H; apply Ho; cbn; auto|intros mp H; apply Hn; cbn; auto|intros mp H; apply Hin; cbn; auto|].
      specialize (Hin (m, p) ltac:(cbn; auto)). specialize (Hn (m, p) ltac:(cbn; auto)). cbn [fst snd] in *.
      destruct (ell_out _ _ _ p HQ Lc Lh Hpr Hin) as (Lp & Fy & Sy).
      set (y := mat_vec (transpose (e_rot e)) (vsub p (e_center e))) in *.
      assert (Ly : length y = 3%nat) by (unfold y; rewrite mat_vec_length; apply (is_mat_transpose 3 3); auto; lia).
      assert (Ep : p = move (e_rot e) (e_center e) y) by (apply (move_inv 3); auto; lia).
      destruct (Fw y 1 Ly Fy) as (z & Lz & Ev & Eq). exists (vscale (sqrt m) z :: zs). split.
      - intros z' [<-|Hz]; [|auto]. rewrite vscale_length. split; [exact Lz|]. rewrite quad_vscale, Eq.
        apply Rmult_le_pos; [apply sqr_nonneg|lra].
      - cbn [map]. rewrite H2. f_equal. rewrite mat_vec_vscale, Ev. unfold pim_z. cbn [fst snd]. do 2 f_equal. rewrite vscale_1. symmetry. exact Ep. }
    destruct Hs as (zs & Hz & Em). destruct (decomp_build (r + 1) zs) as (Jr & HJr); [intros z H; apply Hz, H|].
    pose proof (decomp_psd _ _ _ HJr) as (M & S & P). exists Jr. split; [|split].
    + split; [exact M|]. split; [now apply (symmetric_transpose (r + 1))|exact P].
    + rewrite (trace_decomp (r + 1) _ zs) by (auto; lia). apply lsum_nonneg. intros t Ht. apply in_map_iff in Ht as (z & <- & H). apply Hz, H.
    + apply (decomp_congr (r + 1) 4 V) in HJr; auto; try lia. rewrite Em in HJr. eapply decomp_unique; [|exact HJr]. now apply pim_decomp.
Qed.

Lemma ell_constraints ut v J eps : pv_value v J -> is_mat 4 4 J -> 0 <= eps ->
  exists P, ell_moment_constraints ut e v eps = Ok P /\ (P <-> PSD 4 (msub J (mscale eps (eye 4))) /\ realizable_J K J).
Proof.
  intros Hv HJ Heps. destruct e_lens as (Lh & Lc & MR). unfold ell_moment_constraints. rewrite Hd, (pv_ok v J eps Hv HJ Heps). cbn [Nat.eqb assert_ bind].
  set (psd := J = transpose J /\ cp_psd 4 (msub J (mscale eps (eye 4)))).
  assert (Hpsd : psd <-> PSD 4 (msub J (mscale eps (eye 4)))) by now apply psd_shift.
  pose proof (psd_unshift J eps HJ Heps) as Hun.
  destruct (e_is_degenerate e) eqn:D; cbn [negb].
  - destruct ut.
    + rewrite (Q_degenerate_qmat e He Hd), !trace_mul_fin. cbn [bind]. eexists. split; [reflexivity|]. rewrite Hpsd. split.
      * intros (P1 & P2 & P3). split; [exact P1|]. apply core_iff; auto.
      * intros (P1 & P2). split; [exact P1|]. apply core_iff in P2; auto.
    + destruct (QV_spec e He Hd Hpr) as (Qr & V & E & _). rewrite E. cbn [bind]. rewrite all_fin_fin2. eexists. split; [reflexivity|].
      rewrite <- (reduced_iff Qr V J HJ E). split.
      * intros (Jr & P1 & P2 & P3 & P4). split; [tauto|]. exists Jr. split; [exact P1|]. split; [|exact P4]. apply P3, trace_mul_fin.
      * intros (P1 & Jr & P2 & P3 & P4). exists Jr. split; [exact P2|]. split; [tauto|]. split; [|exact P4].
        intros t Et. rewrite trace_mul_fin in Et. now injection Et as <-.
  - pose proof (nondegenerate_fat D) as Hf. rewrite (e_Q_qmat e He Hd Hf), trace_mul_fin. cbn [bind]. eexists. split; [reflexivity|].
    rewrite Hpsd. split.
    + intros (P1 & P2). split; [exact P1|]. apply core_fat; auto.
    + intros (P1 & P2). split; [exact P1|]. apply core_fat in P2; auto.
Qed.

Lemma ell_test_fat eigvals p eps : fat (e_half e) -> ip_ok p -> symmetric 3 (ip_H p) -> eigvals_spec 4 (ip_J p) (eigvals (ip_J p)) -> 0 <= eps ->
  exists b, ell_can_realize eigvals e p eps = Ok b /\
    (b = true <-> PSD 4 (msub (ip_J p) (mscale eps (eye 4))) /\ realizable_J K (ip_J p)).
Proof.
  intros Hf Hp HS Hei Heps. destruct e_lens as (Lh & Lc & MR). unfold ell_can_realize. rewrite Hd. cbn [Nat.eqb assert_ bind].
  pose proof (consistent_iff p _ eps Hp HS Hei) as Hcon. pose proof (ip_J_ok p Hp) as HJ. pose proof (psd_unshift (ip_J p) eps HJ Heps) as Hun.
  destruct (ip_consistent (eigvals (ip_J p)) eps) eqn:C; cbn [negb].
  2:{ exists false. split; [reflexivity|]. split; [discriminate|]. intros (P & _). apply Hcon in P. discriminate. }
  assert (P : PSD 4 (msub (ip_J p) (mscale eps (eye 4)))) by now apply Hcon.
  assert (D : e_is_degenerate e = false).
  { unfold e_is_degenerate. apply Nat.ltb_ge. rewrite (rank_count e Hd Hpr), Hd.
    clear - Hf Lh. revert Hf Lh. generalize (e_half e). intros h Hf L.
    assert (T : forall i, (i < 3)%nat -> tiny (nth i h 0) = false) by (intros i Hi; apply tiny_proper_pos, Hf; lia).
    pose proof (T 0%nat ltac:(lia)) as T0. pose proof (T 1%nat ltac:(lia)) as T1. pose proof (T 2%nat ltac:(lia)) as T2. destruct_vecs. cbn in *.
    rewrite T0, T1, T2. cbn. lia. }
  rewrite D. cbn [negb]. rewrite (e_Q_qmat e He Hd Hf), all_fin_fin2, trace_mul_fin. cbn [assert_ bind]. eexists. split; [reflexivity|].
  rewrite Rleb_iff. split; [intro T; split; [exact P|]; apply core_fat; auto|]. intros (_ & T). apply core_fat in T; auto.
Qed.

Lemma ell_test_forward eigvals p eps : ip_ok p -> symmetric 3 (ip_H p) -> eigvals_spec 4 (ip_J p) (eigvals (ip_J p)) -> 0 <= eps ->
  PSD 4 (msub (ip_J p) (mscale eps (eye 4))) -> realizable_J K (ip_J p) -> ell_can_realize eigvals e p eps = Ok true.
Proof.
  intros Hp HS Hei Heps P HR. destruct e_lens as (Lh & Lc & MR). destruct (e_is_degenerate e) eqn:D.
  - unfold ell_can_realize. rewrite Hd. cbn [Nat.eqb assert_ bind]. rewrite (proj2 (consistent_iff p _ eps Hp HS Hei) P). cbn [negb].
    rewrite D. cbn [negb]. rewrite (Q_degenerate_qmat e He Hd), !trace_mul_fin. cbn [bind]. f_equal.
    apply core_forward in HR as (T1 & T2); auto. rewrite T2, (proj2 (Rleb_iff _ _) T1), isclose_zero, Rabs_R0. cbn [andb].
    apply Rleb_iff. unfold np_atol. lra.
  - destruct (ell_test_fat eigvals p eps (nondegenerate_fat D) Hp HS Hei Heps) as (b & E & Hb). rewrite E. f_equal. apply Hb. auto.
Qed.
End Ell.

(** ** half extents between 0 and 1e-8 *)
Lemma is_fin_eadd a b : is_fin (eadd a b) = is_fin a && is_fin b.
Proof. destruct a, b; reflexivity. Qed.
Lemma is_fin_emul a b : is_fin (emul a b) = is_fin a && is_fin b.
Proof. destruct a, b; try reflexivity; cbn; unfold inf_times; repeat match goal with |- context [Rltb ?x ?y] => destruct (Rltb x y) end; reflexivity. Qed.
Lemma is_fin_eneg a : is_fin (eneg a) = is_fin a. Proof. destruct a; reflexivity. Qed.
Lemma all_fin_corner A : A <> [] -> hd [] A <> [] -> is_fin (hd NaN (hd [] A)) = false -> all_fin A = false.
Proof. destruct A as [|[|a r] A]; cbn; try congruence. intros _ _ H. now rewrite H. Qed.
Lemma thin_Q e : is_ell e -> e_dim e = 3%nat -> (exists i, (i < 3)%nat /\ nth i (e_half e) 0 <= np_atol) -> all_fin (e_Q e) = false.
Proof.
  intros He Hd (i & Hi & Hs). destruct (ell_facts e He) as (Hp & HQ & Hc). rewrite Hd in *. unfold e_Q, e_S. rewrite half_inv_tiny.
  assert (Lh : length (e_half e) = 3%nat) by exact Hd. specialize (Hp i Hi).
  assert (T : tiny (nth i (e_half e) 0) = true) by (unfold tiny; apply Rleb_iff; rewrite Rabs_pos_eq; lra). clear Hs Hp He Hd.
  destruct e as [h Q c]. cbn [e_half e_rot e_center] in *. destruct_vecs. cbn [map].
  assert (D : exists d0 d1 d2, esq [if tiny x then PInf else Fin (/ x); if tiny x0 then PInf else Fin (/ x0); if tiny x1 then PInf else Fin (/ x1)] = [d0; d1; d2]
     /\ is_fin d0 && (is_fin d1 && is_fin d2) = false).
  { do 3 eexists. split; [reflexivity|]. rewrite !is_fin_emul. destruct i as [|[|[|i]]]; cbn in T; try lia; rewrite T; cbn; rewrite ?andb_false_r; reflexivity. }
  destruct D as (d0 & d1 & d2 & -> & D). apply all_fin_corner; [cbn; discriminate|cbn; discriminate|].
  cbn -[eadd emul eneg is_fin]. rewrite !is_fin_eneg, !is_fin_eadd, !is_fin_emul, !is_fin_eadd, !is_fin_emul. cbn [is_fin].
  destruct (is_fin d0), (is_fin d1), (is_fin d2); try discriminate D; reflexivity.
Qed.
Lemma positive_rank e : e_dim e = 3%nat -> (forall i, (i < 3)%nat -> 0 < nth i (e_half e) 0) -> e_is_degenerate e = false.
Proof.
  intros Hd H. unfold e_is_degenerate. apply Nat.ltb_ge. rewrite Hd. unfold e_rank, e_dim in *. revert Hd H. generalize (e_half e). intros h L H.
  pose proof (H 0%nat ltac:(lia)) as T0. pose proof (H 1%nat ltac:(lia)) as T1. pose proof (H 2%nat ltac:(lia)) as T2. destruct_vecs. cbn in *.
  rewrite !(proj2 (Reqb_false _ _)) by lra. cbn. lia.
Qed.

(** ** in terms of the constructor *)
Section W.
Variables (h : vec) (r : option mat) (c : option vec) (e : Ell).
Hypothesis Hi : ell_init h r c = Ok e.
Hypothesis Lh : length h = 3%nat.
Lemma w_dim : is_ell e /\ e_dim e = 3%nat /\ e_half e = h /\ e_rot e = pose_rot 3 r /\ e_center e = pose_tr 3 c.
Proof.
  split; [exists h, r, c; exact Hi|]. apply ell_init_inv in Hi as (_ & H2 & H3 & H4 & _). rewrite Lh in *. unfold e_dim. rewrite H2. auto.
Qed.
Lemma ell_w_constraints ut v J eps : orthogonal 3 (pose_rot 3 r) -> proper_half h -> pv_value v J -> is_mat 4 4 J -> 0 <= eps ->
  exists P, ell_moment_constraints ut e v eps = Ok P /\
    (P <-> PSD 4 (msub J (mscale eps (eye 4))) /\ realizable_J (ell_set h (pose_rot 3 r) (pose_tr 3 c)) J).
Proof.
  intros HQ Hpr Hv HJ Heps. destruct w_dim as (He & Hd & E1 & E2 & E3).
  pose proof (ell_constraints e He Hd ltac:(now rewrite E2) ltac:(now rewrite E1) ut v J eps Hv HJ Heps) as H. now rewrite E1, E2, E3 in H.
Qed.
Lemma ell_w_test eigvals p eps : orthogonal 3 (pose_rot 3 r) -> fat h -> ip_ok p -> symmetric 3 (ip_H p) ->
  eigvals_spec 4 (ip_J p) (eigvals (ip_J p)) -> 0 <= eps ->
  exists b, ell_can_realize eigvals e p eps = Ok b /\
    (b = true <-> PSD 4 (msub (ip_J p) (mscale eps (eye 4))) /\ realizable (ell_set h (pose_rot 3 r) (pose_tr 3 c)) (ip_mass p) (ip_h p) (ip_H p)).
Proof.
  intros HQ Hf Hp HS Hei Heps. destruct w_dim as (He & Hd & E1 & E2 & E3).
  pose proof (ell_test_fat e He Hd ltac:(now rewrite E2) ltac:(rewrite E1; now apply fat_proper) eigvals p eps ltac:(now rewrite E1) Hp HS Hei Heps) as H.
  rewrite E1, E2, E3 in H. destruct H as (b & Hb & H). exists b. split; [exact Hb|]. rewrite H, realizable_iff_J by auto. tauto.
Qed.
Lemma msub_zero J : is_mat 4 4 J -> msub J (mscale 0 (eye 4)) = J.
Proof.
  intro HJ. assert (is_mat 4 4 (mscale 0 (eye 4))) by (apply is_mat_mscale, is_mat_eye). apply (mat_ext 4 4); [now apply is_mat_msub|auto|].
  intros i j Hi' Hj. rewrite (entry_msub _ _ 4 4), entry_mscale by auto. ring.
Qed.
Lemma ell_w_test0 eigvals p : orthogonal 3 (pose_rot 3 r) -> fat h -> ip_ok p -> symmetric 3 (ip_H p) ->
  eigvals_spec 4 (ip_J p) (eigvals (ip_J p)) ->
  exists b, ell_can_realize eigvals e p 0 = Ok b /\
    (b = true <-> realizable (ell_set h (pose_rot 3 r) (pose_tr 3 c)) (ip_mass p) (ip_h p) (ip_H p)).
Proof.
  intros HQ Hf Hp HS Hei. destruct (ell_w_test eigvals p 0 HQ Hf Hp HS Hei ltac:(lra)) as (b & Hb & H). exists b. split; [exact Hb|].
  rewrite H, msub_zero by (now apply ip_J_ok). split; [tauto|]. intro HR. split; [|exact HR]. eapply realizable_psd, realizable_iff_J; eauto.
Qed.
Lemma ell_w_constraints0 ut v J : orthogonal 3 (pose_rot 3 r) -> proper_half h -> pv_value v J -> is_mat 4 4 J ->
  exists P, ell_moment_constraints ut e v 0 = Ok P /\ (P <-> realizable_J (ell_set h (pose_rot 3 r) (pose_tr 3 c)) J).
Proof.
  intros HQ Hpr Hv HJ. destruct (ell_w_constraints ut v J 0 HQ Hpr Hv HJ ltac:(lra)) as (P & HP & H). exists P. split; [exact HP|].
  rewrite H, msub_zero by auto. split; [tauto|]. intro HR. split; [|exact HR]. eapply realizable_psd; eauto.
Qed.
Lemma ell_w_test_degenerate eigvals p eps : orthogonal 3 (pose_rot 3 r) -> proper_half h -> ip_ok p -> symmetric 3 (ip_H p) ->
  eigvals_spec 4 (ip_J p) (eigvals (ip_J p)) -> 0 <= eps -> PSD 4 (msub (ip_J p) (mscale eps (eye 4))) ->
  realizable (ell_set h (pose_rot 3 r) (pose_tr 3 c)) (ip_mass p) (ip_h p) (ip_H p) -> ell_can_realize eigvals e p eps = Ok true.
Proof.
  intros HQ Hpr Hp HS Hei Heps P HR. destruct w_dim as (He & Hd & E1 & E2 & E3).
  apply (ell_test_forward e He Hd ltac:(now rewrite E2) ltac:(now rewrite E1)); auto. rewrite E1, E2, E3. now apply realizable_iff_J.
Qed.
Lemma ell_w_test_degenerate0 eigvals p : orthogonal 3 (pose_rot 3 r) -> proper_half h -> ip_ok p -> symmetric 3 (ip_H p) ->
  eigvals_spec 4 (ip_J p) (eigvals (ip_J p)) ->
  realizable (ell_set h (pose_rot 3 r) (pose_tr 3 c)) (ip_mass p) (ip_h p) (ip_H p) -> ell_can_realize eigvals e p 0 = Ok true.
Proof.
  intros HQ Hpr Hp HS Hei HR. apply ell_w_test_degenerate; auto; [lra|]. rewrite msub_zero by (now apply ip_J_ok).
  eapply realizable_psd, realizable_iff_J; eauto.
Qed.
Lemma ell_w_thin eigvals p eps : (forall i, (i < 3)%nat -> 0 < nth i h 0) -> (exists i, (i < 3)%nat /\ nth i h 0 <= / 100000000) ->
  ip_ok p -> symmetric 3 (ip_H p) -> eigvals_spec 4 (ip_J p) (eigvals (ip_J p)) -> PSD 4 (msub (ip_J p) (mscale eps (eye 4))) ->
  ell_can_realize eigvals e p eps = Raise AssertionError.
Proof.
  intros H0 H1 Hp HS Hei P. destruct w_dim as (He & Hd & E1 & E2 & E3). unfold ell_can_realize. rewrite Hd. cbn [Nat.eqb assert_ bind].
  rewrite (proj2 (consistent_iff p _ eps Hp HS Hei) P). cbn [negb]. rewrite positive_rank by (auto; rewrite E1; auto). cbn [negb].
  rewrite thin_Q by (auto; rewrite E1; exact H1). reflexivity.
Qed.
Lemma ell_w_thin_constraints ut v J eps : (forall i, (i < 3)%nat -> 0 < nth i h 0) -> (exists i, (i < 3)%nat /\ nth i h 0 <= / 100000000) ->
  pv_value v J -> is_mat 4 4 J -> 0 <= eps -> ell_moment_constraints ut e v eps = NonFinite.
Proof.
  intros H0 H1 Hv HJ Heps. destruct w_dim as (He & Hd & E1 & E2 & E3). unfold ell_moment_constraints. rewrite Hd, (pv_ok v J eps Hv HJ Heps). cbn [Nat.eqb assert_ bind].
  rewrite positive_rank by (auto; rewrite E1; auto). cbn [negb]. unfold trace_mul. rewrite thin_Q by (auto; rewrite E1; exact H1). reflexivity.
Qed.
(** one exact zero and one half extent in (0, 1e-8]: the reduced matrices have different sizes *)
Lemma ell_w_mixed v J eps : (exists i, (i < 3)%nat /\ nth i h 0 = 0) -> (exists i, (i < 3)%nat /\ 0 < nth i h 0 <= / 100000000) ->
  pv_value v J -> is_mat 4 4 J -> 0 <= eps -> ell_moment_constraints false e v eps = Raise ValueError.
Proof.
  intros (i & Hii & Z) (j & Hj & S1 & S2) Hv HJ Heps. destruct w_dim as (He & Hd & E1 & E2 & E3).
  unfold ell_moment_constraints. rewrite Hd, (pv_ok v J eps Hv HJ Heps). cbn [Nat.eqb assert_ bind].
  assert (HL : e_is_degenerate e = true /\ length (esq (select (map negb (e_z e)) (e_half_inv e))) <> e_rank e).
  { destruct (ell_facts e He) as (Hp & _). rewrite Hd, E1 in Hp. unfold e_is_degenerate. rewrite Hd. unfold e_rank. rewrite e_z_tiny, half_inv_tiny, E1.
    assert (T : forall k, (k < 3)%nat -> tiny (nth k h 0) = false -> Reqb (nth k h 0) 0 = false).
    { intros k Hk Ht. apply Reqb_false. apply tiny_nz, Ht. }
    assert (Ti : Reqb (nth i h 0) 0 = true) by (apply Reqb_iff; auto).
    assert (Tj : tiny (nth j h 0) = true) by (unfold tiny; apply Rleb_iff; rewrite Rabs_pos_eq; unfold np_atol; lra).
    assert (Tj' : Reqb (nth j h 0) 0 = false) by (apply Reqb_false; lra).
    pose proof (T 0%nat ltac:(lia)) as T0. pose proof (T 1%nat ltac:(lia)) as T1. pose proof (T 2%nat ltac:(lia)) as T2.
    clear - Ti Tj Tj' T0 T1 T2 Hii Hj Lh. destruct_vecs. cbn [nth] in T0, T1, T2. cbn [map filter].
    split.
    - destruct i as [|[|[|i]]]; cbn [nth] in Ti; try lia; rewrite Ti; cbn [negb]; apply Nat.ltb_lt;
        repeat match goal with |- context [negb (Reqb ?a 0)] => destruct (negb (Reqb a 0)) end; cbn; lia.
    - unfold esq. rewrite map_length.
      destruct j as [|[|[|j]]]; cbn [nth] in Tj, Tj'; try lia; rewrite Tj, Tj'; cbn [negb];
        repeat match goal with |- context [tiny ?a] => destruct (tiny a) end; rewrite ?T0, ?T1, ?T2 by reflexivity; cbn;
        repeat match goal with |- context [negb (Reqb ?a 0)] => destruct (negb (Reqb a 0)) end; cbn; lia. }
  destruct HL as (D & L). rewrite D. cbn [negb]. unfold QV_degenerate. apply Nat.eqb_neq in L. rewrite L. reflexivity.
Qed.
End W.

(** can_realize accepts some parameters that no mass distribution in a disk has *)
Lemma ell_disk_tolerance : exists e, ell_init [1; 1; 0] None None = Ok e /\ ip_ok disk_params /\ symmetric 3 (ip_H disk_params) /\
  exists eigvals, eigvals_spec 4 (ip_J disk_params) (eigvals (ip_J disk_params)) /\ ell_can_realize eigvals e disk_params 0 = Ok true /\
  ~ realizable (ell_set [1; 1; 0] (eye 3) (zeros 3)) (ip_mass disk_params) (ip_h disk_params) (ip_H disk_params).
Proof.
  assert (Hok : ip_ok disk_params) by (split; [reflexivity|apply (is_mat_diag [_; _; _])]).
  assert (HS : symmetric 3 (ip_H disk_params)) by apply (symmetric_diag [_; _; _]).
  assert (EJ : ip_J disk_params = diag [0; 0; / 1000000000; 1]) by (cbn; list_eq; ring).
  destruct (ell_init [1; 1; 0] None None) as [e| |] eqn:Ei.
  2, 3: rewrite ell_init_good in Ei; [discriminate|intros i Hi'; cbn in Hi'; destruct i as [|[|[|i]]]; cbn; try lra; lia|apply is_mat_eye|reflexivity].
  exists e. split; [reflexivity|]. split; [exact Hok|]. split; [exact HS|].
  exists (fun _ => [0; 0; / 1000000000; 1]). rewrite EJ. split; [apply (eigvals_diag [0; 0; / 1000000000; 1])|].
  assert (Hei : eigvals_spec 4 (ip_J disk_params) [0; 0; / 1000000000; 1]) by (rewrite EJ; apply (eigvals_diag [0; 0; / 1000000000; 1])).
  destruct (w_dim _ _ _ _ Ei eq_refl) as (He & Hd & E1 & E2 & E3). split.
  - unfold ell_can_realize. rewrite Hd. cbn [Nat.eqb assert_ bind].
    assert (C : ip_consistent [0; 0; / 1000000000; 1] 0 = true).
    { apply (consistent_iff disk_params _ 0 Hok HS Hei). rewrite msub_zero by (now apply ip_J_ok). rewrite EJ.
      split; [apply (is_mat_diag [_; _; _; _])|]. split; [apply (symmetric_diag [_; _; _; _])|]. intros x Hx. destruct_vecs. unfold quad. cbn.
      pose proof (sqr_nonneg x1). pose proof (sqr_nonneg x2). nra. }
    rewrite C. cbn [negb].
    assert (D : e_is_degenerate e = true).
    { apply degenerate_has_zero; auto; [rewrite E1; intros i Hi'; cbn in Hi'; destruct i as [|[|[|i]]]; cbn; try lia; lra|]. exists 2%nat. rewrite E1. split; [lia|reflexivity]. }
    rewrite D. cbn [negb]. rewrite (Q_degenerate_qmat e He Hd), !trace_mul_fin, E1, E2, E3, EJ. cbn [bind]. f_equal.
    assert (T1 : tiny 1 = false) by (apply tiny_proper_pos; unfold np_atol; lra).
    unfold dnz, dz. cbn [map]. rewrite T1, tiny_0. cbn [pose_rot pose_tr].
    apply andb_true_iff. rewrite Rleb_iff, isclose_zero, Rleb_iff. cbn.
    split; [field_simplify; lra|]. match goal with |- Rabs ?x <= _ => replace x with (- / 1000000000) by field end. rewrite Rabs_Ropp, Rabs_pos_eq; unfold np_atol; lra.
  - intros (s & Ho & Hn & Hin & (_ & _ & (_ & EH))). specialize (EH 2%nat 2%nat ltac:(lia) ltac:(lia)).
    assert (Z : pms_second s 2 2 = 0).
    { unfold pms_second. apply lsum_map_zero. intros mp Hm. specialize (Hin mp Hm). specialize (Ho mp Hm). destruct Hin as (u & Lu & _ & ->).
      cbn in Lu. destruct_vecs. cbn. ring. }
    rewrite Z in EH. cbn in EH. lra.
Qed.
