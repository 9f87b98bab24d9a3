(** Pseudo-inertia matrices of point-mass systems as sums of outer products; the parameter variable
    of the constraint builders. *)
From Verif Require Import Base.Vec Base.VecFacts Spec.Basic Spec.Objects Spec.Realizable Model.Util Model.Constraint Model.Inertial
  Proofs.Coord Proofs.LinAlg Proofs.InertialP Proofs.Decomp.

Definition pim_z (mp : R * vec) : vec := vscale (sqrt (fst mp)) (snd mp ++ [1]).
Lemma pim_z_length mp : length (snd mp) = 3%nat -> length (pim_z mp) = 4%nat.
Proof. intro H. unfold pim_z. rewrite vscale_length, app_length, H. reflexivity. Qed.
Lemma pim_decomp s J : pms_ok s -> pms_nonneg s -> pim_of s J -> decomp 4 (map pim_z s) J.
Proof.
  intros Ho Hn (HJ & HE). split; [exact HJ|]. split.
  - intros z Hz. apply in_map_iff in Hz as (mp & <- & Hm). apply pim_z_length, Ho, Hm.
  - intros i j Hi Hj. rewrite HE, map_map by auto. f_equal. apply map_ext_in. intros mp Hm. unfold pim_z.
    rewrite !nth_vscale. pose proof (sqrt_sqrt (fst mp) (Hn mp Hm)) as E. rewrite <- E at 1. ring.
Qed.
Lemma quad_pim_z Q mp : 0 <= fst mp -> quad Q (pim_z mp) = fst mp * quad Q (snd mp ++ [1]).
Proof. intro H. unfold pim_z. rewrite quad_vscale. rewrite sqrt_sqrt by auto. reflexivity. Qed.
Lemma trace_pim Q s J : is_mat 4 4 Q -> pms_ok s -> pms_nonneg s -> pim_of s J ->
  trace (mat_mul Q J) = lsum (map (fun mp => fst mp * quad Q (snd mp ++ [1])) s).
Proof.
  intros HQ Ho Hn HJ. rewrite (trace_decomp 4 Q (map pim_z s)) by (auto using pim_decomp; lia).
  rewrite map_map. f_equal. apply map_ext_in. intros mp Hm. apply quad_pim_z. auto.
Qed.
Lemma realizable_psd K J : realizable_J K J -> PSD 4 J.
Proof. intros (s & Ho & Hn & _ & HJ). eapply decomp_psd, pim_decomp; eauto. Qed.

(** from a decomposition to point masses *)
Lemma realizable_of_decomp (K : vec -> Prop) c zs J : K c -> length c = 3%nat -> decomp 4 zs J ->
  (forall x w, In (x ++ [w]) zs -> length x = 3%nat -> (w = 0 -> x = zeros 3) /\ (w <> 0 -> K (vscale (/ w) x))) ->
  realizable_J K J.
Proof.
  intros Kc Lc (HJ & Hz & HE) HK.
  set (f := fun z : vec => let x := removelast z in let w := last z 0 in if Req_EM_T w 0 then (0, c) else (w * w, vscale (/ w) x)).
  assert (Sp : forall z, In z zs -> exists x w, z = x ++ [w] /\ length x = 3%nat /\ f z = if Req_EM_T w 0 then (0, c) else (w * w, vscale (/ w) x)).
  { intros z Hin. specialize (Hz z Hin). exists (removelast z), (last z 0).
    split; [apply app_removelast_last; intros ->; discriminate|]. split; [|reflexivity].
    assert (L := f_equal (@length R) (app_removelast_last 0 (l := z) ltac:(intros ->; discriminate))).
    rewrite app_length in L. cbn in L. lia. }
  exists (map f zs). split; [|split; [|split]].
  - intros mp Hm. apply in_map_iff in Hm as (z & <- & Hin). destruct (Sp z Hin) as (x & w & -> & Lx & ->).
    destruct (Req_EM_T w 0); cbn [snd]; [exact Lc|]. rewrite vscale_length. exact Lx.
  - intros mp Hm. apply in_map_iff in Hm as (z & <- & Hin). destruct (Sp z Hin) as (x & w & -> & Lx & ->).
    destruct (Req_EM_T w 0); cbn [fst]; [lra|apply sqr_nonneg].
  - intros mp Hm. apply in_map_iff in Hm as (z & <- & Hin). destruct (Sp z Hin) as (x & w & -> & Lx & ->).
    destruct (HK x w Hin Lx) as [_ H]. destruct (Req_EM_T w 0); cbn [snd]; [exact Kc|auto].
  - split; [exact HJ|]. intros i j Hi Hj. rewrite HE, map_map by auto. f_equal. apply map_ext_in. intros z Hin.
    destruct (Sp z Hin) as (x & w & -> & Lx & ->). destruct (HK x w Hin Lx) as [H0 _].
    destruct (Req_EM_T w 0) as [->|Nw]; cbn [fst snd].
    + rewrite (H0 eq_refl). destruct i as [|[|[|[|i]]]], j as [|[|[|[|j]]]]; cbn; try lia; ring.
    + destruct_vecs. destruct i as [|[|[|[|i]]]], j as [|[|[|[|j]]]]; cbn; try lia; field; auto.
Qed.

(** the two forms of realizability *)
Lemma pim_describes p s : ip_ok p -> pms_ok s ->
  (pim_of s (ip_J p) <-> has_moments s (ip_mass p) (ip_h p) (ip_H p)).
Proof.
  intros Hp Hs. destruct (ip_J_entries p Hp) as (E1 & E2 & E3). pose proof Hp as (Lc & LH).
  assert (Hh : forall i, nth i (ip_h p) 0 = ip_mass p * nth i (ip_com p) 0) by (intro i; unfold ip_h; apply nth_vscale).
  assert (Hl : forall x : vec, length x = 3%nat -> nth 3 (x ++ [1]) 0 = 1) by (intros x Hx; rewrite app_nth2, Hx by lia; reflexivity).
  assert (Hk : forall (x : vec) i, length x = 3%nat -> (i < 3)%nat -> nth i (x ++ [1]) 0 = nth i x 0) by (intros x i Hx Hi; apply app_nth1; lia).
  assert (S33 : lsum (map (fun mp => fst mp * nth 3 (snd mp ++ [1]) 0 * nth 3 (snd mp ++ [1]) 0) s) = pms_mass s).
  { unfold pms_mass. f_equal. apply map_ext_in. intros mp Hm. rewrite Hl by (apply Hs, Hm). ring. }
  assert (Si3 : forall i, (i < 3)%nat -> lsum (map (fun mp => fst mp * nth i (snd mp ++ [1]) 0 * nth 3 (snd mp ++ [1]) 0) s) = pms_first s i).
  { intros i Hi. unfold pms_first. f_equal. apply map_ext_in. intros mp Hm. rewrite Hl, Hk by (auto; apply Hs, Hm). ring. }
  assert (S3i : forall i, (i < 3)%nat -> lsum (map (fun mp => fst mp * nth 3 (snd mp ++ [1]) 0 * nth i (snd mp ++ [1]) 0) s) = pms_first s i).
  { intros i Hi. unfold pms_first. f_equal. apply map_ext_in. intros mp Hm. rewrite Hl, Hk by (auto; apply Hs, Hm). ring. }
  assert (Sij : forall i j, (i < 3)%nat -> (j < 3)%nat -> lsum (map (fun mp => fst mp * nth i (snd mp ++ [1]) 0 * nth j (snd mp ++ [1]) 0) s) = pms_second s i j).
  { intros i j Hi Hj. unfold pms_second. f_equal. apply map_ext_in. intros mp Hm. rewrite !Hk by (auto; apply Hs, Hm). ring. }
  split.
  - intros (_ & HE). split; [|split; split].
    + rewrite <- S33, <- HE, E3 by lia. reflexivity.
    + unfold ip_h. now rewrite vscale_length.
    + intros i Hi. rewrite Hh, <- (proj1 (E2 i Hi)), HE, Si3 by lia. reflexivity.
    + exact LH.
    + intros i j Hi Hj. rewrite <- E1, HE, Sij by lia. reflexivity.
  - intros (Em & (_ & Eh) & (_ & EH)). split; [now apply ip_J_ok|]. intros i j Hi Hj.
    assert (Ci : (i < 3 \/ i = 3)%nat) by lia. assert (Cj : (j < 3 \/ j = 3)%nat) by lia.
    destruct Ci as [Ci| ->], Cj as [Cj| ->].
    + rewrite E1, Sij, EH by auto. reflexivity.
    + rewrite (proj1 (E2 i Ci)), Si3, <- Eh, Hh by auto. reflexivity.
    + rewrite (proj2 (E2 j Cj)), S3i, <- Eh, Hh by auto. reflexivity.
    + now rewrite E3, S33.
Qed.
Lemma realizable_iff_J K p : ip_ok p -> (realizable_J K (ip_J p) <-> realizable K (ip_mass p) (ip_h p) (ip_H p)).
Proof.
  intro Hp. split; intros (s & Ho & Hn & Hi & H); exists s; (split; [auto|]; split; [auto|]; split; [auto|]); apply pim_describes; auto.
Qed.

(** the parameter variable *)
Lemma pv_is_mat v J : pv_value v J -> (exists t, v = PVvec t) -> is_mat 4 4 J.
Proof. intros H (t & ->). destruct H as (p & Hp & _ & _ & ->). now apply ip_J_ok. Qed.
Lemma ip_vec_length p v : ip_vec p = Ok v -> ip_ok p -> length v = 10%nat.
Proof.
  destruct p as [m c H]. intros E [H1 H2]. cbn [ip_com ip_H] in *. unfold ip_vec, ip_I in E. cbn [ip_mass ip_com ip_H] in E.
  rewrite H2I_ok in E by auto. cbn [bind] in E. destruct_vecs. cbn in E. now injection E as <-.
Qed.
Lemma pv_ok v J eps : pv_value v J -> is_mat 4 4 J -> 0 <= eps ->
  pim_must_equal_param_var v eps = Ok (J, J = transpose J /\ cp_psd 4 (msub J (mscale eps (eye 4)))).
Proof.
  intros Hv HJ He. unfold pim_must_equal_param_var. rewrite (proj2 (Rleb_iff 0 eps) He). cbn [assert_ bind].
  assert (E : (match v with PVmat J => if is_matb 4 4 J then Ok J else Raise ValueError
               | PVvec t => if is_vecb 10 t then pim_must_equal_vec t else Raise ValueError end) = Ok J).
  { destruct v as [J'|t]; cbn in Hv.
    - subst. now rewrite (proj2 (is_matb_iff 4 4 J) HJ).
    - destruct Hv as (p & Hp & HS & Ev & ->). unfold is_vecb. rewrite (ip_vec_length p t Ev Hp), Nat.eqb_refl.
      now apply pim_must_equal_vec_J. }
  rewrite E. cbn [bind]. unfold pim_psd. rewrite (proj2 (is_matb_iff 4 4 J) HJ), (proj2 (Rleb_iff 0 eps) He). reflexivity.
Qed.
Lemma psd_shift J eps : is_mat 4 4 J ->
  ((J = transpose J /\ cp_psd 4 (msub J (mscale eps (eye 4)))) <-> PSD 4 (msub J (mscale eps (eye 4)))).
Proof.
  intro HJ. assert (HM : is_mat 4 4 (msub J (mscale eps (eye 4)))) by (apply is_mat_msub; auto; apply is_mat_mscale, is_mat_eye).
  split.
  - intros (HT & HP). split; [exact HM|]. split; [|exact HP]. pose proof (transpose_symmetric 4 J HJ (eq_sym HT)) as HS.
    intros i j Hi Hj. rewrite !(entry_msub _ _ 4 4), !entry_mscale, !entry_eye by (auto; apply is_mat_mscale, is_mat_eye).
    rewrite HS by auto. now rewrite Nat.eqb_sym.
  - intros (_ & HS & HP). split; [|exact HP]. symmetry. apply (symmetric_transpose 4); auto. intros i j Hi Hj.
    specialize (HS i j Hi Hj). rewrite !(entry_msub _ _ 4 4), !entry_mscale, !entry_eye in HS by (auto; apply is_mat_mscale, is_mat_eye).
    rewrite (Nat.eqb_sym j i) in HS. lra.
Qed.
Lemma psd_unshift J eps : is_mat 4 4 J -> 0 <= eps -> PSD 4 (msub J (mscale eps (eye 4))) -> PSD 4 J.
Proof.
  intros HJ He H. apply (psd_shift J eps HJ) in H as H'. destruct H' as (HT & HP). split; [exact HJ|].
  split; [now apply transpose_symmetric|]. intros x Hx. specialize (HP x Hx).
  rewrite (quad_msub 4 4), quad_mscale, (quad_eye 4) in HP by (auto; apply is_mat_mscale, is_mat_eye).
  pose proof (dot_self_nonneg x). assert (0 <= eps * dot x x) by (apply Rmult_le_pos; auto). lra.
Qed.
