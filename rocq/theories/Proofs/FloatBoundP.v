(** Bounding boxes in binary64 (C85). *)
From Coq Require Import Permutation.
From Verif Require Import Base.Vec Base.VecFacts Spec.Basic Spec.PolySpec Model.Inertial Model.Polydd Model.Poly Spec.Floats Spec.Rounding Model.Util Model.FloatUtil Model.Box Model.FloatShapes Proofs.Coord Proofs.Decomp Proofs.ConsistentP Proofs.FloatP Proofs.AabbP Proofs.FloatShapesP.
From Flocq Require Import Core Relative.

Lemma fl_dot3_axis q1 q2 q3 n1 n2 n3 v : fmt q1 -> fmt q2 -> fmt q3 -> In [n1; n2; n3] box_normals -> fl_dot [(n1, q1); (n2, q2); (n3, q3)] v -> v = q1 * n1 + q2 * n2 + q3 * n3.
Proof.
  intros F1 F2 F3 HI H. assert (O : forall q, fmt q -> fmt (- q)) by (intros; now apply generic_format_opp). assert (Z : fmt 0) by (apply (fmt_int 0); lia).
  assert (E : v = pdot [(n1, q1); (n2, q2); (n3, q3)]); [|rewrite E; unfold pdot; cbn; ring].
  assert (NZ : forall q, nz (0, q) = false) by (intro q; unfold nz; cbn; rewrite Rmult_0_l; destruct (Req_EM_T 0 0); congruence).
  unfold box_normals in HI. cbn in HI. apply fl_dot_exact; [exact H| |].
  - repeat destruct HI as [HI|HI]; try (injection HI as <- <- <-); [..|destruct HI]; cbn [filter]; rewrite ?NZ; repeat match goal with |- context [nz ?p] => destruct (nz p) end; cbn; lia.
  - intros p [<-|[<-|[<-|[]]]]; cbn [fst snd]; repeat destruct HI as [HI|HI]; try (injection HI as <- <- <-); try destruct HI; rewrite ?Rmult_0_l, ?Rmult_1_l; auto;
      (replace (-1 * q1) with (- q1) by ring) || (replace (-1 * q2) with (- q2) by ring) || (replace (-1 * q3) with (- q3) by ring); auto.
Qed.
(** the inequalities of an axis-aligned box *)
Lemma aabb_ineq h1 h2 h3 c1 c2 c3 A b : fmt c1 -> fmt c2 -> fmt c3 -> fl_box_inequalities [h1; h2; h3] (eye 3) [c1; c2; c3] A b ->
  A = box_normals /\ b = [b64 (h1 + c1); b64 (h1 + - c1); b64 (h2 + c2); b64 (h2 + - c2); b64 (h3 + c3); b64 (h3 + - c3)].
Proof.
  intros F1 F2 F3 (HA & w & Hw & ->). assert (Z : fmt 0) by (apply (fmt_int 0); lia). assert (O : fmt 1) by (apply (fmt_int 1); lia).
  assert (EA : A = box_normals).
  { assert (G : forall n a, In n box_normals -> fl_mat_vec (eye 3) n a -> a = n).
    { intros n a Hn H. cbn in H. assert (exists n1 n2 n3, n = [n1; n2; n3]) as (n1 & n2 & n3 & ->).
      { unfold box_normals in Hn. cbn in Hn. repeat destruct Hn as [<-|Hn]; try destruct Hn; eauto. }
      unfold fl_mat_vec in H. destruct (F2_cons _ _ _ _ H) as (a1 & ? & -> & A1 & H'). destruct (F2_cons _ _ _ _ H') as (a2 & ? & -> & A2 & H''). destruct (F2_cons _ _ _ _ H'') as (a3 & ? & -> & A3 & H3). inversion H3; subst.
      cbn [combine] in *. apply fl_dot3_unit in A1; auto. apply fl_dot3_unit in A2; auto. apply fl_dot3_unit in A3; auto. list_eq; lra. }
    clear Hw. revert HA G. generalize box_normals. intro N. revert A. induction N as [|n N IH]; intros A HA G; [now inversion HA|].
    destruct (F2_cons _ _ _ _ HA) as (a & A' & -> & H1 & H2). f_equal; [apply G; [now left|exact H1]|]. apply IH; [exact H2|]. intros. apply G; [now right|auto]. }
  subst A. split; [reflexivity|].
  assert (E : w = [c1; - c1; c2; - c2; c3; - c3]).
  { unfold fl_mat_vec, box_normals in Hw. repeat match goal with H : Forall2 _ (_ :: _) _ |- _ => let H' := fresh in destruct (F2_cons _ _ _ _ H) as (? & ? & -> & ? & H'); clear H end.
    match goal with H : Forall2 _ [] _ |- _ => inversion H; subst end. cbn [combine] in *.
    repeat match goal with H : fl_dot _ _ |- _ => apply fl_dot3_axis in H; [|auto|auto|auto|unfold box_normals; cbn; auto 12] end. list_eq; lra. }
  subst w. reflexivity.
Qed.
(** one coordinate *)
Lemma bound_coord lo hi p M tol : lo <= p <= hi -> Rabs lo <= M -> Rabs hi <= M -> 32 * (u64 * M) + 32 * eta64 <= tol ->
  let c := b64 (1 / 2 * b64 (lo + hi)) in let h := b64 (1 / 2 * b64 (Rmax lo hi - Rmin lo hi)) in
  p <= b64 (b64 (h + c) + tol) /\ - p <= b64 (b64 (h + - c) + tol).
Proof.
  intros Hp Hl Hh Ht c h. pose proof u64_pos as U. pose proof u64_small as U'. pose proof eta64_pos as N. apply rabs_le in Hl. apply rabs_le in Hh.
  assert (M0 : 0 <= M) by lra. assert (UM : 0 <= u64 * M) by (apply Rmult_le_pos; lra). assert (UM' : u64 * M <= / 1000 * M) by (apply Rmult_le_compat_r; lra). assert (UN : u64 * eta64 <= / 1000 * eta64) by (apply Rmult_le_compat_r; lra).
  assert (Eh : h = b64 (1 / 2 * b64 (hi - lo))) by (unfold h; now rewrite Rmax_right, Rmin_left by lra).
  assert (HALF : forall x, - (2 * M) <= x <= 2 * M -> Rabs (b64 (1 / 2 * b64 x) - 1 / 2 * x) <= 3 * (u64 * M) + 2 * eta64).
  { intros x Hx. pose proof (rabs_le _ _ (b64_err_le x (2 * M) ltac:(apply Rabs_le; lra))) as E1. set (y := b64 x) in *. clearbody y.
    pose proof (rabs_le _ _ (b64_err_le (1 / 2 * y) (101 / 100 * M + eta64) ltac:(apply Rabs_le; lra))) as E2. apply Rabs_le. lra. }
  pose proof (rabs_le _ _ (HALF (lo + hi) ltac:(lra))) as EC. pose proof (rabs_le _ _ (HALF (hi - lo) ltac:(lra))) as EH. fold c in EC. rewrite <- Eh in EH. clear Eh. clearbody c h. clear HALF.
  assert (TOL : 0 <= tol) by lra. assert (UT : u64 * tol <= / 1000 * tol) by (apply Rmult_le_compat_r; lra).
  assert (G : forall x, - (101 / 50 * M + 8 * eta64) <= x <= 101 / 50 * M + 8 * eta64 -> x - 5 * (u64 * M) - 3 * eta64 + 9 / 10 * tol <= b64 (b64 x + tol)).
  { intros x Hx. pose proof (rabs_le _ _ (b64_err_le x (101 / 50 * M + 8 * eta64) ltac:(apply Rabs_le; lra))) as E1. set (y := b64 x) in *. clearbody y.
    pose proof (rabs_le _ _ (b64_err_le (y + tol) (103 / 50 * M + 10 * eta64 + tol) ltac:(apply Rabs_le; lra))) as E2. lra. }
  split.
  - pose proof (G (h + c) ltac:(lra)). lra.
  - pose proof (G (h + - c) ltac:(lra)). lra.
Qed.
(** the points are inside *)
Lemma bound_contains P tol M r : rows_len 3 P -> P <> [] -> (forall p s, In p P -> In s p -> is_b64 s /\ Rabs s <= M) -> 32 * (u64 * M) + 32 * eta64 <= tol ->
  fl_aabb_contains (fst (fl_points_to_bound P)) (snd (fl_points_to_bound P)) tol P r -> forall ans, In ans r -> ans = true.
Proof.
  intros RP NP HM Ht (A & b & HI & HC).
  assert (NC : ncols P = 3%nat) by (destruct P as [|v P]; [congruence|]; apply RP; now left).
  assert (NCol : forall i, col i P <> []) by (intros i E'; apply map_eq_nil in E'; auto).
  assert (MN : forall i, (i < 3)%nat -> nth i (col_min P) 0 = lmin (col i P)) by (intros; apply col_stat; auto).
  assert (MX : forall i, (i < 3)%nat -> nth i (col_max P) 0 = lmax (col i P)) by (intros; apply col_stat; auto).
  assert (L1 : length (col_min P) = 3%nat) by (unfold col_min; rewrite map_length, transpose_length; exact NC).
  assert (L2 : length (col_max P) = 3%nat) by (unfold col_max; rewrite map_length, transpose_length; exact NC).
  assert (BD : forall i x, (i < 3)%nat -> In x (col i P) -> Rabs x <= M).
  { intros i x Hi Hx. apply in_col in Hx as (p & Hp & <-). apply (HM p); auto. apply nth_In. now rewrite (RP p Hp). }
  assert (BC : forall i p, (i < 3)%nat -> In p P -> lmin (col i P) <= nth i p 0 <= lmax (col i P)).
  { intros i p Hi Hp. assert (In (nth i p 0) (col i P)) by (apply in_col; eauto). split; [now apply lmin_le|now apply lmax_ge]. }
  assert (BL : forall i, (i < 3)%nat -> Rabs (lmin (col i P)) <= M) by (intros; eapply BD; eauto; now apply lmin_in).
  assert (BH : forall i, (i < 3)%nat -> Rabs (lmax (col i P)) <= M) by (intros; eapply BD; eauto; now apply lmax_in).
  unfold fl_points_to_bound, fl_two_vertices in HI. cbn [fst snd] in HI. destruct (len3_inv _ L1) as (l1 & l2 & l3 & E1). destruct (len3_inv _ L2) as (g1 & g2 & g3 & E2). rewrite E1, E2 in *.
  pose proof (MN 0%nat ltac:(lia)) as M0. pose proof (MN 1%nat ltac:(lia)) as M1. pose proof (MN 2%nat ltac:(lia)) as M2. pose proof (MX 0%nat ltac:(lia)) as X0. pose proof (MX 1%nat ltac:(lia)) as X1. pose proof (MX 2%nat ltac:(lia)) as X2. cbn [nth] in *. clear MN MX.
  cbn [map2] in HI. apply aabb_ineq in HI as (-> & ->); try apply fmt_b64.
  unfold fl_contains_all in HC. intros ans Ha. match type of HC with Forall2 (fl_contains _ ?bb _) _ _ => assert (G : forall p a, In p P -> fl_contains box_normals bb tol p a -> a = true) end; [|clear - HC Ha G; induction HC as [|p a P r H HC IH]; [destruct Ha|]; destruct Ha as [<-|Ha]; [eapply G; [now left|exact H]|]; apply IH; auto; intros; eapply G; [right|]; eauto].
  clear HC Ha. intros p a Hp (y & Hy & ->). pose proof (RP p Hp) as Lp. destruct (len3_inv _ Lp) as (p1 & p2 & p3 & Ep). subst p.
  assert (F1 : fmt p1) by (apply is_b64_fmt, (HM _ p1 Hp); cbn; auto). assert (F2 : fmt p2) by (apply is_b64_fmt, (HM _ p2 Hp); cbn; auto). assert (F3 : fmt p3) by (apply is_b64_fmt, (HM _ p3 Hp); cbn; auto).
  assert (E : y = [p1; - p1; p2; - p2; p3; - p3]).
  { unfold fl_mat_vec, box_normals in Hy. repeat match goal with H : Forall2 _ (_ :: _) _ |- _ => let H' := fresh in destruct (F2_cons _ _ _ _ H) as (? & ? & -> & ? & H'); clear H end.
    match goal with H : Forall2 _ [] _ |- _ => inversion H; subst end. cbn [combine] in *.
    repeat match goal with H : fl_dot _ _ |- _ => apply fl_dot3_axis in H; [|auto|auto|auto|unfold box_normals; cbn; auto 12] end. list_eq; lra. }
  subst y. pose proof (BC 0%nat _ ltac:(lia) Hp) as C0. pose proof (BC 1%nat _ ltac:(lia) Hp) as C1. pose proof (BC 2%nat _ ltac:(lia) Hp) as C2. cbn [nth] in *.
  pose proof (BL 0%nat ltac:(lia)). pose proof (BL 1%nat ltac:(lia)). pose proof (BL 2%nat ltac:(lia)). pose proof (BH 0%nat ltac:(lia)). pose proof (BH 1%nat ltac:(lia)). pose proof (BH 2%nat ltac:(lia)).
  rewrite <- M0, <- X0 in *. rewrite <- M1, <- X1 in *. rewrite <- M2, <- X2 in *.
  destruct (bound_coord l1 g1 p1 M tol) as (T1 & T2); auto. destruct (bound_coord l2 g2 p2 M tol) as (T3 & T4); auto. destruct (bound_coord l3 g3 p3 M tol) as (T5 & T6); auto.
  cbn [combine forallb fst snd]. rewrite !(proj2 (Rleb_iff _ _)); auto.
Qed.
Lemma b64_nonneg x : 0 <= x -> 0 <= b64 x.
Proof. intro H. unfold b64. apply round_ge_generic; auto; [apply FLT_exp_valid; reflexivity|apply valid_rnd_N|apply generic_format_0]. Qed.
Lemma bound_half_nonneg v1 v2 h : In h (snd (fl_two_vertices v1 v2)) -> 0 <= h.
Proof.
  cbn. revert v2. induction v1 as [|a v1 IH]; intros [|b v2] H; try destruct H as []; cbn in H; [|eapply IH; eassumption]. subst h.
  apply b64_nonneg. apply Rmult_le_pos; [lra|]. apply b64_nonneg. pose proof (Rmin_l a b). pose proof (Rmax_l a b). lra.
Qed.
Lemma bound_default P r : rows_len 3 P -> P <> [] -> (forall p s, In p P -> In s p -> is_b64 s /\ Rabs s <= 1000000) ->
  fl_aabb_contains (fst (fl_points_to_bound P)) (snd (fl_points_to_bound P)) (b64 (/ 100000000)) P r -> forall ans, In ans r -> ans = true.
Proof.
  intros RP NP HM. apply bound_contains with (M := 1000000); auto. pose proof default_tol. pose proof u64_small. pose proof eta64_small. lra.
Qed.
Lemma bound_total c h tol P : length h = 3%nat -> exists r, length r = length P /\ fl_aabb_contains c h tol P r.
Proof.
  intro Lh. destruct (len3_inv _ Lh) as (x & y & z & ->). assert (HA : exists A, Forall2 (fl_mat_vec (eye 3)) box_normals A).
  { induction box_normals as [|s S (A & IH)]; [exists []; constructor|]. destruct (fl_mat_vec_total (eye 3) s) as (w & Hw). exists (w :: A). now constructor. }
  destruct HA as (A & HA). destruct (fl_mat_vec_total A c) as (w & Hw).
  assert (HC : exists r, length r = length P /\ fl_contains_all A (fl_vadd [x; x; y; y; z; z] w) tol P r).
  { unfold fl_contains_all. clear. induction P as [|v P (r & L & IH)]; [exists []; split; constructor|]. destruct (fl_contains_total A (fl_vadd [x; x; y; y; z; z] w) tol v) as (a & Ha). exists (a :: r). split; [cbn; congruence|now constructor]. }
  destruct HC as (r & L & HC). exists r. split; [exact L|]. exists A, (fl_vadd [x; x; y; y; z; z] w). split; [|exact HC]. split; [exact HA|]. exists w. split; [exact Hw|reflexivity].
Qed.
Lemma b64_tie_down y e m : (-1021 <= e)%Z -> bpow radix2 (e - 1) <= y < bpow radix2 e -> Z.even m = true ->
  y * bpow radix2 (53 - e) = IZR m + / 2 -> b64 y = IZR m * bpow radix2 (e - 53).
Proof.
  intros He Hy Hev Hm.
  unfold b64, round, F2R, scaled_mantissa, cexp. cbn [Fnum Fexp].
  rewrite (mag_unique_pos radix2 y e Hy). unfold FLT_exp. replace (Z.max (e - 53) (-1074)) with (e - 53)%Z by lia.
  replace (- (e - 53))%Z with (53 - e)%Z by lia. rewrite Hm. f_equal. f_equal.
  assert (F : Zfloor (IZR m + / 2) = m) by (apply Zfloor_imp; rewrite plus_IZR; lra).
  unfold Znearest. rewrite F. rewrite Rcompare_Eq by lra. rewrite Hev. reflexivity.
Qed.
Lemma bound_large : exists P, rows_len 3 P /\ P <> [] /\ (forall p s, In p P -> In s p -> is_b64 s /\ Rabs s <= 300000000) /\
  forall r, fl_aabb_contains (fst (fl_points_to_bound P)) (snd (fl_points_to_bound P)) (b64 (/ 100000000)) P r -> nth 0 r true = false.
Proof.
  set (lo := / 33554432). set (hi := 268435456 + / 16777216). exists [[lo; 0; 0]; [hi; 0; 0]].
  assert (Fl : fmt lo). { replace lo with (IZR 1 * bpow radix2 (- (25))) by (rewrite bpn by lia; unfold lo; change (IZR (2 ^ 25)) with 33554432; lra). apply fmt_scaled; lia. }
  assert (Fh : fmt hi). { replace hi with (IZR 4503599627370497 * bpow radix2 (- (24))) by (rewrite bpn by lia; unfold hi; change (IZR (2 ^ 24)) with 16777216; lra). apply fmt_scaled; lia. }
  assert (Z : fmt 0) by (apply (fmt_int 0); lia). assert (B28 : bpow radix2 28 = 268435456) by reflexivity. assert (B29 : bpow radix2 29 = 536870912) by reflexivity. assert (B24 : bpow radix2 24 = 16777216) by reflexivity.
  assert (N24 : bpow radix2 (- (24)) = / 16777216) by (rewrite bpn by lia; reflexivity).
  assert (S : b64 (lo + hi) = 268435456 + / 8388608).
  { rewrite (b64_tie_up _ 29 4503599627370497); [|lia|change (29 - 1)%Z with 28%Z; rewrite B28, B29; unfold lo, hi; lra|reflexivity|change (53 - 29)%Z with 24%Z; rewrite B24; unfold lo, hi; lra].
    change (29 - 53)%Z with (- (24))%Z. rewrite N24. change (4503599627370497 + 1)%Z with 4503599627370498%Z. lra. }
  assert (D : b64 (hi - lo) = 268435456).
  { rewrite (b64_tie_down _ 29 4503599627370496); [|lia|change (29 - 1)%Z with 28%Z; rewrite B28, B29; unfold lo, hi; lra|reflexivity|change (53 - 29)%Z with 24%Z; rewrite B24; unfold lo, hi; lra].
    change (29 - 53)%Z with (- (24))%Z. rewrite N24. lra. }
  assert (C : b64 (1 / 2 * b64 (lo + hi)) = 134217728 + / 16777216).
  { rewrite S. rewrite b64_fix; [lra|]. replace (1 / 2 * (268435456 + / 8388608)) with (IZR 2251799813685249 * bpow radix2 (- (24))) by (rewrite N24; lra). apply fmt_scaled; lia. }
  assert (H : b64 (1 / 2 * b64 (hi - lo)) = 134217728).
  { rewrite D. replace (1 / 2 * 268435456) with 134217728 by lra. apply (b64_int 134217728). lia. }
  split; [|split; [|split]].
  - intros p [<-|[<-|[]]]; reflexivity.
  - discriminate.
  - intros p s [<-|[<-|[]]] [<-|[<-|[<-|[]]]]; (split; [now apply is_b64_fmt|apply Rabs_le; unfold lo, hi; lra]).
  - intros r (A & b & HI & HC).
    assert (E1 : col_min [[lo; 0; 0]; [hi; 0; 0]] = [lo; 0; 0]) by (unfold col_min; cbn; rewrite !Rmin_left by (unfold lo, hi; lra); reflexivity).
    assert (E2 : col_max [[lo; 0; 0]; [hi; 0; 0]] = [hi; 0; 0]) by (unfold col_max; cbn; rewrite !Rmax_right by (unfold lo, hi; lra); reflexivity).
    unfold fl_points_to_bound in HI. rewrite E1, E2 in HI. unfold fl_two_vertices in HI. cbn [map2 fst snd] in HI. rewrite C in HI. rewrite (Rmax_right lo hi), (Rmin_left lo hi) in HI by (unfold lo, hi; lra). rewrite H in HI.
    apply aabb_ineq in HI as (-> & ->); try apply fmt_b64.
    2: { rewrite <- C. apply fmt_b64. }
    destruct (F2_cons _ _ _ _ HC) as (a & r' & -> & (y & Y & ->) & _). cbn [nth]. unfold fl_mat_vec, box_normals in Y. destruct (F2_cons _ _ _ _ Y) as (y0 & y' & -> & _ & Y'). destruct (F2_cons _ _ _ _ Y') as (y1 & y'' & -> & Y1 & _).
    cbn [combine] in Y1. apply fl_dot3_axis in Y1; auto; [|unfold box_normals; cbn; auto 12]. subst y1. cbn [combine forallb fst snd]. apply andb_false_intro2, andb_false_intro1. apply Rleb_false.
    assert (X : b64 (134217728 + - (134217728 + / 16777216)) = - / 16777216).
    { rewrite b64_fix; [lra|]. replace (134217728 + - (134217728 + / 16777216)) with (IZR (-1) * bpow radix2 (- (24))) by (rewrite N24; lra). apply fmt_scaled; lia. }
    rewrite X. pose proof (rabs_le _ _ (b64_err (/ 100000000))) as T. rewrite (Rabs_pos_eq (/ 100000000)) in T by lra. set (t := b64 (/ 100000000)) in *. clearbody t. pose proof u64_small. pose proof u64_pos. pose proof eta64_small. pose proof eta64_pos.
    pose proof (rabs_le _ _ (b64_err_le (- / 16777216 + t) 1 ltac:(apply Rabs_le; lra))) as T2. unfold lo. lra.
Qed.
Lemma bound_case r : fl_aabb_contains (fst (fl_points_to_bound [[1; 2; 3]; [-5; 1000; 7]; [4; 4; -999999]])) (snd (fl_points_to_bound [[1; 2; 3]; [-5; 1000; 7]; [4; 4; -999999]])) (b64 (/ 100000000)) [[1; 2; 3]; [-5; 1000; 7]; [4; 4; -999999]] r ->
  forall ans, In ans r -> ans = true.
Proof.
  apply bound_default.
  - intros p [<-|[<-|[<-|[]]]]; reflexivity.
  - discriminate.
  - assert (I : forall z, (Z.abs z < 2 ^ 53)%Z -> is_b64 (IZR z)) by (intros; now apply is_b64_fmt, fmt_int).
    intros p s [<-|[<-|[<-|[]]]] [<-|[<-|[<-|[]]]]; (split; [apply I; lia|apply Rabs_le; lra]).
Qed.
