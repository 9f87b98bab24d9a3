From Verif Require Import Base.Vec Base.VecFacts Spec.Basic Spec.Shapes.

Lemma rows_len_cons n v V : rows_len n (v :: V) <-> length v = n /\ rows_len n V.
Proof. unfold rows_len; cbn; intuition; subst; auto. Qed.
Lemma rows_len_is_mat n V : rows_len n V <-> is_mat (length V) n V.
Proof. unfold rows_len, is_mat. rewrite Forall_forall. intuition. Qed.

Lemma combine_rows_length n w V : length (combine_rows n w V) = n.
Proof. unfold combine_rows. rewrite map_length, seq_length. reflexivity. Qed.
Lemma nth_combine_rows n w V j : (j < n)%nat ->
  nth j (combine_rows n w V) 0 = lsum (map2 (fun c v => c * nth j v 0) w V).
Proof. intro H. unfold combine_rows. rewrite nth_map_seq by exact H. reflexivity. Qed.
Lemma combine_rows_nil n w : combine_rows n w [] = zeros n.
Proof.
  apply (vec_ext n); [apply combine_rows_length|apply zeros_length|]. intros i Hi.
  rewrite nth_combine_rows, nth_zeros by exact Hi. destruct w; reflexivity.
Qed.
Lemma combine_rows_nil_l n V : combine_rows n [] V = zeros n.
Proof.
  apply (vec_ext n); [apply combine_rows_length|apply zeros_length|]. intros i Hi.
  rewrite nth_combine_rows, nth_zeros by exact Hi. reflexivity.
Qed.
Lemma combine_rows_cons n c w v V : length v = n ->
  combine_rows n (c :: w) (v :: V) = vadd (vscale c v) (combine_rows n w V).
Proof.
  intro H. apply (vec_ext n); [apply combine_rows_length|rewrite vadd_length; rewrite vscale_length, ?combine_rows_length; auto|].
  intros i Hi. rewrite nth_combine_rows by exact Hi. rewrite nth_vadd, nth_vscale, nth_combine_rows; auto.
  rewrite vscale_length, combine_rows_length. exact H.
Qed.
Lemma combine_rows_app n w w' V V' : length w = length V -> rows_len n V -> rows_len n V' ->
  combine_rows n (w ++ w') (V ++ V') = vadd (combine_rows n w V) (combine_rows n w' V').
Proof.
  revert w. induction V as [|v V IH]; intros [|c w] Hl HV HV'; cbn in Hl; try discriminate.
  - cbn. rewrite combine_rows_nil. rewrite vadd_zeros_l; auto. apply combine_rows_length.
  - apply rows_len_cons in HV as [Hv HV]. cbn. rewrite !combine_rows_cons by exact Hv.
    rewrite IH by (auto; lia). apply vadd_assoc.
Qed.
Lemma combine_rows_scale n c w V : combine_rows n (vscale c w) V = vscale c (combine_rows n w V).
Proof.
  apply (vec_ext n); [apply combine_rows_length|rewrite vscale_length; apply combine_rows_length|].
  intros i Hi. rewrite nth_vscale, !nth_combine_rows by exact Hi.
  revert V; induction w as [|a w IH]; intros [|v V]; cbn; try ring.
  change (fold_right Rplus 0) with lsum. unfold vscale in IH. rewrite IH. ring.
Qed.
Lemma dot_combine_rows n a w V : length a = n -> rows_len n V ->
  dot a (combine_rows n w V) = lsum (map2 (fun c v => c * dot a v) w V).
Proof.
  intros Ha. revert w; induction V as [|v V IH]; intros [|c w] HV.
  - rewrite combine_rows_nil, dot_zeros_r. reflexivity.
  - rewrite combine_rows_nil, dot_zeros_r. reflexivity.
  - rewrite combine_rows_nil_l, dot_zeros_r. reflexivity.
  - apply rows_len_cons in HV as [Hv HV]. rewrite combine_rows_cons by exact Hv.
    rewrite dot_vadd_r by (rewrite vscale_length, combine_rows_length; exact Hv).
    rewrite dot_vscale_r, IH by exact HV. reflexivity.
Qed.
Lemma combine_rows_mat_vec n m Q w V : is_mat m n Q -> rows_len n V ->
  mat_vec Q (combine_rows n w V) = combine_rows m w (map (mat_vec Q) V).
Proof.
  intros HQ HV. apply (vec_ext m); [rewrite mat_vec_length; apply HQ|apply combine_rows_length|].
  intros i Hi. rewrite nth_mat_vec, nth_combine_rows by exact Hi.
  rewrite (dot_combine_rows n) by (auto; eapply is_mat_row; eauto).
  f_equal. clear HV. revert w; induction V as [|v V IH]; intros [|c w]; cbn; auto.
  f_equal; [|apply IH]. f_equal. symmetry. apply nth_mat_vec.
Qed.
Lemma combine_rows_translate n w V t : length t = n -> length w = length V -> lsum w = 1 -> rows_len n V ->
  combine_rows n w (map (fun v => vadd v t) V) = vadd (combine_rows n w V) t.
Proof.
  intros Ht Hl Hs HV. apply (vec_ext n); [apply combine_rows_length|rewrite vadd_length; rewrite combine_rows_length; auto|].
  intros i Hi. rewrite nth_vadd by (rewrite combine_rows_length; auto). rewrite !nth_combine_rows by exact Hi.
  transitivity (lsum (map2 (fun c v => c * nth i v 0) w V) + lsum w * nth i t 0); [|rewrite Hs; ring].
  clear Hs. revert w Hl; induction V as [|v V IH]; intros [|c w] Hl; cbn in Hl; try discriminate; cbn; [ring|].
  apply rows_len_cons in HV as [Hv HV]. change (fold_right Rplus 0) with lsum.
  rewrite IH by (auto; lia). rewrite nth_vadd by congruence. ring.
Qed.
Lemma rows_len_map n m (f : vec -> vec) V : (forall v, length v = n -> length (f v) = m) -> rows_len n V ->
  rows_len m (map f V).
Proof. intros Hf HV v Hv. apply in_map_iff in Hv as (u & <- & Hu). auto. Qed.
Lemma combine_rows_move n Q t w V : is_mat n n Q -> length t = n -> length w = length V -> lsum w = 1 ->
  rows_len n V -> combine_rows n w (map (move Q t) V) = move Q t (combine_rows n w V).
Proof.
  intros HQ Ht Hl Hs HV. unfold move. rewrite (combine_rows_mat_vec n n) by auto.
  rewrite <- combine_rows_translate; auto.
  - rewrite map_map. reflexivity.
  - rewrite map_length. exact Hl.
  - apply (rows_len_map n); auto. intros v _. rewrite mat_vec_length. apply HQ.
Qed.
Lemma in_hull_move n Q t V p : is_mat n n Q -> length t = n -> rows_len n V ->
  in_hull n V p -> in_hull n (map (move Q t) V) (move Q t p).
Proof.
  intros HQ Ht HV (w & Hl & Hw & ->). exists w. rewrite map_length. split; [exact Hl|]. split; [exact Hw|].
  symmetry. apply combine_rows_move; auto. apply Hw.
Qed.
Lemma in_hull_move_inv n Q t V p : is_mat n n Q -> length t = n -> rows_len n V ->
  in_hull n (map (move Q t) V) p -> exists q, in_hull n V q /\ p = move Q t q.
Proof.
  intros HQ Ht HV (w & Hl & Hw & ->). rewrite map_length in Hl. exists (combine_rows n w V).
  split; [exists w; auto|]. apply combine_rows_move; auto. apply Hw.
Qed.
Lemma in_hull_length n V p : in_hull n V p -> length p = n.
Proof. intros (w & _ & _ & ->). apply combine_rows_length. Qed.

Lemma weights_le_1 w x : weights w -> In x w -> x <= 1.
Proof.
  intros [Hn Hs] Hx. rewrite <- Hs. clear Hs. induction w as [|a w IH]; cbn in *; [tauto|].
  change (fold_right Rplus 0) with lsum.
  assert (0 <= lsum w) by (apply lsum_nonneg; auto).
  destruct Hx as [->|Hx]; [lra|]. specialize (IH (fun x H => Hn x (or_intror H)) Hx).
  assert (0 <= a) by auto. lra.
Qed.

Lemma hull_in_convex n (K : vec -> Prop) V p : convex K -> rows_len n V ->
  (forall v, In v V -> K v) -> in_hull n V p -> K p.
Proof.
  intros HK. revert p. induction V as [|v V IH]; intros p HV HKV (w & Hl & [Hn Hs] & ->).
  - destruct w; cbn in *; [lra|discriminate].
  - destruct w as [|c w]; cbn in Hl; [discriminate|].
    apply rows_len_cons in HV as [Hv HV]. rewrite combine_rows_cons by exact Hv.
    cbn in Hs. change (fold_right Rplus 0) with lsum in Hs.
    assert (Hw : 0 <= lsum w) by (apply lsum_nonneg; intros; apply Hn; right; auto).
    assert (Hc : 0 <= c) by (apply Hn; left; auto).
    destruct (Req_dec c 1) as [->|Hc1].
    + assert (E : combine_rows n w V = zeros n).
      { assert (Hz : forall x, In x w -> x = 0) by (apply lsum_nonneg_zero; [intros; apply Hn; right; auto|lra]).
        apply (vec_ext n); [apply combine_rows_length|apply zeros_length|]. intros i Hi.
        rewrite nth_combine_rows, nth_zeros by exact Hi.
        clear -Hz. revert V; induction w as [|a w IH]; intros [|u V]; cbn; auto.
        change (fold_right Rplus 0) with lsum. rewrite IH by (intros; apply Hz; right; auto).
        rewrite (Hz a) by (left; auto). ring. }
      rewrite E, vscale_1, vadd_zeros_r by exact Hv. apply HKV. left; auto.
    + replace (combine_rows n w V) with (vscale (1 - c) (combine_rows n (vscale (/ (1 - c)) w) V)).
      2:{ rewrite combine_rows_scale, vscale_vscale. rewrite Rinv_r by lra. apply vscale_1. }
      rewrite vadd_comm. 
      assert (K (combine_rows n (vscale (/ (1 - c)) w) V)).
      { apply IH; auto. { intros; apply HKV; right; auto. }
        exists (vscale (/ (1 - c)) w). rewrite vscale_length. split; [lia|]. split; auto. split.
        - intros x Hx. unfold vscale in Hx. apply in_map_iff in Hx as (y & <- & Hy).
          apply Rmult_le_pos; [|apply Hn; right; auto]. apply Rlt_le, Rinv_0_lt_compat. lra.
        - unfold vscale. assert (E : lsum (map (Rmult (/ (1 - c))) w) = / (1 - c) * lsum w).
          { generalize (/ (1 - c)). intro k. clear. induction w; cbn; [ring|].
            change (fold_right Rplus 0) with lsum. rewrite IHw. ring. }
          rewrite E. replace (lsum w) with (1 - c) by lra. field. lra. }
      apply HK; auto; [rewrite combine_rows_length; auto|apply HKV; left; auto|lra].
Qed.

Lemma hull_vertex n V v : rows_len n V -> In v V -> in_hull n V v.
Proof.
  induction V as [|a V IH]; intros HV Hv; [destruct Hv|].
  apply rows_len_cons in HV as [Ha HV]. destruct Hv as [->|Hv].
  - exists (1 :: zeros (length V)). cbn. rewrite zeros_length. split; [reflexivity|]. split.
    + split.
      * intros x [<-|Hx]; [lra|]. unfold zeros in Hx. apply repeat_spec in Hx. lra.
      * cbn. change (fold_right Rplus 0) with lsum. unfold zeros. rewrite lsum_repeat. ring.
    + rewrite combine_rows_cons by exact Ha. rewrite vscale_1.
      assert (E : combine_rows n (zeros (length V)) V = zeros n).
      { replace (zeros (length V)) with (vscale 0 (ones (length V))).
        - rewrite combine_rows_scale, vscale_0, combine_rows_length. reflexivity.
        - rewrite vscale_0, ones_length. reflexivity. }
      rewrite E, vadd_zeros_r; auto.
  - destruct (IH HV Hv) as (w & Hl & [Hn Hs] & ->). exists (0 :: w). cbn. split; [lia|]. split.
    + split; [intros x [<-|Hx]; [lra|auto]|]. cbn. change (fold_right Rplus 0) with lsum. lra.
    + rewrite combine_rows_cons by exact Ha. rewrite vscale_0, Ha.
      rewrite vadd_zeros_l; auto.
Qed.

Lemma convex_hull_set n V : convex (in_hull n V).
Proof.
  intros p q t _ (w & Hl & [Hn Hs] & ->) (w' & Hl' & [Hn' Hs'] & ->) Ht.
  exists (vadd (vscale (1 - t) w) (vscale t w')). 
  assert (L : length (vscale (1 - t) w) = length (vscale t w')) by (rewrite !vscale_length; congruence).
  split; [rewrite vadd_length, vscale_length; auto|]. split.
  - split.
    + intros x Hx. unfold vadd in Hx. apply In_nth with (d := 0) in Hx as (i & Hi & <-).
      fold (vadd (vscale (1 - t) w) (vscale t w')) in *. rewrite nth_vadd, !nth_vscale by exact L.
      rewrite vadd_length, vscale_length in Hi by exact L.
      assert (0 <= nth i w 0) by (apply Hn, nth_In; auto).
      assert (0 <= nth i w' 0) by (apply Hn', nth_In; congruence). nra.
    + rewrite lsum_rsum, vadd_length, vscale_length by exact L.
      rewrite (rsum_ext _ _ (fun i => (1 - t) * nth i w 0 + t * nth i w' 0))
        by (intros; rewrite nth_vadd, !nth_vscale by exact L; reflexivity).
      rewrite rsum_plus, !rsum_scal, <- lsum_rsum.
      replace (length w) with (length w') by congruence. rewrite <- lsum_rsum, Hs, Hs'. ring.
  - apply (vec_ext n); [rewrite vadd_length; rewrite !vscale_length, !combine_rows_length; auto|apply combine_rows_length|].
    intros i Hi. rewrite nth_vadd by (rewrite !vscale_length, !combine_rows_length; auto).
    rewrite !nth_vscale, !nth_combine_rows by exact Hi. clear -Hl Hl'.
    revert w w' Hl Hl'; induction V as [|v V IH]; intros [|a w] [|b w']; cbn; intros; try discriminate; try ring.
    change (fold_right Rplus 0) with lsum. unfold vadd, vscale in IH. 
    rewrite <- (IH w w') by lia. ring.
Qed.

Lemma hull_mono n V W p : rows_len n V -> rows_len n W -> (forall v, In v V -> in_hull n W v) ->
  in_hull n V p -> in_hull n W p.
Proof. intros HV HW H. apply hull_in_convex; auto. apply convex_hull_set. Qed.

Lemma halfspaces_convex n A b : is_mat (length A) n A ->
  convex (fun x => length x = n /\ halfspaces A b x).
Proof.
  intros HA p q t _ [Lp Hp] [Lq Hq] Ht. split.
  - rewrite vadd_length, vscale_length; rewrite ?vscale_length; congruence.
  - intros i Hi. rewrite dot_vadd_r by (rewrite !vscale_length; congruence).
    rewrite !dot_vscale_r. specialize (Hp i Hi). specialize (Hq i Hi). nra.
Qed.

Lemma segment_hull n a b q : length a = n -> length b = n -> (segment a b q <-> in_hull n [a; b] q).
Proof.
  intros Ha Hb. split.
  - intros (s & Hs & ->). exists [1 - s; s]. split; [reflexivity|]. split.
    + split; [|cbn; ring]. intros x [<-|[<-|[]]]; lra.
    + rewrite !combine_rows_cons, combine_rows_nil by assumption.
      rewrite (vadd_zeros_r _ n); [reflexivity|]. rewrite vscale_length; auto.
  - intros (w & Hl & [Hn Hs] & ->). destruct (len2_inv _ Hl) as (x & y & ->). cbn in Hs.
    exists y. split; [assert (0 <= x) by (apply Hn; left; auto); assert (0 <= y) by (apply Hn; right; left; auto); lra|].
    rewrite !combine_rows_cons, combine_rows_nil by assumption.
    rewrite (vadd_zeros_r _ n) by (rewrite vscale_length; auto). do 2 f_equal. lra.
Qed.
