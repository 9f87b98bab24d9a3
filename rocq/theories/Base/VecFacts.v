(** Lemma library about lists as vectors and matrices. *)
From Verif Require Export Base.Vec.

Lemma Rleb_iff x y : Rleb x y = true <-> x <= y.
Proof. unfold Rleb; destruct (Rle_dec x y); split; intros; auto; discriminate. Qed.
Lemma Rleb_false x y : Rleb x y = false <-> y < x.
Proof. unfold Rleb; destruct (Rle_dec x y); split; intros; try lra; try discriminate; auto. Qed.
Lemma Rltb_iff x y : Rltb x y = true <-> x < y.
Proof. unfold Rltb; destruct (Rlt_dec x y); split; intros; auto; discriminate. Qed.
Lemma Rltb_false x y : Rltb x y = false <-> y <= x.
Proof. unfold Rltb; destruct (Rlt_dec x y); split; intros; try lra; try discriminate; auto. Qed.
Lemma Reqb_iff x y : Reqb x y = true <-> x = y.
Proof. unfold Reqb; destruct (Req_EM_T x y); split; intros; auto; discriminate. Qed.
Lemma Reqb_false x y : Reqb x y = false <-> x <> y.
Proof. unfold Reqb; destruct (Req_EM_T x y); split; intros; auto; try discriminate; contradiction. Qed.
Lemma isclose_iff rt at_ a b : isclose rt at_ a b = true <-> Rabs (a - b) <= at_ + rt * Rabs b.
Proof. apply Rleb_iff. Qed.

(** ** map2 *)
Lemma map2_length {A B C} (f : A -> B -> C) l1 l2 :
  length (map2 f l1 l2) = Nat.min (length l1) (length l2).
Proof. revert l2; induction l1 as [|a l1 IH]; intros [|b l2]; simpl; auto. Qed.

Lemma nth_map2 {A B C} (f : A -> B -> C) l1 l2 da db dc i :
  length l1 = length l2 -> f da db = dc ->
  nth i (map2 f l1 l2) dc = f (nth i l1 da) (nth i l2 db).
Proof.
  intros Hl Hd; revert l2 i Hl; induction l1 as [|a l1 IH]; intros [|b l2] i Hl;
    simpl in *; try discriminate; destruct i; simpl; auto.
Qed.

Lemma map2_map_l {A A' B C} (f : A' -> B -> C) (g : A -> A') l1 l2 :
  map2 f (map g l1) l2 = map2 (fun a b => f (g a) b) l1 l2.
Proof. revert l2; induction l1 as [|a l1 IH]; intros [|b l2]; simpl; auto; now rewrite IH. Qed.
Lemma map2_map_r {A B B' C} (f : A -> B' -> C) (g : B -> B') l1 l2 :
  map2 f l1 (map g l2) = map2 (fun a b => f a (g b)) l1 l2.
Proof. revert l2; induction l1 as [|a l1 IH]; intros [|b l2]; simpl; auto; now rewrite IH. Qed.
Lemma map2_app {A B C} (f : A -> B -> C) l1 l1' l2 l2' : length l1 = length l2 ->
  map2 f (l1 ++ l1') (l2 ++ l2') = map2 f l1 l2 ++ map2 f l1' l2'.
Proof.
  revert l2; induction l1 as [|a l1 IH]; intros [|b l2] H; simpl in *; try discriminate; auto.
  now rewrite IH by lia.
Qed.
Lemma map2_ext {A B C} (f g : A -> B -> C) l1 l2 :
  (forall a b, f a b = g a b) -> map2 f l1 l2 = map2 g l1 l2.
Proof.
  intros H; revert l2; induction l1 as [|a l1 IH]; intros [|b l2]; simpl; auto.
  now rewrite H, IH.
Qed.
Lemma in_map2 {A B C} (f : A -> B -> C) l1 l2 c :
  In c (map2 f l1 l2) -> exists a b, In a l1 /\ In b l2 /\ c = f a b.
Proof.
  revert l2; induction l1 as [|a l1 IH]; intros [|b l2]; simpl; try tauto.
  intros [H|H]; [exists a, b; auto|].
  destruct (IH _ H) as (a' & b' & ? & ? & ?); exists a', b'; auto.
Qed.

(** ** indexed sums *)
Fixpoint rsum (n : nat) (f : nat -> R) : R :=
  match n with O => 0 | S k => rsum k f + f k end.

Lemma rsum_ext n f g : (forall i, (i < n)%nat -> f i = g i) -> rsum n f = rsum n g.
Proof.
  induction n as [|n IH]; intros H; simpl; auto.
  rewrite IH, H by (intros; auto with arith; lia); auto.
Qed.
Lemma rsum_plus n f g : rsum n (fun i => f i + g i) = rsum n f + rsum n g.
Proof. induction n as [|n IH]; simpl; [lra|rewrite IH; lra]. Qed.
Lemma rsum_minus n f g : rsum n (fun i => f i - g i) = rsum n f - rsum n g.
Proof. induction n as [|n IH]; simpl; [lra|rewrite IH; lra]. Qed.
Lemma rsum_scal n c f : rsum n (fun i => c * f i) = c * rsum n f.
Proof. induction n as [|n IH]; simpl; [lra|rewrite IH; lra]. Qed.
Lemma rsum_scal_r n c f : rsum n (fun i => f i * c) = rsum n f * c.
Proof. induction n as [|n IH]; simpl; [lra|rewrite IH; lra]. Qed.
Lemma rsum_zero n f : (forall i, (i < n)%nat -> f i = 0) -> rsum n f = 0.
Proof.
  induction n as [|n IH]; intros H; simpl; auto.
  rewrite IH, H by (intros; auto with arith; lia); lra.
Qed.
Lemma rsum_swap n m f :
  rsum n (fun i => rsum m (fun j => f i j)) = rsum m (fun j => rsum n (fun i => f i j)).
Proof.
  induction n as [|n IH]; simpl.
  - symmetry; apply rsum_zero; auto.
  - rewrite IH, rsum_plus; auto.
Qed.
Lemma rsum_delta n k f : (k < n)%nat ->
  rsum n (fun i => if Nat.eqb i k then f i else 0) = f k.
Proof.
  induction n as [|n IH]; intros H; [lia|]; simpl.
  destruct (Nat.eqb_spec n k) as [->|Hn].
  - rewrite rsum_zero; [lra|]. intros i Hi. destruct (Nat.eqb_spec i k); auto; lia.
  - rewrite IH by lia; lra.
Qed.
Lemma rsum_nonneg n f : (forall i, (i < n)%nat -> 0 <= f i) -> 0 <= rsum n f.
Proof.
  induction n as [|n IH]; intros H; simpl; [lra|].
  assert (0 <= rsum n f) by (apply IH; intros; apply H; lia).
  assert (0 <= f n) by (apply H; lia); lra.
Qed.
Lemma rsum_le n f g : (forall i, (i < n)%nat -> f i <= g i) -> rsum n f <= rsum n g.
Proof.
  induction n as [|n IH]; intros H; simpl; [lra|].
  assert (rsum n f <= rsum n g) by (apply IH; intros; apply H; lia).
  assert (f n <= g n) by (apply H; lia); lra.
Qed.
Lemma rsum_nonneg_zero n f : (forall i, (i < n)%nat -> 0 <= f i) -> rsum n f = 0 ->
  forall i, (i < n)%nat -> f i = 0.
Proof.
  induction n as [|n IH]; intros H H0 i Hi; [lia|]; simpl in H0.
  assert (0 <= rsum n f) by (apply rsum_nonneg; intros; apply H; lia).
  assert (0 <= f n) by (apply H; lia).
  destruct (Nat.eq_dec i n) as [->|Hn]; [lra|].
  apply IH; try lia; [intros; apply H; lia|lra].
Qed.
Lemma rsum_term_le n f k : (forall i, (i < n)%nat -> 0 <= f i) -> (k < n)%nat ->
  f k <= rsum n f.
Proof.
  induction n as [|n IH]; intros H Hk; [lia|]; simpl.
  assert (0 <= rsum n f) by (apply rsum_nonneg; intros; apply H; lia).
  assert (0 <= f n) by (apply H; lia).
  destruct (Nat.eq_dec k n) as [->|Hn]; [lra|].
  assert (f k <= rsum n f) by (apply IH; try lia; intros; apply H; lia); lra.
Qed.
Lemma rsum_S_l n f : rsum (S n) f = f O + rsum n (fun i => f (S i)).
Proof. induction n as [|n IH]; simpl in *; [lra|]. rewrite IH; lra. Qed.
Lemma rsum_const n c : rsum n (fun _ => c) = INR n * c.
Proof. induction n as [|n IH]; [change (INR 0) with 0; simpl; lra|]. cbn [rsum]. rewrite S_INR, IH; lra. Qed.

(** ** lsum *)
Lemma lsum_app l1 l2 : lsum (l1 ++ l2) = lsum l1 + lsum l2.
Proof. induction l1 as [|a l IH]; simpl; [lra|rewrite IH; lra]. Qed.
Lemma lsum_rsum l : lsum l = rsum (length l) (fun i => nth i l 0).
Proof.
  induction l as [|a l IH]; [reflexivity|].
  cbn [length]; rewrite rsum_S_l; simpl. now rewrite IH.
Qed.
Lemma lsum_nonneg l : (forall x, In x l -> 0 <= x) -> 0 <= lsum l.
Proof.
  induction l as [|a l IH]; simpl; intros H; [lra|].
  assert (0 <= a) by auto. assert (0 <= lsum l) by auto. lra.
Qed.
Lemma lsum_map_scal {A} (f : A -> R) c l : lsum (map (fun x => c * f x) l) = c * lsum (map f l).
Proof. induction l as [|a l IH]; simpl; [lra|rewrite IH; lra]. Qed.
Lemma lsum_map_plus {A} (f g : A -> R) l :
  lsum (map (fun x => f x + g x) l) = lsum (map f l) + lsum (map g l).
Proof. induction l as [|a l IH]; simpl; [lra|rewrite IH; lra]. Qed.
Lemma lsum_map_ext {A} (f g : A -> R) l :
  (forall x, In x l -> f x = g x) -> lsum (map f l) = lsum (map g l).
Proof.
  induction l as [|a l IH]; simpl; intros H; auto.
  rewrite (H a), IH; auto.
Qed.
Lemma lsum_map_le {A} (f g : A -> R) l :
  (forall x, In x l -> f x <= g x) -> lsum (map f l) <= lsum (map g l).
Proof.
  induction l as [|a l IH]; simpl; intros H; [lra|].
  assert (f a <= g a) by auto. assert (lsum (map f l) <= lsum (map g l)) by auto. lra.
Qed.
Lemma lsum_map_zero {A} (f : A -> R) l : (forall x, In x l -> f x = 0) -> lsum (map f l) = 0.
Proof.
  induction l as [|a l IH]; simpl; intros H; auto. rewrite (H a), IH; auto; lra.
Qed.
Lemma lsum_swap {A B} (f : A -> B -> R) la lb :
  lsum (map (fun a => lsum (map (fun b => f a b) lb)) la)
  = lsum (map (fun b => lsum (map (fun a => f a b) la)) lb).
Proof.
  induction la as [|a la IH]; simpl.
  - symmetry; apply lsum_map_zero; auto.
  - rewrite IH, <- lsum_map_plus; auto.
Qed.
Lemma lsum_nonneg_zero l : (forall x, In x l -> 0 <= x) -> lsum l = 0 ->
  forall x, In x l -> x = 0.
Proof.
  induction l as [|a l IH]; simpl; intros H H0 x Hx; [tauto|].
  assert (0 <= a) by auto. assert (0 <= lsum l) by (apply lsum_nonneg; auto).
  destruct Hx as [<-|Hx]; [lra|]. apply IH; auto; lra.
Qed.
Lemma lsum_repeat c n : lsum (repeat c n) = INR n * c.
Proof. induction n as [|n IH]; [change (INR 0) with 0; simpl; lra|]. rewrite S_INR; simpl; rewrite IH; lra. Qed.
Lemma lsum_seq f n : lsum (map f (seq 0 n)) = rsum n f.
Proof.
  induction n as [|n IH]; [reflexivity|].
  rewrite seq_S, map_app, lsum_app, IH; simpl; lra.
Qed.

(** ** lengths *)
Lemma vadd_length x y : length x = length y -> length (vadd x y) = length x.
Proof. intros H; unfold vadd; rewrite map2_length, H; lia. Qed.
Lemma vsub_length x y : length x = length y -> length (vsub x y) = length x.
Proof. intros H; unfold vsub; rewrite map2_length, H; lia. Qed.
Lemma vmul_length x y : length x = length y -> length (vmul x y) = length x.
Proof. intros H; unfold vmul; rewrite map2_length, H; lia. Qed.
Lemma vneg_length x : length (vneg x) = length x.
Proof. apply map_length. Qed.
Lemma vscale_length c x : length (vscale c x) = length x.
Proof. apply map_length. Qed.
Lemma vdivs_length c x : length (vdivs x c) = length x.
Proof. apply map_length. Qed.
Lemma zeros_length n : length (zeros n) = n.
Proof. apply repeat_length. Qed.
Lemma ones_length n : length (ones n) = n.
Proof. apply repeat_length. Qed.
Lemma mat_vec_length A x : length (mat_vec A x) = length A.
Proof. apply map_length. Qed.
Lemma vec_mat_length x A : length (vec_mat x A) = ncols A.
Proof. unfold vec_mat; now rewrite map_length, seq_length. Qed.
Lemma col_length j A : length (col j A) = length A.
Proof. apply map_length. Qed.
Lemma transpose_length A : length (transpose A) = ncols A.
Proof. unfold transpose; now rewrite map_length, seq_length. Qed.
Lemma mat_mul_length A B : length (mat_mul A B) = length A.
Proof. apply map_length. Qed.
Lemma outer_length x y : length (outer x y) = length x.
Proof. apply map_length. Qed.
Lemma eye_length n : length (eye n) = n.
Proof. unfold eye; now rewrite map_length, seq_length. Qed.
Lemma diag_length d : length (diag d) = length d.
Proof. unfold diag; now rewrite map_length, seq_length. Qed.
Lemma mscale_length c A : length (mscale c A) = length A.
Proof. apply map_length. Qed.
Lemma mneg_length A : length (mneg A) = length A.
Proof. apply map_length. Qed.
Lemma madd_length A B : length A = length B -> length (madd A B) = length A.
Proof. intros H; unfold madd; rewrite map2_length, H; lia. Qed.
Lemma msub_length A B : length A = length B -> length (msub A B) = length A.
Proof. intros H; unfold msub; rewrite map2_length, H; lia. Qed.

Global Hint Rewrite vneg_length vscale_length vdivs_length zeros_length ones_length mat_vec_length
  vec_mat_length col_length transpose_length mat_mul_length outer_length eye_length diag_length
  mscale_length mneg_length @map_length @seq_length @repeat_length @app_length : len.

Ltac len := repeat (autorewrite with len in *; first
  [ rewrite vadd_length by len | rewrite vsub_length by len | rewrite vmul_length by len
  | rewrite madd_length by len | rewrite msub_length by len | idtac ]; try congruence; try lia).

(** ** extensionality *)
Lemma vec_ext n (x y : vec) : length x = n -> length y = n ->
  (forall i, (i < n)%nat -> nth i x 0 = nth i y 0) -> x = y.
Proof.
  intros Hx Hy H. apply (nth_ext x y 0 0); [congruence|].
  intros i Hi; apply H; lia.
Qed.

Lemma is_mat_length n m A : is_mat n m A -> length A = n.
Proof. intros [H _]; auto. Qed.
Lemma is_mat_row n m A i : is_mat n m A -> (i < n)%nat -> length (nth i A []) = m.
Proof.
  intros [Hn Hf] Hi. rewrite Forall_forall in Hf. apply Hf, nth_In; lia.
Qed.
Lemma is_mat_in n m A r : is_mat n m A -> In r A -> length r = m.
Proof. intros [Hn Hf] Hi. rewrite Forall_forall in Hf; auto. Qed.
Lemma is_mat_ncols n m A : is_mat n m A -> (0 < n)%nat -> ncols A = m.
Proof.
  intros [Hn Hf] H. destruct A as [|r A]; simpl in *; [lia|].
  unfold ncols; simpl. now inversion Hf.
Qed.
Lemma is_mat_intro n m A : length A = n ->
  (forall i, (i < n)%nat -> length (nth i A []) = m) -> is_mat n m A.
Proof.
  intros Hn H. split; auto. apply Forall_forall; intros r Hr.
  destruct (In_nth _ _ [] Hr) as (i & Hi & <-). apply H; lia.
Qed.
Lemma is_matb_iff n m A : is_matb n m A = true <-> is_mat n m A.
Proof.
  unfold is_matb, is_mat. rewrite andb_true_iff, Nat.eqb_eq, forallb_forall, Forall_forall.
  split; intros [H1 H2]; split; auto; intros x Hx; apply Nat.eqb_eq; auto.
Qed.
Lemma mat_ext n m A B : is_mat n m A -> is_mat n m B ->
  (forall i j, (i < n)%nat -> (j < m)%nat -> entry A i j = entry B i j) -> A = B.
Proof.
  intros HA HB H. apply (nth_ext A B [] []).
  - destruct HA, HB; congruence.
  - intros i Hi. rewrite (is_mat_length _ _ _ HA) in Hi.
    apply (vec_ext m); [eapply is_mat_row; eauto..|].
    intros j Hj; apply H; auto.
Qed.

(** ** entries *)
Lemma nth_vadd x y i : length x = length y -> nth i (vadd x y) 0 = nth i x 0 + nth i y 0.
Proof. intros H; apply nth_map2; auto; lra. Qed.
Lemma nth_vsub x y i : length x = length y -> nth i (vsub x y) 0 = nth i x 0 - nth i y 0.
Proof. intros H; apply (nth_map2 Rminus); auto; lra. Qed.
Lemma nth_vmul x y i : length x = length y -> nth i (vmul x y) 0 = nth i x 0 * nth i y 0.
Proof. intros H; apply (nth_map2 Rmult); auto; lra. Qed.
Lemma nth_vscale c x i : nth i (vscale c x) 0 = c * nth i x 0.
Proof.
  unfold vscale. replace 0 with (c * 0) at 1 by lra. apply map_nth.
Qed.
Lemma nth_vneg x i : nth i (vneg x) 0 = - nth i x 0.
Proof. unfold vneg. replace 0 with (- 0) at 1 by lra. apply map_nth. Qed.
Lemma nth_vdivs x c i : nth i (vdivs x c) 0 = nth i x 0 / c.
Proof.
  unfold vdivs. replace 0 with (0 / c) at 1 by (unfold Rdiv; lra).
  exact (map_nth (fun a => a / c) x 0 i).
Qed.
Lemma nth_zeros n i : nth i (zeros n) 0 = 0.
Proof. unfold zeros. apply nth_repeat. Qed.
Lemma nth_ones n i : (i < n)%nat -> nth i (ones n) 0 = 1.
Proof.
  revert i; induction n as [|n IH]; intros i H; [lia|]. destruct i; simpl; auto. apply IH; lia.
Qed.
Lemma nth_map_seq {A} (f : nat -> A) n i d : (i < n)%nat -> nth i (map f (seq 0 n)) d = f i.
Proof.
  intros H. rewrite (nth_indep _ d (f O)) by len.
  rewrite (map_nth f (seq 0 n) O i). now rewrite seq_nth.
Qed.
Lemma nth_mat_vec A x i : nth i (mat_vec A x) 0 = dot (nth i A []) x.
Proof. unfold mat_vec. exact (map_nth (fun r => dot r x) A [] i). Qed.
Lemma nth_vec_mat x A i : (i < ncols A)%nat -> nth i (vec_mat x A) 0 = dot x (col i A).
Proof. intros H. unfold vec_mat. now rewrite nth_map_seq. Qed.
Lemma nth_col j A i : nth i (col j A) 0 = entry A i j.
Proof.
  unfold col, entry. 
  destruct (Nat.lt_ge_cases i (length A)) as [H|H].
  - rewrite (nth_indep _ 0 (nth j [] 0)) by len.
    exact (map_nth (fun r => nth j r 0) A [] i).
  - rewrite !nth_overflow; len; rewrite nth_overflow; simpl; lia.
Qed.
Lemma nth_transpose A i : (i < ncols A)%nat -> nth i (transpose A) [] = col i A.
Proof. intros H. unfold transpose. now rewrite nth_map_seq. Qed.
Lemma entry_transpose A i j : (i < ncols A)%nat -> entry (transpose A) i j = entry A j i.
Proof. intros H. unfold entry at 1. rewrite nth_transpose by auto. apply nth_col. Qed.
Lemma entry_eye n i j : (i < n)%nat -> (j < n)%nat ->
  entry (eye n) i j = if Nat.eqb i j then 1 else 0.
Proof. intros Hi Hj. unfold entry, eye. now rewrite !nth_map_seq by auto. Qed.
Lemma entry_diag d i j : (i < length d)%nat -> (j < length d)%nat ->
  entry (diag d) i j = if Nat.eqb i j then nth i d 0 else 0.
Proof. intros Hi Hj. unfold entry, diag. now rewrite !nth_map_seq by auto. Qed.
Lemma entry_outer x y i j : entry (outer x y) i j = nth i x 0 * nth j y 0.
Proof.
  unfold entry, outer.
  destruct (Nat.lt_ge_cases i (length x)) as [H|H].
  - rewrite (nth_indep _ [] (vscale 0 y)) by len.
    rewrite (map_nth (fun a => vscale a y) x 0 i). apply nth_vscale.
  - rewrite (nth_overflow _ [] ) by len. rewrite (nth_overflow x) by auto.
    destruct j; simpl; lra.
Qed.
Lemma entry_madd A B n m i j : is_mat n m A -> is_mat n m B -> (i < n)%nat ->
  entry (madd A B) i j = entry A i j + entry B i j.
Proof.
  intros HA HB Hi. unfold entry, madd.
  rewrite (nth_map2 vadd A B [] [] []); auto.
  - apply nth_vadd. rewrite (is_mat_row n m), (is_mat_row n m); auto.
  - destruct HA, HB; congruence.
Qed.
Lemma entry_msub A B n m i j : is_mat n m A -> is_mat n m B -> (i < n)%nat ->
  entry (msub A B) i j = entry A i j - entry B i j.
Proof.
  intros HA HB Hi. unfold entry, msub.
  rewrite (nth_map2 vsub A B [] [] []); auto.
  - apply nth_vsub. rewrite (is_mat_row n m), (is_mat_row n m); auto.
  - destruct HA, HB; congruence.
Qed.
Lemma entry_mscale c A i j : entry (mscale c A) i j = c * entry A i j.
Proof.
  unfold entry, mscale.
  change (@nil R) with (vscale c []) at 1. rewrite (map_nth (vscale c)). apply nth_vscale.
Qed.
Lemma entry_mneg A i j : entry (mneg A) i j = - entry A i j.
Proof.
  unfold entry, mneg.
  change (@nil R) with (vneg []) at 1. rewrite (map_nth vneg). apply nth_vneg.
Qed.
Lemma entry_mat_mul A B i j : (i < length A)%nat -> (j < ncols B)%nat ->
  entry (mat_mul A B) i j = dot (nth i A []) (col j B).
Proof.
  intros Hi Hj. unfold entry, mat_mul.
  rewrite (nth_indep _ [] (vec_mat [] B)) by len.
  rewrite (map_nth (fun r => vec_mat r B)). now apply nth_vec_mat.
Qed.

(** ** shapes of results *)
Lemma is_mat_eye n : is_mat n n (eye n).
Proof.
  apply is_mat_intro; [len|]. intros i Hi. unfold eye. rewrite nth_map_seq by auto. len.
Qed.
Lemma is_mat_diag d : is_mat (length d) (length d) (diag d).
Proof.
  apply is_mat_intro; [len|]. intros i Hi. unfold diag. rewrite nth_map_seq by auto. len.
Qed.
Lemma is_mat_outer x y : is_mat (length x) (length y) (outer x y).
Proof.
  split; [len|]. apply Forall_forall. intros r Hr. unfold outer in Hr.
  apply in_map_iff in Hr as (a & <- & _). len.
Qed.
Lemma is_mat_transpose n m A : is_mat n m A -> (0 < n)%nat -> is_mat m n (transpose A).
Proof.
  intros HA Hn. pose proof (is_mat_ncols _ _ _ HA Hn) as Hc.
  apply is_mat_intro; [len|]. intros i Hi. rewrite nth_transpose by lia.
  rewrite col_length. eapply is_mat_length; eauto.
Qed.
Lemma is_mat_mat_mul n m A B k : is_mat n k A -> ncols B = m -> is_mat n m (mat_mul A B).
Proof.
  intros HA HB. split; [len; eapply is_mat_length; eauto|].
  apply Forall_forall. intros r Hr. apply in_map_iff in Hr as (a & <- & _). len.
Qed.
Lemma is_mat_mscale n m c A : is_mat n m A -> is_mat n m (mscale c A).
Proof.
  intros [H1 H2]. split; [len|]. apply Forall_forall. intros r Hr.
  apply in_map_iff in Hr as (a & <- & Ha). rewrite Forall_forall in H2. len; auto.
Qed.
Lemma is_mat_mneg n m A : is_mat n m A -> is_mat n m (mneg A).
Proof.
  intros [H1 H2]. split; [len|]. apply Forall_forall. intros r Hr.
  apply in_map_iff in Hr as (a & <- & Ha). rewrite Forall_forall in H2. len; auto.
Qed.
Lemma is_mat_madd n m A B : is_mat n m A -> is_mat n m B -> is_mat n m (madd A B).
Proof.
  intros [H1 H2] [H3 H4]. split; [rewrite madd_length; congruence|].
  apply Forall_forall. intros r Hr. apply in_map2 in Hr as (a & b & Ha & Hb & ->).
  rewrite Forall_forall in H2, H4. specialize (H2 _ Ha). specialize (H4 _ Hb).
  rewrite vadd_length; congruence.
Qed.
Lemma is_mat_msub n m A B : is_mat n m A -> is_mat n m B -> is_mat n m (msub A B).
Proof.
  intros [H1 H2] [H3 H4]. split; [rewrite msub_length; congruence|].
  apply Forall_forall. intros r Hr. apply in_map2 in Hr as (a & b & Ha & Hb & ->).
  rewrite Forall_forall in H2, H4. specialize (H2 _ Ha). specialize (H4 _ Hb).
  rewrite vsub_length; congruence.
Qed.
Lemma is_mat_app n1 n2 m A B : is_mat n1 m A -> is_mat n2 m B -> is_mat (n1 + n2) m (A ++ B).
Proof.
  intros [H1 H2] [H3 H4]. split; [len|]. now apply Forall_app.
Qed.

(** ** dot product *)
Lemma dot_rsum n x y : length x = n -> length y = n ->
  dot x y = rsum n (fun i => nth i x 0 * nth i y 0).
Proof.
  intros Hx Hy. unfold dot. rewrite lsum_rsum, map2_length, Hx, Hy, Nat.min_id.
  apply rsum_ext. intros i Hi. apply (nth_map2 Rmult); try congruence; lra.
Qed.
Lemma dot_comm x y : dot x y = dot y x.
Proof.
  unfold dot. revert y; induction x as [|a x IH]; intros [|b y]; simpl; auto.
  rewrite IH; lra.
Qed.
Lemma dot_cons a x b y : dot (a :: x) (b :: y) = a * b + dot x y.
Proof. reflexivity. Qed.
Lemma dot_nil_l x : dot [] x = 0.
Proof. reflexivity. Qed.
Lemma dot_nil_r x : dot x [] = 0.
Proof. destruct x; reflexivity. Qed.
Lemma dot_vadd_l x y z : length x = length y -> dot (vadd x y) z = dot x z + dot y z.
Proof.
  unfold dot, vadd. revert y z; induction x as [|a x IH]; intros [|b y] [|c z] H; simpl in *;
    try discriminate; try lra. rewrite IH by lia; lra.
Qed.
Lemma dot_vadd_r x y z : length y = length z -> dot x (vadd y z) = dot x y + dot x z.
Proof. intros H. rewrite dot_comm, dot_vadd_l by auto. now rewrite !(dot_comm x). Qed.
Lemma dot_vsub_l x y z : length x = length y -> dot (vsub x y) z = dot x z - dot y z.
Proof.
  unfold dot, vsub. revert y z; induction x as [|a x IH]; intros [|b y] [|c z] H; simpl in *;
    try discriminate; try lra. rewrite IH by lia; lra.
Qed.
Lemma dot_vsub_r x y z : length y = length z -> dot x (vsub y z) = dot x y - dot x z.
Proof. intros H. rewrite dot_comm, dot_vsub_l by auto. now rewrite !(dot_comm x). Qed.
Lemma dot_vscale_l c x y : dot (vscale c x) y = c * dot x y.
Proof.
  unfold dot, vscale. revert y; induction x as [|a x IH]; intros [|b y]; simpl; try lra.
  rewrite IH; lra.
Qed.
Lemma dot_vscale_r c x y : dot x (vscale c y) = c * dot x y.
Proof. rewrite dot_comm, dot_vscale_l, dot_comm; auto. Qed.
Lemma dot_vneg_l x y : dot (vneg x) y = - dot x y.
Proof.
  unfold dot, vneg. revert y; induction x as [|a x IH]; intros [|b y]; simpl; try lra.
  rewrite IH; lra.
Qed.
Lemma dot_vneg_r x y : dot x (vneg y) = - dot x y.
Proof. rewrite dot_comm, dot_vneg_l, dot_comm; auto. Qed.
Lemma dot_zeros_l n x : dot (zeros n) x = 0.
Proof.
  unfold dot, zeros. revert x; induction n as [|n IH]; intros [|b x]; simpl; auto.
  rewrite IH; lra.
Qed.
Lemma dot_zeros_r n x : dot x (zeros n) = 0.
Proof. rewrite dot_comm; apply dot_zeros_l. Qed.
Lemma dot_self_nonneg x : 0 <= dot x x.
Proof. unfold dot; induction x as [|a x IH]; simpl; nra. Qed.
Lemma dot_self_zero x : dot x x = 0 -> x = zeros (length x).
Proof.
  unfold dot, zeros; induction x as [|a x IH]; simpl; intros H; auto.
  pose proof (dot_self_nonneg x) as Hx; unfold dot in Hx.
  assert (a * a = 0) by nra. assert (a = 0) by nra. subst a. rewrite <- IH by lra. auto.
Qed.
Lemma dot_app x1 x2 y1 y2 : length x1 = length y1 ->
  dot (x1 ++ x2) (y1 ++ y2) = dot x1 y1 + dot x2 y2.
Proof. intros H. unfold dot. now rewrite map2_app, lsum_app. Qed.

Lemma sqr_nonneg (x : R) : 0 <= x * x.
Proof. nra. Qed.

Lemma cauchy_schwarz x y : (dot x y) * (dot x y) <= dot x x * dot y y.
Proof.
  revert y; induction x as [|a x IH]; intros [|b y].
  - unfold dot; simpl; nra.
  - unfold dot; simpl; nra.
  - rewrite dot_nil_r. pose proof (dot_self_nonneg (a :: x)). rewrite dot_nil_l; nra.
  - rewrite !dot_cons. specialize (IH y).
    pose proof (dot_self_nonneg x) as Hx. pose proof (dot_self_nonneg y) as Hy.
    set (p := dot x y) in *. set (q := dot x x) in *. set (r := dot y y) in *.
    (* 2abp <= a^2 r + b^2 q *)
    assert (H : 2 * a * b * p <= a * a * r + b * b * q).
    { assert (Hs : (2 * a * b * p) * (2 * a * b * p)
                   <= (a * a * r + b * b * q) * (a * a * r + b * b * q)).
      { pose proof (sqr_nonneg (a * a * r - b * b * q)).
        pose proof (sqr_nonneg (a * b)).
        assert ((a*b)*(a*b) * (p * p) <= (a*b)*(a*b) * (q * r))
          by (apply Rmult_le_compat_l; auto).
        assert ((a * a * r + b * b * q) * (a * a * r + b * b * q)
                - (2 * a * b * p) * (2 * a * b * p)
                = (a * a * r - b * b * q) * (a * a * r - b * b * q)
                  + 4 * ((a*b)*(a*b) * (q * r) - (a*b)*(a*b) * (p * p))) by ring.
        lra. }
      assert (0 <= a * a * r + b * b * q) by nra.
      destruct (Rle_dec (2 * a * b * p) (a * a * r + b * b * q)); auto. nra. }
    nra.
Qed.

Lemma norm_sqr x : norm x * norm x = dot x x.
Proof. unfold norm. apply sqrt_sqrt, dot_self_nonneg. Qed.
Lemma norm_nonneg x : 0 <= norm x.
Proof. apply sqrt_pos. Qed.
Lemma sqr_le_abs a b : 0 <= b -> a * a <= b * b -> Rabs a <= b.
Proof.
  intros Hb H. apply Rabs_le. split; nra.
Qed.
Lemma sqr_le a b : 0 <= b -> a * a <= b * b -> a <= b.
Proof. intros Hb H. nra. Qed.
Lemma cauchy_schwarz_norm x y : Rabs (dot x y) <= norm x * norm y.
Proof.
  pose proof (norm_nonneg x); pose proof (norm_nonneg y).
  apply sqr_le_abs; [nra|].
  replace (norm x * norm y * (norm x * norm y)) with ((norm x * norm x) * (norm y * norm y)) by ring.
  rewrite !norm_sqr. apply cauchy_schwarz.
Qed.
Lemma norm_triangle x y : length x = length y -> norm (vadd x y) <= norm x + norm y.
Proof.
  intros Hl. pose proof (norm_nonneg x); pose proof (norm_nonneg y).
  apply sqr_le; [lra|]. rewrite norm_sqr, dot_vadd_l, !dot_vadd_r by auto.
  pose proof (cauchy_schwarz_norm x y) as Hc. pose proof (Rle_abs (dot x y)).
  pose proof (norm_sqr x); pose proof (norm_sqr y).
  rewrite (dot_comm y x). nra.
Qed.
Lemma norm_vscale c x : norm (vscale c x) = Rabs c * norm x.
Proof.
  unfold norm. rewrite dot_vscale_l, dot_vscale_r.
  replace (c * (c * dot x x)) with (Rsqr c * dot x x) by (unfold Rsqr; ring).
  rewrite sqrt_mult; [|apply Rle_0_sqr|apply dot_self_nonneg].
  now rewrite sqrt_Rsqr_abs.
Qed.
Lemma norm_le_iff x r : 0 <= r -> (norm x <= r <-> dot x x <= r * r).
Proof.
  intros Hr. pose proof (norm_nonneg x). rewrite <- norm_sqr. split; intros; nra.
Qed.

(** ** vector space facts *)
Ltac vext n := apply (vec_ext n); [len|len|let i := fresh "i" in let Hi := fresh "Hi" in intros i Hi].

Ltac vnth := repeat first
  [ rewrite nth_vadd by len | rewrite nth_vsub by len | rewrite nth_vmul by len
  | rewrite nth_vscale | rewrite nth_vneg | rewrite nth_vdivs | rewrite nth_zeros
  | rewrite nth_mat_vec | rewrite nth_vec_mat by len | rewrite nth_col ].

Ltac vring n := vext n; vnth; try ring.

Lemma vadd_comm x y : vadd x y = vadd y x.
Proof.
  unfold vadd. revert y; induction x as [|a x IH]; intros [|b y]; simpl; auto.
  rewrite IH; f_equal; lra.
Qed.
Lemma vadd_assoc x y z : vadd x (vadd y z) = vadd (vadd x y) z.
Proof.
  unfold vadd. revert y z; induction x as [|a x IH]; intros [|b y] [|c z]; simpl; auto.
  rewrite IH; f_equal; lra.
Qed.
Lemma vadd_zeros_r x n : length x = n -> vadd x (zeros n) = x.
Proof. intros H. vring n. Qed.
Lemma vadd_zeros_l x n : length x = n -> vadd (zeros n) x = x.
Proof. intros H. vring n. Qed.
Lemma vsub_zeros_r x n : length x = n -> vsub x (zeros n) = x.
Proof. intros H. vring n. Qed.
Lemma vadd_vsub x y : length x = length y -> vadd (vsub x y) y = x.
Proof. intros H. vring (length x). Qed.
Lemma vsub_vadd x y : length x = length y -> vsub (vadd x y) y = x.
Proof. intros H. vring (length x). Qed.
Lemma vsub_diag x : vsub x x = zeros (length x).
Proof. vring (length x). Qed.
Lemma vscale_vadd c x y : length x = length y -> vscale c (vadd x y) = vadd (vscale c x) (vscale c y).
Proof. intros H. vring (length x). Qed.
Lemma vscale_vsub c x y : length x = length y -> vscale c (vsub x y) = vsub (vscale c x) (vscale c y).
Proof. intros H. vring (length x). Qed.
Lemma vscale_vscale c d x : vscale c (vscale d x) = vscale (c * d) x.
Proof. vring (length x). Qed.
Lemma vscale_1 x : vscale 1 x = x.
Proof. vring (length x). Qed.
Lemma vscale_0 x : vscale 0 x = zeros (length x).
Proof. vring (length x). Qed.
Lemma vscale_zeros c n : vscale c (zeros n) = zeros n.
Proof. vring n. Qed.
Lemma vneg_vscale x : vneg x = vscale (-1) x.
Proof. vring (length x). Qed.
Lemma vsub_eq_zero x y : length x = length y -> vsub x y = zeros (length x) -> x = y.
Proof.
  intros Hl H. vext (length x).
  assert (E : nth i (vsub x y) 0 = nth i (zeros (length x)) 0) by now rewrite H.
  rewrite nth_vsub, nth_zeros in E by auto. lra.
Qed.

(** ** matrix-vector products *)
Lemma mat_vec_vadd A x y : length x = length y ->
  mat_vec A (vadd x y) = vadd (mat_vec A x) (mat_vec A y).
Proof. intros H. vext (length A). vnth. now apply dot_vadd_r. Qed.
Lemma mat_vec_vsub A x y : length x = length y ->
  mat_vec A (vsub x y) = vsub (mat_vec A x) (mat_vec A y).
Proof. intros H. vext (length A). vnth. now apply dot_vsub_r. Qed.
Lemma mat_vec_vscale A c x : mat_vec A (vscale c x) = vscale c (mat_vec A x).
Proof. vext (length A). vnth. apply dot_vscale_r. Qed.
Lemma mat_vec_vneg A x : mat_vec A (vneg x) = vneg (mat_vec A x).
Proof. vext (length A). vnth. apply dot_vneg_r. Qed.
Lemma mat_vec_zeros A n : mat_vec A (zeros n) = zeros (length A).
Proof. vext (length A). vnth. apply dot_zeros_r. Qed.

Lemma mat_vec_madd n m A B x : is_mat n m A -> is_mat n m B ->
  mat_vec (madd A B) x = vadd (mat_vec A x) (mat_vec B x).
Proof.
  intros HA HB. pose proof (is_mat_length _ _ _ HA). pose proof (is_mat_length _ _ _ HB).
  vext n. vnth. unfold madd. rewrite (nth_map2 vadd A B [] [] []); auto; [|congruence].
  apply dot_vadd_l. rewrite (is_mat_row n m), (is_mat_row n m); auto.
Qed.
Lemma mat_vec_msub n m A B x : is_mat n m A -> is_mat n m B ->
  mat_vec (msub A B) x = vsub (mat_vec A x) (mat_vec B x).
Proof.
  intros HA HB. pose proof (is_mat_length _ _ _ HA). pose proof (is_mat_length _ _ _ HB).
  vext n. vnth. unfold msub. rewrite (nth_map2 vsub A B [] [] []); auto; [|congruence].
  apply dot_vsub_l. rewrite (is_mat_row n m), (is_mat_row n m); auto.
Qed.
Lemma mat_vec_mscale c A x : mat_vec (mscale c A) x = vscale c (mat_vec A x).
Proof.
  vext (length A). vnth. unfold mscale.
  change (@nil R) with (vscale c []) at 1. rewrite (map_nth (vscale c)). apply dot_vscale_l.
Qed.
Lemma mat_vec_mneg A x : mat_vec (mneg A) x = vneg (mat_vec A x).
Proof.
  vext (length A). vnth. unfold mneg.
  change (@nil R) with (vneg []) at 1. rewrite (map_nth vneg). apply dot_vneg_l.
Qed.
Lemma nth_map_dot (f : R -> vec) x i y : f 0 = vscale 0 (f 0) ->
  (i < length x)%nat -> nth i (map (fun a => dot (f a) y) x) 0 = dot (f (nth i x 0)) y.
Proof.
  intros _ Hi. rewrite (nth_indep _ 0 (dot (f 0) y)) by len.
  exact (map_nth (fun a => dot (f a) y) x 0 i).
Qed.
Lemma mat_vec_outer x y z : mat_vec (outer x y) z = vscale (dot y z) x.
Proof.
  unfold mat_vec, outer. rewrite map_map. unfold vscale at 2. apply map_ext.
  intros a. rewrite dot_vscale_l. ring.
Qed.
Lemma mat_vec_eye n x : length x = n -> mat_vec (eye n) x = x.
Proof.
  intros Hx. vext n. vnth.
  assert (Hr : length (nth i (eye n) []) = n) by (eapply is_mat_row; [apply is_mat_eye|auto]).
  rewrite (dot_rsum n) by auto.
  rewrite (rsum_ext n _ (fun j => if Nat.eqb j i then nth j x 0 else 0)).
  - now rewrite rsum_delta.
  - intros j Hj. fold (entry (eye n) i j). rewrite entry_eye by auto.
    rewrite Nat.eqb_sym. destruct (Nat.eqb j i); ring.
Qed.
Lemma mat_vec_diag d x : length x = length d -> mat_vec (diag d) x = vmul d x.
Proof.
  intros Hx. vext (length d). vnth.
  assert (Hr : length (nth i (diag d) []) = length d)
    by (eapply is_mat_row; [apply is_mat_diag|auto]).
  rewrite (dot_rsum (length d)) by auto.
  rewrite (rsum_ext _ _ (fun j => if Nat.eqb j i then nth j d 0 * nth j x 0 else 0)).
  - now rewrite (rsum_delta _ i (fun j => nth j d 0 * nth j x 0)).
  - intros j Hj. fold (entry (diag d) i j). rewrite entry_diag by auto.
    rewrite Nat.eqb_sym. destruct (Nat.eqb_spec j i); subst; ring.
Qed.

Lemma vec_mat_mat_vec x A : vec_mat x A = mat_vec (transpose A) x.
Proof.
  unfold vec_mat, mat_vec, transpose. rewrite map_map. apply map_ext. intros. apply dot_comm.
Qed.

(** adjointness: y . (A x) = (A^T y) . x *)
Lemma dot_mat_vec n m A x y : is_mat n m A -> length x = m -> length y = n ->
  dot y (mat_vec A x) = dot (vec_mat y A) x.
Proof.
  intros HA Hx Hy. pose proof (is_mat_length _ _ _ HA) as HlA.
  destruct n as [|n].
  { destruct A; [|discriminate]. destruct y; [|discriminate]. reflexivity. }
  pose proof (is_mat_ncols _ _ _ HA ltac:(lia)) as Hc.
  rewrite (dot_rsum (S n)) by len. rewrite (dot_rsum m (vec_mat y A)) by len.
  transitivity (rsum (S n) (fun i => rsum m (fun j => nth i y 0 * (entry A i j * nth j x 0)))).
  - apply rsum_ext. intros i Hi. rewrite nth_mat_vec.
    rewrite (dot_rsum m) by (auto; eapply is_mat_row; eauto). now rewrite <- rsum_scal.
  - rewrite rsum_swap. apply rsum_ext. intros j Hj. rewrite nth_vec_mat by lia.
    rewrite (dot_rsum (S n)) by len. rewrite <- rsum_scal_r. apply rsum_ext.
    intros i Hi. rewrite nth_col. ring.
Qed.
Lemma dot_mat_vec_t n m A x y : is_mat n m A -> length x = m -> length y = n ->
  dot y (mat_vec A x) = dot (mat_vec (transpose A) y) x.
Proof. intros. rewrite <- vec_mat_mat_vec. eapply dot_mat_vec; eauto. Qed.

Lemma mat_vec_mat_mul n k m A B x : is_mat n k A -> is_mat k m B -> length x = m ->
  mat_vec (mat_mul A B) x = mat_vec A (mat_vec B x).
Proof.
  intros HA HB Hx. pose proof (is_mat_length _ _ _ HA).
  vext n. vnth. unfold mat_mul.
  rewrite (nth_indep _ [] (vec_mat [] B)) by len.
  rewrite (map_nth (fun r => vec_mat r B)).
  symmetry. eapply dot_mat_vec; eauto. eapply is_mat_row; eauto.
Qed.

Lemma transpose_involutive n m A : is_mat n m A -> (0 < n)%nat -> (0 < m)%nat ->
  transpose (transpose A) = A.
Proof.
  intros HA Hn Hm. pose proof (is_mat_transpose _ _ _ HA Hn) as HT.
  pose proof (is_mat_transpose _ _ _ HT Hm) as HTT.
  apply (mat_ext n m); auto. intros i j Hi Hj.
  rewrite entry_transpose by (rewrite (is_mat_ncols _ _ _ HT); auto).
  apply entry_transpose. rewrite (is_mat_ncols _ _ _ HA); auto.
Qed.

Lemma mat_eq_by_vec n m A B : is_mat n m A -> is_mat n m B ->
  (forall x, length x = m -> mat_vec A x = mat_vec B x) -> A = B.
Proof.
  intros HA HB H. apply (mat_ext n m); auto. intros i j Hi Hj.
  set (e := map (fun k => if Nat.eqb k j then 1 else 0) (seq 0 m)).
  assert (He : length e = m) by (unfold e; len).
  assert (Hd : forall r, length r = m -> dot r e = nth j r 0).
  { intros r Hr. rewrite (dot_rsum m) by auto.
    rewrite (rsum_ext m _ (fun k => if Nat.eqb k j then nth k r 0 else 0)).
    - now rewrite (rsum_delta m j (fun k => nth k r 0)).
    - intros k Hk. unfold e. rewrite nth_map_seq by auto. destruct (Nat.eqb k j); ring. }
  specialize (H e He).
  assert (E : nth i (mat_vec A e) 0 = nth i (mat_vec B e) 0) by now rewrite H.
  rewrite !nth_mat_vec, !Hd in E by (eapply is_mat_row; eauto). exact E.
Qed.

Lemma mat_mul_assoc n k l m A B C : is_mat n k A -> is_mat k l B -> is_mat l m C ->
  (0 < k)%nat -> (0 < l)%nat ->
  mat_mul (mat_mul A B) C = mat_mul A (mat_mul B C).
Proof.
  intros HA HB HC Hk Hl.
  pose proof (is_mat_ncols _ _ _ HB Hk) as HcB. pose proof (is_mat_ncols _ _ _ HC Hl) as HcC.
  pose proof (is_mat_mat_mul n l A B k HA HcB) as HAB.
  pose proof (is_mat_mat_mul k m B C l HB HcC) as HBC.
  pose proof (is_mat_ncols _ _ _ HBC Hk) as HcBC.
  apply (mat_eq_by_vec n m).
  - eapply is_mat_mat_mul; eauto.
  - eapply is_mat_mat_mul; eauto.
  - intros x Hx. rewrite (mat_vec_mat_mul n l m), (mat_vec_mat_mul n k l), (mat_vec_mat_mul n k m),
      (mat_vec_mat_mul k l m); auto.
    rewrite mat_vec_length. eapply is_mat_length; eauto.
Qed.
Lemma mat_mul_eye_r n m A : is_mat n m A -> (0 < m)%nat -> mat_mul A (eye m) = A.
Proof.
  intros HA Hm.
  apply (mat_eq_by_vec n m); auto.
  - eapply is_mat_mat_mul; eauto. eapply is_mat_ncols; [apply is_mat_eye|auto].
  - intros x Hx. rewrite (mat_vec_mat_mul n m m); auto using is_mat_eye.
    now rewrite mat_vec_eye.
Qed.
Lemma mat_mul_eye_l n m A : is_mat n m A -> (0 < n)%nat -> mat_mul (eye n) A = A.
Proof.
  intros HA Hn.
  apply (mat_eq_by_vec n m); auto.
  - eapply is_mat_mat_mul; [apply is_mat_eye|eapply is_mat_ncols; eauto].
  - intros x Hx. rewrite (mat_vec_mat_mul n n m); auto using is_mat_eye.
    rewrite mat_vec_eye; auto. rewrite mat_vec_length; eapply is_mat_length; eauto.
Qed.
Lemma transpose_eye n : transpose (eye n) = eye n.
Proof.
  destruct n as [|n]; [reflexivity|].
  pose proof (is_mat_eye (S n)) as H.
  apply (mat_ext (S n) (S n)); auto.
  - apply is_mat_transpose; auto; lia.
  - intros i j Hi Hj. rewrite entry_transpose, !entry_eye; auto.
    + rewrite Nat.eqb_sym; auto.
    + rewrite (is_mat_ncols _ _ _ H); lia.
Qed.
Lemma transpose_mat_mul n k m A B : is_mat n k A -> is_mat k m B -> (0 < n)%nat -> (0 < k)%nat ->
  (0 < m)%nat -> transpose (mat_mul A B) = mat_mul (transpose B) (transpose A).
Proof.
  intros HA HB Hn Hk Hm.
  pose proof (is_mat_ncols _ _ _ HA Hn) as HcA. pose proof (is_mat_ncols _ _ _ HB Hk) as HcB.
  pose proof (is_mat_mat_mul n m A B k HA HcB) as HAB.
  pose proof (is_mat_ncols _ _ _ HAB Hn) as HcAB.
  pose proof (is_mat_transpose _ _ _ HA Hn) as HTA. pose proof (is_mat_transpose _ _ _ HB Hk) as HTB.
  pose proof (is_mat_ncols _ _ _ HTA Hk) as HcTA.
  pose proof (is_mat_length _ _ _ HA) as HlA.
  apply (mat_ext m n).
  - apply is_mat_transpose; auto.
  - eapply is_mat_mat_mul; eauto.
  - intros i j Hi Hj. rewrite entry_transpose by lia.
    rewrite !entry_mat_mul; try lia; [|rewrite transpose_length; lia].
    rewrite nth_transpose by lia. rewrite dot_comm. f_equal.
    apply (vec_ext k).
    + eapply is_mat_row; eauto.
    + rewrite col_length, transpose_length; lia.
    + intros l Hl. rewrite nth_col, entry_transpose; auto; lia.
Qed.

(** ** quadratic forms *)
Lemma quad_vscale A c x : quad A (vscale c x) = c * c * quad A x.
Proof. unfold quad. rewrite mat_vec_vscale, dot_vscale_l, dot_vscale_r. ring. Qed.
Lemma quad_madd n m A B x : is_mat n m A -> is_mat n m B -> length x = n ->
  quad (madd A B) x = quad A x + quad B x.
Proof.
  intros HA HB Hx. unfold quad. rewrite (mat_vec_madd n m) by auto.
  apply dot_vadd_r. rewrite !mat_vec_length. destruct HA, HB; congruence.
Qed.
Lemma quad_msub n m A B x : is_mat n m A -> is_mat n m B -> length x = n ->
  quad (msub A B) x = quad A x - quad B x.
Proof.
  intros HA HB Hx. unfold quad. rewrite (mat_vec_msub n m) by auto.
  apply dot_vsub_r. rewrite !mat_vec_length. destruct HA, HB; congruence.
Qed.
Lemma quad_mscale c A x : quad (mscale c A) x = c * quad A x.
Proof. unfold quad. now rewrite mat_vec_mscale, dot_vscale_r. Qed.
Lemma quad_outer x y z : quad (outer x y) z = dot x z * dot y z.
Proof. unfold quad. rewrite mat_vec_outer, dot_vscale_r, (dot_comm z x). ring. Qed.
Lemma quad_eye n x : length x = n -> quad (eye n) x = dot x x.
Proof. intros H. unfold quad. now rewrite mat_vec_eye. Qed.
Lemma quad_congr n m A T x : is_mat n n A -> is_mat m n T -> (0 < n)%nat -> (0 < m)%nat -> length x = m ->
  quad (mat_mul (mat_mul T A) (transpose T)) x = quad A (vec_mat x T).
Proof.
  intros HA HT Hn Hm Hx. pose proof (is_mat_transpose _ _ _ HT Hm) as HTT.
  pose proof (is_mat_ncols _ _ _ HA Hn) as HcA. pose proof (is_mat_ncols _ _ _ HT Hm) as HcT.
  unfold quad. rewrite (mat_vec_mat_mul m n m); auto.
  2:{ eapply is_mat_mat_mul; eauto. }
  rewrite <- vec_mat_mat_vec. rewrite (mat_vec_mat_mul m n n); auto; [|len].
  eapply dot_mat_vec; eauto. rewrite mat_vec_length; eapply is_mat_length; eauto.
Qed.

(** ** destructing small vectors and matrices *)
Lemma len1_inv {A} (l : list A) : length l = 1%nat -> exists a, l = [a].
Proof. destruct l as [|a [|]]; simpl; intros; try discriminate; eauto. Qed.
Lemma len2_inv {A} (l : list A) : length l = 2%nat -> exists a b, l = [a; b].
Proof. destruct l as [|a [|b [|]]]; simpl; intros; try discriminate; eauto. Qed.
Lemma len3_inv {A} (l : list A) : length l = 3%nat -> exists a b c, l = [a; b; c].
Proof. destruct l as [|a [|b [|c [|]]]]; simpl; intros; try discriminate; eauto. Qed.
Lemma len4_inv {A} (l : list A) : length l = 4%nat -> exists a b c d, l = [a; b; c; d].
Proof. destruct l as [|a [|b [|c [|d [|]]]]]; simpl; intros; try discriminate; eauto. Qed.
Lemma len6_inv {A} (l : list A) : length l = 6%nat -> exists a b c d e f, l = [a; b; c; d; e; f].
Proof.
  destruct l as [|a [|b [|c [|d [|e [|f [|]]]]]]]; simpl; intros; try discriminate.
  now exists a, b, c, d, e, f.
Qed.
Lemma len10_inv {A} (l : list A) : length l = 10%nat ->
  exists a b c d e f g h i j, l = [a; b; c; d; e; f; g; h; i; j].
Proof.
  destruct l as [|a [|b [|c [|d [|e [|f [|g [|h [|i [|j [|]]]]]]]]]]]; simpl; intros; try discriminate.
  now exists a, b, c, d, e, f, g, h, i, j.
Qed.
Lemma mat33_inv A : is_mat 3 3 A -> exists a b c d e f g h i,
  A = [[a; b; c]; [d; e; f]; [g; h; i]].
Proof.
  intros [H1 H2]. destruct (len3_inv _ H1) as (r1 & r2 & r3 & ->).
  inversion H2 as [|? ? E1 H3]; subst. inversion H3 as [|? ? E2 H4]; subst.
  inversion H4 as [|? ? E3 _]; subst.
  destruct (len3_inv _ E1) as (a & b & c & ->). destruct (len3_inv _ E2) as (d & e & f & ->).
  destruct (len3_inv _ E3) as (g & h & i & ->). now exists a, b, c, d, e, f, g, h, i.
Qed.
Lemma mat44_inv A : is_mat 4 4 A -> exists a b c d e f g h i j k l m n o p,
  A = [[a; b; c; d]; [e; f; g; h]; [i; j; k; l]; [m; n; o; p]].
Proof.
  intros [H1 H2]. destruct (len4_inv _ H1) as (r1 & r2 & r3 & r4 & ->).
  inversion H2 as [|? ? E1 H3]; subst. inversion H3 as [|? ? E2 H4]; subst.
  inversion H4 as [|? ? E3 H5]; subst. inversion H5 as [|? ? E4 _]; subst.
  destruct (len4_inv _ E1) as (a & b & c & d & ->). destruct (len4_inv _ E2) as (e & f & g & h & ->).
  destruct (len4_inv _ E3) as (i & j & k & l & ->). destruct (len4_inv _ E4) as (m & n & o & p & ->).
  now exists a, b, c, d, e, f, g, h, i, j, k, l, m, n, o, p.
Qed.
