(** The greedy comparison of unordered rows. *)
From Coq Require Import Permutation.
From Verif Require Import Base.Vec Base.VecFacts Model.Util Model.TestUtil Spec.Matching.

Lemma argmax_true l : nth (argmax_bool l) l false = true -> (argmax_bool l < length l)%nat.
Proof. intro H. destruct (Nat.lt_ge_cases (argmax_bool l) (length l)) as [|G]; auto. rewrite nth_overflow in H by lia. discriminate. Qed.
Lemma argmax_false l : nth (argmax_bool l) l false = false -> forall i, nth i l false = false.
Proof.
  induction l as [|[|] l IH]; cbn [argmax_bool]; intros H i.
  - now destruct i.
  - discriminate.
  - destruct (nth (argmax_bool l) l false) eqn:E.
    + cbn in H. congruence.
    + destruct i; [reflexivity|]. cbn. auto.
Qed.
Lemma mark_length k l : length (mark k l) = length l.
Proof. revert k; induction l as [|x l IH]; intros [|k]; cbn; auto. Qed.
Lemma mark_same k l : (k < length l)%nat -> nth k (mark k l) false = true.
Proof. revert k; induction l as [|x l IH]; intros [|k] H; cbn in *; auto; try lia. apply IH. lia. Qed.
Lemma mark_other k l i : i <> k -> nth i (mark k l) false = nth i l false.
Proof. revert k i; induction l as [|x l IH]; intros [|k] [|i] H; cbn; auto; try congruence. Qed.
(** all entries of the row a are close to those of the row b *)
Definition row_close (rtol atol : R) (a b : vec) : bool := forallb (fun x => x) (map2 (isclose rtol atol) a b).
Lemma test_nth rtol atol a B checked i : length checked = length B ->
  nth i (map2 (fun e c => e && negb c) (rows_close rtol atol a B) checked) false =
    (if Nat.ltb i (length B) then row_close rtol atol a (nth i B []) && negb (nth i checked false) else false).
Proof.
  intro HL. unfold rows_close. fold (row_close rtol atol a). revert checked i HL. induction B as [|b B IH]; intros [|c checked] i HL; cbn in HL; try discriminate.
  - now destruct i.
  - destruct i; cbn [map map2 nth length]; [reflexivity|]. rewrite IH by lia. cbn. reflexivity.
Qed.
(** soundness: an accepted run matches the rows of A to different unchecked rows of B *)
Lemma loop_matching rtol atol B A checked : length checked = length B -> unordered_loop rtol atol A B checked = true ->
  exists js, length js = length A /\ NoDup js /\ (forall j, In j js -> (j < length B)%nat /\ nth j checked false = false) /\
    forall i, (i < length A)%nat -> row_close rtol atol (nth i A []) (nth (nth i js O) B []) = true.
Proof.
  revert checked. induction A as [|a A IH]; intros checked HL H; cbn [unordered_loop] in H.
  - exists []. split; [reflexivity|]. split; [constructor|]. split; [intros j []|]. intros i Hi. cbn in Hi. lia.
  - set (test := map2 _ _ _) in H. set (k := argmax_bool test) in *. destruct (nth k test false) eqn:E; [|discriminate].
    unfold test in E. rewrite test_nth in E by auto. destruct (Nat.ltb_spec k (length B)) as [Hk|]; [|discriminate]. apply andb_true_iff in E as (E1 & E2).
    apply negb_true_iff in E2. destruct (IH (mark k checked)) as (js & J1 & J2 & J3 & J4); [now rewrite mark_length|exact H|].
    exists (k :: js). split; [cbn; congruence|]. split; [|split].
    + constructor; [|exact J2]. intro Hin. destruct (J3 k Hin) as (_ & F). rewrite mark_same in F by congruence. discriminate.
    + intros j [<-|Hj]; [auto|]. destruct (J3 j Hj) as (F1 & F2). split; [exact F1|]. destruct (Nat.eq_dec j k) as [->|Ne]; [exact E2|]. now rewrite mark_other in F2.
    + intros [|i] Hi; cbn [nth]; [exact E1|]. apply J4. cbn in Hi. lia.
Qed.
Lemma unordered_matching A B rtol atol : allclose_unordered A B rtol atol = Ok true ->
  length A = length B /\ exists js, length js = length A /\ NoDup js /\ (forall j, In j js -> (j < length B)%nat) /\
    forall i, (i < length A)%nat -> row_close rtol atol (nth i A []) (nth (nth i js O) B []) = true.
Proof.
  unfold allclose_unordered. destruct (Nat.eqb (length A) (length B) && Nat.eqb (ncols A) (ncols B)) eqn:E; cbn [assert_ bind]; [|discriminate].
  apply andb_true_iff in E as (E & _). apply Nat.eqb_eq in E. intro H. injection H as H. split; [exact E|].
  destruct (loop_matching rtol atol B A (repeat false (length A))) as (js & J1 & J2 & J3 & J4); [rewrite repeat_length; congruence|exact H|].
  exists js. split; [exact J1|]. split; [exact J2|]. split; [|exact J4]. intros j Hj. now destruct (J3 j Hj).
Qed.
(** completeness when no row of A is close to two rows of B *)
Definition separated (rtol atol : R) (A B : mat) : Prop :=
  forall a j k, In a A -> (j < length B)%nat -> (k < length B)%nat -> row_close rtol atol a (nth j B []) = true -> row_close rtol atol a (nth k B []) = true -> j = k.
Lemma loop_complete rtol atol B A checked js : length checked = length B -> separated rtol atol A B ->
  length js = length A -> NoDup js -> (forall j, In j js -> (j < length B)%nat /\ nth j checked false = false) ->
  (forall i, (i < length A)%nat -> row_close rtol atol (nth i A []) (nth (nth i js O) B []) = true) ->
  unordered_loop rtol atol A B checked = true.
Proof.
  revert checked js. induction A as [|a A IH]; intros checked js HL HS J1 J2 J3 J4; [reflexivity|]. cbn [unordered_loop].
  destruct js as [|j js]; [discriminate|]. set (test := map2 _ _ _). set (k := argmax_bool test).
  destruct (J3 j (or_introl eq_refl)) as (Hj & Cj). pose proof (J4 O ltac:(cbn; lia)) as Mj. cbn in Mj.
  destruct (nth k test false) eqn:E.
  - unfold test in E. rewrite test_nth in E by auto. destruct (Nat.ltb_spec k (length B)) as [Hk|]; [|discriminate]. apply andb_true_iff in E as (E1 & E2).
    assert (k = j) by (apply (HS a k j); auto; now left). clearbody k. subst k. apply (IH _ js).
    + now rewrite mark_length.
    + intros a' x y Ha. apply HS. now right.
    + cbn in J1. lia.
    + now inversion J2.
    + intros i Hi. destruct (J3 i (or_intror Hi)) as (F1 & F2). split; [exact F1|]. rewrite mark_other; auto. intros ->. inversion J2; auto.
    + intros i Hi. apply (J4 (S i)). cbn. lia.
  - pose proof (argmax_false test E j) as F. unfold test in F. rewrite test_nth in F by auto. destruct (Nat.ltb_spec j (length B)); [|lia].
    change (row_close rtol atol a (nth j B []) && negb (nth j checked false) = false) in F. change (row_close rtol atol a (nth j B []) = true) in Mj. rewrite Mj, Cj in F. discriminate.
Qed.
Lemma unordered_separated A B rtol atol js : length A = length B -> ncols A = ncols B -> separated rtol atol A B ->
  length js = length A -> NoDup js -> (forall j, In j js -> (j < length B)%nat) ->
  (forall i, (i < length A)%nat -> row_close rtol atol (nth i A []) (nth (nth i js O) B []) = true) ->
  allclose_unordered A B rtol atol = Ok true.
Proof.
  intros H1 H2 HS J1 J2 J3 J4. unfold allclose_unordered. rewrite H1, H2, !Nat.eqb_refl. cbn [andb assert_ bind]. f_equal.
  apply (loop_complete rtol atol B A _ js); auto; [now rewrite repeat_length|]. intros j Hj. split; [auto|].
  destruct (nth_in_or_default j (repeat false (length B)) false) as [H|H]; [now apply repeat_spec in H|exact H].
Qed.

(** zero tolerances: equality of rows *)
Lemma isclose_zero x y : isclose 0 0 x y = true <-> x = y.
Proof.
  unfold isclose. rewrite Rleb_iff. split.
  - intro H. assert (Rabs (x - y) <= 0) by lra. pose proof (Rabs_pos (x - y)). assert (E : Rabs (x - y) = 0) by lra.
    destruct (Req_dec (x - y) 0) as [|N]; [lra|]. now apply Rabs_no_R0 in N.
  - intros ->. rewrite Rminus_diag_eq, Rabs_R0 by auto. lra.
Qed.
Lemma row_close_zero a b : length a = length b -> (row_close 0 0 a b = true <-> a = b).
Proof.
  unfold row_close. revert b. induction a as [|x a IH]; intros [|y b] HL; cbn in HL; try discriminate; [easy|].
  cbn [map2 forallb]. rewrite andb_true_iff, isclose_zero, IH by lia. split; [intros (-> & ->); reflexivity|intro E; injection E; auto].
Qed.
(** the rows that are not checked yet *)
Fixpoint unchecked (B : mat) (checked : list bool) : mat :=
  match B, checked with
  | b :: B', c :: cs => if c then unchecked B' cs else b :: unchecked B' cs
  | _, _ => []
  end.
Lemma unchecked_mark B checked k : length checked = length B -> (k < length B)%nat -> nth k checked false = false ->
  Permutation (unchecked B checked) (nth k B [] :: unchecked B (mark k checked)).
Proof.
  revert checked k. induction B as [|b B IH]; intros [|c cs] k HL Hk Hc; cbn in *; try lia; try discriminate.
  destruct k; cbn in *.
  - subst c. apply Permutation_refl.
  - destruct c.
    + apply IH; auto; lia.
    + eapply perm_trans; [apply perm_skip, (IH cs k); auto; lia|]. apply perm_swap.
Qed.
Lemma unchecked_in B checked a : length checked = length B -> In a (unchecked B checked) -> exists k, (k < length B)%nat /\ nth k B [] = a /\ nth k checked false = false.
Proof.
  revert checked. induction B as [|b B IH]; intros [|c cs] HL H; cbn in *; try discriminate; try easy.
  destruct c.
  - destruct (IH cs ltac:(lia) H) as (k & H1 & H2 & H3). exists (S k). split; [lia|]. auto.
  - destruct H as [->|H]; [exists O; split; [lia|auto]|]. destruct (IH cs ltac:(lia) H) as (k & H1 & H2 & H3). exists (S k). split; [lia|]. auto.
Qed.
Lemma loop_zero m A B checked : length checked = length B -> (forall a, In a A -> length a = m) -> (forall b, In b B -> length b = m) ->
  length A = length (unchecked B checked) ->
  (unordered_loop 0 0 A B checked = true <-> Permutation A (unchecked B checked)).
Proof.
  revert checked. induction A as [|a A IH]; intros checked HL HA HB HN.
  - cbn [unordered_loop]. destruct (unchecked B checked) as [|x l]; [|discriminate]. split; auto.
  - cbn [unordered_loop]. set (test := map2 _ _ _). set (k := argmax_bool test). destruct (nth k test false) eqn:E.
    + unfold test in E. rewrite test_nth in E by auto. destruct (Nat.ltb_spec k (length B)) as [Hk|]; [|discriminate]. apply andb_true_iff in E as (E1 & E2).
      apply negb_true_iff in E2. rewrite row_close_zero in E1 by (rewrite HA, HB; auto using nth_In; now left).
      pose proof (unchecked_mark B checked k HL Hk E2) as P. rewrite <- E1 in P. rewrite IH.
      * split; intro H.
        -- apply Permutation_sym in P. eapply perm_trans; [apply perm_skip, H|exact P].
        -- apply (Permutation_cons_inv (a := a)). eapply perm_trans; [exact H|exact P].
      * now rewrite mark_length.
      * intros; apply HA; now right.
      * auto.
      * apply Permutation_length in P. cbn in *. lia.
    + split; [discriminate|]. intro P. exfalso. assert (Hin : In a (unchecked B checked)) by (apply (Permutation_in _ P); now left).
      destruct (unchecked_in B checked a HL Hin) as (j & H1 & H2 & H3).
      pose proof (argmax_false test E j) as F. unfold test in F. rewrite test_nth in F by auto. destruct (Nat.ltb_spec j (length B)); [|lia].
      rewrite H3, H2, (proj2 (row_close_zero a a eq_refl) eq_refl) in F. discriminate.
Qed.
Lemma unchecked_all B : unchecked B (repeat false (length B)) = B.
Proof. induction B as [|b B IH]; cbn; congruence. Qed.
Lemma unordered_zero n m A B : is_mat n m A -> is_mat n m B ->
  exists r, allclose_unordered A B 0 0 = Ok r /\ (r = true <-> Permutation A B).
Proof.
  intros (LA & HA) (LB & HB). rewrite Forall_forall in HA, HB. unfold allclose_unordered.
  assert (EN : ncols A = ncols B).
  { destruct A as [|a A], B as [|b B]; cbn in *; try congruence. rewrite (HA a), (HB b) by auto. reflexivity. }
  rewrite EN, LA, <- LB, !Nat.eqb_refl. cbn [andb assert_ bind]. eexists. split; [reflexivity|].
  rewrite (loop_zero m); [now rewrite unchecked_all|now rewrite repeat_length|auto|auto|]. rewrite unchecked_all. congruence.
Qed.
Lemma unordered_shape A B rtol atol : length A <> length B \/ ncols A <> ncols B -> allclose_unordered A B rtol atol = Raise AssertionError.
Proof.
  intro H. unfold allclose_unordered. destruct (Nat.eqb_spec (length A) (length B)), (Nat.eqb_spec (ncols A) (ncols B)); try reflexivity. tauto.
Qed.
(** the greedy choice misses a matching *)
Lemma unordered_greedy rtol atol : 0 <= rtol < 1 -> 0 < atol ->
  exists A B, allclose_unordered A B rtol atol = Ok false /\ length A = length B /\
    exists js, length js = length A /\ NoDup js /\ (forall j, In j js -> (j < length B)%nat) /\
      forall i, (i < length A)%nat -> row_close rtol atol (nth i A []) (nth (nth i js O) B []) = true.
Proof.
  intros Hr Ha. exists [[0]; [- atol]], [[0]; [atol]].
  assert (C1 : isclose rtol atol 0 0 = true) by (unfold isclose; apply Rleb_iff; rewrite Rminus_diag_eq, Rabs_R0 by auto; lra).
  assert (C2 : isclose rtol atol 0 atol = true).
  { unfold isclose. apply Rleb_iff. rewrite Rabs_minus_sym, Rminus_0_r, (Rabs_right atol) by lra. nra. }
  assert (C3 : isclose rtol atol (- atol) 0 = true).
  { unfold isclose. apply Rleb_iff. rewrite Rminus_0_r, Rabs_Ropp, (Rabs_right atol), Rabs_R0 by lra. lra. }
  assert (C4 : isclose rtol atol (- atol) atol = false).
  { unfold isclose. apply Rleb_false. replace (- atol - atol) with (- (2 * atol)) by ring. rewrite Rabs_Ropp, !Rabs_right by lra. nra. }
  split; [|split; [reflexivity|]].
  - unfold allclose_unordered. cbn [length ncols Nat.eqb andb assert_ bind repeat unordered_loop rows_close map map2 forallb]. rewrite C1, C2, C3, C4. reflexivity.
  - exists [1; 0]%nat. split; [reflexivity|]. split; [repeat constructor; cbn; intuition lia|]. split; [intros j [<-|[<-|[]]]; cbn; lia|].
    intros [|[|i]] Hi; cbn in Hi; try lia; unfold row_close; cbn; rewrite ?C2, ?C3; reflexivity.
Qed.

(** * In terms of the specification *)
Lemma row_close_iff m rtol atol a b : length a = m -> length b = m -> (row_close rtol atol a b = true <-> close_rows m rtol atol a b).
Proof.
  unfold row_close, close_rows. revert m b. induction a as [|x a IH]; intros m [|y b] <- HL; cbn in HL; try discriminate.
  - split; [intros _ k Hk; cbn in Hk; lia|reflexivity].
  - cbn [map2 forallb]. rewrite andb_true_iff, (IH (length a)) by (auto; lia). unfold isclose at 1. rewrite Rleb_iff. split.
    + intros (H1 & H2) [|k] Hk; cbn [nth]; [exact H1|]. apply H2. cbn in Hk. lia.
    + intro H. split; [apply (H O); cbn; lia|]. intros k Hk. apply (H (S k)). cbn. lia.
Qed.
Lemma mat_row n m A i : is_mat n m A -> (i < n)%nat -> length (nth i A []) = m.
Proof. intros (L & H) Hi. rewrite Forall_forall in H. apply H, nth_In. lia. Qed.
Lemma mats_ncols n m A B : is_mat n m A -> is_mat n m B -> length A = length B /\ ncols A = ncols B.
Proof.
  intros (LA & HA) (LB & HB). rewrite Forall_forall in HA, HB. split; [congruence|].
  destruct A as [|a A], B as [|b B]; cbn in *; try congruence. rewrite (HA a), (HB b) by auto. reflexivity.
Qed.
Lemma unordered_sound n m A B rtol atol : is_mat n m A -> is_mat n m B -> allclose_unordered A B rtol atol = Ok true ->
  exists f, row_matching n m rtol atol A B f.
Proof.
  intros HA HB H. destruct (unordered_matching A B rtol atol H) as (E & js & J1 & J2 & J3 & J4).
  assert (LA : length A = n) by apply HA. assert (LB : length B = n) by apply HB. exists (fun i => nth i js O). split; [|split].
  - intros i Hi. rewrite <- LB. apply J3, nth_In. lia.
  - intros i j Hi Hj F. rewrite (NoDup_nth js O) in J2. apply J2; auto; lia.
  - intros i Hi. assert (Hj : (nth i js O < n)%nat) by (rewrite <- LB; apply J3, nth_In; lia).
    apply (proj1 (row_close_iff m rtol atol (nth i A []) (nth (nth i js O) B []) (mat_row n m A i HA Hi) (mat_row n m B _ HB Hj))), J4. lia.
Qed.
Lemma unordered_complete n m A B rtol atol : is_mat n m A -> is_mat n m B -> separated_rows n m rtol atol A B ->
  (exists f, row_matching n m rtol atol A B f) -> allclose_unordered A B rtol atol = Ok true.
Proof.
  intros HA HB HS (f & F1 & F2 & F3). destruct (mats_ncols n m A B HA HB) as (E1 & E2).
  assert (LA : length A = n) by apply HA. assert (LB : length B = n) by apply HB.
  assert (NF : forall i, (i < n)%nat -> nth i (map f (seq 0 n)) O = f i).
  { intros i Hi. rewrite (nth_indep _ O (f O)) by (rewrite map_length, seq_length; lia). rewrite map_nth, seq_nth by lia. reflexivity. }
  apply (unordered_separated A B rtol atol (map f (seq 0 n))); auto.
  - intros a j k Ha Hj Hk C1 C2. destruct (In_nth A a [] Ha) as (i & Hi & <-). rewrite LA in Hi. rewrite LB in Hj, Hk.
    apply (HS i j k); auto; apply (row_close_iff m rtol atol); auto; eapply mat_row; eauto.
  - now rewrite map_length, seq_length.
  - apply (NoDup_nth _ O). rewrite map_length, seq_length. intros i j Hi Hj. rewrite !NF by lia. now apply F2.
  - intros j Hj. apply in_map_iff in Hj as (i & <- & Hi). apply in_seq in Hi. rewrite LB. apply F1. lia.
  - intros i Hi. rewrite LA in Hi. rewrite NF by lia. apply (row_close_iff m rtol atol); [eapply mat_row; eauto|eapply mat_row; [eauto|now apply F1]|]. now apply F3.
Qed.
Lemma unordered_answers n m A B rtol atol : is_mat n m A -> is_mat n m B -> exists r, allclose_unordered A B rtol atol = Ok r.
Proof. intros HA HB. destruct (mats_ncols n m A B HA HB) as (E1 & E2). unfold allclose_unordered. rewrite E1, E2, !Nat.eqb_refl. cbn. eauto. Qed.
Lemma unordered_incomplete rtol atol : 0 <= rtol < 1 -> 0 < atol ->
  exists A B, is_mat 2 1 A /\ is_mat 2 1 B /\ allclose_unordered A B rtol atol = Ok false /\
    exists f, row_matching 2 1 rtol atol A B f.
Proof.
  intros Hr Ha. exists [[0]; [- atol]], [[0]; [atol]].
  split; [split; [reflexivity|repeat constructor]|]. split; [split; [reflexivity|repeat constructor]|].
  assert (C1 : isclose rtol atol 0 0 = true) by (unfold isclose; apply Rleb_iff; rewrite Rminus_diag_eq, Rabs_R0 by auto; lra).
  assert (C2 : isclose rtol atol 0 atol = true).
  { unfold isclose. apply Rleb_iff. rewrite Rabs_minus_sym, Rminus_0_r, (Rabs_right atol) by lra. nra. }
  assert (C3 : isclose rtol atol (- atol) 0 = true).
  { unfold isclose. apply Rleb_iff. rewrite Rminus_0_r, Rabs_Ropp, (Rabs_right atol), Rabs_R0 by lra. lra. }
  assert (C4 : isclose rtol atol (- atol) atol = false).
  { unfold isclose. apply Rleb_false. replace (- atol - atol) with (- (2 * atol)) by ring. rewrite Rabs_Ropp, !Rabs_right by lra. nra. }
  split.
  - unfold allclose_unordered. cbn [length ncols Nat.eqb andb assert_ bind repeat unordered_loop rows_close map map2 forallb]. rewrite C1, C2, C3, C4. reflexivity.
  - exists (fun i => 1 - i)%nat. split; [intros; lia|]. split; [intros; lia|].
    unfold isclose in C2, C3. rewrite Rleb_iff in C2, C3.
    intros [|[|i]] Hi [|k] Hk; cbn in Hk, Hi; try lia; cbn; assumption.
Qed.

(** * validation_rmse *)
Definition rmse_errors (Ys : list mat) (ws : list vec) (theta : vec) : list vec := map2 (fun Y w => vsub (mat_vec Y theta) w) Ys ws.
Lemma norm_sq_sum e : lsum (map (fun a => a ^ 2) e) = norm e * norm e.
Proof. rewrite norm_sqr. unfold dot. induction e as [|x e IH]; [reflexivity|]. cbn [map map2]. change (lsum (?x :: ?l)) with (x + lsum l). rewrite IH. ring. Qed.
Lemma validation_rmse_spec Ys ws theta W : length Ys = length ws -> ws <> [] ->
  validation_rmse Ys ws theta W = Ok (sqrt (mean_sq (map (fun Yw => vsub (mat_vec (fst Yw) theta) (snd Yw)) (combine Ys ws)))).
Proof.
  intros HL HN. unfold validation_rmse, mean_sq. rewrite HL, Nat.eqb_refl.
  assert (E : map2 (fun Y w => vsub (mat_vec Y theta) w) Ys ws = map (fun Yw => vsub (mat_vec (fst Yw) theta) (snd Yw)) (combine Ys ws)).
  { clear HN. revert ws HL. induction Ys as [|Y Ys IH]; intros [|w ws] HL; cbn in *; auto. f_equal. apply IH. lia. }
  rewrite E. set (er := map _ (combine Ys ws)).
  assert (LE : length er = length ws) by (unfold er; rewrite map_length, combine_length; lia).
  rewrite (map_ext _ _ norm_sq_sum er). rewrite !map_length, LE, Nat.eqb_refl. cbn [assert_ bind].
  destruct er as [|e er'] eqn:EE; [destruct ws; [congruence|discriminate]|]. cbn [map]. rewrite <- LE. reflexivity.
Qed.
Lemma mean_sq_nonneg es : es <> [] -> 0 <= mean_sq es.
Proof.
  intro H. unfold mean_sq. apply Rmult_le_pos; [|apply Rlt_le, Rinv_0_lt_compat, lt_0_INR; destruct es; [congruence|cbn; lia]].
  clear H. induction es as [|e es IH]; [cbn; lra|]. cbn [map]. change (lsum (?x :: ?l)) with (x + lsum l). pose proof (sqr_nonneg (norm e)). lra.
Qed.
Lemma lsum_sq_zero es : lsum (map (fun e => norm e * norm e) es) = 0 <-> (forall e, In e es -> norm e = 0).
Proof.
  assert (P : forall l : list vec, 0 <= lsum (map (fun e => norm e * norm e) l)).
  { induction l as [|e l IH]; [cbn; lra|]. cbn [map]. change (lsum (?x :: ?l)) with (x + lsum l). pose proof (sqr_nonneg (norm e)). lra. }
  induction es as [|e es IH]; [cbn; split; [intros _ e []|reflexivity]|]. cbn [map]. change (lsum (?x :: ?l)) with (x + lsum l).
  pose proof (P es). pose proof (sqr_nonneg (norm e)). split.
  - intros E e' [<-|Hin]; [nra|]. apply IH; [lra|exact Hin].
  - intro F. rewrite (proj2 IH) by (intros; apply F; now right). rewrite (F e) by now left. ring.
Qed.
Lemma norm_zero_inv e : norm e = 0 -> forall k, nth k e 0 = 0.
Proof.
  intro H. assert (D : dot e e = 0) by (rewrite <- norm_sqr, H; ring). clear H. induction e as [|x e IH]; [intros [|k]; reflexivity|].
  change (x * x + dot e e = 0) in D. pose proof (dot_self_nonneg e). pose proof (sqr_nonneg x). intros [|k]; cbn; [nra|]. apply IH. lra.
Qed.
Lemma validation_rmse_zero Ys ws theta W m : length Ys = length ws -> ws <> [] -> (forall Y, In Y Ys -> length Y = m) -> (forall w, In w ws -> length w = m) ->
  exists r, validation_rmse Ys ws theta W = Ok r /\ 0 <= r /\
    (r = 0 <-> forall k, (k < length ws)%nat -> mat_vec (nth k Ys []) theta = nth k ws []).
Proof.
  intros HL HN HY HW. rewrite validation_rmse_spec by auto. eexists. split; [reflexivity|]. split; [apply sqrt_pos|].
  set (er := map _ (combine Ys ws)). assert (LE : length er = length ws) by (unfold er; rewrite map_length, combine_length; lia).
  assert (NE : er <> []) by (intros E; rewrite E in LE; destruct ws; [congruence|discriminate]).
  assert (L0 : 0 < INR (length er)) by (apply lt_0_INR; destruct er; [congruence|cbn; lia]).
  assert (Z : sqrt (mean_sq er) = 0 <-> forall e, In e er -> norm e = 0).
  { rewrite <- lsum_sq_zero. split; intro H.
    - apply sqrt_eq_0 in H; [|now apply mean_sq_nonneg]. unfold mean_sq in H. apply (Rmult_eq_reg_r (/ INR (length er))); [unfold Rdiv in H; lra|]. apply Rinv_neq_0_compat. lra.
    - unfold mean_sq. rewrite H. unfold Rdiv. rewrite Rmult_0_l. apply sqrt_0. }
  rewrite Z. clear Z.
  assert (NT : forall k, (k < length ws)%nat -> nth k er [] = vsub (mat_vec (nth k Ys []) theta) (nth k ws [])).
  { intros k Hk. unfold er. rewrite (nth_indep _ [] (vsub (mat_vec (fst ([] : mat, [] : vec)) theta) (snd ([] : mat, [] : vec)))) by (rewrite map_length, combine_length; lia).
    rewrite (map_nth (fun Yw => vsub (mat_vec (fst Yw) theta) (snd Yw)) (combine Ys ws) ([], [])). rewrite combine_nth by auto. reflexivity. }
  assert (LM : forall k, (k < length ws)%nat -> length (mat_vec (nth k Ys []) theta) = m /\ length (nth k ws []) = m).
  { intros k Hk. split; [unfold mat_vec; rewrite map_length; apply HY, nth_In; lia|apply HW, nth_In; lia]. }
  split.
  - intros H k Hk. destruct (LM k Hk) as (L1 & L2). assert (E : norm (nth k er []) = 0) by (apply H, nth_In; lia). rewrite NT in E by auto.
    apply (vec_ext m); auto. intros i Hi. pose proof (norm_zero_inv _ E i) as Q. rewrite nth_vsub in Q by congruence. lra.
  - intros H e He. destruct (In_nth er e [] He) as (k & Hk & <-). rewrite LE in Hk. rewrite NT, H by auto.
    destruct (LM k Hk) as (_ & L2). assert (D : dot (vsub (nth k ws []) (nth k ws [])) (vsub (nth k ws []) (nth k ws [])) = 0).
    { rewrite (dot_rsum m) by len. apply (rsum_zero m). intros i Hi. rewrite nth_vsub by congruence. ring. }
    unfold norm. rewrite D. apply sqrt_0.
Qed.
Lemma validation_rmse_weight Ys ws theta W W' : validation_rmse Ys ws theta W = validation_rmse Ys ws theta W'.
Proof. reflexivity. Qed.
Lemma validation_rmse_bad theta W : validation_rmse [] [] theta W = NonFinite /\
  forall Ys ws, length Ys <> length ws -> validation_rmse Ys ws theta W = Raise ValueError.
Proof. split; [reflexivity|]. intros Ys ws H. unfold validation_rmse. destruct (Nat.eqb_spec (length Ys) (length ws)); [congruence|reflexivity]. Qed.
