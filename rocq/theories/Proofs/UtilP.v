(** Lemmas about Model/Util.v (C16, C17 and C18 in exact arithmetic, C20). *)
From Verif Require Import Proofs.Coord Model.Util.
From Coq Require FinFun.
From Flocq Require Import Core.Raux.

(** ** indices *)
Lemma list_prod_flat_map {A B} (l : list A) (l' : list B) :
  list_prod l l' = flat_map (fun x => map (pair x) l') l.
Proof. induction l as [|a l IH]; cbn; auto. now rewrite IH. Qed.
Lemma filter_flat_map {A B} (f : B -> bool) (g : A -> list B) l :
  filter f (flat_map g l) = flat_map (fun x => filter f (g x)) l.
Proof. induction l as [|a l IH]; cbn; auto. now rewrite filter_app, IH. Qed.
Lemma filter_map {A B} (f : B -> bool) (g : A -> B) l :
  filter f (map g l) = map g (filter (fun x => f (g x)) l).
Proof. induction l as [|a l IH]; cbn; auto. destruct (f (g a)); cbn; now rewrite IH. Qed.
Lemma flat_map_ext_in {A B} (f g : A -> list B) l :
  (forall x, In x l -> f x = g x) -> flat_map f l = flat_map g l.
Proof. induction l as [|a l IH]; cbn; intros H; auto. rewrite H, IH by auto; auto. Qed.

Lemma filter_ge_seq a n m : filter (fun j => Nat.leb a j) (seq m n) =
  seq (Nat.max a m) (n + m - Nat.max a m).
Proof.
  revert m; induction n as [|n IH]; intros m; cbn [seq filter].
  - now replace (0 + m - Nat.max a m)%nat with 0%nat by lia.
  - rewrite IH. destruct (Nat.leb a m) eqn:E.
    + apply Nat.leb_le in E. replace (Nat.max a m) with m by lia.
      replace (Nat.max a (S m)) with (S m) by lia.
      replace (S n + m - m)%nat with (S n) by lia. cbn. f_equal. f_equal. lia.
    + apply Nat.leb_gt in E. replace (Nat.max a m) with a by lia.
      replace (Nat.max a (S m)) with a by lia. f_equal. lia.
Qed.

Lemma triu_indices_rows n k : triu_indices n (Z.of_nat k) =
  flat_map (fun i => map (pair i) (seq (i + k) (n - (i + k)))) (seq 0 n).
Proof.
  unfold triu_indices. rewrite list_prod_flat_map, filter_flat_map.
  apply flat_map_ext_in. intros i Hi. apply in_seq in Hi. rewrite filter_map. f_equal.
  rewrite (filter_ext _ (fun j => Nat.leb (i + k) j)).
  - rewrite filter_ge_seq. f_equal; lia.
  - intros j. cbn. destruct (Nat.leb_spec (i + k) j); destruct (Z.leb_spec (Z.of_nat k) (Z.of_nat j - Z.of_nat i)); auto; lia.
Qed.
Lemma in_triu n k i j : In (i, j) (triu_indices n k) <->
  (i < n)%nat /\ (j < n)%nat /\ (k <= Z.of_nat j - Z.of_nat i)%Z.
Proof.
  unfold triu_indices. rewrite filter_In, in_prod_iff, !in_seq. cbn. rewrite Z.leb_le. lia.
Qed.
Lemma in_tril n k i j : In (i, j) (tril_indices n k) <->
  (i < n)%nat /\ (j < n)%nat /\ (Z.of_nat j - Z.of_nat i <= k)%Z.
Proof.
  unfold tril_indices. rewrite filter_In, in_prod_iff, !in_seq. cbn. rewrite Z.leb_le. lia.
Qed.
Lemma NoDup_flat_map {A B} (f : A -> list B) l : NoDup l -> (forall x, In x l -> NoDup (f x)) ->
  (forall x y b, In x l -> In y l -> In b (f x) -> In b (f y) -> x = y) -> NoDup (flat_map f l).
Proof.
  induction l as [|a l IH]; cbn; intros Hl Hf Hd; [constructor|].
  inversion Hl; subst. assert (NoDup (flat_map f l)).
  { apply IH; auto. intros x y b Hx Hy; apply Hd; auto. }
  assert (Hdis : forall b, In b (f a) -> ~ In b (flat_map f l)).
  { intros b Hb Hb'. apply in_flat_map in Hb' as (y & Hy & Hb').
    assert (a = y) by (eapply Hd; eauto). congruence. }
  assert (Hfa : NoDup (f a)) by auto.
  clear - Hfa H Hdis. induction (f a) as [|b l' IH]; cbn; auto.
  inversion Hfa; subst. constructor.
  - rewrite in_app_iff. intros [?|?]; [auto|]. apply (Hdis b); cbn; auto.
  - apply IH; auto. intros b' Hb'. apply Hdis; cbn; auto.
Qed.
Lemma NoDup_triu n k : NoDup (triu_indices n k).
Proof.
  unfold triu_indices. apply NoDup_filter. rewrite list_prod_flat_map.
  apply NoDup_flat_map.
  - apply seq_NoDup.
  - intros x _. apply FinFun.Injective_map_NoDup; [|apply seq_NoDup]. intros a b H; congruence.
  - intros x y b _ _ H1 H2. apply in_map_iff in H1 as (? & <- & _).
    apply in_map_iff in H2 as (? & H2 & _). congruence.
Qed.
Lemma tri_double n : (2 * tri n = n * (n + 1))%nat.
Proof. induction n; cbn [tri]; lia. Qed.
Lemma length_flat_map_seq n m : (m <= n)%nat ->
  length (flat_map (fun i => map (pair i) (seq (i + 0) (n - (i + 0)))) (seq (n - m) m)) = tri m.
Proof.
  induction m as [|m IH]; intros H; auto. cbn [seq flat_map tri].
  rewrite app_length, map_length, seq_length.
  replace (S (n - S m)) with (n - m)%nat by lia. rewrite IH by lia. lia.
Qed.
Lemma length_triu n : length (triu_indices n 0) = tri n.
Proof.
  change 0%Z with (Z.of_nat 0). rewrite triu_indices_rows.
  pose proof (length_flat_map_seq n n (le_n n)) as H. now rewrite Nat.sub_diag in H.
Qed.

Lemma vech_rows n A k : is_mat n n A ->
  vech A (Z.of_nat k) =
  Ok (flat_map (fun i => map (fun j => entry A i j) (seq (i + k) (n - (i + k)))) (seq 0 n)).
Proof.
  intros HA. unfold vech. rewrite (is_mat_length _ _ _ HA).
  apply is_matb_iff in HA. rewrite HA. cbn [bind assert_]. f_equal.
  rewrite triu_indices_rows. 
  generalize (seq 0 n). intros l. induction l as [|i l IH]; auto. cbn [flat_map].
  rewrite map_app, IH, map_map. reflexivity.
Qed.
Lemma vech_raise A k : ~ is_mat (length A) (length A) A -> vech A k = Raise AssertionError.
Proof.
  intros H. unfold vech. destruct (is_matb (length A) (length A) A) eqn:E; auto.
  apply is_matb_iff in E; contradiction.
Qed.

(** ** assignment *)
Lemma set_nth_length {A} (l : list A) i v : length (set_nth l i v) = length l.
Proof. revert i; induction l as [|a l IH]; intros [|i]; cbn; auto. Qed.
Lemma nth_set_nth {A} (l : list A) i j v d : (i < length l)%nat ->
  nth j (set_nth l i v) d = if Nat.eqb j i then v else nth j l d.
Proof.
  revert i j; induction l as [|a l IH]; intros [|i] [|j] H; cbn in *; try lia; auto.
  apply IH. lia.
Qed.
Lemma is_mat_set_entry n m A i j v : is_mat n m A -> (i < n)%nat -> is_mat n m (set_entry A i j v).
Proof.
  intros HA Hi. apply is_mat_intro.
  - unfold set_entry. rewrite set_nth_length. apply (is_mat_length _ _ _ HA).
  - intros k Hk. unfold set_entry. rewrite nth_set_nth by (rewrite (is_mat_length _ _ _ HA); auto).
    destruct (Nat.eqb_spec k i); [rewrite set_nth_length|]; eapply is_mat_row; eauto.
Qed.
Lemma entry_set_entry n m A i j v k l : is_mat n m A -> (i < n)%nat -> (j < m)%nat ->
  entry (set_entry A i j v) k l = if Nat.eqb k i && Nat.eqb l j then v else entry A k l.
Proof.
  intros HA Hi Hj. unfold entry, set_entry.
  rewrite nth_set_nth by (rewrite (is_mat_length _ _ _ HA); auto).
  destruct (Nat.eqb_spec k i); cbn [andb]; auto. subst.
  rewrite nth_set_nth by (rewrite (is_mat_row _ _ _ _ HA); auto). reflexivity.
Qed.

Definition pair_dec : forall x y : nat * nat, {x = y} + {x <> y}.
Proof. decide equality; apply Nat.eq_dec. Defined.

Lemma assign_spec n (f : nat * nat -> R) idx A : is_mat n n A ->
  (forall i j, In (i, j) idx -> (i < n)%nat /\ (j < n)%nat) ->
  is_mat n n (assign A idx (map f idx)) /\
  forall i j, entry (assign A idx (map f idx)) i j =
    if in_dec pair_dec (i, j) idx then f (i, j) else entry A i j.
Proof.
  revert A; induction idx as [|[a b] idx IH]; intros A HA Hidx; cbn [assign map].
  - split; auto.
  - destruct (Hidx a b) as [Ha Hb]; [left; auto|].
    destruct (IH (set_entry A a b (f (a, b)))) as [H1 H2].
    + apply is_mat_set_entry; auto.
    + intros i j Hij. apply Hidx. right; auto.
    + split; auto. intros i j. rewrite H2.
      rewrite (entry_set_entry n n) by auto.
      destruct (in_dec pair_dec (i, j) idx) as [Hin|Hout];
      destruct (in_dec pair_dec (i, j) ((a, b) :: idx)) as [Hin'|Hout']; cbn in *; try tauto.
      * destruct Hin' as [E|?]; [|tauto]. injection E as <- <-. now rewrite !Nat.eqb_refl.
      * destruct (Nat.eqb_spec i a); destruct (Nat.eqb_spec j b); cbn; auto. subst. tauto.
Qed.

Lemma is_mat_zeros2 n m : is_mat n m (zeros2 n m).
Proof.
  apply is_mat_intro; [apply repeat_length|]. intros i Hi. unfold zeros2.
  rewrite (nth_indep _ [] (zeros m)) by (rewrite repeat_length; auto). rewrite nth_repeat. len.
Qed.

(** ** triangular numbers, exact arithmetic *)
Lemma is_integer_IZR z : is_integer (IZR z) = true.
Proof. unfold is_integer. rewrite Zfloor_IZR. now apply Reqb_iff. Qed.
Lemma is_integer_iff x : is_integer x = true <-> exists z, x = IZR z.
Proof.
  unfold is_integer. rewrite Reqb_iff. split; [eauto|]. intros (z & ->). now rewrite Zfloor_IZR.
Qed.
Lemma py_int_IZR z : py_int (IZR z) = z.
Proof. unfold py_int. destruct (Rleb 0 (IZR z)); [apply Zfloor_IZR|apply Zceil_IZR]. Qed.

Lemma sqrt_triangular n : 0 <= n -> sqrt (1 + 8 * (n * (n + 1) / 2)) = 2 * n + 1.
Proof.
  intros Hn. replace (1 + 8 * (n * (n + 1) / 2)) with ((2 * n + 1) * (2 * n + 1)) by field.
  apply sqrt_square. lra.
Qed.

Lemma is_triangular_iff x n :
  is_triangular_number x = (true, n) <-> (1 <= n)%Z /\ x = IZR n * (IZR n + 1) / 2.
Proof.
  unfold is_triangular_number. split.
  - destruct (negb (is_integer x) || Rltb x 1) eqn:E; [discriminate|].
    apply orb_false_iff in E as [_ E2]. apply Rltb_false in E2.
    intros H. injection H as H1 H2. apply is_integer_iff in H1 as (z & Hz).
    rewrite Hz, py_int_IZR in H2. subst z.
    assert (Hs : sqrt (1 + 8 * x) = 2 * IZR n + 1) by lra.
    assert (H3 : 3 <= sqrt (1 + 8 * x)).
    { rewrite <- (sqrt_square 3) by lra. apply sqrt_le_1_alt. lra. }
    assert (Hx : 1 + 8 * x = (2 * IZR n + 1) * (2 * IZR n + 1)).
    { rewrite <- Hs. symmetry. apply sqrt_sqrt. lra. }
    split; [|nra]. apply le_IZR. lra.
  - intros [Hn ->]. assert (1 <= IZR n) by (apply IZR_le in Hn; auto).
    rewrite sqrt_triangular by lra.
    assert (EZ : IZR n * (IZR n + 1) / 2 = IZR (n * (n + 1) / 2)).
    { assert (Hd : exists k, (n * (n + 1) = 2 * k)%Z).
      { destruct (Z.Even_or_Odd n) as [[k ->]|[k ->]]; [exists (k * (2 * k + 1))%Z|exists ((2 * k + 1) * (k + 1))%Z]; ring. }
      destruct Hd as [k Hk]. rewrite Hk, Z.mul_comm, Z.div_mul by lia.
      rewrite <- plus_IZR, <- mult_IZR, Hk, mult_IZR. field. }
    assert (Ei : is_integer (IZR n * (IZR n + 1) / 2) = true) by (rewrite EZ; apply is_integer_IZR).
    rewrite Ei. cbn [negb orb].
    assert (El : Rltb (IZR n * (IZR n + 1) / 2) 1 = false) by (apply Rltb_false; nra).
    rewrite El. replace (1 / 2 * (2 * IZR n + 1 - 1)) with (IZR n) by field.
    now rewrite is_integer_IZR, py_int_IZR.
Qed.

Lemma is_triangular_tri n : (1 <= n)%nat ->
  is_triangular_number (INR (tri n)) = (true, Z.of_nat n).
Proof.
  intros Hn. apply is_triangular_iff. split; [lia|].
  rewrite <- INR_IZR_INZ. pose proof (tri_double n) as H. apply (f_equal INR) in H.
  rewrite !mult_INR, plus_INR in H. cbn in H. change (INR 2) with 2 in H. change (INR 1) with 1 in H. lra.
Qed.

(** ** unvech *)
Lemma unvech_spec n (f : nat * nat -> R) : (1 <= n)%nat ->
  exists A, unvech (map f (triu_indices n 0)) = Ok A /\ is_mat n n A /\ symmetric n A /\
    forall i j, (i <= j)%nat -> (j < n)%nat -> entry A i j = f (i, j).
Proof.
  intros Hn. unfold unvech. rewrite map_length, length_triu, is_triangular_tri by auto.
  cbn [bind assert_]. rewrite Nat2Z.id.
  destruct (assign_spec n f (triu_indices n 0) (zeros2 n n)) as [H1 H2].
  { apply is_mat_zeros2. }
  { intros i j H. apply in_triu in H. lia. }
  set (A := assign (zeros2 n n) (triu_indices n 0) (map f (triu_indices n 0))) in *.
  set (g := fun ij : nat * nat => entry (transpose A) (fst ij) (snd ij)).
  destruct (assign_spec n g (tril_indices n (-1)) A) as [H3 H4].
  { auto. }
  { intros i j H. apply in_tril in H. lia. }
  set (B := assign A (tril_indices n (-1)) (map g (tril_indices n (-1)))) in *.
  exists B. split; auto. split; auto.
  assert (HB : forall i j, (i <= j)%nat -> (j < n)%nat -> entry B i j = f (i, j)).
  { intros i j Hi Hj. rewrite H4.
    destruct (in_dec pair_dec (i, j) (tril_indices n (-1))) as [H|_].
    - apply in_tril in H. lia.
    - rewrite H2. destruct (in_dec pair_dec (i, j) (triu_indices n 0)) as [_|H]; auto.
      exfalso. apply H. apply in_triu. lia. }
  assert (HL : forall i j, (i < j)%nat -> (j < n)%nat -> entry B j i = f (i, j)).
  { intros i j Hi Hj. rewrite H4.
    destruct (in_dec pair_dec (j, i) (tril_indices n (-1))) as [_|H].
    - unfold g. cbn [fst snd]. rewrite entry_transpose by (rewrite (is_mat_ncols _ _ _ H1); lia).
      rewrite H2. destruct (in_dec pair_dec (i, j) (triu_indices n 0)) as [_|H]; auto.
      exfalso. apply H. apply in_triu. lia.
    - exfalso. apply H. apply in_tril. lia. }
  split; auto. intros i j Hi Hj. destruct (Nat.lt_trichotomy i j) as [H|[->|H]]; auto.
  - rewrite HB, HL by lia. auto.
  - rewrite HL, HB by lia. auto.
Qed.

Lemma unvech_vech n A : (1 <= n)%nat -> is_mat n n A -> symmetric n A ->
  exists v, vech A 0 = Ok v /\ unvech v = Ok A.
Proof.
  intros Hn HA HS. unfold vech. rewrite (is_mat_length _ _ _ HA).
  pose proof HA as HA'. apply is_matb_iff in HA'. rewrite HA'. cbn [bind assert_].
  eexists; split; [reflexivity|].
  destruct (unvech_spec n (fun ij => entry A (fst ij) (snd ij)) Hn) as (B & E & HB & HSB & HE).
  rewrite E. f_equal. apply (mat_ext n n); auto. intros i j Hi Hj.
  destruct (Nat.le_ge_cases i j) as [H|H].
  - rewrite HE by lia. reflexivity.
  - rewrite HSB, HE by lia. cbn. apply HS; auto.
Qed.

Lemma list_as_map {A} (idx : list (nat * nat)) (l : list A) (d : A) : NoDup idx -> length l = length idx ->
  exists f, l = map f idx.
Proof.
  revert l; induction idx as [|x idx IH]; intros [|a l] HN Hl; try discriminate.
  - exists (fun _ => d). reflexivity.
  - inversion HN; subst. destruct (IH l) as [f ->]; auto.
    exists (fun y => if pair_dec y x then a else f y). cbn.
    destruct (pair_dec x x); [|congruence]. f_equal. apply map_ext_in. intros y Hy.
    destruct (pair_dec y x); congruence.
Qed.

Lemma vech_unvech n v : (1 <= n)%nat -> length v = tri n ->
  exists A, unvech v = Ok A /\ is_mat n n A /\ symmetric n A /\ vech A 0 = Ok v.
Proof.
  intros Hn Hv. destruct (list_as_map (triu_indices n 0) v 0) as [f ->].
  { apply NoDup_triu. }
  { now rewrite length_triu. }
  destruct (unvech_spec n f Hn) as (A & E & HA & HS & HE).
  exists A. repeat (split; auto). unfold vech. rewrite (is_mat_length _ _ _ HA).
  apply is_matb_iff in HA. rewrite HA. cbn [bind assert_]. f_equal. apply map_ext_in.
  intros [i j] Hij. apply in_triu in Hij. cbn [fst snd]. apply HE; lia.
Qed.

Lemma unvech_raise v : (forall n, (1 <= n)%nat -> length v <> tri n) ->
  unvech v = Raise AssertionError.
Proof.
  intros H. unfold unvech. destruct (is_triangular_number (INR (length v))) as [[] z] eqn:E; auto.
  exfalso. apply is_triangular_iff in E as [Hz E].
  apply (H (Z.to_nat z)); [lia|].
  assert (Ez : IZR z = INR (Z.to_nat z)) by (rewrite INR_IZR_INZ, Z2Nat.id; auto; lia).
  rewrite Ez in E. set (n := Z.to_nat z) in *. apply INR_eq. rewrite E.
  pose proof (tri_double n) as T. apply (f_equal INR) in T.
  rewrite !mult_INR, plus_INR in T. change (INR 2) with 2 in T. change (INR 1) with 1 in T. lra.
Qed.

(** ** evaluation times, exact arithmetic *)
Lemma evaluation_times_spec duration step : 0 < duration -> 0 < step ->
  exists n ts, compute_evaluation_times duration step = Ok (n, ts) /\ (1 <= n)%Z /\
    length ts = Z.to_nat n /\
    (forall k, (k < length ts)%nat -> nth k ts 0 = INR k * step /\ 0 <= nth k ts 0 < duration) /\
    duration <= IZR n * step.
Proof.
  intros Hd Hs. unfold compute_evaluation_times.
  rewrite (proj2 (Rltb_iff 0 duration)), (proj2 (Rltb_iff 0 step)) by auto. cbn [bind assert_].
  do 2 eexists. split; [reflexivity|].
  assert (Hq : 0 < duration / step) by (apply Rdiv_lt_0_compat; auto).
  pose proof (Zceil_ub (duration / step)) as Hub.
  assert (Hn : (1 <= Zceil (duration / step))%Z).
  { assert (0 < Zceil (duration / step))%Z; [|lia]. apply lt_IZR. lra. }
  split; auto. rewrite map_length, seq_length. split; auto. split.
  - intros k Hk. rewrite nth_map_seq by auto. split; [ring|].
    assert (INR k < duration / step).
    { destruct (Rlt_or_le (INR k) (duration / step)) as [|Hge]; auto. exfalso.
      assert (Zceil (duration / step) <= Z.of_nat k)%Z; [|lia].
      apply Zceil_glb. now rewrite <- INR_IZR_INZ. }
    pose proof (pos_INR k). split; [nra|].
    replace duration with (step * (duration / step)) by (field; lra). nra.
  - apply (Rmult_le_compat_r step) in Hub; [|lra].
    replace (duration / step * step) with duration in Hub by (field; lra). exact Hub.
Qed.
Lemma evaluation_times_raise duration step : duration <= 0 \/ step <= 0 ->
  compute_evaluation_times duration step = Raise AssertionError.
Proof.
  intros H. unfold compute_evaluation_times.
  destruct (Rltb 0 duration) eqn:E1; cbn; auto. destruct (Rltb 0 step) eqn:E2; cbn; auto.
  apply Rltb_iff in E1, E2. lra.
Qed.

(** ** box vertices *)
Lemma sign_combos_length n : length (sign_combos n) = (2 ^ n)%nat.
Proof. induction n as [|n IH]; cbn; auto. rewrite app_length, !map_length, IH. lia. Qed.
Lemma in_sign_combos n c : In c (sign_combos n) <->
  length c = n /\ Forall (fun s => s = 1 \/ s = -1) c.
Proof.
  revert c; induction n as [|n IH]; intros c; cbn.
  - split.
    + intros [<-|[]]. auto.
    + intros [H _]. destruct c; [auto|discriminate].
  - rewrite in_app_iff, !in_map_iff. split.
    + intros [(d & <- & Hd)|(d & <- & Hd)]; apply IH in Hd as [Hl HF]; cbn; auto.
    + intros [Hl HF]. destruct c as [|a c]; [discriminate|]. inversion HF; subst.
      destruct H1 as [->| ->]; [left|right]; exists c; split; auto; apply IH; auto.
Qed.
(** x is a corner: every coordinate is plus or minus the half extent *)
Lemma box_vertices_length h : length (box_vertices h) = (2 ^ length h)%nat.
Proof. unfold box_vertices. now rewrite map_length, sign_combos_length. Qed.
Lemma in_box_vertices h x : In x (box_vertices h) <-> is_corner h x.
Proof.
  unfold box_vertices, is_corner. rewrite in_map_iff. split.
  - intros (c & <- & Hc). apply in_sign_combos in Hc as [Hl HF]. split; [len|].
    intros i Hi. rewrite nth_vmul by auto. rewrite Forall_forall in HF.
    destruct (HF (nth i c 0)) as [->| ->]; [apply nth_In; lia|left|right]; ring.
  - revert x; induction h as [|a h IH]; intros [|b x] [Hl H]; try discriminate.
    + exists []. split; auto. left; auto.
    + destruct (IH x) as (c & E & Hc).
      { split; [cbn in Hl; lia|]. intros i Hi. apply (H (S i)). cbn; lia. }
      apply in_sign_combos in Hc as [Hcl HcF].
      destruct (H 0%nat) as [H0|H0]; [cbn; lia| |]; cbn in H0; subst b.
      * exists (1 :: c). split; [cbn; rewrite <- E; f_equal; ring|]. apply in_sign_combos; cbn; auto.
      * exists (-1 :: c). split; [cbn; rewrite <- E; f_equal; ring|]. apply in_sign_combos; cbn; auto.
Qed.

(** the hull of the corners is the box *)
Lemma combine_rows_length n w V : length (combine_rows n w V) = n.
Proof. unfold combine_rows. now rewrite map_length, seq_length. Qed.
Lemma nth_combine_rows n w V j : (j < n)%nat ->
  nth j (combine_rows n w V) 0 = lsum (map2 (fun c v => c * nth j v 0) w V).
Proof. intros H. unfold combine_rows. now rewrite nth_map_seq. Qed.

Lemma weighted_le w V (g : vec -> R) M : length w = length V -> weights w ->
  (forall v, In v V -> g v <= M) -> lsum (map2 (fun c v => c * g v) w V) <= M.
Proof.
  intros Hl [Hw Hs] HV.
  enough (lsum (map2 (fun c v => c * g v) w V) <= lsum w * M) by (rewrite Hs in H; lra).
  clear Hs. revert V Hl HV; induction w as [|a w IH]; intros [|v V] Hl HV; try discriminate; cbn.
  - lra.
  - assert (a * g v <= a * M) by (apply Rmult_le_compat_l; [apply Hw|apply HV]; left; auto).
    assert (lsum (map2 (fun c v => c * g v) w V) <= lsum w * M).
    { apply IH; [intros; apply Hw; right; auto|cbn in Hl; lia|intros; apply HV; right; auto]. }
    unfold lsum in *. lra.
Qed.
Lemma weighted_ge w V (g : vec -> R) M : length w = length V -> weights w ->
  (forall v, In v V -> M <= g v) -> M <= lsum (map2 (fun c v => c * g v) w V).
Proof.
  intros Hl Hw HV.
  assert (H : lsum (map2 (fun c v => c * - g v) w V) <= - M).
  { apply (weighted_le w V (fun v => - g v)); auto. intros v Hv. specialize (HV v Hv). lra. }
  replace (lsum (map2 (fun c v => c * - g v) w V)) with (- lsum (map2 (fun c v => c * g v) w V)) in H; [lra|].
  clear. revert V; induction w as [|a w IH]; intros [|v V]; cbn; try ring.
  specialize (IH V). unfold lsum in *. rewrite <- IH. ring.
Qed.

Lemma lsum_map2_app {A} (f : R -> A -> R) w1 w2 V1 V2 : length w1 = length V1 ->
  lsum (map2 f (w1 ++ w2) (V1 ++ V2)) = lsum (map2 f w1 V1) + lsum (map2 f w2 V2).
Proof. intros H. rewrite map2_app by auto. apply lsum_app. Qed.
Lemma lsum_map2_scal {A} (f : A -> R) k w V :
  lsum (map2 (fun c v => c * f v) (map (Rmult k) w) V) = k * lsum (map2 (fun c v => c * f v) w V).
Proof.
  revert V; induction w as [|a w IH]; intros [|v V]; cbn; try ring.
  specialize (IH V). unfold lsum in *. rewrite IH. ring.
Qed.
Lemma weights_mix w1 w2 t : 0 <= t <= 1 -> weights w1 -> weights w2 ->
  weights (map (Rmult t) w1 ++ map (Rmult (1 - t)) w2).
Proof.
  intros Ht [H1 S1] [H2 S2]. split.
  - intros x Hx. apply in_app_iff in Hx as [Hx|Hx]; apply in_map_iff in Hx as (y & <- & Hy);
      apply Rmult_le_pos; auto; lra.
  - rewrite lsum_app. pose proof (lsum_map_scal (fun x => x) t w1) as E1.
    pose proof (lsum_map_scal (fun x => x) (1 - t) w2) as E2. rewrite map_id in E1, E2.
    change (map (Rmult t) w1) with (map (fun x => t * x) w1).
    change (map (Rmult (1 - t)) w2) with (map (fun x => (1 - t) * x) w2).
    rewrite E1, E2, S1, S2. ring.
Qed.

Lemma box_vertices_cons a h : box_vertices (a :: h) =
  map (cons a) (box_vertices h) ++ map (cons (- a)) (box_vertices h).
Proof.
  unfold box_vertices. cbn [length sign_combos]. rewrite map_app, !map_map. f_equal.
  - apply map_ext. intros c. cbn. f_equal. ring.
  - apply map_ext. intros c. cbn. f_equal. ring.
Qed.

Lemma hull_mix n V1 V2 p1 p2 t : 0 <= t <= 1 -> in_hull n V1 p1 -> in_hull n V2 p2 ->
  in_hull n (V1 ++ V2) (vadd (vscale t p1) (vscale (1 - t) p2)).
Proof.
  intros Ht (w1 & L1 & W1 & ->) (w2 & L2 & W2 & ->).
  exists (map (Rmult t) w1 ++ map (Rmult (1 - t)) w2). split; [|split].
  - rewrite !app_length, !map_length. lia.
  - now apply weights_mix.
  - apply (vec_ext n).
    + rewrite vadd_length; rewrite !vscale_length, !combine_rows_length; auto.
    + apply combine_rows_length.
    + intros j Hj. rewrite nth_vadd by (rewrite !vscale_length, !combine_rows_length; auto).
      rewrite !nth_vscale, !nth_combine_rows by auto.
      rewrite lsum_map2_app by (rewrite map_length; auto).
      rewrite !(lsum_map2_scal (fun v => nth j v 0)). reflexivity.
Qed.

Lemma hull_cons n a V p : in_hull n V p -> in_hull (S n) (map (cons a) V) (a :: p).
Proof.
  intros (w & L & W & ->). exists w. split; [now rewrite map_length|]. split; auto.
  apply (vec_ext (S n)).
  - cbn. now rewrite combine_rows_length.
  - apply combine_rows_length.
  - intros j Hj. rewrite nth_combine_rows by auto. rewrite map2_map_r. destruct j as [|j]; cbn [nth].
    + destruct W as [_ S]. transitivity (a * lsum w); [rewrite S; ring|]. clear - L.
      revert V L; induction w as [|c w IH]; intros [|v V] L; try discriminate; cbn; [ring|].
      specialize (IH V). unfold lsum in IH. rewrite <- IH by (cbn in L; lia). ring.
    + rewrite nth_combine_rows by lia. reflexivity.
Qed.

Lemma box_hull h x : length x = length h -> (forall a, In a h -> 0 <= a) ->
  ((forall i, (i < length h)%nat -> Rabs (nth i x 0) <= nth i h 0) <->
   in_hull (length h) (box_vertices h) x).
Proof.
  intros Hx Hh. split.
  - revert x Hx; induction h as [|a h IH]; intros [|b x] Hx H; try discriminate.
    + exists [1]. split; auto. split; [split; [intros ? [<-|[]]; lra|cbn; ring]|reflexivity].
    + assert (Ha : 0 <= a) by (apply Hh; left; auto).
      assert (Hb : Rabs b <= a) by (apply (H 0%nat); cbn; lia).
      assert (IHx : in_hull (length h) (box_vertices h) x).
      { apply IH; [intros; apply Hh; right; auto|cbn in Hx; lia|].
        intros i Hi. apply (H (S i)). cbn; lia. }
      rewrite box_vertices_cons. cbn [length].
      destruct (Req_dec a 0) as [Ea|Ea].
      * assert (b = 0). { subst a. destruct (Req_dec b 0); auto.
          pose proof (Rabs_pos_lt b H0). lra. }
        subst a b. replace (0 :: x) with (vadd (vscale 1 (0 :: x)) (vscale (1 - 1) (- 0 :: x))).
        { apply hull_mix; [lra| |]; apply hull_cons; auto. }
        cbn. f_equal; [ring|]. vext (length x). change (map2 Rplus ?u ?v) with (vadd u v).
        rewrite nth_vadd by (rewrite !map_length; auto).
        change (map (Rmult 1) x) with (vscale 1 x). change (map (Rmult (1 - 1)) x) with (vscale (1 - 1) x).
        vnth. ring.
      * set (t := (b + a) / (2 * a)).
        apply Rabs_le_inv in Hb.
        assert (Ht : 0 <= t <= 1).
        { unfold t. split.
          - apply Rmult_le_pos; [lra|]. left. apply Rinv_0_lt_compat. lra.
          - apply (Rmult_le_reg_r (2 * a)); [lra|]. unfold Rdiv. rewrite Rmult_assoc, Rinv_l by lra. lra. }
        replace (b :: x) with (vadd (vscale t (a :: x)) (vscale (1 - t) (- a :: x))).
        { apply hull_mix; [auto| |]; apply hull_cons; auto. }
        cbn. f_equal; [unfold t; field; lra|]. 
        change (vadd (vscale t x) (vscale (1 - t) x) = x). vring (length x).
  - intros (w & L & W & ->) i Hi. rewrite nth_combine_rows by auto. apply Rabs_le. split.
    + apply (weighted_ge w _ (fun v => nth i v 0)); auto. intros v Hv. apply in_box_vertices in Hv as [_ Hv].
      assert (0 <= nth i h 0) by (apply Hh, nth_In; auto). destruct (Hv i Hi) as [->| ->]; lra.
    + apply (weighted_le w _ (fun v => nth i v 0)); auto. intros v Hv. apply in_box_vertices in Hv as [_ Hv].
      assert (0 <= nth i h 0) by (apply Hh, nth_In; auto). destruct (Hv i Hi) as [->| ->]; lra.
Qed.
