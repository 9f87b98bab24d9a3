(** C44: polynomials as tables of coefficients. *)
From Verif Require Import Base.Vec Base.VecFacts Spec.Basic Spec.Moments Model.Util Model.Constraint Model.Moment Proofs.CylP.

Lemma idx_eqb_eq a b : idx_eqb a b = true <-> a = b.
Proof.
  revert b; induction a as [|x a IH]; intros [|y b]; cbn; try easy. rewrite andb_true_iff, Nat.eqb_eq, IH. split; [intros [-> ->]; auto|intro H; injection H; auto].
Qed.
Lemma idx_eqb_refl a : idx_eqb a a = true. Proof. now apply idx_eqb_eq. Qed.
Lemma idx_eqb_neq a b : a <> b -> idx_eqb a b = false.
Proof. intro H. destruct (idx_eqb a b) eqn:E; auto. apply idx_eqb_eq in E. easy. Qed.

(** dictionaries *)
Lemma dict_set_fresh (k : idx) (v : R) m : ~ In k (map fst m) -> dict_set idx_eqb k v m = m ++ [(k, v)].
Proof.
  induction m as [|[k' v'] m IH]; cbn; auto. intro H. rewrite idx_eqb_neq by (intro; subst; tauto). rewrite IH by tauto. reflexivity.
Qed.
Lemma dict_get_none (k : idx) (m : list (idx * R)) : dict_get idx_eqb k m = None <-> ~ In k (map fst m).
Proof.
  induction m as [|[k' v'] m IH]; cbn; [easy|]. destruct (idx_eqb k k') eqn:E.
  - apply idx_eqb_eq in E as ->. split; [easy|tauto].
  - rewrite IH. split; [|tauto]. intros H [->|H1]; [|tauto]. rewrite idx_eqb_refl in E. easy.
Qed.
Lemma dict_get_in (k : idx) (v : R) m : NoDup (map fst m) -> (dict_get idx_eqb k m = Some v <-> In (k, v) m).
Proof.
  induction m as [|[k' v'] m IH]; cbn; [easy|]. intro ND. inversion ND as [|? ? H1 H2]; subst. destruct (idx_eqb k k') eqn:E.
  - apply idx_eqb_eq in E as ->. split; [intro H; injection H as ->; auto|]. intros [H|H]; [injection H as ->; auto|].
    exfalso. apply H1. apply (in_map fst) in H. exact H.
  - rewrite IH by auto. split; auto. intros [H|H]; auto. injection H as -> ->. rewrite idx_eqb_refl in E. easy.
Qed.
Lemma dict_set_keys (k : idx) (v : R) m a : In a (map fst (dict_set idx_eqb k v m)) <-> a = k \/ In a (map fst m).
Proof.
  induction m as [|[k' v'] m IH]; cbn; [intuition|]. destruct (idx_eqb k k') eqn:E; cbn.
  - apply idx_eqb_eq in E as ->. intuition; subst; auto.
  - rewrite IH. intuition.
Qed.
Lemma dict_set_nodup (k : idx) (v : R) m : NoDup (map fst m) -> NoDup (map fst (dict_set idx_eqb k v m)).
Proof.
  induction m as [|[k' v'] m IH]; cbn; intro H; [constructor; [easy|constructor]|]. inversion H; subst. destruct (idx_eqb k k') eqn:E; cbn.
  - constructor; auto.
  - constructor; auto. rewrite dict_set_keys. intros [->|H']; [|auto]. rewrite idx_eqb_refl in E. easy.
Qed.
Definition getd (k : idx) (m : pol) : R := match dict_get idx_eqb k m with Some v => v | None => 0 end.
Lemma peval_cons k v p x : peval ((k, v) :: p) x = v * mono x k + peval p x. Proof. reflexivity. Qed.
Lemma peval_app p q x : peval (p ++ q) x = peval p x + peval q x.
Proof. induction p as [|[k v] p IH]; cbn [app]; [unfold peval; cbn; lra|]. rewrite !peval_cons, IH. lra. Qed.
Lemma peval_set k v m x : peval (dict_set idx_eqb k v m) x = peval m x + (v - getd k m) * mono x k.
Proof.
  unfold getd. induction m as [|[k' v'] m IH]; cbn [dict_set dict_get].
  - rewrite peval_cons. unfold peval; cbn. lra.
  - destruct (idx_eqb k k') eqn:E; rewrite !peval_cons.
    + apply idx_eqb_eq in E as ->. lra.
    + rewrite IH. lra.
Qed.

(** the constructor *)
Lemma pol_init_keys c tol m0 : let f := fun m kv => if isclose 0 tol (snd kv) 0 then m else dict_set idx_eqb (fst kv) (snd kv) m in
  NoDup (map fst m0) -> NoDup (map fst (fold_left f c m0)) /\
  forall a, In a (map fst (fold_left f c m0)) -> In a (map fst m0) \/ In a (map fst c).
Proof.
  intro f. revert m0. induction c as [|[k v] c IH]; intros m0 H; cbn [fold_left]; [split; auto|].
  specialize (IH (f m0 (k, v))). unfold f in IH at 1. cbn [fst snd] in IH.
  assert (ND : NoDup (map fst (f m0 (k, v)))) by (unfold f; cbn; destruct isclose; auto using dict_set_nodup).
  specialize (IH ND) as [H1 H2]. split; [exact H1|]. intros a Ha. apply H2 in Ha as [Ha|Ha]; [|cbn; auto].
  unfold f in Ha. cbn in Ha. destruct isclose; [auto|]. apply dict_set_keys in Ha as [->|Ha]; cbn; auto.
Qed.
Lemma pol_init_ok n c tol : (forall kv, In kv c -> length (fst kv) = n) -> pol_ok n (pol_init c tol).
Proof.
  intro H. destruct (pol_init_keys c tol [] ltac:(constructor)) as [H1 H2]. split; [exact H1|].
  intros [k v] Hk. apply (in_map fst) in Hk. apply H2 in Hk as [[]|Hk]. apply in_map_iff in Hk as ([k' v'] & <- & Hk). cbn. exact (H _ Hk).
Qed.
Lemma dict_set_vals (k : idx) (v : R) m kv : In kv (dict_set idx_eqb k v m) -> snd kv = v \/ In kv m.
Proof.
  induction m as [|[k' v'] m IH]; cbn; [intros [<-|[]]; auto|]. destruct idx_eqb; cbn; [intros [<-|H]; auto|]. intros [<-|H]; auto. apply IH in H as [H|H]; auto.
Qed.
(** what is stored is larger than tol *)
Lemma pol_init_stored c tol kv : In kv (pol_init c tol) -> tol < Rabs (snd kv).
Proof.
  unfold pol_init. assert (G : forall m0, (forall kv, In kv m0 -> tol < Rabs (snd kv)) ->
    forall kv, In kv (fold_left (fun m kv => if isclose 0 tol (snd kv) 0 then m else dict_set idx_eqb (fst kv) (snd kv) m) c m0) -> tol < Rabs (snd kv)).
  { induction c as [|[k v] c IH]; intros m0 H0 kv'; cbn [fold_left]; [apply H0|]. apply IH. intros kv'' H. cbn in H.
    destruct (isclose 0 tol v 0) eqn:E; [auto|]. apply dict_set_vals in H as [->|H]; auto.
    unfold isclose, Rleb in E. destruct Rle_dec as [|N] in E; [easy|]. rewrite Rminus_0_r, Rabs_R0 in N. lra. }
  apply G. intros ? [].
Qed.
Lemma pol_init_filter c tol : NoDup (map fst c) -> pol_init c tol = filter (fun kv => negb (isclose 0 tol (snd kv) 0)) c.
Proof.
  unfold pol_init. assert (G : forall m0, NoDup (map fst (m0 ++ c)) ->
    fold_left (fun m kv => if isclose 0 tol (snd kv) 0 then m else dict_set idx_eqb (fst kv) (snd kv) m) c m0 =
    m0 ++ filter (fun kv => negb (isclose 0 tol (snd kv) 0)) c).
  { induction c as [|[k v] c IH]; intros m0 H; cbn [fold_left filter snd fst]; [now rewrite app_nil_r|].
    rewrite map_app in H. cbn in H. destruct (isclose 0 tol v 0) eqn:E; cbn [negb].
    - apply IH. rewrite map_app. apply NoDup_remove_1 in H. exact H.
    - rewrite dict_set_fresh by (apply NoDup_remove_2 in H; rewrite in_app_iff in H; tauto).
      rewrite IH, <- app_assoc; [reflexivity|]. rewrite <- app_assoc, map_app. exact H. }
  intro H. rewrite G by exact H. reflexivity.
Qed.
Lemma isclose_zero v : isclose 0 0 v 0 = true <-> v = 0.
Proof.
  unfold isclose, Rleb. destruct Rle_dec as [H|H]; rewrite Rabs_R0, Rminus_0_r in H.
  - split; [intros _|easy]. pose proof (Rabs_pos v). destruct (Req_dec v 0) as [|N]; auto. apply Rabs_pos_lt in N. lra.
  - split; [easy|intros ->]. rewrite Rabs_R0 in H. lra.
Qed.
Lemma pol_init_peval c x : NoDup (map fst c) -> peval (pol_init c 0) x = peval c x.
Proof.
  intro H. rewrite pol_init_filter by exact H. clear H. induction c as [|[k v] c IH]; [reflexivity|]. cbn [filter snd].
  destruct (isclose 0 0 v 0) eqn:E; cbn [negb]; rewrite !peval_cons, IH; [|reflexivity]. apply isclose_zero in E as ->. lra.
Qed.

(** evaluation *)
Lemma lprod_mono x a : length x = length a -> lprod (map2 pow x a) = mono x a.
Proof. revert a; induction x as [|t x IH]; intros [|e a] H; try easy. cbn. f_equal. apply IH. now injection H. Qed.
Lemma pol_evaluate_peval n p x : (forall kv, In kv p -> length (fst kv) = n) -> length x = n -> pol_evaluate p x = Ok (peval p x).
Proof.
  intros H Lx. unfold pol_evaluate.
  assert (E : mapM (fun kv => let* m := np_pow x (fst kv) in Ok (snd kv * lprod m)) p = Ok (map (fun kv => snd kv * mono x (fst kv)) p)).
  { clear - H Lx. induction p as [|[k v] p IH]; [reflexivity|]. cbn [mapM fst snd].
    assert (Hk : length k = n) by (apply (H (k, v)); now left). unfold np_pow at 1. rewrite Lx, Hk, Nat.eqb_refl. cbn [bind].
    rewrite lprod_mono by congruence. rewrite IH by (intros; apply H; now right). reflexivity. }
  rewrite E. reflexivity.
Qed.
Lemma evaluate_some n p x : pol_ok n p -> length x = n -> pol_evaluate p x = Ok (peval p x).
Proof. intros [_ H]. now apply pol_evaluate_peval. Qed.

(** sums *)
Lemma pol_add_fold q c x n : pol_ok n c -> (forall kv, In kv q -> length (fst kv) = n) ->
  let c' := fold_left (fun c kv =>
    match dict_get idx_eqb (fst kv) c with
    | Some v => dict_set idx_eqb (fst kv) (v + snd kv) c
    | None => dict_set idx_eqb (fst kv) (snd kv) c
    end) q c in pol_ok n c' /\ peval c' x = peval c x + peval q x.
Proof.
  revert c. induction q as [|[k v] q IH]; intros c [H1 H2] Hq; cbn [fold_left fst snd]; [split; [split; auto|unfold peval at 3; cbn; lra]|].
  set (c1 := match dict_get idx_eqb k c with Some w => dict_set idx_eqb k (w + v) c | None => dict_set idx_eqb k v c end).
  assert (K : forall w, pol_ok n (dict_set idx_eqb k w c)).
  { intro w. split; [now apply dict_set_nodup|]. intros [k' v'] Hin. apply (in_map fst) in Hin. apply dict_set_keys in Hin as [Hin|Hin]; cbn in Hin.
    - subst. apply (Hq (k, v)). now left.
    - apply in_map_iff in Hin as (kv & E & Hin). cbn. rewrite <- E. auto. }
  assert (O : pol_ok n c1) by (unfold c1; destruct dict_get; apply K).
  assert (E : peval c1 x = peval c x + v * mono x k) by (unfold c1; pose proof (peval_set k) as P; unfold getd in P; destruct (dict_get idx_eqb k c) eqn:G; rewrite P, G; lra).
  destruct (IH c1 O) as [H3 H4]; [intros; apply Hq; now right|]. split; [exact H3|]. rewrite H4, E, peval_cons. lra.
Qed.
Lemma pol_add_evaluate n p q x : pol_ok n p -> pol_ok n q -> length x = n ->
  pol_ok n (pol_add p q) /\
  exists a b, pol_evaluate p x = Ok a /\ pol_evaluate q x = Ok b /\ pol_evaluate (pol_add p q) x = Ok (a + b).
Proof.
  intros Hp Hq Lx. destruct (pol_add_fold q p x n Hp (proj2 Hq)) as [H1 H2].
  assert (O : pol_ok n (pol_add p q)) by (apply pol_init_ok, H1). split; [exact O|].
  exists (peval p x), (peval q x). repeat split; try (apply (evaluate_some n); auto).
  rewrite (evaluate_some n) by auto. f_equal. unfold pol_add. rewrite pol_init_peval by apply H1. exact H2.
Qed.

(** multiplication by a monomial *)
Lemma mono_add x a b : length a = length x -> length b = length x -> mono x (map2 Nat.add a b) = mono x a * mono x b.
Proof. revert a b; induction x as [|t x IH]; intros [|u a] [|v b] Ha Hb; try easy; cbn; [lra|]. rewrite IH by (injection Ha; injection Hb; auto). rewrite pow_add. lra. Qed.
Lemma map2_add_inj (a b c : idx) : length a = length c -> length b = length c -> map2 Nat.add a c = map2 Nat.add b c -> a = b.
Proof. revert a b; induction c as [|z c IH]; intros [|x a] [|y b] Ha Hb H; try easy. cbn in H. injection H as H1 H2. f_equal; [lia|]. apply IH; auto. Qed.
Lemma localize_unfold n p i : (forall kv, In kv p -> length (fst kv) = n) -> length i = n ->
  pol_localize p (Index i) = Ok (pol_init (fold_left (fun c kv => dict_set idx_eqb (fst kv) (snd kv) c)
    (map (fun kv => (map2 Nat.add (fst kv) i, snd kv)) p) []) 0).
Proof.
  intros H Hi. unfold pol_localize.
  assert (E : mapM (fun kv => let* k := idx_add (fst kv) (Index i) in Ok (k, snd kv)) p = Ok (map (fun kv => (map2 Nat.add (fst kv) i, snd kv)) p)).
  { induction p as [|[k v] p IH]; [reflexivity|]. cbn [mapM fst snd map]. unfold idx_add at 1.
    pose proof (H (k, v) (or_introl eq_refl)) as Hk. cbn in Hk. rewrite Hi, Hk, Nat.eqb_refl. cbn [assert_ bind fst]. rewrite IH by (intros; apply H; now right). reflexivity. }
  rewrite E. reflexivity.
Qed.
Lemma fold_set_nodup (c : pol) : NoDup (map fst c) -> fold_left (fun c kv => dict_set idx_eqb (fst kv) (snd kv) c) c [] = c.
Proof.
  assert (G : forall m0, NoDup (map fst (m0 ++ c)) -> fold_left (fun c kv => dict_set idx_eqb (fst kv) (snd kv) c) c m0 = m0 ++ c).
  { induction c as [|[k v] c IH]; intros m0 H; cbn [fold_left fst snd]; [now rewrite app_nil_r|].
    rewrite map_app in H. cbn in H. rewrite dict_set_fresh by (apply NoDup_remove_2 in H; rewrite in_app_iff in H; tauto).
    rewrite IH, <- app_assoc; [reflexivity|]. rewrite <- app_assoc, map_app. exact H. }
  apply (G []).
Qed.
Lemma shift_ok n p i : pol_ok n p -> length i = n -> pol_ok n (map (fun kv => (map2 Nat.add (fst kv) i, snd kv)) p).
Proof.
  intros [H1 H2] Hi. split.
  - clear - H1 H2 Hi. induction p as [|[k v] p IH]; [constructor|]. cbn in *. inversion H1; subst. constructor; [|apply IH; auto].
    rewrite map_map. intro H. apply in_map_iff in H as ([k' v'] & E & H). cbn in E. apply H3. apply in_map_iff. exists (k', v'). split; auto. cbn.
    apply map2_add_inj in E; auto; [apply (H2 (k', v')); auto|apply (H2 (k, v)); auto].
  - intros kv H. apply in_map_iff in H as (kv' & <- & H). cbn. rewrite map2_length, (H2 _ H), Hi. lia.
Qed.
Lemma localize_some n p i : pol_ok n p -> length i = n ->
  exists q, pol_localize p (Index i) = Ok q /\ pol_ok n q /\ forall x, length x = n -> peval q x = mono x i * peval p x.
Proof.
  intros Hp Hi. rewrite (localize_unfold n) by (auto; apply Hp). pose proof (shift_ok n p i Hp Hi) as S.
  rewrite fold_set_nodup by apply S. eexists. split; [reflexivity|]. split; [apply pol_init_ok, S|]. intros x Lx.
  rewrite pol_init_peval by apply S. destruct Hp as [_ H]. clear S. induction p as [|[k v] p IH]; [unfold peval; cbn; lra|].
  cbn [map fst snd]. rewrite !peval_cons, IH by (intros; apply H; now right). rewrite mono_add by (rewrite ?Lx; auto; apply (H (k, v)); now left). lra.
Qed.
Lemma localize_evaluate n p i x : pol_ok n p -> length i = n -> length x = n ->
  exists q a, pol_localize p (Index i) = Ok q /\ pol_ok n q /\ pol_evaluate p x = Ok a /\ pol_evaluate q x = Ok (mono x i * a).
Proof.
  intros Hp Hi Lx. destruct (localize_some n p i Hp Hi) as (q & E & O & F). exists q, (peval p x). split; [exact E|]. split; [exact O|].
  split; [apply (evaluate_some n); auto|]. rewrite (evaluate_some n) by auto. f_equal. auto.
Qed.
Lemma localize_mismatch p k v i : In (k, v) p -> length i <> length k -> pol_localize p (Index i) = Raise AssertionError.
Proof.
  unfold pol_localize. induction p as [|[k' v'] p IH]; [easy|]. cbn [mapM fst snd]. intros H N.
  destruct (Nat.eqb (length i) (length k')) eqn:E.
  - apply Nat.eqb_eq in E. assert (H' : In (k, v) p) by (destruct H as [H|H]; [injection H as -> ->; easy|auto]).
    unfold idx_add at 1. rewrite E, Nat.eqb_refl. cbn [assert_ bind]. specialize (IH H' N).
    destruct (mapM _ p); [discriminate IH| |discriminate IH]. cbn in *. congruence.
  - unfold idx_add at 1. rewrite E. reflexivity.
Qed.

(** affine functions *)
Lemma unit_idx_length n i : length (unit_idx n i) = n.
Proof. unfold unit_idx. assert (G : forall (l : idx) i v, length (set_nth l i v) = length l) by (induction l as [|a l IH]; intros [|j] v; cbn; auto). rewrite G. apply repeat_length. Qed.
Lemma unit_S n i : unit_idx (S n) (S i) = 0%nat :: unit_idx n i. Proof. reflexivity. Qed.
Lemma unit_0 n : unit_idx (S n) 0 = 1%nat :: repeat 0%nat n. Proof. reflexivity. Qed.
Lemma mono_zero x n : mono x (repeat 0%nat n) = 1.
Proof. revert n; induction x as [|t x IH]; intros [|n]; cbn; auto. rewrite IH. lra. Qed.
Lemma mono_unit x i : (i < length x)%nat -> mono x (unit_idx (length x) i) = nth i x 0.
Proof.
  revert i; induction x as [|t x IH]; intros i H; cbn in H; [lia|]. destruct i as [|i].
  - cbn [length]. rewrite unit_0. cbn. rewrite mono_zero. lra.
  - cbn [length]. rewrite unit_S. cbn. rewrite IH by lia. lra.
Qed.
Lemma nth_unit n i j : (i < n)%nat -> nth j (unit_idx n i) 0%nat = if Nat.eqb j i then 1%nat else 0%nat.
Proof.
  revert i j; induction n as [|n IH]; intros i j H; [lia|]. destruct i as [|i].
  - rewrite unit_0. destruct j; cbn; auto. apply nth_repeat.
  - rewrite unit_S. destruct j; cbn; auto. apply IH. lia.
Qed.
Lemma unit_inj n i j : (i < n)%nat -> (j < n)%nat -> unit_idx n i = unit_idx n j -> i = j.
Proof. intros Hi Hj E. pose proof (nth_unit n i i Hi) as H. rewrite E, nth_unit, Nat.eqb_refl in H by auto. destruct (Nat.eqb i j) eqn:E'; [now apply Nat.eqb_eq|easy]. Qed.
Lemma unit_nonzero n i : (i < n)%nat -> unit_idx n i <> repeat 0%nat n.
Proof. intros Hi E. pose proof (nth_unit n i i Hi) as H. rewrite E, nth_repeat, Nat.eqb_refl in H. easy. Qed.
Lemma affine_table a b : let n := length a in
  fold_left (fun c i => dict_set idx_eqb (unit_idx n i) (- nth i a 0) c) (seq 0 n) (dict_set idx_eqb (repeat 0%nat n) b []) =
  (repeat 0%nat n, b) :: map (fun i => (unit_idx n i, - nth i a 0)) (seq 0 n).
Proof.
  intro n. cbn [dict_set].
  assert (G : forall k, (k <= n)%nat -> fold_left (fun c i => dict_set idx_eqb (unit_idx n i) (- nth i a 0) c) (seq 0 k) [(repeat 0%nat n, b)] =
    (repeat 0%nat n, b) :: map (fun i => (unit_idx n i, - nth i a 0)) (seq 0 k)).
  { induction k as [|k IH]; intro H; [reflexivity|]. rewrite seq_S, fold_left_app, IH by lia. cbn [fold_left plus]. rewrite dict_set_fresh.
    - cbn [app]. rewrite map_app. reflexivity.
    - cbn [map fst]. intros [E|E]; [symmetry in E; apply unit_nonzero in E; [easy|lia]|].
      rewrite map_map in E. apply in_map_iff in E as (j & E & Hj). cbn in E. apply in_seq in Hj. apply unit_inj in E; lia. }
  apply G. lia.
Qed.
Lemma nodup_map_inj {A B} (f : A -> B) l : (forall x y, In x l -> In y l -> f x = f y -> x = y) -> NoDup l -> NoDup (map f l).
Proof.
  induction l as [|a l IH]; intros H ND; [constructor|]. inversion ND; subst. cbn. constructor.
  - intro Hin. apply in_map_iff in Hin as (b & E & Hb). apply H in E; [subst; auto|now right|now left].
  - apply IH; auto. intros; apply H; auto; now right.
Qed.
Lemma affine_table_ok a b : let n := length a in pol_ok n ((repeat 0%nat n, b) :: map (fun i => (unit_idx n i, - nth i a 0)) (seq 0 n)).
Proof.
  intro n. split.
  - cbn [map fst]. rewrite map_map. cbn. constructor.
    + intro H. apply in_map_iff in H as (j & E & Hj). apply in_seq in Hj. apply unit_nonzero in E; [easy|lia].
    + apply nodup_map_inj; [|apply seq_NoDup]. intros i j Hi Hj. apply in_seq in Hi. apply in_seq in Hj. apply unit_inj; lia.
  - intros kv [<-|H]; cbn; [apply repeat_length|]. apply in_map_iff in H as (i & <- & _). apply unit_idx_length.
Qed.
Lemma affine_ok a b tol : pol_ok (length a) (pol_affine a b tol).
Proof. unfold pol_affine. rewrite affine_table. apply pol_init_ok, affine_table_ok. Qed.
Lemma lsum_dot_seq (a x : vec) : length a = length x -> lsum (map (fun i => nth i a 0 * nth i x 0) (seq 0 (length a))) = dot a x.
Proof.
  revert x; induction a as [|u a IH]; intros [|t x] H; try easy. cbn [length seq map]. rewrite <- seq_shift, map_map. unfold dot. cbn. f_equal. apply IH. auto.
Qed.
Lemma affine_peval a b x : length x = length a -> peval (pol_affine a b 0) x = b - dot a x.
Proof.
  intro Lx. unfold pol_affine. rewrite affine_table, pol_init_peval by apply affine_table_ok. rewrite peval_cons, mono_zero.
  rewrite <- (lsum_dot_seq a x) by auto. unfold peval. rewrite map_map. cbn [fst snd].
  assert (E : forall l, (forall i, In i l -> (i < length a)%nat) ->
    lsum (map (fun i => - nth i a 0 * mono x (unit_idx (length a) i)) l) = - lsum (map (fun i => nth i a 0 * nth i x 0) l)).
  { induction l as [|i l IH]; intro H; [cbn; lra|]. cbn [map]. change (lsum ?l) with (fold_right Rplus 0 l) in *. cbn [fold_right]. cbn in IH. rewrite IH by (intros; apply H; now right).
    rewrite <- Lx, mono_unit by (rewrite Lx; apply H; now left). lra. }
  rewrite E; [lra|]. intros i Hi. apply in_seq in Hi. lia.
Qed.
Lemma affine_evaluate a b x : length x = length a -> pol_evaluate (pol_affine a b 0) x = Ok (b - dot a x).
Proof. intro Lx. rewrite (evaluate_some (length a)) by auto using affine_ok. now rewrite affine_peval. Qed.

(** degree *)
Lemma idx_deg_degree a : idx_deg a = degree_of a. Proof. induction a; cbn; auto. Qed.
Lemma fold_max l d : (forall x, In x (d :: l) -> (x <= fold_left Nat.max l d)%nat) /\ In (fold_left Nat.max l d) (d :: l).
Proof.
  revert d; induction l as [|a l IH]; intro d; cbn [fold_left]; [split; [intros x [<-|[]]; auto|now left]|].
  destruct (IH (Nat.max d a)) as [H1 H2]. split.
  - intros x [<-|[<-|H]]; [transitivity (Nat.max d a); [lia|apply H1; now left]|transitivity (Nat.max d a); [lia|apply H1; now left]|apply H1; now right].
  - destruct H2 as [H2|H2]; [|now right; right]. rewrite <- H2. destruct (Nat.max_spec d a) as [[_ ->]|[_ ->]]; [now right; left|now left].
Qed.
Lemma degree_max p d : pol_degree p = Ok d <-> ((exists kv, In kv p /\ degree_of (fst kv) = d) /\ forall kv, In kv p -> (degree_of (fst kv) <= d)%nat).
Proof.
  unfold pol_degree. destruct p as [|kv p]; [cbn; split; [easy|]; intros ((kv & [] & _) & _)|]. cbn [map].
  destruct (fold_max (map (fun kv => idx_deg (fst kv)) p) (idx_deg (fst kv))) as [H1 H2]. set (m := fold_left _ _ _) in *.
  change (idx_deg (fst kv) :: map (fun kv => idx_deg (fst kv)) p) with (map (fun kv => idx_deg (fst kv)) (kv :: p)) in *.
  assert (H1' : forall kv0, In kv0 (kv :: p) -> (degree_of (fst kv0) <= m)%nat) by (intros kv0 H; rewrite <- idx_deg_degree; apply H1, (in_map (fun kv => idx_deg (fst kv))), H).
  apply in_map_iff in H2 as (kv1 & E1 & H2). rewrite idx_deg_degree in E1. split.
  - intro H. injection H as <-. split; [exists kv1; auto|exact H1'].
  - intros [(kv0 & Hin & E) B]. f_equal. apply H1' in Hin. apply B in H2. lia.
Qed.
Lemma degree_zero : pol_degree pol_zeros = Raise ValueError. Proof. reflexivity. Qed.
Lemma degree_total p : p <> [] -> exists d, pol_degree p = Ok d.
Proof. destruct p; [easy|intros _]. unfold pol_degree. cbn. eauto. Qed.

(** substitution *)
Lemma substitute_some p m (f : idx -> R) : (forall kv, In kv p -> dict_get elt_eqb (Index (fst kv)) m = Some (f (fst kv))) ->
  pol_substitute p m = Ok (lsum (map (fun kv => snd kv * f (fst kv)) p)).
Proof.
  intro H. unfold pol_substitute.
  assert (E : mapM (fun kv => match dict_get elt_eqb (Index (fst kv)) m with Some v => Ok (snd kv * v) | None => Raise KeyError end) p =
              Ok (map (fun kv => snd kv * f (fst kv)) p)).
  { induction p as [|kv p IH]; [reflexivity|]. cbn [mapM map]. rewrite H by now left. cbn [bind]. rewrite IH by (intros; apply H; now right). reflexivity. }
  rewrite E. reflexivity.
Qed.
Lemma substitute_evaluate n p m x : pol_ok n p -> length x = n ->
  (forall kv, In kv p -> dict_get elt_eqb (Index (fst kv)) m = Some (mono x (fst kv))) -> pol_substitute p m = pol_evaluate p x.
Proof. intros Hp Lx H. rewrite (evaluate_some n) by auto. apply (substitute_some p m (mono x)). exact H. Qed.
Lemma substitute_missing p m k v : In (k, v) p -> dict_get elt_eqb (Index k) m = None -> pol_substitute p m = Raise KeyError.
Proof.
  unfold pol_substitute. intros H N. assert (E : mapM (fun kv => match dict_get elt_eqb (Index (fst kv)) m with Some v => Ok (snd kv * v) | None => Raise KeyError end) p = Raise KeyError).
  { induction p as [|[k' v'] p IH]; [easy|]. cbn [mapM fst snd]. destruct H as [H|H].
    - injection H as -> ->. rewrite N. reflexivity.
    - destruct (dict_get elt_eqb (Index k') m); cbn [bind]; [|reflexivity]. rewrite IH by auto. reflexivity. }
  rewrite E. reflexivity.
Qed.
