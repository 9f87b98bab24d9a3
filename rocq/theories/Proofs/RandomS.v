(** Random points on surfaces and edges, rejection sampling (C39, C40). *)
From Coq Require Import Permutation.
From Verif Require Import Proofs.Coord Proofs.Hull Model.Util Model.Polydd Model.Poly Model.Inertial Model.Ellipsoid Model.Box Model.Cylinder Model.Random
  Spec.Basic Spec.Shapes Spec.Objects Spec.ShapeObjects Spec.PolySpec Spec.RandomSpec Proofs.BoxP Proofs.EllP Proofs.EllForms Proofs.CylP Proofs.LinAlg Proofs.RandomP.

(** ** rejection sampling *)
Lemma filter_combine {A} (f : A -> bool) l : map fst (filter snd (combine l (map f l))) = filter f l.
Proof. induction l as [|a l IH]; [reflexivity|]. cbn [map combine filter snd]. destruct (f a); cbn [map fst]; now rewrite IH. Qed.
Lemma filter_none {A} (f : A -> bool) l : existsb (fun b => b) (map f l) = false -> filter f l = [].
Proof. induction l as [|a l IH]; [reflexivity|]. cbn [map existsb filter]. intro H. apply orb_false_elim in H as [-> H]. auto. Qed.
Lemma filter_length_le {A} (f : A -> bool) l : (length (filter f l) <= length l)%nat.
Proof. induction l as [|a l IH]; cbn; [lia|]. destruct (f a); cbn; lia. Qed.
Lemma write_rows_spec points count new n : length points = n -> (count + length new <= n)%nat ->
  length (write_rows points count new) = n /\ firstn (count + length new) (write_rows points count new) = firstn count points ++ new.
Proof.
  intros L H. unfold write_rows. split.
  - rewrite !app_length, firstn_length, skipn_length. lia.
  - rewrite app_assoc. rewrite firstn_app. rewrite app_length, firstn_length. replace (count + length new - (Nat.min count (length points) + length new))%nat with 0%nat by lia.
    rewrite firstn_O, app_nil_r. apply firstn_all2. rewrite app_length, firstn_length. lia.
Qed.
Section rejection.
  Variable inside : list (vec -> bool).
  Variable draw : nat -> nat -> mat.
  Variable n : nat.
  Hypothesis Hdraw : forall k r, length (draw k r) = r.
  Let ins x := existsb (fun s => s x) inside.
  Let miss := missing ins draw n.
  Let acc := accepted ins draw n.
  Lemma miss_le k : (miss k <= n)%nat.
  Proof. unfold miss. induction k; cbn [missing]; lia. Qed.
  Lemma acc_S k : acc (S k) = acc k ++ filter ins (draw k (miss k)).
  Proof. unfold acc, accepted. rewrite seq_S, flat_map_app. cbn [flat_map]. now rewrite app_nil_r. Qed.
  Lemma acc_length k : length (acc k) = (n - miss k)%nat.
  Proof.
    induction k; [cbn; unfold miss; cbn; lia|]. rewrite acc_S, app_length, IHk. unfold miss at 3. cbn [missing]. fold miss. fold (miss k).
    pose proof (miss_le k). pose proof (filter_length_le ins (draw k (miss k))) as F. rewrite Hdraw in F. lia.
  Qed.
  Lemma loop_spec rest : forall k points m, length points = n -> m = (n - miss k)%nat -> firstn m points = acc k ->
    (exists j, (k <= j <= k + rest)%nat /\ miss j = 0%nat /\ (forall i, (k <= i < j)%nat -> (0 < miss i)%nat) /\
       rejection_loop inside draw n rest k points m = Ok (acc j)) \/
    ((forall i, (k <= i <= k + rest)%nat -> (0 < miss i)%nat) /\ rejection_loop inside draw n rest k points m = Raise ValueError).
  Proof.
    induction rest as [|rest IH]; intros k points m HL Hm HA; cbn [rejection_loop]; pose proof (miss_le k) as Hk.
    - destruct (Nat.ltb m n) eqn:E.
      + apply Nat.ltb_lt in E. right. split; [|reflexivity]. intros i Hi. replace i with k by lia. lia.
      + apply Nat.ltb_ge in E. left. exists k. split; [lia|]. split; [lia|]. split; [intros; lia|]. f_equal. rewrite <- HA. symmetry. apply firstn_all2. lia.
    - destruct (Nat.ltb m n) eqn:E.
      2:{ apply Nat.ltb_ge in E. left. exists k. split; [lia|]. split; [lia|]. split; [intros; lia|]. f_equal. rewrite <- HA. symmetry. apply firstn_all2. lia. }
      apply Nat.ltb_lt in E. assert (Er : (n - m = miss k)%nat) by lia. rewrite Er. change (fun x => existsb (fun s => s x) inside) with ins.
      assert (EM : miss (S k) = (miss k - length (filter ins (draw k (miss k))))%nat) by reflexivity.
      pose proof (filter_length_le ins (draw k (miss k))) as F. rewrite Hdraw in F.
      destruct (existsb (fun b => b) (map ins (draw k (miss k)))) eqn:EX; cbn [negb].
      + rewrite filter_combine. destruct (write_rows_spec points m (filter ins (draw k (miss k))) n) as [W1 W2]; [auto|lia|].
        destruct (IH (S k) (write_rows points m (filter ins (draw k (miss k)))) (m + length (filter ins (draw k (miss k))))%nat) as [(j & J1 & J2 & J3 & J4)|[J1 J2]]; auto; [lia| | |].
        * rewrite W2, HA, acc_S. reflexivity.
        * left. exists j. split; [lia|]. split; [auto|]. split; [|exact J4]. intros i Hi. destruct (Nat.eq_dec i k) as [->|]; [lia|apply J3; lia].
        * right. split; [|exact J2]. intros i Hi. destruct (Nat.eq_dec i k) as [->|]; [lia|apply J1; lia].
      + pose proof (filter_none _ _ EX) as FN. rewrite FN in EM. cbn [length] in EM.
        destruct (IH (S k) points m) as [(j & J1 & J2 & J3 & J4)|[J1 J2]]; auto; [lia| | |].
        * rewrite HA, acc_S, FN, app_nil_r. reflexivity.
        * left. exists j. split; [lia|]. split; [auto|]. split; [|exact J4]. intros i Hi. destruct (Nat.eq_dec i k) as [->|]; [lia|apply J3; lia].
        * right. split; [|exact J2]. intros i Hi. destruct (Nat.eq_dec i k) as [->|]; [lia|apply J1; lia].
  Qed.
End rejection.
Lemma rejection_spec inside draw n max_tries : (forall k r, length (draw k r) = r) ->
  let ins x := existsb (fun s => s x) inside in
  (exists k, (k <= max_tries)%nat /\ missing ins draw n k = 0%nat /\ (forall j, (j < k)%nat -> (0 < missing ins draw n j)%nat) /\
     rejection_sample inside draw n max_tries = Ok (accepted ins draw n k)) \/
  ((forall j, (j <= max_tries)%nat -> (0 < missing ins draw n j)%nat) /\ rejection_sample inside draw n max_tries = Raise ValueError).
Proof.
  intros Hd ins. unfold rejection_sample. destruct (loop_spec inside draw n Hd max_tries 0 (zeros2 n 3) 0) as [(j & J1 & J2 & J3 & J4)|[J1 J2]].
  - unfold zeros2. apply repeat_length.
  - cbn. lia.
  - reflexivity.
  - left. exists j. split; [lia|]. split; [exact J2|]. split; [|exact J4]. intros; apply J3; lia.
  - right. split; [|exact J2]. intros; apply J1; lia.
Qed.
Lemma rejection_points inside draw n max_tries P : (forall k r, length (draw k r) = r) -> rejection_sample inside draw n max_tries = Ok P ->
  length P = n /\ forall p, In p P -> (exists s, In s inside /\ s p = true) /\
    exists k, (k < max_tries)%nat /\ In p (draw k (missing (fun x => existsb (fun s => s x) inside) draw n k)).
Proof.
  intros Hd E. set (ins := fun x => existsb (fun s => s x) inside). destruct (rejection_spec inside draw n max_tries Hd) as [(k & K1 & K2 & _ & K4)|[_ K]]; [|congruence].
  fold ins in K2, K4. rewrite K4 in E. injection E as <-. split.
  - pose proof (acc_length inside draw n Hd k) as L. unfold ins in *. rewrite L. lia.
  - intros p I. unfold accepted in I. apply in_flat_map in I as (j & J & I). apply in_seq in J. apply filter_In in I as [I1 I2]. split.
    + unfold ins in I2. apply existsb_exists in I2 as (s & ? & ?). eauto.
    + exists j. split; [lia|exact I1].
Qed.
(** the number of requested candidates never exceeds the number of missing points, and the result
    depends on the generator only through the requested batches *)
Lemma missing_ext ins draw draw' n m : (forall k, (k < m)%nat -> draw k (missing ins draw n k) = draw' k (missing ins draw n k)) ->
  forall k, (k <= m)%nat -> missing ins draw' n k = missing ins draw n k.
Proof. intros H. induction k; intros Hk; [reflexivity|]. cbn [missing]. rewrite IHk by lia. rewrite H by lia. reflexivity. Qed.
Lemma rejection_requests inside draw draw' n max_tries : let ins x := existsb (fun s => s x) inside in
  (forall k r, length (draw k r) = r) -> (forall k r, length (draw' k r) = r) ->
  (forall k, (k < max_tries)%nat -> (0 < missing ins draw n k)%nat -> draw k (missing ins draw n k) = draw' k (missing ins draw n k)) ->
  rejection_sample inside draw n max_tries = rejection_sample inside draw' n max_tries.
Proof.
  intros ins H1 H2 H.
  destruct (rejection_spec inside draw n max_tries H1) as [(k & K1 & K2 & K3 & K4)|[K1 K2]]; [fold ins in K2, K3, K4|fold ins in K1].
  - assert (M : forall j, (j <= k)%nat -> missing ins draw' n j = missing ins draw n j) by (apply missing_ext; intros; apply H; [lia|apply K3; lia]).
    destruct (rejection_spec inside draw' n max_tries H2) as [(k' & J1 & J2 & J3 & J4)|[J1 J2]]; [fold ins in J2, J3, J4|fold ins in J1].
    + assert (k' = k) as ->. { destruct (Nat.lt_trichotomy k k') as [Q|[Q|Q]]; auto.
        - pose proof (J3 k Q). rewrite M in * by lia. lia.
        - pose proof (K3 k' Q). rewrite M in J2 by lia. lia. }
      rewrite K4, J4. f_equal. unfold accepted. rewrite !flat_map_concat_map. f_equal. apply map_ext_in. intros j J. apply in_seq in J.
      rewrite M by lia. rewrite H by (try lia; apply K3; lia). reflexivity.
    + pose proof (J1 k K1). rewrite M in * by lia. lia.
  - assert (M : forall j, (j <= max_tries)%nat -> missing ins draw' n j = missing ins draw n j) by (apply missing_ext; intros; apply H; [lia|apply K1; lia]).
    destruct (rejection_spec inside draw' n max_tries H2) as [(k' & J1 & J2 & J3 & J4)|[J1 J2]]; [fold ins in J2, J3, J4|congruence].
    pose proof (K1 k' J1). rewrite M in J2 by lia. lia.
Qed.
Lemma missing_decreases ins draw n k : (missing ins draw n (S k) <= missing ins draw n k <= n)%nat.
Proof. split; [cbn [missing]; lia|]. induction k; cbn [missing]; lia. Qed.
(** a shape that never accepts exhausts the tries; no tries give ValueError for n > 0 *)
Lemma rejection_never inside draw n max_tries : (0 < n)%nat -> (forall k r, length (draw k r) = r) ->
  (forall k r p s, In p (draw k r) -> In s inside -> s p = false) -> rejection_sample inside draw n max_tries = Raise ValueError.
Proof.
  intros Hn Hd HF. destruct (rejection_spec inside draw n max_tries Hd) as [(k & _ & K & _)|[_ K]]; [|exact K]. exfalso.
  assert (Z : forall k, missing (fun x => existsb (fun s => s x) inside) draw n k = n).
  { clear k K. induction k; [reflexivity|]. cbn [missing]. rewrite IHk. rewrite filter_none; [cbn; lia|].
    destruct (existsb _ _) eqn:E; [|reflexivity]. apply existsb_exists in E as (b & I & ->). apply in_map_iff in I as (p & E & I). apply existsb_exists in E as (s & Is & Es). rewrite (HF k n p s I Is) in Es. discriminate. }
  rewrite Z in K. lia.
Qed.
(** if every batch contributes a point, n tries are enough *)
Lemma rejection_progress inside draw n max_tries : (n <= max_tries)%nat -> (forall k r, length (draw k r) = r) ->
  (forall k r, (0 < r)%nat -> exists p s, In p (draw k r) /\ In s inside /\ s p = true) -> exists P, rejection_sample inside draw n max_tries = Ok P.
Proof.
  intros Hn Hd HT. destruct (rejection_spec inside draw n max_tries Hd) as [(k & _ & _ & _ & K)|[K _]]; [eauto|]. exfalso.
  assert (Z : forall k, (k <= max_tries)%nat -> (missing (fun x => existsb (fun s => s x) inside) draw n k + k <= n)%nat).
  { induction k; intros Hk; [cbn; lia|]. cbn [missing]. pose proof (K k ltac:(lia)) as Q. specialize (IHk ltac:(lia)).
    set (r := missing _ draw n k) in *. destruct (HT k r Q) as (p & s & I1 & I2 & I3).
    assert (In p (filter (fun x => existsb (fun s => s x) inside) (draw k r))) as J by (apply filter_In; split; [auto|]; apply existsb_exists; eauto).
    destruct (filter _ (draw k r)); [easy|]. cbn. lia. }
  pose proof (Z max_tries ltac:(lia)). pose proof (K max_tries ltac:(lia)). lia.
Qed.

(** ** Capsule.random_points *)
Lemma caps_random_in L r ro co c k U n P : cyl_init L r ro co = Ok c -> caps_init c = Ok k -> orthogonal 3 (pose_rot 3 ro) ->
  (forall t m, rows_of m 3 (uniform_draw (-1) 1) (U t m)) -> caps_random_points k U n = Ok P ->
  length P = n /\ forall p, In p P -> length p = 3%nat /\ caps_contains k p default_tol = true /\
    box_set [r; r; (L + 2 * r) / 2] (pose_rot 3 ro) (pose_tr 3 co) p /\
    exists a b, cyl_endpoints c = [a; b] /\ caps_set a b (r + (r + L + 3) * default_tol) p.
Proof.
  intros HC HK HQ HU E. pose proof (caps_inv _ _ _ _ _ _ HC HK) as (HL & Hr & MQ & Hc & EK). unfold caps_random_points in E. apply bind_inv in E as (b & Eb & E).
  assert (EB : box_init [r; r; (L + 2 * r) / 2] (Some (pose_tr 3 co)) (Some (pose_rot 3 ro)) = Ok b) by (rewrite EK in Eb; exact Eb).
  assert (HD : forall t m, length (box_random_points b (U t m)) = m) by (intros t m; apply (box_random_in _ _ _ _ _ _ EB (HU t m))).
  destruct (rejection_points _ _ _ _ _ HD E) as [LP HP]. split; [exact LP|]. intros p I. destruct (HP p I) as [(s & [<-|[]] & Es) (t & _ & It)].
  destruct (proj2 (box_random_in _ _ _ _ _ _ EB (HU t _)) p It) as [Lp Bp]. split; [exact Lp|]. split; [exact Es|]. split; [exact Bp|].
  destruct (caps_contains_near L r ro co c k p default_tol HC HK HQ Lp ltac:(unfold default_tol; lra) Es) as (a & b' & E1 & E2).
  exists a, b'. split; [exact E1|]. unfold default_tol in *. rewrite Rmax_left in E2 by lra. exact E2.
Qed.
Lemma caps_random_total L r ro co c k U n : cyl_init L r ro co = Ok c -> caps_init c = Ok k ->
  (forall t m, rows_of m 3 (uniform_draw (-1) 1) (U t m)) ->
  (exists P, caps_random_points k U n = Ok P) \/ caps_random_points k U n = Raise ValueError.
Proof.
  intros HC HK HU. pose proof (caps_inv _ _ _ _ _ _ HC HK) as (HL & Hr & MQ & Hc & EK). unfold caps_random_points.
  destruct (box_init_good [r; r; (L + 2 * r) / 2] (Some (pose_tr 3 co)) (Some (pose_rot 3 ro))) as [b EB]; auto.
  { intros [|[|[|i]]] Hi; cbn; try lia; lra. }
  assert (Eb : caps_mbb k = Ok b) by (rewrite EK; exact EB). rewrite Eb. cbn [bind].
  destruct (rejection_spec [fun p => caps_contains k p default_tol] (fun t r => box_random_points b (U t r)) n default_max_tries) as [(j & _ & _ & _ & E)|[_ E]]; eauto.
  intros t m. apply (box_random_in _ _ _ _ _ _ EB (HU t m)).
Qed.

(** ** rows by number *)
Lemma mapi_length {A B} (f : nat -> A -> B) l : length (mapi f l) = length l.
Proof. unfold mapi. rewrite map2_length, seq_length. lia. Qed.
Lemma nth_mapi_from {A B} (f : nat -> A -> B) l d d' : forall s k, (k < length l)%nat -> nth k (map2 f (seq s (length l)) l) d' = f (s + k)%nat (nth k l d).
Proof.
  induction l as [|a l IH]; intros s k Hk; [cbn in Hk; lia|]. cbn [length seq map2]. destruct k; cbn [nth]; [f_equal; lia|]. rewrite IH by (cbn in Hk; lia). f_equal. lia.
Qed.
Lemma nth_mapi {A B} (f : nat -> A -> B) l d d' k : (k < length l)%nat -> nth k (mapi f l) d' = f k (nth k l d).
Proof. intros. unfold mapi. now rewrite (nth_mapi_from f l d d'). Qed.
Lemma set_rows_length a b f P : length (set_rows a b f P) = length P.
Proof. apply mapi_length. Qed.
Lemma nth_set_rows a b f P k : (k < length P)%nat ->
  nth k (set_rows a b f P) [] = if (Nat.leb a k && Nat.ltb k b)%bool then f k (nth k P []) else nth k P [].
Proof. intros. unfold set_rows. now rewrite (nth_mapi _ P []). Qed.
Lemma shuffled_rows f P (Q : vec -> Prop) : shuffles f -> (forall k, (k < length P)%nat -> Q (nth k P [])) -> length (f P) = length P /\ forall p, In p (f P) -> Q p.
Proof.
  intros H K. split; [apply Permutation_length, H|]. intros p I. apply (Permutation_in _ (H P)) in I. apply (In_nth _ _ []) in I as (k & Hk & <-). auto.
Qed.
Lemma set_in a b f P k : (k < length P)%nat -> (a <= k < b)%nat -> nth k (set_rows a b f P) [] = f k (nth k P []).
Proof. intros H [H1 H2]. rewrite nth_set_rows by auto. rewrite (proj2 (Nat.leb_le a k)), (proj2 (Nat.ltb_lt k b)) by auto. reflexivity. Qed.
Lemma set_out a b f P k : (k < length P)%nat -> (k < a \/ b <= k)%nat -> nth k (set_rows a b f P) [] = nth k P [].
Proof.
  intros H HK. rewrite nth_set_rows by auto. destruct HK.
  - rewrite (proj2 (Nat.leb_gt a k)) by auto. reflexivity.
  - rewrite (proj2 (Nat.ltb_ge k b)) by auto. now rewrite andb_false_r.
Qed.
Ltac segs L := repeat first [rewrite set_in by first [rewrite ?set_rows_length, L; assumption | lia] | rewrite set_out by first [rewrite ?set_rows_length, L; assumption | lia]].
Lemma nth_zeros2 n m k : (k < n)%nat -> nth k (zeros2 n m) [] = zeros m.
Proof. revert k. induction n; intros [|k] H; try lia; cbn; auto. apply IHn. lia. Qed.
Lemma draw_bound h t k : (forall x, In x t -> uniform_draw (-1) 1 x) -> 0 <= h -> Rabs (h * nth k t 0) <= h.
Proof.
  intros H Hh. rewrite Rabs_mult, (Rabs_pos_eq h) by auto. assert (Rabs (nth k t 0) <= 1).
  { destruct (Nat.lt_ge_cases k (length t)); [destruct (H (nth k t 0)); [now apply nth_In|]; apply Rabs_le; lra|]. rewrite nth_overflow by auto. rewrite Rabs_R0. lra. }
  pose proof (Rabs_pos (nth k t 0)). nra.
Qed.
Definition edge_local (x y z : R) (u : vec) : Prop := exists a b c, u = [a; b; c] /\
  (Rabs a <= x /\ Rabs b = y /\ Rabs c = z \/ Rabs a = x /\ Rabs b <= y /\ Rabs c = z \/ Rabs a = x /\ Rabs b = y /\ Rabs c <= z).
Lemma box_edges_good h c r b n counts tx ty tz sh : box_init h c r = Ok b -> 0 < lsum h -> multinomial_draw n 12 counts ->
  (forall x, In x tx \/ In x ty \/ In x tz -> uniform_draw (-1) 1 x) -> shuffles sh ->
  exists P, box_random_points_on_edges b n counts tx ty tz sh = Ok P /\ length P = n /\
    forall p, In p P -> box_edge h (pose_rot 3 r) (pose_tr 3 c) p.
Proof.
  intros Hb Hs [L12 Sn] HT HS. apply box_init_inv in Hb as (Lh & Ph & Eh & Ec & Er & MQ & Lc & _).
  destruct h as [|x [|y [|z [|]]]]; try discriminate Lh. pose proof (Ph 0 ltac:(lia))%nat as Hx. pose proof (Ph 1 ltac:(lia))%nat as Hy. pose proof (Ph 2 ltac:(lia))%nat as Hz. cbn in Hx, Hy, Hz. clear Ph.
  unfold box_random_points_on_edges. rewrite Eh. unfold lsum in Hs. cbn in Hs. rewrite Reqb_false by lra. eexists. split; [reflexivity|].
  destruct counts as [|c0 [|c1 [|c2 [|c3 [|c4 [|c5 [|c6 [|c7 [|c8 [|c9 [|c10 [|c11 [|]]]]]]]]]]]]]; try discriminate L12. clear L12. cbn [fold_right] in Sn. cbn [cumsum cumsum_from nth Nat.add].
  match goal with |- length (rows_move _ _ (sh ?X)) = _ /\ _ => set (P := X) end.
  assert (LP : length P = n). { unfold P. rewrite !set_rows_length. unfold zeros2. apply repeat_length. }
  assert (K : forall k, (k < length P)%nat -> edge_local x y z (nth k P [])).
  { rewrite LP. intros k Hk. unfold P. clear P LP. assert (L0 : length (zeros2 n 3) = n) by (unfold zeros2; apply repeat_length).
    pose proof (nth_zeros2 n 3 k Hk) as Z. cbn [zeros repeat] in Z.
    pose proof (fun k => draw_bound x tx k (fun a I => HT a (or_introl I)) Hx) as Bx. pose proof (fun k => draw_bound y ty k (fun a I => HT a (or_intror (or_introl I))) Hy) as By.
    pose proof (fun k => draw_bound z tz k (fun a I => HT a (or_intror (or_intror I))) Hz) as Bz. clear HT HS Ec Er MQ Lc Eh Hs.
    assert (Ax : Rabs x = x /\ Rabs (- x) = x) by (rewrite Rabs_Ropp, Rabs_pos_eq; auto). assert (Ay : Rabs y = y /\ Rabs (- y) = y) by (rewrite Rabs_Ropp, Rabs_pos_eq; auto).
    assert (Az : Rabs z = z /\ Rabs (- z) = z) by (rewrite Rabs_Ropp, Rabs_pos_eq; auto).
    remember (c0 + c1)%nat as i2. remember (i2 + c2)%nat as i3. remember (i3 + c3)%nat as i4. remember (i4 + c4)%nat as i5. remember (i5 + c5)%nat as i6. remember (i6 + c6)%nat as i7.
    remember (i7 + c7)%nat as i8. remember (i8 + c8)%nat as i9. remember (i9 + c9)%nat as i10. remember (i10 + c10)%nat as i11. remember (i11 + c11)%nat as i12.
    assert (C : (k < c0 \/ c0 <= k < i2 \/ i2 <= k < i3 \/ i3 <= k < i4 \/ i4 <= k < i5 \/ i5 <= k < i6 \/ i6 <= k < i7 \/ i7 <= k < i8 \/ i8 <= k < i9 \/ i9 <= k < i10 \/ i10 <= k < i11 \/ i11 <= k < n)%nat) by lia.
    destruct C as [C|[C|[C|[C|[C|[C|[C|[C|[C|[C|[C|C]]]]]]]]]]]; segs L0; rewrite Z; cbn [set_coord firstn skipn app]; do 3 eexists; (split; [reflexivity|]); intuition. }
  destruct (shuffled_rows sh P _ HS K) as [L' K'].
  assert (RL : rows_len 3 (sh P)) by (apply rows_len_of; intros u I; destruct (K' u I) as (? & ? & ? & -> & _); reflexivity).
  rewrite (rows_move_eq 3) by (auto; lia). split; [rewrite map_length; congruence|]. intros p I. apply in_map_iff in I as (u & <- & I). rewrite Er, Ec.
  destruct (K' u I) as (a & b' & c' & -> & [H|[H|H]]); exists [a; b'; c'].
  - exists 0%nat. cbn. repeat split; try lia; try tauto. intros [|[|[|j]]] Hj Hn; try lia; cbn; tauto.
  - exists 1%nat. cbn. repeat split; try lia; try tauto. intros [|[|[|j]]] Hj Hn; try lia; cbn; tauto.
  - exists 2%nat. cbn. repeat split; try lia; try tauto. intros [|[|[|j]]] Hj Hn; try lia; cbn; tauto.
Qed.
Lemma box_edges_zero h c r b n counts tx ty tz sh : box_init h c r = Ok b -> lsum h = 0 ->
  box_random_points_on_edges b n counts tx ty tz sh = Raise ValueError.
Proof.
  intros Hb Hs. apply box_init_inv in Hb as (Lh & _ & Eh & _). destruct h as [|x [|y [|z [|]]]]; try discriminate Lh.
  unfold box_random_points_on_edges. rewrite Eh. unfold lsum in Hs. cbn in Hs. rewrite Reqb_true by lra. reflexivity.
Qed.
Lemma div_draw a h : Rabs a < h -> uniform_draw (-1) 1 (a / h).
Proof.
  intros H. pose proof (Rabs_pos a). apply Rabs_def2 in H as [H1 H2]. split.
  - apply (Rmult_le_reg_r h); [lra|]. unfold Rdiv. rewrite Rmult_assoc, Rinv_l by lra. lra.
  - apply (Rmult_lt_reg_r h); [lra|]. unfold Rdiv. rewrite Rmult_assoc, Rinv_l by lra. lra.
Qed.
Lemma abs_cases a h : Rabs a = h -> a = h \/ a = - h.
Proof. unfold Rabs. destruct (Rcase_abs a); lra. Qed.
Ltac rows_close RM := match goal with |- Ok (rows_move _ _ ?X) = Ok [move _ _ ?u] =>
  let E := fresh in assert (E : X = [u]) by (lazy -[Rmult Ropp Rdiv IZR]; list_eq; field; lra); rewrite E, RM by reflexivity; reflexivity end.
(** every point of an edge (without its end points) is drawn *)
Lemma box_edges_cover h c r b u i : box_init h c r = Ok b -> length u = 3%nat -> (i < 3)%nat -> Rabs (nth i u 0) < nth i h 0 ->
  (forall j, (j < 3)%nat -> j <> i -> Rabs (nth j u 0) = nth j h 0) ->
  exists counts tx ty tz, multinomial_draw 1 12 counts /\ (forall x, In x tx \/ In x ty \/ In x tz -> uniform_draw (-1) 1 x) /\
    box_random_points_on_edges b 1 counts tx ty tz (fun P => P) = Ok [move (pose_rot 3 r) (pose_tr 3 c) u].
Proof.
  intros Hb Lu Hi Hu Hj. apply box_init_inv in Hb as (Lh & Ph & Eh & Ec & Er & MQ & Lc & _).
  destruct h as [|x [|y [|z [|]]]]; try discriminate Lh. pose proof (Ph 0 ltac:(lia))%nat as Hx. pose proof (Ph 1 ltac:(lia))%nat as Hy. pose proof (Ph 2 ltac:(lia))%nat as Hz. cbn in Hx, Hy, Hz. clear Ph.
  destruct u as [|a [|b' [|c' [|]]]]; try discriminate Lu. pose proof (Rabs_pos a) as Pa. pose proof (Rabs_pos b') as Pb. pose proof (Rabs_pos c') as Pc.
  unfold box_random_points_on_edges. rewrite Eh, Ec, Er in *.
  assert (RM : forall u, length u = 3%nat -> rows_move (pose_rot 3 r) (pose_tr 3 c) [u] = [move (pose_rot 3 r) (pose_tr 3 c) u]).
  { intros v Lv. rewrite (rows_move_eq 3); auto; try lia. apply rows_len_of. intros ? [<-|[]]. auto. }
  destruct i as [|[|[|i]]]; try lia; cbn [nth] in Hu; pose proof (div_draw _ _ Hu) as D.
  - destruct (abs_cases _ _ (Hj 1 ltac:(lia) ltac:(lia))%nat) as [E1|E1]; destruct (abs_cases _ _ (Hj 2 ltac:(lia) ltac:(lia))%nat) as [E2|E2]; cbn [nth] in E1, E2; subst b' c';
    [exists [1;0;0;0;0;0;0;0;0;0;0;0]%nat|exists [0;1;0;0;0;0;0;0;0;0;0;0]%nat|exists [0;0;0;1;0;0;0;0;0;0;0;0]%nat|exists [0;0;1;0;0;0;0;0;0;0;0;0]%nat];
    exists [a / x], [], []; (split; [split; reflexivity|]); (split; [intros t [[<-|[]]|[[]|[]]]; exact D|]); rewrite Reqb_false by lra; rows_close RM.
  - destruct (abs_cases _ _ (Hj 0 ltac:(lia) ltac:(lia))%nat) as [E1|E1]; destruct (abs_cases _ _ (Hj 2 ltac:(lia) ltac:(lia))%nat) as [E2|E2]; cbn [nth] in E1, E2; subst a c';
    [exists [0;0;0;0;1;0;0;0;0;0;0;0]%nat|exists [0;0;0;0;0;1;0;0;0;0;0;0]%nat|exists [0;0;0;0;0;0;0;1;0;0;0;0]%nat|exists [0;0;0;0;0;0;1;0;0;0;0;0]%nat];
    exists [], [b' / y], []; (split; [split; reflexivity|]); (split; [intros t [[]|[[<-|[]]|[]]]; exact D|]); rewrite Reqb_false by lra; rows_close RM.
  - destruct (abs_cases _ _ (Hj 0 ltac:(lia) ltac:(lia))%nat) as [E1|E1]; destruct (abs_cases _ _ (Hj 1 ltac:(lia) ltac:(lia))%nat) as [E2|E2]; cbn [nth] in E1, E2; subst a b';
    [exists [0;0;0;0;0;0;0;0;1;0;0;0]%nat|exists [0;0;0;0;0;0;0;0;0;1;0;0]%nat|exists [0;0;0;0;0;0;0;0;0;0;0;1]%nat|exists [0;0;0;0;0;0;0;0;0;0;1;0]%nat];
    exists [], [], [c' / z]; (split; [split; reflexivity|]); (split; [intros t [[]|[[]|[<-|[]]]]; exact D|]); rewrite Reqb_false by lra; rows_close RM.
Qed.

(** ** Box.random_points_on_surface *)
Definition face_local (x y z : R) (u : vec) : Prop := exists a b c, u = [a; b; c] /\ Rabs a <= x /\ Rabs b <= y /\ Rabs c <= z /\
  (Rabs a = x \/ Rabs b = y \/ Rabs c = z).
Lemma box_surface_error h c r b n U counts sh : box_init h c r = Ok b ->
  (nth 1 h 0 * nth 2 h 0 + nth 0 h 0 * nth 2 h 0 + nth 0 h 0 * nth 1 h 0 = 0 -> box_random_points_on_surface b n U counts sh = Raise ValueError) /\
  (0 < nth 1 h 0 * nth 2 h 0 + nth 0 h 0 * nth 2 h 0 + nth 0 h 0 * nth 1 h 0 -> box_random_points_on_surface b 1 U counts sh = Raise IndexError).
Proof.
  intros Hb. apply box_init_inv in Hb as (Lh & Ph & Eh & _). destruct h as [|x [|y [|z [|]]]]; try discriminate Lh. cbn [nth]. unfold box_random_points_on_surface. rewrite Eh. split; intros H.
  - rewrite Reqb_true by lra. reflexivity.
  - rewrite Reqb_false by lra. reflexivity.
Qed.
Lemma box_surface_good h c r b n U counts sh : box_init h c r = Ok b -> pose_rot 3 r = eye 3 -> pose_tr 3 c = zeros 3 ->
  0 < nth 1 h 0 * nth 2 h 0 + nth 0 h 0 * nth 2 h 0 + nth 0 h 0 * nth 1 h 0 -> n <> 1%nat ->
  rows_of n 3 (uniform_draw (-1) 1) U -> multinomial_draw n 6 counts -> shuffles sh ->
  exists P, box_random_points_on_surface b n U counts sh = Ok P /\ length P = n /\ forall p, In p P -> box_surface h (eye 3) (zeros 3) p.
Proof.
  intros Hb ER EC HA Hn HU [L6 Sn] HS. destruct (box_random_in _ _ _ _ _ _ Hb HU) as [LB HB]. rewrite ER, EC in HB.
  apply box_init_inv in Hb as (Lh & Ph & Eh & Ec & Er & MQ & Lc & _). rewrite ER in Er. rewrite EC in Ec.
  assert (ID : forall u, length u = 3%nat -> move (eye 3) (zeros 3) u = u).
  { intros u Lu. unfold move. rewrite mat_vec_eye by auto. destruct u as [|? [|? [|? [|]]]]; try discriminate Lu. cbn. list_eq; ring. }
  destruct h as [|x [|y [|z [|]]]]; try discriminate Lh. pose proof (Ph 0 ltac:(lia))%nat as Hx. pose proof (Ph 1 ltac:(lia))%nat as Hy. pose proof (Ph 2 ltac:(lia))%nat as Hz. cbn in Hx, Hy, Hz. clear Ph. cbn [nth] in HA.
  unfold box_random_points_on_surface. rewrite Eh. rewrite Reqb_false by lra. rewrite (proj2 (Nat.eqb_neq n 1) Hn). eexists. split; [reflexivity|].
  set (B := box_random_points b U) in *. clearbody B.
  destruct counts as [|c0 [|c1 [|c2 [|c3 [|c4 [|c5 [|]]]]]]]; try discriminate L6. clear L6. cbn [fold_right] in Sn. cbn [cumsum cumsum_from nth Nat.add].
  match goal with |- length (rows_move _ _ (sh ?X)) = _ /\ _ => set (P := X) end.
  assert (LP : length P = n) by (unfold P; rewrite !set_rows_length; exact LB).
  assert (K : forall k, (k < length P)%nat -> face_local x y z (nth k P [])).
  { rewrite LP. intros k Hk. unfold P. clear P LP.
    destruct (HB (nth k B [])) as [_ (u & (Lu & Bu) & Eu)]; [apply nth_In; lia|]. rewrite ID in Eu by exact Lu.
    pose proof (Bu 0%nat ltac:(cbn; lia)) as B0. pose proof (Bu 1%nat ltac:(cbn; lia)) as B1. pose proof (Bu 2%nat ltac:(cbn; lia)) as B2. destruct u as [|u0 [|u1 [|u2 [|]]]]; try discriminate Lu. cbn in B0, B1, B2.
    assert (Ax : Rabs x = x /\ Rabs (- x) = x) by (rewrite Rabs_Ropp, Rabs_pos_eq; auto). assert (Ay : Rabs y = y /\ Rabs (- y) = y) by (rewrite Rabs_Ropp, Rabs_pos_eq; auto).
    assert (Az : Rabs z = z /\ Rabs (- z) = z) by (rewrite Rabs_Ropp, Rabs_pos_eq; auto).
    remember (c0 + c1)%nat as i2. remember (i2 + c2)%nat as i3. remember (i3 + c3)%nat as i4. remember (i4 + c4)%nat as i5.
    assert (C : (k < c0 \/ c0 <= k < i2 \/ i2 <= k < i3 \/ i3 <= k < i4 \/ i4 <= k < i5 \/ i5 <= k < n)%nat) by lia.
    destruct C as [C|[C|[C|[C|[C|C]]]]]; segs LB; rewrite Eu; cbn [set_coord firstn skipn app]; do 3 eexists; (split; [reflexivity|]); repeat split; try (intuition lra); intuition. }
  destruct (shuffled_rows sh P _ HS K) as [L' K'].
  assert (RL : rows_len 3 (sh P)) by (apply rows_len_of; intros u I; destruct (K' u I) as (? & ? & ? & -> & _); reflexivity).
  rewrite (rows_move_eq 3) by (auto; lia). split; [rewrite map_length; congruence|]. intros p I. apply in_map_iff in I as (u & <- & I). rewrite Er, Ec.
  destruct (K' u I) as (a & b' & c' & -> & H1 & H2 & H3 & H4). exists [a; b'; c']. split; [|split; [|reflexivity]].
  - split; [reflexivity|]. intros [|[|[|j]]] Hj; cbn in *; try lia; auto.
  - destruct H4 as [H|[H|H]]; [exists 0%nat|exists 1%nat|exists 2%nat]; split; auto.
Qed.
Ltac face_close RM := match goal with |- context [rows_move _ _ ?X] => let X' := eval lazy -[Rmult Ropp Rdiv IZR] in X in
    let E := fresh in assert (E : X = X') by (lazy -[Rmult Ropp Rdiv IZR]; reflexivity); rewrite E, RM by reflexivity end;
  split; [reflexivity|]; left; list_eq; first [lra | field; lra].
(** every point of the relative interior of a face is drawn (identity pose, n = 2) *)
Lemma box_surface_cover h c r b u i : box_init h c r = Ok b -> pose_rot 3 r = eye 3 -> pose_tr 3 c = zeros 3 -> length u = 3%nat -> (i < 3)%nat ->
  Rabs (nth i u 0) = nth i h 0 -> (forall j, (j < 3)%nat -> j <> i -> Rabs (nth j u 0) < nth j h 0) ->
  exists U counts P, rows_of 2 3 (uniform_draw (-1) 1) U /\ multinomial_draw 2 6 counts /\
    box_random_points_on_surface b 2 U counts (fun P => P) = Ok P /\ In u P.
Proof.
  intros Hb ER EC Lu Hi Hu Hj. apply box_init_inv in Hb as (Lh & Ph & Eh & Ec & Er & MQ & Lc & _). rewrite ER in Er. rewrite EC in Ec.
  destruct h as [|x [|y [|z [|]]]]; try discriminate Lh. pose proof (Ph 0 ltac:(lia))%nat as Hx. pose proof (Ph 1 ltac:(lia))%nat as Hy. pose proof (Ph 2 ltac:(lia))%nat as Hz. cbn in Hx, Hy, Hz. clear Ph.
  destruct u as [|a [|b' [|c' [|]]]]; try discriminate Lu. pose proof (Rabs_pos a) as Pa. pose proof (Rabs_pos b') as Pb. pose proof (Rabs_pos c') as Pc.
  unfold box_random_points_on_surface, box_random_points. rewrite Eh, Ec, Er in *.
  assert (RM : forall u v, length u = 3%nat -> length v = 3%nat -> rows_move (eye 3) (zeros 3) [u; v] = [u; v]).
  { intros v w Lv Lw. rewrite (rows_move_eq 3); auto; try lia.
    - cbn [map]. unfold move. rewrite !mat_vec_eye by auto. destruct v as [|? [|? [|? [|]]]]; try discriminate Lv. destruct w as [|? [|? [|? [|]]]]; try discriminate Lw. cbn. do 2 f_equal; list_eq; ring.
    - apply rows_len_of. intros ? [<-|[<-|[]]]; auto. }
  destruct i as [|[|[|i]]]; try lia; cbn [nth] in Hu.
  - pose proof (Hj 1 ltac:(lia) ltac:(lia))%nat as K1. pose proof (Hj 2 ltac:(lia) ltac:(lia))%nat as K2. cbn [nth] in K1, K2. pose proof (div_draw _ _ K1) as D1. pose proof (div_draw _ _ K2) as D2.
    assert (D0 : uniform_draw (-1) 1 0) by (split; lra).
    set (w := [0; b' / y; c' / z]). assert (WU : rows_of 2 3 (uniform_draw (-1) 1) [w; w]) by (split; [repeat constructor|]; intros q t [<-|[<-|[]]] [<-|[<-|[<-|[]]]]; auto).
    destruct (abs_cases _ _ Hu) as [E|E]; [exists [w; w], [2;0;0;0;0;0]%nat|exists [w; w], [0;2;0;0;0;0]%nat]; eexists; (split; [exact WU|]); (split; [split; reflexivity|]); unfold w; cbn [map vmul map2];
    (rewrite Reqb_false; [|assert (0 < y * z) by (apply Rmult_lt_0_compat; lra); nra]); cbn [Nat.eqb]; rewrite RM by reflexivity; face_close RM.
  - pose proof (Hj 0 ltac:(lia) ltac:(lia))%nat as K1. pose proof (Hj 2 ltac:(lia) ltac:(lia))%nat as K2. cbn [nth] in K1, K2. pose proof (div_draw _ _ K1) as D1. pose proof (div_draw _ _ K2) as D2.
    assert (D0 : uniform_draw (-1) 1 0) by (split; lra).
    set (w := [a / x; 0; c' / z]). assert (WU : rows_of 2 3 (uniform_draw (-1) 1) [w; w]) by (split; [repeat constructor|]; intros q t [<-|[<-|[]]] [<-|[<-|[<-|[]]]]; auto).
    destruct (abs_cases _ _ Hu) as [E|E]; [exists [w; w], [0;0;2;0;0;0]%nat|exists [w; w], [0;0;0;2;0;0]%nat]; eexists; (split; [exact WU|]); (split; [split; reflexivity|]); unfold w; cbn [map vmul map2];
    (rewrite Reqb_false; [|assert (0 < x * z) by (apply Rmult_lt_0_compat; lra); nra]); cbn [Nat.eqb]; rewrite RM by reflexivity; face_close RM.
  - pose proof (Hj 0 ltac:(lia) ltac:(lia))%nat as K1. pose proof (Hj 1 ltac:(lia) ltac:(lia))%nat as K2. cbn [nth] in K1, K2. pose proof (div_draw _ _ K1) as D1. pose proof (div_draw _ _ K2) as D2.
    assert (D0 : uniform_draw (-1) 1 0) by (split; lra).
    set (w := [a / x; b' / y; 0]). assert (WU : rows_of 2 3 (uniform_draw (-1) 1) [w; w]) by (split; [repeat constructor|]; intros q t [<-|[<-|[]]] [<-|[<-|[<-|[]]]]; auto).
    destruct (abs_cases _ _ Hu) as [E|E]; [exists [w; w], [0;0;0;0;2;0]%nat|exists [w; w], [0;0;0;0;0;2]%nat]; eexists; (split; [exact WU|]); (split; [split; reflexivity|]); unfold w; cbn [map vmul map2];
    (rewrite Reqb_false; [|assert (0 < x * y) by (apply Rmult_lt_0_compat; lra); nra]); cbn [Nat.eqb]; rewrite RM by reflexivity; face_close RM.
Qed.
