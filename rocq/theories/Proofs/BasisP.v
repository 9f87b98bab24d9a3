(** C43: the monomial basis. *)
From Verif Require Import Base.Vec Base.VecFacts Spec.Basic Spec.Moments Model.Util Model.Constraint Model.Moment Proofs.CylP Proofs.PolynomialP.
Local Open Scope nat_scope.

Notation iadd := (map2 Nat.add).
Lemma idx_ext (a b : idx) : length a = length b -> (forall i, i < length a -> nth i a 0 = nth i b 0) -> a = b.
Proof.
  revert b; induction a as [|x a IH]; intros [|y b] L H; try easy. f_equal; [apply (H 0); cbn; lia|].
  apply IH; [now injection L|]. intros i Hi. apply (H (S i)). cbn. lia.
Qed.
Lemma iadd_length n (a b : idx) : length a = n -> length b = n -> length (iadd a b) = n.
Proof. intros H1 H2. rewrite map2_length, H1, H2. lia. Qed.
Lemma nth_iadd (a b : idx) i : length a = length b -> nth i (iadd a b) 0 = nth i a 0 + nth i b 0.
Proof. revert b i; induction a as [|x a IH]; intros [|y b] i H; try easy; destruct i; cbn; auto. Qed.
Lemma iadd_comm (a b : idx) : iadd a b = iadd b a.
Proof. revert b; induction a as [|x a IH]; intros [|y b]; cbn; auto. f_equal; [lia|auto]. Qed.
Lemma iadd_assoc (a b c : idx) : iadd a (iadd b c) = iadd (iadd a b) c.
Proof. revert b c; induction a as [|x a IH]; intros [|y b] [|z c]; cbn; auto. f_equal; [lia|auto]. Qed.
Lemma iadd_zero_l n (a : idx) : length a = n -> iadd (repeat 0 n) a = a.
Proof. revert n; induction a as [|x a IH]; intros n <-; cbn; auto. f_equal. now apply IH. Qed.
Lemma degree_iadd (a b : idx) : length a = length b -> degree_of (iadd a b) = degree_of a + degree_of b.
Proof. revert b; induction a as [|x a IH]; intros [|y b] H; try easy. cbn. rewrite IH by auto. lia. Qed.
Lemma degree_zero_iff n (a : idx) : length a = n -> (degree_of a = 0 <-> a = repeat 0 n).
Proof.
  revert n; induction a as [|x a IH]; intros n <-; cbn; [easy|]. split.
  - intro H. assert (x = 0) as -> by lia. f_equal. apply IH; [reflexivity|lia].
  - intro H. injection H as -> H. apply IH in H; [lia|reflexivity].
Qed.
Lemma degree_repeat n : degree_of (repeat 0 n) = 0. Proof. apply (degree_zero_iff n); auto using repeat_length. Qed.
Lemma degree_unit n i : i < n -> degree_of (unit_idx n i) = 1.
Proof.
  revert i; induction n as [|n IH]; intros i H; [lia|]. destruct i as [|i]; [rewrite unit_0; cbn; now rewrite degree_repeat|].
  rewrite unit_S. cbn. apply IH. lia.
Qed.

(** the sum of a group *)
Definition isum (n : nat) (g : list idx) : idx := fold_right iadd (repeat 0 n) g.
Lemma isum_length n g : (forall a, In a g -> length a = n) -> length (isum n g) = n.
Proof. induction g as [|a g IH]; intro H; cbn; [apply repeat_length|]. apply iadd_length; [apply H; now left|apply IH; intros; apply H; now right]. Qed.
Lemma elt_sum_isum n g : g <> [] -> (forall a, In a g -> length a = n) -> elt_sum g = Ok (Index (isum n g)).
Proof.
  intros N H. unfold elt_sum. destruct g as [|a g]; [easy|]. cbn [fold_left bind]. change (idx_add a PyZero) with (@Ok idx a). cbn [bind].
  assert (G : forall g u, length u = n -> (forall a, In a g -> length a = n) ->
    fold_left (fun (acc : res elt) (g : idx) => let* a := acc in
      let* s := match a with Index u => idx_add u (Index g) | _ => idx_add g a end in Ok (Index s)) g (Ok (Index u)) = Ok (Index (iadd u (isum n g)))).
  { clear. induction g as [|b g IH]; intros u Hu H; cbn [fold_left].
    - cbn. rewrite iadd_comm, iadd_zero_l by auto. reflexivity.
    - cbn [bind].
      assert (A : idx_add u (Index b) = Ok (iadd u b)) by (unfold idx_add; rewrite Hu, (H b), Nat.eqb_refl by (now left); reflexivity).
      rewrite A. cbn [bind].
      rewrite IH; [|apply iadd_length; auto; apply H; now left|intros; apply H; now right]. cbn. now rewrite iadd_assoc. }
  rewrite (G g a) by (try (intros; apply H; now right); apply H; now left). reflexivity.
Qed.
Lemma cwr_nil {A} d : @cwr A (S d) [] = []. Proof. reflexivity. Qed.
Lemma cwr_cons {A} d (x : A) l : cwr (S d) (x :: l) = map (cons x) (cwr d (x :: l)) ++ cwr (S d) l. Proof. reflexivity. Qed.
Lemma cwr_in {A} d (l : list A) g : In g (cwr d l) -> length g = d /\ incl g l.
Proof.
  revert l g; induction d as [|d IHd]; intros l g.
  - intros [<-|[]]. split; [reflexivity|intros a []].
  - induction l as [|x l IHl]; [intros []|]. rewrite cwr_cons, in_app_iff. intros [H|H].
    + apply in_map_iff in H as (g' & <- & H). apply IHd in H as [H1 H2]. split; [cbn; now rewrite H1|]. intros a [<-|Ha]; [now left|auto].
    + apply IHl in H as [H1 H2]. split; [exact H1|]. intros a Ha. right. auto.
Qed.

(** monomials of degree d in the variables k, ..., n - 1 *)
Definition es (n k : nat) : list idx := map (unit_idx n) (seq k (n - k)).
Lemma es_in n k a : In a (es n k) -> exists i, k <= i < n /\ a = unit_idx n i.
Proof. intro H. apply in_map_iff in H as (i & <- & H). apply in_seq in H. exists i. split; [lia|reflexivity]. Qed.
Definition homog (n k d : nat) : list idx := map (isum n) (cwr d (es n k)).
Lemma homog_0 n k : homog n k 0 = [repeat 0 n]. Proof. reflexivity. Qed.
Lemma es_S n k : k < n -> es n k = unit_idx n k :: es n (S k).
Proof. intro H. unfold es. replace (n - k) with (S (n - S k)) by lia. reflexivity. Qed.
Lemma homog_S n k d : k < n -> homog n k (S d) = map (iadd (unit_idx n k)) (homog n k d) ++ homog n (S k) (S d).
Proof. intro H. unfold homog. rewrite (es_S n k) by auto. rewrite cwr_cons, map_app, !map_map. reflexivity. Qed.
Lemma homog_end n d : homog n n (S d) = [].
Proof. unfold homog, es. rewrite Nat.sub_diag. reflexivity. Qed.
Lemma homog_spec n d k : k <= n -> NoDup (homog n k d) /\
  forall a, In a (homog n k d) <-> length a = n /\ degree_of a = d /\ forall i, i < k -> nth i a 0 = 0.
Proof.
  revert k. induction d as [|d IHd]; intros k Hk.
  - rewrite homog_0. split; [constructor; [easy|constructor]|]. intro a. cbn. split.
    + intros [<-|[]]. split; [apply repeat_length|]. split; [apply degree_repeat|]. intros; apply nth_repeat.
    + intros (L & D & _). left. symmetry. now apply degree_zero_iff.
  - remember (n - k) as m eqn:Em. revert k Hk Em. induction m as [|m IHm]; intros k Hk Em.
    + assert (k = n) as -> by lia. rewrite homog_end. split; [constructor|]. intro a. split; [easy|]. intros (L & D & Z).
      assert (a = repeat 0 n) as -> by (apply idx_ext; [now rewrite repeat_length|]; intros i Hi; rewrite nth_repeat; apply Z; lia).
      rewrite degree_repeat in D. easy.
    + rewrite homog_S by lia. destruct (IHd k Hk) as [N1 I1]. destruct (IHm (S k)) as [N2 I2]; [lia|lia|].
      assert (U : k < n) by lia. split.
      * assert (NA : forall l1 l2 : list idx, NoDup l1 -> NoDup l2 -> (forall a, In a l1 -> ~ In a l2) -> NoDup (l1 ++ l2)).
        { clear. induction l1 as [|x l1 IH]; intros l2 H1 H2 H; [exact H2|]. inversion H1; subst. cbn. constructor.
          - rewrite in_app_iff. intros [K|K]; [auto|]. apply (H x); [now left|auto].
          - apply IH; auto. intros a Ha. apply H. now right. }
        apply NA; [|exact N2|].
        -- apply nodup_map_inj; [|exact N1]. intros a b Ha Hb E. apply I1 in Ha as (La & _). apply I1 in Hb as (Lb & _).
           rewrite !(iadd_comm (unit_idx n k)) in E. apply map2_add_inj in E; rewrite ?unit_idx_length; auto.
        -- intros a Ha Ha'. apply in_map_iff in Ha as (b & <- & Hb). apply I1 in Hb as (Lb & _). apply I2 in Ha' as (_ & _ & Z).
           specialize (Z k ltac:(lia)). rewrite nth_iadd, nth_unit, Nat.eqb_refl in Z by (rewrite ?unit_idx_length; auto). lia.
      * intro a. rewrite in_app_iff, in_map_iff, I2. split.
        -- intros [(b & <- & Hb)|(L & D & Z)].
           ++ apply I1 in Hb as (L & D & Z). split; [apply iadd_length; auto using unit_idx_length|].
              split; [rewrite degree_iadd, degree_unit by (rewrite ?unit_idx_length; auto); lia|].
              intros i Hi. rewrite nth_iadd, nth_unit by (rewrite ?unit_idx_length; auto). rewrite Z by lia.
              destruct (Nat.eqb_spec i k); [lia|reflexivity].
           ++ split; [auto|]. split; [auto|]. intros i Hi. apply Z. lia.
        -- intros (L & D & Z). destruct (Nat.eq_dec (nth k a 0) 0) as [E|E].
           ++ right. split; [auto|]. split; [auto|]. intros i Hi. destruct (Nat.eq_dec i k) as [->|]; [auto|apply Z; lia].
           ++ left. set (b := set_nth a k (nth k a 0 - 1)).
              assert (GL : forall (l : idx) i v, length (set_nth l i v) = length l) by (clear; induction l as [|x l IH]; intros [|j] v; cbn; auto).
              assert (GN : forall (l : idx) i v j, i < length l -> nth j (set_nth l i v) 0 = if Nat.eqb j i then v else nth j l 0)
                by (clear; induction l as [|x l IH]; intros [|i] v [|j] H; cbn in *; try lia; auto; apply IH; lia).
              assert (Lb : length b = n) by (unfold b; rewrite GL; auto).
              assert (Eb : iadd (unit_idx n k) b = a).
              { apply idx_ext; [rewrite (iadd_length n); auto using unit_idx_length|]. intros i _.
                rewrite nth_iadd, nth_unit by (rewrite ?unit_idx_length; auto). unfold b. rewrite GN by lia. destruct (Nat.eqb_spec i k); [subst|]; lia. }
              exists b. split; [exact Eb|]. apply I1. split; [exact Lb|]. split.
              ** rewrite <- Eb in D. rewrite degree_iadd, degree_unit in D by (rewrite ?unit_idx_length; auto). lia.
              ** intros i Hi. unfold b. rewrite GN by lia. destruct (Nat.eqb_spec i k); [lia|apply Z; lia].
Qed.

(** the basis by degrees *)
Fixpoint basis_list (n d : nat) : list idx :=
  match d with 0 => [repeat 0 n] | S d' => basis_list n d' ++ homog n 0 (S d') end.
Lemma basis_unfold n d : basis_list n d = map (isum n) (cwr d (repeat 0 n :: es n 0)).
Proof.
  induction d as [|d IH]; [reflexivity|]. cbn [basis_list]. rewrite cwr_cons, map_app, map_map, IH. f_equal.
  apply map_ext_in. intros g Hg. cbn. apply cwr_in in Hg as [_ Hg]. rewrite iadd_zero_l; [reflexivity|]. apply isum_length.
  intros a Ha. apply Hg in Ha as [<-|Ha]; [apply repeat_length|]. apply es_in in Ha as (i & _ & ->). apply unit_idx_length.
Qed.
Lemma basis_ok n d : 0 < d -> pol_basis n d = Ok (map Index (basis_list n d)).
Proof.
  intro Hd. unfold pol_basis. rewrite basis_unfold, map_map. replace (seq 0 n) with (seq 0 (n - 0)) by (f_equal; lia). fold (es n 0).
  assert (H : forall g, In g (cwr d (repeat 0 n :: es n 0)) -> g <> [] /\ forall a, In a g -> length a = n).
  { intros g Hg. apply cwr_in in Hg as [L I]. split; [destruct g; [cbn in L; lia|easy]|]. intros a Ha.
    apply I in Ha as [<-|Ha]; [apply repeat_length|]. apply es_in in Ha as (i & _ & ->). apply unit_idx_length. }
  induction (cwr d (repeat 0 n :: es n 0)) as [|g l IH]; [reflexivity|]. cbn [mapM map].
  destruct (H g (or_introl eq_refl)) as [N L]. rewrite (elt_sum_isum n) by auto. cbn [bind]. rewrite IH by (intros; apply H; now right). reflexivity.
Qed.
Lemma basis_zero n : pol_basis n 0 = Ok [PyZero]. Proof. reflexivity. Qed.
Lemma basis_in n d a : In a (basis_list n d) <-> length a = n /\ degree_of a <= d.
Proof.
  induction d as [|d IH]; cbn [basis_list].
  - cbn. split.
    + intros [<-|[]]. rewrite degree_repeat, repeat_length. auto.
    + intros [L D]. left. symmetry. apply degree_zero_iff; [auto|lia].
  - rewrite in_app_iff, IH, (proj2 (homog_spec n (S d) 0 ltac:(lia))). split.
    + intros [[L D]|(L & D & _)]; split; auto; lia.
    + intros [L D]. destruct (Nat.eq_dec (degree_of a) (S d)); [right|left]; repeat split; auto; lia.
Qed.
Lemma basis_nodup n d : NoDup (basis_list n d).
Proof.
  induction d as [|d IH]; cbn [basis_list]; [constructor; [easy|constructor]|].
  assert (NA : forall l1 l2 : list idx, NoDup l1 -> NoDup l2 -> (forall a, In a l1 -> ~ In a l2) -> NoDup (l1 ++ l2)).
  { clear. induction l1 as [|x l1 IH]; intros l2 H1 H2 H; [exact H2|]. inversion H1; subst. cbn. constructor.
    - rewrite in_app_iff. intros [K|K]; [auto|]. apply (H x); [now left|auto].
    - apply IH; auto. intros a Ha. apply H. now right. }
  apply NA; [exact IH|apply homog_spec; lia|]. intros a H1 H2. apply basis_in in H1 as [_ H1]. apply homog_spec in H2 as (_ & H2 & _); lia.
Qed.

(** the number of elements *)
Lemma cwr_length {A} d (x : A) l : length (cwr d (x :: l)) * (fact d * fact (length l)) = fact (length l + d).
Proof.
  revert x l. induction d as [|d IHd]; intros x l; [rewrite Nat.add_0_r; change (fact 0) with 1; cbn [cwr length]; lia|].
  revert x. induction l as [|y l IHl]; intro x.
  - rewrite cwr_cons, cwr_nil, app_nil_r, map_length. specialize (IHd x []). cbn [length plus] in *. cbn [fact] in *. nia.
  - rewrite cwr_cons, app_length, map_length. specialize (IHd x (y :: l)). specialize (IHl y). cbn [length] in *.
    replace (S (length l) + S d) with (S (length l + S d)) by lia. cbn [fact] in *. change (fact (length l + S d) + (length l + S d) * fact (length l + S d)) with (S (length l + S d) * fact (length l + S d)).
    replace (S (length l) + d) with (length l + S d) in IHd by lia. nia.
Qed.
Lemma comb_mul n k : k <= n -> forall c, c * (fact k * fact (n - k)) = fact n -> comb n k = c.
Proof.
  intros H c E. unfold comb. rewrite (proj2 (Nat.leb_le k n) H), <- E. apply Nat.div_mul.
  pose proof (lt_O_fact k). pose proof (lt_O_fact (n - k)). nia.
Qed.
Lemma basis_length n d : length (basis_list n d) = pol_dim n d.
Proof.
  rewrite basis_unfold, map_length. symmetry. unfold pol_dim. apply comb_mul; [lia|]. replace (n + d - d) with n by lia.
  pose proof (cwr_length d (repeat 0 n) (es n 0)) as H. unfold es in H. rewrite map_length, seq_length, Nat.sub_0_r in H.
  unfold es. rewrite Nat.sub_0_r. exact H.
Qed.
Lemma dim_formula n d : (pol_dim n d * (fact n * fact d) = fact (n + d))%nat.
Proof.
  rewrite <- basis_length, basis_unfold, map_length. pose proof (cwr_length d (repeat 0 n) (es n 0)) as H.
  unfold es in *. rewrite map_length, seq_length, Nat.sub_0_r in *. rewrite (Nat.mul_comm (fact n)). exact H.
Qed.
(** lower degrees come first *)
Lemma basis_split n d d' : d' <= d -> exists tail, basis_list n d = basis_list n d' ++ tail.
Proof.
  induction d as [|d IH]; intro H; [assert (d' = 0) as -> by lia; exists []; now rewrite app_nil_r|].
  destruct (Nat.eq_dec d' (S d)) as [->|]; [exists []; now rewrite app_nil_r|]. destruct IH as [t E]; [lia|].
  exists (t ++ homog n 0 (S d)). cbn [basis_list]. rewrite E. now rewrite app_assoc.
Qed.
Lemma basis_prefix n d d' : d' <= d -> firstn (pol_dim n d') (basis_list n d) = basis_list n d'.
Proof.
  intro H. destruct (basis_split n d d' H) as [t E]. rewrite E, <- basis_length, firstn_app, Nat.sub_diag, firstn_all. cbn. apply app_nil_r.
Qed.
Lemma basis_spec n d : (0 < d)%nat -> exists B, pol_basis n d = Ok (map Index B) /\ NoDup B /\
  (forall a, In a B <-> length a = n /\ (degree_of a <= d)%nat) /\ length B = pol_dim n d /\
  (forall d', (d' <= d)%nat -> forall a, In a (firstn (pol_dim n d') B) <-> length a = n /\ (degree_of a <= d')%nat).
Proof.
  intro Hd. exists (basis_list n d). split; [now apply basis_ok|]. split; [apply basis_nodup|]. split; [apply basis_in|]. split; [apply basis_length|].
  intros d' H a. rewrite basis_prefix by auto. apply basis_in.
Qed.
(** 0, e_1, ..., e_n come first *)
Lemma basis_first n d : (0 < d)%nat -> firstn (S n) (basis_list n d) = repeat 0%nat n :: map (unit_idx n) (seq 0 n).
Proof.
  intro Hd. assert (E : basis_list n 1 = repeat 0 n :: map (unit_idx n) (seq 0 n)).
  { cbn [basis_list app]. f_equal. unfold homog, es. rewrite Nat.sub_0_r. 
    assert (G : forall l, (forall i, In i l -> i < n) -> map (isum n) (cwr 1 (map (unit_idx n) l)) = map (unit_idx n) l).
    { induction l as [|i l IH]; intro H; [reflexivity|]. cbn [map]. rewrite cwr_cons. cbn [cwr map app]. f_equal.
      - cbn. rewrite iadd_comm, iadd_zero_l by apply unit_idx_length. reflexivity.
      - apply IH. intros; apply H; now right. }
    apply G. intros i Hi. apply in_seq in Hi. lia. }
  destruct (basis_split n d 1 Hd) as [t ->]. rewrite E.
  replace (S n) with (length (repeat 0 n :: map (unit_idx n) (seq 0 n))) at 1 by (cbn; now rewrite map_length, seq_length).
  rewrite firstn_app, Nat.sub_diag, firstn_all. cbn [firstn]. apply app_nil_r.
Qed.
Lemma basis_first_code n d B : (0 < d)%nat -> pol_basis n d = Ok (map Index B) -> firstn (S n) B = repeat 0%nat n :: map (unit_idx n) (seq 0 n).
Proof.
  intros Hd E. assert (B = basis_list n d) as ->; [|now apply basis_first].
  rewrite basis_ok in E by auto. injection E as E. revert E. generalize (basis_list n d) as C. induction B as [|b B IH]; intros [|c C] E; try easy.
  cbn in E. injection E as -> E. f_equal. now apply IH.
Qed.
Lemma pol_ones_zero n : pol_ones n 0 = Raise TypeError. Proof. reflexivity. Qed.
Lemma pol_ones_ok n d x : (0 < d)%nat -> exists p, pol_ones n d = Ok p /\
  (forall a, dict_get idx_eqb a p = Some 1%R <-> length a = n /\ (degree_of a <= d)%nat) /\ (length x = n -> pol_evaluate p x = Ok (lsum (map (mono x) (basis_list n d)))).
Proof.
  intro Hd. unfold pol_ones. rewrite basis_ok by auto. cbn [bind].
  assert (E : mapM (fun e => match e with Index v => Ok (v, 1%R) | _ => Raise TypeError end) (map Index (basis_list n d)) = Ok (map (fun a => (a, 1%R)) (basis_list n d))).
  { induction (basis_list n d) as [|a l IH]; [reflexivity|]. cbn [map mapM bind]. rewrite IH. reflexivity. }
  rewrite E. cbn [bind]. eexists. split; [reflexivity|].
  assert (K : map fst (map (fun a => (a, 1%R)) (basis_list n d)) = basis_list n d) by (rewrite map_map; cbn; apply map_id).
  assert (F : pol_init (map (fun a => (a, 1%R)) (basis_list n d)) 0 = map (fun a => (a, 1%R)) (basis_list n d)).
  { rewrite pol_init_filter by (rewrite K; apply basis_nodup). clear. induction (basis_list n d) as [|a l IH]; [reflexivity|]. cbn [map filter snd].
    assert (C : isclose 0 0 1 0 = false) by (destruct (isclose 0 0 1 0) eqn:C; [apply isclose_zero in C; lra|auto]). rewrite C. cbn [negb]. now rewrite IH. }
  rewrite F. split.
  - intro a. rewrite dict_get_in by (rewrite K; apply basis_nodup). rewrite <- basis_in, in_map_iff. split.
    + intros (b & Eb & Hb). now injection Eb as ->.
    + intro H. exists a. auto.
  - intro Lx. rewrite (pol_evaluate_peval n); auto.
    + unfold peval. rewrite map_map. cbn [fst snd]. do 2 f_equal. apply map_ext. intro a. lra.
    + intros kv H. apply in_map_iff in H as (a & <- & H). cbn. apply basis_in in H. tauto.
Qed.
Lemma pol_ones_basis n d x : (0 < d)%nat -> exists p B, pol_ones n d = Ok p /\ pol_basis n d = Ok (map Index B) /\
  (forall a, dict_get idx_eqb a p = Some 1%R <-> length a = n /\ (degree_of a <= d)%nat) /\ (length x = n -> pol_evaluate p x = Ok (lsum (map (mono x) B))).
Proof. intro Hd. destruct (pol_ones_ok n d x Hd) as (p & H1 & H2 & H3). exists p, (basis_list n d). split; [exact H1|]. split; [now apply basis_ok|]. auto. Qed.
