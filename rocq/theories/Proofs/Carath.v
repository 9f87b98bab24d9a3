(** Measures with finitely many moments: few points suffice (Caratheodory), and limits of measures
    are measures (C87). *)
From Verif Require Import Base.Vec Base.VecFacts Spec.Basic Spec.Moments Proofs.Coord Proofs.MomentP Proofs.Compact Proofs.QModule Proofs.QMeasure Proofs.QConc.

(** ** linear dependence *)
Definition wsum {A} (f : A -> R) (s : list (R * A)) : R := lsum (map (fun wa => fst wa * f (snd wa)) s).
Lemma wsum_cons {A} (f : A -> R) w a s : wsum f ((w, a) :: s) = w * f a + wsum f s. Proof. reflexivity. Qed.
Lemma wsum_app {A} (f : A -> R) s t : wsum f (s ++ t) = wsum f s + wsum f t.
Proof. unfold wsum. now rewrite map_app, lsum_app'. Qed.
Lemma wsum_lin {A} (f g : A -> R) c s : wsum (fun a => f a - c * g a) s = wsum f s - c * wsum g s.
Proof. induction s as [|[w a] s IH]; [unfold wsum; cbn; ring|]. rewrite !wsum_cons, IH. ring. Qed.
Lemma wsum_ext {A} (f g : A -> R) s : (forall wa, In wa s -> f (snd wa) = g (snd wa)) -> wsum f s = wsum g s.
Proof. intro H. unfold wsum. f_equal. apply map_ext_in. intros wa Hwa. now rewrite H. Qed.
Lemma wsum_zero {A} (f : A -> R) s : (forall wa, In wa s -> f (snd wa) = 0) -> wsum f s = 0.
Proof.
  induction s as [|[w a] s IH]; intro H; [reflexivity|]. rewrite wsum_cons, IH by (intros; apply H; now right). assert (Z : f a = 0) by exact (H (w, a) (or_introl eq_refl)). rewrite Z. ring.
Qed.
Lemma split_map {A B} (f : A -> B) s l1 l2 : map f s = l1 ++ l2 -> exists s1 s2, s = s1 ++ s2 /\ map f s1 = l1 /\ map f s2 = l2.
Proof.
  revert s. induction l1 as [|b l1 IH]; intros s E; [exists [], s; auto|]. destruct s as [|a s]; [discriminate|]. injection E as E1 E2.
  destruct (IH s E2) as (s1 & s2 & -> & <- & <-). exists (a :: s1), s2. cbn. rewrite E1. auto.
Qed.
Lemma dependent {A} (n : nat) : forall (f : nat -> A -> R) (l : list A), (n < length l)%nat ->
  exists s, map snd s = l /\ (exists wa, In wa s /\ fst wa <> 0) /\ forall k, (k < n)%nat -> wsum (f k) s = 0.
Proof.
  induction n as [|n IH]; intros f l Hl.
  - exists (map (fun a => (1, a)) l). split; [rewrite map_map; apply map_id|]. split; [|intros; lia]. destruct l as [|a l]; [cbn in Hl; lia|]. exists (1, a). split; [now left|cbn; lra].
  - destruct (Exists_dec (fun a => f n a <> 0) l) as [E|E]; [intro a; destruct (Req_EM_T (f n a) 0); [right|left]; tauto| |].
    + apply Exists_exists in E as (a0 & Hin & Hne). apply in_split in Hin as (l1 & l2 & ->). rewrite app_length in Hl. cbn in Hl.
      destruct (IH (fun k a => f k a - f k a0 / f n a0 * f n a) (l1 ++ l2)) as (s & Es & (wa & Hwa & Nwa) & Hs); [rewrite app_length; lia|].
      apply split_map in Es as (s1 & s2 & -> & <- & <-). set (w0 := - (wsum (f n) (s1 ++ s2) / f n a0)).
      exists (s1 ++ (w0, a0) :: s2). split; [now rewrite map_app|]. split.
      * exists wa. split; [|exact Nwa]. apply in_app_or in Hwa as [Hwa|Hwa]; apply in_or_app; [now left|right; now right].
      * intros k Hk. rewrite wsum_app, wsum_cons. replace (wsum (f k) s1 + (w0 * f k a0 + wsum (f k) s2)) with (wsum (f k) (s1 ++ s2) + w0 * f k a0) by (rewrite wsum_app; ring).
        destruct (Nat.eq_dec k n) as [->|Nk]; [unfold w0; field; exact Hne|]. specialize (Hs k ltac:(lia)). rewrite wsum_lin in Hs.
        replace (w0 * f k a0) with (- (f k a0 / f n a0 * wsum (f n) (s1 ++ s2))) by (unfold w0; field; exact Hne). lra.
    + destruct (IH f l ltac:(lia)) as (s & <- & Hw & Hs). exists s. split; [reflexivity|]. split; [exact Hw|]. intros k Hk.
      destruct (Nat.eq_dec k n) as [->|Nk]; [|apply Hs; lia]. apply wsum_zero. intros wa Hwa. destruct (Req_EM_T (f n (snd wa)) 0) as [|N]; [auto|]. exfalso. apply E.
      apply Exists_exists. exists (snd wa). split; [now apply in_map|exact N].
Qed.
(** ** Caratheodory *)
Lemma min_ratio (s : list (R * (R * vec))) : (exists a, In a s /\ 0 < fst a) ->
  exists a, In a s /\ 0 < fst a /\ forall b, In b s -> 0 < fst b -> fst (snd a) / fst a <= fst (snd b) / fst b.
Proof.
  induction s as [|c s IH]; intros (a & Ha & Pa); [easy|]. destruct (Exists_dec (fun b : R * (R * vec) => 0 < fst b) s) as [E|E]; [intro b; apply Rlt_dec| |].
  - apply Exists_exists in E. destruct (IH E) as (b & Hb & Pb & Mb). destruct (Rlt_dec 0 (fst c)) as [Pc|Pc].
    + destruct (Rle_lt_dec (fst (snd c) / fst c) (fst (snd b) / fst b)) as [L|L].
      * exists c. split; [now left|]. split; [exact Pc|]. intros d [<-|Hd] Pd; [lra|]. specialize (Mb d Hd Pd). lra.
      * exists b. split; [now right|]. split; [exact Pb|]. intros d [<-|Hd] Pd; [lra|auto].
    + exists b. split; [now right|]. split; [exact Pb|]. intros d [<-|Hd] Pd; [lra|auto].
  - assert (NE : forall b, In b s -> ~ 0 < fst b) by (intros b Hb Pb; apply E, Exists_exists; eauto).
    destruct Ha as [<-|Ha]; [|exfalso; exact (NE a Ha Pa)]. exists c. split; [now left|]. split; [exact Pa|]. intros d [<-|Hd] Pd; [lra|]. exfalso. exact (NE d Hd Pd).
Qed.
Definition nonneg_mu (mu : list (R * vec)) : Prop := forall wx, In wx mu -> 0 <= fst wx.
Lemma integral_shift t (s : list (R * (R * vec))) f : integral (map (fun a => (fst (snd a) - t * fst a, snd (snd a))) s) f = integral (map snd s) f - t * wsum (fun b => f (snd b)) s.
Proof. induction s as [|[l [w x]] s IH]; [unfold integral, wsum; cbn; ring|]. cbn [map fst snd]. rewrite !integral_cons, wsum_cons, IH. cbn [snd]. ring. Qed.
Lemma carath_step n (f : nat -> vec -> R) mu : nonneg_mu mu -> (n < length mu)%nat ->
  exists mu', (length mu' < length mu)%nat /\ nonneg_mu mu' /\ (forall wx, In wx mu' -> exists w, In (w, snd wx) mu) /\
  forall k, (k < n)%nat -> integral mu' (f k) = integral mu (f k).
Proof.
  intros Hp Hn. destruct (dependent n (fun k (b : R * vec) => f k (snd b)) mu Hn) as (s0 & E0 & (wa & Hwa & Nwa) & H0).
  assert (S : exists s : list (R * (R * vec)), map snd s = mu /\ (exists a, In a s /\ 0 < fst a) /\ forall k, (k < n)%nat -> wsum (fun b => f k (snd b)) s = 0).
  { destruct (Rle_lt_dec (fst wa) 0) as [L|L]; [|exists s0; split; [exact E0|split; [exists wa; auto|exact H0]]].
    exists (map (fun a => (- fst a, snd a)) s0). split; [rewrite map_map; cbn [snd]; exact E0|]. split.
    - exists (- fst wa, snd wa). split; [apply (in_map (fun a => (- fst a, snd a))); exact Hwa|cbn; lra].
    - intros k Hk. specialize (H0 k Hk). unfold wsum in *. rewrite map_map. cbn [fst snd]. rewrite (map_ext _ (fun a => (-1) * (fst a * f k (snd (snd a))))) by (intro; ring).
      clear - H0. assert (G : forall l : list (R * (R * vec)), lsum (map (fun a => (-1) * (fst a * f k (snd (snd a)))) l) = - lsum (map (fun a => fst a * f k (snd (snd a))) l)).
      { induction l as [|a l IH]; cbn; [ring|]. unfold lsum in *. rewrite IH. ring. } rewrite G, H0. ring. }
  destruct S as (s & Es & Hpos & Hs). destruct (min_ratio s Hpos) as (a & Ha & Pa & Ma). set (t := fst (snd a) / fst a) in *.
  assert (Wp : forall b, In b s -> 0 <= fst (snd b)) by (intros b Hb; apply Hp; rewrite <- Es; now apply in_map).
  assert (T0 : 0 <= t) by (apply Rmult_le_pos; [now apply Wp|apply Rlt_le, Rinv_0_lt_compat, Pa]).
  assert (Q : forall b, In b s -> 0 <= fst (snd b) - t * fst b).
  { intros b Hb. pose proof (Wp b Hb) as Wb. destruct (Rle_lt_dec (fst b) 0) as [L|L]; [nra|]. specialize (Ma b Hb L).
    apply (Rmult_le_compat_r (fst b)) in Ma; [|lra]. replace (fst (snd b) / fst b * fst b) with (fst (snd b)) in Ma by (field; lra). lra. }
  apply in_split in Ha as (s1 & s2 & E). set (F := fun b : R * (R * vec) => (fst (snd b) - t * fst b, snd (snd b))).
  exists (map F (s1 ++ s2)). split; [|split; [|split]].
  - rewrite map_length, <- Es, map_length, E, !app_length. cbn. lia.
  - intros wx Hwx. apply in_map_iff in Hwx as (b & <- & Hb). apply Q. rewrite E. apply in_or_app. apply in_app_or in Hb as [Hb|Hb]; [now left|right; now right].
  - intros wx Hwx. apply in_map_iff in Hwx as (b & <- & Hb). exists (fst (snd b)). unfold F. cbn [snd]. rewrite <- surjective_pairing, <- Es. apply in_map. rewrite E. apply in_or_app. apply in_app_or in Hb as [Hb|Hb]; [now left|right; now right].
  - intros k Hk. specialize (Hs k Hk). rewrite <- Es. pose proof (integral_shift t s (f k)) as I. fold F in I. rewrite Hs in I.
    transitivity (integral (map F s) (f k)); [|lra]. rewrite E, !map_app. cbn [map]. unfold integral. rewrite !map_app, !lsum_app'. cbn [map].
    assert (Z : fst (F a) = 0) by (unfold F, t; cbn [fst]; field; lra). rewrite Z.
    change (lsum (0 * f k (snd (F a)) :: map (fun wx => fst wx * f k (snd wx)) (map F s2))) with (0 * f k (snd (F a)) + lsum (map (fun wx => fst wx * f k (snd wx)) (map F s2))). ring.
Qed.
Lemma carath n (f : nat -> vec -> R) : forall N mu, (length mu <= N)%nat -> nonneg_mu mu ->
  exists mu', (length mu' <= n)%nat /\ nonneg_mu mu' /\ (forall wx, In wx mu' -> exists w, In (w, snd wx) mu) /\
  forall k, (k < n)%nat -> integral mu' (f k) = integral mu (f k).
Proof.
  induction N as [|N IH]; intros mu HN Hp.
  - exists mu. split; [lia|]. split; [exact Hp|]. split; [|auto]. intros [w x] H. exists w. exact H.
  - destruct (le_lt_dec (length mu) n) as [L|L].
    + exists mu. split; [lia|]. split; [exact Hp|]. split; [|auto]. intros [w x] H. exists w. exact H.
    + destruct (carath_step n f mu Hp L) as (mu1 & L1 & P1 & S1 & I1). destruct (IH mu1) as (mu2 & L2 & P2 & S2 & I2); [lia|exact P1|].
      exists mu2. split; [exact L2|]. split; [exact P2|]. split; [|intros k Hk; now rewrite I2, I1].
      intros wx Hwx. destruct (S2 wx Hwx) as (w & Hw). exact (S1 _ Hw).
Qed.

(** ** limits of measures *)
(** z lists a mass and a point, n times *)
Definition atom (z : vec) (i : nat) : R * vec := (nth (4 * i) z 0, [nth (4 * i + 1) z 0; nth (4 * i + 2) z 0; nth (4 * i + 3) z 0]).
Definition decode (n : nat) (z : vec) : list (R * vec) := map (atom z) (seq 0 n).
Fixpoint encode (mu : list (R * vec)) : vec := match mu with [] => [] | (w, x) :: mu => w :: nth 0 x 0 :: nth 1 x 0 :: nth 2 x 0 :: encode mu end.
Lemma atom_shift w a b c z i : atom (w :: a :: b :: c :: z) (S i) = atom z i.
Proof. unfold atom. replace (4 * S i)%nat with (S (S (S (S (4 * i))))) by lia. reflexivity. Qed.
Lemma decode_encode mu : (forall wx, In wx mu -> length (snd wx) = 3%nat) -> decode (length mu) (encode mu) = mu.
Proof.
  unfold decode. induction mu as [|[w x] mu IH]; intro H; [reflexivity|]. cbn [length encode seq map]. f_equal.
  - unfold atom. cbn. assert (L : length x = 3%nat) by exact (H _ (or_introl eq_refl)). destruct (len3_inv _ L) as (a & b & c & ->). reflexivity.
  - rewrite <- seq_shift, map_map. rewrite (map_ext _ (atom (encode mu))) by (intro; apply atom_shift). apply IH. intros; apply H; now right.
Qed.
Lemma encode_length mu : length (encode mu) = (4 * length mu)%nat.
Proof. induction mu as [|[w x] mu IH]; [reflexivity|]. cbn [encode length]. rewrite IH. lia. Qed.
Lemma contR_pow n f k : contR n f -> contR n (fun z => f z ^ k).
Proof. intro H. induction k as [|k IH]; [apply (contR_const n 1)|]. cbn [pow]. now apply contR_mult. Qed.
Lemma contR_evv N i p : contR N (fun z => evv (snd (atom z i)) p).
Proof.
  unfold evv, ev. induction p as [|[u c] p IH].
  - apply (contR_ext _ _ (fun _ => 0)); [intros; apply lin_nil|apply contR_const].
  - apply (contR_ext _ _ (fun z => c * mev (vf (snd (atom z i))) u + lin (mev (vf (snd (atom z i)))) p)); [intros; apply lin_cons|].
    apply contR_plus; [|exact IH]. apply contR_mult; [apply contR_const|]. destruct u as [[a b] d]. unfold mev, vf, atom. cbn [snd nth].
    apply contR_mult; [apply contR_mult|]; apply contR_pow, contR_nth.
Qed.
Lemma contR_integral N n p : contR N (fun z => integral (decode n z) (fun x => evv x p)).
Proof.
  unfold decode, integral. apply (contR_ext _ _ (fun z => lsum (map (fun i => fst (atom z i) * evv (snd (atom z i)) p) (seq 0 n)))); [intros; now rewrite map_map|].
  generalize 0%nat. induction n as [|n IH]; intro k; [apply (contR_const N 0)|]. cbn [seq map].
  change (contR N (fun z => fst (atom z k) * evv (snd (atom z k)) p + lsum (map (fun i => fst (atom z i) * evv (snd (atom z i)) p) (seq (S k) n)))).
  apply contR_plus; [|apply IH]. apply contR_mult; [apply contR_nth|apply contR_evv].
Qed.
Lemma mass_le mu w x : nonneg_mu mu -> In (w, x) mu -> w <= integral mu (fun _ => 1).
Proof.
  intros Hp Hin. replace w with (fst (w, x) * 1) by (cbn; ring). unfold integral. apply (lsum_in (fun wx : R * vec => fst wx * 1)); [|exact Hin]. intros a Ha. pose proof (Hp a Ha). lra.
Qed.
Lemma integral_pad mu k f : integral (mu ++ repeat (0, [0; 0; 0]) k) f = integral mu f.
Proof.
  unfold integral. rewrite map_app, lsum_app'. assert (Z : lsum (map (fun wx : R * vec => fst wx * f (snd wx)) (repeat (0, [0; 0; 0]) k)) = 0).
  { induction k as [|k IH]; [reflexivity|]. cbn [repeat map fst snd]. change (0 * f [0; 0; 0] + lsum (map (fun wx : R * vec => fst wx * f (snd wx)) (repeat (0, [0; 0; 0]) k)) = 0). rewrite IH. ring. } rewrite Z. ring.
Qed.
Definition closes (N : R -> vec -> Prop) (K : vec -> Prop) : Prop :=
  antitone N /\ forall a, length a = 3%nat -> (forall e, 0 < e -> exists x, length x = 3%nat /\ near 3 e x a /\ N e x) -> K a.
Lemma atom_near n e z a i : (i < n)%nat -> near (4 * n) e z a -> near 3 e (snd (atom z i)) (snd (atom a i)).
Proof. intros Hi H k Hk. unfold atom. cbn [snd]. destruct k as [|[|[|k]]]; try lia; cbn [nth]; apply H; lia. Qed.
Lemma limit_measure_gen (N : R -> vec -> Prop) (K : vec -> Prop) r (H : list PP) (T : PP -> R) m : closes N K -> 0 < r -> 0 <= m -> In (C 1) H -> T (C 1) = m ->
  (forall d, 0 < d -> exists nu, cube_mu r nu /\ (forall wx, In wx nu -> N d (snd wx)) /\
     forall h, In h H -> Rabs (T h - integral nu (fun x => evv x h)) <= d) ->
  exists nu, measure_ok 3 nu /\ (forall wx, In wx nu -> K (snd wx)) /\ forall h, In h H -> integral nu (fun x => evv x h) = T h.
Proof.
  intros (NA & NK) Hr Hm H1 T1 HX. set (n := length H).
  set (ok := fun (d : R) (z : vec) => length z = (4 * n)%nat /\ nonneg_mu (decode n z) /\
    (forall wx, In wx (decode n z) -> in_cube r (vf (snd wx)) /\ (0 < fst wx -> N d (snd wx))) /\
    forall h, In h H -> Rabs (T h - integral (decode n z) (fun x => evv x h)) <= d).
  assert (Ex : forall d, 0 < d -> exists z, ok d z).
  { intros d Hd. destruct (HX d Hd) as (nu & Cn & Gn & In_). assert (Pn : nonneg_mu nu) by (intros wx Hwx; apply Cn; exact Hwx).
    destruct (carath n (fun k x => evv x (nth k H (C 0))) (length nu) nu (le_n _) Pn) as (mu & Lm & Pm & Sm & Im).
    set (mu' := mu ++ repeat (0, [0; 0; 0]) (n - length mu)). assert (L' : length mu' = n) by (unfold mu'; rewrite app_length, repeat_length; lia).
    assert (L3 : forall wx, In wx mu' -> length (snd wx) = 3%nat).
    { intros wx Hwx. apply in_app_or in Hwx as [Hwx|Hwx]; [destruct (Sm wx Hwx) as (w & Hw); apply Cn in Hw; apply Hw|]. apply repeat_spec in Hwx as ->. reflexivity. }
    exists (encode mu'). assert (D : decode n (encode mu') = mu') by (rewrite <- L'; now apply decode_encode). split; [rewrite encode_length, L'; reflexivity|]. rewrite D.
    split; [|split].
    - intros wx Hwx. apply in_app_or in Hwx as [Hwx|Hwx]; [auto|]. apply repeat_spec in Hwx as ->. cbn. lra.
    - intros wx Hwx. apply in_app_or in Hwx as [Hwx|Hwx].
      + destruct (Sm wx Hwx) as (w & Hw). split; [apply Cn in Hw; apply Hw|]. intros _. exact (Gn _ Hw).
      + apply repeat_spec in Hwx as ->. cbn [fst snd]. split; [|lra]. intros i Hi. unfold vf. destruct i as [|[|[|i]]]; try lia; cbn; rewrite Rabs_R0; lra.
    - intros h Hh. apply (In_nth _ _ (C 0)) in Hh as (k & Hk & <-). unfold mu'. rewrite integral_pad, (Im k) by exact Hk. apply In_, nth_In, Hk. }
  destruct (pickn (fun e z => exists d, 0 < d /\ d <= e /\ d <= 1 /\ ok d z) (4 * n) (Rmax r (m + 1))) as (a & La & Ha).
  - intros e e' z He (d & D0 & D1 & D2 & D3). exists d. split; [exact D0|split; [lra|split; [exact D2|exact D3]]].
  - intros e He. destruct (Ex (Rmin e 1)) as (z & Hz); [apply Rmin_pos; lra|]. exists z, (Rmin e 1). split; [apply Rmin_pos; lra|]. split; [apply Rmin_l|]. split; [apply Rmin_r|exact Hz].
  - intros e z i He (d & D0 & _ & D2 & (Lz & Pz & Cz & Iz)) Hi.
    assert (Hin : In (atom z (i / 4)) (decode n z)) by (apply in_map, in_seq; split; [lia|apply Nat.div_lt_upper_bound; lia]).
    pose proof (Nat.div_mod i 4 ltac:(lia)) as Ei. pose proof (Nat.mod_upper_bound i 4 ltac:(lia)) as Mi. destruct (Nat.eq_dec (i mod 4) 0) as [E0|N0].
    + apply Rle_trans with (m + 1); [|apply Rmax_r]. pose proof (Pz _ Hin) as W0. unfold atom in W0, Hin. cbn [fst] in W0. rewrite E0, Nat.add_0_r in Ei. rewrite <- Ei in W0, Hin. rewrite Rabs_pos_eq by exact W0.
      pose proof (mass_le _ _ _ Pz Hin) as W1. specialize (Iz _ H1). rewrite T1 in Iz. rewrite (integral_ext _ _ (fun _ => 1)) in Iz by (intros; apply ev_C). apply abs_le_inv in Iz. lra.
    + apply Rle_trans with r; [|apply Rmax_l]. destruct (Cz _ Hin) as (Cc & _). unfold atom, vf in Cc. cbn [snd] in Cc.
      destruct (i mod 4) as [|[|[|[|q]]]]; try lia; [specialize (Cc 0%nat ltac:(lia))|specialize (Cc 1%nat ltac:(lia))|specialize (Cc 2%nat ltac:(lia))]; cbn [nth] in Cc; rewrite <- Ei in Cc; exact Cc.
  - assert (Near : forall f d, contR (4 * n) f -> 0 < d -> exists z e, ok e z /\ 0 < e <= d /\ e <= 1 /\ Rabs (f z - f a) <= d).
    { intros f d Hf Hd. destruct (Hf a d La Hd) as (e0 & E0 & N0). destruct (Ha (Rmin d e0)) as (z & (d' & D0 & D1 & D2 & D3) & Nz); [now apply Rmin_pos|].
      exists z, d'. split; [exact D3|]. pose proof (Rmin_l d e0). split; [lra|]. split; [exact D2|]. apply N0; [apply D3|]. apply (near_le _ _ _ _ _ (Rmin_r d e0) Nz). }
    assert (W0 : nonneg_mu (decode n a)).
    { intros wx Hwx. apply in_map_iff in Hwx as (i & <- & Hi). destruct (Rle_lt_dec 0 (fst (atom a i))) as [|L]; [auto|exfalso].
      destruct (Near (fun z => nth (4 * i) z 0) (- fst (atom a i) / 2) (contR_nth _ _) ltac:(lra)) as (z & e & (_ & Pz & _) & _ & _ & Nz).
      assert (P : 0 <= fst (atom z i)) by (apply Pz, in_map, Hi). unfold atom in *. cbn [fst] in *. apply abs_le_inv in Nz. lra. }
    exists (filter (fun wx => negb (Rleb (fst wx) 0)) (decode n a)). split; [|split].
    + intros wx Hwx. apply filter_In in Hwx as (Hwx & _). split; [now apply W0|]. apply in_map_iff in Hwx as (i & <- & _). reflexivity.
    + intros wx Hwx. apply filter_In in Hwx as (Hwx & Hb). apply Bool.negb_true_iff, Rleb_false in Hb. apply in_map_iff in Hwx as (i & <- & Hi). apply NK; [reflexivity|]. intros e He.
      set (w := fst (atom a i)) in *. set (D := Rmin (w / 2) e). assert (HD : 0 < D) by (apply Rmin_pos; lra).
      destruct (Ha D HD) as (z & (d' & D0 & D1 & D2 & (Lz & Pz & Cz & _)) & Nz). pose proof (Rmin_l (w / 2) e) as M1. pose proof (Rmin_r (w / 2) e) as M2. fold D in M1, M2.
      exists (snd (atom z i)). assert (Hiz : In (atom z i) (decode n z)) by now apply in_map. apply in_seq in Hi. split; [reflexivity|]. split.
      * apply (near_le _ D); [exact M2|]. apply (atom_near n); [lia|exact Nz].
      * apply (NA d' e); [lra|]. apply (Cz _ Hiz). pose proof (Nz (4 * i)%nat ltac:(lia)) as N1. change (nth (4 * i) a 0) with w in N1. change (nth (4 * i) z 0) with (fst (atom z i)) in N1. apply abs_le_inv in N1. lra.
    + intros h Hh. assert (E : integral (filter (fun wx => negb (Rleb (fst wx) 0)) (decode n a)) (fun x => evv x h) = integral (decode n a) (fun x => evv x h)).
      { revert W0. generalize (decode n a). clear. intro mu. induction mu as [|[w x] mu IH]; intro Hp; [reflexivity|]. cbn [filter fst]. assert (Hw : 0 <= w) by exact (Hp _ (or_introl eq_refl)).
        assert (IH' : integral (filter (fun wx => negb (Rleb (fst wx) 0)) mu) (fun x => evv x h) = integral mu (fun x => evv x h)) by (apply IH; intros y Hy; apply Hp; now right).
        destruct (Rleb w 0) eqn:B; cbn [negb]; rewrite ?integral_cons, IH'; [apply Rleb_iff in B; replace w with 0 by lra; ring|reflexivity]. }
      rewrite E. destruct (Req_EM_T (integral (decode n a) (fun x => evv x h)) (T h)) as [|NE]; [auto|exfalso]. set (y := integral (decode n a) (fun x => evv x h)) in *.
      set (q := Rabs (y - T h)). assert (Hq : 0 < q) by (apply Rabs_pos_lt; lra). set (D := q / 3). assert (HD : 0 < D) by (unfold D; lra).
      destruct (Near _ D (contR_integral (4 * n) n h) HD) as (z & e & (_ & _ & _ & Iz) & He & _ & Nz). fold y in Nz. specialize (Iz h Hh).
      apply abs_le_inv in Iz, Nz. assert (Hle : q <= 2 * D) by (unfold q; apply Rabs_le; lra). unfold D in Hle, HD. lra.
Qed.
Lemma closes_polys (G : list PP) : closes (fun d x => forall g, In g G -> - d <= evv x g) (fun x => forall g, In g G -> 0 <= evv x g).
Proof.
  split; [intros e e' x He H g Hg; specialize (H g Hg); lra|]. intros a La H g Hg. destruct (Rle_lt_dec 0 (evv a g)) as [|L]; [auto|exfalso].
  set (y := evv a g) in *. destruct (contR_evv 4 0 g (0 :: a) (- y / 3) ltac:(cbn; now rewrite La) ltac:(lra)) as (e & He & N). destruct (H (Rmin e (- y / 3))) as (x & Lx & Nx & Gx); [apply Rmin_pos; lra|].
  assert (A : forall v : vec, length v = 3%nat -> snd (atom (0 :: v) 0) = v) by (intros v Lv; destruct (len3_inv _ Lv) as (v1 & v2 & v3 & ->); reflexivity).
  specialize (N (0 :: x) ltac:(cbn; now rewrite Lx)). rewrite !A in N by auto. fold y in N. specialize (Gx g Hg). pose proof (Rmin_l e (- y / 3)). pose proof (Rmin_r e (- y / 3)).
  assert (NN : near 4 e (0 :: x) (0 :: a)).
  { intros [|i] Hi; cbn [nth]; [rewrite Rminus_diag_eq, Rabs_R0 by reflexivity; lra|]. specialize (Nx i ltac:(lia)). lra. }
  specialize (N NN). apply abs_le_inv in N. lra.
Qed.
Lemma limit_measure (G : list PP) r (H : list PP) (T : PP -> R) m : 0 < r -> 0 <= m -> In (C 1) H -> T (C 1) = m ->
  (forall d, 0 < d -> exists nu, cube_mu r nu /\ (forall wx g, In wx nu -> In g G -> - d <= evv (snd wx) g) /\
     forall h, In h H -> Rabs (T h - integral nu (fun x => evv x h)) <= d) ->
  exists nu, measure_ok 3 nu /\ (forall wx g, In wx nu -> In g G -> 0 <= evv (snd wx) g) /\ forall h, In h H -> integral nu (fun x => evv x h) = T h.
Proof.
  intros Hr Hm H1 T1 HX. destruct (limit_measure_gen _ _ r H T m (closes_polys G) Hr Hm H1 T1) as (nu & N1 & N2 & N3).
  - intros d Hd. destruct (HX d Hd) as (nu & C1 & C2 & C3). exists nu. split; [exact C1|]. split; [|exact C3]. intros wx Hwx g Hg. now apply C2.
  - exists nu. split; [exact N1|]. split; [|exact N3]. intros wx g Hwx Hg. now apply N2.
Qed.
