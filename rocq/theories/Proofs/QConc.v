(** Functionals that are non-negative on a quadratic module: the masses of the nearby measures lie
    close to the set where the generators are non-negative (C87). *)
From Coq Require Import Setoid Morphisms Ring.
From Verif Require Import Base.Vec Base.VecFacts Spec.Basic Spec.Moments Proofs.Coord Proofs.QModule Proofs.QMeasure Proofs.MomentP.

Definition vf (v : vec) (i : nat) : R := nth i v 0.
Definition evv (v : vec) (p : PP) : R := ev (vf v) p.
Definition cube_mu (r : R) (mu : list (R * vec)) : Prop := forall wx, In wx mu -> 0 <= fst wx /\ length (snd wx) = 3%nat /\ in_cube r (vf (snd wx)).
Lemma mev_ext x y u : (forall i, (i < 3)%nat -> x i = y i) -> mev x u = mev y u.
Proof. intro H. destruct u as [[a b] c]. cbn. now rewrite !H by lia. Qed.
Lemma ev_ext x y p : (forall i, (i < 3)%nat -> x i = y i) -> ev x p = ev y p.
Proof. intro H. apply lin_ext. intro u. now apply mev_ext. Qed.
Lemma mev_bound r x u : 0 < r -> in_cube r x -> Rabs (mev x u) <= r ^ mdeg u.
Proof.
  intros Hr Hx. induction u as [|i u Hi IH] using mon_ind; [cbn; rewrite !Rmult_1_l, Rabs_R1; lra|].
  rewrite mev_plus, Rabs_mult, mdeg_plus. replace (mdeg (xv i)) with 1%nat by (destruct i as [|[|i]]; reflexivity). rewrite pow_add, pow_1.
  apply Rmult_le_compat; try apply Rabs_pos; auto. destruct i as [|[|[|i]]]; try lia; cbn [mev xv]; rewrite ?pow_O, ?pow_1, ?Rmult_1_l, ?Rmult_1_r; apply Hx; lia.
Qed.
Lemma ev_bound r x p : 0 < r -> in_cube r x -> Rabs (ev x p) <= nrm r p.
Proof.
  intros Hr Hx. unfold ev. induction p as [|[u c] p IH]; [rewrite lin_nil, Rabs_R0; unfold nrm; cbn; lra|]. rewrite lin_cons, nrm_cons.
  eapply Rle_trans; [apply Rabs_triang|]. apply Rplus_le_compat; auto. rewrite Rabs_mult. apply Rmult_le_compat_l; [apply Rabs_pos|now apply mev_bound].
Qed.
Lemma integral_le r mu f g : cube_mu r mu -> (forall wx, In wx mu -> f (snd wx) <= g (snd wx)) -> integral mu f <= integral mu g.
Proof.
  induction mu as [|[w x] mu IH]; intros H L; [unfold integral; cbn; lra|]. rewrite !integral_cons. destruct (H _ (or_introl eq_refl)) as (Hw & _).
  pose proof (L _ (or_introl eq_refl)) as L0. cbn [fst snd] in *. assert (IHm : integral mu f <= integral mu g) by (apply IH; [intros y Hy; apply H; now right|intros y Hy; apply L; now right]). nra.
Qed.
Lemma lsum_le {A} (f g : A -> R) l : (forall a, In a l -> f a <= g a) -> lsum (map f l) <= lsum (map g l).
Proof. induction l as [|a l IH]; intro H; [cbn; lra|]. cbn. pose proof (H a (or_introl eq_refl)). apply Rplus_le_compat; auto. apply IH. intros; apply H; now right. Qed.
Lemma lsum_abs {A} (f : A -> R) l : Rabs (lsum (map f l)) <= lsum (map (fun a => Rabs (f a)) l).
Proof. induction l as [|a l IH]; [cbn; rewrite Rabs_R0; lra|]. cbn. eapply Rle_trans; [apply Rabs_triang|]. apply Rplus_le_compat_l. exact IH. Qed.
Lemma lsum_nonneg' {A} (f : A -> R) l : (forall a, In a l -> 0 <= f a) -> 0 <= lsum (map f l).
Proof. induction l as [|a l IH]; intro H; [cbn; lra|]. cbn. pose proof (H a (or_introl eq_refl)). assert (0 <= lsum (map f l)) by (apply IH; intros; apply H; now right). unfold lsum in *. lra. Qed.
Lemma lsum_in {A} (f : A -> R) l a : (forall a, In a l -> 0 <= f a) -> In a l -> f a <= lsum (map f l).
Proof.
  induction l as [|b l IH]; intros H []; cbn.
  - subst b. assert (0 <= lsum (map f l)) by (apply lsum_nonneg'; intros; apply H; now right). unfold lsum in *. lra.
  - pose proof (H b (or_introl eq_refl)). assert (f a <= lsum (map f l)) by (apply IH; auto; intros; apply H; now right). unfold lsum in *. lra.
Qed.
Lemma lsum_lin {A} (f g : A -> R) c l : lsum (map (fun a => f a + c * g a) l) = lsum (map f l) + c * lsum (map g l).
Proof. induction l as [|a l IH]; cbn; [ring|]. unfold lsum in *. rewrite IH. ring. Qed.

Lemma measure1 G r H e : arch G r -> 0 < e -> exists Qs, (forall q, In q Qs -> qm G q) /\
  forall ell, (forall q, In q Qs -> 0 <= lin ell q) -> exists mu, cube_mu r mu /\
  forall h, In h H -> Rabs (lin ell h - integral mu (fun x => evv x h)) <= e * ell (0, 0, 0)%nat.
Proof.
  intros Ha He. pose proof (proj1 Ha) as Hr. destruct (approx_list G r H (e / 4) Ha ltac:(lra)) as (n & Hn & HA). set (l := walk3 r n) in *.
  set (Bh := fun h => lsum (map (fun wu : leaf => Rabs (ev (pt r n (snd wu)) h)) l)).
  assert (Bh0 : forall h, 0 <= Bh h) by (intro h; apply lsum_nonneg'; intros; apply Rabs_pos).
  set (B := lsum (map Bh H)). assert (B0 : 0 <= B) by (apply lsum_nonneg'; auto).
  set (d := e / 4 / (B + 1)). assert (Hd : 0 < d) by (apply Rdiv_lt_0_compat; lra).
  assert (dB : forall h, In h H -> d * Bh h <= e / 4).
  { intros h Hh. assert (Bh h <= B) by (apply lsum_in; auto). apply (Rmult_le_reg_r (B + 1)); [lra|].
    replace (d * Bh h * (B + 1)) with (e / 4 * Bh h) by (unfold d; field; lra). nra. }
  exists (C 1 :: map (fun wu : leaf => (fst wu + C d)%P) l ++ flat_map (fun h => [(C (e / 4) + (h - avg r n h) + C (e / 4))%P; (C (e / 4) + (avg r n h - h) + C (e / 4))%P]) H).
  split.
  - intros q [<-|Hq]; [apply qm_const; lra|]. apply in_app_or in Hq as [Hq|Hq].
    + apply in_map_iff in Hq as (wu & <- & Hwu). apply (Tm_qmc G); auto. now apply (walk3_Tm G r n).
    + apply in_flat_map in Hq as (h & Hh & [<-|[<-|[]]]); apply (HA h Hh); lra.
  - intros ell Hell. set (m := ell (0, 0, 0)%nat) in *.
    assert (Hm : 0 <= m) by (specialize (Hell _ (or_introl eq_refl)); rewrite lin_C in Hell; fold m in Hell; lra).
    exists (map (fun wu : leaf => (lin ell (fst wu) + d * m, map (pt r n (snd wu)) (seq 0 3))) l). split.
    + intros wx Hwx. apply in_map_iff in Hwx as (wu & <- & Hwu). cbn [fst snd]. split.
      * assert (Q : 0 <= lin ell (fst wu + C d)%P) by (apply Hell; right; apply in_or_app; left; apply in_map_iff; eauto). rewrite lin_add, lin_C in Q. exact Q.
      * split; [reflexivity|]. intros i Hi. replace (vf (map (pt r n (snd wu)) (seq 0 3)) i) with (pt r n (snd wu) i) by (destruct i as [|[|[|i]]]; try lia; reflexivity).
        now apply (pt_cube r n wu).
    + intros h Hh.
      assert (EI : integral (map (fun wu : leaf => (lin ell (fst wu) + d * m, map (pt r n (snd wu)) (seq 0 3))) l) (fun x => evv x h) = lin ell (avg r n h) + d * m * lsum (map (fun wu : leaf => ev (pt r n (snd wu)) h) l)).
      { unfold avg. rewrite lin_psum. fold l. rewrite <- lsum_lin. unfold integral. rewrite map_map. f_equal. apply map_ext. intro wu. cbn [fst snd].
        replace (evv (map (pt r n (snd wu)) (seq 0 3)) h) with (ev (pt r n (snd wu)) h) by (apply ev_ext; intros i Hi; destruct i as [|[|[|i]]]; try lia; reflexivity).
        rewrite (PP_ring.(Rmul_comm) (fst wu)), lin_Cmul. ring. }
      rewrite EI. set (S := lsum _).
      assert (Q1 : 0 <= lin ell (C (e / 4) + (h - avg r n h) + C (e / 4))%P) by (apply Hell; right; apply in_or_app; right; apply in_flat_map; exists h; split; [auto|now left]).
      assert (Q2 : 0 <= lin ell (C (e / 4) + (avg r n h - h) + C (e / 4))%P) by (apply Hell; right; apply in_or_app; right; apply in_flat_map; exists h; split; [auto|right; now left]).
      rewrite !lin_add, !lin_sub, !lin_C in Q1, Q2. fold m in Q1, Q2.
      assert (HS : Rabs (d * S) <= e / 4). { rewrite Rabs_mult, (Rabs_pos_eq d) by lra. apply Rle_trans with (2 := dB h Hh). apply Rmult_le_compat_l; [lra|]. apply lsum_abs. }
      apply abs_le_inv in HS. apply Rabs_le. assert (- (e / 4 * m) <= d * m * S <= e / 4 * m) by (replace (d * m * S) with (d * S * m) by ring; nra). lra.
Qed.

(** ** concentration *)
Fixpoint ppow (p : PP) (k : nat) : PP := match k with O => C 1 | S k => (p * ppow p k)%P end.
Lemma ev_ppow x p k : ev x (ppow p k) = ev x p ^ k.
Proof. induction k as [|k IH]; cbn [ppow pow]; [apply ev_C|]. now rewrite ev_mul, IH. Qed.
Lemma bern x k : -1 <= x -> 1 + INR k * x <= (1 + x) ^ k.
Proof. intro H. induction k as [|k IH]; [change (INR 0) with 0; cbn; lra|]. rewrite S_INR. cbn [pow]. pose proof (pos_INR k). nra. Qed.
Lemma bump_up g k : 0 <= g <= 1 -> (0 < k)%nat -> g * (1 - g) ^ k <= / INR k.
Proof.
  intros Hg Hk. apply lt_INR in Hk as Hk'. change (INR 0) with 0 in Hk'. pose proof (bern g k ltac:(lra)) as B.
  assert (P : 0 <= (1 - g) ^ k) by (apply pow_le; lra). assert (Q : (1 - g) ^ k * (1 + g) ^ k <= 1).
  { rewrite <- Rpow_mult_distr. replace 1 with (1 ^ k) at 3 by apply pow1. apply pow_incr. nra. }
  apply (Rmult_le_reg_r (INR k)); [auto|]. rewrite Rinv_l by lra. assert ((1 - g) ^ k * (1 + INR k * g) <= 1) by (eapply Rle_trans; [apply Rmult_le_compat_l; [exact P|exact B]|exact Q]). nra.
Qed.
Definition kap (r : R) (g : PP) (k : nat) : PP := let s := ppow (C 1 - C (/ (nrm r g + 1)) * g)%P k in (s * s * g)%P.
Lemma kap_qm G r g k : In g G -> qm G (kap r g k).
Proof. intro H. unfold kap. now apply qm_gen. Qed.
Lemma ev_kap r g k x : ev x (kap r g k) = ev x g * (1 - / (nrm r g + 1) * ev x g) ^ (2 * k).
Proof. unfold kap. rewrite !ev_mul, ev_ppow, ev_sub, ev_mul, !ev_C. replace (2 * k)%nat with (k + k)%nat by lia. rewrite pow_add. ring. Qed.
Lemma kap_bound r g k x d : 0 < r -> in_cube r x -> (0 < k)%nat -> 0 < d ->
  ev x (kap r g k) <= (nrm r g + 1) / INR k - (if Rleb (- d) (ev x g) then 0 else d * d * INR k / (nrm r g + 1)).
Proof.
  intros Hr Hx Hk Hd. rewrite ev_kap. pose proof (ev_bound r x g Hr Hx) as B. apply abs_le_inv in B. pose proof (nrm_pos r g Hr) as N0.
  set (c := nrm r g + 1). assert (Hc : 0 < c) by (unfold c; lra). set (y := ev x g) in *. set (t := / c * y).
  assert (Hy : y = c * t) by (unfold t; field; lra). assert (Ht : -1 <= t <= 1) by (split; apply (Rmult_le_reg_l c); auto; rewrite <- Hy; unfold c; lra).
  apply lt_INR in Hk as Hk'. change (INR 0) with 0 in Hk'. assert (E2 : INR (2 * k) = 2 * INR k) by (rewrite mult_INR; reflexivity).
  assert (Pc : 0 < c / INR k) by (apply Rdiv_lt_0_compat; lra).
  destruct (Rleb (- d) y) eqn:L.
  - destruct (Rle_lt_dec 0 t) as [T|T].
    + pose proof (bump_up t (2 * k) ltac:(lra) ltac:(lia)) as U. rewrite E2 in U. rewrite Hy. replace (c * t * (1 - t) ^ (2 * k)) with (c * (t * (1 - t) ^ (2 * k))) by ring.
      assert (/ (2 * INR k) <= / INR k) by (apply Rinv_le_contravar; lra). unfold Rdiv. rewrite Rminus_0_r. apply Rmult_le_compat_l; lra.
    + assert (0 <= (1 - t) ^ (2 * k)) by (apply pow_le; lra). assert (y <= 0) by nra. nra.
  - apply Rleb_false in L. assert (T : t < 0) by (apply (Rmult_lt_reg_l c); auto; rewrite <- Hy; lra).
    pose proof (bern (- t) (2 * k) ltac:(lra)) as U. rewrite E2 in U. replace (1 + - t) with (1 - t) in U by ring.
    assert (T' : d / c <= - t). { apply (Rmult_le_reg_l c); auto. replace (c * (d / c)) with d by (field; lra). replace (c * - t) with (- y) by (rewrite Hy; ring). lra. }
    assert (D0 : 0 < d / c) by (apply Rdiv_lt_0_compat; lra). replace (d * d * INR k / c) with (d * (INR k * (d / c))) by (field; lra).
    assert (W : INR k * (d / c) <= (1 - t) ^ (2 * k)) by nra. set (z := (1 - t) ^ (2 * k)) in *. assert (0 <= INR k * (d / c)) by nra. nra.
Qed.
Lemma integral_filter (b : vec -> bool) mu f :
  integral mu f = integral (filter (fun wx => b (snd wx)) mu) f + integral (filter (fun wx => negb (b (snd wx))) mu) f.
Proof.
  induction mu as [|[w x] mu IH]; [unfold integral; cbn; ring|]. cbn [filter snd]. rewrite integral_cons, IH.
  destruct (b x); cbn [negb]; rewrite integral_cons; ring.
Qed.
Lemma integral_lsum {A} mu (F : A -> vec -> R) l : integral mu (fun x => lsum (map (fun a => F a x) l)) = lsum (map (fun a => integral mu (F a)) l).
Proof.
  induction l as [|a l IH]; cbn [map]; [exact (integral_zero mu)|].
  change (lsum (integral mu (F a) :: map (fun a => integral mu (F a)) l)) with (integral mu (F a) + lsum (map (fun a => integral mu (F a)) l)).
  rewrite <- IH, <- integral_plus. apply integral_ext. intros wx _. reflexivity.
Qed.
Lemma lsum_const {A} c (l : list A) : lsum (map (fun _ => c) l) = INR (length l) * c.
Proof. induction l as [|a l IH]; [cbn [length map]; change (INR 0) with 0; unfold lsum; cbn; ring|]. cbn [length map]. rewrite S_INR. change (lsum (c :: map (fun _ => c) l)) with (c + lsum (map (fun _ => c) l)). rewrite IH. ring. Qed.
Lemma cube_filter r mu b : cube_mu r mu -> cube_mu r (filter b mu).
Proof. intros H wx Hwx. apply filter_In in Hwx as (Hwx & _). now apply H. Qed.
Definition ind (d : R) (g : PP) (x : vec) : R := if Rleb (- d) (evv x g) then 0 else 1.
Lemma ind_pos d g x : 0 <= ind d g x. Proof. unfold ind. destruct Rleb; lra. Qed.
Definition goodb (G : list PP) (d : R) (x : vec) : bool := forallb (fun g => Rleb (- d) (evv x g)) G.
Lemma good_ind G d x : goodb G d x = false -> 1 <= lsum (map (fun g => ind d g x) G).
Proof.
  induction G as [|g G IH]; [discriminate|]. unfold goodb. cbn [forallb map]. fold (goodb G d x).
  change (lsum (ind d g x :: map (fun g => ind d g x) G)) with (ind d g x + lsum (map (fun g => ind d g x) G)).
  assert (N : 0 <= lsum (map (fun g => ind d g x) G)) by (apply lsum_nonneg'; intros; apply ind_pos). unfold ind at 1. destruct (Rleb (- d) (evv x g)); cbn [andb]; intro H; [specialize (IH H); lra|lra].
Qed.
(** the mass where a generator is negative is small *)
Lemma bad_mass r g k d m e mu : 0 < r -> 0 < d -> (0 < k)%nat -> 0 <= m -> 0 < e <= 1 -> cube_mu r mu ->
  Rabs (m - integral mu (fun _ => 1)) <= e * m -> - (e * m) <= integral mu (fun x => evv x (kap r g k)) ->
  integral mu (ind d g) <= (nrm r g + 1) * (2 * (nrm r g + 1) + 1) / (d * d * INR k) * m.
Proof.
  intros Hr Hd Hk Hm He Hmu H1 H2. pose proof (nrm_pos r g Hr) as N0. set (c := nrm r g + 1) in *. assert (Hc : 1 <= c) by (unfold c; lra).
  apply lt_INR in Hk as Hk'. change (INR 0) with 0 in Hk'. assert (K1 : 1 <= INR k) by (change 1 with (INR 1); apply le_INR; lia).
  assert (U : integral mu (fun x => evv x (kap r g k)) <= integral mu (fun x => c / INR k * 1 + - (d * d * INR k / c) * ind d g x)).
  { apply (integral_le r); auto. intros wx Hwx. destruct (Hmu wx Hwx) as (_ & _ & Hx). pose proof (kap_bound r g k _ d Hr Hx Hk Hd) as B. fold c in B. unfold ind, evv in *. destruct Rleb; lra. }
  rewrite integral_plus in U. rewrite !integral_scale in U. apply abs_le_inv in H1. set (M := integral mu (fun _ => 1)) in *. set (b := integral mu (ind d g)) in *.
  assert (HM : M <= 2 * m) by nra. assert (Pk : c / INR k <= c). { apply (Rmult_le_reg_r (INR k)); auto. replace (c / INR k * INR k) with c by (field; lra). nra. }
  assert (P0 : 0 < c / INR k) by (apply Rdiv_lt_0_compat; lra). assert (Q : d * d * INR k / c * b <= (2 * c + 1) * m) by nra.
  assert (Z : 0 < d * d * INR k) by (apply Rmult_lt_0_compat; nra). apply (Rmult_le_reg_l (d * d * INR k / c)); [apply Rdiv_lt_0_compat; lra|].
  apply (Rle_trans _ _ _ Q). right. field. split; [lra|split; lra].
Qed.
Lemma measure2 G r H d : arch G r -> 0 < d -> exists Qs, (forall q, In q Qs -> qm G q) /\
  forall ell, (forall q, In q Qs -> 0 <= lin ell q) -> exists nu, cube_mu r nu /\
  (forall wx g, In wx nu -> In g G -> - d <= evv (snd wx) g) /\
  forall h, In h H -> Rabs (lin ell h - integral nu (fun x => evv x h)) <= d * ell (0, 0, 0)%nat.
Proof.
  intros Ha Hd. pose proof (proj1 Ha) as Hr.
  set (B := lsum (map (nrm r) H)). assert (B0 : 0 <= B) by (apply lsum_nonneg'; intros; now apply nrm_pos).
  set (cm := lsum (map (fun g => nrm r g + 1) G)). assert (cm0 : 0 <= cm) by (apply lsum_nonneg'; intros g _; pose proof (nrm_pos r g Hr); lra).
  set (NG := INR (length G)). assert (NG0 : 0 <= NG) by apply pos_INR.
  set (eta := d / 2 / ((NG + 1) * (B + 1))). assert (He : 0 < eta) by (apply Rdiv_lt_0_compat; [lra|apply Rmult_lt_0_compat; lra]).
  destruct (nat_above (cm * (2 * cm + 1) / (d * d * eta))) as (k & Hk & Lk). apply lt_INR in Hk as Hk'. change (INR 0) with 0 in Hk'.
  set (e := Rmin (d / 2) 1). assert (E0 : 0 < e <= 1) by (split; [apply Rmin_pos; lra|apply Rmin_r]). assert (E1 : e <= d / 2) by apply Rmin_l.
  destruct (measure1 G r (C 1 :: map (fun g => kap r g k) G ++ H) e Ha ltac:(lra)) as (Qs & HQ & HM).
  exists (C 1 :: Qs ++ map (fun g => kap r g k) G). split.
  - intros q [<-|Hq]; [apply qm_const; lra|]. apply in_app_or in Hq as [Hq|Hq]; [auto|]. apply in_map_iff in Hq as (g & <- & Hg). now apply kap_qm.
  - intros ell Hell. set (m := ell (0, 0, 0)%nat) in *.
    assert (Hm : 0 <= m) by (specialize (Hell _ (or_introl eq_refl)); rewrite lin_C in Hell; fold m in Hell; lra).
    destruct (HM ell) as (mu & Hmu & HI); [intros q Hq; apply Hell; right; apply in_or_app; now left|]. fold m in HI.
    assert (I1 : Rabs (m - integral mu (fun _ => 1)) <= e * m).
    { specialize (HI _ (or_introl eq_refl)). rewrite lin_C in HI. fold m in HI. rewrite (integral_ext mu _ (fun _ => 1)) in HI by (intros; apply ev_C). now rewrite Rmult_1_l in HI. }
    assert (Bad : forall g, In g G -> integral mu (ind d g) <= eta * m).
    { intros g Hg. assert (Qk : 0 <= lin ell (kap r g k)) by (apply Hell; right; apply in_or_app; right; apply in_map_iff; eauto).
      assert (Ik : Rabs (lin ell (kap r g k) - integral mu (fun x => evv x (kap r g k))) <= e * m) by (apply HI; right; apply in_or_app; left; apply in_map_iff; eauto).
      apply abs_le_inv in Ik. assert (Ik' : - (e * m) <= integral mu (fun x => evv x (kap r g k))) by lra.
      pose proof (bad_mass r g k d m e mu Hr Hd Hk Hm E0 Hmu I1 Ik') as BM. apply (Rle_trans _ _ _ BM). apply Rmult_le_compat_r; [exact Hm|].
      assert (Cg : nrm r g + 1 <= cm) by (apply (lsum_in (fun g => nrm r g + 1)); auto; intros g' _; pose proof (nrm_pos r g' Hr); lra).
      pose proof (nrm_pos r g Hr) as N0. set (c := nrm r g + 1) in *. assert (Z : 0 < d * d) by nra. assert (Z' : 0 < d * d * INR k) by nra.
      apply (Rmult_le_reg_r (d * d * INR k)); [exact Z'|]. replace (c * (2 * c + 1) / (d * d * INR k) * (d * d * INR k)) with (c * (2 * c + 1)) by (field; lra).
      assert (L : cm * (2 * cm + 1) <= INR k * (d * d * eta)). { apply (Rmult_le_compat_r (d * d * eta)) in Lk; [|nra]. replace (cm * (2 * cm + 1) / (d * d * eta) * (d * d * eta)) with (cm * (2 * cm + 1)) in Lk by (field; split; lra). exact Lk. }
      assert (c0 : 0 <= c) by (unfold c; lra). assert (c * (2 * c + 1) <= cm * (2 * cm + 1)) by (apply Rmult_le_compat; lra). replace (eta * (d * d * INR k)) with (INR k * (d * d * eta)) by ring. lra. }
    exists (filter (fun wx => goodb G d (snd wx)) mu). split; [now apply cube_filter|]. split.
    + intros wx g Hwx Hg. apply filter_In in Hwx as (_ & Hb). unfold goodb in Hb. rewrite forallb_forall in Hb. apply Rleb_iff. now apply Hb.
    + intros h Hh. assert (Ih : Rabs (lin ell h - integral mu (fun x => evv x h)) <= e * m) by (apply HI; right; apply in_or_app; now right).
      rewrite (integral_filter (goodb G d)) in Ih. set (I0 := integral (filter _ mu) _) in Ih |- *. set (mb := filter (fun wx => negb (goodb G d (snd wx))) mu) in *.
      assert (Cb : cube_mu r mb) by now apply cube_filter. pose proof (nrm_pos r h Hr) as N0.
      assert (Hb1 : integral mb (fun _ => 1) <= NG * eta * m).
      { apply Rle_trans with (integral mu (fun x => lsum (map (fun g => ind d g x) G))).
        - rewrite (integral_filter (goodb G d) mu (fun x => lsum _)). fold mb.
          assert (0 <= integral (filter (fun wx => goodb G d (snd wx)) mu) (fun x => lsum (map (fun g => ind d g x) G))).
          { apply (integral_nonneg 3); [intros wx Hwx; destruct (cube_filter r mu _ Hmu wx Hwx) as (P1 & P2 & _); auto|]. intros wx _. apply lsum_nonneg'. intros; apply ind_pos. }
          assert (integral mb (fun _ => 1) <= integral mb (fun x => lsum (map (fun g => ind d g x) G))); [|lra].
          apply (integral_le r); auto. intros wx Hwx. apply filter_In in Hwx as (_ & Hb). apply good_ind. now destruct (goodb G d (snd wx)).
        - rewrite integral_lsum. apply Rle_trans with (lsum (map (fun _ => eta * m) G)); [now apply lsum_le|]. rewrite lsum_const. fold NG. lra. }
      assert (Hn : nrm r h <= B) by (apply lsum_in; auto; intros; now apply nrm_pos).
      assert (Ub : integral mb (fun x => evv x h) <= nrm r h * integral mb (fun _ => 1)).
      { rewrite <- integral_scale. apply (integral_le r); auto. intros wx Hwx. destruct (Cb wx Hwx) as (_ & _ & Hx). pose proof (ev_bound r _ h Hr Hx) as V. apply abs_le_inv in V. unfold evv. lra. }
      assert (Lb : - (nrm r h * integral mb (fun _ => 1)) <= integral mb (fun x => evv x h)).
      { replace (- (nrm r h * integral mb (fun _ => 1))) with (integral mb (fun _ => (- nrm r h) * 1)) by (rewrite integral_scale; ring). apply (integral_le r); auto. intros wx Hwx. destruct (Cb wx Hwx) as (_ & _ & Hx). pose proof (ev_bound r _ h Hr Hx) as V. apply abs_le_inv in V. unfold evv. lra. }
      assert (T : nrm r h * integral mb (fun _ => 1) <= d / 2 * m).
      { apply Rle_trans with (B * (NG * eta * m)).
        - apply Rmult_le_compat; auto. apply (integral_nonneg 3); [intros wx Hwx; destruct (Cb wx Hwx) as (P1 & P2 & _); auto|intros; lra].
        - replace (B * (NG * eta * m)) with (B * NG * eta * m) by ring. apply Rmult_le_compat_r; [exact Hm|].
          assert (EE : eta * ((NG + 1) * (B + 1)) = d / 2) by (unfold eta; field; split; lra). assert (0 <= B * NG) by nra. nra. }
      apply abs_le_inv in Ih. apply Rabs_le. nra.
Qed.
