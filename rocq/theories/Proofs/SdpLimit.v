(** C87: the moment relaxations become exact as the order grows. *)
From Coq Require Import Setoid Morphisms.
From Verif Require Import Base.Vec Base.VecFacts Spec.Basic Spec.Objects Spec.Realizable Spec.Moments Spec.Shapes Spec.ShapeObjects Spec.PolySpec
  Model.Util Model.Constraint Model.Inertial Model.Moment Model.Polydd Model.Poly Model.Box Model.Cylinder Model.Ellipsoid Model.Realize
  Proofs.Coord Proofs.LinAlg Proofs.UtilP Proofs.InertialP Proofs.Hull Proofs.BoxP Proofs.CylP Proofs.PolynomialP Proofs.BasisP Proofs.MomentP
  Proofs.Decomp Proofs.PimP Proofs.SdpP Proofs.SdpSound Proofs.SdpGap Proofs.QModule Proofs.QMeasure Proofs.QConc Proofs.Carath Proofs.Farkas Proofs.PolyP Proofs.CylExact.

(** ** the functional of a feasible point of the relaxation *)
Definition feasible_ell (ell : idx -> R) (polys : list pol) (d : nat) : Prop :=
  PSD (length (basis_list 3 d)) (hmat ell (basis_list 3 d)) /\
  forall p deg, In p polys -> pol_degree p = Ok deg -> PSD (length (basis_list 3 (d - half_up deg))) (lmat ell p (basis_list 3 (d - half_up deg))).
Lemma sdp_for_inv J polys d P : (0 < d)%nat -> (forall p, In p polys -> poly_small d p) -> sdp_for J polys d = Ok P -> P ->
  exists ell, feasible_ell ell polys d /\ moments_match J (hmat ell (basis_list 3 d)).
Proof.
  intros Hd Hp E HP. destruct (mm_init_ok 3 d Hd) as (s & Es & En & Ed & Er & Ei). assert (Hs : is_mm 3 d s) by (split; auto).
  unfold sdp_for in E. rewrite Es in E. cbn [bind] in E. apply bind_inv in E as (c1 & _ & E). apply bind_inv in E as (c2 & _ & E).
  destruct (Nat.ltb (mm_r s) 4); [discriminate|]. injection E as <-. destruct HP as (M & VM & (cs & Ec & Hc) & (ls & El & Hl) & Hm).
  pose proof VM as (MM & MT & MP). destruct (var_map_ok 3 d s M Hs MM) as (m & Em & V1 & V2).
  set (ell := fun u => match dict_get elt_eqb (Index u) m with Some v => v | None => 0 end).
  destruct (moment_constraints_iff 3 d s M Hs MM) as (cs' & Ec' & Hiff). rewrite Ec in Ec'. injection Ec' as <-.
  pose proof (proj1 Hiff Hc) as Hcons. clear Hiff.
  assert (Hell : forall i j, (i <= j < mm_r s)%nat -> ell (iadd (bidx 3 d i) (bidx 3 d j)) = entry M i j).
  { intros i j Hij. unfold ell. specialize (V2 i j Hij). destruct dict_get as [v|] eqn:Ev; [|easy]. apply V1 in Ev as (k & l & Hkl & Eu & ->). symmetry. now apply Hcons. }
  assert (B4 : (4 <= mm_r s)%nat) by (rewrite Er; now apply basis_four).
  assert (SM : symmetric (mm_r s) M). { intros i j Hi Hj. rewrite <- MT at 1. apply entry_transpose. rewrite (is_mat_ncols (mm_r s) (mm_r s)); auto; lia. }
  assert (EM : M = hmat ell (basis_list 3 d)).
  { apply (mat_ext (mm_r s) (mm_r s)); [exact MM|now apply hmat_ok|]. intros i j Hi Hj. rewrite Er in Hi, Hj. unfold hmat. rewrite entry_square by auto. rewrite <- Er in Hi, Hj.
    destruct (le_lt_dec i j) as [L|L]; [symmetry; apply Hell; lia|]. rewrite SM, iadd_comm by auto. symmetry. apply Hell. lia. }
  exists ell. subst M. split; [split|exact Hm].
  - rewrite <- Er. split; [exact MM|]. split; [exact SM|exact MP].
  - intros p deg Hin Edeg. destruct (Hp p Hin) as (Op & deg' & Edeg' & Ddeg). rewrite Edeg in Edeg'. injection Edeg' as <-.
    pose proof (hmat_localize 3 d s ell p deg Hs Op Edeg Ddeg) as EL. destruct (localizing_iff 3 d s _ p _ Hs EL) as (c & Ecp & Ic).
    assert (LL : length (lmat ell p (basis_list 3 (d - half_up deg))) = length (basis_list 3 (d - half_up deg))) by apply map_length. rewrite LL in Ic. apply Ic.
    unfold mm_localizing_constraints in El, Ecp. apply bind_inv in El as (u1 & Eu1 & El). apply bind_inv in El as (m1 & Em1 & El). rewrite Eu1, Em1 in Ecp. cbn [bind mapM] in Ecp.
    apply bind_inv in Ecp as (c' & Ecp & E'). injection E' as ->. destruct (mapM_all _ _ _ _ El Hin) as (c' & Ecp' & Hcin). rewrite Ecp in Ecp'. injection Ecp' as ->. now apply Hl.
Qed.
(** ** polynomials of the model as formal sums *)
Definition tomon (u : idx) : mon := (nth 0 u 0, nth 1 u 0, nth 2 u 0)%nat.
Definition toidx (u : mon) : idx := let '(a, b, c) := u in [a; b; c].
Definition toP (p : pol) : PP := map (fun kv => (tomon (fst kv), snd kv)) p.
Definition ell3 (ell : idx -> R) (u : mon) : R := ell (toidx u).
Lemma toidx_tomon u : length u = 3%nat -> toidx (tomon u) = u.
Proof. intro L. destruct u as [|a [|b [|c [|]]]]; try discriminate. reflexivity. Qed.
Lemma toidx_plus u v : toidx (mplus u v) = iadd (toidx u) (toidx v).
Proof. destruct u as [[a b] c], v as [[a' b'] c']. reflexivity. Qed.
Lemma toidx_len u : length (toidx u) = 3%nat. Proof. now destruct u as [[a b] c]. Qed.
Lemma toidx_deg u : degree_of (toidx u) = mdeg u. Proof. destruct u as [[a b] c]. cbn. lia. Qed.
Lemma functional_lin ell p : pol_ok 3 p -> functional ell p = lin (ell3 ell) (toP p).
Proof.
  intros (_ & H). unfold functional, lin, toP. rewrite map_map. f_equal. apply map_ext_in. intros kv Hkv. cbn [fst snd]. unfold ell3. now rewrite toidx_tomon by auto.
Qed.
Lemma peval_evv p x : pol_ok 3 p -> length x = 3%nat -> peval p x = evv x (toP p).
Proof.
  intros (_ & H) Lx. unfold peval, evv, ev, lin, toP. rewrite map_map. f_equal. apply map_ext_in. intros [u c] Hkv. specialize (H _ Hkv). cbn [fst snd] in *.
  destruct u as [|a [|b [|e [|]]]]; try discriminate. destruct (len3_inv _ Lx) as (x1 & x2 & x3 & ->). cbn. ring.
Qed.
(** ** quadratic forms of the moment matrices *)
Definition coefs (s : PP) (B : list idx) : vec := map (fun b => lin (fun u => if idx_eqb (toidx u) b then 1 else 0) s) B.
Lemma dot_map {A} (f g : A -> R) l : dot (map f l) (map g l) = lsum (map (fun a => f a * g a) l).
Proof. induction l as [|a l IH]; [reflexivity|]. cbn [map]. rewrite dot_cons, IH. reflexivity. Qed.
Lemma lsum_c a l : lsum (a :: l) = a + lsum l. Proof. reflexivity. Qed.
Lemma pick_sum (F : idx -> R) u B : NoDup B -> In u B -> lsum (map (fun b => (if idx_eqb u b then 1 else 0) * F b) B) = F u.
Proof.
  induction B as [|b B IH]; intros ND []; apply NoDup_cons_iff in ND as (Nb & ND); cbn [map].
  - subst b. rewrite lsum_c,  (proj2 (idx_eqb_eq u u) eq_refl). assert (Z : lsum (map (fun b => (if idx_eqb u b then 1 else 0) * F b) B) = 0).
    { clear IH ND. induction B as [|b B IH]; [reflexivity|]. cbn [map]. rewrite lsum_c, IH by (intro; apply Nb; now right). destruct (idx_eqb u b) eqn:E; [apply idx_eqb_eq in E; exfalso; apply Nb; now left|ring]. }
    rewrite Z. ring.
  - rewrite lsum_c, IH by auto.
    destruct (idx_eqb u b) eqn:E; [apply idx_eqb_eq in E; subst; contradiction|ring].
Qed.
Lemma coefs_dot s B F : NoDup B -> (forall uc, In uc s -> In (toidx (fst uc)) B) -> dot (coefs s B) (map F B) = lin (fun u => F (toidx u)) s.
Proof.
  intros ND. unfold coefs. rewrite dot_map. induction s as [|[u c] s IH]; intro H.
  - rewrite lin_nil. rewrite (map_ext _ (fun _ => 0)) by (intro; rewrite lin_nil; ring). rewrite lsum_const. ring.
  - rewrite lin_cons, <- IH by (intros; apply H; now right). rewrite <- (pick_sum F (toidx u) B ND) by exact (H _ (or_introl eq_refl)).
    rewrite Rplus_comm, <- lsum_lin. f_equal. apply map_ext. intro b. rewrite lin_cons. ring.
Qed.
Lemma quad_coefs s B f : NoDup B -> (forall uc, In uc s -> In (toidx (fst uc)) B) ->
  quad (map (fun a => map (fun b => f a b) B) B) (coefs s B) = lin (fun u => lin (fun v => f (toidx u) (toidx v)) s) s.
Proof.
  intros ND H. unfold quad, mat_vec. rewrite map_map.
  rewrite (map_ext _ (fun a => lin (fun v => f a (toidx v)) s)) by (intro a; rewrite dot_comm, coefs_dot by auto; reflexivity).
  rewrite (coefs_dot s B (fun a => lin (fun v => f a (toidx v)) s)) by auto. reflexivity.
Qed.
Definition pdeg (s : PP) : nat := fold_right (fun uc n => Nat.max (mdeg (fst uc)) n) 0%nat s.
Lemma pdeg_in s uc : In uc s -> (mdeg (fst uc) <= pdeg s)%nat.
Proof. induction s as [|a s IH]; intros []; cbn; [subst; lia|]. apply IH in H. unfold pdeg in H. lia. Qed.
Lemma in_basis s d uc : (pdeg s <= d)%nat -> In uc s -> In (toidx (fst uc)) (basis_list 3 d).
Proof. intros Hd H. apply basis_in. split; [apply toidx_len|]. rewrite toidx_deg. pose proof (pdeg_in s uc H). lia. Qed.
Lemma feasible_sq ell polys d s : feasible_ell ell polys d -> (pdeg s <= d)%nat -> 0 <= lin (ell3 ell) (s * s)%P.
Proof.
  intros ((_ & _ & HP) & _) Hs. pose proof (quad_coefs s (basis_list 3 d) (fun a b => ell (iadd a b)) (basis_nodup 3 d) (fun uc => in_basis s d uc Hs)) as Q.
  assert (L : length (coefs s (basis_list 3 d)) = length (basis_list 3 d)) by apply map_length. specialize (HP _ L). unfold hmat in HP. rewrite Q in HP.
  rewrite lin_mul. rewrite (lin_ext _ (fun u => lin (fun v => ell (iadd (toidx u) (toidx v))) s)); [exact HP|]. intro u. apply lin_ext. intro v. unfold ell3. now rewrite toidx_plus.
Qed.
Lemma feasible_gen ell polys d s p deg : feasible_ell ell polys d -> pol_ok 3 p -> In p polys -> pol_degree p = Ok deg -> (pdeg s <= d - half_up deg)%nat -> 0 <= lin (ell3 ell) (s * s * toP p)%P.
Proof.
  intros (_ & HL) Op Hin Edeg Hs. destruct (HL p deg Hin Edeg) as (_ & _ & HP). set (B := basis_list 3 (d - half_up deg)) in *.
  pose proof (quad_coefs s B (fun a b => functional (fun u => ell (iadd u (iadd a b))) p) (basis_nodup 3 _) (fun uc => in_basis s _ uc Hs)) as Q.
  assert (L : length (coefs s B) = length B) by apply map_length. specialize (HP _ L). unfold lmat in HP. rewrite Q in HP.
  rewrite lin_mul, lin_mul. rewrite (lin_ext _ (fun u => lin (fun v => functional (fun w => ell (iadd w (iadd (toidx u) (toidx v)))) p) s)); [exact HP|].
  intro u. apply lin_ext. intro v. rewrite functional_lin by exact Op. apply lin_ext. intro w. unfold ell3. rewrite !toidx_plus. now rewrite (iadd_comm (toidx w)).
Qed.
(** a polynomial of the quadratic module is non-negative for every relaxation of high order *)
Lemma qm_feasible polys f : (forall p, In p polys -> pol_ok 3 p /\ exists deg, pol_degree p = Ok deg) -> qm (map toP polys) f ->
  exists D, forall d ell, (D <= d)%nat -> feasible_ell ell polys d -> 0 <= lin (ell3 ell) f.
Proof.
  intros Hp. induction 1 as [s|g s Hg|p q _ (D1 & IH1) _ (D2 & IH2)|p q E _ (D & IH)].
  - exists (pdeg s). intros d ell Hd Hf. exact (feasible_sq ell polys d s Hf Hd).
  - apply in_map_iff in Hg as (p & <- & Hin). destruct (Hp p Hin) as (Op & deg & Edeg). exists (pdeg s + half_up deg)%nat. intros d ell Hd Hf. apply (feasible_gen ell polys d s p deg); auto; lia.
  - exists (D1 + D2)%nat. intros d ell Hd Hf. rewrite lin_add. pose proof (IH1 d ell ltac:(lia) Hf). pose proof (IH2 d ell ltac:(lia) Hf). lra.
  - exists D. intros d ell Hd Hf. rewrite <- E. now apply (IH d).
Qed.
Lemma qm_feasible_list polys Qs : (forall p, In p polys -> pol_ok 3 p /\ exists deg, pol_degree p = Ok deg) -> (forall q, In q Qs -> qm (map toP polys) q) ->
  exists D, forall d ell, (D <= d)%nat -> feasible_ell ell polys d -> forall q, In q Qs -> 0 <= lin (ell3 ell) q.
Proof.
  intros Hp. induction Qs as [|q Qs IH]; intro H; [exists 0%nat; intros d ell _ _ q []|]. destruct IH as (D1 & IH); [intros; apply H; now right|].
  destruct (qm_feasible polys q Hp (H q (or_introl eq_refl))) as (D2 & H2). exists (D1 + D2)%nat. intros d ell Hd Hf q' [<-|Hq]; [apply (H2 d); auto; lia|apply (IH d); auto; lia].
Qed.
(** ** the moments of degree at most two *)
Definition TJ (J : mat) (u : mon) : R := match u with
  | (0, 0, 0) => entry J 3 3 | (1, 0, 0) => entry J 0 3 | (0, 1, 0) => entry J 1 3 | (0, 0, 1) => entry J 2 3
  | (2, 0, 0) => entry J 0 0 | (1, 1, 0) => entry J 0 1 | (1, 0, 1) => entry J 0 2 | (0, 2, 0) => entry J 1 1 | (0, 1, 1) => entry J 1 2 | (0, 0, 2) => entry J 2 2
  | _ => R0 end%nat.
Definition mons2 : list mon := [(0, 0, 0); (1, 0, 0); (0, 1, 0); (0, 0, 1); (2, 0, 0); (1, 1, 0); (1, 0, 1); (0, 2, 0); (0, 1, 1); (0, 0, 2)]%nat.
Lemma match_TJ d J ell u : (0 < d)%nat -> moments_match J (hmat ell (basis_list 3 d)) -> In u mons2 -> ell3 ell u = TJ J u.
Proof.
  intros Hd HM Hu. destruct (ell_low d J _ ell Hd HM) as (L0 & L1 & L2).
  { intros i j Hij. unfold hmat. rewrite entry_square by lia. reflexivity. }
  pose proof (L1 0%nat ltac:(lia)) as X1. pose proof (L1 1%nat ltac:(lia)) as X2. pose proof (L1 2%nat ltac:(lia)) as X3.
  pose proof (L2 0%nat 0%nat ltac:(lia)) as X00. pose proof (L2 0%nat 1%nat ltac:(lia)) as X01. pose proof (L2 0%nat 2%nat ltac:(lia)) as X02.
  pose proof (L2 1%nat 1%nat ltac:(lia)) as X11. pose proof (L2 1%nat 2%nat ltac:(lia)) as X12. pose proof (L2 2%nat 2%nat ltac:(lia)) as X22. cbn in X1, X2, X3, X00, X01, X02, X11, X12, X22.
  unfold ell3, mons2 in *. repeat (destruct Hu as [<-|Hu]; [assumption|]). destruct Hu.
Qed.
Lemma TJ_pim J nu : is_mat 4 4 J -> symmetric 4 J -> measure_ok 3 nu -> (forall u, In u mons2 -> integral nu (fun x => evv x (pM u)) = TJ J u) -> pim_of nu J.
Proof.
  intros HJ SJ Hn HI. split; [exact HJ|].
  assert (G : forall i j u, In u mons2 -> (forall x : vec, length x = 3%nat -> mev (vf x) u = nth i (x ++ [1]) 0 * nth j (x ++ [1]) 0) -> TJ J u = lsum (map (fun mp => fst mp * nth i (snd mp ++ [1]) 0 * nth j (snd mp ++ [1]) 0) nu)).
  { intros i j u Hu E. rewrite <- (HI u Hu). unfold integral. f_equal. apply map_ext_in. intros wx Hwx. unfold evv, ev. rewrite lin_pM, E by (apply Hn; exact Hwx). ring. }
  assert (S : forall i j, lsum (map (fun mp => fst mp * nth i (snd mp ++ [1]) 0 * nth j (snd mp ++ [1]) 0) nu) = lsum (map (fun mp => fst mp * nth j (snd mp ++ [1]) 0 * nth i (snd mp ++ [1]) 0) nu)) by (intros; f_equal; apply map_ext; intro; ring).
  assert (D : forall i j, (i <= j)%nat -> (j < 4)%nat -> entry J i j = lsum (map (fun mp => fst mp * nth i (snd mp ++ [1]) 0 * nth j (snd mp ++ [1]) 0) nu)).
  { intros i j Hi Hj.
    assert (V : forall (x : vec) u, length x = 3%nat -> mev (vf x) u = let '(a, b, c) := u in nth 0 x 0 ^ a * nth 1 x 0 ^ b * nth 2 x 0 ^ c) by (intros x [[a b] c] _; reflexivity).
    destruct i as [|[|[|[|i]]]]; try lia; destruct j as [|[|[|[|j]]]]; try lia;
    [apply (G 0%nat 0%nat (2, 0, 0)%nat)|apply (G 0%nat 1%nat (1, 1, 0)%nat)|apply (G 0%nat 2%nat (1, 0, 1)%nat)|apply (G 0%nat 3%nat (1, 0, 0)%nat)|apply (G 1%nat 1%nat (0, 2, 0)%nat)|apply (G 1%nat 2%nat (0, 1, 1)%nat)|apply (G 1%nat 3%nat (0, 1, 0)%nat)|apply (G 2%nat 2%nat (0, 0, 2)%nat)|apply (G 2%nat 3%nat (0, 0, 1)%nat)|apply (G 3%nat 3%nat (0, 0, 0)%nat)];
    try (unfold mons2; cbn; tauto); intros x Lx; destruct (len3_inv _ Lx) as (a & b & c & ->); cbn; ring. }
  intros i j Hi Hj. destruct (le_lt_dec i j); [now apply D|]. rewrite SJ by lia. rewrite D by lia. apply S.
Qed.
(** ** exactness in the limit *)
Definition closeJ (e : R) (J' J : mat) : Prop := forall i j, (i < 4)%nat -> (j < 4)%nat -> Rabs (entry J' i j - entry J i j) <= e.
Lemma TJ_close e J' J u : closeJ e J' J -> In u mons2 -> Rabs (TJ J' u - TJ J u) <= e.
Proof. intros HC Hu. unfold mons2 in Hu. repeat (destruct Hu as [<-|Hu]; [apply HC; lia|]). destruct Hu. Qed.
Lemma sdp_limit_seq J polys r : is_mat 4 4 J -> symmetric 4 J -> (forall p, In p polys -> pol_ok 3 p /\ exists deg, pol_degree p = Ok deg /\ (deg <= 2)%nat) ->
  arch (map toP polys) r ->
  (forall e D, 0 < e -> exists d J' P, (D <= d)%nat /\ (0 < d)%nat /\ closeJ e J' J /\ sdp_for J' polys d = Ok P /\ P) ->
  realizable_J (fun x => forall p, In p polys -> 0 <= peval p x) J.
Proof.
  intros HJ SJ Hp Ha HX.
  assert (Hp' : forall p, In p polys -> pol_ok 3 p /\ exists deg, pol_degree p = Ok deg) by (intros p Hin; destruct (Hp p Hin) as (Op & deg & Ed & _); eauto).
  assert (Get : forall e D, 0 < e -> exists d J' ell, (D <= d)%nat /\ closeJ e J' J /\ feasible_ell ell polys d /\ forall u, In u mons2 -> ell3 ell u = TJ J' u).
  { intros e D He. destruct (HX e D He) as (d & J' & P & HD & Hd & HC & E & HP). destruct (sdp_for_inv J' polys d P Hd) as (ell & Hf & Hm); auto.
    - intros p Hin. destruct (Hp p Hin) as (Op & deg & Ed & Ld). split; [exact Op|]. exists deg. split; [exact Ed|lia].
    - exists d, J', ell. split; [exact HD|]. split; [exact HC|]. split; [exact Hf|]. intros u Hu. now apply (match_TJ d). }
  assert (I0 : In (0, 0, 0)%nat mons2) by now left.
  assert (Mell : forall ell d, feasible_ell ell polys d -> 0 <= ell3 ell (0, 0, 0)%nat).
  { intros ell d Hf. pose proof (feasible_sq ell polys d (C 1) Hf ltac:(cbn; lia)) as Q. rewrite lin_Cmul, lin_C in Q. lra. }
  assert (M0 : 0 <= entry J 3 3).
  { destruct (Rle_lt_dec 0 (entry J 3 3)) as [|L]; [auto|exfalso]. destruct (Get (- entry J 3 3 / 2) 0%nat ltac:(lra)) as (d & J' & ell & _ & HC & Hf & Hu).
    pose proof (Mell ell d Hf) as Q. rewrite (Hu _ I0) in Q. pose proof (TJ_close _ _ _ _ HC I0) as T. cbn [TJ] in Q, T. apply abs_le_inv in T. lra. }
  destruct (limit_measure (map toP polys) r (map pM mons2) (lin (TJ J)) (entry J 3 3) (proj1 Ha) M0) as (nu & Hn & HG & HI).
  - left. reflexivity.
  - rewrite lin_C. cbn [TJ]. ring.
  - intros d Hd. set (m := entry J 3 3) in *. set (d' := d / (2 * (m + 2))). assert (Hd' : 0 < d') by (apply Rdiv_lt_0_compat; lra).
    assert (Ed' : d' * (2 * (m + 2)) = d) by (unfold d'; field; lra). set (e := Rmin (d / 2) 1). assert (He : 0 < e) by (apply Rmin_pos; lra).
    pose proof (Rmin_l (d / 2) 1) as E1. pose proof (Rmin_r (d / 2) 1) as E2. fold e in E1, E2.
    destruct (measure2 (map toP polys) r (map pM mons2) d' Ha Hd') as (Qs & HQ & HM). destruct (qm_feasible_list polys Qs Hp' HQ) as (D & HD).
    destruct (Get e D He) as (o & J' & ell & Lo & HC & Hf & Hu). destruct (HM (ell3 ell) (HD o ell Lo Hf)) as (nu & Cn & Gn & In_). exists nu. split; [exact Cn|]. split.
    + intros wx g Hwx Hg. specialize (Gn wx g Hwx Hg). nra.
    + intros h Hh. specialize (In_ h Hh). apply in_map_iff in Hh as (u & <- & Hu'). pose proof (Mell ell o Hf) as Mp. rewrite (Hu (0, 0, 0)%nat I0) in In_, Mp. rewrite lin_pM, (Hu u Hu') in In_.
      rewrite lin_pM. pose proof (TJ_close _ _ _ _ HC I0) as T0. pose proof (TJ_close _ _ _ _ HC Hu') as Tu. cbn [TJ] in In_, T0, Mp. fold m in T0. apply abs_le_inv in T0, Tu, In_.
      assert (d' * entry J' 3 3 <= d / 2) by nra. apply Rabs_le. lra.
  - exists nu. split; [intros wx Hwx; apply Hn; exact Hwx|]. split; [intros wx Hwx; apply Hn; exact Hwx|]. split.
    + intros wx Hwx p Hin. rewrite peval_evv; [|apply Hp', Hin|apply Hn; exact Hwx]. apply (HG wx); auto. now apply in_map.
    + apply TJ_pim; auto. intros u Hu. rewrite HI by (now apply in_map). apply lin_pM.
Qed.

(** ** the archimedean bound of polyhedra *)
Lemma lin_toP f p : lin f (toP p) = functional (fun u => f (tomon u)) p.
Proof. unfold lin, functional, toP. now rewrite map_map. Qed.
Definition affP (a : vec) (b : R) : PP := (C b - (C (nth 0 a 0) * pX 0 + C (nth 1 a 0) * pX 1 + C (nth 2 a 0) * pX 2))%P.
Lemma lin_pX f i : lin f (pX i) = f (xv i). Proof. apply lin_pM. Qed.
Lemma lin_affP f a b : lin f (affP a b) = b * f (0, 0, 0)%nat - (nth 0 a 0 * f (1, 0, 0)%nat + nth 1 a 0 * f (0, 1, 0)%nat + nth 2 a 0 * f (0, 0, 1)%nat).
Proof. unfold affP. rewrite lin_sub, !lin_add, !lin_Cmul, lin_C, !lin_pX. reflexivity. Qed.
Lemma face_aff a b : length a = 3%nat -> toP (pol_affine a b 0) == affP a b.
Proof. intros La f. rewrite lin_toP, functional_affine, lin_affP by exact La. reflexivity. Qed.
Lemma cone_qm G S a b : sys_len 3 S -> (forall a b, In (a, b) S -> qm G (affP a b)) -> Farkas.cone 3 S a b -> qm G (affP a b).
Proof.
  intros LS HS. induction 1 as [|a b H|a b a' b' C1 IH1 C2 IH2|k a b Hk C1 IH].
  - apply (qm_eq G (C 0)); [|apply qm_const; lra]. intro f. rewrite lin_affP, lin_C. cbn. ring.
  - auto.
  - apply (qm_eq G (affP a b + affP a' b')%P); [|now apply qm_add]. intro f. rewrite lin_add, !lin_affP, !nth_vadd by (rewrite (cone_len 3 S a b), (cone_len 3 S a' b'); auto). ring.
  - apply (qm_eq G (C k * affP a b)%P); [|now apply qm_scale]. intro f. rewrite lin_Cmul, !lin_affP, !nth_vscale. ring.
Qed.
Lemma qm_pm G r x : 0 < r -> qm G (C r - x)%P -> qm G (C r + x)%P -> qm G (C (r * r) - x * x)%P.
Proof.
  intros Hr H1 H2. apply (qm_eq G (C (/ (2 * r)) * ((C r - x) * (C r - x) * (C r + x) + (C r + x) * (C r + x) * (C r - x)))%P).
  - transitivity (C (/ (2 * r)) * C 2 * C r * (C r * C r - x * x))%P; [rewrite C_2; ring|].
    assert (E : (C (/ (2 * r)) * C 2 * C r == C 1)%P) by (rewrite <- !C_mul; apply C_eq; field; lra). rewrite E, C_mul. intro f. rewrite lin_Cmul. ring.
  - apply qm_scale; [apply Rlt_le, Rinv_0_lt_compat; lra|]. apply qm_add; now apply qm_mulsq.
Qed.
Lemma halfspaces_sol A b x : length b = length A -> (halfspaces A b x <-> sol (combine A b) x).
Proof.
  intros HL. split.
  - intros H [a c] Hin. apply (In_nth _ _ ([], 0)) in Hin as (i & Hi & E). rewrite combine_length in Hi. rewrite combine_nth in E by auto. injection E as <- <-. apply H. lia.
  - intros H i Hi. apply (H (nth i A [], nth i b 0)). rewrite <- combine_nth by auto. apply nth_In. rewrite combine_length. lia.
Qed.
Lemma p_polys_in A b q : length b = length A -> In q (map2 (fun a b => pol_affine a b 0) A b) <-> exists i, (i < length A)%nat /\ q = pol_affine (nth i A []) (nth i b 0) 0.
Proof.
  revert b; induction A as [|a A IH]; intros [|c b] L; try discriminate; cbn.
  - split; [easy|intros (i & Hi & _); lia].
  - rewrite IH by (cbn in L; lia). split.
    + intros [<-|(i & Hi & ->)]; [exists 0%nat; split; [lia|reflexivity]|exists (S i); split; [lia|reflexivity]].
    + intros ([|i] & Hi & ->); [now left|right; exists i; split; [lia|reflexivity]].
Qed.
Lemma faces_arch A b B : (forall a, In a A -> length a = 3%nat) -> length b = length A -> (exists x, length x = 3%nat /\ halfspaces A b x) ->
  (forall x i, length x = 3%nat -> halfspaces A b x -> Rabs (nth i x 0) <= B) -> exists r, arch (map toP (map2 (fun a b => pol_affine a b 0) A b)) r.
Proof.
  intros HA HL (x0 & Lx0 & Hx0) HB. set (G := map toP _). assert (B0 : 0 <= B) by (eapply Rle_trans; [apply Rabs_pos|exact (HB x0 0%nat Lx0 Hx0)]).
  assert (LS : sys_len 3 (combine A b)) by (intros [a c] Hin; apply in_combine_l in Hin; cbn; auto).
  assert (HS : forall a c, In (a, c) (combine A b) -> qm G (affP a c)).
  { intros a c Hin. apply (qm_eq G (C 1 * C 1 * toP (pol_affine a c 0))%P).
    - rewrite <- C_mul. rewrite (face_aff a c) by (apply HA; now apply in_combine_l in Hin). intro f. rewrite lin_Cmul. ring.
    - apply qm_gen. unfold G. apply in_map. apply p_polys_in; [exact HL|]. apply (In_nth _ _ ([], 0)) in Hin as (i & Hi & E). rewrite combine_length in Hi. rewrite combine_nth in E by auto. injection E as <- <-.
      exists i. split; [lia|reflexivity]. }
  assert (SX : exists x, length x = 3%nat /\ sol (combine A b) x) by (exists x0; split; [exact Lx0|now apply halfspaces_sol]).
  assert (Get : forall c, length c = 3%nat -> (forall x, length x = 3%nat -> halfspaces A b x -> dot c x <= B) -> qm G (affP c (B + 1))).
  { intros c Lc Hc. destruct (farkas_affine 3 (combine A b) c B (B + 1) LS Lc SX) as (b0 & CC & Hb); [intros x Lx Hx; apply Hc; [exact Lx|now apply halfspaces_sol]|lra|].
    apply (qm_eq G (affP c b0 + C (B + 1 - b0))%P); [intro f; rewrite lin_add, !lin_affP, lin_C; ring|]. apply qm_add; [eapply cone_qm; eauto|apply qm_const; lra]. }
  exists (B + 1). split; [lra|]. intros i Hi. apply qm_pm; [lra| |].
  - destruct i as [|[|[|i]]]; try lia; [apply (qm_eq G (affP [1; 0; 0] (B + 1)))|apply (qm_eq G (affP [0; 1; 0] (B + 1)))|apply (qm_eq G (affP [0; 0; 1] (B + 1)))];
    try (intro f; rewrite lin_affP, lin_sub, lin_C, lin_pX; cbn; ring); apply Get; try reflexivity; intros x Lx Hx;
    [pose proof (HB x 0%nat Lx Hx) as Q|pose proof (HB x 1%nat Lx Hx) as Q|pose proof (HB x 2%nat Lx Hx) as Q];
    destruct (len3_inv _ Lx) as (u & v & w & ->); cbn in Q |- *; apply abs_le_inv in Q; lra.
  - destruct i as [|[|[|i]]]; try lia; [apply (qm_eq G (affP [-1; 0; 0] (B + 1)))|apply (qm_eq G (affP [0; -1; 0] (B + 1)))|apply (qm_eq G (affP [0; 0; -1] (B + 1)))];
    try (intro f; rewrite lin_affP, lin_add, lin_C, lin_pX; cbn; ring); apply Get; try reflexivity; intros x Lx Hx;
    [pose proof (HB x 0%nat Lx Hx) as Q|pose proof (HB x 1%nat Lx Hx) as Q|pose proof (HB x 2%nat Lx Hx) as Q];
    destruct (len3_inv _ Lx) as (u & v & w & ->); cbn in Q |- *; apply abs_le_inv in Q; lra.
Qed.
