(** Polynomials in three variables as formal sums, and the quadratic module of a list of
    polynomials.  Used for C87: the moment relaxations become exact as the order grows. *)
From Coq Require Import Setoid Morphisms Ring.
From Verif Require Import Base.Vec Base.VecFacts Spec.Basic.

(** ** the ring of formal sums *)
Definition mon := (nat * nat * nat)%type.
Definition mplus (u v : mon) : mon := let '(a, b, c) := u in let '(a', b', c') := v in (a + a', b + b', c + c')%nat.
Definition mdeg (u : mon) : nat := let '(a, b, c) := u in (a + b + c)%nat.
Definition PP := list (mon * R).
Definition lin (f : mon -> R) (p : PP) : R := lsum (map (fun uc => snd uc * f (fst uc)) p).
Definition peq (p q : PP) : Prop := forall f, lin f p = lin f q.
Definition padd (p q : PP) : PP := p ++ q.
Definition pC (c : R) : PP := [((0, 0, 0)%nat, c)].
Definition pmul (p q : PP) : PP := flat_map (fun uc => map (fun vd => (mplus (fst uc) (fst vd), snd uc * snd vd)) q) p.
Definition popp (p : PP) : PP := map (fun uc => (fst uc, - snd uc)) p.
Definition psub (p q : PP) : PP := padd p (popp q).
Declare Scope poly_scope.
Delimit Scope poly_scope with P.
Bind Scope poly_scope with PP.
Notation "p == q" := (peq p q) (at level 70).
Notation "p + q" := (padd p q) : poly_scope.
Notation "p * q" := (pmul p q) : poly_scope.
Notation "p - q" := (psub p q) : poly_scope.
Notation "- p" := (popp p) : poly_scope.
Notation "'C' c" := (pC c) (at level 9, c at level 9).

Lemma lsum_app' (a b : list R) : lsum (a ++ b) = lsum a + lsum b.
Proof. induction a as [|x a IH]; cbn; [unfold lsum in *; cbn; lra|]. unfold lsum in *. cbn. rewrite IH. ring. Qed.
Lemma lin_nil f : lin f [] = 0. Proof. reflexivity. Qed.
Lemma lin_cons f u c p : lin f ((u, c) :: p) = c * f u + lin f p. Proof. reflexivity. Qed.
Lemma lin_add f p q : lin f (p + q)%P = lin f p + lin f q.
Proof. unfold lin, padd. now rewrite map_app, lsum_app'. Qed.
Lemma lin_opp f p : lin f (- p)%P = - lin f p.
Proof. induction p as [|[u c] p IH]; [unfold lin; cbn; ring|]. change (- ((u, c) :: p))%P with ((u, - c) :: (- p)%P). rewrite !lin_cons, IH. ring. Qed.
Lemma lin_sub f p q : lin f (p - q)%P = lin f p - lin f q.
Proof. unfold psub. rewrite lin_add, lin_opp. ring. Qed.
Lemma lin_C f c : lin f (C c) = c * f (0, 0, 0)%nat.
Proof. unfold pC. rewrite lin_cons, lin_nil. ring. Qed.
Lemma lin_ext f g p : (forall u, f u = g u) -> lin f p = lin g p.
Proof. intro H. induction p as [|[u c] p IH]; [reflexivity|]. now rewrite !lin_cons, IH, H. Qed.
Lemma lin_fadd f g p : lin (fun u => f u + g u) p = lin f p + lin g p.
Proof. induction p as [|[u c] p IH]; [unfold lin; cbn; ring|]. rewrite !lin_cons, IH. ring. Qed.
Lemma lin_fscale a f p : lin (fun u => a * f u) p = a * lin f p.
Proof. induction p as [|[u c] p IH]; [unfold lin; cbn; ring|]. rewrite !lin_cons, IH. ring. Qed.
Lemma lin_f0 p : lin (fun _ => 0) p = 0.
Proof. induction p as [|[u c] p IH]; [reflexivity|]. rewrite !lin_cons, IH. ring. Qed.
Lemma lin_mul f p q : lin f (p * q)%P = lin (fun u => lin (fun v => f (mplus u v)) q) p.
Proof.
  induction p as [|[u c] p IH]; [reflexivity|]. rewrite lin_cons, <- IH.
  change (((u, c) :: p) * q)%P with (padd (map (fun vd => (mplus u (fst vd), c * snd vd)) q) (pmul p q)). rewrite lin_add. f_equal.
  clear IH. induction q as [|[v d] q IH]; [unfold lin; cbn; ring|]. cbn [map fst snd]. rewrite !lin_cons, IH. ring.
Qed.
Lemma lin_swap (h : mon -> mon -> R) p q : lin (fun u => lin (fun v => h u v) q) p = lin (fun v => lin (fun u => h u v) p) q.
Proof.
  induction p as [|[u c] p IH]; [symmetry; exact (lin_f0 q)|]. rewrite lin_cons, IH, <- lin_fscale, <- lin_fadd. apply lin_ext. intro v. now rewrite lin_cons.
Qed.
Lemma mplus_comm u v : mplus u v = mplus v u.
Proof. destruct u as [[a b] c], v as [[a' b'] c']. cbn. now rewrite (Nat.add_comm a), (Nat.add_comm b), (Nat.add_comm c). Qed.
Lemma mplus_assoc u v w : mplus u (mplus v w) = mplus (mplus u v) w.
Proof. destruct u as [[a b] c], v as [[a' b'] c'], w as [[a'' b''] c'']. cbn. now rewrite !Nat.add_assoc. Qed.
Lemma mplus_0_l u : mplus (0, 0, 0)%nat u = u. Proof. now destruct u as [[a b] c]. Qed.
Lemma mdeg_plus u v : mdeg (mplus u v) = (mdeg u + mdeg v)%nat.
Proof. destruct u as [[a b] c], v as [[a' b'] c']. cbn. lia. Qed.

Lemma peq_refl p : p == p. Proof. intro. reflexivity. Qed.
Lemma peq_sym p q : p == q -> q == p. Proof. intros H f. now rewrite H. Qed.
Lemma peq_trans p q r : p == q -> q == r -> p == r. Proof. intros H1 H2 f. now rewrite H1. Qed.
Global Instance peq_equiv : Equivalence peq.
Proof. constructor; [exact peq_refl|exact peq_sym|exact peq_trans]. Qed.
Global Instance padd_proper : Proper (peq ==> peq ==> peq) padd.
Proof. intros p p' H q q' H' f. now rewrite !lin_add, H, H'. Qed.
Global Instance pmul_proper : Proper (peq ==> peq ==> peq) pmul.
Proof. intros p p' H q q' H' f. rewrite !lin_mul, H. apply lin_ext. intro u. apply H'. Qed.
Global Instance popp_proper : Proper (peq ==> peq) popp.
Proof. intros p p' H f. now rewrite !lin_opp, H. Qed.
Global Instance psub_proper : Proper (peq ==> peq ==> peq) psub.
Proof. intros p p' H q q' H' f. now rewrite !lin_sub, H, H'. Qed.

Lemma PP_ring : ring_theory (C 0) (C 1) padd pmul psub popp peq.
Proof.
  constructor.
  - intros p f. rewrite lin_add, lin_C. ring.
  - intros p q f. rewrite !lin_add. ring.
  - intros p q r f. rewrite !lin_add. ring.
  - intros p f. rewrite lin_mul. unfold pC. rewrite lin_cons, lin_nil. rewrite (lin_ext _ f) by (intro u; now rewrite mplus_0_l). ring.
  - intros p q f. rewrite !lin_mul, lin_swap. apply lin_ext. intro v. apply lin_ext. intro u. now rewrite mplus_comm.
  - intros p q r f. rewrite !lin_mul. apply lin_ext. intro u. rewrite lin_mul. apply lin_ext. intro v. apply lin_ext. intro w. now rewrite mplus_assoc.
  - intros p q r f. rewrite lin_add, !lin_mul. apply lin_add.
  - intros p q f. rewrite lin_sub, lin_add, lin_opp. ring.
  - intros p f. rewrite lin_add, lin_opp, lin_C. ring.
Qed.
Lemma PP_ext : ring_eq_ext padd pmul popp peq.
Proof. constructor; [exact padd_proper|exact pmul_proper|exact popp_proper]. Qed.
Add Ring PPring : PP_ring (setoid peq_equiv PP_ext).

Lemma C_add a b : C (a + b) == (C a + C b)%P. Proof. intro f. rewrite lin_add, !lin_C. ring. Qed.
Lemma C_opp a : C (- a) == (- C a)%P. Proof. intro f. rewrite lin_opp, !lin_C. ring. Qed.
Lemma C_sub a b : C (a - b) == (C a - C b)%P. Proof. intro f. rewrite lin_sub, !lin_C. ring. Qed.
Lemma C_mul a b : C (a * b) == (C a * C b)%P. Proof. intro f. unfold pC. rewrite lin_mul, !lin_cons, !lin_nil. cbn. ring. Qed.
Lemma C_eq a b : a = b -> C a == C b. Proof. intros ->. reflexivity. Qed.
Lemma C_2 : C 2 == (C 1 + C 1)%P. Proof. rewrite <- C_add. apply C_eq. lra. Qed.
Lemma lin_Cmul f a p : lin f (C a * p)%P = a * lin f p.
Proof. rewrite lin_mul. unfold pC. rewrite lin_cons, lin_nil. rewrite (lin_ext _ f) by (intro u; now rewrite mplus_0_l). ring. Qed.

(** monomials, variables, evaluation *)
Definition pM (u : mon) : PP := [(u, 1)].
Definition xv (i : nat) : mon := match i with 0 => (1, 0, 0) | 1 => (0, 1, 0) | _ => (0, 0, 1) end%nat.
Definition pX (i : nat) : PP := pM (xv i).
Definition mev (x : nat -> R) (u : mon) : R := let '(a, b, c) := u in x 0%nat ^ a * x 1%nat ^ b * x 2%nat ^ c.
Definition ev (x : nat -> R) (p : PP) : R := lin (mev x) p.
Lemma mev_plus x u v : mev x (mplus u v) = mev x u * mev x v.
Proof. destruct u as [[a b] c], v as [[a' b'] c']. cbn. rewrite !pow_add. ring. Qed.
Lemma ev_add x p q : ev x (p + q)%P = ev x p + ev x q. Proof. apply lin_add. Qed.
Lemma ev_sub x p q : ev x (p - q)%P = ev x p - ev x q. Proof. apply lin_sub. Qed.
Lemma ev_opp x p : ev x (- p)%P = - ev x p. Proof. apply lin_opp. Qed.
Lemma ev_C x c : ev x (C c) = c. Proof. unfold ev. rewrite lin_C. cbn. ring. Qed.
Lemma ev_mul x p q : ev x (p * q)%P = ev x p * ev x q.
Proof.
  unfold ev. rewrite lin_mul. rewrite (lin_ext _ (fun u => lin (mev x) q * mev x u)); [rewrite lin_fscale; ring|].
  intro u. rewrite (lin_ext _ (fun v => mev x u * mev x v)) by (intro; apply mev_plus). rewrite lin_fscale. ring.
Qed.
Lemma ev_eq x p q : p == q -> ev x p = ev x q. Proof. intro H. apply H. Qed.
Lemma ev_X x i : (i < 3)%nat -> ev x (pX i) = x i.
Proof. intro H. unfold ev, pX, pM. rewrite lin_cons, lin_nil. destruct i as [|[|[|i]]]; try lia; cbn; ring. Qed.
Lemma pM_plus u v : pM (mplus u v) == (pM u * pM v)%P.
Proof. intro f. unfold pM. rewrite lin_mul, !lin_cons, !lin_nil. ring. Qed.
Lemma pM_0 : pM (0, 0, 0)%nat == C 1. Proof. reflexivity. Qed.
Lemma lin_pM f u : lin f (pM u) = f u. Proof. unfold pM. rewrite lin_cons, lin_nil. ring. Qed.
Lemma cons_eq u c p : ((u, c) :: p) == (C c * pM u + p)%P.
Proof. intro f. now rewrite lin_cons, lin_add, lin_Cmul, lin_pM. Qed.
Lemma nil_eq : ([] : PP) == C 0. Proof. intro f. rewrite lin_nil, lin_C. ring. Qed.
(** induction on monomials by multiplication with a variable *)
Lemma mon_ind (Q : mon -> Prop) : Q (0, 0, 0)%nat -> (forall i u, (i < 3)%nat -> Q u -> Q (mplus (xv i) u)) -> forall u, Q u.
Proof.
  intros H0 HS [[a b] c]. induction a as [|a IH].
  - induction b as [|b IH].
    + induction c as [|c IH]; [exact H0|]. exact (HS 2%nat _ ltac:(lia) IH).
    + exact (HS 1%nat _ ltac:(lia) IH).
  - exact (HS 0%nat _ ltac:(lia) IH).
Qed.

(** ** weighted sum of the absolute values of the coefficients *)
Definition nrm (r : R) (p : PP) : R := lsum (map (fun uc => Rabs (snd uc) * r ^ mdeg (fst uc)) p).
Definition nle (r : R) (p : PP) (e : R) : Prop := exists q, p == q /\ nrm r q <= e.
Lemma nrm_cons r u c p : nrm r ((u, c) :: p) = Rabs c * r ^ mdeg u + nrm r p. Proof. reflexivity. Qed.
Lemma nrm_pos r p : 0 < r -> 0 <= nrm r p.
Proof. intro Hr. induction p as [|[u c] p IH]; [unfold nrm; cbn; lra|]. rewrite nrm_cons. pose proof (Rabs_pos c). pose proof (pow_lt r (mdeg u) Hr). nra. Qed.
Lemma nrm_add r p q : nrm r (p + q)%P = nrm r p + nrm r q.
Proof. unfold nrm, padd. now rewrite map_app, lsum_app'. Qed.
Lemma nrm_mul r p q : nrm r (p * q)%P = nrm r p * nrm r q.
Proof.
  induction p as [|[u c] p IH]; [unfold nrm; cbn; ring|]. rewrite nrm_cons.
  change (((u, c) :: p) * q)%P with (padd (map (fun vd => (mplus u (fst vd), c * snd vd)) q) (pmul p q)). rewrite nrm_add, IH.
  rewrite Rmult_plus_distr_r. f_equal. clear IH. induction q as [|[v d] q IH]; [unfold nrm; cbn; ring|].
  cbn [map fst snd]. rewrite !nrm_cons, IH, mdeg_plus, pow_add, Rabs_mult. ring.
Qed.
Lemma nrm_opp r p : nrm r (- p)%P = nrm r p.
Proof. induction p as [|[u c] p IH]; [reflexivity|]. change (- ((u, c) :: p))%P with ((u, - c) :: (- p)%P). now rewrite !nrm_cons, IH, Rabs_Ropp. Qed.
Lemma nrm_C r c : nrm r (C c) = Rabs c. Proof. unfold nrm. cbn. ring. Qed.
Lemma nle_refl r p : nle r p (nrm r p). Proof. exists p. split; [reflexivity|lra]. Qed.
Lemma nle_le r p e e' : e <= e' -> nle r p e -> nle r p e'. Proof. intros H (q & E & L). exists q. split; [exact E|lra]. Qed.
Lemma nle_eq r p q e : p == q -> nle r p e -> nle r q e. Proof. intros H (p' & E & L). exists p'. split; [now rewrite <- H|exact L]. Qed.
Lemma nle_add r p q e f : nle r p e -> nle r q f -> nle r (p + q)%P (e + f).
Proof. intros (p' & E & L) (q' & E' & L'). exists (p' + q')%P. split; [now rewrite E, E'|rewrite nrm_add; lra]. Qed.
Lemma nle_opp r p e : nle r p e -> nle r (- p)%P e.
Proof. intros (p' & E & L). exists (- p')%P. split; [now rewrite E|now rewrite nrm_opp]. Qed.
Lemma nle_mul r p q e f : 0 < r -> nle r p e -> nle r q f -> nle r (p * q)%P (e * f).
Proof.
  intros Hr (p' & E & L) (q' & E' & L'). exists (p' * q')%P. split; [now rewrite E, E'|rewrite nrm_mul].
  pose proof (nrm_pos r p' Hr). pose proof (nrm_pos r q' Hr). apply Rmult_le_compat; auto.
Qed.
Lemma nle_C r c : nle r (C c) (Rabs c). Proof. exists (C c). split; [reflexivity|rewrite nrm_C; lra]. Qed.

(** ** the quadratic module *)
Inductive qm (G : list PP) : PP -> Prop :=
| qm_sq s : qm G (s * s)%P
| qm_gen g s : In g G -> qm G (s * s * g)%P
| qm_add p q : qm G p -> qm G q -> qm G (p + q)%P
| qm_eq p q : p == q -> qm G p -> qm G q.
Global Instance qm_proper G : Proper (peq ==> iff) (qm G).
Proof. intros p q E. split; apply qm_eq; [exact E|now symmetry]. Qed.
Lemma qm_mulsq G s p : qm G p -> qm G (s * s * p)%P.
Proof.
  induction 1 as [t|g t Hg|p q _ IHp _ IHq|p q E _ IH].
  - apply (qm_eq G ((s * t) * (s * t))%P); [ring|apply qm_sq].
  - apply (qm_eq G ((s * t) * (s * t) * g)%P); [ring|now apply qm_gen].
  - apply (qm_eq G (s * s * p + s * s * q)%P); [ring|now apply qm_add].
  - now rewrite <- E.
Qed.
Lemma qm_const G c : 0 <= c -> qm G (C c).
Proof. intro H. apply (qm_eq G (C (sqrt c) * C (sqrt c))%P); [|apply qm_sq]. rewrite <- C_mul. apply C_eq. now apply sqrt_sqrt. Qed.
Lemma qm_scale G c p : 0 <= c -> qm G p -> qm G (C c * p)%P.
Proof.
  intros H Hp. apply (qm_eq G (C (sqrt c) * C (sqrt c) * p)%P); [|now apply qm_mulsq]. rewrite <- C_mul. now rewrite sqrt_sqrt.
Qed.
(** the cube of half side r is bounded by the module *)
Definition arch (G : list PP) (r : R) : Prop := 0 < r /\ forall i, (i < 3)%nat -> qm G (C (r * r) - pX i * pX i)%P.
Lemma qm_mono2 G r u : arch G r -> qm G (C (r ^ mdeg u * r ^ mdeg u) - pM u * pM u)%P.
Proof.
  intros (Hr & Ha). induction u as [|i u Hi IH] using mon_ind.
  - apply (qm_eq G (C 0)); [|apply qm_const; lra]. rewrite pM_0, <- C_mul, <- C_sub. apply C_eq. cbn. ring.
  - rewrite mdeg_plus. replace (mdeg (xv i)) with 1%nat by (destruct i as [|[|i]]; reflexivity).
    set (k := r ^ mdeg u) in *. assert (0 < k) by (apply pow_lt; auto).
    apply (qm_eq G (C (r * r) * (C (k * k) - pM u * pM u) + pM u * pM u * (C (r * r) - pX i * pX i))%P).
    + rewrite pM_plus. fold (pX i). replace (r ^ (1 + mdeg u) * r ^ (1 + mdeg u)) with (r * r * (k * k)) by (unfold k; cbn [Nat.add pow]; ring). rewrite (C_mul (r * r)). ring.
    + apply qm_add; [apply qm_scale; [nra|exact IH]|apply qm_mulsq; auto].
Qed.
Lemma qm_bound1 G k p : 0 < k -> qm G (C (k * k) - p * p)%P -> qm G (C k + p)%P.
Proof.
  intros Hk H. assert (Hi : / (2 * k) * (2 * k) = 1) by (field; lra).
  apply (qm_eq G (C (/ (2 * k)) * ((C k + p) * (C k + p) + (C (k * k) - p * p)))%P).
  - transitivity (C (/ (2 * k)) * (C (2 * k)) * (C k + p))%P.
    + rewrite (C_mul k k), (C_mul 2 k), C_2. ring.
    + rewrite <- C_mul, Hi. ring.
  - apply qm_scale; [|apply qm_add; [apply qm_sq|exact H]]. apply Rlt_le, Rinv_0_lt_compat. lra.
Qed.
Lemma qm_mono G r u c : arch G r -> qm G (C (Rabs c * r ^ mdeg u) + C c * pM u)%P.
Proof.
  intros Ha. pose proof (qm_mono2 G r u Ha) as H2. destruct Ha as (Hr & _). assert (Hk : 0 < r ^ mdeg u) by now apply pow_lt.
  set (k := r ^ mdeg u) in *. destruct (Rle_lt_dec 0 c) as [Hc|Hc].
  - rewrite Rabs_pos_eq by auto. apply (qm_eq G (C c * (C k + pM u))%P); [rewrite C_mul; ring|]. apply qm_scale; auto. now apply qm_bound1.
  - rewrite Rabs_left by auto. apply (qm_eq G (C (- c) * (C k + (- pM u)))%P); [rewrite C_mul, C_opp; ring|]. apply qm_scale; [lra|].
    apply qm_bound1; auto. apply (qm_eq G (C (k * k) - pM u * pM u)%P); [ring|exact H2].
Qed.
Lemma qm_nrm G r p : arch G r -> qm G (C (nrm r p) + p)%P.
Proof.
  intro Ha. induction p as [|[u c] p IH].
  - apply (qm_eq G (C 0)); [|apply qm_const; lra]. intro f. rewrite lin_add, !lin_C, lin_nil. unfold nrm. cbn. ring.
  - apply (qm_eq G ((C (Rabs c * r ^ mdeg u) + C c * pM u) + (C (nrm r p) + p))%P); [rewrite nrm_cons, C_add; transitivity (C (Rabs c * r ^ mdeg u) + C (nrm r p) + (C c * pM u + p))%P; [ring|]; apply padd_proper; [reflexivity|symmetry; apply cons_eq]|].
    apply qm_add; [now apply qm_mono|exact IH].
Qed.
Lemma qm_nle G r p e : arch G r -> nle r p e -> qm G (C e + p)%P.
Proof.
  intros Ha (q & E & L). apply (qm_eq G (C (e - nrm r q) + (C (nrm r q) + q))%P).
  - rewrite E, C_sub. ring.
  - apply qm_add; [apply qm_const; lra|now apply qm_nrm].
Qed.

(** ** its closure *)
Definition qmc (G : list PP) (p : PP) : Prop := forall e, 0 < e -> qm G (p + C e)%P.
Global Instance qmc_proper G : Proper (peq ==> iff) (qmc G).
Proof. intros p q E. split; intros H e He; specialize (H e He); [now rewrite <- E|now rewrite E]. Qed.
Lemma qm_qmc G p : qm G p -> qmc G p.
Proof. intros H e He. apply qm_add; [exact H|apply qm_const; lra]. Qed.
Lemma qmc_add G p q : qmc G p -> qmc G q -> qmc G (p + q)%P.
Proof.
  intros Hp Hq e He. apply (qm_eq G ((p + C (e / 2)) + (q + C (e / 2)))%P); [|apply qm_add; [apply Hp|apply Hq]; lra].
  transitivity ((p + q) + (C (e / 2) + C (e / 2)))%P; [ring|]. rewrite <- C_add. replace (e / 2 + e / 2) with e by field. reflexivity.
Qed.
Lemma qmc_scale G c p : 0 <= c -> qmc G p -> qmc G (C c * p)%P.
Proof.
  intros Hc Hp e He. set (d := e / (c + 1)). assert (Hd : 0 < d) by (apply Rdiv_lt_0_compat; lra).
  assert (Hle : c * d <= e) by (apply (Rmult_le_reg_r (c + 1)); [lra|]; unfold d; replace (c * (e / (c + 1)) * (c + 1)) with (c * e) by (field; lra); nra).
  apply (qm_eq G (C c * (p + C d) + C (e - c * d))%P); [rewrite C_sub, C_mul; ring|].
  apply qm_add; [apply qm_scale; auto|apply qm_const; lra].
Qed.
Lemma qmc_lim G p : (forall e, 0 < e -> qmc G (p + C e)%P) -> qmc G p.
Proof.
  intros H e He. apply (qm_eq G ((p + C (e / 2)) + C (e / 2))%P); [|apply H; lra].
  transitivity (p + (C (e / 2) + C (e / 2)))%P; [ring|]. rewrite <- C_add. replace (e / 2 + e / 2) with e by field. reflexivity.
Qed.
Lemma qmc_near G r p : arch G r -> (forall e, 0 < e -> exists q, qmc G q /\ nle r (p - q)%P e) -> qmc G p.
Proof.
  intros Ha H. apply qmc_lim. intros e He. destruct (H e He) as (q & Hq & Hn).
  apply (qmc_proper G (q + (C e + (p - q)))%P); [ring|]. apply qmc_add; [exact Hq|]. apply qm_qmc. now apply (qm_nle G r).
Qed.
Lemma qmc_mulsq G r s p : arch G r -> qmc G p -> qmc G (s * s * p)%P.
Proof.
  intros Ha Hp e He. set (c := nrm r (s * s)%P + 1). assert (Hc : 0 < c) by (pose proof (nrm_pos r (s * s)%P (proj1 Ha)); unfold c; lra).
  assert (Hd : 0 < e / c) by (apply Rdiv_lt_0_compat; lra).
  apply (qm_eq G (s * s * (p + C (e / c)) + C (e / c) * (C c + (- (s * s))))%P).
  - transitivity (s * s * p + C (e / c) * C c)%P; [ring|]. rewrite <- C_mul. replace (e / c * c) with e by (field; lra). reflexivity.
  - apply qm_add; [apply qm_mulsq, Hp; exact Hd|]. apply qm_scale; [lra|]. apply (qm_nle G r); [exact Ha|]. apply nle_opp.
    apply (nle_le r _ (nrm r (s * s)%P)); [unfold c; lra|apply nle_refl].
Qed.
(** multipliers of the closure *)
Definition Tm (G : list PP) (p : PP) : Prop := forall q, qmc G q -> qmc G (p * q)%P.
Global Instance Tm_proper G : Proper (peq ==> iff) (Tm G).
Proof. intros p q E. split; intros H s Hs; specialize (H s Hs); [now rewrite <- E|now rewrite E]. Qed.
Lemma Tm_sq G r s : arch G r -> Tm G (s * s)%P.
Proof. intros Ha q Hq. now apply (qmc_mulsq G r). Qed.
Lemma Tm_mul G p q : Tm G p -> Tm G q -> Tm G (p * q)%P.
Proof. intros Hp Hq s Hs. apply (qmc_proper G (p * (q * s))%P); [ring|auto]. Qed.
Lemma Tm_add G p q : Tm G p -> Tm G q -> Tm G (p + q)%P.
Proof. intros Hp Hq s Hs. apply (qmc_proper G (p * s + q * s)%P); [ring|apply qmc_add; auto]. Qed.
Lemma Tm_C G c : 0 <= c -> Tm G (C c).
Proof. intros Hc s Hs. now apply qmc_scale. Qed.
Lemma Tm_qmc G p : Tm G p -> qmc G p.
Proof. intros H. apply (qmc_proper G (p * C 1)%P); [ring|]. apply H, qm_qmc, qm_const. lra. Qed.

(** 1 - m is a limit of squares when the norm of m is at most 1 *)
Fixpoint root (m : PP) (n : nat) : PP := match n with O => C 0 | S n => (C (/ 2) * (m + root m n * root m n))%P end.
Fixpoint rootR (n : nat) : R := match n with O => 0 | S n => (1 + rootR n * rootR n) / 2 end.
Lemma rootR_bound n : 0 <= rootR n <= 1 /\ rootR n <= rootR (S n) /\ 1 - rootR n <= 2 / (INR n + 2).
Proof.
  induction n as [|n (I1 & I2 & I3)].
  - change (INR 0) with 0. cbn [rootR]. split; [lra|]. split; lra.
  - cbn [rootR] in *. rewrite S_INR. set (x := rootR n) in *. pose proof (pos_INR n). set (k := INR n) in *.
    assert (Hk : 0 < k + 1 + 2) by lra.
    assert (Sq : forall y, y <= (1 + y * y) / 2) by (intro y; pose proof (Rle_0_sqr (1 - y)) as Q; unfold Rsqr in Q; lra).
    split; [assert (0 <= x * x <= 1) by (split; [apply Rmult_le_pos|rewrite <- (Rmult_1_l 1); apply Rmult_le_compat]; lra); lra|]. split; [apply Sq|].
    set (b := 1 - x) in *. replace (1 - (1 + x * x) / 2) with (b - b * b / 2) by (unfold b; field).
    assert (B : b - b * b / 2 <= 2 / (k + 2) - (2 / (k + 2)) * (2 / (k + 2)) / 2).
    { assert (P2 : 2 / (k + 2) <= 1) by (apply (Rmult_le_reg_r (k + 2)); [lra|]; replace (2 / (k + 2) * (k + 2)) with 2 by (field; lra); lra).
      assert (0 <= b <= 1) by (unfold b; lra). nra. }
    apply (Rle_trans _ _ _ B). apply (Rmult_le_reg_r ((k + 1 + 2) * ((k + 2) * (k + 2)))); [nra|].
    replace ((2 / (k + 2) - 2 / (k + 2) * (2 / (k + 2)) / 2) * ((k + 1 + 2) * ((k + 2) * (k + 2)))) with ((2 * (k + 2) - 2) * (k + 1 + 2)) by (field; lra).
    replace (2 / (k + 1 + 2) * ((k + 1 + 2) * ((k + 2) * (k + 2)))) with (2 * ((k + 2) * (k + 2))) by (field; lra). nra.
Qed.
Lemma root_nle r m n : 0 < r -> nle r m 1 -> nle r (root m n) (rootR n).
Proof.
  intros Hr Hm. induction n as [|n IH]; cbn [root rootR].
  - apply (nle_le r _ (Rabs 0)); [rewrite Rabs_R0; lra|apply nle_C].
  - apply (nle_le r _ (Rabs (/ 2) * (1 + rootR n * rootR n))); [rewrite Rabs_pos_eq by lra; lra|].
    apply nle_mul; auto; [apply nle_C|]. apply nle_add; auto. now apply nle_mul.
Qed.
Lemma root_step r m n : 0 < r -> nle r m 1 -> nle r (root m (S n) - root m n)%P (rootR (S n) - rootR n).
Proof.
  intros Hr Hm. induction n as [|n IH].
  - cbn [root rootR]. apply (nle_eq r (C (/ 2) * m)%P).
    + ring.
    + apply (nle_le r _ (Rabs (/ 2) * 1)); [rewrite Rabs_pos_eq by lra; lra|]. apply nle_mul; auto. apply nle_C.
  - apply (nle_eq r (C (/ 2) * ((root m (S n) - root m n) * (root m (S n) + root m n)))%P); [cbn [root]; ring|].
    apply (nle_le r _ (Rabs (/ 2) * ((rootR (S n) - rootR n) * (rootR (S n) + rootR n)))); [rewrite Rabs_pos_eq by lra; cbn [rootR]; lra|].
    apply nle_mul; auto; [apply nle_C|]. apply nle_mul; auto. apply nle_add; now apply root_nle.
Qed.
Lemma Tm_one_minus G r m : arch G r -> nle r m 1 -> Tm G (C 1 - m)%P.
Proof.
  intros Ha Hm p Hp. pose proof (proj1 Ha) as Hr. apply (qmc_near G r); auto. intros e He.
  set (c := nrm r p + 1). assert (Hc : 0 < c) by (pose proof (nrm_pos r p Hr); unfold c; lra).
  assert (HN : exists n, 4 / (INR n + 2) * c <= e).
  { destruct (archimed (4 * c / e)) as (A & _). exists (Z.to_nat (up (4 * c / e))). set (x := 4 * c / e) in *.
    assert (0 < x) by (unfold x; apply Rdiv_lt_0_compat; lra). rewrite INR_IZR_INZ, Z2Nat.id by (apply le_IZR; lra).
    set (y := IZR (up x)) in *. apply (Rmult_le_reg_r (y + 2)); [lra|]. replace (4 / (y + 2) * c * (y + 2)) with (e * x) by (unfold x; field; lra). nra. }
  destruct HN as (n & HN). exists ((C 1 - root m n) * (C 1 - root m n) * p)%P. split; [now apply (qmc_mulsq G r)|].
  apply (nle_eq r (C 2 * (root m n - root m (S n)) * p)%P).
  - cbn [root]. rewrite C_2. transitivity ((C 1 + C 1) * root m n * p - (C 1 + C 1) * C (/ 2) * (m + root m n * root m n) * p)%P; [ring|].
    rewrite <- C_2, <- C_mul. replace (2 * / 2) with 1 by field. rewrite C_2. ring.
  - apply (nle_le r _ (Rabs 2 * (rootR (S n) - rootR n) * c)).
    + rewrite Rabs_pos_eq by lra. destruct (rootR_bound n) as (B1 & B2 & B3). destruct (rootR_bound (S n)) as (B4 & _).
      assert (2 * (rootR (S n) - rootR n) <= 4 / (INR n + 2)) by (unfold Rdiv in *; lra). apply Rle_trans with (2 := HN). apply Rmult_le_compat_r; lra.
    + apply nle_mul; auto; [apply nle_mul; auto; [apply nle_C|]|apply (nle_le r _ (nrm r p)); [unfold c; lra|apply nle_refl]].
      apply (nle_eq r (- (root m (S n) - root m n))%P); [ring|]. apply nle_opp. now apply root_step.
Qed.
Lemma Tm_bound G r m e : arch G r -> 0 < e -> nle r m e -> Tm G (C e - m)%P.
Proof.
  intros Ha He Hm. apply (Tm_proper G (C e * (C 1 - C (/ e) * m))%P).
  - transitivity (C e - C e * C (/ e) * m)%P; [ring|]. rewrite <- C_mul. replace (e * / e) with 1 by (field; lra). ring.
  - apply Tm_mul; [apply Tm_C; lra|]. apply (Tm_one_minus G r); auto. apply (nle_le r _ (Rabs (/ e) * e)).
    + rewrite Rabs_pos_eq by (apply Rlt_le, Rinv_0_lt_compat; lra). right. field. lra.
    + apply nle_mul; [apply Ha|apply nle_C|auto].
Qed.
