(** Functionals that are non-negative on a quadratic module are close to measures on the set where
    the generators are non-negative (C87). *)
From Coq Require Import Setoid Morphisms Ring.
From Verif Require Import Base.Vec Base.VecFacts Spec.Basic Proofs.QModule.

(** ** sums of polynomials *)
Definition psum {A} (F : A -> PP) (l : list A) : PP := fold_right (fun a s => (F a + s)%P) (C 0) l.
Lemma psum_cons {A} (F : A -> PP) a l : psum F (a :: l) = (F a + psum F l)%P. Proof. reflexivity. Qed.
Lemma psum_nil {A} (F : A -> PP) : psum F [] = C 0. Proof. reflexivity. Qed.
Lemma psum_ext {A} (F F' : A -> PP) l : (forall a, In a l -> F a == F' a) -> psum F l == psum F' l.
Proof. induction l as [|a l IH]; intro H; [reflexivity|]. rewrite !psum_cons. rewrite (H a) by (now left). rewrite IH by (intros; apply H; now right). reflexivity. Qed.
Lemma psum_add {A} (F F' : A -> PP) l : psum (fun a => F a + F' a)%P l == (psum F l + psum F' l)%P.
Proof. induction l as [|a l IH]; [rewrite !psum_nil; ring|]. rewrite !psum_cons, IH. ring. Qed.
Lemma psum_mul {A} q (F : A -> PP) l : psum (fun a => q * F a)%P l == (q * psum F l)%P.
Proof. induction l as [|a l IH]; [rewrite !psum_nil; ring|]. rewrite !psum_cons, IH. ring. Qed.
Lemma psum_opp {A} (F : A -> PP) l : psum (fun a => - F a)%P l == (- psum F l)%P.
Proof. induction l as [|a l IH]; [rewrite !psum_nil; ring|]. rewrite !psum_cons, IH. ring. Qed.
Lemma psum_qmc {A} G (F : A -> PP) l : (forall a, In a l -> qmc G (F a)) -> qmc G (psum F l).
Proof.
  induction l as [|a l IH]; intro H; [apply qm_qmc, qm_const; lra|]. rewrite psum_cons. apply qmc_add; [apply H; now left|]. apply IH. intros; apply H; now right.
Qed.
Lemma lin_psum {A} f (F : A -> PP) l : lin f (psum F l) = lsum (map (fun a => lin f (F a)) l).
Proof. induction l as [|a l IH]; [rewrite psum_nil, lin_C; cbn; ring|]. rewrite psum_cons, lin_add, IH. reflexivity. Qed.

(** ** a random walk on the grid *)
Definition cmp (u : mon) (i : nat) : nat := let '(a, b, c) := u in match i with 0 => a | 1 => b | _ => c end%nat.
Definition tb (r : R) (i : nat) : PP := (C (/ (2 * r)) * (C r + pX i))%P.
Definition leaf := (PP * mon)%type.
Definition step (r : R) (i : nat) (l : list leaf) : list leaf :=
  flat_map (fun wu => [((tb r i * fst wu)%P, mplus (xv i) (snd wu)); (((C 1 - tb r i) * fst wu)%P, snd wu)]) l.
Fixpoint walk (r : R) (i : nat) (n : nat) (l : list leaf) : list leaf := match n with O => l | S n => step r i (walk r i n l) end.
Definition walk3 (r : R) (n : nat) : list leaf := walk r 2 n (walk r 1 n (walk r 0 n [(C 1, (0, 0, 0)%nat)])).
Lemma psum_step r i (F : leaf -> PP) l :
  psum F (step r i l) == psum (fun wu => F ((tb r i * fst wu)%P, mplus (xv i) (snd wu)) + F (((C 1 - tb r i) * fst wu)%P, snd wu))%P l.
Proof. induction l as [|[w u] l IH]; [reflexivity|]. unfold step. cbn [flat_map app]. fold (step r i l). rewrite !psum_cons, IH. cbn [fst snd]. ring. Qed.
Definition Wt (l : list leaf) : PP := psum fst l.
Definition dev (r : R) (j : nat) (n : R) (u : mon) : PP := (C n * tb r j - C (INR (cmp u j)))%P.
Definition Dt (r : R) (j : nat) (n : R) (l : list leaf) : PP := psum (fun wu => fst wu * (dev r j n (snd wu) * dev r j n (snd wu)))%P l.
Lemma Wt_step r i l : Wt (step r i l) == Wt l.
Proof. unfold Wt. rewrite psum_step. apply psum_ext. intros [w u] _. cbn [fst snd]. ring. Qed.
Lemma cmp_step i u : (i < 3)%nat -> cmp (mplus (xv i) u) i = S (cmp u i).
Proof. intro H. destruct u as [[a b] c]. destruct i as [|[|[|i]]]; try lia; reflexivity. Qed.
Lemma cmp_other i j u : (i < 3)%nat -> (j < 3)%nat -> i <> j -> cmp (mplus (xv i) u) j = cmp u j.
Proof. intros Hi Hj N. destruct u as [[a b] c]. destruct i as [|[|[|i]]]; try lia; destruct j as [|[|[|j]]]; try lia; reflexivity. Qed.
Lemma Dt_step r i n l : (i < 3)%nat -> Dt r i (n + 1) (step r i l) == (Dt r i n l + tb r i * (C 1 - tb r i) * Wt l)%P.
Proof.
  intro Hi. unfold Dt, Wt. rewrite psum_step, <- psum_mul, <- psum_add. apply psum_ext. intros [w u] _. cbn [fst snd].
  unfold dev. rewrite cmp_step, S_INR, !C_add by auto. ring.
Qed.
Lemma Dt_other r i j n l : (i < 3)%nat -> (j < 3)%nat -> i <> j -> Dt r j n (step r i l) == Dt r j n l.
Proof.
  intros Hi Hj N. unfold Dt. rewrite psum_step. apply psum_ext. intros [w u] _. cbn [fst snd]. unfold dev. rewrite (cmp_other i j u Hi Hj N). ring.
Qed.
Lemma Wt_walk r i n l : Wt (walk r i n l) == Wt l.
Proof. induction n as [|n IH]; [reflexivity|]. cbn [walk]. now rewrite Wt_step. Qed.
Lemma Dt_walk_other r i j k n l : (i < 3)%nat -> (j < 3)%nat -> i <> j -> Dt r j k (walk r i n l) == Dt r j k l.
Proof. intros Hi Hj N. induction n as [|n IH]; [reflexivity|]. cbn [walk]. now rewrite Dt_other. Qed.
Lemma Dt_walk r i n l : (i < 3)%nat -> Dt r i (INR n) (walk r i n l) == (Dt r i 0 l + C (INR n) * (tb r i * (C 1 - tb r i) * Wt l))%P.
Proof.
  intro Hi. induction n as [|n IH]; [cbn [walk]; change (INR 0) with 0; ring|]. cbn [walk]. rewrite S_INR. rewrite Dt_step by auto. rewrite IH, Wt_walk, C_add. ring.
Qed.
Lemma in_step r i l wu : In wu (step r i l) -> exists wu', In wu' l /\
  (wu = ((tb r i * fst wu')%P, mplus (xv i) (snd wu')) \/ wu = (((C 1 - tb r i) * fst wu')%P, snd wu')).
Proof. intro H. apply in_flat_map in H as (wu' & H1 & H2). exists wu'. split; [exact H1|]. destruct H2 as [<-|[<-|[]]]; auto. Qed.
Lemma cmp_nil j : cmp (0, 0, 0)%nat j = 0%nat. Proof. destruct j as [|[|j]]; reflexivity. Qed.
Lemma walk_cmp r i n l j k : (i < 3)%nat -> (j < 3)%nat -> (forall wu, In wu l -> (cmp (snd wu) j <= k)%nat) ->
  forall wu, In wu (walk r i n l) -> (cmp (snd wu) j <= if Nat.eqb i j then k + n else k)%nat.
Proof.
  intros Hi Hj H. induction n as [|n IH]; intros wu Hwu.
  - apply H in Hwu. destruct (Nat.eqb i j); lia.
  - cbn [walk] in Hwu. apply in_step in Hwu as (wu' & Hin & [-> | ->]); apply IH in Hin; cbn [snd].
    + destruct (Nat.eqb_spec i j) as [->|N]; [rewrite cmp_step by auto; lia|rewrite cmp_other by auto; lia].
    + destruct (Nat.eqb i j); lia.
Qed.
Lemma walk3_cmp r n wu j : (j < 3)%nat -> In wu (walk3 r n) -> (cmp (snd wu) j <= n)%nat.
Proof.
  intros Hj. assert (B0 : forall wu, In wu [(C 1, (0, 0, 0)%nat)] -> (cmp (snd wu) j <= 0)%nat) by (intros x [<-|[]]; cbn [snd]; now rewrite cmp_nil).
  pose proof (walk_cmp r 0 n _ j 0 ltac:(lia) Hj B0) as B1. cbn [Nat.add] in B1.
  pose proof (walk_cmp r 1 n _ j _ ltac:(lia) Hj B1) as B2.
  pose proof (walk_cmp r 2 n _ j _ ltac:(lia) Hj B2 wu) as B3.
  intro H. specialize (B3 H). destruct j as [|[|[|j]]]; try lia; cbn in B3; lia.
Qed.
Lemma walk_Tm G r i n l : Tm G (tb r i) -> Tm G (C 1 - tb r i)%P -> (forall wu, In wu l -> Tm G (fst wu)) ->
  forall wu, In wu (walk r i n l) -> Tm G (fst wu).
Proof.
  intros H1 H2 H. induction n as [|n IH]; [exact H|]. intros wu Hwu. cbn [walk] in Hwu.
  apply in_step in Hwu as (wu' & Hin & [-> | ->]); apply IH in Hin; cbn [fst]; now apply Tm_mul.
Qed.
Lemma nle_X r i : (i < 3)%nat -> nle r (pX i) r.
Proof. intro Hi. exists (pX i). split; [reflexivity|]. unfold nrm, pX, pM. cbn. rewrite Rabs_R1. destruct i as [|[|i]]; cbn; lra. Qed.
Lemma tb_Tm G r i : arch G r -> (i < 3)%nat -> Tm G (tb r i) /\ Tm G (C 1 - tb r i)%P.
Proof.
  intros Ha Hi. pose proof (proj1 Ha) as Hr. assert (H0 : 0 <= / (2 * r)) by (apply Rlt_le, Rinv_0_lt_compat; lra). split.
  - apply Tm_mul; [now apply Tm_C|]. apply (Tm_proper G (C r - (- pX i))%P); [ring|]. apply (Tm_bound G r); auto. apply nle_opp. now apply nle_X.
  - apply (Tm_proper G (C (/ (2 * r)) * (C r - pX i))%P).
    + unfold tb. transitivity (C (/ (2 * r)) * (C r + C r) - C (/ (2 * r)) * (C r + pX i))%P; [ring|].
      rewrite <- C_add, <- C_mul. replace (/ (2 * r) * (r + r)) with 1 by (field; lra). reflexivity.
    + apply Tm_mul; [now apply Tm_C|]. apply (Tm_bound G r); auto. now apply nle_X.
Qed.
Lemma walk3_Tm G r n wu : arch G r -> In wu (walk3 r n) -> Tm G (fst wu).
Proof.
  intros Ha. unfold walk3. destruct (tb_Tm G r 0 Ha ltac:(lia)). destruct (tb_Tm G r 1 Ha ltac:(lia)). destruct (tb_Tm G r 2 Ha ltac:(lia)).
  apply walk_Tm; auto. apply walk_Tm; auto. apply walk_Tm; auto. intros x [<-|[]]. apply Tm_C. lra.
Qed.
Lemma walk3_W r n : Wt (walk3 r n) == C 1.
Proof. unfold walk3. rewrite !Wt_walk. unfold Wt. rewrite psum_cons, psum_nil. cbn [fst]. ring. Qed.
Lemma walk3_D r n j : (j < 3)%nat -> Dt r j (INR n) (walk3 r n) == (C (INR n) * (tb r j * (C 1 - tb r j)))%P.
Proof.
  intros Hj. unfold walk3. set (l0 := [(C 1, (0, 0, 0)%nat)]).
  assert (D0 : Dt r j 0 l0 == C 0) by (unfold Dt, l0, dev; rewrite psum_cons, psum_nil; cbn [fst snd]; rewrite cmp_nil; change (INR 0) with 0; ring).
  assert (W0 : Wt l0 == C 1) by (unfold Wt, l0; rewrite psum_cons, psum_nil; cbn [fst]; ring).
  destruct j as [|[|[|j]]]; try lia.
  - rewrite !Dt_walk_other by lia. rewrite Dt_walk by lia. rewrite D0, W0. ring.
  - rewrite Dt_walk_other by lia. rewrite Dt_walk by lia. rewrite Dt_walk_other, Wt_walk by lia. rewrite D0, W0. ring.
  - rewrite Dt_walk by lia. rewrite !Dt_walk_other, !Wt_walk by lia. rewrite D0, W0. ring.
Qed.
(** the grid point of an index *)
Definition pt (r : R) (n : nat) (u : mon) (j : nat) : R := r * (2 * INR (cmp u j) / INR n - 1).
Definition in_cube (r : R) (x : nat -> R) : Prop := forall i, (i < 3)%nat -> Rabs (x i) <= r.
Lemma pt_cube r n wu : 0 < r -> (0 < n)%nat -> In wu (walk3 r n) -> in_cube r (pt r n (snd wu)).
Proof.
  intros Hr Hn H i Hi. pose proof (walk3_cmp r n wu i Hi H) as Hc. apply le_INR in Hc. apply lt_INR in Hn. change (INR 0) with 0 in Hn.
  pose proof (pos_INR (cmp (snd wu) i)). set (k := INR (cmp (snd wu) i)) in *. unfold pt. fold k.
  assert (0 <= k / INR n <= 1). { split; [apply Rmult_le_pos; [auto|apply Rlt_le, Rinv_0_lt_compat; auto]|]. apply (Rmult_le_reg_r (INR n)); auto. replace (k / INR n * INR n) with k by (field; lra). lra. }
  replace (2 * k / INR n) with (2 * (k / INR n)) by (field; lra). set (q := k / INR n) in *. apply Rabs_le. nra.
Qed.
Lemma X_pt r n u j : 0 < r -> (0 < n)%nat -> (pX j - C (pt r n u j))%P == (C (2 * r / INR n) * dev r j (INR n) u)%P.
Proof.
  intros Hr Hn. apply lt_INR in Hn. change (INR 0) with 0 in Hn. unfold dev, tb, pt. set (k := INR (cmp u j)). set (N := INR n) in *.
  transitivity (C (2 * r / N) * C N * C (/ (2 * r)) * (C r + pX j) - C (2 * r / N) * C k)%P; [|ring].
  rewrite <- !C_mul. replace (2 * r / N * N * / (2 * r)) with 1 by (field; lra).
  replace (r * (2 * k / N - 1)) with (2 * r / N * k - r) by (field; lra). rewrite C_sub. ring.
Qed.
Lemma walk3_var r n j : 0 < r -> (0 < n)%nat -> (j < 3)%nat ->
  psum (fun wu => fst wu * ((pX j - C (pt r n (snd wu) j)) * (pX j - C (pt r n (snd wu) j))))%P (walk3 r n) == (C (/ INR n) * (C (r * r) - pX j * pX j))%P.
Proof.
  intros Hr Hn Hj. transitivity (C (2 * r / INR n * (2 * r / INR n)) * Dt r j (INR n) (walk3 r n))%P.
  - unfold Dt. rewrite <- psum_mul. apply psum_ext. intros wu _. rewrite X_pt by auto. rewrite C_mul. ring.
  - rewrite walk3_D by auto. apply lt_INR in Hn. change (INR 0) with 0 in Hn. unfold tb. set (N := INR n) in *.
    assert (E1 : C 1 == (C (/ (2 * r)) * C (r + r))%P) by (rewrite <- C_mul; apply C_eq; field; lra). rewrite E1 at 1.
    transitivity (C (2 * r / N * (2 * r / N)) * C N * C (/ (2 * r)) * C (/ (2 * r)) * ((C r + pX j) * (C r - pX j)))%P.
    + rewrite C_add. ring.
    + rewrite <- !C_mul. replace (2 * r / N * (2 * r / N) * N * / (2 * r) * / (2 * r)) with (/ N) by (field; lra). rewrite (C_mul r r). ring.
Qed.

(** ** polynomials are Lipschitz on the cube *)
Definition sum3 (F : nat -> PP) : PP := (F 0%nat + F 1%nat + F 2%nat)%P.
Definition lip (r : R) (h : PP) : Prop := exists K, 0 < K /\ forall x, in_cube r x -> exists v : nat -> PP,
  (forall i, (i < 3)%nat -> nle r (v i) K) /\ (h - C (ev x h))%P == sum3 (fun i => (pX i - C (x i)) * v i)%P.
Lemma lip_mon r u : 0 < r -> lip r (pM u).
Proof.
  intro Hr. induction u as [|i u Hi IH] using mon_ind.
  - exists 1. split; [lra|]. intros x Hx. exists (fun _ => C 0). split.
    + intros j Hj. apply (nle_le r _ (Rabs 0)); [rewrite Rabs_R0; lra|apply nle_C].
    + unfold sum3, ev. rewrite lin_pM. cbn [mev]. rewrite pM_0. replace (x 0%nat ^ 0 * x 1%nat ^ 0 * x 2%nat ^ 0) with 1 by (cbn; ring). ring.
  - destruct IH as (K & HK & IH). assert (Hp : 0 < r ^ mdeg u) by now apply pow_lt. exists (r * K + r ^ mdeg u). split; [nra|].
    intros x Hx. destruct (IH x Hx) as (v & Hv & E). exists (fun j => if Nat.eqb j i then (C (x i) * v j + pM u)%P else (C (x i) * v j)%P). split.
    + intros j Hj. assert (Hm : nle r (C (x i) * v j)%P (r * K)) by (apply nle_mul; auto; apply (nle_le r _ (Rabs (x i))); [now apply Hx|apply nle_C]).
      destruct (Nat.eqb j i).
      * apply nle_add; auto. exists (pM u). split; [reflexivity|]. unfold nrm, pM. cbn. rewrite Rabs_R1. lra.
      * apply (nle_le r _ (r * K)); [lra|exact Hm].
    + assert (Ev : ev x (pM (mplus (xv i) u)) = x i * ev x (pM u)) by (rewrite (ev_eq _ _ _ (pM_plus _ _)), ev_mul; fold (pX i); now rewrite ev_X).
      rewrite Ev, C_mul, pM_plus. fold (pX i). transitivity ((pX i - C (x i)) * pM u + C (x i) * (pM u - C (ev x (pM u))))%P; [ring|]. rewrite E. unfold sum3.
      destruct i as [|[|[|i]]]; try lia; cbn [Nat.eqb]; ring.
Qed.
Lemma lip_eq r p q : p == q -> lip r p -> lip r q.
Proof.
  intros E (K & HK & H). exists K. split; [exact HK|]. intros x Hx. destruct (H x Hx) as (v & Hv & Ev). exists v. split; [exact Hv|].
  rewrite <- (ev_eq x p q E). now rewrite <- E.
Qed.
Lemma lip_add r p q : lip r p -> lip r q -> lip r (p + q)%P.
Proof.
  intros (K & HK & H) (K' & HK' & H'). exists (K + K'). split; [lra|]. intros x Hx. destruct (H x Hx) as (v & Hv & Ev). destruct (H' x Hx) as (v' & Hv' & Ev').
  exists (fun i => v i + v' i)%P. split; [intros i Hi; apply nle_add; auto|]. rewrite ev_add, C_add.
  transitivity ((p - C (ev x p)) + (q - C (ev x q)))%P; [ring|]. rewrite Ev, Ev'. unfold sum3. ring.
Qed.
Lemma lip_scale r c p : 0 < r -> lip r p -> lip r (C c * p)%P.
Proof.
  intros Hr (K & HK & H). exists (Rabs c * K + 1). split; [pose proof (Rabs_pos c); nra|]. intros x Hx. destruct (H x Hx) as (v & Hv & Ev).
  exists (fun i => C c * v i)%P. split.
  - intros i Hi. apply (nle_le r _ (Rabs c * K)); [lra|]. apply nle_mul; auto. apply nle_C.
  - rewrite ev_mul, ev_C, C_mul. transitivity (C c * (p - C (ev x p)))%P; [ring|]. rewrite Ev. unfold sum3. ring.
Qed.
Lemma lip_all r p : 0 < r -> lip r p.
Proof.
  intro Hr. induction p as [|[u c] p IH].
  - apply (lip_eq r (C 0 * pM (0, 0, 0)%nat)%P); [intro f; rewrite lin_Cmul, lin_nil; ring|]. apply lip_scale; auto. now apply lip_mon.
  - apply (lip_eq r (C c * pM u + p)%P); [symmetry; apply cons_eq|]. apply lip_add; auto. apply lip_scale; auto. now apply lip_mon.
Qed.
Lemma lip_Tm G r h x a v K m : arch G r -> 0 < K -> 0 < m -> (forall i, (i < 3)%nat -> nle r (v i) K) ->
  (h - x)%P == sum3 (fun i => a i * v i)%P ->
  Tm G (C (m * m / 2) * sum3 (fun i => a i * a i) + C (3 * (K * K) / (2 * (m * m))) + (h - x))%P.
Proof.
  intros Ha HK Hm Hv E.
  assert (One : forall i, (i < 3)%nat -> Tm G (C (m * m / 2) * (a i * a i) + C (K * K / (2 * (m * m))) + a i * v i)%P).
  { intros i Hi. assert (Hmm : 0 < / (2 * (m * m))) by (apply Rinv_0_lt_compat; nra).
    apply (Tm_proper G (C (/ 2) * ((C m * a i + C (/ m) * v i) * (C m * a i + C (/ m) * v i)) + C (/ (2 * (m * m))) * (C (K * K) - v i * v i))%P).
    - transitivity (C (/ 2) * C m * C m * (a i * a i) + (C (/ 2) * C m * C (/ m) + C (/ 2) * C m * C (/ m)) * (a i * v i) + (C (/ 2) * C (/ m) * C (/ m) - C (/ (2 * (m * m)))) * (v i * v i) + C (/ (2 * (m * m))) * C (K * K))%P; [ring|].
      rewrite <- !C_mul, <- C_add, <- C_sub. replace (/ 2 * m * m) with (m * m / 2) by field. replace (/ 2 * m * / m + / 2 * m * / m) with 1 by (field; lra).
      replace (/ 2 * / m * / m - / (2 * (m * m))) with 0 by (field; lra). replace (/ (2 * (m * m)) * (K * K)) with (K * K / (2 * (m * m))) by (field; lra). ring.
    - apply Tm_add; [apply Tm_mul; [apply Tm_C; lra|now apply (Tm_sq G r)]|]. apply Tm_mul; [apply Tm_C; lra|].
      apply (Tm_bound G r); auto; [nra|]. apply nle_mul; auto; apply Ha. }
  rewrite E. apply (Tm_proper G (sum3 (fun i => C (m * m / 2) * (a i * a i) + C (K * K / (2 * (m * m))) + a i * v i))%P).
  - unfold sum3. replace (3 * (K * K) / (2 * (m * m))) with (K * K / (2 * (m * m)) + K * K / (2 * (m * m)) + K * K / (2 * (m * m))) by (field; lra). rewrite !C_add. ring.
  - unfold sum3. apply Tm_add; [apply Tm_add|]; apply One; lia.
Qed.
(** the average of the values on the grid *)
Definition avg (r : R) (n : nat) (h : PP) : PP := psum (fun wu => fst wu * C (ev (pt r n (snd wu)) h))%P (walk3 r n).
Lemma approx1 G r h : arch G r -> exists K, 0 < K /\ forall n m, (0 < n)%nat -> 0 < m ->
  qmc G (C (m * m / 2 * (/ INR n) * (3 * (r * r)) + 3 * (K * K) / (2 * (m * m))) + (h - avg r n h))%P.
Proof.
  intro Ha. pose proof (proj1 Ha) as Hr. destruct (lip_all r h Hr) as (K & HK & HL). exists K. split; [exact HK|]. intros n m Hn Hm.
  set (A := m * m / 2). set (B := 3 * (K * K) / (2 * (m * m))).
  assert (Q : qmc G (psum (fun wu => fst wu * (C A * sum3 (fun i => (pX i - C (pt r n (snd wu) i)) * (pX i - C (pt r n (snd wu) i))) + C B + (h - C (ev (pt r n (snd wu)) h))))%P (walk3 r n))).
  { apply psum_qmc. intros wu Hwu. apply (walk3_Tm G r n wu Ha Hwu). apply Tm_qmc. destruct (HL _ (pt_cube r n wu Hr Hn Hwu)) as (v & Hv & Ev).
    now apply (lip_Tm G r h _ (fun i => pX i - C (pt r n (snd wu) i))%P v K m). }
  assert (E : psum (fun wu => fst wu * (C A * sum3 (fun i => (pX i - C (pt r n (snd wu) i)) * (pX i - C (pt r n (snd wu) i))) + C B + (h - C (ev (pt r n (snd wu)) h))))%P (walk3 r n)
    == (C A * C (/ INR n) * sum3 (fun i => C (r * r) - pX i * pX i) + C B + (h - avg r n h))%P).
  { transitivity (C A * sum3 (fun i => psum (fun wu => fst wu * ((pX i - C (pt r n (snd wu) i)) * (pX i - C (pt r n (snd wu) i))))%P (walk3 r n)) + (C B + h) * Wt (walk3 r n) + (- avg r n h))%P.
    - unfold sum3, Wt, avg. rewrite <- !psum_opp, <- !psum_mul, <- !psum_add, <- !psum_mul, <- !psum_add. apply psum_ext. intros wu _. ring.
    - rewrite walk3_W. unfold sum3. rewrite !walk3_var by (auto; lia). ring. }
  rewrite E in Q. apply (qmc_proper G ((C A * C (/ INR n) * sum3 (fun i => C (r * r) - pX i * pX i) + C B + (h - avg r n h)) + C (A * / INR n) * sum3 (fun i => pX i * pX i))%P).
  - unfold sum3. replace 3 with (1 + 1 + 1) by ring. rewrite C_add, !C_mul, !C_add. ring.
  - apply qmc_add; [exact Q|]. assert (0 < A) by (unfold A; nra). apply lt_INR in Hn. change (INR 0) with 0 in Hn.
    apply qmc_scale; [apply Rmult_le_pos; [lra|apply Rlt_le, Rinv_0_lt_compat; lra]|]. unfold sum3. apply qmc_add; [apply qmc_add|]; apply qm_qmc, qm_sq.
Qed.
Lemma nat_above x : exists n, (0 < n)%nat /\ x <= INR n.
Proof.
  destruct (archimed x) as (A & _). exists (S (Z.to_nat (up x))). split; [lia|]. rewrite S_INR, INR_IZR_INZ. destruct (Z_le_gt_dec 0 (up x)) as [H|H].
  - rewrite Z2Nat.id by auto. lra.
  - replace (Z.to_nat (up x)) with 0%nat by lia. cbn [Z.of_nat]. assert (IZR (up x) <= 0) by (apply IZR_le; lia). lra.
Qed.
Lemma approx2 G r h e : arch G r -> 0 < e -> exists N, (0 < N)%nat /\ forall n, (N <= n)%nat -> qmc G (C e + (h - avg r n h))%P.
Proof.
  intros Ha He. pose proof (proj1 Ha) as Hr. destruct (approx1 G r h Ha) as (K & HK & H).
  set (m := sqrt (3 * (K * K) / e)). assert (Hq : 0 < 3 * (K * K) / e) by (apply Rdiv_lt_0_compat; nra). assert (Hm : 0 < m) by now apply sqrt_lt_R0.
  assert (Em : m * m = 3 * (K * K) / e) by (apply sqrt_sqrt; lra).
  destruct (nat_above (m * m * (3 * (r * r)) / e)) as (N & HN & LN). exists N. split; [exact HN|]. intros n Hn.
  assert (Hn0 : (0 < n)%nat) by lia. specialize (H n m Hn0 Hm). apply le_INR in Hn. pose proof (lt_INR _ _ HN) as HN'. change (INR 0) with 0 in HN'.
  set (B := m * m / 2 * / INR n * (3 * (r * r)) + 3 * (K * K) / (2 * (m * m))) in *.
  assert (LB : B <= e).
  { unfold B. replace (3 * (K * K) / (2 * (m * m))) with (e / 2) by (rewrite Em; field; split; [lra|nra]).
    assert (m * m / 2 * / INR n * (3 * (r * r)) <= e / 2); [|lra]. apply (Rmult_le_reg_r (INR n)); [lra|].
    replace (m * m / 2 * / INR n * (3 * (r * r)) * INR n) with (m * m * (3 * (r * r)) / e * e / 2) by (field; lra).
    set (y := m * m * (3 * (r * r)) / e) in *. nra. }
  apply (qmc_proper G (C (e - B) + (C B + (h - avg r n h)))%P); [rewrite C_sub; ring|]. apply qmc_add; [apply qm_qmc, qm_const; lra|exact H].
Qed.
Lemma approx_list G r H e : arch G r -> 0 < e -> exists n, (0 < n)%nat /\ forall h, In h H -> qmc G (C e + (h - avg r n h))%P /\ qmc G (C e + (avg r n h - h))%P.
Proof.
  intros Ha He. assert (A : exists N, (0 < N)%nat /\ forall n, (N <= n)%nat -> forall h, In h H -> qmc G (C e + (h - avg r n h))%P /\ qmc G (C e + (avg r n h - h))%P).
  { induction H as [|h H (N & HN & IH)]; [exists 1%nat; split; [lia|intros n _ h []]|].
    destruct (approx2 G r h e Ha He) as (N1 & H1 & A1). destruct (approx2 G r (- h)%P e Ha He) as (N2 & H2 & A2).
    exists (N + N1 + N2)%nat. split; [lia|]. intros n Hn h' [<-|Hin]; [|apply IH; [lia|auto]]. split; [apply A1; lia|].
    specialize (A2 n ltac:(lia)). apply (qmc_proper G (C e + (- h - avg r n (- h)))%P); [|exact A2].
    assert (Ea : avg r n (- h)%P == (- avg r n h)%P).
    { unfold avg. rewrite <- psum_opp. apply psum_ext. intros wu _. rewrite ev_opp, C_opp. ring. }
    rewrite Ea. ring. }
  destruct A as (N & HN & A). exists N. split; [exact HN|]. apply A. lia.
Qed.
