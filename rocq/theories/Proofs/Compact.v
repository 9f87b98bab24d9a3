(** Compact sets of vectors, without sequences: a decreasing family of non-empty subsets has a
    common limit point.  Used for the existence of closest points. *)
From Coq Require Import Classical.
From Verif Require Import Base.Vec Base.VecFacts Spec.Basic Proofs.Coord.

Definition antitone {A : Type} (F : R -> A -> Prop) : Prop := forall e e' z, 0 < e <= e' -> F e z -> F e' z.
Definition near (n : nat) (e : R) (z a : vec) : Prop := forall i, (i < n)%nat -> Rabs (nth i z 0 - nth i a 0) <= e.

Lemma pick1 (A : Type) (F : R -> A -> Prop) (phi : A -> R) B : antitone F ->
  (forall e, 0 < e -> exists z, F e z) -> (forall e z, 0 < e -> F e z -> Rabs (phi z) <= B) ->
  exists a, forall e, 0 < e -> exists z, F e z /\ Rabs (phi z - a) <= e.
Proof.
  intros HA HN HB. set (E := fun r => exists e, 0 < e /\ forall z, F e z -> r <= phi z).
  assert (Hb : bound E).
  { exists B. intros r (e & He & Hr). destruct (HN e He) as (z & Hz). specialize (Hr z Hz). apply HB in Hz; auto.
    apply abs_le_inv in Hz. lra. }
  assert (Hn : exists r, E r).
  { exists (- B). exists 1. split; [lra|]. intros z Hz. apply HB in Hz; [|lra]. apply abs_le_inv in Hz. lra. }
  destruct (completeness E Hb Hn) as (a & Ha1 & Ha2). exists a. intros e He.
  assert (U : forall d, 0 < d -> exists z, F d z /\ phi z <= a + d).
  { intros d Hd. apply NNPP. intros HX. assert (E (a + d)).
    { exists d. split; auto. intros z Hz. destruct (Rle_lt_dec (a + d) (phi z)); auto. exfalso. apply HX. exists z. split; [auto|lra]. }
    specialize (Ha1 _ H). lra. }
  assert (L : exists r, E r /\ a - e < r).
  { apply NNPP. intros HX. assert (a <= a - e); [|lra]. apply Ha2. intros r Hr. destruct (Rle_lt_dec r (a - e)); auto. exfalso. eauto. }
  destruct L as (r & (d & Hd & Hr) & Hr2). destruct (U (Rmin d e)) as (z & Hz & Hz2); [now apply Rmin_pos|].
  assert (M0 : 0 < Rmin d e) by now apply Rmin_pos. pose proof (Rmin_l d e). pose proof (Rmin_r d e). exists z. split.
  - apply (HA (Rmin d e)); auto.
  - assert (r <= phi z) by (apply Hr, (HA (Rmin d e)); auto). apply Rabs_le. lra.
Qed.

Lemma pickn (F : R -> vec -> Prop) n B : antitone F -> (forall e, 0 < e -> exists z, F e z) ->
  (forall e z i, 0 < e -> F e z -> (i < n)%nat -> Rabs (nth i z 0) <= B) ->
  exists a, length a = n /\ forall e, 0 < e -> exists z, F e z /\ near n e z a.
Proof.
  intros HA HN HB.
  assert (G : forall k, (k <= n)%nat -> exists a, length a = k /\ forall e, 0 < e -> exists z, F e z /\ near k e z a).
  { induction k as [|k IH]; intros Hk.
    - exists []. split; [reflexivity|]. intros e He. destruct (HN e He) as (z & Hz). exists z. split; auto. intros i Hi. lia.
    - destruct IH as (a & La & Ha); [lia|].
      destruct (pick1 vec (fun e z => F e z /\ near k e z a) (fun z => nth k z 0) B) as (b & Hb); auto.
      + intros e e' z He (H1 & H2). split; [now apply (HA e)|]. intros i Hi. specialize (H2 i Hi). lra.
      + intros e z He (Hz & _). apply (HB e); auto.
      + exists (a ++ [b]). split; [rewrite app_length; cbn; lia|]. intros e He. destruct (Hb e He) as (z & (Hz & Hn) & Hk2).
        exists z. split; auto. intros i Hi. destruct (Nat.eq_dec i k) as [->|].
        * rewrite app_nth2 by lia. replace (k - length a)%nat with 0%nat by lia. exact Hk2.
        * rewrite app_nth1 by lia. apply Hn. lia. }
  apply G. lia.
Qed.

Definition compact (n : nat) (K : vec -> Prop) : Prop := forall F : R -> vec -> Prop, antitone F ->
  (forall e, 0 < e -> exists z, length z = n /\ K z /\ F e z) ->
  exists a, length a = n /\ K a /\ forall e, 0 < e -> exists z, length z = n /\ K z /\ F e z /\ near n e z a.
(** continuity on the vectors of length n *)
Definition contR (n : nat) (f : vec -> R) : Prop := forall a d, length a = n -> 0 < d ->
  exists e, 0 < e /\ forall z, length z = n -> near n e z a -> Rabs (f z - f a) <= d.
Definition contV (n m : nat) (g : vec -> vec) : Prop := forall i, (i < m)%nat -> contR n (fun z => nth i (g z) 0).

Lemma near_le n e e' z a : e <= e' -> near n e z a -> near n e' z a.
Proof. intros He H i Hi. specialize (H i Hi). lra. Qed.
Lemma contR_ext n f g : (forall z, length z = n -> f z = g z) -> contR n g -> contR n f.
Proof. intros E H a d Ha Hd. destruct (H a d Ha Hd) as (e & He & Hz). exists e. split; auto. intros z Lz Nz. rewrite !E by auto. auto. Qed.
Lemma contR_const n c : contR n (fun _ => c).
Proof. intros a d _ Hd. exists 1. split; [lra|]. intros. replace (c - c) with 0 by ring. rewrite Rabs_R0. lra. Qed.
Lemma contR_nth n i : contR n (fun z => nth i z 0).
Proof.
  intros a d Ha Hd. exists d. split; auto. intros z Lz Nz. destruct (Nat.lt_ge_cases i n); [now apply Nz|].
  rewrite !nth_overflow by lia. replace (0 - 0) with 0 by ring. rewrite Rabs_R0. lra.
Qed.
Lemma contR_plus n f g : contR n f -> contR n g -> contR n (fun z => f z + g z).
Proof.
  intros Hf Hg a d Ha Hd. destruct (Hf a (d / 2) Ha ltac:(lra)) as (e1 & H1 & N1). destruct (Hg a (d / 2) Ha ltac:(lra)) as (e2 & H2 & N2).
  exists (Rmin e1 e2). split; [now apply Rmin_pos|]. intros z Lz Nz.
  specialize (N1 z Lz (near_le _ _ _ _ _ (Rmin_l e1 e2) Nz)). specialize (N2 z Lz (near_le _ _ _ _ _ (Rmin_r e1 e2) Nz)).
  apply abs_le_inv in N1, N2. apply Rabs_le. lra.
Qed.
Lemma contR_opp n f : contR n f -> contR n (fun z => - f z).
Proof.
  intros Hf a d Ha Hd. destruct (Hf a d Ha Hd) as (e & He & N). exists e. split; auto. intros z Lz Nz.
  specialize (N z Lz Nz). apply abs_le_inv in N. apply Rabs_le. lra.
Qed.
Lemma contR_abs n f : contR n f -> contR n (fun z => Rabs (f z)).
Proof.
  intros Hf a d Ha Hd. destruct (Hf a d Ha Hd) as (e & He & N). exists e. split; auto. intros z Lz Nz.
  specialize (N z Lz Nz). apply Rle_trans with (2 := N). apply Rabs_triang_inv2.
Qed.
Lemma contR_mult n f g : contR n f -> contR n g -> contR n (fun z => f z * g z).
Proof.
  intros Hf Hg a d Ha Hd. set (c := Rabs (f a) + Rabs (g a) + 1).
  pose proof (Rabs_pos (f a)). pose proof (Rabs_pos (g a)). assert (Hc : 0 < c) by (unfold c; lra).
  set (q := Rmin 1 (d / c)). assert (Hq : 0 < q) by (apply Rmin_pos; [lra|now apply Rdiv_lt_0_compat]).
  assert (Hq1 : q <= 1) by apply Rmin_l. assert (Hqc : q * c <= d).
  { apply Rle_trans with (d / c * c); [apply Rmult_le_compat_r; [lra|apply Rmin_r]|]. right. field. lra. }
  destruct (Hf a q Ha Hq) as (e1 & H1 & N1). destruct (Hg a q Ha Hq) as (e2 & H2 & N2).
  exists (Rmin e1 e2). split; [now apply Rmin_pos|]. intros z Lz Nz.
  specialize (N1 z Lz (near_le _ _ _ _ _ (Rmin_l e1 e2) Nz)). specialize (N2 z Lz (near_le _ _ _ _ _ (Rmin_r e1 e2) Nz)).
  replace (f z * g z - f a * g a) with ((f z - f a) * (g z - g a) + ((f z - f a) * g a + f a * (g z - g a))) by ring.
  eapply Rle_trans; [apply Rabs_triang|]. eapply Rle_trans; [apply Rplus_le_compat_l, Rabs_triang|]. rewrite !Rabs_mult.
  assert (A1 : Rabs (f z - f a) * Rabs (g z - g a) <= q * 1) by (apply Rmult_le_compat; try apply Rabs_pos; lra).
  assert (A2 : Rabs (f z - f a) * Rabs (g a) <= q * Rabs (g a)) by (apply Rmult_le_compat_r; auto).
  assert (A3 : Rabs (f a) * Rabs (g z - g a) <= Rabs (f a) * q) by (apply Rmult_le_compat_l; auto).
  unfold c in Hqc. nra.
Qed.
Lemma contR_rsum n k (f : nat -> vec -> R) : (forall i, (i < k)%nat -> contR n (f i)) -> contR n (fun z => rsum k (fun i => f i z)).
Proof.
  induction k as [|k IH]; intros H; [apply (contR_const n 0)|]. cbn. apply contR_plus; [apply IH; auto|apply H; lia].
Qed.
Lemma contR_dot n (f g : vec -> vec) m : contV n m f -> contV n m g -> (forall z, length z = n -> length (f z) = m) ->
  (forall z, length z = n -> length (g z) = m) -> contR n (fun z => dot (f z) (g z)).
Proof.
  intros Hf Hg Lf Lg. apply contR_ext with (g := fun z => rsum m (fun i => nth i (f z) 0 * nth i (g z) 0)).
  - intros z Lz. apply dot_rsum; auto.
  - apply contR_rsum. intros i Hi. apply contR_mult; auto.
Qed.
Lemma contV_const n m c : contV n m (fun _ => c).
Proof. intros i _. apply contR_const. Qed.
Lemma contV_id n : contV n n (fun z => z).
Proof. intros i _. apply contR_nth. Qed.
Lemma contR_dot_self n : contR n (fun z => dot z z).
Proof. apply (contR_dot n _ _ n); auto using contV_id. Qed.
Lemma contR_dot_const n r : length r = n -> contR n (fun z => dot r z).
Proof. intros Hr. apply (contR_dot n _ _ n); auto using contV_id, contV_const. Qed.

Lemma move_len2 m n Q c (z : vec) : is_mat m n Q -> length c = m -> length (move Q c z) = m.
Proof. intros (HQ & _) Hc. unfold move. rewrite vadd_length; rewrite mat_vec_length; congruence. Qed.
Lemma contR_move n m Q c i : is_mat m n Q -> length c = m -> (0 < n)%nat -> contR n (fun z => nth i (move Q c z) 0).
Proof.
  intros HQ Hc Hn. destruct (Nat.lt_ge_cases i m) as [Hi|Hi].
  - apply contR_ext with (g := fun z => dot (nth i Q []) z + nth i c 0).
    + intros z Lz. unfold move. rewrite nth_vadd by (rewrite mat_vec_length; destruct HQ; lia). now rewrite nth_mat_vec by (destruct HQ; lia).
    + apply contR_plus; [|apply contR_const]. apply contR_dot_const. eapply is_mat_row; eauto.
  - apply contR_ext with (g := fun _ => 0); [|apply contR_const]. intros z Lz. apply nth_overflow.
    pose proof (move_len2 m n Q c z HQ Hc). lia.
Qed.

(** * Building compact sets *)
Lemma compact_closed n B (K : vec -> Prop) : (forall z, length z = n -> K z -> near n B z (zeros n)) ->
  (forall a, length a = n -> (forall e, 0 < e -> exists z, length z = n /\ K z /\ near n e z a) -> K a) -> compact n K.
Proof.
  intros HB HC F HA HN.
  destruct (pickn (fun e z => length z = n /\ K z /\ F e z) n B) as (a & La & Ha).
  - intros e e' z He (H1 & H2 & H3). split; auto. split; auto. now apply (HA e).
  - exact HN.
  - intros e z i He (H1 & H2 & _) Hi. specialize (HB z H1 H2 i Hi). rewrite nth_zeros, Rminus_0_r in HB. exact HB.
  - exists a. split; auto. split.
    + apply HC; auto. intros e He. destruct (Ha e He) as (z & (H1 & H2 & _) & H3). eauto.
    + intros e He. destruct (Ha e He) as (z & (H1 & H2 & H3) & H4). exists z. auto.
Qed.
Lemma limit_le n f a : contR n f -> length a = n -> (forall e, 0 < e -> exists z, length z = n /\ f z <= 0 /\ near n e z a) -> f a <= 0.
Proof.
  intros Hf La H. destruct (Rle_lt_dec (f a) 0) as [|P]; auto. exfalso.
  destruct (Hf a (f a / 2) La ltac:(lra)) as (e & He & N). destruct (H e He) as (z & Lz & Hz & Nz). specialize (N z Lz Nz).
  apply abs_le_inv in N. lra.
Qed.
(** bounded sets given by continuous inequalities *)
Lemma compact_ineqs n B (T : Type) (f : T -> vec -> R) (K : vec -> Prop) :
  (forall z, length z = n -> K z <-> forall t, f t z <= 0) -> (forall t, contR n (f t)) ->
  (forall z, length z = n -> K z -> near n B z (zeros n)) -> compact n K.
Proof.
  intros HK Hf HB. apply (compact_closed n B); auto. intros a La H. apply HK; auto. intros t. apply (limit_le n); auto.
  intros e He. destruct (H e He) as (z & Lz & Kz & Nz). exists z. split; auto. split; auto. now apply HK.
Qed.
Lemma compact_image n m (K : vec -> Prop) (g : vec -> vec) (K' : vec -> Prop) : compact n K -> contV n m g ->
  (forall z, length z = n -> length (g z) = m) ->
  (forall p, length p = m -> K' p <-> exists z, length z = n /\ K z /\ p = g z) -> compact m K'.
Proof.
  intros HK Hg Lg HE F HA HN. destruct (HK (fun e z => F e (g z))) as (a & La & Ka & Ha).
  - intros e e' z He H. now apply (HA e).
  - intros e He. destruct (HN e He) as (p & Lp & Kp & Fp). apply HE in Kp as (z & Lz & Kz & ->); auto. eauto.
  - exists (g a). split; auto. split; [apply HE; eauto|]. intros e He.
    assert (D : forall k, (k <= m)%nat -> exists d, 0 < d /\ forall z, length z = n -> near n d z a -> near k e (g z) (g a)).
    { induction k as [|k IH]; intros Hk; [exists 1; split; [lra|]; intros z _ _ i Hi; lia|].
      destruct IH as (d1 & H1 & N1); [lia|]. destruct (Hg k ltac:(lia) a e La He) as (d2 & H2 & N2).
      exists (Rmin d1 d2). split; [now apply Rmin_pos|]. intros z Lz Nz i Hi. destruct (Nat.eq_dec i k) as [->|].
      - apply N2; auto. apply (near_le _ _ _ _ _ (Rmin_r d1 d2) Nz).
      - apply N1; auto; [|lia]. apply (near_le _ _ _ _ _ (Rmin_l d1 d2) Nz). }
    destruct (D m (le_n m)) as (d & Hd & Nd). destruct (Ha (Rmin d e)) as (z & Lz & Kz & Fz & Nz); [now apply Rmin_pos|].
    exists (g z). split; auto. split; [apply HE; eauto|]. split.
    + apply (HA (Rmin d e)); [|exact Fz]. split; [now apply Rmin_pos|apply Rmin_r].
    + apply Nd; auto. apply (near_le _ _ _ _ _ (Rmin_l d e) Nz).
Qed.
Lemma compact_ext n (K K' : vec -> Prop) : (forall p, length p = n -> K p <-> K' p) -> compact n K -> compact n K'.
Proof.
  intros E H F HA HN. destruct (H F HA) as (a & La & Ka & Ha).
  - intros e He. destruct (HN e He) as (z & Lz & Kz & Fz). exists z. split; auto. split; auto. now apply E.
  - exists a. split; auto. split; [now apply E|]. intros e He. destruct (Ha e He) as (z & Lz & Kz & Fz & Nz).
    exists z. split; auto. split; auto. now apply E.
Qed.
(** a continuous function attains its minimum *)
Lemma compact_min n K f B : compact n K -> contR n f -> (exists z, length z = n /\ K z) -> (forall z, length z = n -> K z -> B <= f z) ->
  exists a, length a = n /\ K a /\ forall z, length z = n -> K z -> f a <= f z.
Proof.
  intros HK Hf (z0 & L0 & K0) HB. set (E := fun r => forall z, length z = n -> K z -> r <= f z).
  destruct (completeness E) as (m & M1 & M2).
  - exists (f z0). intros r Hr. now apply Hr.
  - exists B. exact HB.
  - assert (ME : E m) by (intros z Lz Kz; apply M2; intros r Hr; now apply Hr).
    destruct (HK (fun e z => f z <= m + e)) as (a & La & Ka & Ha).
    + intros e e' z He H. lra.
    + intros e He. apply NNPP. intros HX. assert (m + e <= m); [|lra]. apply M1. intros z Lz Kz.
      destruct (Rle_lt_dec (m + e) (f z)); auto. exfalso. apply HX. exists z. split; [auto|split; [auto|lra]].
    + exists a. split; auto. split; auto. intros z Lz Kz. apply Rle_trans with m; [|now apply ME].
      destruct (Rle_lt_dec (f a) m) as [|P]; [auto|exfalso].
      destruct (Hf a ((f a - m) / 3) La ltac:(lra)) as (d & Hd & Nd).
      destruct (Ha (Rmin d ((f a - m) / 3))) as (w & Lw & Kw & Fw & Nw); [apply Rmin_pos; lra|].
      specialize (Nd w Lw (near_le _ _ _ _ _ (Rmin_l _ _) Nw)). apply abs_le_inv in Nd. pose proof (Rmin_r d ((f a - m) / 3)). lra.
Qed.

Lemma compact_prod n m (K1 K2 : vec -> Prop) : compact n K1 -> compact m K2 ->
  compact (n + m) (fun z => K1 (firstn n z) /\ K2 (skipn n z)).
Proof.
  intros H1 H2 F HA HN.
  destruct (H1 (fun e x => exists y, length y = m /\ K2 y /\ F e (x ++ y))) as (a & La & Ka & Ha).
  - intros e e' x He (y & Ly & Ky & Fy). exists y. split; auto. split; auto. now apply (HA e).
  - intros e He. destruct (HN e He) as (z & Lz & (Kz1 & Kz2) & Fz). exists (firstn n z). split; [rewrite firstn_length; lia|]. split; auto.
    exists (skipn n z). split; [rewrite skipn_length; lia|]. split; auto. now rewrite firstn_skipn.
  - destruct (H2 (fun e y => exists x, length x = n /\ K1 x /\ F e (x ++ y) /\ near n e x a)) as (b & Lb & Kb & Hb).
    + intros e e' y He (x & Lx & Kx & Fx & Nx). exists x. split; auto. split; auto. split; [now apply (HA e)|]. apply (near_le n e); [lra|auto].
    + intros e He. destruct (Ha e He) as (x & Lx & Kx & (y & Ly & Ky & Fy) & Nx). exists y. split; auto. split; auto. exists x. auto.
    + assert (S : forall x y : vec, length x = n -> firstn n (x ++ y) = x /\ skipn n (x ++ y) = y).
      { intros x y <-. rewrite firstn_app, skipn_app, Nat.sub_diag, firstn_all, skipn_all. cbn. now rewrite app_nil_r. }
      exists (a ++ b). destruct (S a b La) as [-> ->]. split; [rewrite app_length; lia|]. split; [auto|]. intros e He.
      destruct (Hb e He) as (y & Ly & Ky & (x & Lx & Kx & Fx & Nx) & Ny). exists (x ++ y). destruct (S x y Lx) as [-> ->].
      split; [rewrite app_length; lia|]. split; [auto|]. split; [auto|]. intros i Hi. destruct (Nat.lt_ge_cases i n).
      * rewrite !app_nth1 by lia. auto.
      * rewrite !app_nth2 by lia. rewrite Lx, La. apply Ny. lia.
Qed.
