(** Fourier-Motzkin elimination: a linear inequality that holds on a non-empty polyhedron follows from the faces. *)
From Verif Require Import Base.Vec Base.VecFacts Proofs.Coord.

Inductive cone (n : nat) (S : list (vec * R)) : vec -> R -> Prop :=
| cone_nil : cone n S (zeros n) 0
| cone_in a b : In (a, b) S -> cone n S a b
| cone_add a b a' b' : cone n S a b -> cone n S a' b' -> cone n S (vadd a a') (b + b')
| cone_scale k a b : 0 <= k -> cone n S a b -> cone n S (vscale k a) (k * b).
Definition sys_len (n : nat) (S : list (vec * R)) : Prop := forall ab, In ab S -> length (fst ab) = n.
Definition sol (S : list (vec * R)) (x : vec) : Prop := forall ab, In ab S -> dot (fst ab) x <= snd ab.
Lemma cone_len n S a b : sys_len n S -> cone n S a b -> length a = n.
Proof.
  intro HS. induction 1 as [|a b H|a b a' b' _ IH1 _ IH2|k a b _ _ IH].
  - apply repeat_length. - apply (HS _ H). - rewrite vadd_length; congruence. - now rewrite vscale_length.
Qed.
Lemma dot_zeros n x : dot (zeros n) x = 0.
Proof. revert x; induction n as [|n IH]; intros [|a x]; try reflexivity. change (zeros (S n)) with (0 :: zeros n). rewrite dot_cons, IH. ring. Qed.
Lemma cone_sound n S a b x : sys_len n S -> length x = n -> sol S x -> cone n S a b -> dot a x <= b.
Proof.
  intros HS Lx Hx. induction 1 as [|a b H|a b a' b' C1 IH1 C2 IH2|k a b Hk C1 IH].
  - rewrite dot_zeros. lra. - apply (Hx _ H).
  - rewrite dot_vadd_l by (rewrite (cone_len n S a b), (cone_len n S a' b'); auto). lra.
  - rewrite dot_vscale_l. nra.
Qed.
(** a point between two finite sets *)
Lemma between (L U : list R) : (forall l u, In l L -> In u U -> l <= u) -> exists t, (forall l, In l L -> l <= t) /\ forall u, In u U -> t <= u.
Proof.
  intro H. destruct L as [|l0 L].
  - exists (fold_right Rmin 0 U). split; [easy|]. clear. induction U as [|u U IH]; intros v []; cbn; [subst; apply Rmin_l|]. eapply Rle_trans; [apply Rmin_r|auto].
  - exists (fold_right Rmax l0 L). split.
    + clear. induction L as [|a L IH]; intros l Hl; cbn.
      * destruct Hl as [<-|[]]. lra.
      * destruct Hl as [<-|[<-|Hl]]; [eapply Rle_trans; [apply IH; now left|apply Rmax_r]|apply Rmax_l|eapply Rle_trans; [apply IH; now right|apply Rmax_r]].
    + intros u Hu. assert (G : forall M, (forall l, In l M -> l <= u) -> l0 <= u -> fold_right Rmax l0 M <= u).
      { induction M as [|a M IH]; intros HM H0; cbn; [exact H0|]. apply Rmax_lub; [apply HM; now left|]. apply IH; auto. intros; apply HM; now right. }
      apply G; [intros l Hl; apply H; [now right|exact Hu]|apply H; [now left|exact Hu]].
Qed.
Definition hd0 (ab : vec * R) : R := nth 0 (fst ab) 0.
Definition tl0 (ab : vec * R) : vec * R := (tl (fst ab), snd ab).
Definition mixpn (p q : vec * R) : vec * R :=
  (vadd (vscale (/ hd0 p) (tl (fst p))) (vscale (- / hd0 q) (tl (fst q))), / hd0 p * snd p + - / hd0 q * snd q).
Definition zer (S : list (vec * R)) := filter (fun ab => Reqb (hd0 ab) 0) S.
Definition pos (S : list (vec * R)) := filter (fun ab => negb (Rleb (hd0 ab) 0)) S.
Definition neg (S : list (vec * R)) := filter (fun ab => negb (Rleb 0 (hd0 ab))) S.
Definition elim (S : list (vec * R)) : list (vec * R) := map tl0 (zer S) ++ flat_map (fun p => map (mixpn p) (neg S)) (pos S).
Lemma split0 n ab : length (fst ab) = S n -> fst ab = hd0 ab :: tl (fst ab) /\ length (tl (fst ab)) = n.
Proof. destruct ab as [[|a l] b]; cbn; intro H; [discriminate|]. split; [reflexivity|lia]. Qed.
Lemma vadd_cons a x b y : vadd (a :: x) (b :: y) = (a + b) :: vadd x y. Proof. reflexivity. Qed.
Lemma vscale_cons k a x : vscale k (a :: x) = (k * a) :: vscale k x. Proof. reflexivity. Qed.
Lemma in_pos S p : In p (pos S) <-> In p S /\ 0 < hd0 p.
Proof. unfold pos. rewrite filter_In, Bool.negb_true_iff, Rleb_false. reflexivity. Qed.
Lemma in_neg S p : In p (neg S) <-> In p S /\ hd0 p < 0.
Proof. unfold neg. rewrite filter_In, Bool.negb_true_iff, Rleb_false. reflexivity. Qed.
Lemma elim_lift n S ab : sys_len (Datatypes.S n) S -> In ab (elim S) -> length (fst ab) = n /\ cone (Datatypes.S n) S (0 :: fst ab) (snd ab).
Proof.
  intros HS H. unfold elim in H. apply in_app_or in H as [H|H].
  - apply in_map_iff in H as (p & <- & H). apply filter_In in H as (H & E). apply Reqb_iff in E. destruct (split0 n p (HS p H)) as (E1 & E2). rewrite E in E1. split; [exact E2|].
    cbn [fst snd tl0]. rewrite <- E1. apply cone_in. now rewrite <- surjective_pairing.
  - apply in_flat_map in H as (p & Hp & H). apply in_map_iff in H as (q & <- & Hq). apply in_pos in Hp as (Hp & Pp). apply in_neg in Hq as (Hq & Nq).
    destruct (split0 n p (HS p Hp)) as (E1 & E2). destruct (split0 n q (HS q Hq)) as (F1 & F2). split; [cbn [fst mixpn]; rewrite vadd_length; rewrite ?vscale_length; congruence|].
    assert (C1 : cone (Datatypes.S n) S (vscale (/ hd0 p) (fst p)) (/ hd0 p * snd p)) by (apply cone_scale; [apply Rlt_le, Rinv_0_lt_compat, Pp|apply cone_in; now rewrite <- surjective_pairing]).
    assert (C2 : cone (Datatypes.S n) S (vscale (- / hd0 q) (fst q)) (- / hd0 q * snd q)).
    { apply cone_scale; [|apply cone_in; now rewrite <- surjective_pairing]. pose proof (Rinv_lt_0_compat _ Nq). lra. }
    pose proof (cone_add _ _ _ _ _ _ C1 C2) as C3. rewrite E1, F1, !vscale_cons, vadd_cons in C3.
    replace (/ hd0 p * hd0 p + - / hd0 q * hd0 q) with 0 in C3 by (field; lra). exact C3.
Qed.
Lemma cone_lift n S a b : sys_len (Datatypes.S n) S -> cone n (elim S) a b -> cone (Datatypes.S n) S (0 :: a) b.
Proof.
  intro HS. induction 1 as [|a b H|a b a' b' _ IH1 _ IH2|k a b Hk _ IH].
  - apply cone_nil. - apply (elim_lift n S (a, b) HS H).
  - replace (0 :: vadd a a') with (vadd (0 :: a) (0 :: a')) by (rewrite vadd_cons; now rewrite Rplus_0_r). now apply cone_add.
  - replace (0 :: vscale k a) with (vscale k (0 :: a)) by (rewrite vscale_cons; now rewrite Rmult_0_r). now apply cone_scale.
Qed.
Lemma elim_sol n S x : sys_len (Datatypes.S n) S -> length x = n -> sol (elim S) x -> exists t, sol S (t :: x).
Proof.
  intros HS Lx Hx. set (bd := fun ab : vec * R => (snd ab - dot (tl (fst ab)) x) / hd0 ab).
  destruct (between (map bd (neg S)) (map bd (pos S))) as (t & T1 & T2).
  - intros l u Hl Hu. apply in_map_iff in Hl as (q & <- & Hq). apply in_map_iff in Hu as (p & <- & Hp).
    assert (H : In (mixpn p q) (elim S)) by (apply in_or_app; right; apply in_flat_map; exists p; split; [exact Hp|now apply in_map]).
    specialize (Hx _ H). apply in_pos in Hp as (Hp & Pp). apply in_neg in Hq as (Hq & Nq). destruct (split0 n p (HS p Hp)) as (_ & E2). destruct (split0 n q (HS q Hq)) as (_ & F2).
    cbn [mixpn fst snd] in Hx. rewrite dot_vadd_l, !dot_vscale_l in Hx by (rewrite !vscale_length; congruence). unfold bd, Rdiv. lra.
  - exists t. intros ab H. destruct (split0 n ab (HS ab H)) as (E1 & E2). rewrite E1, dot_cons. destruct (Rtotal_order (hd0 ab) 0) as [L|[E|G]].
    + assert (B : bd ab <= t) by (apply T1, in_map, in_neg; auto). unfold bd in B. assert (Q : hd0 ab * t <= hd0 ab * ((snd ab - dot (tl (fst ab)) x) / hd0 ab)) by nra.
      replace (hd0 ab * ((snd ab - dot (tl (fst ab)) x) / hd0 ab)) with (snd ab - dot (tl (fst ab)) x) in Q by (field; lra). lra.
    + assert (B : In (tl0 ab) (elim S)) by (apply in_or_app; left; apply in_map, filter_In; split; [exact H|now apply Reqb_iff]). specialize (Hx _ B). cbn [tl0 fst snd] in Hx. rewrite E. lra.
    + assert (B : t <= bd ab) by (apply T2, in_map, in_pos; auto). unfold bd in B. assert (Q : hd0 ab * t <= hd0 ab * ((snd ab - dot (tl (fst ab)) x) / hd0 ab)) by nra.
      replace (hd0 ab * ((snd ab - dot (tl (fst ab)) x) / hd0 ab)) with (snd ab - dot (tl (fst ab)) x) in Q by (field; lra). lra.
Qed.
Lemma farkas n : forall S, sys_len n S -> (exists x, length x = n /\ sol S x) \/ exists b, b < 0 /\ cone n S (zeros n) b.
Proof.
  induction n as [|n IH]; intros S HS.
  - destruct (existsb (fun ab => negb (Rleb 0 (snd ab))) S) eqn:E.
    + right. apply existsb_exists in E as ([a b] & H & E). apply Bool.negb_true_iff, Rleb_false in E. exists b. split; [exact E|]. pose proof (HS _ H) as L. cbn in L.
      destruct a; [|discriminate]. now apply cone_in.
    + left. exists []. split; [reflexivity|]. intros ab H. pose proof (HS _ H) as L. destruct ab as [[|] b]; [|discriminate]. cbn [fst snd]. change (dot [] []) with 0.
      destruct (Rle_lt_dec 0 b) as [|L']; [auto|exfalso]. assert (X : existsb (fun ab : vec * R => negb (Rleb 0 (snd ab))) S = true); [|congruence].
      apply existsb_exists. exists ([], b). split; [exact H|]. now apply Bool.negb_true_iff, Rleb_false.
  - destruct (IH (elim S)) as [(x & Lx & Hx)|(b & Hb & Hc)].
    + intros ab H. now apply (elim_lift n S).
    + left. destruct (elim_sol n S x HS Lx Hx) as (t & Ht). exists (t :: x). split; [cbn; now rewrite Lx|exact Ht].
    + right. exists b. split; [exact Hb|]. now apply cone_lift.
Qed.
Lemma cone_cons n S c r a b : sys_len n S -> length c = n -> cone n ((c, r) :: S) a b -> exists k a0 b0, 0 <= k /\ cone n S a0 b0 /\ a = vadd a0 (vscale k c) /\ b = b0 + k * r.
Proof.
  intros HS Lc. assert (Z : forall v, length v = n -> vadd v (vscale 0 c) = v).
  { intros v La. apply (nth_ext _ _ 0 0); [rewrite vadd_length; rewrite ?vscale_length; congruence|]. intros i Hi. rewrite vadd_length in Hi by (rewrite vscale_length; congruence).
    rewrite nth_vadd by (rewrite vscale_length; congruence). rewrite nth_vscale. ring. }
  induction 1 as [|a b [H|H]|a b a' b' C1 IH1 C2 IH2|k a b Hk C1 IH].
  - exists 0, (zeros n), 0. split; [lra|]. split; [apply cone_nil|]. split; [symmetry; apply Z, repeat_length|ring].
  - injection H as <- <-. exists 1, (zeros n), 0. split; [lra|]. split; [apply cone_nil|]. split; [|ring]. rewrite vscale_1. symmetry. rewrite <- Lc. apply (nth_ext _ _ 0 0).
    + rewrite vadd_length; unfold zeros; now rewrite repeat_length.
    + intros i Hi. rewrite nth_vadd by (unfold zeros; now rewrite repeat_length). rewrite nth_zeros. ring.
  - exists 0, a, b. split; [lra|]. split; [now apply cone_in|]. split; [symmetry; apply Z, (HS _ H)|ring].
  - destruct IH1 as (k & a0 & b0 & K & CC & -> & ->). destruct IH2 as (k' & a0' & b0' & K' & CC' & -> & ->). exists (k + k'), (vadd a0 a0'), (b0 + b0').
    split; [lra|]. split; [now apply cone_add|]. pose proof (cone_len _ _ _ _ HS CC) as L1. pose proof (cone_len _ _ _ _ HS CC') as L2. split; [|ring].
    apply (nth_ext _ _ 0 0); [repeat (rewrite ?vadd_length, ?vscale_length; try congruence)|]. intros i Hi.
    repeat (rewrite nth_vadd by (repeat (rewrite ?vadd_length, ?vscale_length; try congruence))). rewrite !nth_vscale. ring.
  - destruct IH as (k' & a0 & b0 & K & CC & -> & ->). exists (k * k'), (vscale k a0), (k * b0). split; [nra|]. split; [now apply cone_scale|]. pose proof (cone_len _ _ _ _ HS CC) as L1. split; [|ring].
    apply (nth_ext _ _ 0 0); [repeat (rewrite ?vadd_length, ?vscale_length; try congruence)|]. intros i Hi.
    rewrite nth_vscale, !nth_vadd, !nth_vscale by (rewrite ?vscale_length; congruence). ring.
Qed.
(** the affine form: an inequality that holds on a non-empty polyhedron follows from its faces, up to a weaker right-hand side *)
Lemma farkas_affine n S c r r' : sys_len n S -> length c = n -> (exists x, length x = n /\ sol S x) -> (forall x, length x = n -> sol S x -> dot c x <= r) -> r < r' ->
  exists b, cone n S c b /\ b <= r'.
Proof.
  intros HS Lc (x0 & Lx0 & Hx0) Hr Hlt. destruct (farkas n ((vscale (-1) c, - r') :: S)) as [(x & Lx & Hx)|(b & Hb & Hc)].
  - intros ab [<-|H]; [cbn; now rewrite vscale_length|now apply HS].
  - exfalso. pose proof (Hx _ (or_introl eq_refl)) as H0. cbn [fst snd] in H0. rewrite dot_vscale_l in H0. specialize (Hr x Lx (fun ab H => Hx ab (or_intror H))). lra.
  - apply cone_cons in Hc as (k & a0 & b0 & Hk & CC & Ea & Eb); [|exact HS|now rewrite vscale_length]. pose proof (cone_len _ _ _ _ HS CC) as L0.
    assert (Ei : forall i, nth i a0 0 = k * nth i c 0).
    { intro i. pose proof (f_equal (fun v => nth i v 0) Ea) as E. cbn beta in E. rewrite nth_vadd, !nth_vscale, nth_zeros in E by (rewrite !vscale_length; congruence). lra. }
    destruct (Req_EM_T k 0) as [->|Nk].
    + exfalso. pose proof (cone_sound n S a0 b0 x0 HS Lx0 Hx0 CC) as Q. replace a0 with (zeros n) in Q; [rewrite dot_zeros in Q; lra|].
      apply (nth_ext _ _ 0 0); [unfold zeros; now rewrite repeat_length|]. intros i _. rewrite nth_zeros, Ei. ring.
    + exists (/ k * b0). split.
      * replace c with (vscale (/ k) a0); [apply cone_scale; [apply Rlt_le, Rinv_0_lt_compat; lra|exact CC]|]. apply (nth_ext _ _ 0 0); [rewrite vscale_length; congruence|].
        intros i _. rewrite nth_vscale, Ei. field. exact Nk.
      * apply (Rmult_le_reg_l k); [lra|]. rewrite <- Rmult_assoc, Rinv_r by exact Nk. lra.
Qed.
