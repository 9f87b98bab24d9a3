(** Face forms, span forms and CDD matrices (C34, C36, C37). *)
From Coq Require Import Permutation.
From Verif Require Import Base.Vec Base.VecFacts Spec.Basic Spec.Shapes Spec.ShapeObjects Spec.DoubleDesc
  Model.Util Model.Polydd Model.Poly Proofs.Coord Proofs.Hull Proofs.BoxP.

(** ** inequalities as a list of pairs *)
Lemma halfspaces_combine A b x : length A = length b ->
  (halfspaces A b x <-> forall a c, In (a, c) (combine A b) -> dot a x <= c).
Proof.
  unfold halfspaces. revert b; induction A as [|a A IH]; intros [|c b] L; cbn in L; try discriminate.
  - cbn. split; [intros _ a c []|intros _ i Hi; lia].
  - cbn [combine In length]. split.
    + intros H a' c' [E|E].
      * injection E as <- <-. apply (H 0%nat). lia.
      * apply (proj1 (IH b ltac:(lia))); auto. intros i Hi. apply (H (S i)). lia.
    + intros H [|i] Hi; cbn; [apply H; auto|]. apply (proj2 (IH b ltac:(lia))); [|lia]. intros; apply H; auto.
Qed.
Lemma combine_app {A B} (l1 l2 : list A) (m1 m2 : list B) : length l1 = length m1 ->
  combine (l1 ++ l2) (m1 ++ m2) = combine l1 m1 ++ combine l2 m2.
Proof. revert m1; induction l1; intros [|b m1] L; cbn in L; try discriminate; cbn; auto. f_equal. apply IHl1. lia. Qed.
Lemma halfspaces_app A b A' b' x : length A = length b -> length A' = length b' ->
  (halfspaces (A ++ A') (b ++ b') x <-> halfspaces A b x /\ halfspaces A' b' x).
Proof.
  intros H1 H2. rewrite !halfspaces_combine by (rewrite ?app_length; congruence). rewrite combine_app by auto.
  split.
  - intro H. split; intros a c Hc; apply H, in_or_app; auto.
  - intros [Ha Hb] a c Hc. apply in_app_or in Hc as [Hc|Hc]; auto.
Qed.
Lemma halfspaces_neg A b x : length A = length b ->
  (halfspaces (mneg A) (vneg b) x <-> forall i, (i < length A)%nat -> nth i b 0 <= dot (nth i A []) x).
Proof.
  intro L. unfold halfspaces. rewrite mneg_length.
  split; intros H i Hi; specialize (H i Hi); unfold mneg, vneg in *;
    rewrite (nth_map_0 vneg A i []), (nth_map_0 Ropp b i 0) in * by congruence; rewrite dot_vneg_l in *; lra.
Qed.

(** *** C34 *)
Lemma ff_stack_iff f g h x : length (ff_A f) = length (ff_b f) -> length (ff_A g) = length (ff_b g) ->
  ff_stack f g = Ok h -> length (ff_A h) = length (ff_b h) /\
  (halfspaces (ff_A h) (ff_b h) x <-> halfspaces (ff_A f) (ff_b f) x /\ halfspaces (ff_A g) (ff_b g) x).
Proof.
  intros H1 H2 H. unfold ff_stack in H. cbn in H. injection H as <-. cbn [ff_A ff_b].
  split; [rewrite !app_length; congruence|]. apply halfspaces_app; auto.
Qed.
Lemma ff_stack_total f g : exists h, ff_stack f g = Ok h.
Proof. unfold ff_stack. cbn. eauto. Qed.
Lemma nf_counts f g h : ff_stack f g = Ok h -> ff_nf h = (ff_nf f + ff_nf g)%nat.
Proof. intro H. injection H as <-. unfold ff_nf. cbn [ff_A]. apply app_length. Qed.
Lemma take_length {A} (d : A) l x : length (take d l x) = length l.
Proof. unfold take. apply map_length. Qed.
Lemma NoDup_app_intro {A} (l l' : list A) : NoDup l -> NoDup l' -> (forall x, In x l -> In x l' -> False) -> NoDup (l ++ l').
Proof.
  induction 1 as [|a l Ha H IH]; intros H' D; auto. cbn. constructor.
  - rewrite in_app_iff. intros [E|E]; [auto|]. apply (D a); [now left|auto].
  - apply IH; auto. intros x Hx. apply D. now right.
Qed.
(** every equality counts as two faces *)
Lemma nf_from_cdd m f : NoDup (cdd_lin m) -> (forall i, In i (cdd_lin m) -> (i < length (cdd_rows m))%nat) -> ff_from_cdd m = Ok f ->
  ff_nf f = (length (cdd_rows m) + length (cdd_lin m))%nat /\ length (ff_b f) = ff_nf f.
Proof.
  intros ND HI. unfold ff_from_cdd. set (lin := cdd_lin m) in *. set (n := length (cdd_rows m)) in *. set (ineq := filter (fun i => negb (existsb (Nat.eqb i) lin)) (seq 0 n)).
  assert (LI : (length ineq + length lin = n)%nat).
  { assert (P : Permutation (ineq ++ lin) (seq 0 n)).
    { apply NoDup_Permutation; [|apply seq_NoDup|].
      - apply NoDup_app_intro; auto; [apply NoDup_filter, seq_NoDup|]. intros i Hi Hl. unfold ineq in Hi. apply filter_In in Hi as [_ Hi]. apply Bool.negb_true_iff in Hi.
        assert (existsb (Nat.eqb i) lin = true); [|congruence]. apply existsb_exists. exists i. split; [auto|apply Nat.eqb_refl].
      - intro i. rewrite in_app_iff. unfold ineq. rewrite filter_In, in_seq. split; [intros [[H _]|H]; [exact H|split; [lia|apply HI, H]]|]. intro H. destruct (existsb (Nat.eqb i) lin) eqn:E; [right|left; auto].
        apply existsb_exists in E as (k & Hk & Ek). apply Nat.eqb_eq in Ek. now subst. }
    rewrite <- app_length, (Permutation_length P), seq_length. reflexivity. }
  destruct ineq as [|i0 il] eqn:Ei; [discriminate|]. rewrite <- Ei in *. clear Ei. destruct lin as [|l0 ll] eqn:El.
  - intro H. injection H as <-. unfold ff_nf. cbn [ff_A ff_b]. rewrite !take_length. cbn in LI |- *. lia.
  - rewrite <- El in *. clear El. unfold face_form. rewrite !take_length, Nat.eqb_refl. cbn [assert_ bind]. intro H. injection H as <-. unfold ff_nf. cbn [ff_A ff_b]. rewrite !app_length, mneg_length, vneg_length, !take_length. lia.
Qed.
Lemma nr_counts v r s : sf_nr (span_form v r s) = (match r with Some r => length r | None => 0 end + 2 * match s with Some s => length s | None => 0 end)%nat.
Proof. unfold sf_nr, span_form. cbn [sf_rays]. destruct s as [s|], r as [r|]; rewrite ?app_length, ?mneg_length; lia. Qed.
Lemma face_form_eq Ai bi Ae be f x : length Ai = length bi -> face_form Ai bi (Some Ae) (Some be) = Ok f ->
  length (ff_A f) = length (ff_b f) /\ length Ae = length be /\
  (halfspaces (ff_A f) (ff_b f) x <->
   halfspaces Ai bi x /\ forall i, (i < length Ae)%nat -> dot (nth i Ae []) x = nth i be 0).
Proof.
  intros L H. unfold face_form in H. destruct (Nat.eqb (length Ae) (length be)) eqn:E; cbn [bind assert_] in H; [|discriminate].
  apply Nat.eqb_eq in E. injection H as <-. cbn [ff_A ff_b].
  assert (LN : length (mneg Ae) = length (vneg be)) by (rewrite mneg_length, vneg_length; auto).
  split; [rewrite !app_length; congruence|]. split; [auto|].
  rewrite !halfspaces_app by (rewrite ?app_length; congruence). rewrite halfspaces_neg by auto.
  split; intros [H1 H2]; (split; [auto|]).
  - destruct H2 as [H2 H3]. intros i Hi. apply Rle_antisym; [apply H2|apply H3]; auto.
  - split; intros i Hi; rewrite H2 by auto; lra.
Qed.
Lemma face_form_eq_mismatch Ai bi Ae be : length Ae <> length be ->
  face_form Ai bi (Some Ae) (Some be) = Raise AssertionError.
Proof. intro H. unfold face_form. apply Nat.eqb_neq in H. rewrite H. reflexivity. Qed.
Lemma ff_cdd_set f x : length (ff_A f) = length (ff_b f) ->
  (h_set (ff_to_cdd f) x <-> halfspaces (ff_A f) (ff_b f) x).
Proof.
  intro L. rewrite halfspaces_combine by auto. unfold h_set, ff_to_cdd. cbn [cdd_rows cdd_lin].
  generalize dependent (ff_b f). generalize (ff_A f). intros A. clear f. induction A as [|a A IH]; intros [|b bs] L; cbn in L; try discriminate.
  - cbn. split; [intros _ a c []|intros _; split; [intros r []|intros i []]].
  - cbn [map2 combine In]. split.
    + intros [H _] a' c' [E|E].
      * injection E as <- <-. specialize (H _ (or_introl eq_refl)). cbn [hd tl] in H. rewrite dot_vneg_l in H. lra.
      * apply (proj1 (IH bs ltac:(lia))); auto. split; [|intros i []]. intros r Hr. apply H. auto.
    + intro H. split; [|intros i []]. intros r [<-|Hr].
      * cbn [hd tl]. rewrite dot_vneg_l. specialize (H a b (or_introl eq_refl)). lra.
      * apply (proj2 (IH bs ltac:(lia))); auto.
Qed.
Lemma ff_cdd_ok n f : is_mat (length (ff_A f)) n (ff_A f) -> h_ok n (ff_to_cdd f).
Proof.
  intro H. split; [|intros i []]. cbn [cdd_rows ff_to_cdd]. intros r Hr. apply rows_len_is_mat in H.
  revert Hr. generalize (ff_b f). generalize dependent (ff_A f). intros A HA. clear f. induction A as [|a A IH]; intros [|b bs] Hr; cbn in Hr; try tauto.
  destruct Hr as [<-|Hr].
  - cbn. rewrite vneg_length. f_equal. apply HA. now left.
  - apply (IH) with bs; auto. intros v Hv. apply HA. now right.
Qed.
Lemma filter_all {A} (p : A -> bool) l : (forall x, In x l -> p x = true) -> filter p l = l.
Proof. induction l; cbn; auto. intro H. rewrite (H a) by auto. f_equal. auto. Qed.
Lemma take_all {A} (d : A) l : take d (seq 0 (length l)) l = l.
Proof.
  unfold take. induction l as [|a l IH]; auto. cbn [length seq map]. f_equal. rewrite <- seq_shift, map_map. exact IH.
Qed.
Lemma vneg_involutive v : vneg (vneg v) = v.
Proof. unfold vneg. rewrite map_map. rewrite <- (map_id v) at 2. apply map_ext. intro. ring. Qed.
Lemma ff_cdd_roundtrip f : length (ff_A f) = length (ff_b f) -> ff_A f <> [] -> ff_from_cdd (ff_to_cdd f) = Ok f.
Proof.
  intros L N. unfold ff_from_cdd, ff_to_cdd. cbn [cdd_rows cdd_lin]. rewrite filter_all by (intros; reflexivity).
  assert (E1 : col 0 (map2 (fun b a => b :: vneg a) (ff_b f) (ff_A f)) = ff_b f).
  { generalize dependent (ff_b f). induction (ff_A f) as [|a A IH]; intros [|b bs] L; cbn in L; try discriminate; auto.
    cbn. f_equal. destruct A; [destruct bs; [reflexivity|discriminate]|]. apply IH; [discriminate|lia]. }
  assert (E2 : map (fun r => vneg (tl r)) (map2 (fun b a => b :: vneg a) (ff_b f) (ff_A f)) = ff_A f).
  { clear E1 N. generalize dependent (ff_b f). induction (ff_A f) as [|a A IH]; intros [|b bs] L; cbn in L; try discriminate; auto.
    cbn. rewrite vneg_involutive. f_equal. apply IH. lia. }
  rewrite E1, E2.
  assert (LM : length (map2 (fun b a => b :: vneg a) (ff_b f) (ff_A f)) = length (ff_A f)).
  { rewrite <- E2 at 2. rewrite map_length. reflexivity. }
  rewrite LM. destruct (seq 0 (length (ff_A f))) eqn:S0; [destruct (ff_A f); [congruence|discriminate]|]. rewrite <- S0.
  rewrite take_all. rewrite L, take_all. cbn. destruct f; reflexivity.
Qed.
Definition lin_flags (m : CDD) : list bool :=
  map (fun i => existsb (Nat.eqb i) (cdd_lin m)) (seq 0 (length (cdd_rows m))).
Lemma in_lin i l : existsb (Nat.eqb i) l = true <-> In i l.
Proof.
  rewrite existsb_exists. split.
  - intros (x & Hx & E). apply Nat.eqb_eq in E. subst. exact Hx.
  - intro H. exists i. rewrite Nat.eqb_refl. auto.
Qed.
Lemma take_len {A} (d : A) idx l : length (take d idx l) = length idx.
Proof. unfold take. apply map_length. Qed.
Lemma nth_take {A} (d : A) idx l k : (k < length idx)%nat -> nth k (take d idx l) d = nth (nth k idx 0%nat) l d.
Proof. intro H. unfold take. rewrite (nth_map_0 _ _ _ 0%nat) by auto. reflexivity. Qed.
(** reading inequalities *)
Lemma ff_from_cdd_iff n m f x : h_ok n m -> ff_from_cdd m = Ok f -> length x = n ->
  length (ff_A f) = length (ff_b f) /\ is_mat (length (ff_A f)) n (ff_A f) /\ (0 < length (ff_A f))%nat /\
  (halfspaces (ff_A f) (ff_b f) x <-> h_set m x).
Proof.
  intros [HR HLin] H Hx. unfold ff_from_cdd in H.
  set (M := cdd_rows m) in *. set (b := col 0 M) in *. set (A := map (fun r => vneg (tl r)) M) in *.
  set (ineq := filter (fun i => negb (existsb (Nat.eqb i) (cdd_lin m))) (seq 0 (length M))) in *.
  assert (NA : forall i, (i < length M)%nat -> nth i A [] = vneg (tl (nth i M []))) by (intros; unfold A; rewrite (nth_map_0 _ _ _ []); auto).
  assert (Nb : forall i, (i < length M)%nat -> nth i b 0 = hd 0 (nth i M [])).
  { intros i Hi. unfold b, col. rewrite (nth_map_0 _ _ _ []) by auto. destruct (nth i M []); reflexivity. }
  assert (LM : forall i, (i < length M)%nat -> length (tl (nth i M [])) = n).
  { intros i Hi. specialize (HR (nth i M []) (nth_In _ _ Hi)). destruct (nth i M []); cbn in *; lia. }
  assert (INEQ : forall i, In i ineq <-> (i < length M)%nat /\ ~ In i (cdd_lin m)).
  { intro i. unfold ineq. rewrite filter_In, in_seq, negb_true_iff. rewrite <- Bool.not_true_iff_false, in_lin. intuition lia. }
  assert (ROW : forall i, (i < length M)%nat -> (dot (nth i A []) x <= nth i b 0 <-> 0 <= hd 0 (nth i M []) + dot (tl (nth i M [])) x)).
  { intros i Hi. rewrite NA, Nb, dot_vneg_l by auto. split; lra. }
  assert (ROWE : forall i, (i < length M)%nat -> (dot (nth i A []) x = nth i b 0 <-> hd 0 (nth i M []) + dot (tl (nth i M [])) x = 0)).
  { intros i Hi. rewrite NA, Nb, dot_vneg_l by auto. split; lra. }
  assert (HS : h_set m x <-> (forall i, In i ineq -> dot (nth i A []) x <= nth i b 0) /\ (forall i, In i (cdd_lin m) -> dot (nth i A []) x = nth i b 0)).
  { unfold h_set. fold M. split.
    - intros [H1 H2]. split.
      + intros i Hi. apply INEQ in Hi as [Hi _]. apply ROW; auto. apply H1, nth_In; auto.
      + intros i Hi. apply ROWE; auto.
    - intros [H1 H2]. split.
      + intros r Hr. apply In_nth with (d := []) in Hr as (i & Hi & <-). destruct (in_dec Nat.eq_dec i (cdd_lin m)) as [D|D].
        * rewrite (proj1 (ROWE i Hi)); [lra|]. apply H2; auto.
        * apply ROW; auto. apply H1, INEQ. auto.
      + intros i Hi. apply ROWE; auto. }
  assert (TI : forall idx, (forall i, In i idx -> (i < length M)%nat) -> is_mat (length idx) n (take [] idx A)).
  { intros idx Hidx. split; [apply take_len|]. apply Forall_forall. intros r Hr. unfold take in Hr. apply in_map_iff in Hr as (i & <- & Hi).
    rewrite NA by auto. rewrite vneg_length. auto. }
  assert (HT : forall idx, (halfspaces (take [] idx A) (take 0 idx b) x <-> forall i, In i idx -> dot (nth i A []) x <= nth i b 0)).
  { intros idx. rewrite halfspaces_combine by (rewrite !take_len; auto). unfold take. split.
    - intros H1 i Hi. apply H1. clear H1. induction idx as [|j idx IH]; [destruct Hi|]. cbn. destruct Hi as [->|Hi]; auto.
    - intros H1 a c Hac. induction idx as [|j idx IH]; [destruct Hac|]. cbn in Hac. destruct Hac as [E|Hac].
      + injection E as <- <-. apply H1. now left.
      + apply IH; auto. intros; apply H1; now right. }
  assert (LI : forall i, In i ineq -> (i < length M)%nat) by (intros i Hi; apply INEQ in Hi; tauto).
  destruct ineq as [|i0 ineq'] eqn:EI; [discriminate|]. rewrite <- EI in *.
  assert (NI : (0 < length ineq)%nat) by (rewrite EI; cbn; lia).
  destruct (cdd_lin m) as [|l0 lin] eqn:EL.
  - cbn in H. injection H as <-. cbn [ff_A ff_b]. rewrite !take_len. split; [auto|]. split; [apply TI; auto|].
    split; [auto|]. rewrite HS, HT. split; [intro K; split; [auto|intros i []]|tauto].
  - rewrite <- EL in *. destruct (face_form_eq (take [] ineq A) (take 0 ineq b) (take [] (cdd_lin m) A) (take 0 (cdd_lin m) b) f x) as (L1 & L2 & IFF); [rewrite !take_len; reflexivity|exact H|].
    unfold face_form in H. rewrite (proj2 (Nat.eqb_eq _ _) L2) in H. cbn [bind assert_] in H.
    pose proof (TI ineq LI) as M1. pose proof (TI (cdd_lin m) HLin) as M2.
    split; [auto|]. split; [|split].
    + injection H as <-. cbn [ff_A]. rewrite !app_length, mneg_length, !take_len.
      apply rows_len_is_mat in M2 || idtac. 
      split; [rewrite !app_length, mneg_length, !take_len; reflexivity|]. apply Forall_app. split; [apply M1|]. apply Forall_app.
      assert (MM : is_mat (length (cdd_lin m)) n (take [] (cdd_lin m) A)) by (apply TI; auto).
      split; [apply MM|]. apply (is_mat_mneg _ _ _ MM).
    + injection H as <-. cbn [ff_A]. rewrite app_length, take_len. lia.
    + rewrite IFF, HS, HT. split; intros [K1 K2]; (split; [auto|]).
      * intros i Hi. apply In_nth with (d := 0%nat) in Hi as (k & Hk & <-). specialize (K2 k). rewrite take_len in K2.
        specialize (K2 Hk). rewrite !nth_take in K2 by auto. exact K2.
      * intros k Hk. rewrite take_len in Hk. rewrite !nth_take by auto. apply K2, nth_In. auto.
Qed.
Lemma ff_from_cdd_all_eq m : (forall i, (i < length (cdd_rows m))%nat -> In i (cdd_lin m)) -> ff_from_cdd m = Raise IndexError.
Proof.
  intro H. unfold ff_from_cdd.
  assert (E : filter (fun i => negb (existsb (Nat.eqb i) (cdd_lin m))) (seq 0 (length (cdd_rows m))) = []).
  { destruct (filter _ _) as [|i l] eqn:E; auto. assert (Hi : In i (i :: l)) by now left. rewrite <- E in Hi.
    apply filter_In in Hi as [Hi1 Hi2]. apply in_seq in Hi1. apply negb_true_iff in Hi2.
    rewrite (proj2 (in_lin i _)) in Hi2; [discriminate|]. apply H. lia. }
  rewrite E. reflexivity.
Qed.
Lemma ff_from_cdd_ok m : (exists i, (i < length (cdd_rows m))%nat /\ ~ In i (cdd_lin m)) -> exists f, ff_from_cdd m = Ok f.
Proof.
  intros (i & Hi & NI). unfold ff_from_cdd.
  assert (IN : In i (filter (fun i => negb (existsb (Nat.eqb i) (cdd_lin m))) (seq 0 (length (cdd_rows m))))).
  { apply filter_In. split; [apply in_seq; lia|]. apply negb_true_iff, Bool.not_true_iff_false. rewrite in_lin. exact NI. }
  destruct (filter _ _) as [|i0 l]; [destruct IN|]. destruct (cdd_lin m) as [|l0 lin]; [cbn; eauto|].
  unfold face_form. rewrite !take_len, Nat.eqb_refl. cbn [bind assert_]. eauto.
Qed.

(** ** generators *)
Lemma cone_nil n q : cone n [] q <-> q = zeros n.
Proof.
  split.
  - intros (w & L & _ & ->). rewrite combine_rows_nil. reflexivity.
  - intros ->. exists []. split; [reflexivity|]. split; [intros x []|]. rewrite combine_rows_nil. reflexivity.
Qed.
Lemma hull_cone_nil n V p : rows_len n V -> (hull_cone n V [] p <-> in_hull n V p).
Proof.
  intro HV. unfold hull_cone. split.
  - intros (a & q & Ha & Hq & ->). apply cone_nil in Hq as ->. rewrite vadd_zeros_r; [auto|]. apply (in_hull_length n V); auto.
  - intro H. exists p, (zeros n). split; [auto|]. split; [apply cone_nil; auto|].
    rewrite vadd_zeros_r; [auto|]. apply (in_hull_length n V); auto.
Qed.
(** non-negative combinations of the rows of V with weights summing to s *)
Definition comb (n : nat) (V : mat) (s : R) (a : vec) : Prop :=
  exists w, length w = length V /\ (forall x, In x w -> 0 <= x) /\ lsum w = s /\ a = combine_rows n w V.
Lemma comb_hull n V a : comb n V 1 a <-> in_hull n V a.
Proof. unfold comb, in_hull, weights. split; intros (w & A & B & C); exists w; tauto. Qed.
Lemma comb_nil n s a : comb n [] s a <-> s = 0 /\ a = zeros n.
Proof.
  split.
  - intros (w & L & _ & E & ->). destruct w; [|discriminate]. cbn in E. rewrite combine_rows_nil. auto.
  - intros [-> ->]. exists []. rewrite combine_rows_nil. cbn. repeat split; auto. intros x [].
Qed.
Lemma comb_cons n v V s a : length v = n ->
  (comb n (v :: V) s a <-> exists c a', 0 <= c /\ comb n V (s - c) a' /\ a = vadd (vscale c v) a').
Proof.
  intro Lv. split.
  - intros (w & L & P & E & ->). destruct w as [|c w]; [discriminate|]. cbn in L, E. change (fold_right Rplus 0) with lsum in E.
    exists c, (combine_rows n w V). split; [apply P; now left|]. split.
    + exists w. split; [lia|]. split; [intros; apply P; now right|]. split; [lra|reflexivity].
    + apply combine_rows_cons; auto.
  - intros (c & a' & Hc & (w & L & P & E & ->) & ->). exists (c :: w). split; [cbn; lia|]. split; [intros x [<-|Hx]; auto|].
    split; [cbn; change (fold_right Rplus 0) with lsum; lra|]. rewrite combine_rows_cons; auto.
Qed.
Lemma cone_cons n v V a : length v = n ->
  (cone n (v :: V) a <-> exists c a', 0 <= c /\ cone n V a' /\ a = vadd (vscale c v) a').
Proof.
  intro Lv. split.
  - intros (w & L & P & ->). destruct w as [|c w]; [discriminate|]. cbn in L.
    exists c, (combine_rows n w V). split; [apply P; now left|]. split.
    + exists w. split; [lia|]. split; [intros; apply P; now right|reflexivity].
    + apply combine_rows_cons; auto.
  - intros (c & a' & Hc & (w & L & P & ->) & ->). exists (c :: w). split; [cbn; lia|]. split; [intros x [<-|Hx]; auto|].
    rewrite combine_rows_cons; auto.
Qed.
Lemma linspan_cons n v V a : length v = n ->
  (linspan n (v :: V) a <-> exists c a', linspan n V a' /\ a = vadd (vscale c v) a').
Proof.
  intro Lv. split.
  - intros (w & L & ->). destruct w as [|c w]; [discriminate|]. cbn in L.
    exists c, (combine_rows n w V). split; [exists w; split; [lia|reflexivity]|]. apply combine_rows_cons; auto.
  - intros (c & a' & (w & L & ->) & ->). exists (c :: w). split; [cbn; lia|]. rewrite combine_rows_cons; auto.
Qed.
Lemma linspan_nil n q : linspan n [] q <-> q = zeros n.
Proof.
  split.
  - intros (w & L & ->). rewrite combine_rows_nil. reflexivity.
  - intros ->. exists []. rewrite combine_rows_nil. auto.
Qed.
Lemma cone_length n V q : cone n V q -> length q = n.
Proof. intros (w & _ & _ & ->). apply combine_rows_length. Qed.
Lemma linspan_length n V q : linspan n V q -> length q = n.
Proof. intros (w & _ & ->). apply combine_rows_length. Qed.
Lemma comb_length n V s q : comb n V s q -> length q = n.
Proof. intros (w & _ & _ & _ & ->). apply combine_rows_length. Qed.
Lemma cone_app n V W q : rows_len n V -> rows_len n W ->
  (cone n (V ++ W) q <-> exists a b, cone n V a /\ cone n W b /\ q = vadd a b).
Proof.
  intros HV HW. split.
  - intros (w & L & P & ->). rewrite app_length in L. rewrite <- (firstn_skipn (length V) w).
    assert (L1 : length (firstn (length V) w) = length V) by (rewrite firstn_length; lia).
    exists (combine_rows n (firstn (length V) w) V), (combine_rows n (skipn (length V) w) W). split; [|split].
    + exists (firstn (length V) w). split; [auto|]. split; [|auto]. intros x Hx. apply P. rewrite <- (firstn_skipn (length V) w). apply in_or_app; auto.
    + exists (skipn (length V) w). split; [rewrite skipn_length; lia|]. split; [|auto]. intros x Hx. apply P. rewrite <- (firstn_skipn (length V) w). apply in_or_app; auto.
    + apply combine_rows_app; auto.
  - intros (a & b & (w & L & P & ->) & (w' & L' & P' & ->) & ->). exists (w ++ w'). split; [rewrite !app_length; lia|]. split.
    + intros x Hx. apply in_app_or in Hx as [Hx|Hx]; auto.
    + symmetry. apply combine_rows_app; auto.
Qed.
Lemma combine_rows_mneg n w V : combine_rows n w (mneg V) = vneg (combine_rows n w V).
Proof.
  apply (vec_ext n); [apply combine_rows_length|rewrite vneg_length; apply combine_rows_length|]. intros i Hi.
  rewrite nth_vneg, !nth_combine_rows by auto. revert w; induction V as [|v V IH]; intros [|c w]; cbn; try ring.
  change (fold_right Rplus 0) with lsum. unfold mneg in IH. rewrite IH, nth_vneg. ring.
Qed.
Lemma combine_rows_mneg' n w V : combine_rows n (vneg w) V = vneg (combine_rows n w V).
Proof. rewrite !vneg_vscale. apply combine_rows_scale. Qed.
Lemma mneg_rows n V : rows_len n V -> rows_len n (mneg V).
Proof. intros H v Hv. unfold mneg in Hv. apply in_map_iff in Hv as (u & <- & Hu). rewrite vneg_length. auto. Qed.
(** the rays s and -s span the line of s *)
Lemma cone_pm n S q : rows_len n S -> (cone n (S ++ mneg S) q <-> linspan n S q).
Proof.
  intro HS. rewrite cone_app by (auto using mneg_rows). split.
  - intros (a & b & (w & L & P & ->) & (w' & L' & P' & ->) & ->). rewrite mneg_length in L'.
    exists (vsub w w'). split; [rewrite vsub_length; congruence|]. rewrite combine_rows_mneg.
    apply (vec_ext n); [rewrite vadd_length; rewrite ?vneg_length, !combine_rows_length; auto|apply combine_rows_length|].
    intros i Hi. rewrite nth_vadd, nth_vneg, !nth_combine_rows by (rewrite ?vneg_length, ?combine_rows_length; auto).
    clear -L L'. revert w w' L L'; induction S as [|v S IH]; intros [|c w] [|c' w'] L L'; cbn in L, L'; try discriminate; cbn; [ring|].
    change (fold_right Rplus 0) with lsum. unfold vsub in IH. rewrite <- (IH w w') by lia. ring.
  - intros (w & L & ->). exists (combine_rows n (map (Rmax 0) w) S), (combine_rows n (map (fun x => Rmax 0 (- x)) w) (mneg S)).
    split; [|split].
    + exists (map (Rmax 0) w). rewrite map_length. split; [auto|]. split; [|auto]. intros x Hx. apply in_map_iff in Hx as (y & <- & _). apply Rmax_l.
    + exists (map (fun x => Rmax 0 (- x)) w). rewrite map_length, mneg_length. split; [auto|]. split; [|auto].
      intros x Hx. apply in_map_iff in Hx as (y & <- & _). apply Rmax_l.
    + rewrite combine_rows_mneg. apply (vec_ext n); [apply combine_rows_length|rewrite vadd_length; rewrite ?vneg_length, !combine_rows_length; auto|].
      intros i Hi. rewrite nth_vadd, nth_vneg, !nth_combine_rows by (rewrite ?vneg_length, ?combine_rows_length; auto).
      clear -L. revert w L; induction S as [|v S IH]; intros [|c w] L; cbn in L; try discriminate; cbn; [ring|].
      change (fold_right Rplus 0) with lsum. rewrite (IH w) by lia.
      assert (E : Rmax 0 c - Rmax 0 (- c) = c) by (unfold Rmax; destruct (Rle_dec 0 c), (Rle_dec 0 (- c)); lra).
      assert (E2 : c * nth i v 0 = Rmax 0 c * nth i v 0 - Rmax 0 (- c) * nth i v 0) by (rewrite <- E at 1; ring). lra.
Qed.

(** *** C37 *)
Lemma span_form_set n v r s x : (forall V, v = Some V -> rows_len n V) -> rows_len n (olist r) -> rows_len n (olist s) ->
  (span_set n (span_form v r s) x <->
   exists a q u, (match v with Some V => in_hull n V a | None => a = zeros n end) /\ cone n (olist r) q /\ linspan n (olist s) u /\
                 x = vadd a (vadd q u)).
Proof.
  intros HV HR HS.
  assert (CR : forall y, cone n (olist (sf_rays (span_form v r s))) y <-> exists q u, cone n (olist r) q /\ linspan n (olist s) u /\ y = vadd q u).
  { intro y. unfold span_form. cbn [sf_rays]. destruct s as [S|].
    - cbn [olist] in HS |- *. destruct r as [R0|]; cbn [olist] in HR |- *.
      + rewrite cone_app; auto. 2:{ intros w Hw. apply in_app_or in Hw as [Hw|Hw]; [apply HS; auto|apply (mneg_rows n S HS w Hw)]. }
        split; intros (a & b & H1 & H2 & H3); exists a, b; rewrite cone_pm in * by auto; auto.
      + rewrite cone_pm by auto. split.
        * intro H. exists (zeros n), y. split; [apply cone_nil; auto|]. split; [auto|]. rewrite vadd_zeros_l; auto. apply (linspan_length n S); auto.
        * intros (a & b & H1 & H2 & ->). apply cone_nil in H1 as ->. rewrite vadd_zeros_l; auto. apply (linspan_length n S); auto.
    - cbn [olist]. split.
      + intro H. exists y, (zeros n). split; [auto|]. split; [apply linspan_nil; auto|]. rewrite vadd_zeros_r; auto. apply (cone_length n (olist r)); auto.
      + intros (a & b & H1 & H2 & ->). apply linspan_nil in H2 as ->. rewrite vadd_zeros_r; auto. apply (cone_length n (olist r)); auto. }
  unfold span_set. destruct v as [V|]; [change (sf_vertices (span_form (Some V) r s)) with (Some V)|change (sf_vertices (span_form None r s)) with (@None mat)]; cbn match.
  - unfold hull_cone. split.
    + intros (a & q & H1 & H2 & ->). apply CR in H2 as (q' & u & H2 & H3 & ->). exists a, q', u. auto.
    + intros (a & q & u & H1 & H2 & H3 & ->). exists a, (vadd q u). split; [auto|]. split; [|auto]. apply CR. eauto.
  - split.
    + intro H. apply CR in H as (q & u & H2 & H3 & ->). exists (zeros n), q, u. split; [auto|]. split; [auto|]. split; [auto|].
      rewrite vadd_zeros_l; auto. rewrite vadd_length; [apply (cone_length n (olist r)); auto|].
      rewrite (cone_length n (olist r)), (linspan_length n (olist s)); auto.
    + intros (a & q & u & -> & H2 & H3 & ->). rewrite vadd_zeros_l.
      * apply CR. eauto.
      * rewrite vadd_length; [apply (cone_length n (olist r)); auto|].
        rewrite (cone_length n (olist r)), (linspan_length n (olist s)); auto.
Qed.
Lemma sf_bounded_iff f : sf_bounded f = true <-> (exists V, sf_vertices f = Some V) /\ sf_rays f = None.
Proof.
  unfold sf_bounded. destruct (sf_rays f) as [W|], (sf_vertices f) as [V|]; split; intro H; try discriminate H; eauto; destruct H as [[? ?] ?]; discriminate.
Qed.
Lemma sf_is_cone_iff f : sf_is_cone f = true <-> (exists W, sf_rays f = Some W) /\ sf_vertices f = None.
Proof.
  unfold sf_is_cone. destruct (sf_rays f) as [W|], (sf_vertices f) as [V|]; split; intro H; try discriminate H; eauto; destruct H as [[? ?] ?]; discriminate.
Qed.
Lemma sf_from_cdd_empty m : cdd_rows m = [] -> sf_from_cdd m = Ok None.
Proof. intro H. unfold sf_from_cdd. rewrite H. reflexivity. Qed.

(** selection by masks computed from the rows themselves *)
Lemma select_map {A C} (f : A -> bool) (g : A -> C) (l : list A) : select (map f l) (map g l) = map g (filter f l).
Proof.
  unfold select. induction l as [|a l IH]; auto. cbn. destruct (f a); cbn; rewrite <- IH; reflexivity.
Qed.
Lemma existsb_map_id {A} (f : A -> bool) l : existsb (fun b => b) (map f l) = existsb f l.
Proof. induction l; cbn; auto. rewrite IHl. reflexivity. Qed.
Lemma pick_map {A C} (f : A -> bool) (g : A -> C) l :
  (if existsb (fun b => b) (map f l) then Some (select (map f l) (map g l)) else None) =
  match filter f l with [] => None | _ => Some (map g (filter f l)) end.
Proof.
  rewrite existsb_map_id, select_map. destruct (filter f l) as [|a l'] eqn:E.
  - assert (X : existsb f l = false).
    { apply Bool.not_true_is_false. intro H. apply existsb_exists in H as (x & Hx & Hf).
      assert (In x (filter f l)) by (apply filter_In; auto). rewrite E in H. destruct H. }
    rewrite X. reflexivity.
  - assert (X : existsb f l = true).
    { apply existsb_exists. exists a. assert (In a (filter f l)) by (rewrite E; now left). apply filter_In in H. exact H. }
    rewrite X. reflexivity.
Qed.
Definition flagged (m : CDD) : list (vec * bool) := combine (cdd_rows m) (lin_flags m).
Lemma lin_flags_length m : length (lin_flags m) = length (cdd_rows m).
Proof. unfold lin_flags. rewrite map_length, seq_length. reflexivity. Qed.
Lemma flagged_fst m : map fst (flagged m) = cdd_rows m.
Proof.
  unfold flagged. pose proof (lin_flags_length m) as L. revert L. generalize (lin_flags m). induction (cdd_rows m) as [|a l IH]; intros [|b f] L; cbn in L; try discriminate; auto.
  cbn. f_equal. apply IH. lia.
Qed.
Lemma flagged_snd m : map snd (flagged m) = lin_flags m.
Proof.
  unfold flagged. pose proof (lin_flags_length m) as L. revert L. generalize (lin_flags m). induction (cdd_rows m) as [|a l IH]; intros [|b f] L; cbn in L; try discriminate; auto.
  cbn. f_equal. apply IH. lia.
Qed.
Lemma map2_map {A B C D} (f : B -> C -> D) (g : A -> B) (h : A -> C) l : map2 f (map g l) (map h l) = map (fun a => f (g a) (h a)) l.
Proof. induction l; cbn; f_equal; auto. Qed.
Definition is1 (p : vec * bool) : bool := isclose np_rtol np_atol (nth 0 (fst p) 0) 1.
Definition is0 (p : vec * bool) : bool := isclose np_rtol np_atol (nth 0 (fst p) 0) 0 && negb (snd p).
Definition body (p : vec * bool) : vec := tl (fst p).
Definition nonempty {A} (l : list A) : option (list A) := match l with [] => None | _ => Some l end.
Lemma nonempty_map {A B} (g : A -> B) l : match l with [] => None | _ => Some (map g l) end = nonempty (map g l).
Proof. destruct l; reflexivity. Qed.
Lemma sf_from_cdd_eq m : cdd_rows m <> [] ->
  (forall i, In i (cdd_lin m) -> isclose np_rtol np_atol (nth i (col 0 (cdd_rows m)) 0) 0 = true) ->
  sf_from_cdd m = Ok (Some (span_form (nonempty (map body (filter is1 (flagged m))))
                                      (nonempty (map body (filter is0 (flagged m))))
                                      (nonempty (map body (filter snd (flagged m)))))).
Proof.
  intros N HL. unfold sf_from_cdd.
  assert (E : forall (T : Type) (a : T) (g : T), match cdd_rows m with [] => a | _ => g end = g) by (intros; destruct (cdd_rows m); congruence).
  destruct (cdd_rows m) as [|r0 M0] eqn:EM; [congruence|]. rewrite <- EM. clear E.
  assert (A : forallb (fun i => isclose np_rtol np_atol (nth i (col 0 (cdd_rows m)) 0) 0) (cdd_lin m) = true).
  { apply forallb_forall. intros i Hi. rewrite EM. apply HL; auto. }
  rewrite EM in A. rewrite <- EM in A. rewrite A. cbn [bind assert_].
  change (map (fun i => existsb (Nat.eqb i) (cdd_lin m)) (seq 0 (length (cdd_rows m)))) with (lin_flags m).
  rewrite <- (flagged_snd m).
  assert (C0 : col 0 (cdd_rows m) = map (fun p => nth 0 (fst p) 0) (flagged m)) by (unfold col; rewrite <- (flagged_fst m), map_map; reflexivity).
  assert (B0 : map (@tl R) (cdd_rows m) = map body (flagged m)) by (rewrite <- (flagged_fst m), map_map; reflexivity).
  rewrite C0, B0, !map_map, map2_map.
  change (fun x => isclose np_rtol np_atol (nth 0 (fst x) 0) 1) with is1.
  change (fun a => isclose np_rtol np_atol (nth 0 (fst a) 0) 0 && negb (snd a)) with is0.
  rewrite !pick_map, !nonempty_map. reflexivity.
Qed.
Lemma isclose_01 a : a = 0 \/ a = 1 -> isclose np_rtol np_atol a 1 = (if Req_EM_T a 1 then true else false) /\
  isclose np_rtol np_atol a 0 = (if Req_EM_T a 0 then true else false).
Proof.
  intro H. unfold isclose, np_rtol, np_atol. destruct H as [->| ->].
  - destruct (Req_EM_T 0 1); [lra|]. destruct (Req_EM_T 0 0); [|lra]. rewrite Rabs_R1, Rabs_R0. split.
    + apply Rleb_false. rewrite Rabs_left; lra.
    + apply Rleb_iff. rewrite Rminus_diag_eq, Rabs_R0 by reflexivity. lra.
  - destruct (Req_EM_T 1 1); [|lra]. destruct (Req_EM_T 1 0); [lra|]. rewrite Rabs_R1, Rabs_R0. split.
    + apply Rleb_iff. rewrite Rminus_diag_eq, Rabs_R0 by reflexivity. lra.
    + apply Rleb_false. rewrite Rminus_0_r, Rabs_R1. lra.
Qed.
Lemma nth0_hd r : nth 0 r 0 = hd 0 r.
Proof. destruct r; reflexivity. Qed.
(** coefficients for the flagged rows *)
Definition vgen (n : nat) (fr : list (vec * bool)) (s : R) (x : vec) : Prop :=
  exists w, length w = length fr /\
    (forall i, (i < length w)%nat -> snd (nth i fr ([], false)) = false -> 0 <= nth i w 0) /\
    dot w (map (fun p => hd 0 (fst p)) fr) = s /\ x = combine_rows n w (map body fr).
Lemma vgen_nil n s x : vgen n [] s x <-> s = 0 /\ x = zeros n.
Proof.
  split.
  - intros (w & L & _ & E & ->). destruct w; [|discriminate]. cbn in E. rewrite combine_rows_nil. auto.
  - intros [-> ->]. exists []. cbn. rewrite combine_rows_nil. repeat split; auto. intros i Hi. lia.
Qed.
Lemma vgen_cons n p fr s x : length (body p) = n ->
  (vgen n (p :: fr) s x <-> exists c x', (snd p = false -> 0 <= c) /\ vgen n fr (s - c * hd 0 (fst p)) x' /\ x = vadd (vscale c (body p)) x').
Proof.
  intro Lp. split.
  - intros (w & L & P & E & ->). destruct w as [|c w]; [discriminate|]. cbn in L. cbn [map] in E. rewrite dot_cons in E.
    exists c, (combine_rows n w (map body fr)). split; [apply (P 0%nat); cbn; lia|]. split.
    + exists w. split; [lia|]. split; [|split; [lra|reflexivity]]. intros i Hi Hf. apply (P (S i)); cbn; auto. lia.
    + cbn [map]. apply combine_rows_cons; auto.
  - intros (c & x' & Hc & (w & L & P & E & ->) & ->). exists (c :: w). split; [cbn; lia|]. split; [|split].
    + intros [|i] Hi Hf; cbn in *; auto. apply P; auto. lia.
    + cbn [map]. rewrite dot_cons. lra.
    + cbn [map]. rewrite combine_rows_cons; auto.
Qed.
Lemma vadd_shuffle n a b c d e : length a = n -> length b = n -> length c = n -> length d = n -> length e = n ->
  vadd (vadd a b) (vadd c (vadd d e)) = vadd a (vadd b (vadd c (vadd d e))).
Proof. intros. vring n. Qed.
Lemma vgen_split n fr s x : (forall p, In p fr -> length (fst p) = S n /\ (hd 0 (fst p) = 0 \/ (hd 0 (fst p) = 1 /\ snd p = false))) ->
  (vgen n fr s x <-> exists a q u, comb n (map body (filter is1 fr)) s a /\ cone n (map body (filter is0 fr)) q /\
     linspan n (map body (filter snd fr)) u /\ x = vadd a (vadd q u)).
Proof.
  revert s x; induction fr as [|p fr IH]; intros s x H.
  - cbn. rewrite vgen_nil. split.
    + intros [-> ->]. exists (zeros n), (zeros n), (zeros n). rewrite comb_nil, cone_nil, linspan_nil. repeat split; auto.
      rewrite !vadd_zeros_r; auto using zeros_length.
    + intros (a & q & u & H1 & H2 & H3 & ->). apply comb_nil in H1 as [-> ->]. apply cone_nil in H2 as ->. apply linspan_nil in H3 as ->.
      split; auto. rewrite !vadd_zeros_r; auto using zeros_length.
  - destruct (H p (or_introl eq_refl)) as [Lp Hp].
    assert (HF : forall p', In p' fr -> length (fst p') = S n /\ (hd 0 (fst p') = 0 \/ (hd 0 (fst p') = 1 /\ snd p' = false))) by (intros; apply H; now right).
    assert (Lb : length (body p) = n) by (unfold body; destruct (fst p); cbn in *; lia).
    rewrite vgen_cons by auto.
    assert (I01 : is1 p = (if Req_EM_T (hd 0 (fst p)) 1 then true else false) /\
                  is0 p = ((if Req_EM_T (hd 0 (fst p)) 0 then true else false) && negb (snd p))).
    { destruct (isclose_01 (hd 0 (fst p))) as [A B]; [tauto|]. unfold is1, is0. rewrite nth0_hd, A, B. auto. }
    destruct I01 as [I1 I0]. cbn [filter]. rewrite I1, I0.
    destruct Hp as [Hp|[Hp Hl]].
    + rewrite Hp. destruct (Req_EM_T 0 1); [lra|]. destruct (Req_EM_T 0 0); [|lra]. destruct (snd p) eqn:Es; cbn [negb andb map].
      * setoid_rewrite linspan_cons; auto. split.
        -- intros (c & x' & _ & G & ->). rewrite Rmult_0_r, Rminus_0_r in G. apply IH in G as (a & q & u & A & B & C & ->); auto.
           pose proof (comb_length _ _ _ _ A). pose proof (cone_length _ _ _ B). pose proof (linspan_length _ _ _ C).
           exists a, q, (vadd (vscale c (body p)) u). split; [auto|]. split; [auto|]. split; [eauto|]. vring n.
        -- intros (a & q & u & A & B & (c & u' & C & ->) & ->).
           pose proof (comb_length _ _ _ _ A). pose proof (cone_length _ _ _ B). pose proof (linspan_length _ _ _ C).
           exists c, (vadd a (vadd q u')). split; [discriminate|]. rewrite Rmult_0_r, Rminus_0_r. split; [apply IH; auto; exists a, q, u'; auto|]. vring n.
      * setoid_rewrite cone_cons; auto. split.
        -- intros (c & x' & Hc & G & ->). rewrite Rmult_0_r, Rminus_0_r in G. apply IH in G as (a & q & u & A & B & C & ->); auto.
           pose proof (comb_length _ _ _ _ A). pose proof (cone_length _ _ _ B). pose proof (linspan_length _ _ _ C).
           exists a, (vadd (vscale c (body p)) q), u. split; [auto|]. split; [exists c, q; auto|]. split; [auto|]. vring n.
        -- intros (a & q & u & A & (c & q' & Hc & B & ->) & C & ->).
           pose proof (comb_length _ _ _ _ A). pose proof (cone_length _ _ _ B). pose proof (linspan_length _ _ _ C).
           exists c, (vadd a (vadd q' u)). split; [auto|]. rewrite Rmult_0_r, Rminus_0_r. split; [apply IH; auto; exists a, q', u; auto|]. vring n.
    + rewrite Hp, Hl. destruct (Req_EM_T 1 1); [|lra]. destruct (Req_EM_T 1 0); [lra|]. cbn [negb andb map].
      setoid_rewrite comb_cons; auto. split.
      * intros (c & x' & Hc & G & ->). rewrite Rmult_1_r in G. apply IH in G as (a & q & u & A & B & C & ->); auto.
        pose proof (comb_length _ _ _ _ A). pose proof (cone_length _ _ _ B). pose proof (linspan_length _ _ _ C).
        exists (vadd (vscale c (body p)) a), q, u. split; [exists c, a; auto|]. split; [auto|]. split; [auto|]. vring n.
      * intros (a & q & u & (c & a' & Hc & A & ->) & B & C & ->).
        pose proof (comb_length _ _ _ _ A). pose proof (cone_length _ _ _ B). pose proof (linspan_length _ _ _ C).
        exists c, (vadd a' (vadd q u)). split; [auto|]. rewrite Rmult_1_r. split; [apply IH; auto; exists a', q, u; auto|]. vring n.
Qed.
Lemma olist_nonempty {A} (l : list A) : olist (nonempty l) = l.
Proof. destruct l; reflexivity. Qed.
Lemma nth_lin_flags m i : (i < length (cdd_rows m))%nat -> nth i (lin_flags m) false = existsb (Nat.eqb i) (cdd_lin m).
Proof.
  intro H. unfold lin_flags.
  rewrite (nth_indep _ false (existsb (Nat.eqb (length (cdd_rows m))) (cdd_lin m))) by (rewrite map_length, seq_length; auto).
  rewrite (map_nth (fun i => existsb (Nat.eqb i) (cdd_lin m))). rewrite seq_nth by auto. reflexivity.
Qed.
Lemma nth_flagged m i : (i < length (cdd_rows m))%nat -> snd (nth i (flagged m) ([], false)) = existsb (Nat.eqb i) (cdd_lin m).
Proof.
  intro H. rewrite <- nth_lin_flags, <- flagged_snd by auto. change false with (snd (@nil R, false)). rewrite map_nth. reflexivity.
Qed.
Lemma flagged_length m : length (flagged m) = length (cdd_rows m).
Proof. rewrite <- (map_length fst), flagged_fst. reflexivity. Qed.
Lemma v_set_vgen n m x : v_set n m x <-> vgen n (flagged m) 1 x.
Proof.
  unfold v_set, vgen. rewrite flagged_length.
  assert (E1 : map (hd 0) (cdd_rows m) = map (fun p => hd 0 (fst p)) (flagged m)) by (rewrite <- (flagged_fst m), map_map; reflexivity).
  assert (E2 : map (@tl R) (cdd_rows m) = map body (flagged m)) by (rewrite <- (flagged_fst m), map_map; reflexivity).
  rewrite E1, E2. split; intros (w & L & P & D & E); exists w; (split; [auto|]); (split; [|auto]).
  - intros i Hi Hf. apply P; auto. rewrite nth_flagged in Hf by congruence. rewrite <- in_lin, Hf. discriminate.
  - intros i Hi Hf. apply P; auto. rewrite nth_flagged by congruence. apply Bool.not_true_is_false. rewrite in_lin. exact Hf.
Qed.
Lemma flagged_ok n m : v_ok n m ->
  forall p, In p (flagged m) -> length (fst p) = S n /\ (hd 0 (fst p) = 0 \/ (hd 0 (fst p) = 1 /\ snd p = false)).
Proof.
  intros (HR & HL & _) p Hp. apply In_nth with (d := ([], false)) in Hp as (i & Hi & <-). rewrite flagged_length in Hi.
  assert (E : fst (nth i (flagged m) ([], false)) = nth i (cdd_rows m) []).
  { rewrite <- (map_nth fst), flagged_fst. reflexivity. }
  rewrite E. destruct (HR (nth i (cdd_rows m) []) (nth_In _ _ Hi)) as [L H]. split; [auto|]. rewrite nth_flagged by auto.
  destruct H as [H|H]; [auto|]. right. split; [auto|]. apply Bool.not_true_is_false. rewrite in_lin. intro K. destruct (HL i K). lra.
Qed.
Lemma flagged_rows_len n m (p : vec * bool -> bool) : v_ok n m -> rows_len n (map body (filter p (flagged m))).
Proof.
  intros V v Hv. apply in_map_iff in Hv as (q & <- & Hq). apply filter_In in Hq as [Hq _].
  destruct (flagged_ok n m V q Hq) as [L _]. unfold body. destruct (fst q); cbn in *; lia.
Qed.
(** from_cdd_matrix represents the generated set *)
Lemma sf_from_cdd_iff n m : v_ok n m -> exists f, sf_from_cdd m = Ok (Some f) /\
  (exists V, sf_vertices f = Some V /\ V <> [] /\ rows_len n V) /\ rows_len n (olist (sf_rays f)) /\
  forall x, span_set n f x <-> v_set n m x.
Proof.
  intro V. pose proof V as (HR & HL & r1 & Hr1 & E1).
  assert (NE : cdd_rows m <> []) by (intro E; rewrite E in Hr1; destruct Hr1).
  rewrite sf_from_cdd_eq; auto.
  2:{ intros i Hi. destruct (HL i Hi) as [Li Ei]. unfold col. rewrite (nth_map_0 _ _ _ []) by auto. rewrite nth0_hd, Ei.
      destruct (isclose_01 0) as [_ B]; [auto|]. rewrite B. destruct (Req_EM_T 0 0); [reflexivity|lra]. }
  eexists. split; [reflexivity|].
  assert (F1 : map body (filter is1 (flagged m)) <> []).
  { intro E. rewrite <- (flagged_fst m) in Hr1. apply in_map_iff in Hr1 as (p & <- & Hp).
    assert (In (body p) (map body (filter is1 (flagged m)))).
    { apply in_map, filter_In. split; [auto|]. unfold is1. rewrite nth0_hd, E1. destruct (isclose_01 1) as [A _]; [auto|]. rewrite A.
      destruct (Req_EM_T 1 1); [reflexivity|lra]. }
    rewrite E in H. destruct H. }
  destruct (map body (filter is1 (flagged m))) as [|v0 V0] eqn:EV; [congruence|]. cbn [nonempty].
  pose proof (flagged_rows_len n m is1 V) as RL1. rewrite EV in RL1.
  split; [eexists; split; [reflexivity|]; split; [discriminate|exact RL1]|].
  pose proof (flagged_rows_len n m is0 V) as RL0. pose proof (flagged_rows_len n m snd V) as RLS. split.
  - unfold span_form. cbn [sf_rays]. destruct (map body (filter snd (flagged m))) as [|s0 S0] eqn:ES; cbn [nonempty].
    + rewrite olist_nonempty. exact RL0.
    + destruct (map body (filter is0 (flagged m))) as [|q0 P0] eqn:E0; cbn [nonempty olist].
      * intros v Hv. apply in_app_or in Hv as [Hv|Hv]; [apply RLS; auto|apply (mneg_rows n _ RLS v Hv)].
      * intros v Hv. apply in_app_or in Hv as [Hv|Hv]; [apply RL0; auto|]. 
        apply in_app_or in Hv as [Hv|Hv]; [apply RLS; auto|apply (mneg_rows n _ RLS v Hv)].
  - intro x. rewrite span_form_set; rewrite ?olist_nonempty; auto.
    2:{ intros W [= <-]. exact RL1. }
    rewrite v_set_vgen, vgen_split by (apply flagged_ok; auto). rewrite EV. setoid_rewrite comb_hull. reflexivity.
Qed.
Lemma nil_flags (rows : mat) : lin_flags {| cdd_rows := rows; cdd_lin := [] |} = repeat false (length rows).
Proof.
  unfold lin_flags. cbn. generalize 0%nat. induction rows as [|r rows IH]; intro k; auto. cbn. f_equal. apply IH.
Qed.
Lemma flagged_nil_lin rows : flagged {| cdd_rows := rows; cdd_lin := [] |} = map (fun r => (r, false)) rows.
Proof.
  unfold flagged. rewrite nil_flags. cbn. induction rows as [|r rows IH]; auto. cbn. f_equal. exact IH.
Qed.
Lemma filter_map {A B} (f : A -> B) p l : filter p (map f l) = map f (filter (fun a => p (f a)) l).
Proof. induction l; cbn; auto. destruct (p (f a)); cbn; rewrite IHl; auto. Qed.
Lemma filter_none {A} (p : A -> bool) l : (forall x, In x l -> p x = false) -> filter p l = [].
Proof. induction l; cbn; auto. intro H. rewrite (H a) by auto. auto. Qed.
Lemma is1_cons k v : k = 0 \/ k = 1 -> is1 (k :: v, false) = (if Req_EM_T k 1 then true else false).
Proof. intro H. unfold is1. cbn. destruct (isclose_01 k H) as [A _]. exact A. Qed.
Lemma is0_cons k v : k = 0 \/ k = 1 -> is0 (k :: v, false) = (if Req_EM_T k 0 then true else false).
Proof. intro H. unfold is0. cbn. destruct (isclose_01 k H) as [_ A]. rewrite A. apply andb_true_r. Qed.
Lemma roundtrip_filters V W : let fr := map (fun r => (r, false)) (map (cons 1) V ++ map (cons 0) W) in
  map body (filter is1 fr) = V /\ map body (filter is0 fr) = W /\ map body (filter snd fr) = [].
Proof.
  cbn zeta. rewrite map_app, !map_map, !filter_app.
  rewrite !filter_map. 
  assert (A1 : filter (fun a => is1 (1 :: a, false)) V = V) by (apply filter_all; intros; rewrite is1_cons by auto; destruct (Req_EM_T 1 1); [auto|lra]).
  assert (A2 : filter (fun a => is1 (0 :: a, false)) W = []) by (apply filter_none; intros; rewrite is1_cons by auto; destruct (Req_EM_T 0 1); [lra|auto]).
  assert (A3 : filter (fun a => is0 (1 :: a, false)) V = []) by (apply filter_none; intros; rewrite is0_cons by auto; destruct (Req_EM_T 1 0); [lra|auto]).
  assert (A4 : filter (fun a => is0 (0 :: a, false)) W = W) by (apply filter_all; intros; rewrite is0_cons by auto; destruct (Req_EM_T 0 0); [auto|lra]).
  rewrite A1, A2, A3, A4. cbn [map app]. rewrite app_nil_r, !map_map. cbn [body fst tl snd]. rewrite !map_id.
  rewrite !filter_none by (intros; reflexivity). auto.
Qed.
Lemma olist_nil_none {A} (o : option (list A)) : o <> Some [] -> nonempty (olist o) = o.
Proof. destruct o as [[|a l]|]; cbn; congruence. Qed.
Lemma sf_to_cdd_eq f : (sf_vertices f <> None \/ sf_rays f <> None) ->
  sf_to_cdd f = Ok {| cdd_rows := map (cons 1) (olist (sf_vertices f)) ++ map (cons 0) (olist (sf_rays f)); cdd_lin := [] |}.
Proof. intro H. unfold sf_to_cdd. destruct (sf_vertices f) as [V|], (sf_rays f) as [W|]; cbn; auto. destruct H; congruence. Qed.
Lemma sf_roundtrip f : sf_vertices f <> Some [] -> sf_rays f <> Some [] -> (sf_vertices f <> None \/ sf_rays f <> None) ->
  (let* m := sf_to_cdd f in sf_from_cdd m) = Ok (Some f).
Proof.
  intros HV HW H. rewrite sf_to_cdd_eq by auto. cbn [bind]. rewrite sf_from_cdd_eq; cbn [cdd_rows cdd_lin].
  - rewrite flagged_nil_lin. destruct (roundtrip_filters (olist (sf_vertices f)) (olist (sf_rays f))) as (A & B & C).
    rewrite A, B, C. rewrite !olist_nil_none by auto. destruct f; reflexivity.
  - destruct (sf_vertices f) as [[|v V]|], (sf_rays f) as [[|w W]|]; cbn; try congruence. destruct H; congruence.
  - intros i [].
Qed.
Lemma sf_to_cdd_none f : sf_vertices f = None -> sf_rays f = None -> sf_to_cdd f = Raise TypeError.
Proof. intros A B. unfold sf_to_cdd. rewrite A, B. reflexivity. Qed.
(** to_cdd_matrix generates the set of the span form *)
Lemma sf_to_cdd_iff n f m : sf_to_cdd f = Ok m -> (exists V, sf_vertices f = Some V /\ V <> [] /\ rows_len n V) -> rows_len n (olist (sf_rays f)) ->
  v_ok n m /\ forall x, v_set n m x <-> span_set n f x.
Proof.
  intros H (V & EV & NV & RV) RW. rewrite sf_to_cdd_eq in H by (left; congruence). injection H as <-. rewrite EV. cbn [olist].
  set (W := olist (sf_rays f)) in *.
  assert (OK : v_ok n {| cdd_rows := map (cons 1) V ++ map (cons 0) W; cdd_lin := [] |}).
  { split; [|split]; cbn [cdd_rows cdd_lin].
    - intros r Hr. apply in_app_or in Hr as [Hr|Hr]; apply in_map_iff in Hr as (v & <- & Hv); cbn; [rewrite (RV v Hv)|rewrite (RW v Hv)]; auto.
    - intros i [].
    - destruct V as [|v V]; [congruence|]. exists (1 :: v). split; [now left|reflexivity]. }
  split; [exact OK|]. intro x. rewrite v_set_vgen, vgen_split by (apply flagged_ok; auto). rewrite flagged_nil_lin.
  destruct (roundtrip_filters V W) as (A & B & C). rewrite A, B, C. unfold span_set. rewrite EV. fold W. unfold hull_cone. split.
  - intros (a & q & u & H1 & H2 & H3 & ->). apply linspan_nil in H3 as ->. exists a, q. rewrite <- comb_hull.
    rewrite (vadd_zeros_r q n) by (apply (cone_length n W); auto). auto.
  - intros (a & q & H1 & H2 & ->). exists a, q, (zeros n). rewrite comb_hull, linspan_nil.
    rewrite (vadd_zeros_r q n) by (apply (cone_length n W); auto). auto.
Qed.

(** *** C36 *)
Lemma cone_lin n Q W q : is_mat n n Q -> rows_len n W -> (cone n (map (mat_vec Q) W) q <-> exists q', cone n W q' /\ q = mat_vec Q q').
Proof.
  intros HQ HW. split.
  - intros (w & L & P & ->). rewrite map_length in L. exists (combine_rows n w W). split; [exists w; auto|].
    rewrite (combine_rows_mat_vec n n) by auto. reflexivity.
  - intros (q' & (w & L & P & ->) & ->). exists w. rewrite map_length. split; [auto|]. split; [auto|]. apply (combine_rows_mat_vec n n); auto.
Qed.
Lemma sf_transform_bounded n V ro tr f' x : V <> [] -> rows_len n V -> (0 < n)%nat -> is_mat n n (pose_rot n ro) -> length (pose_tr n tr) = n ->
  sf_transform {| sf_vertices := Some V; sf_rays := None |} ro tr = Ok f' ->
  (span_set n f' x <-> exists y, span_set n {| sf_vertices := Some V; sf_rays := None |} y /\ x = move (pose_rot n ro) (pose_tr n tr) y).
Proof.
  intros NV RV Hn MQ LT H. unfold sf_transform in H. cbn [sf_dim sf_rays sf_vertices bind] in H.
  assert (D : ncols V = n) by (destruct V as [|v V]; [congruence|]; cbn; apply RV; now left). rewrite D in H.
  fold (pose_rot n ro) in H. fold (pose_tr n tr) in H. injection H as <-. unfold span_set. cbn [option_map sf_vertices sf_rays span_form olist].
  rewrite (rows_move_eq n) by auto.
  rewrite hull_cone_nil by (apply (rows_len_map n n); auto; intros; apply (move_len n); auto). split.
  - intro H. apply in_hull_move_inv in H as (q & Hq & ->); auto. exists q. split; [apply hull_cone_nil; auto|auto].
  - intros (y & Hy & ->). apply in_hull_move; auto. apply hull_cone_nil; auto.
Qed.
Lemma sf_transform_rays_rotate n V W ro f' x : V <> [] -> rows_len n V -> rows_len n W -> W <> [] -> (0 < n)%nat -> is_mat n n (pose_rot n ro) ->
  sf_transform {| sf_vertices := Some V; sf_rays := Some W |} ro None = Ok f' ->
  (span_set n f' x <-> exists y, span_set n {| sf_vertices := Some V; sf_rays := Some W |} y /\ x = move (pose_rot n ro) (zeros n) y).
Proof.
  intros NV RV RW NW Hn MQ H. unfold sf_transform in H. cbn [sf_dim sf_rays sf_vertices bind] in H.
  assert (D : ncols W = n) by (destruct W as [|v W']; [congruence|]; cbn; apply RW; now left). rewrite D in H.
  fold (pose_rot n ro) in H. injection H as <-. unfold span_set. cbn [option_map sf_vertices sf_rays span_form olist].
  set (Q := pose_rot n ro) in *. rewrite !(rows_move_eq n) by (auto using zeros_length).
  assert (MZ : forall v, move Q (zeros n) v = mat_vec Q v) by (intro v; unfold move; apply vadd_zeros_r; rewrite mat_vec_length; apply MQ).
  assert (EW : map (move Q (zeros n)) W = map (mat_vec Q) W) by (apply map_ext; auto). rewrite EW.
  unfold hull_cone. split.
  - intros (a & q & Ha & Hq & ->). apply cone_lin in Hq as (q' & Hq & ->); auto.
    apply in_hull_move_inv in Ha as (a' & Ha & ->); auto using zeros_length.
    exists (vadd a' q'). split; [eauto|]. rewrite !MZ, mat_vec_vadd; auto. rewrite (in_hull_length _ _ _ Ha), (cone_length _ _ _ Hq). auto.
  - intros (y & (a & q & Ha & Hq & ->) & ->). exists (move Q (zeros n) a), (mat_vec Q q).
    split; [apply in_hull_move; auto using zeros_length|]. split; [apply cone_lin; eauto|].
    rewrite !MZ, mat_vec_vadd; auto. rewrite (in_hull_length _ _ _ Ha), (cone_length _ _ _ Hq). auto.
Qed.
(** a half line that is translated sideways *)
Lemma sf_transform_rays_wrong : exists V W t f' y x,
  sf_transform {| sf_vertices := Some V; sf_rays := Some W |} None (Some t) = Ok f' /\
  rows_len 2 V /\ rows_len 2 W /\ length t = 2%nat /\
  span_set 2 {| sf_vertices := Some V; sf_rays := Some W |} y /\ x = move (eye 2) t y /\ ~ span_set 2 f' x.
Proof.
  exists [[0; 0]], [[1; 0]], [0; 1]. eexists. exists [1; 0], [1; 1]. split; [reflexivity|].
  split; [intros v [<-|[]]; reflexivity|]. split; [intros v [<-|[]]; reflexivity|]. split; [reflexivity|]. split; [|split].
  - exists [0; 0], [1; 0]. split; [exists [1]|split; [exists [1]|]].
    + split; [reflexivity|]. split; [split; [intros x [<-|[]]; lra|cbn; lra]|]. cbn. list_eq; lra.
    + split; [reflexivity|]. split; [intros x [<-|[]]; lra|]. cbn. list_eq; lra.
    + cbn. list_eq; lra.
  - cbn. unfold dot. cbn. list_eq; lra.
  - intros (a & q & (w & L & [_ P] & ->) & (w' & L' & _ & ->) & E). cbn in L, L', E.
    destruct w as [|w0 [|? ?]]; try discriminate. destruct w' as [|w1 [|? ?]]; try discriminate.
    cbn in P. cbn in E. unfold dot in E. cbn in E. injection E as E1 E2. lra.
Qed.
