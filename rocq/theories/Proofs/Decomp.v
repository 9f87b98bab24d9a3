(** Sums of outer products: traces, congruence, and the rotation argument that makes a quadratic
    form non-negative on every summand. *)
From Coq Require Import Permutation.
From Verif Require Import Base.Vec Base.VecFacts Spec.Basic Proofs.Coord Proofs.LinAlg.

(** J = sum of z z^T *)
Definition decomp (n : nat) (zs : list vec) (J : mat) : Prop :=
  is_mat n n J /\ (forall z, In z zs -> length z = n) /\
  forall i j, (i < n)%nat -> (j < n)%nat -> entry J i j = lsum (map (fun z => nth i z 0 * nth j z 0) zs).
Lemma rsum_lsum {A} n (f : nat -> A -> R) l : rsum n (fun i => lsum (map (f i) l)) = lsum (map (fun a => rsum n (fun i => f i a)) l).
Proof.
  induction l as [|a l IH]; cbn [map lsum fold_right]; [apply rsum_zero; auto|]. change (fold_right Rplus 0) with lsum. now rewrite rsum_plus, IH.
Qed.
Lemma trace_rsum n A : is_mat n n A -> trace A = rsum n (fun i => entry A i i).
Proof.
  intro H. unfold trace, diagonal. rewrite <- lsum_seq. do 2 f_equal. now rewrite (is_mat_length _ _ _ H).
Qed.
Lemma entry_mul_rsum n k m A B i j : is_mat n k A -> is_mat k m B -> (0 < k)%nat -> (i < n)%nat -> (j < m)%nat ->
  entry (mat_mul A B) i j = rsum k (fun l => entry A i l * entry B l j).
Proof.
  intros HA HB Hk Hi Hj. rewrite entry_mat_mul by (rewrite ?(is_mat_length _ _ _ HA), ?(is_mat_ncols _ _ _ HB Hk); auto).
  rewrite (dot_rsum k) by (rewrite ?(is_mat_row n k A i HA Hi); auto; unfold col; now rewrite map_length, (is_mat_length _ _ _ HB)).
  apply rsum_ext. intros l Hl. now rewrite nth_col.
Qed.
Lemma trace_decomp n Q zs J : (0 < n)%nat -> is_mat n n Q -> decomp n zs J -> trace (mat_mul Q J) = lsum (map (quad Q) zs).
Proof.
  intros Hn HQ (HJ & Hz & HE). rewrite (trace_rsum n) by (apply (is_mat_mul n n n); auto).
  transitivity (rsum n (fun i => lsum (map (fun z => rsum n (fun k => nth i z 0 * entry Q i k * nth k z 0)) zs))).
  - apply rsum_ext. intros i Hi. rewrite (entry_mul_rsum n n n) by auto. rewrite <- rsum_lsum. apply rsum_ext. intros k Hk. rewrite HE by auto.
    rewrite <- lsum_map_scal. apply lsum_map_ext. intros; ring.
  - rewrite rsum_lsum. apply lsum_map_ext. intros z Hin. rewrite (quad_q n) by auto. reflexivity.
Qed.
Lemma decomp_psd n zs J : decomp n zs J -> PSD n J.
Proof. intros (HJ & Hz & HE). apply (PSD_of_decomposition n J zs); auto. Qed.
Lemma decomp_exists n J : PSD n J -> exists zs, decomp n zs J.
Proof. intro H. destruct (PSD_decompose n J H) as (zs & _ & Hz & HE). exists zs. split; [apply H|auto]. Qed.
Lemma decomp_unique n zs J J' : decomp n zs J -> decomp n zs J' -> J = J'.
Proof. intros (HJ & _ & HE) (HJ' & _ & HE'). apply (mat_ext n n); auto. intros. now rewrite HE, HE'. Qed.
(** V J V^T *)
Lemma decomp_congr n m V zs J : (0 < n)%nat -> (0 < m)%nat -> is_mat m n V -> decomp n zs J ->
  decomp m (map (mat_vec V) zs) (mat_mul (mat_mul V J) (transpose V)).
Proof.
  intros Hn Hm HV (HJ & Hz & HE). pose proof (is_mat_transpose _ _ _ HV Hm) as HT.
  assert (HVJ : is_mat m n (mat_mul V J)) by (apply (is_mat_mul m n n); auto).
  split; [apply (is_mat_mul m n m); auto|]. split.
  - intros z Hin. apply in_map_iff in Hin as (y & <- & _). rewrite mat_vec_length. apply HV.
  - intros i j Hi Hj. rewrite (entry_mul_rsum m n m) by auto. rewrite map_map.
    transitivity (rsum n (fun l => lsum (map (fun z => nth i (mat_vec V z) 0 * (entry V j l * nth l z 0)) zs))).
    + apply rsum_ext. intros l Hl. rewrite (entry_mul_rsum m n n) by auto. rewrite entry_transpose by (rewrite (is_mat_ncols m n); auto).
      transitivity (entry V j l * lsum (map (fun z => nth i (mat_vec V z) 0 * nth l z 0) zs)).
      * rewrite Rmult_comm. f_equal. transitivity (rsum n (fun k => lsum (map (fun z => entry V i k * nth k z 0 * nth l z 0) zs))).
        -- apply rsum_ext. intros k Hk. rewrite HE by auto. rewrite <- lsum_map_scal. apply lsum_map_ext. intros; ring.
        -- rewrite rsum_lsum. apply lsum_map_ext. intros z Hin. rewrite rsum_scal_r. f_equal.
           rewrite nth_mat_vec by (now rewrite (is_mat_length _ _ _ HV)). rewrite (dot_rsum n); auto. now apply (is_mat_row m n).
      * rewrite <- lsum_map_scal. apply lsum_map_ext. intros; ring.
    + rewrite rsum_lsum. apply lsum_map_ext. intros z Hin. rewrite rsum_scal. f_equal.
      rewrite nth_mat_vec by (now rewrite (is_mat_length _ _ _ HV)). rewrite (dot_rsum n); auto. now apply (is_mat_row m n).
Qed.
Lemma decomp_app n zs zs' J J' : decomp n zs J -> decomp n zs' J' -> decomp n (zs ++ zs') (madd J J').
Proof.
  intros (HJ & Hz & HE) (HJ' & Hz' & HE'). split; [now apply is_mat_madd|]. split; [intros z H; apply in_app_iff in H as [H|H]; auto|].
  intros i j Hi Hj. rewrite (entry_madd _ _ n n), map_app, lsum_app, HE, HE' by auto. reflexivity.
Qed.
Lemma quad_decomp n zs J x : decomp n zs J -> length x = n -> quad J x = lsum (map (fun z => dot z x * dot z x) zs).
Proof. intros (HJ & Hz & HE). apply (PSD_of_decomposition n J zs); auto. Qed.

(** ** two vectors rotated in their plane *)
Lemma rotate_pair n Q x y : is_mat n n Q -> symmetric n Q -> length x = n -> length y = n -> quad Q x < 0 -> 0 < quad Q y ->
  exists x' y', length x' = n /\ length y' = n /\ quad Q x' = 0 /\ quad Q y' = quad Q x + quad Q y /\
  forall i j, nth i x 0 * nth j x 0 + nth i y 0 * nth j y 0 = nth i x' 0 * nth j x' 0 + nth i y' 0 * nth j y' 0.
Proof.
  intros HQ HS Lx Ly Nx Py. set (a := quad Q x) in *. set (c := quad Q y) in *. set (b := dot x (mat_vec Q y)).
  set (D := b * b - a * c). assert (HD : 0 < D) by (unfold D; nra).
  set (t := (- b + sqrt D) / c).
  assert (Ht : a + 2 * t * b + t * t * c = 0).
  { unfold t. assert (S : sqrt D * sqrt D = D) by (apply sqrt_sqrt; lra).
    apply (Rmult_eq_reg_r c); [|lra]. rewrite Rmult_0_l.
    replace ((a + 2 * ((- b + sqrt D) / c) * b + (- b + sqrt D) / c * ((- b + sqrt D) / c) * c) * c)
      with (a * c + 2 * (- b + sqrt D) * b + (b * b - 2 * b * sqrt D + sqrt D * sqrt D)) by (field; lra).
    rewrite S. unfold D. ring. }
  set (k := / sqrt (1 + t * t)). assert (P : 0 < 1 + t * t) by nra.
  assert (Hk : k * k * (1 + t * t) = 1).
  { unfold k. pose proof (sqrt_lt_R0 _ P) as Sp. assert (S : sqrt (1 + t * t) * sqrt (1 + t * t) = 1 + t * t) by (apply sqrt_sqrt; lra).
    rewrite <- S at 3. field. lra. }
  clearbody k. 
  exists (vscale k (vadd x (vscale t y))), (vscale k (vadd (vscale (- t) x) y)).
  assert (L1 : length (vscale t y) = n) by (now rewrite vscale_length). assert (L2 : length (vscale (- t) x) = n) by (now rewrite vscale_length).
  split; [rewrite vscale_length, vadd_length by congruence; auto|]. split; [rewrite vscale_length, vadd_length by congruence; auto|].
  split; [|split].
  - rewrite quad_vscale, (quad_vadd n), quad_vscale, mat_vec_vscale, dot_vscale_r by auto. fold a b c. replace (a + 2 * (t * b) + t * t * c) with (a + 2 * t * b + t * t * c) by ring. rewrite Ht. ring.
  - rewrite quad_vscale, (quad_vadd n), quad_vscale, dot_vscale_l by auto. fold a b c.
    replace (k * k * (- t * - t * a + 2 * (- t * b) + c)) with (k * k * (1 + t * t) * (a + c) - k * k * (a + 2 * t * b + t * t * c)) by ring.
    rewrite Hk, Ht. ring.
  - intros i j. rewrite !nth_vscale, !nth_vadd, !nth_vscale by congruence.
    replace (k * (nth i x 0 + t * nth i y 0) * (k * (nth j x 0 + t * nth j y 0)) + k * (- t * nth i x 0 + nth i y 0) * (k * (- t * nth j x 0 + nth j y 0)))
      with (k * k * (1 + t * t) * (nth i x 0 * nth j x 0 + nth i y 0 * nth j y 0)) by ring.
    rewrite Hk. ring.
Qed.
Lemma lsum_perm l l' : Permutation l l' -> lsum l = lsum l'.
Proof. induction 1; cbn; try lra. change (fold_right Rplus 0) with lsum. rewrite IHPermutation. reflexivity. Qed.
Lemma lsum_map_perm {A} (f : A -> R) l l' : Permutation l l' -> lsum (map f l) = lsum (map f l').
Proof. intro H. apply lsum_perm, Permutation_map, H. Qed.
Lemma lsum_nonpos {A} (f : A -> R) l : (forall a, In a l -> f a <= 0) -> lsum (map f l) <= 0.
Proof. intro H. rewrite <- (lsum_map_zero (fun _ : A => 0) l) by auto. apply lsum_map_le. exact H. Qed.
(** every sum of outer products on which the form is non-negative in total is a sum of outer
    products on each of which it is non-negative *)
Lemma split_nonneg n Q : is_mat n n Q -> symmetric n Q -> forall zs, (forall z, In z zs -> length z = n) -> 0 <= lsum (map (quad Q) zs) ->
  exists zs', (forall z, In z zs' -> length z = n /\ 0 <= quad Q z) /\
    forall i j, lsum (map (fun z => nth i z 0 * nth j z 0) zs) = lsum (map (fun z => nth i z 0 * nth j z 0) zs').
Proof.
  intros HQ HS zs. remember (length zs) as k eqn:Ek. revert zs Ek. induction k as [k IH] using lt_wf_ind. intros zs Ek Hz Hs.
  destruct (Forall_Exists_dec (fun z => 0 <= quad Q z) (fun z => Rle_dec 0 (quad Q z)) zs) as [A|E].
  - exists zs. split; [|auto]. intros z Hin. split; [auto|]. rewrite Forall_forall in A. auto.
  - apply Exists_exists in E as (x & Hx & Nx). apply Rnot_le_lt in Nx. destruct (in_split _ _ Hx) as (l1 & l2 & El).
    assert (P1 : Permutation zs (x :: l1 ++ l2)) by (rewrite El; symmetry; apply Permutation_middle).
    destruct (Forall_Exists_dec (fun z => quad Q z <= 0) (fun z => Rle_dec (quad Q z) 0) (l1 ++ l2)) as [A|E].
    + exfalso. rewrite (lsum_map_perm _ _ _ P1) in Hs. cbn [map lsum fold_right] in Hs. change (fold_right Rplus 0) with lsum in Hs.
      assert (lsum (map (quad Q) (l1 ++ l2)) <= 0) by (apply lsum_nonpos; rewrite Forall_forall in A; auto). lra.
    + apply Exists_exists in E as (y & Hy & Ny). apply Rnot_le_lt in Ny. destruct (in_split _ _ Hy) as (m1 & m2 & Em).
      assert (P2 : Permutation zs (x :: y :: m1 ++ m2)) by (rewrite P1, Em; constructor; symmetry; apply Permutation_middle).
      assert (Hz2 : forall z, In z (x :: y :: m1 ++ m2) -> length z = n) by (intros z Hin; apply Hz; eapply Permutation_in; [symmetry; exact P2|exact Hin]).
      destruct (rotate_pair n Q x y HQ HS) as (x' & y' & Lx' & Ly' & Qx' & Qy' & R'); auto; try (apply Hz2; cbn; auto).
      assert (Lk : (length (y' :: m1 ++ m2) < k)%nat) by (rewrite Ek, (Permutation_length P2); cbn; lia).
      destruct (IH _ Lk (y' :: m1 ++ m2) eq_refl) as (zs' & Hz' & Hsum).
      * intros z [<-|Hin]; [auto|]. apply Hz2. cbn. auto.
      * rewrite (lsum_map_perm _ _ _ P2) in Hs. cbn [map lsum fold_right] in *. change (fold_right Rplus 0) with lsum in *. lra.
      * exists (x' :: zs'). split.
        -- intros z [<-|Hin]; [split; [auto|lra]|auto].
        -- intros i j. rewrite (lsum_map_perm _ _ _ P2). cbn [map lsum fold_right]. change (fold_right Rplus 0) with lsum.
           specialize (Hsum i j). cbn [map lsum fold_right] in Hsum. change (fold_right Rplus 0) with lsum in Hsum. specialize (R' i j). lra.
Qed.
