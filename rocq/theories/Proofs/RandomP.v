(** Random points (C38). *)
From Coq Require Import Permutation.
From Verif Require Import Proofs.Coord Proofs.Hull Model.Util Model.Polydd Model.Poly Model.Inertial Model.Ellipsoid Model.Box Model.Cylinder Model.Random
  Spec.Basic Spec.Shapes Spec.Objects Spec.ShapeObjects Spec.PolySpec Spec.RandomSpec Proofs.BoxP Proofs.EllP Proofs.EllForms Proofs.CylP Proofs.LinAlg.

(** ** mapM and rows *)
Lemma mapM_all {A B} (f : A -> res B) (P : A -> B -> Prop) l : (forall a, In a l -> exists b, f a = Ok b /\ P a b) ->
  exists l', mapM f l = Ok l' /\ Forall2 P l l'.
Proof.
  induction l as [|a l IH]; intros H; cbn [mapM].
  - exists []. split; constructor.
  - destruct (H a (or_introl eq_refl)) as (b & E & Hb). destruct IH as (l' & E' & F); [intros; apply H; now right|].
    exists (b :: l'). rewrite E, E'. split; [reflexivity|now constructor].
Qed.
Lemma mapM_nonfinite {A B} (f : A -> res B) l a : In a l -> f a = NonFinite -> (forall x e, In x l -> f x <> Raise e) -> mapM f l = NonFinite.
Proof.
  induction l as [|x l IH]; intros I E H; [easy|]. cbn [mapM]. destruct (f x) as [b|e|] eqn:Ex; cbn [bind]; [| |reflexivity].
  - destruct I as [->|I]; [congruence|]. rewrite IH; auto. intros; apply H; now right.
  - exfalso. exact (H x e (or_introl eq_refl) Ex).
Qed.
Lemma Forall2_in_r {A B} (P : A -> B -> Prop) l l' b : Forall2 P l l' -> In b l' -> exists a, In a l /\ P a b.
Proof. induction 1; intros []; subst; [exists x; firstorder|]. destruct IHForall2 as (a & ? & ?); auto. exists a. firstorder. Qed.
Lemma Forall2_len {A B} (P : A -> B -> Prop) l l' : Forall2 P l l' -> length l = length l'.
Proof. induction 1; cbn; congruence. Qed.
Lemma is_mat_in n m A r : is_mat n m A -> In r A -> length r = m.
Proof. intros [_ H] I. rewrite Forall_forall in H. auto. Qed.
Lemma is_mat_of n m A : length A = n -> (forall r, In r A -> length r = m) -> is_mat n m A.
Proof. intros H K. split; [auto|]. now apply Forall_forall. Qed.
Lemma rows_len_of n (U : mat) : (forall u, In u U -> length u = n) -> rows_len n U.
Proof. intros H. first [exact H|apply Forall_forall; exact H]. Qed.
Lemma in_map2 {A B C} (f : A -> B -> C) l1 l2 c : In c (map2 f l1 l2) -> exists a b, In a l1 /\ In b l2 /\ c = f a b.
Proof.
  revert l2. induction l1 as [|a l1 IH]; intros [|b l2]; cbn; try easy. intros [<-|H]; [exists a, b; firstorder|].
  apply IH in H as (a' & b' & ? & ? & ?). exists a', b'. firstorder.
Qed.

(** ** random_psd_matrix *)
Lemma random_psd_psd n A : (0 < n)%nat -> rows_of n n (uniform_draw (-1) 1) A -> PSD n (random_psd_matrix A).
Proof.
  intros Hn [HA _]. unfold random_psd_matrix. pose proof (is_mat_transpose _ _ _ HA Hn) as HT. split; [eapply is_mat_mul; eauto|]. split.
  - apply transpose_symmetric; [eapply is_mat_mul; eauto|]. rewrite (transpose_mat_mul n n n) by auto. rewrite (transpose_involutive n n) by auto. reflexivity.
  - intros x Hx. unfold quad. rewrite (mat_vec_mat_mul n n n) by auto. assert (La : length (mat_vec A x) = n) by (rewrite mat_vec_length; apply HA).
    rewrite (dot_mat_vec_t n n) by auto. rewrite (transpose_involutive n n) by auto. apply dot_self_nonneg.
Qed.

(** ** random_weight_vectors *)
Lemma lsum_nonneg l : (forall x, In x l -> 0 <= x) -> 0 <= lsum l.
Proof. induction l as [|a l IH]; intros H; [cbn; lra|]. change (lsum (a :: l)) with (a + lsum l). pose proof (H a (or_introl eq_refl)). pose proof (IH (fun x I => H x (or_intror I))). lra. Qed.
Lemma lsum_zero_all l : (forall x, In x l -> 0 <= x) -> lsum l = 0 -> l = zeros (length l).
Proof.
  induction l as [|a l IH]; intros H E; [reflexivity|]. change (lsum (a :: l)) with (a + lsum l) in E.
  pose proof (H a (or_introl eq_refl)). pose proof (lsum_nonneg l (fun x I => H x (or_intror I))). assert (a = 0) by lra. assert (lsum l = 0) by lra.
  subst a. cbn. f_equal. apply IH; auto. intros; apply H; now right.
Qed.
Lemma lsum_vdivs l s : lsum (vdivs l s) = lsum l / s.
Proof. induction l as [|a l IH]; [cbn; unfold Rdiv; ring|]. cbn [vdivs map]. change (lsum ((a / s) :: map (fun a => a / s) l)) with (a / s + lsum (vdivs l s)). change (lsum (a :: l)) with (a + lsum l). rewrite IH. unfold Rdiv. ring. Qed.
Lemma lsum_zeros k : lsum (zeros k) = 0.
Proof. induction k; [reflexivity|]. cbn [zeros repeat]. change (lsum (0 :: repeat 0 k)) with (0 + lsum (zeros k)). lra. Qed.
Lemma Reqb_false x y : x <> y -> Reqb x y = false.
Proof. intros. unfold Reqb. destruct (Req_EM_T x y); congruence. Qed.
Lemma Reqb_true x y : x = y -> Reqb x y = true.
Proof. intros. unfold Reqb. destruct (Req_EM_T x y); congruence. Qed.
Lemma weight_vector_good w : (forall x, In x w -> 0 <= x) -> w <> zeros (length w) ->
  exists v, weight_vector w = Ok v /\ length v = length w /\ weights v /\ exists c, 0 < c /\ v = vscale c w.
Proof.
  intros H N. unfold weight_vector. assert (S : lsum w <> 0) by (intro; apply N; now apply lsum_zero_all).
  pose proof (lsum_nonneg w H). rewrite Reqb_false by auto. exists (vdivs w (lsum w)). split; [reflexivity|]. split; [apply vdivs_length|].
  split; [split|].
  - intros x I. unfold vdivs in I. apply in_map_iff in I as (y & <- & I). apply Rmult_le_pos; [auto|]. left. apply Rinv_0_lt_compat. lra.
  - rewrite lsum_vdivs. field. auto.
  - exists (/ lsum w). split; [apply Rinv_0_lt_compat; lra|]. unfold vdivs, vscale. apply map_ext. intros. unfold Rdiv. ring.
Qed.
Lemma weight_vectors_good n k W : rows_of n k unit_draw W -> (forall w, In w W -> w <> zeros k) ->
  exists V, random_weight_vectors W = Ok V /\ is_mat n k V /\ forall v, In v V -> weights v.
Proof.
  intros [HW HR] HN. destruct (mapM_all weight_vector (fun w v => length v = k /\ weights v) W) as (V & E & F).
  { intros w I. pose proof (is_mat_in _ _ _ _ HW I) as L. destruct (weight_vector_good w) as (v & Ev & Lv & Wv & _).
    - intros x J. destruct (HR w x I J). lra.
    - rewrite L. auto.
    - exists v. rewrite Lv. auto. }
  exists V. split; [exact E|]. split.
  - apply is_mat_of; [rewrite <- (Forall2_len _ _ _ F); apply HW|]. intros r I. destruct (Forall2_in_r _ _ _ _ F I) as (a & _ & ? & _). auto.
  - intros v I. destruct (Forall2_in_r _ _ _ _ F I) as (a & _ & _ & ?). auto.
Qed.
Lemma weight_vectors_zero n k W : rows_of n k unit_draw W -> In (zeros k) W -> random_weight_vectors W = NonFinite.
Proof.
  intros [HW HR] I. unfold random_weight_vectors. apply (mapM_nonfinite _ _ (zeros k)); auto.
  - unfold weight_vector. rewrite lsum_zeros, Reqb_true; auto.
  - intros x e _. unfold weight_vector. destruct (Reqb _ _); discriminate.
Qed.

(** ** spheres and balls *)
Lemma norm_pos x : x <> zeros (length x) -> 0 < norm x.
Proof.
  intro N. unfold norm. apply sqrt_lt_R0. destruct (dot_self_nonneg x) as [H|H]; [exact H|]. exfalso. apply N.
  apply dot_self_zero; auto.
Qed.
Lemma normalize_good x : x <> zeros (length x) -> normalize_row x = Ok (vscale (/ norm x) x) /\ norm (vscale (/ norm x) x) = 1.
Proof.
  intro N. pose proof (norm_pos _ N) as P. unfold normalize_row. rewrite Reqb_false by lra. split.
  - f_equal. unfold vdivs, vscale. apply map_ext. intros. unfold Rdiv. ring.
  - rewrite norm_vscale, Rabs_pos_eq by (left; now apply Rinv_0_lt_compat). field. lra.
Qed.
Lemma hypersphere_good n dim X : (1 <= dim)%nat -> normal_rows n (dim + 1) X ->
  exists P, random_points_on_hypersphere dim X = Ok P /\ is_mat n (dim + 1) P /\ forall p, In p P -> norm p = 1.
Proof.
  intros Hd [HX HN]. unfold random_points_on_hypersphere. rewrite (proj2 (Nat.leb_le _ _) Hd). cbn [assert_ bind].
  destruct (mapM_all normalize_row (fun x p => length p = (dim + 1)%nat /\ norm p = 1) X) as (V & E & F).
  { intros x I. pose proof (is_mat_in _ _ _ _ HX I) as L. destruct (normalize_good x) as [E1 E2]; [rewrite L; auto|].
    exists (vscale (/ norm x) x). rewrite vscale_length. auto. }
  exists V. split; [exact E|]. split.
  - apply is_mat_of; [rewrite <- (Forall2_len _ _ _ F); apply HX|]. intros r I. destruct (Forall2_in_r _ _ _ _ F I) as (a & _ & ? & _). auto.
  - intros v I. destruct (Forall2_in_r _ _ _ _ F I) as (a & _ & _ & ?). auto.
Qed.
Lemma hypersphere_bad X : random_points_on_hypersphere 0 X = Raise AssertionError.
Proof. reflexivity. Qed.
Lemma hypersphere_zero n dim X : (1 <= dim)%nat -> is_mat n (dim + 1) X -> In (zeros (dim + 1)) X -> random_points_on_hypersphere dim X = NonFinite.
Proof.
  intros Hd HX I. unfold random_points_on_hypersphere. rewrite (proj2 (Nat.leb_le _ _) Hd). cbn [assert_ bind].
  apply (mapM_nonfinite _ _ (zeros (dim + 1))); auto.
  - unfold normalize_row, norm. replace (dot (zeros (dim + 1)) (zeros (dim + 1))) with 0; [rewrite sqrt_0, Reqb_true; auto|].
    rewrite (dot_rsum (dim + 1)) by len. symmetry. apply rsum_zero. intros i Hi. rewrite nth_zeros. ring.
  - intros x e _. unfold normalize_row. destruct (Reqb _ _); discriminate.
Qed.
Lemma rpow_unit c p : 0 <= c -> c <= 1 -> 0 <= p -> 0 <= rpow c p <= 1.
Proof.
  intros H1 H2 Hp. unfold rpow, Reqb. destruct (Req_EM_T c 0); [lra|]. unfold Rpower. split; [left; apply exp_pos|].
  rewrite <- exp_0. destruct (Req_dec c 1) as [->|]; [rewrite ln_1, Rmult_0_r; lra|]. destruct Hp as [Hp|<-]; [|rewrite Rmult_0_l; lra].
  left. apply exp_increasing. assert (ln c < ln 1) by (apply ln_increasing; lra). rewrite ln_1 in *. nra.
Qed.
Lemma in_ball_good n dim X c : (2 <= dim)%nat -> normal_rows n dim X -> draws_of n unit_draw c ->
  exists P, random_points_in_ball dim X c = Ok P /\ is_mat n dim P /\ forall p, In p P -> norm p <= 1.
Proof.
  intros Hd HX [Lc Hc]. unfold random_points_in_ball. rewrite (proj2 (Nat.leb_le 1 dim)) by lia. cbn [assert_ bind].
  destruct (hypersphere_good n (dim - 1) X) as (P & -> & MP & NP); [lia|replace (dim - 1 + 1)%nat with dim by lia; auto|].
  replace (dim - 1 + 1)%nat with dim in MP by lia. cbn [bind].
  eexists. split; [reflexivity|]. split.
  - apply is_mat_of; [rewrite map2_length; destruct MP; lia|]. intros r I. apply in_map2 in I as (a & b & _ & I & ->). rewrite vscale_length. eapply is_mat_in; eauto.
  - intros p I. apply in_map2 in I as (a & b & Ia & I & ->). rewrite norm_vscale, (NP b I), Rmult_1_r. destruct (Hc a Ia).
    destruct (rpow_unit a (1 / INR dim)); try lra; [|rewrite Rabs_pos_eq; lra]. left. apply Rdiv_lt_0_compat; [lra|]. apply lt_0_INR. lia.
Qed.
(** the function accepts dim = 1 in its own assertion but the sphere of dimension 0 is rejected *)
Lemma in_ball_one X c : random_points_in_ball 1 X c = Raise AssertionError.
Proof. reflexivity. Qed.
Lemma in_ball_zero X c : random_points_in_ball 0 X c = Raise AssertionError.
Proof. reflexivity. Qed.
(** every point of the open ball is drawn *)
Lemma rpow_root c dim : (0 < dim)%nat -> 0 <= c -> rpow (c ^ dim) (1 / INR dim) = c.
Proof.
  intros Hd Hc. unfold rpow, Reqb. pose proof (lt_0_INR _ Hd). destruct (Req_EM_T (c ^ dim) 0) as [E|E].
  - destruct Hc as [Hc|]; [|auto]. pose proof (pow_lt c dim Hc). lra.
  - destruct Hc as [Hc|<-]; [|exfalso; apply E; apply pow_i; auto].
    rewrite <- Rpower_pow by auto. rewrite Rpower_mult. replace (INR dim * (1 / INR dim)) with 1 by (field; lra). now apply Rpower_1.
Qed.
Lemma in_ball_covers dim p : (2 <= dim)%nat -> length p = dim -> norm p < 1 ->
  exists X c, normal_rows 1 dim X /\ draws_of 1 unit_draw c /\ random_points_in_ball dim X c = Ok [p].
Proof.
  intros Hd Lp Np.
  assert (K : exists x, length x = dim /\ x <> zeros dim /\ p = vscale (norm p) (vscale (/ norm x) x)).
  { destruct (Req_dec (norm p) 0) as [E|E].
    - exists (ones dim). split; [apply ones_length|]. split.
      + intro F. assert (nth 0 (ones dim) 0 = 0) as G by (rewrite F; apply nth_zeros). destruct dim; [lia|]. cbn in G. lra.
      + rewrite E. assert (Z : p = zeros dim).
        { rewrite <- Lp. apply dot_self_zero. unfold norm in E. apply sqrt_eq_0 in E; auto using dot_self_nonneg. }
        rewrite Z at 1. apply (vec_ext dim); [len|len|]. intros i Hi. rewrite nth_zeros, !nth_vscale. ring.
    - exists p. split; [auto|]. split.
      + intro F. apply E. rewrite F. unfold norm. rewrite (dot_rsum dim) by len. rewrite rsum_zero; [apply sqrt_0|]. intros. rewrite nth_zeros. ring.
      + apply (vec_ext dim); [auto|len|]. intros i Hi. rewrite !nth_vscale. field. auto. }
  destruct K as (x & Lx & Nx & Ep).
  assert (N0 : 0 <= norm p) by apply sqrt_pos.
  exists [x], [norm p ^ dim]. split; [split; [split; auto|]; intros y [<-|[]]; auto|]. split.
  { split; [auto|]. intros y [<-|[]]. split; [apply pow_le; auto|]. destruct dim as [|d]; [lia|]. cbn [pow].
    assert (norm p ^ d <= 1). { rewrite <- (pow1 d). apply pow_incr. lra. } assert (0 <= norm p ^ d) by (apply pow_le; auto). nra. }
  unfold random_points_in_ball, random_points_on_hypersphere. rewrite (proj2 (Nat.leb_le 1 dim)), (proj2 (Nat.leb_le 1 (dim - 1))) by lia. cbn [assert_ bind mapM].
  destruct (normalize_good x) as [-> _]; [congruence|]. cbn [bind map2]. rewrite rpow_root by (auto; lia). rewrite <- Ep. reflexivity.
Qed.

(** ** shapes *)
Lemma vmul_draw h u : length h = 3%nat -> (forall i, (i < 3)%nat -> 0 <= nth i h 0) -> length u = 3%nat -> (forall x, In x u -> uniform_draw (-1) 1 x) -> in_cube h (vmul u h).
Proof.
  intros Lh Ph Lu Hu. split; [len|]. intros i Hi. rewrite Lh in Hi. rewrite (nth_vmul u h) by lia. rewrite Rabs_mult. rewrite (Rabs_pos_eq (nth i h 0)) by auto.
  assert (Rabs (nth i u 0) <= 1). { destruct (Hu (nth i u 0)); [apply nth_In; lia|]. apply Rabs_le. lra. } pose proof (Ph i Hi). pose proof (Rabs_pos (nth i u 0)). nra.
Qed.
Lemma box_random_in h c r b n U : box_init h c r = Ok b -> rows_of n 3 (uniform_draw (-1) 1) U ->
  length (box_random_points b U) = n /\ forall p, In p (box_random_points b U) -> length p = 3%nat /\ box_set h (pose_rot 3 r) (pose_tr 3 c) p.
Proof.
  intros Hb [HU HR]. apply box_init_inv in Hb as (Lh & Ph & Eh & Ec & Er & MQ & Lc & _). unfold box_random_points.
  assert (RL : rows_len 3 (map (fun u => vmul u (b_half b)) U)).
  { apply rows_len_of. intros x I. apply in_map_iff in I as (u & <- & I). pose proof (is_mat_in _ _ _ _ HU I). rewrite Eh. len. }
  rewrite (rows_move_eq 3) by (auto; lia). split; [rewrite !map_length; apply HU|]. intros p I. apply in_map_iff in I as (x & <- & I).
  apply in_map_iff in I as (u & <- & I). split; [apply move_len; auto|]. exists (vmul u h). rewrite <- Er, <- Ec, <- Eh. split; [|reflexivity].
  rewrite Eh. apply vmul_draw; auto; [eapply is_mat_in; eauto|]. intros; eapply HR; eauto.
Qed.
Lemma box_random_covers h c r b u : box_init h c r = Ok b -> length u = 3%nat -> (forall i, (i < 3)%nat -> Rabs (nth i u 0) < nth i h 0) ->
  exists U, rows_of 1 3 (uniform_draw (-1) 1) U /\ box_random_points b U = [move (pose_rot 3 r) (pose_tr 3 c) u].
Proof.
  intros Hb Lu Hu. apply box_init_inv in Hb as (Lh & Ph & Eh & Ec & Er & MQ & Lc & _). unfold box_random_points.
  assert (Q : forall i, (i < 3)%nat -> 0 < nth i h 0). { intros i Hi. pose proof (Hu i Hi). pose proof (Rabs_pos (nth i u 0)). lra. }
  exists [map2 Rdiv u h]. assert (L3 : length (map2 Rdiv u h) = 3%nat) by (rewrite map2_length; lia). split; [split; [split; auto|]|].
  - intros y x [<-|[]] I. apply (In_nth _ _ 0) in I as (i & Hi & <-). rewrite L3 in Hi. rewrite (nth_map2 Rdiv u h 0 0) by (try lia; unfold Rdiv; ring).
    pose proof (Q i Hi). pose proof (Hu i Hi) as K. apply Rabs_def2 in K as [K1 K2]. split.
    + apply (Rmult_le_reg_r (nth i h 0)); auto. unfold Rdiv. rewrite Rmult_assoc, Rinv_l by lra. lra.
    + apply (Rmult_lt_reg_r (nth i h 0)); auto. unfold Rdiv. rewrite Rmult_assoc, Rinv_l by lra. lra.
  - cbn [map]. rewrite Eh. assert (RL : rows_len 3 [vmul (map2 Rdiv u h) h]) by (apply rows_len_of; intros x [<-|[]]; len). rewrite (rows_move_eq 3) by (auto; lia). rewrite Er, Ec. cbn [map]. do 2 f_equal.
    apply (vec_ext 3); [len|auto|]. intros i Hi. rewrite nth_vmul by lia. rewrite (nth_map2 Rdiv u h 0 0) by (try lia; unfold Rdiv; ring). field. pose proof (Q i Hi). lra.
Qed.
Lemma ell_random_eq h r c e X u n : ell_init h r c = Ok e -> (0 < length h)%nat -> length h = n ->
  forall B, random_points_in_ball n X u = Ok B -> (forall p, In p B -> length p = n) ->
  ell_random_points e X u = Ok (map (fun p => vadd (mat_vec (congd (pose_rot n r) h) p) (pose_tr n c)) B).
Proof.
  intros He Hn Ln B EB LB. apply ell_init_inv in He as (Ph & Eh & Er & Ec & MQ & Lc). unfold ell_random_points. rewrite Eh, Ln, EB. cbn [bind].
  rewrite Ln in *. rewrite Er, Ec in *. f_equal. unfold mat_mul at 1. rewrite map_map. apply map_ext_in. intros p I. f_equal. fold (congd (pose_rot n r) h).
  rewrite vec_mat_mat_vec. f_equal. apply (symmetric_transpose n); [apply congd_is_mat; auto|apply congd_sym; auto].
Qed.
Lemma ell_random_in h r c e X u n : ell_init h r c = Ok e -> (2 <= length h)%nat -> orthogonal (length h) (pose_rot (length h) r) ->
  normal_rows n (length h) X -> draws_of n unit_draw u ->
  exists P, ell_random_points e X u = Ok P /\ length P = n /\
    forall p, In p P -> length p = length h /\ ell_set h (pose_rot (length h) r) (pose_tr (length h) c) p.
Proof.
  intros He Hn HQ HX Hu. destruct (in_ball_good n (length h) X u Hn HX Hu) as (B & EB & MB & NB).
  rewrite (ell_random_eq h r c e X u (length h) He ltac:(lia) eq_refl B EB) by (intros; eapply is_mat_in; eauto). eexists. split; [reflexivity|].
  split; [rewrite map_length; apply MB|]. intros p I. apply in_map_iff in I as (x & <- & I). pose proof (is_mat_in _ _ _ _ MB I) as Lx.
  apply ell_init_inv in He as (Ph & Eh & Er & Ec & MQ & Lc). rewrite Er in MQ. rewrite Ec in Lc. assert (Z : (0 < length h)%nat) by lia.
  split.
  - rewrite vadd_length; rewrite mat_vec_length; pose proof (congd_is_mat _ _ _ MQ eq_refl Z) as [E1 _]; [auto|congruence].
  - rewrite (congd_mat_vec (length h)) by auto. exists (mat_vec (transpose (pose_rot (length h) r)) x). pose proof (is_mat_transpose _ _ _ MQ Z) as MT.
    split; [rewrite mat_vec_length; apply MT|]. split; [|reflexivity].
    assert (LT : length (mat_vec (transpose (pose_rot (length h) r)) x) = length h) by (rewrite mat_vec_length; apply MT).
    rewrite (dot_mat_vec_t (length h) (length h)) by auto. rewrite (transpose_involutive (length h) (length h)) by auto.
    rewrite <- (mat_vec_mat_mul (length h) (length h) (length h)) by auto. destruct HQ as (_ & _ & ->). rewrite mat_vec_eye by auto.
    pose proof (NB x I) as Nx. rewrite <- norm_sqr. pose proof (sqrt_pos (dot x x)). fold (norm x) in *. nra.
Qed.
Lemma ell_random_one h r c e X u : ell_init h r c = Ok e -> length h = 1%nat -> ell_random_points e X u = Raise AssertionError.
Proof. intros He L. apply ell_init_inv in He as (_ & Eh & _). unfold ell_random_points. rewrite Eh, L. reflexivity. Qed.
Lemma ell_random_covers h r c e u : ell_init h r c = Ok e -> (2 <= length h)%nat -> orthogonal (length h) (pose_rot (length h) r) ->
  length u = length h -> dot u u < 1 ->
  exists X d, normal_rows 1 (length h) X /\ draws_of 1 unit_draw d /\
    ell_random_points e X d = Ok [move (pose_rot (length h) r) (pose_tr (length h) c) (vmul h u)].
Proof.
  intros He Hn HQ Lu Hu. pose proof (ell_init_inv _ _ _ _ He) as (Ph & Eh & Er & Ec & MQ & Lc). rewrite Er in MQ. assert (Z : (0 < length h)%nat) by lia.
  set (n := length h) in *. set (Q := pose_rot n r) in *. pose proof (is_mat_transpose _ _ _ MQ Z) as MT.
  assert (L : length (mat_vec Q u) = n) by (rewrite mat_vec_length; apply MQ).
  assert (B : mat_vec (transpose Q) (mat_vec Q u) = u). { rewrite <- (mat_vec_mat_mul n n n) by auto. destruct HQ as (_ & -> & _). apply mat_vec_eye; auto. }
  assert (N : norm (mat_vec Q u) < 1).
  { unfold norm. rewrite <- sqrt_1. apply sqrt_lt_1; [apply dot_self_nonneg|lra|]. rewrite (dot_mat_vec_t n n) by auto. rewrite B. exact Hu. }
  destruct (in_ball_covers n _ Hn L N) as (X & d & HX & Hd & E). exists X, d. split; [auto|]. split; [auto|].
  rewrite (ell_random_eq h r c e X d n He Z eq_refl _ E); [|intros p [<-|[]]; auto]. cbn [map]. do 2 f_equal. unfold move. f_equal.
  rewrite (congd_mat_vec n) by auto. fold Q. now rewrite B.
Qed.

(** ** cylinders *)
Lemma cyl_random_in L r ro co cy n Z X u : cyl_init L r ro co = Ok cy ->
  draws_of n (uniform_draw (- (1 / 2)) (1 / 2)) Z -> normal_rows n 2 X -> draws_of n unit_draw u ->
  exists P, cyl_random_points cy Z X u = Ok P /\ length P = n /\
    forall p, In p P -> length p = 3%nat /\ cyl_set L r (pose_rot 3 ro) (pose_tr 3 co) p.
Proof.
  intros HC [LZ HZ] HX Hu. apply cyl_init_inv in HC as (HL & Hr & MQ & Lc & ->). destruct (in_ball_good n 2 X u ltac:(lia) HX Hu) as (B & EB & MB & NB).
  unfold cyl_random_points. cbn [c_length c_radius c_rot c_center cyl_of]. rewrite EB. cbn [bind]. eexists. split; [reflexivity|].
  split; [rewrite map_length; unfold mat_mul; rewrite map_length, map2_length, !map_length; destruct MB; lia|].
  intros p I. apply in_map_iff in I as (q & <- & I). unfold mat_mul in I. apply in_map_iff in I as (v & <- & I).
  apply in_map2 in I as (xy & z & I1 & I2 & ->). apply in_map_iff in I1 as (b & <- & I1). apply in_map_iff in I2 as (t & <- & I2).
  pose proof (is_mat_in _ _ _ _ MB I1) as Lb. pose proof (NB b I1) as Nb. destruct (HZ t I2) as [T1 T2].
  destruct b as [|b1 [|b2 [|? ?]]]; try discriminate Lb.
  rewrite (vec_mat_transpose 3) by (auto; cbn; lia). split; [rewrite vadd_length; rewrite mat_vec_length; [apply MQ|]; destruct MQ; congruence|].
  exists (r * b1), (r * b2), (L * t). split; [|split; [|reflexivity]].
  - assert (b1 * b1 + b2 * b2 <= 1). { pose proof (norm_sqr [b1; b2]) as E. pose proof (norm_nonneg [b1; b2]). unfold dot in E. cbn in E. nra. } nra.
  - rewrite Rabs_mult, (Rabs_pos_eq L) by auto. assert (Rabs t <= 1 / 2) by (apply Rabs_le; lra). nra.
Qed.
Lemma cyl_random_covers L r ro co cy x y z : cyl_init L r ro co = Ok cy -> x * x + y * y < r * r -> Rabs z < L / 2 ->
  exists Z X u, draws_of 1 (uniform_draw (- (1 / 2)) (1 / 2)) Z /\ normal_rows 1 2 X /\ draws_of 1 unit_draw u /\
    cyl_random_points cy Z X u = Ok [move (pose_rot 3 ro) (pose_tr 3 co) [x; y; z]].
Proof.
  intros HC Hxy Hz. apply cyl_init_inv in HC as (HL & Hr & MQ & Lc & ->). pose proof (Rabs_pos z).
  assert (R0 : 0 < r) by nra. assert (L0 : 0 < L) by lra. apply Rabs_def2 in Hz as [Hz1 Hz2].
  destruct (in_ball_covers 2 [x / r; y / r] ltac:(lia) eq_refl) as (X & u & HX & Hu & E).
  { unfold norm. rewrite <- sqrt_1. apply sqrt_lt_1; [apply dot_self_nonneg|lra|]. unfold dot. cbn.
    replace (x / r * (x / r) + (y / r * (y / r) + 0)) with ((x * x + y * y) / (r * r)) by (field; lra). apply (Rmult_lt_reg_r (r * r)); [nra|]. unfold Rdiv. rewrite Rmult_assoc, Rinv_l by nra. lra. }
  exists [z / L], X, u. split; [split; [auto|]; intros t [<-|[]]; split|].
  - apply (Rmult_le_reg_r L); [lra|]. unfold Rdiv. rewrite Rmult_assoc, Rinv_l by lra. lra.
  - apply (Rmult_lt_reg_r L); [lra|]. unfold Rdiv. rewrite Rmult_assoc, Rinv_l by lra. lra.
  - split; [auto|]. split; [auto|]. unfold cyl_random_points. cbn [c_length c_radius c_rot c_center cyl_of]. rewrite E. cbn [bind map map2 vscale app mat_mul].
    rewrite (vec_mat_transpose 3) by (auto; cbn; lia). unfold move. do 4 f_equal. replace (r * (x / r)) with x by (field; lra). replace (r * (y / r)) with y by (field; lra).
    replace (L * (z / L)) with z by (field; lra). reflexivity.
Qed.

(** ** polyhedra *)
Lemma vec_mat_combine n w V : V <> [] -> (forall v, In v V -> length v = n) -> vec_mat w V = combine_rows n w V.
Proof.
  intros NE LV. unfold vec_mat, combine_rows. replace (ncols V) with n by (destruct V; [easy|]; symmetry; apply LV; now left).
  apply map_ext. intro j. unfold dot, col. clear. revert w. induction V as [|v V IH]; intros [|a w]; try reflexivity. cbn [map map2].
  change (lsum (a * nth j v 0 :: map2 Rmult w (map (fun r => nth j r 0) V)) = lsum (a * nth j v 0 :: map2 (fun c v => c * nth j v 0) w V)).
  change (lsum (?x :: ?l)) with (x + lsum l). now rewrite <- IH.
Qed.
Lemma poly_random_in d p n W : poly_ok d p -> rows_of n (p_nv p) unit_draw W -> (forall w, In w W -> w <> zeros (p_nv p)) ->
  exists P, poly_random_points p W = Ok P /\ length P = n /\ forall x, In x P -> in_hull d (p_vertices p) x.
Proof.
  intros (Hd & _ & _ & _ & V & EV & NE & LV) HW HN. destruct (weight_vectors_good _ _ _ HW HN) as (Ws & E & MW & HWs).
  unfold poly_random_points. rewrite E. cbn [bind]. unfold p_vertices, p_nv, sf_nv in *. rewrite EV in *. cbn [sf_vertices] in *. eexists. split; [reflexivity|].
  split; [unfold mat_mul; rewrite map_length; apply MW|]. intros x I. unfold mat_mul in I. apply in_map_iff in I as (w & <- & I).
  exists w. split; [eapply is_mat_in; eauto|]. split; [auto|]. now apply vec_mat_combine.
Qed.
Lemma poly_random_covers d p x : poly_ok d p -> in_hull d (p_vertices p) x ->
  exists W, rows_of 1 (p_nv p) unit_draw W /\ (forall w, In w W -> w <> zeros (p_nv p)) /\ poly_random_points p W = Ok [x].
Proof.
  intros (Hd & _ & _ & _ & V & EV & NE & LV) (w & Lw & [Pw Sw] & ->). unfold poly_random_points, p_vertices, p_nv, sf_nv in *. rewrite EV in *. cbn [sf_vertices] in *.
  assert (SV : forall c l, lsum (vscale c l) = c * lsum l).
  { clear. intros c l. induction l as [|a l IH]; [cbn; ring|]. cbn [vscale map]. change (lsum (c * a :: map (Rmult c) l)) with (c * a + lsum (vscale c l)). rewrite IH. change (lsum (a :: l)) with (a + lsum l). ring. }
  assert (B : forall l a, (forall x, In x l -> 0 <= x) -> In a l -> a <= lsum l).
  { clear. induction l as [|b l IH]; intros a H []; change (lsum (b :: l)) with (b + lsum l).
    - subst. pose proof (lsum_nonneg l (fun x I => H x (or_intror I))). lra.
    - pose proof (H b (or_introl eq_refl)). pose proof (IH a (fun x I => H x (or_intror I)) H0). lra. }
  exists [vscale (1 / 2) w]. split; [split|split].
  - apply is_mat_of; [auto|]. intros r [<-|[]]. now rewrite vscale_length.
  - intros r a [<-|[]] I. unfold vscale in I. apply in_map_iff in I as (b & <- & I). pose proof (B w b Pw I). pose proof (Pw b I). split; lra.
  - intros v [<-|[]] F. apply (f_equal lsum) in F. rewrite SV, lsum_zeros, Sw in F. lra.
  - unfold random_weight_vectors. cbn [mapM]. unfold weight_vector. rewrite SV, Sw, Reqb_false by lra. cbn [bind mat_mul map]. do 2 f_equal. rewrite (vec_mat_combine d) by auto.
    f_equal. unfold vdivs, vscale. rewrite map_map. rewrite <- (map_id w) at 2. apply map_ext. intro. field.
Qed.

(** ** InertialParameters.random *)
Lemma sym3_form H : PSD 3 H -> exists a b c d e f, H = [[a; b; c]; [b; d; e]; [c; e; f]].
Proof.
  intros (M & S & _). pose proof (S 0 1 ltac:(lia) ltac:(lia))%nat as S1. pose proof (S 0 2 ltac:(lia) ltac:(lia))%nat as S2. pose proof (S 1 2 ltac:(lia) ltac:(lia))%nat as S3.
  destruct_vecs. unfold entry in *. cbn in *. subst. repeat eexists.
Qed.
Lemma ip_psd_of_central m com H0 : 0 <= m -> length com = 3%nat -> PSD 3 H0 ->
  PSD 4 (ip_J {| ip_mass := m; ip_com := com; ip_H := madd H0 (mscale m (outer com com)) |}).
Proof.
  intros Hm Lc HP. destruct (sym3_form _ HP) as (a & b & c & d & e & f & ->). destruct HP as (_ & _ & Q0).
  destruct com as [|c1 [|c2 [|c3 [|]]]]; try discriminate Lc. unfold ip_J, ip_h. cbn. split; [|split].
  - repeat constructor.
  - intros i j Hi Hj. destruct i as [|[|[|[|]]]]; try lia; destruct j as [|[|[|[|]]]]; try lia; unfold entry; cbn; ring.
  - intros x Lx. destruct x as [|x1 [|x2 [|x3 [|x4 [|]]]]]; try discriminate Lx. pose proof (Q0 [x1; x2; x3] eq_refl) as K. unfold quad, dot, mat_vec in *. cbn in *.
    apply Rle_trans with (1 := K). match goal with |- ?k <= ?g => enough (E : g - k = m * Rsqr (c1 * x1 + c2 * x2 + c3 * x3 + x4)) end.
    { pose proof (Rmult_le_pos _ _ Hm (Rle_0_sqr (c1 * x1 + c2 * x2 + c3 * x3 + x4))). lra. }
    unfold Rsqr. ring.
Qed.
Lemma ip_random_good u c A : unit_draw u -> draws_of 3 unit_draw c -> rows_of 3 3 (uniform_draw (-1) 1) A ->
  exists p, ip_random u c A = Ok p /\ ip_ok p /\ 1 / 10 <= ip_mass p < 1 /\ PSD 4 (ip_J p) /\ ip_Hc p = random_psd_matrix A /\
    forall i, (i < 3)%nat -> - (1 / 2) <= nth i (ip_com p) 0 < 1 / 2.
Proof.
  intros [U1 U2] [Lc Hc] HA. pose proof (random_psd_psd 3 A ltac:(lia) HA) as HP.
  unfold ip_random, ip_init. rewrite (proj2 (Rleb_iff _ _)) by lra. cbn [assert_ bind]. eexists. split; [reflexivity|]. cbn [ip_mass ip_com ip_H].
  set (m := 1 / 10 + u * (9 / 10)) in *. assert (Hm : 1 / 10 <= m < 1) by (unfold m; lra). set (H0 := random_psd_matrix A) in *. clearbody m H0.
  assert (Lm : length (map (fun a => a - 1 / 2) c) = 3%nat) by (rewrite map_length; auto).
  split; [|split; [lra|split; [apply ip_psd_of_central; auto; lra|split]]].
  - destruct (sym3_form _ HP) as (a & b & c' & d & e & f & ->). revert Lm. generalize (map (fun a => a - 1 / 2) c). intros com Lm.
    destruct com as [|c1 [|c2 [|c3 [|]]]]; try discriminate Lm. unfold ip_ok. cbn. repeat split; auto; repeat constructor.
  - destruct (sym3_form _ HP) as (a & b & c' & d & e & f & ->). revert Lm. generalize (map (fun a => a - 1 / 2) c). intros com Lm.
    destruct com as [|c1 [|c2 [|c3 [|]]]]; try discriminate Lm. unfold ip_Hc. cbn. list_eq; ring.
  - intros i Hi. rewrite (nth_indep _ 0 (0 - 1 / 2)) by (rewrite map_length; lia). rewrite (map_nth (fun a => a - 1 / 2)). destruct (Hc (nth i c 0)); [apply nth_In; lia|]. lra.
Qed.
