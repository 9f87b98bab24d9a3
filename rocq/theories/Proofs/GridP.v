(** C41: grids. *)
From Verif Require Import Base.Vec Base.VecFacts Spec.Basic Spec.Shapes Spec.ShapeObjects Spec.PolySpec
  Model.Util Model.Polydd Model.Poly Model.Ellipsoid Model.Box Model.Cylinder
  Proofs.Coord Proofs.Hull Proofs.BoxP Proofs.CylP Proofs.DDP Proofs.PolyP.

Lemma linspace_length a b n : length (linspace a b n) = n.
Proof. unfold linspace. rewrite map_length, seq_length. reflexivity. Qed.
Lemma linspace_range a n x : 0 <= a -> In x (linspace (- a) a n) -> Rabs x <= a.
Proof.
  intros Ha H. unfold linspace in H. apply in_map_iff in H as (k & <- & Hk). apply in_seq in Hk.
  apply Rabs_le. destruct n as [|[|n]]; [lia|..].
  - assert (k = 0%nat) by lia. subst k. rewrite Rmult_0_l. lra.
  - replace (S (S n) - 1)%nat with (S n) by lia. assert (Hn : 0 < INR (S n)) by (apply lt_0_INR; lia).
    assert (Hk2 : INR k <= INR (S n)) by (apply le_INR; lia). pose proof (pos_INR k) as Hk0.
    replace (INR k * ((a - - a) / INR (S n))) with (2 * a * (INR k / INR (S n))) by (field; lra).
    assert (0 <= INR k / INR (S n) <= 1).
    { split; [apply Rmult_le_pos; [auto|left; apply Rinv_0_lt_compat; auto]|]. apply (Rmult_le_reg_r (INR (S n))); auto.
      unfold Rdiv. rewrite Rmult_assoc, Rinv_l by lra. lra. }
    split; nra.
Qed.
Lemma flat_map_length_const {A B} (f : A -> list B) k l : (forall a, In a l -> length (f a) = k) -> length (flat_map f l) = (length l * k)%nat.
Proof. induction l as [|a l IH]; intro H; cbn; auto. rewrite app_length, (H a), IH; auto; [intros; apply H; now right|now left]. Qed.
Lemma meshgrid_length x y z : length (meshgrid3 x y z) = (length y * (length x * length z))%nat.
Proof.
  unfold meshgrid3. apply flat_map_length_const. intros b _. apply flat_map_length_const. intros a _. apply map_length.
Qed.
Lemma in_meshgrid x y z p : In p (meshgrid3 x y z) <-> exists a b c, In a x /\ In b y /\ In c z /\ p = [a; b; c].
Proof.
  unfold meshgrid3. split.
  - intro H. apply in_flat_map in H as (b & Hb & H). apply in_flat_map in H as (a & Ha & H). apply in_map_iff in H as (c & <- & Hc).
    exists a, b, c. auto.
  - intros (a & b & c & Ha & Hb & Hc & ->). apply in_flat_map. exists b. split; [auto|]. apply in_flat_map. exists a. split; [auto|].
    apply in_map_iff. eauto.
Qed.
Lemma mesh_rows x y z : rows_len 3 (meshgrid3 x y z).
Proof. intros p Hp. apply in_meshgrid in Hp as (? & ? & ? & _ & _ & _ & ->). reflexivity. Qed.
Lemma box_grid_eq h c r b n1 n2 n3 : box_init h c r = Ok b ->
  box_grid b n1 n2 n3 = map (move (pose_rot 3 r) (pose_tr 3 c))
    (meshgrid3 (linspace (- nth 0 h 0) (nth 0 h 0) n1) (linspace (- nth 1 h 0) (nth 1 h 0) n2) (linspace (- nth 2 h 0) (nth 2 h 0) n3)).
Proof.
  intro H. apply box_init_inv in H as (L & NN & E1 & E2 & E3 & M & LC & _). unfold box_grid. rewrite E1, E2, E3 in *.
  apply (rows_move_eq 3); auto. apply mesh_rows.
Qed.
Lemma box_grid_length h c r b n1 n2 n3 : box_init h c r = Ok b -> length (box_grid b n1 n2 n3) = (n1 * n2 * n3)%nat.
Proof.
  intro H. rewrite (box_grid_eq h c r b) by auto. rewrite map_length, meshgrid_length, !linspace_length. lia.
Qed.
Lemma box_grid_in h c r b n1 n2 n3 p : box_init h c r = Ok b -> In p (box_grid b n1 n2 n3) ->
  length p = 3%nat /\ box_set h (pose_rot 3 r) (pose_tr 3 c) p.
Proof.
  intros H Hp. rewrite (box_grid_eq h c r b) in Hp by auto. apply in_map_iff in Hp as (u & <- & Hu).
  apply in_meshgrid in Hu as (x & y & z & Hx & Hy & Hz & ->).
  apply box_init_inv in H as (L & NN & E1 & E2 & E3 & M & LC & _). rewrite E2 in LC. rewrite E3 in M.
  split; [apply (move_len 3); auto|]. exists [x; y; z]. split; [|reflexivity]. split; [auto|].
  intros i Hi. rewrite L in Hi. destruct i as [|[|[|i]]]; [| | |lia]; cbn [nth];
    (eapply linspace_range; [apply NN; lia|]); eassumption.
Qed.
Lemma box_grid_contained h c r b n1 n2 n3 p tol : box_init h c r = Ok b -> orthogonal 3 (pose_rot 3 r) -> 0 <= tol ->
  In p (box_grid b n1 n2 n3) -> box_contains b p tol = true.
Proof.
  intros H HQ Ht Hp. destruct (box_grid_in h c r b n1 n2 n3 p H Hp) as (Lp & u & Hu & E).
  pose proof H as H'. apply box_init_inv in H' as (L & NN & E1 & E2 & E3 & _).
  apply box_contains_tol; auto; [exists h, c, r; auto|rewrite E3; auto|]. rewrite E1, E2, E3. exists u. split; [|auto].
  destruct Hu as [Lu Hu]. split; [rewrite map_length; auto|]. intros i Hi. rewrite map_length in Hi.
  rewrite (nth_map_0 _ _ _ 0) by auto. specialize (Hu i Hi). lra.
Qed.
Lemma linspace_ends a n : (2 <= n)%nat -> In (- a) (linspace (- a) a n) /\ In a (linspace (- a) a n).
Proof.
  intro Hn. unfold linspace. split; apply in_map_iff.
  - exists 0%nat. split; [change (INR 0) with 0; rewrite Rmult_0_l; ring|apply in_seq; lia].
  - exists (n - 1)%nat. split; [|apply in_seq; lia]. field. apply not_0_INR. lia.
Qed.
(** the corners belong to the grid *)
Lemma box_grid_corners h c r b n1 n2 n3 s1 s2 s3 : box_init h c r = Ok b -> (2 <= n1)%nat -> (2 <= n2)%nat -> (2 <= n3)%nat ->
  (s1 = 1 \/ s1 = -1) -> (s2 = 1 \/ s2 = -1) -> (s3 = 1 \/ s3 = -1) ->
  In (move (pose_rot 3 r) (pose_tr 3 c) [s1 * nth 0 h 0; s2 * nth 1 h 0; s3 * nth 2 h 0]) (box_grid b n1 n2 n3).
Proof.
  intros H H1 H2 H3 S1 S2 S3. rewrite (box_grid_eq h c r b) by auto. apply in_map, in_meshgrid.
  assert (K : forall s a n, (2 <= n)%nat -> s = 1 \/ s = -1 -> In (s * a) (linspace (- a) a n)).
  { intros s a n Hn [->| ->]; destruct (linspace_ends a n Hn) as [A B].
    - rewrite Rmult_1_l. exact B.
    - replace (-1 * a) with (- a) by ring. exact A. }
  exists (s1 * nth 0 h 0), (s2 * nth 1 h 0), (s3 * nth 2 h 0). split; [apply K; auto|]. split; [apply K; auto|]. split; [apply K; auto|]. reflexivity.
Qed.
Lemma select_map_filter {A} (f : A -> bool) l : select (map f l) l = filter f l.
Proof. rewrite <- (map_id l) at 2. rewrite select_map, map_id. reflexivity. Qed.
Lemma ell_grid_eq e n g : shape_grid (ell_aabb e) (fun ps => ell_contains_all e ps default_tol) n = Ok g ->
  (0 < n)%nat /\ exists b, ell_aabb e = Ok b /\ g = filter (fun p => ell_contains e p default_tol) (box_grid b n n n).
Proof.
  unfold shape_grid, grid_of. intro H. apply bind_inv in H as (u & Hu & H). apply assert_inv in Hu. apply Nat.ltb_lt in Hu.
  apply bind_inv in H as (b & Hb & H). injection H as <-. split; [auto|]. exists b. split; [auto|]. apply select_map_filter.
Qed.
Lemma cyl_grid_eq c n g : shape_grid (cyl_aabb c) (fun ps => cyl_contains_all c ps default_tol) n = Ok g ->
  (0 < n)%nat /\ exists b, cyl_aabb c = Ok b /\ g = filter (fun p => cyl_contains c p default_tol) (box_grid b n n n).
Proof.
  unfold shape_grid, grid_of. intro H. apply bind_inv in H as (u & Hu & H). apply assert_inv in Hu. apply Nat.ltb_lt in Hu.
  apply bind_inv in H as (b & Hb & H). injection H as <-. split; [auto|]. exists b. split; [auto|]. apply select_map_filter.
Qed.
Lemma caps_grid_eq k n g : shape_grid (caps_aabb k) (fun ps => caps_contains_all k ps default_tol) n = Ok g ->
  (0 < n)%nat /\ exists b, caps_aabb k = Ok b /\ g = filter (fun p => caps_contains k p default_tol) (box_grid b n n n).
Proof.
  unfold shape_grid, grid_of. intro H. apply bind_inv in H as (u & Hu & H). apply assert_inv in Hu. apply Nat.ltb_lt in Hu.
  apply bind_inv in H as (b & Hb & H). injection H as <-. split; [auto|]. exists b. split; [auto|]. apply select_map_filter.
Qed.
Lemma two_vertices_inv v1 v2 b : box_from_two_vertices v1 v2 = Ok b ->
  exists h c, box_init h (Some c) None = Ok b.
Proof. unfold box_from_two_vertices. eauto. Qed.
Lemma poly_aabb_box p b : poly_aabb p = Ok b -> exists h c, box_init h (Some c) None = Ok b.
Proof.
  unfold poly_aabb, box_from_points_to_bound. destruct (p_vertices p); [discriminate|]. apply two_vertices_inv.
Qed.
Lemma poly_grid_eq p n g : poly_ok 3 p -> grid_of (poly_aabb p) (fun ps => poly_contains_all p ps default_tol) n = Ok g ->
  exists b, poly_aabb p = Ok b /\ g = filter (fun x => poly_contains p x default_tol) (box_grid b n n n).
Proof.
  intros OK H. unfold grid_of in H. apply bind_inv in H as (b & Hb & H). injection H as <-. exists b. split; [auto|].
  destruct (poly_aabb_box p b Hb) as (h & c & HB).
  destruct (poly_ok_vertices _ _ OK) as (_ & _ & ED). destruct OK as (_ & Hm & M & _).
  rewrite poly_contains_all_eq.
  - apply select_map_filter.
  - rewrite ED; auto.
  - auto.
  - rewrite ED; lia.
  - rewrite ED. intros x Hx. apply (box_grid_in h (Some c) None b) in Hx; auto. apply Hx.
Qed.
Lemma shape_grid_zero aabb f : shape_grid aabb f 0 = Raise AssertionError.
Proof. reflexivity. Qed.
