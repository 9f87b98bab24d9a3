(** C28: axis-aligned bounding boxes. *)
From Verif Require Import Base.Vec Base.VecFacts Spec.Basic Spec.Shapes Spec.ShapeObjects Spec.PolySpec
  Model.Util Model.Inertial Model.Polydd Model.Poly Model.Ellipsoid Model.Box Model.Cylinder
  Proofs.Coord Proofs.Hull Proofs.BoxP Proofs.EllP Proofs.CylP Proofs.DDP Proofs.PolyP Proofs.ConsistentP.

Definition interval (lo hi p : vec) : Prop :=
  length p = 3%nat /\ forall i, (i < 3)%nat -> nth i lo 0 <= nth i p 0 <= nth i hi 0.
Lemma axis_box_set h c p : length h = 3%nat -> length c = 3%nat -> length p = 3%nat ->
  (box_set h (eye 3) c p <-> forall i, (i < 3)%nat -> Rabs (nth i p 0 - nth i c 0) <= nth i h 0).
Proof.
  intros Lh Lc Lp. split.
  - intros (u & [Lu Hu] & ->) i Hi. unfold move. rewrite mat_vec_eye by congruence. rewrite nth_vadd by congruence.
    replace (nth i u 0 + nth i c 0 - nth i c 0) with (nth i u 0) by ring. apply Hu. lia.
  - intro H. exists (vsub p c). split.
    + split; [rewrite vsub_length; congruence|]. intros i Hi. rewrite nth_vsub by congruence. apply H. lia.
    + unfold move. rewrite mat_vec_eye by (rewrite vsub_length; congruence). symmetry. apply vadd_vsub. congruence.
Qed.
Lemma tight_box_set K b : tight_box K b -> forall p, K p -> length p = 3%nat -> box_set (b_half b) (b_rot b) (b_center b) p.
Proof. intros (E & L1 & L2 & H & _) p Hp Lp. rewrite E. apply axis_box_set; auto. Qed.
(** a touching box is the smallest axis-aligned box *)
Lemma tight_box_least K b h c : tight_box K b -> length h = 3%nat -> length c = 3%nat ->
  (forall p, K p -> length p = 3%nat -> box_set h (eye 3) c p) ->
  forall p, length p = 3%nat -> box_set (b_half b) (b_rot b) (b_center b) p -> box_set h (eye 3) c p.
Proof.
  intros (E & L1 & L2 & _ & T) Lh Lc HK p Lp Hp. rewrite E in Hp. rewrite axis_box_set in * by auto. intros i Hi.
  destruct (T i Hi) as [(u & Ku & Lu & Eu) (v & Kv & Lv & Ev)]. specialize (Hp i Hi).
  pose proof (HK u Ku Lu) as Hu. pose proof (HK v Kv Lv) as Hv. rewrite axis_box_set in Hu, Hv by auto.
  specialize (Hu i Hi). specialize (Hv i Hi). apply abs_le_inv in Hu, Hv, Hp. apply Rabs_le. lra.
Qed.
Lemma tight_contains K b h c r : box_init h c r = Ok b -> tight_box K b -> forall p, K p -> length p = 3%nat -> box_contains b p 0 = true.
Proof.
  intros H T p Kp Lp. apply box_contains_iff; auto.
  - exists h, c, r; auto.
  - destruct T as (-> & _). apply orthogonal_eye. lia.
  - apply (tight_box_set K); auto.
Qed.

(** ** from_two_vertices *)
Lemma two_vertices v1 v2 : length v1 = 3%nat -> length v2 = 3%nat -> exists b, box_from_two_vertices v1 v2 = Ok b /\
  b_rot b = eye 3 /\ length (b_center b) = 3%nat /\ length (b_half b) = 3%nat /\
  forall i, (i < 3)%nat -> nth i (b_center b) 0 + nth i (b_half b) 0 = Rmax (nth i v1 0) (nth i v2 0) /\
                          nth i (b_center b) 0 - nth i (b_half b) 0 = Rmin (nth i v1 0) (nth i v2 0).
Proof.
  intros L1 L2. unfold box_from_two_vertices.
  set (h := vscale (1 / 2) (vsub (map2 Rmax v1 v2) (map2 Rmin v1 v2))). set (c := vscale (1 / 2) (vadd v1 v2)).
  destruct (len3_inv _ L1) as (a & b & d & ->). destruct (len3_inv _ L2) as (a' & b' & d' & ->).
  assert (MM : forall x y, Rmin x y <= Rmax x y /\ Rmax x y + Rmin x y = x + y).
  { intros x y. unfold Rmin, Rmax. destruct (Rle_dec x y); lra. }
  destruct (box_init_good h (Some c) None) as (bx & Hb).
  - reflexivity.
  - intros i Hi. destruct i as [|[|[|i]]]; [| | |lia]; cbn; pose proof (MM a a'); pose proof (MM b b'); pose proof (MM d d'); lra.
  - apply is_mat_eye.
  - reflexivity.
  - exists bx. split; [exact Hb|]. apply box_init_inv in Hb as (_ & _ & E1 & E2 & E3 & _). rewrite E1, E2, E3.
    split; [reflexivity|]. split; [reflexivity|]. split; [reflexivity|].
    intros i Hi. destruct i as [|[|[|i]]]; [| | |lia]; cbn; pose proof (MM a a'); pose proof (MM b b'); pose proof (MM d d'); lra.
Qed.
(** ** from_points_to_bound *)

Lemma tight_extend (K K' : vec -> Prop) b : tight_box K b -> (forall p, K p -> K' p) ->
  (forall p, K' p -> length p = 3%nat -> forall i, (i < 3)%nat -> Rabs (nth i p 0 - nth i (b_center b) 0) <= nth i (b_half b) 0) ->
  tight_box K' b.
Proof.
  intros (E & L1 & L2 & H & T) S1 S2. split; [auto|]. split; [auto|]. split; [auto|]. split; [auto|].
  intros i Hi. destruct (T i Hi) as [(p & A & B) (q & C & D)]. split; [exists p|exists q]; auto.
Qed.
Lemma tight_iff (K K' : vec -> Prop) b : (forall p, length p = 3%nat -> (K p <-> K' p)) -> tight_box K b -> tight_box K' b.
Proof.
  intros HK (E & L1 & L2 & H & T). split; [auto|]. split; [auto|]. split; [auto|]. split.
  - intros p Kp Lp. apply H; auto. apply HK; auto.
  - intros i Hi. destruct (T i Hi) as [(p & A & B & C) (q & D & F & G)]. split; [exists p|exists q]; split; auto; apply HK; auto.
Qed.
Lemma axis_box_convex c h : convex (fun p => forall i, (i < 3)%nat -> Rabs (nth i p 0 - nth i c 0) <= nth i h 0).
Proof.
  intros p q t L Hp Hq Ht i Hi. rewrite nth_vadd, !nth_vscale by (rewrite !vscale_length; auto).
  replace ((1 - t) * nth i p 0 + t * nth i q 0 - nth i c 0) with ((1 - t) * (nth i p 0 - nth i c 0) + t * (nth i q 0 - nth i c 0)) by ring.
  apply abs_conv; auto.
Qed.
Lemma tight_hull P b : rows_len 3 P -> tight_box (fun p => In p P) b -> tight_box (in_hull 3 P) b.
Proof.
  intros RP T. apply (tight_extend (fun p => In p P)); auto.
  - intros p Hp. apply hull_vertex; auto.
  - intros p Hp Lp. apply (hull_in_convex 3 (fun p => forall i, (i < 3)%nat -> Rabs (nth i p 0 - nth i (b_center b) 0) <= nth i (b_half b) 0) P); auto.
    + apply axis_box_convex.
    + intros v Hv. destruct T as (_ & _ & _ & H & _). apply H; auto.
Qed.
Lemma col_stat (f : vec -> R) P i : rows_len 3 P -> P <> [] -> (i < 3)%nat -> nth i (map f (transpose P)) 0 = f (col i P).
Proof.
  intros RP NP Hi. assert (NC : ncols P = 3%nat) by (destruct P as [|v P]; [congruence|]; apply RP; now left).
  rewrite (nth_map_0 f _ _ []) by (rewrite transpose_length, NC; auto). rewrite nth_transpose by (rewrite NC; auto). reflexivity.
Qed.
Lemma in_col P i x : In x (col i P) <-> exists p, In p P /\ nth i p 0 = x.
Proof. unfold col. rewrite in_map_iff. split; intros (p & A & B); exists p; auto. Qed.
Lemma bound_points P : rows_len 3 P -> P <> [] -> exists b, box_from_points_to_bound P = Ok b /\ tight_box (fun p => In p P) b.
Proof.
  intros RP NP. assert (NC : ncols P = 3%nat) by (destruct P as [|v P]; [congruence|]; apply RP; now left).
  assert (E : box_from_points_to_bound P = box_from_two_vertices (col_min P) (col_max P)) by (destruct P; [congruence|reflexivity]).
  rewrite E. destruct (two_vertices (col_min P) (col_max P)) as (b & Hb & ER & LC & LH & HB).
  { unfold col_min. rewrite map_length, transpose_length. exact NC. }
  { unfold col_max. rewrite map_length, transpose_length. exact NC. }
  exists b. split; [exact Hb|].
  assert (NCol : forall i, col i P <> []) by (intros i E'; apply map_eq_nil in E'; auto).
  assert (MN : forall i, (i < 3)%nat -> nth i (col_min P) 0 = lmin (col i P)) by (intros; apply col_stat; auto).
  assert (MX : forall i, (i < 3)%nat -> nth i (col_max P) 0 = lmax (col i P)) by (intros; apply col_stat; auto).
  assert (LE : forall i, lmin (col i P) <= lmax (col i P)).
  { intro i. apply lmax_ge, lmin_in. auto. }
  assert (HB' : forall i, (i < 3)%nat -> nth i (b_center b) 0 + nth i (b_half b) 0 = lmax (col i P) /\ nth i (b_center b) 0 - nth i (b_half b) 0 = lmin (col i P)).
  { intros i Hi. destruct (HB i Hi) as [A B]. rewrite A, B, MN, MX by auto. specialize (LE i).
    rewrite Rmax_right, Rmin_left by auto. auto. }
  split; [auto|]. split; [auto|]. split; [auto|]. split.
  - intros p Hp Lp i Hi. destruct (HB' i Hi) as [A B].
    assert (IN : In (nth i p 0) (col i P)) by (apply in_col; eauto).
    pose proof (lmin_le _ _ IN). pose proof (lmax_ge _ _ IN). apply Rabs_le. lra.
  - intros i Hi. destruct (HB' i Hi) as [A B]. split.
    + destruct (proj1 (in_col P i _) (lmax_in _ (NCol i))) as (p & Hp & Ep). exists p. split; [auto|]. split; [auto|]. lra.
    + destruct (proj1 (in_col P i _) (lmin_in _ (NCol i))) as (p & Hp & Ep). exists p. split; [auto|]. split; [auto|]. lra.
Qed.
Lemma bound_points_tight P b : rows_len 3 P -> box_from_points_to_bound P = Ok b -> tight_box (fun p => In p P) b.
Proof.
  intros RP H. assert (NP : P <> []) by (intros ->; discriminate). destruct (bound_points P RP NP) as (b' & Hb & T).
  rewrite Hb in H. injection H as <-. exact T.
Qed.
Lemma poly_aabb_tight p b : poly_ok 3 p -> poly_aabb p = Ok b -> tight_box (in_hull 3 (p_vertices p)) b.
Proof.
  intros OK H. destruct (poly_ok_vertices _ _ OK) as (_ & RV & _). apply tight_hull; auto. apply bound_points_tight; auto.
Qed.
Lemma poly_aabb_total p : poly_ok 3 p -> exists b, poly_aabb p = Ok b.
Proof.
  intros OK. destruct (poly_ok_vertices _ _ OK) as (NV & RV & _). destruct (bound_points _ RV NV) as (b & Hb & _). eauto.
Qed.

(** ** ellipsoids *)
Lemma e_E_diag e i : length (e_half e) = 3%nat -> is_mat 3 3 (e_rot e) -> (i < 3)%nat ->
  nth i (diagonal (e_E e)) 0 = dot (vmul (e_half e) (nth i (e_rot e) [])) (vmul (e_half e) (nth i (e_rot e) [])).
Proof.
  intros L M Hi. unfold e_E. destruct (len3_inv _ L) as (x & y & z & ->). destruct (mat33_inv _ M) as (? & ? & ? & ? & ? & ? & ? & ? & ? & ->).
  destruct i as [|[|[|i]]]; [| | |lia]; cbn; ring.
Qed.
Lemma nth_move Q c u i : (i < length Q)%nat -> length c = length Q -> nth i (move Q c u) 0 = dot (nth i Q []) u + nth i c 0.
Proof. intros Hi Lc. unfold move. rewrite nth_vadd by (rewrite mat_vec_length; auto). rewrite nth_mat_vec. reflexivity. Qed.
Lemma dot_vmul_swap n a h u : length a = n -> length h = n -> length u = n -> dot a (vmul h u) = dot (vmul h a) u.
Proof.
  intros La Lh Lu. rewrite !(dot_rsum n) by (rewrite ?vmul_length; congruence). apply rsum_ext. intros i Hi. rewrite !nth_vmul by congruence. ring.
Qed.
(** the extreme points of an ellipsoid along a coordinate axis *)
Lemma ell_extent h Q c i s : length h = 3%nat -> is_mat 3 3 Q -> length c = 3%nat -> (i < 3)%nat -> s = 1 \/ s = -1 ->
  (forall p, ell_set h Q c p -> Rabs (nth i p 0 - nth i c 0) <= norm (vmul h (nth i Q []))) /\
  exists p, ell_set h Q c p /\ length p = 3%nat /\ nth i p 0 = nth i c 0 + s * norm (vmul h (nth i Q [])).
Proof.
  intros Lh M Lc Hi Hs. assert (Lq : length (nth i Q []) = 3%nat) by (apply (is_mat_row 3 3); auto).
  assert (LQ : length Q = 3%nat) by apply M. set (a := vmul h (nth i Q [])).
  assert (La : length a = 3%nat) by (unfold a; rewrite vmul_length; congruence). split.
  - intros p (u & Lu & Hu & ->). rewrite nth_move by congruence. rewrite (dot_vmul_swap 3) by congruence. fold a.
    replace (dot a u + nth i c 0 - nth i c 0) with (dot a u) by ring.
    eapply Rle_trans; [apply cauchy_schwarz_norm|]. rewrite <- (Rmult_1_r (norm a)) at 2. apply Rmult_le_compat_l; [apply norm_nonneg|].
    apply norm_le_iff; lra.
  - destruct (Req_EM_T (norm a) 0) as [E|E].
    + exists (move Q c (vmul h (zeros 3))). split; [|split].
      * exists (zeros 3). split; [rewrite Lh; reflexivity|]. split; [rewrite dot_zeros_l; lra|reflexivity].
      * apply (move_len 3); auto.
      * rewrite nth_move by congruence. rewrite (dot_vmul_swap 3) by (auto using zeros_length). rewrite dot_zeros_r, E. ring.
    + exists (move Q c (vmul h (vscale (s / norm a) a))). split; [|split].
      * exists (vscale (s / norm a) a). split; [rewrite vscale_length; congruence|]. split; [|reflexivity].
        rewrite dot_vscale_l, dot_vscale_r, <- norm_sqr. replace (s / norm a * (s / norm a * (norm a * norm a))) with (s * s) by (field; auto).
        destruct Hs as [->| ->]; lra.
      * apply (move_len 3); auto.
      * rewrite nth_move by congruence. rewrite (dot_vmul_swap 3) by (rewrite ?vscale_length; congruence). fold a. rewrite dot_vscale_r, <- norm_sqr. field. auto.
Qed.
Lemma ell_aabb_good h r c e : ell_init h r c = Ok e -> length h = 3%nat -> exists b, ell_aabb e = Ok b /\
  tight_box (ell_set h (pose_rot 3 r) (pose_tr 3 c)) b.
Proof.
  intros H Lh. apply ell_init_inv in H as (NN & E1 & E2 & E3 & M & LC). rewrite Lh in *.
  assert (LE : length (diagonal (e_E e)) = 3%nat) by (unfold diagonal, e_E; rewrite map_length, seq_length, !mat_mul_length; apply M).
  unfold ell_aabb. set (s := map sqrt (diagonal (e_E e))). assert (Ls : length s = 3%nat) by (unfold s; rewrite map_length; auto).
  destruct (two_vertices (vsub (e_center e) s) (vadd (e_center e) s)) as (b & Hb & ER & L1 & L2 & HB).
  { rewrite vsub_length; congruence. }
  { rewrite vadd_length; congruence. }
  exists b. split; [exact Hb|].
  assert (Si : forall i, (i < 3)%nat -> nth i s 0 = norm (vmul h (nth i (pose_rot 3 r) []))).
  { intros i Hi. unfold s. rewrite (nth_map_0 sqrt _ _ 0) by congruence. rewrite e_E_diag by (auto; congruence). rewrite E1, E2. reflexivity. }
  assert (HB' : forall i, (i < 3)%nat -> nth i (b_center b) 0 = nth i (pose_tr 3 c) 0 /\ nth i (b_half b) 0 = norm (vmul h (nth i (pose_rot 3 r) []))).
  { intros i Hi. destruct (HB i Hi) as [A B]. rewrite nth_vsub, nth_vadd in A, B by congruence. rewrite E3, Si in A, B by auto.
    pose proof (norm_nonneg (vmul h (nth i (pose_rot 3 r) []))) as NP. rewrite Rmax_right in A by lra. rewrite Rmin_left in B by lra. lra. }
  split; [auto|]. split; [auto|]. split; [auto|]. rewrite E2 in M. rewrite E3 in LC. split.
  - intros p Hp Lp i Hi. destruct (HB' i Hi) as [-> ->]. apply (ell_extent h _ _ i 1); auto.
  - intros i Hi. destruct (HB' i Hi) as [-> ->]. split.
    + destruct (ell_extent h (pose_rot 3 r) (pose_tr 3 c) i 1 Lh M LC Hi ltac:(auto)) as [_ (p & A & B & C)]. exists p. rewrite C. repeat split; auto. ring.
    + destruct (ell_extent h (pose_rot 3 r) (pose_tr 3 c) i (-1) Lh M LC Hi ltac:(auto)) as [_ (p & A & B & C)]. exists p. rewrite C. repeat split; auto. ring.
Qed.
Lemma ell_aabb_tight h r c e b : ell_init h r c = Ok e -> length h = 3%nat -> ell_aabb e = Ok b ->
  tight_box (ell_set h (pose_rot 3 r) (pose_tr 3 c)) b.
Proof. intros H L Hb. destruct (ell_aabb_good h r c e H L) as (b' & Hb' & T). rewrite Hb in Hb'. injection Hb' as <-. exact T. Qed.

(** ** the union of two tight boxes *)
Lemma tight_vertices K b h c r : box_init h c r = Ok b -> tight_box K b -> rows_len 3 (b_vertices b) /\ b_vertices b <> [] /\
  (forall i, (i < 3)%nat -> (exists v, In v (b_vertices b) /\ nth i v 0 = nth i (b_center b) 0 + nth i (b_half b) 0) /\
                           (exists v, In v (b_vertices b) /\ nth i v 0 = nth i (b_center b) 0 - nth i (b_half b) 0)) /\
  (forall v i, In v (b_vertices b) -> (i < 3)%nat -> Rabs (nth i v 0 - nth i (b_center b) 0) <= nth i (b_half b) 0).
Proof.
  intros H T. assert (HQ : orthogonal 3 (pose_rot 3 r)).
  { destruct T as (E & _). apply box_init_inv in H as (_ & _ & _ & _ & E3 & _). rewrite <- E3, E. apply orthogonal_eye. lia. }
  destruct (poly_ok_vertices 3 (b_poly b) (proj1 (box_agree h c r b H HQ))) as (NV & RV & _).
  change (p_vertices (b_poly b)) with (b_vertices b) in *. split; [auto|]. split; [auto|].
  assert (IB : is_box b) by (exists h, c, r; auto). destruct T as (E & L1 & L2 & _ & _).
  assert (HS : forall v i, In v (b_vertices b) -> (i < 3)%nat -> Rabs (nth i v 0 - nth i (b_center b) 0) <= nth i (b_half b) 0).
  { intros v i Hv Hi. assert (HV : in_hull 3 (b_vertices b) v) by (apply hull_vertex; auto).
    apply box_hull_iff in HV; auto. rewrite E in HV. rewrite axis_box_set in HV; auto. }
  split; [|exact HS]. intros i Hi.
  (* a corner of the box is attained by a vertex: the coordinate is a weighted mean of the vertices *)
  assert (K1 : forall s, s = 1 \/ s = -1 -> exists v, In v (b_vertices b) /\ nth i v 0 = nth i (b_center b) 0 + s * nth i (b_half b) 0).
  { intros s Hs. set (p := vadd (b_center b) (vscale s (b_half b))).
    assert (Lp : length p = 3%nat) by (unfold p; rewrite vadd_length; rewrite ?vscale_length; congruence).
    assert (NN : forall j, (j < 3)%nat -> 0 <= nth j (b_half b) 0) by (apply box_init_inv in H as (_ & NN & -> & _); exact NN).
    assert (HP : in_hull 3 (b_vertices b) p).
    { apply box_hull_iff; auto. rewrite E. apply axis_box_set; auto. intros j Hj. unfold p.
      rewrite nth_vadd, nth_vscale by (rewrite vscale_length; congruence).
      replace (nth j (b_center b) 0 + s * nth j (b_half b) 0 - nth j (b_center b) 0) with (s * nth j (b_half b) 0) by ring.
      specialize (NN j Hj). apply Rabs_le. destruct Hs as [->| ->]; lra. }
    assert (HP2 : nth i p 0 = nth i (b_center b) 0 + s * nth i (b_half b) 0).
    { unfold p. rewrite nth_vadd, nth_vscale by (rewrite vscale_length; congruence). reflexivity. }
    (* otherwise every vertex is strictly on one side *)
    destruct (in_dec (fun x y => Req_EM_T x y) (nth i (b_center b) 0 + s * nth i (b_half b) 0) (map (fun v => nth i v 0) (b_vertices b))) as [I|NI].
    - apply in_map_iff in I as (v & Ev & Hv). eauto.
    - exfalso. assert (ST : forall v, In v (b_vertices b) -> s * (nth i v 0 - nth i (b_center b) 0) < nth i (b_half b) 0).
      { intros v Hv. specialize (HS v i Hv Hi). apply abs_le_inv in HS.
        assert (nth i v 0 <> nth i (b_center b) 0 + s * nth i (b_half b) 0).
        { intro X. apply NI. rewrite <- X. apply (in_map (fun v => nth i v 0)); auto. }
        destruct Hs as [->| ->]; [|destruct (Rtotal_order (nth i v 0) (nth i (b_center b) 0 + -1 * nth i (b_half b) 0)) as [|[|]]; lra].
        destruct (Rtotal_order (nth i v 0) (nth i (b_center b) 0 + 1 * nth i (b_half b) 0)) as [|[|]]; lra. }
      assert (SP : s * (nth i p 0 - nth i (b_center b) 0) < nth i (b_half b) 0).
      { apply (hull_in_convex 3 (fun v => s * (nth i v 0 - nth i (b_center b) 0) < nth i (b_half b) 0) (b_vertices b)); auto.
        intros u v t Luv Hu Hv Ht. rewrite nth_vadd, !nth_vscale by (rewrite !vscale_length; auto).
        set (a := nth i u 0) in *. set (d := nth i v 0) in *. set (m := nth i (b_center b) 0) in *. set (hh := nth i (b_half b) 0) in *.
        replace (s * ((1 - t) * a + t * d - m)) with ((1 - t) * (s * (a - m)) + t * (s * (d - m))) by ring.
        destruct (Req_EM_T t 0) as [->|]; [lra|]. assert (0 < t) by lra. nra. }
      rewrite HP2 in SP. destruct Hs as [->| ->]; lra. }
  split.
  - destruct (K1 1 ltac:(auto)) as (v & Hv & Ev). exists v. split; [auto|]. lra.
  - destruct (K1 (-1) ltac:(auto)) as (v & Hv & Ev). exists v. split; [auto|]. lra.
Qed.
Lemma tight_union K1 K2 b1 b2 h1 c1 r1 h2 c2 r2 b : box_init h1 c1 r1 = Ok b1 -> box_init h2 c2 r2 = Ok b2 ->
  tight_box K1 b1 -> tight_box K2 b2 -> box_from_points_to_bound (b_vertices b1 ++ b_vertices b2) = Ok b ->
  tight_box (fun p => K1 p \/ K2 p) b.
Proof.
  intros H1 H2 T1 T2 H. destruct (tight_vertices K1 b1 _ _ _ H1 T1) as (RV1 & NV1 & A1 & B1).
  destruct (tight_vertices K2 b2 _ _ _ H2 T2) as (RV2 & NV2 & A2 & B2).
  assert (RV : rows_len 3 (b_vertices b1 ++ b_vertices b2)) by (intros v Hv; apply in_app_or in Hv as [Hv|Hv]; auto).
  apply bound_points_tight in H as (E & L1 & L2 & HB & HT); auto.
  destruct T1 as (_ & _ & _ & S1 & U1), T2 as (_ & _ & _ & S2 & U2).
  assert (UP : forall i, (i < 3)%nat -> nth i (b_center b1) 0 + nth i (b_half b1) 0 <= nth i (b_center b) 0 + nth i (b_half b) 0 /\
     nth i (b_center b2) 0 + nth i (b_half b2) 0 <= nth i (b_center b) 0 + nth i (b_half b) 0 /\
     nth i (b_center b) 0 - nth i (b_half b) 0 <= nth i (b_center b1) 0 - nth i (b_half b1) 0 /\
     nth i (b_center b) 0 - nth i (b_half b) 0 <= nth i (b_center b2) 0 - nth i (b_half b2) 0).
  { intros i Hi. destruct (A1 i Hi) as [(v1 & I1 & E1) (w1 & J1 & F1)]. destruct (A2 i Hi) as [(v2 & I2 & E2) (w2 & J2 & F2)].
    pose proof (HB v1 (in_or_app _ _ _ (or_introl I1)) (RV1 _ I1) i Hi) as X1. pose proof (HB w1 (in_or_app _ _ _ (or_introl J1)) (RV1 _ J1) i Hi) as X2.
    pose proof (HB v2 (in_or_app _ _ _ (or_intror I2)) (RV2 _ I2) i Hi) as X3. pose proof (HB w2 (in_or_app _ _ _ (or_intror J2)) (RV2 _ J2) i Hi) as X4.
    apply abs_le_inv in X1, X2, X3, X4. lra. }
  split; [auto|]. split; [auto|]. split; [auto|]. split.
  - intros p [Kp|Kp] Lp i Hi; destruct (UP i Hi) as (U3 & U4 & U5 & U6).
    + specialize (S1 p Kp Lp i Hi). apply abs_le_inv in S1. apply Rabs_le. lra.
    + specialize (S2 p Kp Lp i Hi). apply abs_le_inv in S2. apply Rabs_le. lra.
  - intros i Hi. destruct (UP i Hi) as (U3 & U4 & U5 & U6). destruct (HT i Hi) as [(v & Iv & Lv & Ev) (w & Iw & Lw & Ew)]. split.
    + apply in_app_or in Iv as [Iv|Iv].
      * specialize (B1 v i Iv Hi). apply abs_le_inv in B1. destruct (U1 i Hi) as [(p & Kp & Lp & Ep) _]. exists p. split; [auto|]. split; [auto|]. lra.
      * specialize (B2 v i Iv Hi). apply abs_le_inv in B2. destruct (U2 i Hi) as [(p & Kp & Lp & Ep) _]. exists p. split; [auto|]. split; [auto|]. lra.
    + apply in_app_or in Iw as [Iw|Iw].
      * specialize (B1 w i Iw Hi). apply abs_le_inv in B1. destruct (U1 i Hi) as [_ (p & Kp & Lp & Ep)]. exists p. split; [auto|]. split; [auto|]. lra.
      * specialize (B2 w i Iw Hi). apply abs_le_inv in B2. destruct (U2 i Hi) as [_ (p & Kp & Lp & Ep)]. exists p. split; [auto|]. split; [auto|]. lra.
Qed.
Lemma ell_aabb_box e b : ell_aabb e = Ok b -> exists h c, box_init h (Some c) None = Ok b.
Proof. unfold ell_aabb, box_from_two_vertices. eauto. Qed.
(** a convex combination of points of K lies in a tight box of K *)
Lemma tight_comb K b p q t : tight_box K b -> K p -> K q -> length p = 3%nat -> length q = 3%nat -> 0 <= t <= 1 ->
  forall i, (i < 3)%nat -> Rabs (nth i (vadd (vscale (1 - t) p) (vscale t q)) 0 - nth i (b_center b) 0) <= nth i (b_half b) 0.
Proof.
  intros (_ & _ & _ & H & _) Kp Kq Lp Lq Ht. apply (axis_box_convex (b_center b) (b_half b) p q t); auto. congruence.
Qed.

(** ** cylinders *)
Lemma disk_cyl L r Q c x y z s : 0 <= L -> 0 <= r -> is_mat 3 3 Q -> length c = 3%nat -> Rabs z <= L / 2 -> s = z ->
  x * x + y * y <= r * r -> cyl_set L r Q c (move Q c [x; y; s]).
Proof. intros. subst s. exists x, y, z. auto. Qed.
Lemma ell_disk r Q c z p : 0 <= r -> is_mat 3 3 Q -> length c = 3%nat ->
  (ell_set [r; r; 0] Q (move Q c [0; 0; z]) p <-> exists x y, x * x + y * y <= r * r /\ p = move Q c [x; y; z]).
Proof.
  intros Hr M Lc.
  assert (MV : forall x y, move Q (move Q c [0; 0; z]) [x; y; 0] = move Q c [x; y; z]).
  { intros x y. destruct (mat33_inv _ M) as (? & ? & ? & ? & ? & ? & ? & ? & ? & ->). destruct (len3_inv _ Lc) as (? & ? & ? & ->). cbn. list_eq; ring. }
  split.
  - intros (u & Lu & Hu & ->). destruct (len3_inv _ Lu) as (a & b & d & ->). exists (r * a), (r * b). split.
    + cbn in Hu. assert (0 <= d * d) by apply sqr_nonneg. replace (r * a * (r * a) + r * b * (r * b)) with (r * r * (a * a + b * b)) by ring.
      rewrite <- (Rmult_1_r (r * r)) at 2. apply Rmult_le_compat_l; [apply sqr_nonneg|lra].
    + rewrite <- (MV (r * a)). replace (vmul [r; r; 0] [a; b; d]) with [r * a; r * b; 0] by (cbn; list_eq; ring). reflexivity.
  - intros (x & y & H & ->). destruct (Req_EM_T r 0) as [->|Nr].
    + assert (x = 0 /\ y = 0) as [-> ->].
      { pose proof (sqr_nonneg x). pose proof (sqr_nonneg y). split; apply Rsqr_0_uniq; unfold Rsqr; lra. }
      exists [0; 0; 0]. split; [reflexivity|]. split; [cbn; lra|]. replace (vmul [0; 0; 0] [0; 0; 0]) with [0; 0; 0] by (cbn; list_eq; ring). symmetry. apply MV.
    + exists [x / r; y / r; 0]. split; [reflexivity|]. split.
      * cbn. replace (x / r * (x / r) + (y / r * (y / r) + (0 * 0 + 0))) with ((x * x + y * y) / (r * r)) by (field; auto).
        apply div_le_iff; [|lra]. assert (0 < r) by lra. apply Rmult_lt_0_compat; auto.
      * rewrite <- (MV x). f_equal. cbn. list_eq; field; auto.
Qed.
Lemma cyl_aabb_tight L r ro co c b : cyl_init L r ro co = Ok c -> cyl_aabb c = Ok b ->
  tight_box (cyl_set L r (pose_rot 3 ro) (pose_tr 3 co)) b.
Proof.
  intros H Hb. apply cyl_init_inv in H as (HL & Hr & M & LC & ->). set (Q := pose_rot 3 ro) in *. set (c := pose_tr 3 co) in *.
  unfold cyl_aabb in Hb. rewrite endpoints_eq in Hb by auto. cbn [c_rot c_radius cyl_of] in Hb.
  apply bind_inv in Hb as (d1 & Hd1 & Hb). apply bind_inv in Hb as (d2 & Hd2 & Hb). apply bind_inv in Hb as (a1 & Ha1 & Hb). apply bind_inv in Hb as (a2 & Ha2 & Hb).
  pose proof (ell_aabb_tight _ _ _ _ _ Hd1 eq_refl Ha1) as T1. pose proof (ell_aabb_tight _ _ _ _ _ Hd2 eq_refl Ha2) as T2. cbn [pose_rot pose_tr] in T1, T2.
  destruct (ell_aabb_box _ _ Ha1) as (h1 & c1 & B1). destruct (ell_aabb_box _ _ Ha2) as (h2 & c2 & B2).
  pose proof (tight_union _ _ _ _ _ _ _ _ _ _ _ B1 B2 T1 T2 Hb) as T.
  assert (LL : 0 <= L / 2) by lra.
  apply (tight_extend _ (cyl_set L r Q c)) in T; [exact T| |].
  - intros p [Hp|Hp]; unfold end1, end2 in Hp; apply ell_disk in Hp as (x & y & Hxy & ->); auto.
    + apply (disk_cyl L r Q c x y (L / 2)); auto. rewrite Rabs_pos_eq; lra.
    + apply (disk_cyl L r Q c x y (- (L / 2))); auto. rewrite Rabs_Ropp, Rabs_pos_eq; lra.
  - intros p (x & y & z & Hxy & Hz & ->) Lp. 
    assert (EX : exists t, 0 <= t <= 1 /\ z = (1 - t) * (L / 2) + t * - (L / 2)).
    { destruct (Req_EM_T L 0) as [->|NL].
      - exists 0. split; [lra|]. apply abs_le_inv in Hz. lra.
      - apply abs_le_inv in Hz. exists ((L / 2 - z) / L). assert (0 < L) by lra. split; [|field; lra].
        split; [apply Rmult_le_pos; [lra|left; apply Rinv_0_lt_compat; auto]|]. apply div_le_iff; lra. }
    destruct EX as (t & Ht & Ez).
    assert (EP : move Q c [x; y; z] = vadd (vscale (1 - t) (move Q c [x; y; L / 2])) (vscale t (move Q c [x; y; - (L / 2)]))).
    { rewrite Ez. clear - M LC. destruct (mat33_inv _ M) as (? & ? & ? & ? & ? & ? & ? & ? & ? & ->). destruct (len3_inv _ LC) as (? & ? & ? & ->). cbn. list_eq; ring. }
    rewrite EP. apply (tight_comb _ b _ _ t T); auto; try (apply (move_len 3); auto).
    + left. apply ell_disk; auto. eauto.
    + right. apply ell_disk; auto. eauto.
Qed.
Lemma cyl_aabb_total L r ro co c : cyl_init L r ro co = Ok c -> exists b, cyl_aabb c = Ok b.
Proof.
  intro H. apply cyl_init_inv in H as (HL & Hr & M & LC & ->). unfold cyl_aabb. rewrite endpoints_eq by auto. cbn [c_rot c_radius cyl_of].
  assert (HD : forall z, exists d, ell_init [r; r; 0] (Some (pose_rot 3 ro)) (Some (move (pose_rot 3 ro) (pose_tr 3 co) [0; 0; z])) = Ok d).
  { intro z. eexists. apply ell_init_good; [apply nonneg_rr0; auto|exact M|]. cbn [pose_tr]. apply end_len; auto. }
  destruct (HD (L / 2)) as (d1 & H1). destruct (HD (- (L / 2))) as (d2 & H2). unfold end1, end2. rewrite H1. cbn [bind]. rewrite H2. cbn [bind].
  destruct (ell_aabb_good _ _ _ _ H1 eq_refl) as (a1 & A1 & T1). destruct (ell_aabb_good _ _ _ _ H2 eq_refl) as (a2 & A2 & T2).
  rewrite A1. cbn [bind]. rewrite A2. cbn [bind].
  destruct (ell_aabb_box _ _ A1) as (h1 & c1 & B1). destruct (ell_aabb_box _ _ A2) as (h2 & c2 & B2).
  destruct (tight_vertices _ _ _ _ _ B1 T1) as (RV1 & NV1 & _). destruct (tight_vertices _ _ _ _ _ B2 T2) as (RV2 & NV2 & _).
  destruct (bound_points (b_vertices a1 ++ b_vertices a2)) as (b & Hb & _); [|destruct (b_vertices a1); [congruence|discriminate]|eauto].
  intros v Hv. apply in_app_or in Hv as [Hv|Hv]; auto.
Qed.

(** ** capsules *)
Lemma ball3 r a p : 0 <= r -> length a = 3%nat -> length p = 3%nat -> (ell_set [r; r; r] (eye 3) a p <-> norm (vsub p a) <= r).
Proof. intros. change [r; r; r] with (repeat r 3). rewrite ball_set by auto. rewrite norm_le_iff by auto. reflexivity. Qed.
Lemma caps_aabb_spec L r ro co c k : cyl_init L r ro co = Ok c -> caps_init c = Ok k -> orthogonal 3 (pose_rot 3 ro) ->
  exists b a a', caps_aabb k = Ok b /\ cyl_endpoints c = [a; a'] /\ tight_box (caps_set a a' r) b.
Proof.
  intros H Hk HQ. pose proof (caps_inv _ _ _ _ _ _ H Hk) as (HL & Hr & M & LC & ->).
  apply cyl_init_inv in H as (_ & _ & _ & _ & ->). set (Q := pose_rot 3 ro) in *. set (c := pose_tr 3 co) in *.
  unfold caps_aabb, caps_of. cbn [k_caps mapM bind].
  assert (LE : forall z, length (move Q c [0; 0; z]) = 3%nat) by (intro; apply end_len; auto).
  assert (HD : forall a, length a = 3%nat -> ell_init [r; r; r] None (Some a) = Ok (cap_at r a)).
  { intros a La. rewrite ell_init_good; [reflexivity| |apply is_mat_eye|exact La]. intros i Hi. destruct i as [|[|[|i]]]; cbn in *; auto; lia. }
  set (a := end1 L Q c). set (a' := end2 L Q c).
  assert (La : length a = 3%nat) by apply LE. assert (La' : length a' = 3%nat) by apply LE.
  destruct (ell_aabb_good _ _ _ _ (HD a La) eq_refl) as (a1 & A1 & T1). destruct (ell_aabb_good _ _ _ _ (HD a' La') eq_refl) as (a2 & A2 & T2).
  rewrite A1. cbn [bind]. rewrite A2. cbn [bind flat_map]. rewrite app_nil_r.
  destruct (ell_aabb_box _ _ A1) as (h1 & c1 & B1). destruct (ell_aabb_box _ _ A2) as (h2 & c2 & B2).
  destruct (tight_vertices _ _ _ _ _ B1 T1) as (RV1 & NV1 & _). destruct (tight_vertices _ _ _ _ _ B2 T2) as (RV2 & NV2 & _).
  destruct (bound_points (b_vertices a1 ++ b_vertices a2)) as (b & Hb & _); [|destruct (b_vertices a1); [congruence|discriminate]|].
  { intros v Hv. apply in_app_or in Hv as [Hv|Hv]; auto. }
  exists b, a, a'. split; [exact Hb|]. split; [apply endpoints_eq; auto|].
  pose proof (tight_union _ _ _ _ _ _ _ _ _ _ _ B1 B2 T1 T2 Hb) as T. cbn [pose_rot pose_tr] in T.
  apply (tight_iff _ (fun p => norm (vsub p a) <= r \/ norm (vsub p a') <= r)) in T.
  2:{ intros p Lp. rewrite !ball3 by auto. reflexivity. }
  apply (tight_extend _ (caps_set a a' r)) in T; [exact T| |].
  - intros p [Hp|Hp].
    + exists a. split; [exists 0; split; [lra|]; vring 3%nat|auto].
    + exists a'. split; [exists 1; split; [lra|]; vring 3%nat|auto].
  - intros p Hp Lp. apply (caps_hull 3) in Hp as (p1 & p2 & t & L1 & L2 & N1 & N2 & Ht & ->); auto.
    apply (tight_comb _ b _ _ t T); auto.
Qed.
Lemma caps_aabb_tight L r ro co c k b : cyl_init L r ro co = Ok c -> caps_init c = Ok k -> orthogonal 3 (pose_rot 3 ro) ->
  caps_aabb k = Ok b -> exists a a', cyl_endpoints c = [a; a'] /\ tight_box (caps_set a a' r) b.
Proof.
  intros H Hk HQ Hb. destruct (caps_aabb_spec L r ro co c k H Hk HQ) as (b' & a & a' & Hb' & E & T).
  rewrite Hb in Hb'. injection Hb' as <-. eauto.
Qed.
