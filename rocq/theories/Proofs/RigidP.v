(** Rigid bodies: sums, transforms, bounding ellipsoids and realizability constraints. *)
From Coq Require Import String.
From Verif Require Import Base.Vec Base.VecFacts Spec.Basic Spec.Objects Spec.Realizable Spec.Shapes Spec.ShapeObjects Spec.PolySpec Spec.DoubleDesc Spec.Bodies
  Model.Util Model.Constraint Model.Inertial Model.Polydd Model.Poly Model.Ellipsoid Model.Box Model.Cylinder Model.Realize Model.RigidBody
  Proofs.Coord Proofs.UtilP Proofs.InertialP Proofs.InertialT Proofs.BoxP Proofs.EllP Proofs.CylP Proofs.Hull Proofs.PolyP Proofs.InscribedP Proofs.TransformP Proofs.MomentP
  Proofs.Decomp Proofs.PimP Proofs.RealizeP Proofs.RealizeX Proofs.SdpP Proofs.VertexP Proofs.CylCustom Proofs.SdpSound.
Import ListNotations.

(** ** addition *)
Lemma rb_add_spec a b : ip_ok (bd_params a) -> ip_ok (bd_params b) -> 0 < ip_mass (bd_params a) + ip_mass (bd_params b) ->
  exists c, rb_add a b = Ok c /\ bd_shapes c = bd_shapes a ++ bd_shapes b /\
    ip_mass (bd_params c) = ip_mass (bd_params a) + ip_mass (bd_params b) /\
    ip_J (bd_params c) = madd (ip_J (bd_params a)) (ip_J (bd_params b)).
Proof.
  intros Ha Hb Hm. destruct (ip_add_J _ _ Ha Hb Hm) as (r & E & _ & Em & EJ). unfold rb_add. rewrite E. cbn [bind rb_init].
  eexists. split; [reflexivity|]. cbn [bd_shapes bd_params]. auto.
Qed.
Lemma union_app Ks Ks' p : union_of (Ks ++ Ks') p <-> union_of Ks p \/ union_of Ks' p.
Proof.
  unfold union_of. split.
  - intros (K & H & Hp). apply in_app_or in H as [H|H]; eauto.
  - intros [(K & H & Hp)|(K & H & Hp)]; exists K; split; auto; apply in_or_app; auto.
Qed.
(** if each body is realized in its shapes, so is the sum *)
Lemma rb_add_realizable a b Ks Ks' : Forall2 shape_is (bd_shapes a) Ks -> Forall2 shape_is (bd_shapes b) Ks' ->
  realizable (union_of Ks) (ip_mass (bd_params a)) (ip_h (bd_params a)) (ip_H (bd_params a)) ->
  realizable (union_of Ks') (ip_mass (bd_params b)) (ip_h (bd_params b)) (ip_H (bd_params b)) ->
  0 < ip_mass (bd_params a) + ip_mass (bd_params b) ->
  exists c, rb_add a b = Ok c /\ Forall2 shape_is (bd_shapes c) (Ks ++ Ks') /\
    realizable (union_of (Ks ++ Ks')) (ip_mass (bd_params c)) (ip_h (bd_params c)) (ip_H (bd_params c)).
Proof.
  intros Fa Fb (s & Ho & Hn & Hi & HM) (s' & Ho' & Hn' & Hi' & HM') Hm.
  destruct (ip_add_describes _ _ s s' HM HM' Hm) as (r & E & Hd). unfold rb_add. rewrite E. cbn [bind rb_init].
  eexists. split; [reflexivity|]. cbn [bd_shapes bd_params]. split; [now apply Forall2_app|].
  exists (s ++ s'). split; [|split; [|split]].
  - intros mp H. apply in_app_or in H as [H|H]; auto.
  - intros mp H. apply in_app_or in H as [H|H]; auto.
  - intros mp H. apply union_app. apply in_app_or in H as [H|H]; [left; apply Hi|right; apply Hi']; auto.
  - exact Hd.
Qed.
(** two bodies without parameters: the centre of mass of the sum is 0/0 *)
Lemma rb_add_massless l l' : exists a b, rb_init (ShapeList l) None = Ok a /\ rb_init (ShapeList l') None = Ok b /\ rb_add a b = NonFinite.
Proof.
  unfold rb_init, ip_zero, ip_init. rewrite (proj2 (Rleb_iff 0 0) (Rle_refl 0)). cbn [assert_ bind].
  eexists. eexists. split; [reflexivity|]. split; [reflexivity|].
  unfold rb_add, ip_add, ip_init. cbn [bd_params bd_shapes ip_mass ip_com ip_H]. rewrite Rplus_0_r.
  rewrite (proj2 (Rleb_iff 0 0) (Rle_refl 0)), (proj2 (Reqb_iff 0 0) eq_refl). reflexivity.
Qed.
Lemma rb_sum_step l a : (forall b, In b l -> ip_ok (bd_params b) /\ 0 < ip_mass (bd_params b)) -> ip_ok (bd_params a) -> 0 < ip_mass (bd_params a) ->
  exists c, fold_left (fun acc b => let* a := acc in
      let* s := match a with BIntZero => rb_radd b BIntZero | BBody c => rb_add c b end in Ok (BBody s)) l (Ok (BBody a)) = Ok (BBody c) /\
    bd_shapes c = bd_shapes a ++ flat_map bd_shapes l /\
    ip_J (bd_params c) = fold_left madd (map (fun b => ip_J (bd_params b)) l) (ip_J (bd_params a)).
Proof.
  revert a. induction l as [|b l IH]; intros a Hl Ha Pa; cbn [fold_left].
  - exists a. cbn [flat_map]. rewrite app_nil_r. auto.
  - destruct (Hl b (or_introl eq_refl)) as (Hb & Pb). destruct (ip_add_J _ _ Ha Hb ltac:(lra)) as (r & E & Hr & Em & EJ).
    cbn [bind]. unfold rb_add at 2. rewrite E. cbn [bind rb_init].
    destruct (IH {| bd_shapes := bd_shapes a ++ bd_shapes b; bd_params := r |}) as (c & E' & E1 & E2); cbn [bd_params bd_shapes]; auto; [|lra|].
    + intros b' H'. apply Hl. now right.
    + exists c. split; [exact E'|]. split; [|rewrite E2; cbn [map fold_left bd_params]; now rewrite EJ].
      rewrite E1. cbn [flat_map bd_shapes]. now rewrite app_assoc.
Qed.
Lemma rb_sum_spec b l : (forall x, In x (b :: l) -> ip_ok (bd_params x) /\ 0 < ip_mass (bd_params x)) ->
  exists c, rb_sum (b :: l) = Ok (BBody c) /\ bd_shapes c = flat_map bd_shapes (b :: l) /\
    ip_J (bd_params c) = fold_left madd (map (fun x => ip_J (bd_params x)) l) (ip_J (bd_params b)).
Proof.
  intro H. unfold rb_sum. cbn [fold_left bind rb_radd].
  destruct (rb_sum_step l b) as (c & E & E1 & E2); [intros x Hx; apply H; now right|apply H; now left|apply H; now left|].
  exists c. cbn [flat_map]. auto.
Qed.

(** ** transforms *)
Lemma move_injective M t x y : orthogonal 3 M -> length t = 3%nat -> length x = 3%nat -> length y = 3%nat -> move M t x = move M t y -> x = y.
Proof.
  intros HM Lt Lx Ly E. assert (Lm : length (move M t x) = 3%nat) by (apply move_len; auto; apply HM).
  rewrite (proj1 (move_inv 3 M t x (move M t x) HM Lt Lx Lm ltac:(lia)) eq_refl).
  now rewrite (proj1 (move_inv 3 M t y (move M t x) HM Lt Ly Lm ltac:(lia)) E).
Qed.
Lemma image_move (D : vec -> Prop) Q c M t p : (forall u, D u -> length u = 3%nat) ->
  orthogonal 3 M -> orthogonal 3 Q -> length c = 3%nat -> length t = 3%nat -> length p = 3%nat ->
  ((exists u, D u /\ move M t p = move (mat_mul M Q) (vadd (mat_vec M c) t) u) <-> (exists u, D u /\ p = move Q c u)).
Proof.
  intros HD HM HQ Lc Lt Lp. pose proof (proj1 HM) as MM. pose proof (proj1 HQ) as MQ.
  split; intros (u & Hu & E); exists u; (split; [exact Hu|]); specialize (HD u Hu).
  - rewrite <- (move_compose 3) in E by (auto; lia). apply (move_injective M t); auto. apply move_len; auto.
  - rewrite <- (move_compose 3) by (auto; lia). now rewrite E.
Qed.
Lemma box_set_move h Q c M t p : orthogonal 3 M -> orthogonal 3 Q -> length c = 3%nat -> length t = 3%nat -> length h = 3%nat -> length p = 3%nat ->
  (box_set h (mat_mul M Q) (vadd (mat_vec M c) t) (move M t p) <-> box_set h Q c p).
Proof. intros. apply (image_move (in_cube h)); auto. intros u (Hu & _). congruence. Qed.
Lemma ell_set_move h Q c M t p : orthogonal 3 M -> orthogonal 3 Q -> length c = 3%nat -> length t = 3%nat -> length h = 3%nat -> length p = 3%nat ->
  (ell_set h (mat_mul M Q) (vadd (mat_vec M c) t) (move M t p) <-> ell_set h Q c p).
Proof.
  intros HM HQ Lc Lt Lh Lp.
  pose proof (image_move (fun v => exists u, length u = length h /\ dot u u <= 1 /\ v = vmul h u) Q c M t p) as G.
  assert (A : forall Q' c' p', ell_set h Q' c' p' <-> exists v, (exists u, length u = length h /\ dot u u <= 1 /\ v = vmul h u) /\ p' = move Q' c' v).
  { intros. unfold ell_set. split.
    - intros (u & H1 & H2 & H3). eauto 8.
    - intros (v & (u & H1 & H2 & ->) & H3). eauto. }
  rewrite !A. apply G; auto. intros v (u & Lu & _ & ->). unfold vmul. rewrite map2_length. lia.
Qed.
Lemma cyl_set_move L r Q c M t p : orthogonal 3 M -> orthogonal 3 Q -> length c = 3%nat -> length t = 3%nat -> length p = 3%nat ->
  (cyl_set L r (mat_mul M Q) (vadd (mat_vec M c) t) (move M t p) <-> cyl_set L r Q c p).
Proof.
  intros HM HQ Lc Lt Lp.
  pose proof (image_move (fun v => exists x y z, x * x + y * y <= r * r /\ Rabs z <= L / 2 /\ v = [x; y; z]) Q c M t p) as G.
  assert (A : forall Q' c' p', cyl_set L r Q' c' p' <-> exists v, (exists x y z, x * x + y * y <= r * r /\ Rabs z <= L / 2 /\ v = [x; y; z]) /\ p' = move Q' c' v).
  { intros. unfold cyl_set. split.
    - intros (x & y & z & H1 & H2 & H3). eauto 10.
    - intros (v & (x & y & z & H1 & H2 & ->) & H3). eauto 8. }
  rewrite !A. apply G; auto. intros v (x & y & z & _ & _ & ->). reflexivity.
Qed.
Lemma caps_set_move L r Q c M t p : 0 <= L -> 0 <= r -> orthogonal 3 M -> orthogonal 3 Q -> length c = 3%nat -> length t = 3%nat -> length p = 3%nat ->
  (caps_set (move (mat_mul M Q) (vadd (mat_vec M c) t) [0; 0; L / 2]) (move (mat_mul M Q) (vadd (mat_vec M c) t) [0; 0; - (L / 2)]) r (move M t p) <->
   caps_set (move Q c [0; 0; L / 2]) (move Q c [0; 0; - (L / 2)]) r p).
Proof.
  intros HL Hr HM HQ Lc Lt Lp. destruct (move3 _ _ p HQ Lc Lp) as (x & y & z & -> & _).
  rewrite (move_compose 3) by (auto; try apply HM; try apply HQ; lia).
  pose proof (caps_local L r Q c x y z HL Hr HQ Lc) as E1.
  pose proof (caps_local L r (mat_mul M Q) (vadd (mat_vec M c) t) x y z HL Hr) as E2.
  unfold end1, end2 in *. rewrite E1, E2; [reflexivity|apply orthogonal_mul; auto; lia|]. apply center_move_len; auto. apply HM.
Qed.
Lemma mapM_total {A B} (f : A -> res B) l : (forall a, In a l -> exists b, f a = Ok b) -> exists r, mapM f l = Ok r.
Proof.
  induction l as [|a l IH]; intro H; [eexists; reflexivity|]. cbn [mapM]. destruct (H a (or_introl eq_refl)) as (b & ->).
  destruct IH as (r & ->); [intros x Hx; apply H; now right|]. cbn. eauto.
Qed.
Lemma shp_transform_moves dd s K M t s' : shape_is s K -> shp_transform dd s (Some M) (Some t) = Ok s' -> orthogonal 3 M ->
  dd_moves dd [s] M t ->
  exists K', shape_is s' K' /\ forall x, length x = 3%nat -> (K' (move M t x) <-> K x).
Proof.
  intros HS HT HM HD. destruct HS as [h c r b Hb HQ|p Hp|h r c e He Lh HQ|L R r c x Hx HQ|L R r c x k Hx Hk HQ]; cbn [shp_transform] in HT;
    apply bind_inv in HT as (y & E & HT); apply Ok_eq in HT; subst s'.
  - pose proof (box_transform_eq _ _ _ _ _ _ _ Hb E) as (_ & Lt & H). cbn [pose_rot pose_tr] in *.
    pose proof (box_init_inv _ _ _ _ Hb) as (Lhb & _ & _ & Ec & _ & _ & Lc & _). rewrite Ec in Lc.
    eexists. split; [apply (shape_is_box _ _ _ _ H); cbn [pose_rot]; apply orthogonal_mul; auto; lia|].
    intros q Lq. apply box_set_move; auto; congruence.
  - pose proof (HD p (or_introl eq_refl)) as HC.
    assert (HC' : ineqs_correct 3 (dd_ineqs dd) {| cdd_rows := map (fun v => 1 :: move (pose_rot 3 (Some M)) (pose_tr 3 (Some t)) v) (p_vertices p); cdd_lin := [] |}) by exact HC.
    destruct (poly_transform_agree 3 dd p (Some M) (Some t) y Hp E HC') as (AG & _).
    exists (halfspaces (p_A y) (p_b y)). split; [now constructor|]. intros q Lq.
    pose proof (poly_transform_contains 3 dd p (Some M) (Some t) y q Hp E HC' HM Lq) as T. cbn [pose_rot pose_tr] in T.
    destruct Hp as (Hp & _). destruct AG as (AG & _). destruct Hp as (_ & _ & _ & Lb & _). destruct AG as (_ & _ & _ & Lb' & _).
    pose proof (poly_contains_iff p q 0 (eq_sym Lb)) as I1.
    pose proof (poly_contains_iff y (move M t q) 0 (eq_sym Lb')) as I2. rewrite T in I2.
    assert (Z : forall l, map (fun b : R => b + 0) l = l) by (intro l; rewrite (map_ext _ (fun b => b) (fun b => Rplus_0_r b)); apply map_id).
    rewrite Z in I1, I2. now rewrite <- I2.
  - pose proof (ell_transform_eq _ _ _ _ _ _ _ He E) as (_ & Lt & H). rewrite Lh in *. cbn [pose_rot pose_tr] in *.
    pose proof (ell_init_inv _ _ _ _ He) as (_ & _ & _ & Ec & _ & Lc). rewrite Ec, Lh in Lc.
    eexists. split; [apply (shape_is_ell _ _ _ _ H Lh); cbn [pose_rot]; apply orthogonal_mul; auto; lia|].
    intros q Lq. apply ell_set_move; auto.
  - pose proof (cyl_transform_eq _ _ _ _ _ _ _ _ Hx E) as (MR & Lt & ->). cbn [pose_rot pose_tr] in *.
    apply cyl_init_inv in Hx as (HL & Hr & MQ & Lc & _).
    exists (cyl_set L R (mat_mul M (pose_rot 3 r)) (vadd (mat_vec M (pose_tr 3 c)) t)). split.
    + apply (shape_is_cyl L R (Some (mat_mul M (pose_rot 3 r))) (Some (vadd (mat_vec M (pose_tr 3 c)) t))).
      * apply cyl_init_good; auto; cbn [pose_rot pose_tr]; [apply (is_mat_mul 3 3 3); auto; lia|apply center_move_len; auto].
      * cbn [pose_rot]. apply orthogonal_mul; auto; lia.
    + intros q Lq. apply cyl_set_move; auto.
  - pose proof (caps_transform_eq _ _ _ _ _ _ _ _ _ Hx Hk E) as (MR & Lt & T & I & _). cbn [pose_rot pose_tr] in *.
    pose proof (cyl_transform_eq _ _ _ _ _ _ _ _ Hx T) as (_ & _ & EC). cbn [pose_rot pose_tr] in *.
    apply cyl_init_inv in Hx as (HL & Hr & MQ & Lc & _).
    eexists. split.
    + apply (shape_is_caps L R (Some (mat_mul M (pose_rot 3 r))) (Some (vadd (mat_vec M (pose_tr 3 c)) t)) (k_cyl y)); auto.
      * rewrite EC. apply cyl_init_good; auto; cbn [pose_rot pose_tr]; [apply (is_mat_mul 3 3 3); auto; lia|apply center_move_len; auto].
      * cbn [pose_rot]. apply orthogonal_mul; auto; lia.
    + intros q Lq. apply caps_set_move; auto.
Qed.
Lemma shapes_transform dd l Ks M t l' : Forall2 shape_is l Ks -> mapM (fun s => shp_transform dd s (Some M) (Some t)) l = Ok l' -> orthogonal 3 M ->
  dd_moves dd l M t ->
  exists Ks', Forall2 shape_is l' Ks' /\ Forall2 (fun K K' => forall x, length x = 3%nat -> (K' (move M t x) <-> K x)) Ks Ks'.
Proof.
  intro HF. revert l'. induction HF as [|s K l Ks H HF IH]; intros l' E HM HD; cbn [mapM] in E.
  - apply Ok_eq in E. subst. exists []. split; constructor.
  - apply bind_inv in E as (s' & E1 & E). apply bind_inv in E as (l'' & E2 & E). apply Ok_eq in E. subst.
    destruct (shp_transform_moves dd s K M t s' H E1 HM) as (K' & A & B); [intros p [->|[]]; apply HD; now left|].
    destruct (IH l'' E2 HM) as (Ks' & A' & B'); [intros p Hp; apply HD; now right|].
    exists (K' :: Ks'). split; constructor; auto.
Qed.
Lemma rb_transform_inv dd b ro tr b' : rb_transform dd b ro tr = Ok b' ->
  is_mat 3 3 (pose_rot 3 ro) /\ length (pose_tr 3 tr) = 3%nat /\
  mapM (fun s => shp_transform dd s (Some (pose_rot 3 ro)) (Some (pose_tr 3 tr))) (bd_shapes b) = Ok (bd_shapes b') /\
  ip_transform (bd_params b) (Some (pose_rot 3 ro)) (Some (pose_tr 3 tr)) = Ok (bd_params b').
Proof.
  intro H. unfold rb_transform in H. apply bind_inv in H as (rt & E & H). apply clean_transform_inv in E as (F1 & F2 & F3 & F4).
  rewrite F1, F2 in *. apply bind_inv in H as (l & E & H). apply bind_inv in H as (q & E' & H). cbn [rb_init bind] in H. apply Ok_eq in H. subst b'.
  cbn [bd_shapes bd_params]. auto.
Qed.
Lemma rb_transform_spec dd b ro tr b' Ks : rb_transform dd b ro tr = Ok b' -> orthogonal 3 (pose_rot 3 ro) ->
  Forall2 shape_is (bd_shapes b) Ks -> dd_moves dd (bd_shapes b) (pose_rot 3 ro) (pose_tr 3 tr) ->
  exists Ks', Forall2 shape_is (bd_shapes b') Ks' /\
    Forall2 (fun K K' => forall x, length x = 3%nat -> (K' (move (pose_rot 3 ro) (pose_tr 3 tr) x) <-> K x)) Ks Ks' /\
    (forall s, pms_ok s -> describes (bd_params b) s -> 0 <= ip_mass (bd_params b) ->
       describes (bd_params b') (pms_move (pose_rot 3 ro) (pose_tr 3 tr) s)).
Proof.
  intros H HM HF HD. apply rb_transform_inv in H as (MR & Lt & E & E'). destruct (shapes_transform _ _ _ _ _ _ HF E HM HD) as (Ks' & A & B).
  exists Ks'. split; [exact A|]. split; [exact B|]. intros s Ho Hd Hm.
  destruct (transform_describes (bd_params b) (Some (pose_rot 3 ro)) (Some (pose_tr 3 tr)) s Hd Ho Hm MR Lt) as (q & Eq & Hq).
  rewrite E' in Eq. apply Ok_eq in Eq. now subst q.
Qed.
Lemma rb_transform_realizable dd b ro tr b' Ks : rb_transform dd b ro tr = Ok b' -> orthogonal 3 (pose_rot 3 ro) ->
  Forall2 shape_is (bd_shapes b) Ks -> dd_moves dd (bd_shapes b) (pose_rot 3 ro) (pose_tr 3 tr) -> 0 <= ip_mass (bd_params b) ->
  realizable (union_of Ks) (ip_mass (bd_params b)) (ip_h (bd_params b)) (ip_H (bd_params b)) ->
  exists Ks', Forall2 shape_is (bd_shapes b') Ks' /\
    realizable (union_of Ks') (ip_mass (bd_params b')) (ip_h (bd_params b')) (ip_H (bd_params b')).
Proof.
  intros H HM HF HD Hm (s & Ho & Hn & Hi & Hd). pose proof (rb_transform_inv _ _ _ _ _ H) as (MR & Lt & _).
  destruct (rb_transform_spec _ _ _ _ _ _ H HM HF HD) as (Ks' & A & B & C).
  exists Ks'. split; [exact A|]. exists (pms_move (pose_rot 3 ro) (pose_tr 3 tr) s). split; [|split; [|split]].
  - intros mp Hp. apply in_map_iff in Hp as (q & <- & Hq). cbn [snd]. now apply move_len.
  - intros mp Hp. apply in_map_iff in Hp as (q & <- & Hq). cbn [fst]. auto.
  - intros mp Hp. apply in_map_iff in Hp as (q & <- & Hq). cbn [snd]. destruct (Hi q Hq) as (K & HK & Kq).
    specialize (Ho q Hq). clear - B HK Kq Ho. induction B as [|K1 K2 L1 L2 E B IH]; [destruct HK|]. destruct HK as [<-|HK].
    + exists K2. split; [now left|]. now apply E.
    + destruct (IH HK) as (K' & I' & P'). exists K'. split; [now right|exact P'].
  - apply C; auto.
Qed.
Lemma rb_transform_total dd b ro tr : is_mat 3 3 (pose_rot 3 ro) -> length (pose_tr 3 tr) = 3%nat -> 0 <= ip_mass (bd_params b) ->
  (forall s, In s (bd_shapes b) -> exists K, shape_is s K /\ forall p, s <> SPoly p) ->
  exists b', rb_transform dd b ro tr = Ok b'.
Proof.
  intros MR Lt Hm HS. unfold rb_transform. rewrite clean_transform_good by auto. cbn [bind fst snd].
  destruct (mapM_total (fun s => shp_transform dd s (Some (pose_rot 3 ro)) (Some (pose_tr 3 tr))) (bd_shapes b)) as (l & ->).
  - intros s Hs. destruct (HS s Hs) as (K & HK & N). destruct HK as [h c r x Hb HQ|p Hp|h r c e He Lh HQ|L R r c x Hx HQ|L R r c x k Hx Hk HQ]; cbn [shp_transform].
    + destruct (box_transform_good _ _ _ _ (Some (pose_rot 3 ro)) (Some (pose_tr 3 tr)) Hb MR Lt) as (y & ->). cbn. eauto.
    + destruct (N p eq_refl).
    + destruct (ell_transform_good _ _ _ _ (Some (pose_rot 3 ro)) (Some (pose_tr 3 tr)) He) as (y & ->); rewrite ?Lh; auto; [|cbn; eauto]. intros ->. discriminate.
    + destruct (cyl_transform_good _ _ _ _ _ (Some (pose_rot 3 ro)) (Some (pose_tr 3 tr)) Hx MR Lt) as (y & ->). cbn. eauto.
    + destruct (caps_transform_good _ _ _ _ _ _ (Some (pose_rot 3 ro)) (Some (pose_tr 3 tr)) Hx Hk MR Lt) as (y & ->). cbn. eauto.
  - cbn [bind]. unfold ip_transform, ip_init. rewrite (proj2 (Rleb_iff _ _) Hm). cbn [assert_ bind rb_init]. eauto.
Qed.

(** ** bounding ellipsoids *)
Lemma mbe_kwargs_ok s : (forall e, s <> SEll e) -> check_kwargs (mbe_declared s) ["sphere"; "solver"]%string = Ok tt.
Proof. destruct s; intro H; try reflexivity. now destruct (H e). Qed.
Lemma rb_mbes_ellipsoid mp me b sphere pre e post : bd_shapes b = pre ++ SEll e :: post ->
  (forall s, In s pre -> (forall e', s <> SEll e') -> exists x, shp_mbe mp me s sphere = Ok x) ->
  rb_mbes mp me b sphere = Raise TypeError.
Proof.
  intros E H. unfold rb_mbes. rewrite E. clear E.
  enough (A : mapM (fun s => let* _ := check_kwargs (mbe_declared s) ["sphere"; "solver"]%string in
    let* e := shp_mbe mp me s sphere in Ok (SEll e)) (pre ++ SEll e :: post) = Raise TypeError) by (rewrite A; reflexivity).
  induction pre as [|s pre IH]; [reflexivity|]. cbn [app mapM].
  assert (D : (exists e', s = SEll e') \/ forall e', s <> SEll e') by (destruct s; eauto; right; intros; discriminate).
  destruct D as [(e' & ->)|N]; [reflexivity|]. rewrite mbe_kwargs_ok by auto. cbn [bind].
  destruct (H s (or_introl eq_refl) N) as (x & ->). cbn [bind]. rewrite IH; [reflexivity|]. intros s' Hs. apply H. now right.
Qed.
Lemma rb_mbes_bound mp me b sphere Ks : Forall2 shape_is (bd_shapes b) Ks -> (forall s, In s (bd_shapes b) -> box_or_cyl s) ->
  exists b', rb_mbes mp me b sphere = Ok b' /\ bd_params b' = bd_params b /\
    Forall2 (fun (K : vec -> Prop) s => exists e, s = SEll e /\ forall p, K p -> ell_set (e_half e) (e_rot e) (e_center e) p) Ks (bd_shapes b').
Proof.
  intros HF HB. unfold rb_mbes. destruct b as [shapes params]. cbn [bd_shapes bd_params] in *.
  enough (A : exists l, mapM (fun s => let* _ := check_kwargs (mbe_declared s) ["sphere"; "solver"]%string in
    let* e := shp_mbe mp me s sphere in Ok (SEll e)) shapes = Ok l /\
    Forall2 (fun (K : vec -> Prop) s => exists e, s = SEll e /\ forall p, K p -> ell_set (e_half e) (e_rot e) (e_center e) p) Ks l).
  { destruct A as (l & -> & A). cbn [bind rb_init]. eexists. split; [reflexivity|]. cbn [bd_params bd_shapes]. auto. }
  revert HB. induction HF as [|s K l Ks HK HF IH]; intro HB; [exists []; split; [reflexivity|constructor]|].
  destruct IH as (l' & E & A); [intros; apply HB; now right|]. cbn [mapM].
  specialize (HB s (or_introl eq_refl)). destruct HK as [h c r x Hb HQ|p Hp|h r c e He Lh HQ|L R r c x Hx HQ|L R r c x k Hx Hk HQ]; try destruct HB.
  - destruct (box_mbe_total _ _ _ _ sphere Hb) as (e & Ee). rewrite mbe_kwargs_ok by (intros; discriminate). cbn [bind shp_mbe]. rewrite Ee. cbn [bind]. rewrite E. cbn [bind].
    eexists. split; [reflexivity|]. constructor; [|exact A]. exists e. split; [reflexivity|]. intros p Hp.
    destruct sphere; [exact (box_mbe_sphere_outside _ _ _ _ _ _ Hb HQ Ee Hp)|exact (box_mbe_outside _ _ _ _ _ _ Hb Ee Hp)].
  - destruct (proj2 (proj2 (cyl_boxes_total _ _ _ _ _ Hx)) sphere) as (e & Ee). rewrite mbe_kwargs_ok by (intros; discriminate). cbn [bind shp_mbe]. rewrite Ee. cbn [bind]. rewrite E. cbn [bind].
    eexists. split; [reflexivity|]. constructor; [|exact A]. exists e. split; [reflexivity|]. intros p Hp.
    destruct sphere; [exact (cyl_mbe_sphere_outside _ _ _ _ _ _ _ Hx HQ Ee Hp)|exact (cyl_mbe_outside _ _ _ _ _ _ _ Hx Ee Hp)].
Qed.

(** ** realizability constraints *)
Lemma shape_constraints_ok ut s K v J eps d : shape_is s K -> shape_proper s -> pv_value v J -> is_mat 4 4 J -> 0 <= eps -> (0 < d)%nat ->
  exists P, rb_shape_constraints ut s v eps d = Ok P /\ (realizable_J K J -> PSD 4 (msub J (mscale eps (eye 4))) -> P).
Proof.
  intros HS HP Hv HJ Heps Hd. destruct HS as [h c r x Hb HQ|p Hp|h r c e He Lh HQ|L R r c x Hx HQ|L R r c x k Hx Hk HQ]; cbn [rb_shape_constraints shape_proper] in *.
  - destruct (box_sdp _ _ _ _ v J eps d Hb HQ Hv HJ Heps Hd) as (P & E & H). exists P. auto.
  - destruct Hp as (OK & _). destruct (poly_ok_vertices _ _ OK) as (_ & _ & ED). destruct OK as (_ & _ & HA & _).
    destruct (poly_sdp p v J eps d ED) as (P & E & H); auto.
    + intros a Ha. apply (proj1 (Forall_forall _ _) (proj2 HA) a Ha).
    + exists P. auto.
  - pose proof (ell_init_inv _ _ _ _ He) as (_ & Eh & _). rewrite Eh in HP.
    destruct (ell_x_constraints _ _ _ _ ut v J eps He Lh HQ HP Hv HJ Heps) as (P & E & H). exists P. split; [exact E|]. intros. apply H. auto.
  - destruct (cyl_sdp _ _ _ _ _ v J eps d Hx HQ Hv HJ Heps Hd) as (P & E & H). exists P. auto.
  - destruct HP.
Qed.
Lemma partition_masses Ks s : pms_ok s -> pms_nonneg s -> pms_in (union_of Ks) s ->
  exists ss, Forall2 (fun K s' => pms_ok s' /\ pms_nonneg s' /\ pms_in K s') Ks ss /\
    forall f : R * vec -> R, lsum (map f s) = lsum (map (fun s' => lsum (map f s')) ss).
Proof.
  induction s as [|mp s IH]; intros Ho Hn Hi.
  - exists (map (fun _ => []) Ks). split.
    + induction Ks as [|K Ks IH]; constructor; [|apply IH; intros mp []]. repeat split; intros mp [].
    + intro f. rewrite map_map. cbn. clear. induction Ks as [|K Ks IH]; cbn; [reflexivity|]. change (fold_right Rplus 0) with lsum. rewrite <- IH. ring.
  - destruct IH as (ss & HF & HS); [intros x Hx; apply Ho; now right|intros x Hx; apply Hn; now right|intros x Hx; apply Hi; now right|].
    destruct (Hi mp (or_introl eq_refl)) as (K & HK & Kp). specialize (Ho mp (or_introl eq_refl)). specialize (Hn mp (or_introl eq_refl)).
    enough (A : exists ss', Forall2 (fun K s' => pms_ok s' /\ pms_nonneg s' /\ pms_in K s') Ks ss' /\
      forall f : R * vec -> R, lsum (map (fun s' => lsum (map f s')) ss') = f mp + lsum (map (fun s' => lsum (map f s')) ss)).
    { destruct A as (ss' & A & B). exists ss'. split; [exact A|]. intro f. rewrite B. cbn [map]. unfold lsum at 1. cbn [fold_right]. change (fold_right Rplus 0) with lsum. now rewrite HS. }
    clear HS Hi. induction HF as [|K1 s1 Ks ss (H1 & H2 & H3) HF IH]; [destruct HK|]. destruct HK as [->|HK].
    + exists ((mp :: s1) :: ss). split.
      * constructor; [|exact HF]. repeat split; intros x [<-|Hx]; auto.
      * intro f. cbn. change (fold_right Rplus 0) with lsum. ring.
    + destruct (IH HK) as (ss' & A & B). exists (s1 :: ss'). split; [constructor; auto|]. intro f. cbn [map]. unfold lsum at 1 4. cbn [fold_right]. change (fold_right Rplus 0) with lsum. rewrite B. ring.
Qed.
Lemma all_constraints_ok {A B} (f : A -> B -> res Prop) l vs : length l = length vs -> (forall a v, In a l -> In v vs -> exists P, f a v = Ok P) ->
  exists P, all_constraints f l vs = Ok P.
Proof.
  revert vs. induction l as [|a l IH]; intros [|v vs] HL H; try discriminate; [eexists; reflexivity|]. cbn [all_constraints].
  destruct (H a v (or_introl eq_refl) (or_introl eq_refl)) as (P & ->). destruct (IH vs) as (Q & ->); [auto|intros; apply H; now right|]. cbn. eauto.
Qed.
Lemma zero_pv : pv_value (PVmat (zeros2 4 4)) (zeros2 4 4). Proof. reflexivity. Qed.
Lemma psd_shift0 J : PSD 4 J -> PSD 4 (msub J (mscale 0 (eye 4))).
Proof.
  intros (H1 & H2 & H3). apply psd_shift; auto. split; [symmetry; now apply (symmetric_transpose 4)|]. intros x Hx.
  rewrite (quad_msub 4 4), quad_mscale by (auto; apply is_mat_mscale, is_mat_eye). specialize (H3 x Hx). lra.
Qed.
Lemma Forall2_len {A B} (R : A -> B -> Prop) l l' : Forall2 R l l' -> length l = length l'.
Proof. induction 1; cbn; congruence. Qed.
Definition body_multi (ut : bool) (shapes : list shp) (v : param_var) (eps : R) (d : nat) : res Prop :=
  let* Jc := pim_must_equal_param_var v eps in
  let '(J, psd_constraints) := Jc in
  let each s J := rb_shape_constraints ut s (PVmat J) 0 d in
  let* _ := all_constraints each shapes (map (fun _ => zeros2 4 4) shapes) in
  Ok (exists Js, List.length Js = List.length shapes /\ Forall (cp_psd_var 4) Js /\
      (exists P, all_constraints each shapes Js = Ok P /\ P) /\
      J = msum 4 4 Js /\ psd_constraints).
Lemma body_cases ut b v eps d : (exists s, bd_shapes b = [s] /\ rb_moment_sdp_constraints ut b v eps d = rb_shape_constraints ut s v eps d) \/
  (length (bd_shapes b) <> 1%nat /\ rb_moment_sdp_constraints ut b v eps d = body_multi ut (bd_shapes b) v eps d).
Proof.
  unfold rb_moment_sdp_constraints. destruct (bd_shapes b) as [|s1 [|s2 l]]; [right|left|right].
  - split; [discriminate|reflexivity].
  - eauto.
  - split; [discriminate|reflexivity].
Qed.
Lemma multi_sdp ut shapes Ks v J eps d : Forall2 shape_is shapes Ks -> (forall s, In s shapes -> shape_proper s) ->
  pv_value v J -> is_mat 4 4 J -> 0 <= eps -> (0 < d)%nat ->
  exists P, body_multi ut shapes v eps d = Ok P /\
    (realizable_J (union_of Ks) J -> PSD 4 (msub J (mscale eps (eye 4))) -> P).
Proof.
  intros HF HP Hv HJ Heps Hd. unfold body_multi. rewrite (pv_ok v J eps Hv HJ Heps). cbn [bind].
  set (each := fun s J => rb_shape_constraints ut s (PVmat J) 0 d).
  assert (OKs : forall s J', In s shapes -> is_mat 4 4 J' -> exists P, each s J' = Ok P).
  { intros s J' Hs HJ'. assert (HK : exists K, shape_is s K) by (clear - HF Hs; induction HF as [|s' K l Ks H HF IH]; [destruct Hs|destruct Hs as [->|Hs]; eauto]).
    destruct HK as (K & HK). destruct (shape_constraints_ok ut s K (PVmat J') J' 0 d HK (HP s Hs) eq_refl HJ' (Rle_refl 0) Hd) as (P & E & _). eauto. }
  destruct (all_constraints_ok each shapes (map (fun _ => zeros2 4 4) shapes)) as (P0 & E0).
  { now rewrite map_length. }
  { intros s J' Hs HJ'. apply in_map_iff in HJ' as (x & <- & _). apply OKs; auto. apply is_mat_zeros2. }
  rewrite E0. cbn [bind]. eexists. split; [reflexivity|]. intros (s & Ho & Hn & Hi & HM) HE.
  destruct (partition_masses Ks s Ho Hn Hi) as (ss & HSS & HS).
  assert (A : exists Js, Forall2 (fun s' J' => pim_of s' J') ss Js /\ Forall2 realizable_J Ks Js).
  { clear - HSS. induction HSS as [|K s' Ks ss (H1 & H2 & H3) HSS IH]; [exists []; split; constructor|].
    destruct IH as (Js & IA & IB). destruct (pim_exists s' H1) as (J' & HJ'). exists (J' :: Js). split; constructor; auto. exists s'. auto. }
  destruct A as (Js & HSJ & HR). exists Js.
  assert (MJ : forall B, In B Js -> is_mat 4 4 B).
  { clear - HSJ. induction HSJ as [|s' J' ss Js H HSJ IH]; intros B HB; [destruct HB|]. destruct HB as [<-|HB]; [apply H|auto]. }
  assert (RK : forall B, In B Js -> exists K, realizable_J K B).
  { clear - HR. induction HR as [|K J' Ks Js H HR IH]; intros B HB; [destruct HB|]. destruct HB as [<-|HB]; eauto. }
  split; [rewrite <- (Forall2_len _ _ _ HR); symmetry; exact (Forall2_len _ _ _ HF)|]. split; [|split; [|split]].
  - apply Forall_forall. intros B HB. destruct (RK B HB) as (K & HK). apply realizable_psd in HK as (H1 & H2 & H3). split; [exact H1|].
    split; [now apply (symmetric_transpose 4)|exact H3].
  - clear - HF HR HP MJ Hd. subst each. revert Js HR MJ. induction HF as [|s' K l Ks H HF IH]; intros Js HR MJ; inversion HR as [|K' J' Ks' Js' R1 R2]; subst.
    + exists True. split; [reflexivity|exact I].
    + cbn [all_constraints]. destruct (shape_constraints_ok ut s' K (PVmat J') J' 0 d H (HP _ (or_introl eq_refl)) eq_refl (MJ _ (or_introl eq_refl)) (Rle_refl 0) Hd) as (P & -> & HPP).
      destruct (IH (fun x Hx => HP x (or_intror Hx)) Js' R2 (fun x Hx => MJ x (or_intror Hx))) as (P' & -> & HP'). cbn [bind]. eexists. split; [reflexivity|].
      split; [|exact HP']. apply HPP; [exact R1|]. apply psd_shift0. eapply realizable_psd; eauto.
  - apply (mat_ext 4 4); auto; [now apply msum_is_mat|]. intros i j Hi' Hj. rewrite msum_entry by auto. destruct HM as (_ & HE').
    rewrite HE', HS by auto. clear - HSJ Hi' Hj. induction HSJ as [|s' J' ss Js (_ & H) HSJ IH]; [reflexivity|]. cbn [map]. unfold lsum at 1 4. cbn [fold_right]. change (fold_right Rplus 0) with lsum.
    rewrite IH, H by auto. reflexivity.
  - apply psd_shift; auto.
Qed.
Lemma body_sdp ut b Ks v J eps d : Forall2 shape_is (bd_shapes b) Ks -> (forall s, In s (bd_shapes b) -> shape_proper s) ->
  pv_value v J -> is_mat 4 4 J -> 0 <= eps -> (0 < d)%nat ->
  exists P, rb_moment_sdp_constraints ut b v eps d = Ok P /\
    (realizable_J (union_of Ks) J -> PSD 4 (msub J (mscale eps (eye 4))) -> P).
Proof.
  intros HF HP Hv HJ Heps Hd. destruct (body_cases ut b v eps d) as [(s & E & ->)|(_ & ->)]; [|now apply multi_sdp].
  rewrite E in *. inversion HF as [|s' K l Ks' HK HF']; subst. inversion HF'; subst.
  destruct (shape_constraints_ok ut s K v J eps d HK (HP s (or_introl eq_refl)) Hv HJ Heps Hd) as (P & EP & H). exists P. split; [exact EP|].
  intro HR. apply H. eapply realizable_mono; [|exact HR]. intros p _ (K' & [<-|[]] & Kp). exact Kp.
Qed.
(** a capsule has no moment constraints *)
Lemma body_capsule ut b k v J eps d : In (SCaps k) (bd_shapes b) -> (forall s, In s (bd_shapes b) -> (exists x, s = SCaps x) \/ shape_proper s /\ exists K, shape_is s K) ->
  pv_value v J -> is_mat 4 4 J -> 0 <= eps -> (0 < d)%nat ->
  rb_moment_sdp_constraints ut b v eps d = Raise AttributeError.
Proof.
  intros Hk HP Hv HJ Heps Hd. destruct (body_cases ut b v eps d) as [(s & E & ->)|(_ & ->)].
  - rewrite E in Hk. destruct Hk as [->|[]]. reflexivity.
  - unfold body_multi. rewrite (pv_ok v J eps Hv HJ Heps). cbn [bind].
    enough (A : all_constraints (fun s J => rb_shape_constraints ut s (PVmat J) 0 d) (bd_shapes b) (map (fun _ => zeros2 4 4) (bd_shapes b)) = Raise AttributeError) by (rewrite A; reflexivity).
    revert Hk HP. induction (bd_shapes b) as [|s l IH]; intros Hk HP; [destruct Hk|]. cbn [map all_constraints].
    destruct (HP s (or_introl eq_refl)) as [(x & ->)|(H1 & K & HK)]; [reflexivity|].
    destruct (shape_constraints_ok ut s K (PVmat (zeros2 4 4)) (zeros2 4 4) 0 d HK H1 eq_refl (is_mat_zeros2 4 4) (Rle_refl 0) Hd) as (P & -> & _). cbn [bind].
    destruct Hk as [->|Hk]; [destruct H1|]. rewrite IH; auto. intros; apply HP; now right.
Qed.

(** ** the constraints force the centres of mass into the shapes *)
Lemma ell_set_convex h Q c : length h = 3%nat -> is_mat 3 3 Q -> length c = 3%nat -> convex (ell_set h Q c).
Proof.
  intros Lh HQ Lc p q t _ (u & Lu & Hu & ->) (v & Lv & Hv & ->) Ht. rewrite Lh in Lu, Lv. exists (vadd (vscale (1 - t) u) (vscale t v)).
  split; [|split].
  - destruct_vecs. reflexivity.
  - clear - Lu Lv Hu Hv Ht. destruct_vecs. cbn in *.
    assert (S : forall a b, t * (1 - t) * (2 * (a * b)) <= t * (1 - t) * (a * a + b * b)).
    { intros a b. apply Rmult_le_compat_l; [nra|]. pose proof (Rle_0_sqr (a - b)) as S. unfold Rsqr in S. lra. }
    pose proof (S x2 x). pose proof (S x3 x0). pose proof (S x4 x1).
    assert (A1 : (1 - t) * (x2 * x2 + (x3 * x3 + (x4 * x4 + 0))) <= (1 - t) * 1) by (apply Rmult_le_compat_l; lra).
    assert (A2 : t * (x * x + (x0 * x0 + (x1 * x1 + 0))) <= t * 1) by (apply Rmult_le_compat_l; lra).
    lra.
  - destruct_vecs. unfold move, vmul. cbn. list_eq; ring.
Qed.
Lemma pim_com_hull s J : pms_ok s -> pms_nonneg s -> pim_of s J -> 0 < entry J 3 3 -> in_hull 3 (map snd s) (com_J J).
Proof.
  intros Ho Hn HJ Hm. destruct (pim_vec s J Ho HJ) as (Em & Eh). exists (map (fun mp => fst mp / entry J 3 3) s). split; [now rewrite !map_length|]. split; [split|].
  - intros x Hx. apply in_map_iff in Hx as (mp & <- & Hmp). apply Rmult_le_pos; [auto|left; now apply Rinv_0_lt_compat].
  - rewrite (map_ext _ (fun mp => / entry J 3 3 * fst mp)) by (intro; unfold Rdiv; ring). rewrite lsum_map_scal, <- Em. field. lra.
  - unfold com_J, combine_rows. apply map_ext_in. intros i Hi. apply in_seq in Hi.
    rewrite (proj2 HJ) by lia. clear Em Eh. unfold Rdiv at 1. rewrite Rmult_comm, <- lsum_map_scal.
    clear - Ho Hi. induction s as [|mp s IH]; [reflexivity|]. cbn [map map2]. unfold lsum. cbn [fold_right]. change (fold_right Rplus 0) with lsum.
    rewrite IH by (intros x Hx; apply Ho; now right). pose proof (Ho mp (or_introl eq_refl)) as L. rewrite (app_nth1 _ _ _ (n := i)) by lia. rewrite app_nth2 by lia.
    rewrite L. change (nth (3 - 3) [1] 0) with 1. unfold Rdiv. ring.
Qed.
Lemma shape_sdp_sound ut s K v J eps d P : shape_is s K -> shape_proper s -> pv_value v J -> is_mat 4 4 J -> symmetric 4 J -> 0 <= eps -> (0 < d)%nat ->
  rb_shape_constraints ut s v eps d = Ok P -> P -> PSD 4 J /\ (0 < entry J 3 3 -> K (com_J J)).
Proof.
  intros HS HP Hv HJ SJ Heps Hd E HPP. destruct HS as [h c r x Hb HQ|p Hp|h r c e He Lh HQ|L R r c x Hx HQ|L R r c x k Hx Hk HQ]; cbn [rb_shape_constraints shape_proper] in *.
  - eapply box_sdp_sound; eauto.
  - destruct Hp as (OK & _). destruct OK as (_ & _ & HA & Lb & _). eapply poly_sdp_sound; eauto. intros a Ha. apply (proj1 (Forall_forall _ _) (proj2 HA) a Ha).
  - pose proof (ell_init_inv _ _ _ _ He) as (_ & Eh & Er & Ec & MQ & Lc). rewrite Eh in HP. rewrite Er, ?Lh in MQ. rewrite Ec, Lh in Lc.
    destruct (ell_x_constraints _ _ _ _ ut v J eps He Lh HQ HP Hv HJ Heps) as (P' & E' & H). rewrite E in E'. apply Ok_eq in E'. subst P'.
    apply H in HPP as (_ & HR). split; [eapply realizable_psd; eauto|]. intro Hm. destruct HR as (s & Ho & Hn & Hi & HM).
    apply (hull_in_convex 3 (ell_set h (pose_rot 3 r) (pose_tr 3 c)) (map snd s)).
    + apply ell_set_convex; auto.
    + intros w Hw. apply in_map_iff in Hw as (mp & <- & Hmp). auto.
    + intros w Hw. apply in_map_iff in Hw as (mp & <- & Hmp). auto.
    + apply pim_com_hull; auto.
  - eapply cyl_sdp_sound; eauto.
  - destruct HP.
Qed.
Lemma body_sdp_sound ut b Ks v J eps d P : Forall2 shape_is (bd_shapes b) Ks -> (forall s, In s (bd_shapes b) -> shape_proper s) ->
  pv_value v J -> is_mat 4 4 J -> symmetric 4 J -> 0 <= eps -> (0 < d)%nat -> rb_moment_sdp_constraints ut b v eps d = Ok P -> P ->
  exists Js, J = msum 4 4 Js /\ Forall2 (fun (K : vec -> Prop) J' => PSD 4 J' /\ (0 < entry J' 3 3 -> K (com_J J'))) Ks Js /\
    (length (bd_shapes b) <> 1%nat -> PSD 4 (msub J (mscale eps (eye 4)))).
Proof.
  intros HF HP Hv HJ SJ Heps Hd E HPP. destruct (body_cases ut b v eps d) as [(s & Es & E')|(NL & E')]; rewrite E' in E; clear E'.
  - rewrite Es in *. inversion HF as [|s' K l Ks' HK HF']; subst. inversion HF'; subst.
    exists [J]. split; [|split; [|cbn; lia]].
    + unfold msum. cbn [fold_left]. apply (mat_ext 4 4); auto; [apply is_mat_madd; auto; apply is_mat_zeros2|]. intros i j Hi Hj.
      rewrite (entry_madd _ _ 4 4), entry_zeros2 by (auto; apply is_mat_zeros2). ring.
    + constructor; [|constructor]. eapply shape_sdp_sound; eauto. apply HP. now left.
  - unfold body_multi in E. rewrite (pv_ok v J eps Hv HJ Heps) in E. cbn [bind] in E. apply bind_inv in E as (P0 & _ & E). apply Ok_eq in E. subst P.
    destruct HPP as (Js & Lj & FJ & (P & EP & HPP) & EJ & HPS). exists Js. split; [exact EJ|]. split; [|intros _; now apply psd_shift].
    clear - HF HP Hd Lj FJ EP HPP. revert Js Lj FJ P EP HPP. induction HF as [|s K l Ks HK HF IH]; intros [|J' Js] Lj FJ P EP HPP; try discriminate; constructor.
    + cbn [all_constraints] in EP. apply bind_inv in EP as (P1 & E1 & EP). apply bind_inv in EP as (P2 & E2 & EP). apply Ok_eq in EP. subst P.
      inversion FJ as [|? ? (F1 & F2 & F3) FJ']; subst. eapply (shape_sdp_sound ut s K (PVmat J') J' 0 d); eauto.
      * apply HP. now left. * reflexivity. * now apply transpose_symmetric. * lra. * apply HPP.
    + cbn [all_constraints] in EP. apply bind_inv in EP as (P1 & E1 & EP). apply bind_inv in EP as (P2 & E2 & EP). apply Ok_eq in EP. subst P.
      inversion FJ; subst. eapply IH; eauto; [intros; apply HP; now right|apply HPP].
Qed.
