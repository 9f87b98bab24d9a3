(** Random points on surfaces, continued: wrong poses, ellipsoids, examples (C39, C40). *)
From Coq Require Import Permutation.
From Verif Require Import Proofs.Coord Proofs.Hull Model.Util Model.Polydd Model.Poly Model.Inertial Model.Ellipsoid Model.Box Model.Cylinder Model.Random
  Spec.Basic Spec.Shapes Spec.Objects Spec.ShapeObjects Spec.PolySpec Spec.RandomSpec Proofs.BoxP Proofs.EllP Proofs.EllForms Proofs.CylP Proofs.LinAlg Proofs.RandomP Proofs.RandomS.

(** the pose is applied twice: for every translated box some draw leaves the box *)
Lemma box_surface_moved h c r b i : box_init h c r = Ok b -> pose_rot 3 r = eye 3 -> (forall j, (j < 3)%nat -> 0 < nth j h 0) ->
  (i < 3)%nat -> nth i (pose_tr 3 c) 0 <> 0 ->
  exists U counts P, rows_of 2 3 (uniform_draw (-1) 1) U /\ multinomial_draw 2 6 counts /\
    box_random_points_on_surface b 2 U counts (fun P => P) = Ok P /\ forall p, In p P -> ~ box_set h (eye 3) (pose_tr 3 c) p.
Proof.
  intros Hb ER Hh Hi Ht. apply box_init_inv in Hb as (Lh & _ & Eh & Ec & Er & MQ & Lc & _). rewrite ER in Er. set (t := pose_tr 3 c) in *. rewrite Ec in Lc.
  (* a draw near the face on the side of the translation *)
  set (s := if Rlt_dec 0 (nth i t 0) then Rmax 0 (1 - nth i t 0 / (2 * nth i h 0)) else -1).
  assert (Hs : uniform_draw (-1) 1 s /\ nth i h 0 < Rabs (s * nth i h 0 + nth i t 0)).
  { pose proof (Hh i Hi) as H0. unfold s. destruct (Rlt_dec 0 (nth i t 0)) as [P|P].
    - assert (0 < nth i t 0 / (2 * nth i h 0)) by (apply Rdiv_lt_0_compat; lra). pose proof (Rmax_l 0 (1 - nth i t 0 / (2 * nth i h 0))). pose proof (Rmax_r 0 (1 - nth i t 0 / (2 * nth i h 0))).
      split; [split; [lra|apply Rmax_lub_lt; lra]|]. assert (K : (1 - nth i t 0 / (2 * nth i h 0)) * nth i h 0 = nth i h 0 - nth i t 0 / 2) by (field; lra).
      rewrite Rabs_pos_eq by nra. nra.
    - split; [split; lra|]. rewrite Rabs_left by lra. lra. }
  destruct Hs as [Hs1 Hs2]. clearbody s. assert (D0 : uniform_draw (-1) 1 0) by (split; lra).
  assert (RM : forall u v, length u = 3%nat -> length v = 3%nat -> rows_move (eye 3) t [u; v] = [vadd u t; vadd v t]).
  { intros v w Lv Lw. rewrite (rows_move_eq 3); auto; try lia.
    - cbn [map]. unfold move. now rewrite !mat_vec_eye by auto.
    - apply is_mat_eye.
    - apply rows_len_of. intros ? [<-|[<-|[]]]; auto. }
  assert (OUT : forall p, length p = 3%nat -> nth i h 0 < Rabs (nth i p 0 - nth i t 0) -> ~ box_set h (eye 3) t p).
  { intros p Lp K (u & [Lu Bu] & ->). unfold move in K. rewrite mat_vec_eye in K by congruence. rewrite nth_vadd in K by congruence. specialize (Bu i ltac:(lia)).
    replace (nth i u 0 + nth i t 0 - nth i t 0) with (nth i u 0) in K by ring. lra. }
  destruct h as [|x [|y [|z [|]]]]; try discriminate Lh. pose proof (Hh 0 ltac:(lia))%nat as Hx. pose proof (Hh 1 ltac:(lia))%nat as Hy. pose proof (Hh 2 ltac:(lia))%nat as Hz. cbn in Hx, Hy, Hz. clear Hh.
  destruct t as [|t0 [|t1 [|t2 [|]]]]; try discriminate Lc. unfold box_random_points_on_surface, box_random_points. rewrite Eh, Ec, Er in *.
  assert (PA : 0 < y * z /\ 0 < x * z /\ 0 < x * y) by (repeat split; apply Rmult_lt_0_compat; lra).
  assert (WU : forall w0 w1 w2, uniform_draw (-1) 1 w0 -> uniform_draw (-1) 1 w1 -> uniform_draw (-1) 1 w2 -> rows_of 2 3 (uniform_draw (-1) 1) [[w0; w1; w2]; [w0; w1; w2]]).
  { intros. split; [repeat constructor|]. intros q e [<-|[<-|[]]] [<-|[<-|[<-|[]]]]; auto. }
  destruct i as [|[|[|i]]]; try lia; cbn [nth] in *;
  [exists [[s; 0; 0]; [s; 0; 0]], [0;0;0;0;2;0]%nat|exists [[0; s; 0]; [0; s; 0]], [0;0;0;0;2;0]%nat|exists [[0; 0; s]; [0; 0; s]], [2;0;0;0;0;0]%nat]; eexists;
  (split; [apply WU; auto|]); (split; [split; reflexivity|]); cbn [map vmul map2];
  (rewrite Reqb_false; [|lra]); cbn [Nat.eqb]; rewrite RM by reflexivity; cbn [vadd map2];
  match goal with |- context [rows_move _ _ ?X] => let X' := eval lazy -[Rmult Ropp Rdiv IZR Rplus] in X in
    let E := fresh in assert (E : X = X') by (lazy -[Rmult Ropp Rdiv IZR Rplus]; reflexivity); rewrite E, RM by reflexivity end; (split; [reflexivity|]);
  intros p [<-|[<-|[]]]; apply OUT; try reflexivity; cbn [vadd map2 nth];
  match goal with |- _ < Rabs ?e => match type of Hs2 with _ < Rabs ?f => replace e with f by ring; exact Hs2 end end.
Qed.
Lemma box_surface_rotated : exists b Q U counts P, orthogonal 3 Q /\ box_init [1; 1; 1] None (Some Q) = Ok b /\
  rows_of 2 3 (uniform_draw (-1) 1) U /\ multinomial_draw 2 6 counts /\
  box_random_points_on_surface b 2 U counts (fun P => P) = Ok P /\ forall p, In p P -> ~ box_set [1; 1; 1] Q (zeros 3) p.
Proof.
  set (Q := [[3 / 5; - (4 / 5); 0]; [4 / 5; 3 / 5; 0]; [0; 0; 1]]).
  assert (HQ : orthogonal 3 Q). { split; [repeat constructor|]. split; unfold Q; cbn; list_eq; lra. }
  destruct (box_init_good [1; 1; 1] None (Some Q)) as [b Hb]; [reflexivity| |apply HQ|reflexivity|]. { intros [|[|[|]]] Hi; cbn; try lia; lra. }
  exists b, Q, [[9 / 10; -1; 0]; [9 / 10; -1; 0]], [0;0;0;0;2;0]%nat. pose proof (box_init_inv _ _ _ _ Hb) as (Lh & Ph & Eh & Ec & Er & MQ & Lc & _). cbn [pose_rot pose_tr] in Er, Ec.
  assert (RM : forall u v, length u = 3%nat -> length v = 3%nat -> rows_move Q (zeros 3) [u; v] = [move Q (zeros 3) u; move Q (zeros 3) v]).
  { intros v w Lv Lw. rewrite (rows_move_eq 3); auto; try lia.
    - apply HQ.
    - apply rows_len_of. intros ? [<-|[<-|[]]]; auto. }
  eexists. split; [exact HQ|]. split; [exact Hb|]. split; [|split; [split; reflexivity|]].
  { split; [repeat constructor|]. intros q e [<-|[<-|[]]] [<-|[<-|[<-|[]]]]; split; lra. }
  unfold box_random_points_on_surface, box_random_points. rewrite Eh, Ec, Er. cbn [map vmul map2]. rewrite Reqb_false by lra. cbn [Nat.eqb]. rewrite RM by reflexivity.
  match goal with |- context [rows_move Q (zeros 3) ?X] => assert (E : X = [[67 / 50; 3 / 25; 1]; [67 / 50; 3 / 25; 1]]) by (lazy -[Rmult Ropp Rdiv IZR Rplus]; list_eq; lra) end.
  rewrite E, RM by reflexivity. split; [reflexivity|]. intros p I (u & [Lu Bu] & Ep).
  assert (Ep' : p = move Q (zeros 3) [67 / 50; 3 / 25; 1]) by (destruct I as [<-|[<-|[]]]; reflexivity). rewrite Ep' in Ep.
  assert (LM : length (move Q (zeros 3) [67 / 50; 3 / 25; 1]) = 3%nat) by (apply move_len; [apply HQ|reflexivity]).
  apply (move_inv 3) in Ep; auto; try lia.
  assert (Eu : [67 / 50; 3 / 25; 1] = u). { rewrite Ep. apply (move_inv 3); auto; lia. }
  subst u. rewrite <- Eu in Bu. specialize (Bu 0%nat ltac:(cbn; lia)). cbn in Bu. rewrite Rabs_pos_eq in Bu by lra. lra.
Qed.

(** ** Ellipsoid.random_points_on_surface *)
Definition on_local (h r : vec) : Prop := exists u, length u = length h /\ dot u u = 1 /\ r = vmul u h.
Lemma surface_accept_in h p u r : In r (surface_accept h p u) -> exists x, In x p /\ r = vmul x h.
Proof.
  unfold surface_accept. intro I. apply in_map_iff in I as ([a b] & <- & I). apply filter_In in I as [I _]. apply in_combine_l in I. apply in_map_iff in I as (x & <- & I). eauto.
Qed.
Lemma surface_accept_length h p u : (length (surface_accept h p u) <= length p)%nat.
Proof.
  unfold surface_accept. rewrite map_length. eapply Nat.le_trans; [apply filter_length_le|]. rewrite combine_length, map2_length, !map_length. lia.
Qed.
Section ell_loop.
  Variable h : vec.
  Variable n : nat.
  Variable draw : nat -> nat -> mat * vec.
  Hypothesis Hh : (2 <= length h)%nat.
  Hypothesis Hd : forall k r, normal_rows r (length h) (fst (draw k r)) /\ draws_of r unit_draw (snd (draw k r)).
  Lemma ell_loop_spec fuel : forall turn points count, length points = n -> (count <= n)%nat ->
    (forall r, In r (firstn count points) -> on_local h r) ->
    ell_surface_loop h n draw fuel turn points count = None \/
    exists P, ell_surface_loop h n draw fuel turn points count = Some (Ok P) /\ length P = n /\ forall r, In r P -> on_local h r.
  Proof.
    induction fuel as [|fuel IH]; intros turn points count HL HC HI; cbn [ell_surface_loop]; destruct (Nat.ltb count n) eqn:E; auto.
    1,3: apply Nat.ltb_ge in E; right; exists points; split; [reflexivity|]; split; [auto|]; rewrite firstn_all2 in HI by lia; exact HI.
    apply Nat.ltb_lt in E. destruct (Hd turn (n - count)%nat) as [HX HU]. destruct (draw turn (n - count)%nat) as [X u]. cbn [fst snd] in HX, HU.
    destruct (hypersphere_good (n - count) (length h - 1) X) as (p & Ep & Mp & Np); [lia|replace (length h - 1 + 1)%nat with (length h) by lia; auto|]. rewrite Ep.
    replace (length h - 1 + 1)%nat with (length h) in Mp by lia. pose proof (surface_accept_length h p u) as LA. assert (Lp : length p = (n - count)%nat) by apply Mp.
    destruct (write_rows_spec points count (surface_accept h p u) n) as [W1 W2]; [auto|lia|].
    apply IH; [exact W1|lia|]. rewrite W2. intros r I. apply in_app_or in I as [I|I]; [auto|]. apply surface_accept_in in I as (x & I & ->).
    exists x. split; [eapply is_mat_in; eauto|]. split; [|reflexivity]. rewrite <- norm_sqr, (Np x I). ring.
  Qed.
End ell_loop.
Lemma vmul_swap u h : length u = length h -> vmul u h = vmul h u.
Proof. intro L. apply (vec_ext (length h)); [len|len|]. intros i Hi. rewrite !nth_vmul by congruence. ring. Qed.
Lemma forallb_pos h : forallb (Rltb 0) h = true <-> forall i, (i < length h)%nat -> 0 < nth i h 0.
Proof.
  rewrite forallb_forall. split.
  - intros H i Hi. specialize (H _ (nth_In h 0 Hi)). unfold Rltb in H. destruct (Rlt_dec 0 (nth i h 0)); [auto|discriminate].
  - intros H x I. apply (In_nth _ _ 0) in I as (i & Hi & <-). unfold Rltb. destruct (Rlt_dec 0 (nth i h 0)); [auto|]. exfalso. auto.
Qed.
(** the points are on the ellipsoid whose rotation is transposed *)
Lemma ell_surface_spec h r c e n draw fuel : ell_init h r c = Ok e -> (2 <= length h)%nat ->
  (forall i, (i < length h)%nat -> 0 < nth i h 0) ->
  (forall k m, normal_rows m (length h) (fst (draw k m)) /\ draws_of m unit_draw (snd (draw k m))) ->
  ell_random_points_on_surface e n draw fuel = None \/
  exists P, ell_random_points_on_surface e n draw fuel = Some (Ok P) /\ length P = n /\
    forall p, In p P -> ell_boundary h (transpose (pose_rot (length h) r)) (pose_tr (length h) c) p.
Proof.
  intros He Hn Hpos Hd. apply ell_init_inv in He as (Ph & Eh & Er & Ec & MQ & Lc). unfold ell_random_points_on_surface. rewrite Eh, Er, Ec. rewrite (proj2 (forallb_pos h) Hpos).
  destruct (ell_loop_spec h n draw Hn Hd fuel 0 (zeros2 n (length h)) 0) as [->|(P & -> & LP & HP)].
  - unfold zeros2. apply repeat_length.
  - lia.
  - intros ? [].
  - now left.
  - right. eexists. split; [reflexivity|]. split; [unfold mat_mul; rewrite !map_length; exact LP|]. intros p I. apply in_map_iff in I as (q & <- & I). unfold mat_mul in I. apply in_map_iff in I as (x & <- & I).
    destruct (HP x I) as (u & Lu & Du & ->). exists u. split; [auto|]. split; [auto|]. rewrite vec_mat_mat_vec. unfold move. now rewrite vmul_swap by auto.
Qed.
(** so they are on the surface when the rotation is symmetric *)
Lemma ell_surface_symmetric h r c e n draw fuel P : ell_init h r c = Ok e -> (2 <= length h)%nat -> symmetric (length h) (pose_rot (length h) r) ->
  (forall k m, normal_rows m (length h) (fst (draw k m)) /\ draws_of m unit_draw (snd (draw k m))) ->
  ell_random_points_on_surface e n draw fuel = Some (Ok P) ->
  length P = n /\ forall p, In p P -> ell_boundary h (pose_rot (length h) r) (pose_tr (length h) c) p.
Proof.
  intros He Hn HS Hd E. assert (Hpos : forall i, (i < length h)%nat -> 0 < nth i h 0).
  { apply forallb_pos. pose proof (ell_init_inv _ _ _ _ He) as (_ & Eh & _). unfold ell_random_points_on_surface in E. rewrite Eh in E. destruct (forallb (Rltb 0) h); [auto|discriminate]. }
  destruct (ell_surface_spec h r c e n draw fuel He Hn Hpos Hd) as [K|(P' & K & LP & HP)]; [congruence|]. rewrite K in E. injection E as ->. split; [exact LP|].
  intros p I. pose proof (HP p I) as B. pose proof (ell_init_inv _ _ _ _ He) as (_ & _ & Er & _ & MQ & _). rewrite Er in MQ. rewrite (symmetric_transpose (length h)) in B; auto.
Qed.
Lemma ell_surface_degenerate h r c e n draw fuel : ell_init h r c = Ok e -> In 0 h -> ell_random_points_on_surface e n draw fuel = Some (Raise AssertionError).
Proof.
  intros He I. apply ell_init_inv in He as (Ph & Eh & _). unfold ell_random_points_on_surface. rewrite Eh. destruct (forallb (Rltb 0) h) eqn:E; [|reflexivity].
  rewrite forallb_forall in E. specialize (E 0 I). unfold Rltb in E. destruct (Rlt_dec 0 0); [lra|discriminate].
Qed.
Lemma ell_surface_one h r c e n draw fuel : ell_init h r c = Ok e -> length h = 1%nat -> (0 < n)%nat -> (0 < fuel)%nat ->
  ell_random_points_on_surface e n draw fuel = Some (Raise AssertionError).
Proof.
  intros He L Hn Hf. apply ell_init_inv in He as (Ph & Eh & _). unfold ell_random_points_on_surface. rewrite Eh. destruct (forallb (Rltb 0) h); [|reflexivity].
  destruct fuel; [lia|]. cbn [ell_surface_loop]. rewrite (proj2 (Nat.ltb_lt 0 n) Hn). rewrite L. destruct (draw 0%nat (n - 0)%nat). reflexivity.
Qed.
(** the answer does not depend on how many turns are allowed once there is one *)
Lemma ell_loop_fuel h n draw fuel : forall fuel' turn points count x, (fuel <= fuel')%nat -> ell_surface_loop h n draw fuel turn points count = Some x -> ell_surface_loop h n draw fuel' turn points count = Some x.
Proof.
  induction fuel as [|fuel IH]; intros [|fuel'] turn points count x Hf E; cbn [ell_surface_loop] in *; try lia; destruct (Nat.ltb count n); auto; try discriminate.
  destruct (draw turn (n - count)%nat) as [X u]. destruct (random_points_on_hypersphere _ X); auto. apply IH; [lia|exact E].
Qed.
Lemma ell_surface_fuel e n draw fuel fuel' x : (fuel <= fuel')%nat -> ell_random_points_on_surface e n draw fuel = Some x -> ell_random_points_on_surface e n draw fuel' = Some x.
Proof.
  intros Hf E. unfold ell_random_points_on_surface in *. destruct (forallb _ _); [|exact E]. destruct (ell_surface_loop _ _ _ fuel _ _ _) as [y|] eqn:K; [|discriminate].
  rewrite (ell_loop_fuel _ _ _ _ _ _ _ _ _ Hf K). exact E.
Qed.
(** acceptance ratio: a draw u <= min/max is always accepted, and the ratio never exceeds 1 *)
Lemma lmin_le h : forall x, In x h -> lmin h <= x.
Proof.
  destruct h as [|a h]; [easy|]. cbn [lmin]. intros x [<-|I].
  - clear. revert a. induction h as [|b h IH]; intros a; cbn [fold_left]; [lra|]. eapply Rle_trans; [apply IH|apply Rmin_l].
  - revert a. induction h as [|b h IH]; intros a; cbn [fold_left]; [easy|]. destruct I as [<-|I]; [|auto].
    eapply Rle_trans; [|apply (Rmin_r a b)]. generalize (Rmin a b). clear. induction h as [|c h IH]; intros a; cbn [fold_left]; [lra|]. eapply Rle_trans; [apply IH|apply Rmin_l].
Qed.
Lemma lmin_pos h : h <> [] -> (forall x, In x h -> 0 < x) -> 0 < lmin h.
Proof.
  destruct h as [|a h]; [easy|]. intros _ H. cbn [lmin]. pose proof (H a (or_introl eq_refl)) as Ha. assert (H' : forall x, In x h -> 0 < x) by (intros; apply H; now right). clear H.
  revert a Ha. induction h as [|b h IH]; intros a Ha; cbn [fold_left]; [auto|]. apply IH; [intros; apply H'; now right|]. apply Rmin_glb_lt; auto. apply H'. now left.
Qed.
Lemma surface_g_bounds h p M : (forall x, In x h -> 0 < x <= M) -> length p = length h -> h <> [] -> dot p p = 1 ->
  lmin h / M <= surface_g (lmin h) (map (fun a => 1 / a ^ 4) h) (vmul p h) <= 1.
Proof.
  intros HM Lp NE Dp. pose proof (lmin_pos h NE (fun x I => proj1 (HM x I))) as Hm. pose proof (lmin_le h) as Hle. set (m := lmin h) in *. clearbody m.
  assert (M0 : 0 < M) by (destruct h as [|a ?]; [easy|]; pose proof (HM a (or_introl eq_refl)); lra).
  set (S := lsum (vmul (map (fun a => a ^ 2) (vmul p h)) (map (fun a => 1 / a ^ 4) h))).
  assert (B : dot p p / (M * M) <= S <= dot p p / (m * m)).
  { unfold S, dot. clear Dp NE S. revert p Lp. induction h as [|a h IH]; intros [|x p] Lp; try discriminate Lp; [cbn; unfold Rdiv; lra|].
    cbn [vmul map2 map]. change (lsum (?x :: ?l)) with (x + lsum l). fold (vmul p h). fold (vmul (map (fun a => a ^ 2) (vmul p h)) (map (fun a => 1 / a ^ 4) h)).
    specialize (IH (fun x I => HM x (or_intror I)) (fun x I => Hle x (or_intror I)) p ltac:(cbn in Lp; lia)).
    pose proof (HM a (or_introl eq_refl)) as [A1 A2]. pose proof (Hle a (or_introl eq_refl)) as A3.
    replace ((x * a) ^ 2 * (1 / a ^ 4)) with (x * x * / (a * a)) by (field; lra).
    assert (I1 : / (M * M) <= / (a * a)) by (apply Rinv_le_contravar; nra). assert (I2 : / (a * a) <= / (m * m)) by (apply Rinv_le_contravar; nra).
    pose proof (Rle_0_sqr x) as SQ. unfold Rsqr in SQ. unfold Rdiv in *. rewrite !Rmult_plus_distr_r. split; nra. }
  rewrite Dp in B. unfold surface_g. fold S. split.
  - unfold Rdiv. apply Rmult_le_compat_l; [lra|]. replace (/ M) with (sqrt (1 / (M * M))); [apply sqrt_le_1_alt; lra|].
    replace (1 / (M * M)) with (/ M * / M) by (field; lra). apply sqrt_square. left. now apply Rinv_0_lt_compat.
  - apply Rle_trans with (m * sqrt (1 / (m * m))); [apply Rmult_le_compat_l; [lra|apply sqrt_le_1_alt; lra]|].
    replace (1 / (m * m)) with (/ m * / m) by (field; lra). rewrite sqrt_square by (left; now apply Rinv_0_lt_compat). rewrite Rinv_r by lra. lra.
Qed.
(** if in every turn one of the uniform draws is at most min/max of the half extents then n turns suffice *)
Lemma filter_combine_nonempty {A} (l : list A) (b : list bool) i d : (i < length l)%nat -> (i < length b)%nat -> nth i b false = true -> In (nth i l d) (map fst (filter snd (combine l b))).
Proof.
  revert b i. induction l as [|a l IH]; intros [|x b] [|i] H1 H2 E; cbn in *; try lia.
  - subst x. cbn. now left.
  - specialize (IH b i ltac:(lia) ltac:(lia) E). destruct x; cbn; auto.
Qed.
Lemma nth_map2_in {A B C} (f : A -> B -> C) l1 l2 da db dc i : (i < length l1)%nat -> (i < length l2)%nat -> nth i (map2 f l1 l2) dc = f (nth i l1 da) (nth i l2 db).
Proof. revert l2 i. induction l1 as [|a l1 IH]; intros [|b l2] [|i] H1 H2; cbn in *; try lia; auto. apply IH; lia. Qed.
Lemma ell_surface_progress h r c e n draw M : ell_init h r c = Ok e -> (2 <= length h)%nat -> (forall x, In x h -> 0 < x <= M) ->
  (forall k m, normal_rows m (length h) (fst (draw k m)) /\ draws_of m unit_draw (snd (draw k m))) ->
  (forall k m, (0 < m)%nat -> exists i, (i < m)%nat /\ nth i (snd (draw k m)) 0 <= lmin h / M) ->
  exists P, ell_random_points_on_surface e n draw n = Some (Ok P).
Proof.
  intros He Hn HM Hd HU. assert (NE : h <> []) by (intros ->; cbn in Hn; lia).
  assert (Hpos : forall i, (i < length h)%nat -> 0 < nth i h 0) by (intros i Hi; apply HM; now apply nth_In).
  destruct (ell_surface_spec h r c e n draw n He Hn Hpos Hd) as [K|(P & K & _)]; [|eauto]. exfalso.
  apply ell_init_inv in He as (Ph & Eh & _). unfold ell_random_points_on_surface in K. rewrite Eh in K. rewrite (proj2 (forallb_pos h) Hpos) in K.
  assert (Z : forall fuel turn points count, (n <= fuel + count)%nat -> (count <= n)%nat -> ell_surface_loop h n draw fuel turn points count <> None).
  { clear K. induction fuel as [|fuel IH]; intros turn points count HF HC; cbn [ell_surface_loop]; destruct (Nat.ltb count n) eqn:E; try discriminate.
    - apply Nat.ltb_lt in E. lia.
    - apply Nat.ltb_lt in E. destruct (Hd turn (n - count)%nat) as [HX [Lu _]]. destruct (HU turn (n - count)%nat ltac:(lia)) as (i & Hi & Ui). destruct (draw turn (n - count)%nat) as [X u]. cbn [fst snd] in HX, Lu, Ui.
      destruct (hypersphere_good (n - count) (length h - 1) X) as (p & Ep & Mp & Np); [lia|replace (length h - 1 + 1)%nat with (length h) by lia; auto|]. rewrite Ep.
      replace (length h - 1 + 1)%nat with (length h) in Mp by lia. pose proof (surface_accept_length h p u) as LA. assert (Lp : length p = (n - count)%nat) by apply Mp.
      assert (I : In (nth i (map (fun x => vmul x h) p) []) (surface_accept h p u)).
      { unfold surface_accept. apply filter_combine_nonempty; rewrite ?map2_length, ?map_length; try lia.
        rewrite (nth_map2_in _ _ _ 0 []) by (rewrite ?map_length; lia). apply Rleb_iff. eapply Rle_trans; [exact Ui|].
        rewrite (nth_indep _ [] (vmul [] h)) by (rewrite map_length; lia). rewrite (map_nth (fun x => vmul x h)).
        assert (Ip : In (nth i p []) p) by (apply nth_In; lia). apply surface_g_bounds; auto; [eapply is_mat_in; eauto|]. rewrite <- norm_sqr, (Np _ Ip). ring. }
      assert (0 < length (surface_accept h p u))%nat by (destruct (surface_accept h p u); [easy|cbn; lia]). apply IH; lia. }
  destruct (ell_surface_loop h n draw n 0 (zeros2 n (length h)) 0) as [[?|?|]|] eqn:E; try discriminate. exact (Z _ _ _ _ (Nat.le_add_r n 0) ltac:(lia) E).
Qed.
Lemma in_pos h : (forall i, (i < length h)%nat -> 0 < nth i h 0) -> forall x, In x h -> 0 < x <= lsum h.
Proof.
  intros H. assert (P : forall x, In x h -> 0 < x) by (intros x I; apply (In_nth _ _ 0) in I as (i & Hi & <-); auto). clear H. induction h as [|a h IH]; [easy|].
  change (lsum (a :: h)) with (a + lsum h). pose proof (P a (or_introl eq_refl)). pose proof (lsum_nonneg h (fun x I => Rlt_le _ _ (P x (or_intror I)))).
  intros x [<-|I]; [lra|]. pose proof (IH (fun x I => P x (or_intror I)) x I). lra.
Qed.
(** every point of that surface is drawn *)
Lemma ell_surface_cover h r c e u : ell_init h r c = Ok e -> (2 <= length h)%nat -> (forall i, (i < length h)%nat -> 0 < nth i h 0) ->
  length u = length h -> dot u u = 1 ->
  exists draw, (forall k m, normal_rows m (length h) (fst (draw k m)) /\ draws_of m unit_draw (snd (draw k m))) /\
    ell_random_points_on_surface e 1 draw 1 = Some (Ok [move (transpose (pose_rot (length h) r)) (pose_tr (length h) c) (vmul h u)]).
Proof.
  intros He Hn Hpos Lu Du. pose proof (ell_init_inv _ _ _ _ He) as (Ph & Eh & Er & Ec & MQ & Lc).
  assert (NZ : u <> zeros (length h)).
  { intros ->. rewrite (dot_rsum (length h)) in Du by len. rewrite rsum_zero in Du; [lra|]. intros. rewrite nth_zeros. ring. }
  assert (N1 : norm u = 1) by (unfold norm; rewrite Du; apply sqrt_1). assert (NE : h <> []) by (intros ->; cbn in Hn; lia).
  exists (fun _ m => (repeat u m, repeat 0 m)). split.
  - intros _ m. cbn [fst snd]. split; split.
    + apply is_mat_of; [apply repeat_length|]. intros x I. apply repeat_spec in I. now subst.
    + intros x I. apply repeat_spec in I. now subst.
    + apply repeat_length.
    + intros x I. apply repeat_spec in I. subst. split; lra.
  - unfold ell_random_points_on_surface. rewrite Eh, Er, Ec. rewrite (proj2 (forallb_pos h) Hpos). cbn [ell_surface_loop]. rewrite (proj2 (Nat.ltb_lt 0 1)) by lia. cbn [Nat.sub repeat].
    unfold random_points_on_hypersphere. rewrite (proj2 (Nat.leb_le 1 (length h - 1))) by lia. cbn [assert_ bind mapM].
    destruct (normalize_good u) as [-> _]; [congruence|]. cbn [bind]. replace (vscale (/ norm u) u) with u by (rewrite N1, Rinv_1; symmetry; apply vscale_1).
    unfold surface_accept. cbn [map map2 combine filter snd]. rewrite (proj2 (Rleb_iff 0 _)).
    + cbn [map fst write_rows firstn app length Nat.add skipn zeros2 repeat Nat.ltb Nat.leb mat_mul]. rewrite vec_mat_mat_vec. unfold move. rewrite vmul_swap by auto. reflexivity.
    + pose proof (lmin_pos h NE (fun x I => proj1 (in_pos h Hpos x I))).
      destruct (surface_g_bounds h u (lsum h) (in_pos h Hpos) Lu NE Du) as [K _]. eapply Rle_trans; [|exact K]. apply Rmult_le_pos; [lra|]. left. apply Rinv_0_lt_compat.
      destruct h as [|a h]; [easy|]. destruct (in_pos _ Hpos a (or_introl eq_refl)). lra.
Qed.
Lemma ell_surface_rotated : exists e Q draw P, orthogonal 3 Q /\ ell_init [2; 1; 1] (Some Q) None = Ok e /\
  (forall k m, normal_rows m 3 (fst (draw k m)) /\ draws_of m unit_draw (snd (draw k m))) /\
  ell_random_points_on_surface e 1 draw 1 = Some (Ok P) /\ forall p, In p P -> ~ ell_set [2; 1; 1] Q (zeros 3) p.
Proof.
  set (Q := [[3 / 5; - (4 / 5); 0]; [4 / 5; 3 / 5; 0]; [0; 0; 1]]).
  assert (HQ : orthogonal 3 Q). { split; [repeat constructor|]. split; unfold Q; cbn; list_eq; lra. }
  assert (Hp : forall i, (i < 3)%nat -> 0 < nth i [2; 1; 1] 0) by (intros [|[|[|]]] Hi; cbn; try lia; lra).
  assert (He := ell_init_good [2; 1; 1] (Some Q) None (fun i Hi => Rlt_le _ _ (Hp i Hi)) (proj1 HQ) eq_refl).
  destruct (ell_surface_cover _ _ _ _ [1; 0; 0] He ltac:(cbn; lia) Hp eq_refl) as (draw & Hd & E); [unfold dot; cbn; lra|].
  eexists _, Q, draw, _. split; [exact HQ|]. split; [exact He|]. split; [exact Hd|]. split; [exact E|]. cbn [pose_rot pose_tr length]. intros p [<-|[]] (u & Lu & Du & Eu).
  assert (LL : length (move (transpose Q) (zeros 3) (vmul [2; 1; 1] [1; 0; 0])) = 3%nat) by reflexivity.
  apply (move_inv 3) in Eu; auto; try lia; [|destruct u as [|? [|? [|? [|]]]]; try discriminate Lu; reflexivity].
  destruct u as [|a [|b [|c [|]]]]; try discriminate Lu. unfold Q in Eu. cbn in Eu. injection Eu as E1 E2 E3. unfold dot in Du. cbn in Du.
  assert (b = - (48 / 25)) by lra. subst b. pose proof (Rle_0_sqr a). pose proof (Rle_0_sqr c). unfold Rsqr in *. nra.
Qed.

(** ** concrete cases *)
Lemma random_case : unit_draw (1 / 2) /\ draws_of 3 unit_draw [0; 1 / 2; 3 / 4] /\
  rows_of 3 3 (uniform_draw (-1) 1) [[-1; 0; 1 / 2]; [1 / 2; 1 / 3; 0]; [0; 0; - (1 / 4)]] /\
  rows_of 2 3 unit_draw [[0; 1 / 2; 0]; [1 / 3; 1 / 3; 1 / 4]] /\ (forall w, In w [[0; 1 / 2; 0]; [1 / 3; 1 / 3; 1 / 4]] -> w <> zeros 3) /\
  normal_rows 2 3 [[3; 0; 4]; [0; -1; 0]] /\ draws_of 2 unit_draw [0; 1 / 8] /\
  random_points_in_ball 3 [[3; 0; 4]; [0; -1; 0]] [0; 1 / 8] = Ok [[0; 0; 0]; [0; - (1 / 2); 0]].
Proof.
  split; [split; lra|]. split; [split; [reflexivity|]; intros x [<-|[<-|[<-|[]]]]; split; lra|].
  split; [split; [repeat constructor|]; intros q x [<-|[<-|[<-|[]]]] [<-|[<-|[<-|[]]]]; split; lra|].
  split; [split; [repeat constructor|]; intros q x [<-|[<-|[]]] [<-|[<-|[<-|[]]]]; split; lra|].
  split; [intros w [<-|[<-|[]]] E; injection E; intros; lra|].
  assert (N1 : norm [3; 0; 4] = 5). { unfold norm, dot. cbn. replace (3 * 3 + (0 * 0 + (4 * 4 + 0))) with (5 * 5) by ring. apply sqrt_square; lra. }
  assert (N2 : norm [0; -1; 0] = 1). { unfold norm, dot. cbn. replace (0 * 0 + (-1 * -1 + (0 * 0 + 0))) with 1 by ring. apply sqrt_1. }
  split; [split; [repeat constructor|]; intros w [<-|[<-|[]]] E; injection E; intros; lra|].
  split; [split; [reflexivity|]; intros x [<-|[<-|[]]]; split; lra|].
  unfold random_points_in_ball, random_points_on_hypersphere. cbn [Nat.leb assert_ bind Nat.sub mapM]. unfold normalize_row. rewrite N1, N2, !Reqb_false by lra. cbn [bind map2].
  unfold rpow at 1. rewrite Reqb_true by reflexivity. replace (1 / 8) with ((1 / 2) ^ 3) by lra. rewrite rpow_root by (try lia; lra). cbn. f_equal. list_eq; field.
Qed.
(** two of the three candidates of the first batch are accepted, the missing one in the second *)
Lemma rejection_case : let inside := [fun p => Rleb (nth 0 p 0) 1; fun p => Rleb 5 (nth 0 p 0)] in
  let draw k r := if Nat.eqb k 0 then firstn r ([[0]; [3]; [6]] ++ repeat [0] r) else repeat [1] r in
  (forall k r, length (draw k r) = r) /\ rejection_sample inside draw 3 2 = Ok [[0]; [6]; [1]] /\ rejection_sample inside draw 3 1 = Raise ValueError.
Proof.
  intros inside draw. split; [|split].
  - intros k r. unfold draw. destruct (Nat.eqb k 0); [|apply repeat_length]. rewrite firstn_length, app_length, repeat_length. cbn [length]. lia.
  - unfold rejection_sample, inside, draw. cbn. rewrite (proj2 (Rleb_iff 0 1)), (proj2 (Rleb_iff 1 1)), (proj2 (Rleb_iff 5 6)) by lra. cbn.
    assert (F1 : Rleb 3 1 = false) by (unfold Rleb; destruct (Rle_dec 3 1); [lra|auto]). assert (F2 : Rleb 5 3 = false) by (unfold Rleb; destruct (Rle_dec 5 3); [lra|auto]).
    rewrite F1, F2. cbn. rewrite ?orb_true_r. cbn. rewrite (proj2 (Rleb_iff 1 1)) by lra. cbn. reflexivity.
  - unfold rejection_sample, inside, draw. cbn. rewrite (proj2 (Rleb_iff 0 1)), (proj2 (Rleb_iff 5 6)) by lra. cbn.
    assert (F1 : Rleb 3 1 = false) by (unfold Rleb; destruct (Rle_dec 3 1); [lra|auto]). assert (F2 : Rleb 5 3 = false) by (unfold Rleb; destruct (Rle_dec 5 3); [lra|auto]).
    rewrite F1, F2. cbn. rewrite ?orb_true_r. cbn. reflexivity.
Qed.
(** a rotated and translated box with draws for points on its edges *)
Lemma edges_case : exists b Q counts tx ty tz, orthogonal 3 Q /\ Q <> eye 3 /\ box_init [1; 2; 3] (Some [10; 0; 0]) (Some Q) = Ok b /\ 0 < lsum [1; 2; 3] /\
  multinomial_draw 3 12 counts /\ (forall x, In x tx \/ In x ty \/ In x tz -> uniform_draw (-1) 1 x) /\ shuffles (@rev vec) /\
  box_random_points_on_edges b 3 counts tx ty tz (@rev vec) =
    Ok (map (move Q [10; 0; 0]) [[-1; -2; 3 / 4]; [-1; 1; - 3]; [1 / 2; 2; -3]]).
Proof.
  set (Q := [[3 / 5; - (4 / 5); 0]; [4 / 5; 3 / 5; 0]; [0; 0; 1]]).
  assert (HQ : orthogonal 3 Q). { split; [repeat constructor|]. split; unfold Q; cbn; list_eq; lra. }
  destruct (box_init_good [1; 2; 3] (Some [10; 0; 0]) (Some Q)) as [b Hb]; [reflexivity| |apply HQ|reflexivity|]. { intros [|[|[|]]] Hi; cbn; try lia; lra. }
  exists b, Q, [0;1;0;0; 0;0;1;0; 0;0;1;0]%nat, [1 / 2], [1 / 2], [1 / 4]. split; [exact HQ|]. split; [intro E; injection E; intros; lra|]. split; [exact Hb|]. split; [unfold lsum; cbn; lra|].
  split; [split; reflexivity|]. split; [intros x [[<-|[]]|[[<-|[]]|[<-|[]]]]; split; lra|]. split; [intro; apply Permutation_sym, Permutation_rev|].
  pose proof (box_init_inv _ _ _ _ Hb) as (Lh & Ph & Eh & Ec & Er & MQ & Lc & _). cbn [pose_rot pose_tr] in Er, Ec. unfold box_random_points_on_edges. rewrite Eh, Ec, Er. rewrite Reqb_false by lra.
  match goal with |- Ok (rows_move _ _ ?X) = _ => assert (E : X = [[-1; -2; 3 / 4]; [-1; 1; - 3]; [1 / 2; 2; -3]]) by (lazy -[Rmult Ropp Rdiv IZR Rplus]; list_eq; lra) end.
  rewrite E. rewrite (rows_move_eq 3); auto; try apply HQ; try lia. apply rows_len_of. intros ? [<-|[<-|[<-|[]]]]; reflexivity.
Qed.
