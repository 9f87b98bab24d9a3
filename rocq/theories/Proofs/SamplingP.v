(** C102: the samplers of the box have the uniform law. *)
From Coq Require Import Permutation.
From Coquelicot Require Import Coquelicot.
From Verif Require Import Base.Vec Base.VecFacts Spec.Basic Spec.Shapes Spec.ShapeObjects Spec.Integrals Spec.RandomSpec Spec.Uniform Spec.Expect
  Model.Util Model.Polydd Model.Poly Model.Inertial Model.Ellipsoid Model.Box Model.Cylinder Model.Random Model.MonteCarlo
  Proofs.Coord Proofs.Hull Proofs.BoxP Proofs.IntegralP Proofs.DensityP Proofs.RandomP Proofs.RandomS Proofs.UniformP Proofs.Decomp Proofs.ExpectP Proofs.MonteCarloP Proofs.MonteCarloQ Proofs.MonteCarloR Proofs.VolumeV.

Lemma kinds_estimate d K (P : nat -> vec -> vec) (f : vec -> R) (ms qs pv : vec) n run (stat : mat -> R) : length ms = K -> length qs = K -> length pv = K -> lsum pv = 1 -> (0 < n)%nat ->
  (forall k, (k < K)%nat -> mean_u d (fun r => f (P k r)) (nth k ms 0)) ->
  (forall k, (k < K)%nat -> mean_u d (fun r => f (P k r) * f (P k r)) (nth k qs 0)) ->
  (forall counts U, multinomial_draw n (length pv) counts -> rows_of n d (uniform_draw (-1) 1) U ->
    exists A, run counts U = Ok A /\ stat A = / INR n * lsum (map f (map2 P (expand 0 counts) U))) ->
  let t := wsum pv (fun k => nth k ms 0) in
  estimates_of pv n (rows_of n d (uniform_draw (-1) 1)) (mean_rows d n) run stat t ((wsum pv (fun k => nth k qs 0) - t * t) / INR n).
Proof.
  intros Lm Lq Lp Hpv Hn Hm Hq Hrun t. set (m1 := fun k => nth k ms 0) in *. set (q1 := fun k => nth k qs 0) in *.
  set (g := fun k r => if Nat.ltb k K then f (P k r) else 0). set (c := / INR n). assert (N0 : INR n <> 0) by (apply not_0_INR; lia).
  assert (Gm : forall k, mean_u d (g k) (m1 k)).
  { intro k. unfold g, m1. destruct (Nat.ltb_spec k K); [now apply Hm|]. rewrite nth_overflow by lia. apply mean_u_const. }
  assert (Gq : forall k, mean_u d (fun r => g k r * g k r) (q1 k)).
  { intro k. unfold g, q1. destruct (Nat.ltb_spec k K); [now apply Hq|]. rewrite nth_overflow by lia. eapply mean_u_eq; [apply (mean_u_const d (0 * 0))|ring]. }
  exists (fun counts U => c * msum g (expand 0 counts) U), (fun counts => c * lsum (map m1 (expand 0 counts))),
    (fun counts => (- t + c * lsum (map m1 (expand 0 counts))) ^ 2 + c * c * lsum (map (fun k => q1 k - m1 k * m1 k) (expand 0 counts))).
  split; [|split; [|split]].
  - intros counts U HC HU. destruct (Hrun counts U HC HU) as (A & E & EA). exists A. split; [exact E|]. rewrite EA. unfold c, msum. f_equal. f_equal.
    assert (HK : forall k, In k (expand 0 counts) -> (k < K)%nat). { intros k I. apply expand_in in I. destruct HC as [HC _]. lia. }
    clear -HK. revert U HK. induction (expand 0 counts) as [|k ks IH]; intros [|r U] HK; cbn [map2 map]; auto. rewrite IH by (intros; apply HK; now right).
    unfold g at 2. rewrite (proj2 (Nat.ltb_lt k K)) by (apply HK; now left). reflexivity.
  - intros counts [HK HC]. assert (LX : length (expand 0 counts) = n) by now rewrite expand_length.
    pose proof (rows_mean d g m1 Gm (expand 0 counts) 0 c) as R1. pose proof (rows_mean_sq d g m1 q1 Gm Gq (expand 0 counts) (- t) c) as R2. rewrite LX in R1, R2. split.
    + eapply mean_rows_eq; [eapply mean_rows_ext; [|exact R1]|]; [intros; cbn|]; ring.
    + eapply mean_rows_ext; [|exact R2]. intros; cbn. ring.
  - unfold multinomial_mean. transitivity (cat_mean pv n (fun s => 0 + c * lsum (map m1 s))).
    + apply cat_ext. intros s Ls Hs. rewrite tally_sum by exact Hs. ring.
    + rewrite cat_sum by auto. fold t. unfold c. field. exact N0.
  - unfold multinomial_mean. transitivity (cat_mean pv n (fun s => (- t + c * lsum (map m1 s)) ^ 2 + c * c * lsum (map (fun k => q1 k - m1 k * m1 k) s))).
    + apply cat_ext. intros s Ls Hs. rewrite !tally_sum by exact Hs. ring.
    + rewrite cat_sum_sq by auto. fold t.
      rewrite (wsum_ext pv (fun k => q1 k - m1 k * m1 k) (fun k => 0 + 1 * q1 k + (-1) * (m1 k * m1 k))) by (intros; ring).
      rewrite wsum_lin by auto. unfold c. field. exact N0.
Qed.

(** ** one sample *)
Lemma scale_integral g w T : 0 < w -> integral g (- w) w T -> integral (fun t => g (w * t)) (-1) 1 (T / w).
Proof.
  intros Hw H. unfold integral in *.
  assert (H' : is_RInt g (w * -1 + 0) (w * 1 + 0) T). { replace (w * -1 + 0) with (- w) by ring. replace (w * 1 + 0) with w by ring. exact H. }
  apply (is_RInt_comp_lin g w 0 (-1) 1) in H'. apply (is_RInt_scal _ _ _ (/ w)) in H'.
  unfold scal in H'; cbn in H'; unfold mult in H'; cbn in H'. replace (T / w) with (/ w * T) by (unfold Rdiv; ring).
  eapply is_RInt_ext; [|exact H']. intros x _. cbv beta. rewrite Rplus_0_r. change (@eq R (/ w * (w * g (w * x))) (g (w * x))). field. lra.
Qed.
Lemma const_integral c : integral (fun _ => c) (-1) 1 (2 * c).
Proof. eapply integral_eq; [exact (@is_RInt_const R_NormedModule (-1) 1 c)|]. unfold scal; cbn; unfold mult; cbn. ring. Qed.
Lemma draw_in w x : 0 < w -> uniform_draw (-1) 1 x -> - w <= w * x <= w.
Proof. intros Hw [H1 H2]. nra. Qed.
Lemma half_eq a w : w <> 0 -> a / w = 2 * (a / (2 * w)).
Proof. intro H. field. exact H. Qed.
(** two of the three draws matter *)
Lemma mean_face w w' g T : 0 < w -> 0 < w' -> integral2 (- w) w (fun _ => - w') (fun _ => w') g T ->
  mean_u 3 (fun r => g (w * nth 1 r 0) (w' * nth 2 r 0)) (T / (4 * w * w')) /\
  mean_u 3 (fun r => g (w * nth 0 r 0) (w' * nth 2 r 0)) (T / (4 * w * w')) /\
  mean_u 3 (fun r => g (w * nth 0 r 0) (w' * nth 1 r 0)) (T / (4 * w * w')).
Proof.
  intros Hw Hw' (F & H1 & H2). set (I := T / (4 * w * w')). set (K := fun x => F (w * x) / (2 * w')).
  assert (I1 : forall x, uniform_draw (-1) 1 x -> integral (fun t => g (w * x) (w' * t)) (-1) 1 (2 * K x)).
  { intros x Hx. pose proof (scale_integral _ w' _ Hw' (H1 (w * x) (draw_in w x Hw Hx))) as S. eapply integral_eq; [exact S|]. unfold K. field. lra. }
  assert (I2 : integral K (-1) 1 (2 * I)).
  { pose proof (scale_integral _ w _ Hw H2) as S. unfold K, I.
    eapply integral_eq; [eapply integral_ext; [|exact (integral_lin _ _ (-1) 1 0 (/ (2 * w')) 0 _ _ S S)]|]; [intros; cbv beta; field; lra|field; lra]. }
  split; [|split]; cbn [mean_u nth].
  - exists (fun _ => I). split; [|apply const_integral]. intros _ _. exists K. split; [|exact I2]. intros x Hx. exists (fun t => g (w * x) (w' * t)). split; [auto|]. now apply I1.
  - exists K. split; [|exact I2]. intros x Hx. exists (fun _ => K x). split; [|apply const_integral]. intros _ _. exists (fun t => g (w * x) (w' * t)). split; [auto|]. now apply I1.
  - exists K. split; [|exact I2]. intros x Hx. exists (fun t => g (w * x) (w' * t)). split; [|now apply I1]. intros y Hy. exists (fun _ => g (w * x) (w' * y)). split; [auto|apply const_integral].
Qed.
Lemma mean_edge w g T : 0 < w -> integral g (- w) w T -> mean_u 1 (fun r => g (w * nth 0 r 0)) (T / (2 * w)).
Proof.
  intros Hw H. cbn [mean_u nth]. exists (fun x => g (w * x)). split; [auto|]. eapply integral_eq; [exact (scale_integral g w T Hw H)|]. field. lra.
Qed.
Lemma mean_solid w w' w'' g T : 0 < w -> 0 < w' -> 0 < w'' -> integral3 (- w) w (fun _ => - w') (fun _ => w') (fun _ _ => - w'') (fun _ _ => w'') g T ->
  mean_u 3 (fun r => g (w * nth 0 r 0) (w' * nth 1 r 0) (w'' * nth 2 r 0)) (T / (8 * w * w' * w'')).
Proof.
  intros Hw Hw' Hw'' (F & H1 & H2). cbn [mean_u nth]. exists (fun x => F (w * x) / (4 * w' * w'')). split.
  - intros x Hx. destruct (H1 (w * x) (draw_in w x Hw Hx)) as (G & G1 & G2). exists (fun y => G (w' * y) / (2 * w'')). split.
    + intros y Hy. exists (fun t => g (w * x) (w' * y) (w'' * t)). split; [auto|]. eapply integral_eq; [exact (scale_integral _ w'' _ Hw'' (G1 (w' * y) (draw_in w' y Hw' Hy)))|]. field. lra.
    + pose proof (scale_integral _ w' _ Hw' G2) as S. eapply integral_eq; [eapply integral_ext; [|exact (integral_lin _ _ (-1) 1 0 (/ (2 * w'')) 0 _ _ S S)]|]; [intros; cbv beta; field; lra|field; lra].
  - pose proof (scale_integral _ w _ Hw H2) as S. eapply integral_eq; [eapply integral_ext; [|exact (integral_lin _ _ (-1) 1 0 (/ (4 * w' * w'')) 0 _ _ S S)]|]; [intros; cbv beta; field; lra|field; lra].
Qed.

(** ** the box *)
Lemma average_perm f sh P n rho al be ks U : shuffles sh -> (0 < n)%nat -> length ks = n -> length U = n -> P = map2 (pt rho al be) ks U ->
  average f (sh P) = / INR n * lsum (map f P).
Proof.
  intros HS Hn LK LU ->. unfold average. rewrite (Permutation_length (HS _)), map2_length, LK, LU, Nat.min_id. rewrite (lsum_map_perm f _ _ (HS _)). unfold Rdiv. ring.
Qed.
Lemma estimates_of_eq {X} pv n (D : X -> Prop) mean run stat t v t' v' : estimates_of pv n D mean run stat t v -> t = t' -> v = v' -> estimates_of pv n D mean run stat t' v'.
Proof. now intros H <- <-. Qed.
Lemma shell_area x y z : 0 < x -> 0 < y -> 0 < z -> box_shell [x; y; z] (fun _ => 1) (8 * (x * y + x * z + y * z)).
Proof. intros. eapply whole_of; [apply dom3_box_shell|apply box_shell_moments; nra]. Qed.
Lemma mean_u_ext' n F G I : (forall l, length l = n -> F l = G l) -> mean_u n F I -> mean_u n G I.
Proof. intro H. apply mean_u_ext. intros l [L _]. auto. Qed.
Lemma surface_law_of f h b T T2 A : box_init h None None = Ok b -> (forall i, (i < 3)%nat -> 0 < nth i h 0) ->
  box_shell h (fun _ => 1) A -> box_shell h f T -> box_shell h (fun p => f p * f p) T2 ->
  forall n sh, (2 <= n)%nat -> shuffles sh ->
    estimates_of (box_face_pvals b) n (rows_of n 3 (uniform_draw (-1) 1)) (mean_rows 3 n)
      (fun counts U => box_random_points_on_surface b n U counts sh) (average f) (T / A) ((T2 / A - (T / A) ^ 2) / INR n).
Proof.
  intros Hb Hp HA HT HT2 n sh Hn HS. pose proof (box_init_inv _ _ _ _ Hb) as (Lh & _ & Eh & _).
  destruct h as [|x [|y [|z [|]]]]; try discriminate Lh. pose proof (Hp 0 ltac:(lia))%nat as Px. pose proof (Hp 1 ltac:(lia))%nat as Py. pose proof (Hp 2 ltac:(lia))%nat as Pz. cbn in Px, Py, Pz. clear Hp.
  assert (Pxy : 0 < x * y) by nra. assert (Pxz : 0 < x * z) by nra. assert (Pyz : 0 < y * z) by nra.
  assert (EA : A = 8 * (x * y + x * z + y * z)). { eapply (functional_box_shell [x; y; z]); [intros u Iu; cbn in Iu; intuition lra|exact HA|now apply shell_area]. }
  destruct (box_face_shares [x; y; z] None None b Hb ltac:(cbn; lra)) as (LP & P0 & P1 & _).
  cbn in HT. destruct HT as (a0 & ? & F0 & (a1 & ? & F1 & (a2 & ? & F2 & (a3 & ? & F3 & (a4 & ? & F4 & (a5 & ? & F5 & -> & ->) & ->) & ->) & ->) & ->) & ->).
  cbn in HT2. destruct HT2 as (b0 & ? & G0 & (b1 & ? & G1 & (b2 & ? & G2 & (b3 & ? & G3 & (b4 & ? & G4 & (b5 & ? & G5 & -> & ->) & ->) & ->) & ->) & ->) & ->).
  eapply estimates_of_eq.
  - apply (kinds_estimate 3 6 (pt (fun a => a) (face_al [x; y; z]) (face_be [x; y; z])) f
      [a0 / (4 * y * z); a1 / (4 * y * z); a2 / (4 * x * z); a3 / (4 * x * z); a4 / (4 * x * y); a5 / (4 * x * y)]
      [b0 / (4 * y * z); b1 / (4 * y * z); b2 / (4 * x * z); b3 / (4 * x * z); b4 / (4 * x * y); b5 / (4 * x * y)]); auto; [lia| | |].
    + apply (mean_face y z) in F0 as (F0 & _ & _); auto. apply (mean_face y z) in F1 as (F1 & _ & _); auto. apply (mean_face x z) in F2 as (_ & F2 & _); auto. apply (mean_face x z) in F3 as (_ & F3 & _); auto.
      apply (mean_face x y) in F4 as (_ & _ & F4); auto. apply (mean_face x y) in F5 as (_ & _ & F5); auto.
      intros k Hk. destruct k as [|[|[|[|[|[|k]]]]]]; try lia; cbn [nth]; (eapply mean_u_ext'; [|eassumption]); intros [|r0 [|r1 [|r2 [|]]]] L; try discriminate L; cbn [nth]; f_equal; unfold pt, co, face_al, face_be, face_sign; cbn -[Rmult Rplus]; list_eq; ring.
    + apply (mean_face y z) in G0 as (G0 & _ & _); auto. apply (mean_face y z) in G1 as (G1 & _ & _); auto. apply (mean_face x z) in G2 as (_ & G2 & _); auto. apply (mean_face x z) in G3 as (_ & G3 & _); auto.
      apply (mean_face x y) in G4 as (_ & _ & G4); auto. apply (mean_face x y) in G5 as (_ & _ & G5); auto.
      intros k Hk. destruct k as [|[|[|[|[|[|k]]]]]]; try lia; cbn [nth]; (eapply mean_u_ext'; [|eassumption]); intros [|r0 [|r1 [|r2 [|]]]] L; try discriminate L; cbn [nth]; f_equal; f_equal; unfold pt, co, face_al, face_be, face_sign; cbn -[Rmult Rplus]; list_eq; ring.
    + rewrite LP. intros counts U HC HU. eexists. split; [apply (surface_rows [x; y; z] b n U counts sh Hb); auto; [cbn; lra|lia]|].
      eapply average_perm; eauto; [lia|rewrite expand_length; apply HC|apply HU].
  - unfold wsum, box_face_pvals. rewrite Eh, EA. unfold vdivs, lsum. cbn. field. repeat split; lra.
  - unfold wsum, box_face_pvals. rewrite Eh, EA. unfold vdivs, lsum. cbn. field. repeat split; try lra. apply not_0_INR. lia.
Qed.
Lemma frame_length x y z : 0 < x -> 0 < y -> 0 < z -> box_frame [x; y; z] (fun _ => 1) (8 * (x + y + z)).
Proof. intros. eapply whole_of; [apply dom3_box_frame|apply box_frame_moments; lra]. Qed.
Lemma estimates_of_rows1 pv n run stat t v :
  estimates_of pv n (rows_of n 1 (uniform_draw (-1) 1)) (mean_rows 1 n) (fun counts U => run counts (map (fun r => nth 0 r 0) U)) stat t v ->
  estimates_of pv n (draws_of n (uniform_draw (-1) 1)) (mean_u n) run stat t v.
Proof.
  intros (F & M & S & H1 & H2 & H3 & H4). exists (fun counts u => F counts (map (fun x => [x]) u)), M, S.
  assert (E : forall c U, rows_of n 1 (uniform_draw (-1) 1) U -> F c (map (fun x => [x]) (map (fun r => nth 0 r 0) U)) = F c U).
  { intros c U [[_ HU] _]. f_equal. rewrite map_map. rewrite <- (map_id U) at 2. apply map_ext_in. intros r I. rewrite Forall_forall in HU. apply HU in I. destruct r as [|x [|]]; try discriminate I. reflexivity. }
  split; [|split; [|auto]].
  - intros counts u HC [Lu Hu]. destruct (H1 counts (map (fun x => [x]) u) HC) as (A & EA & EE).
    + split; [split; [now rewrite map_length|apply Forall_forall; intros r I; apply in_map_iff in I as (x & <- & _); reflexivity]|].
      intros r x I J. apply in_map_iff in I as (y & <- & I). destruct J as [<-|[]]. auto.
    + exists A. split; [|exact EE]. rewrite map_map in EA. cbn [nth] in EA. now rewrite map_id in EA.
  - intros counts HC. destruct (H2 counts HC) as [R1 R2]. split; apply rows1; eapply mean_rows_ext; eauto; intros U HU; cbv beta; now rewrite E.
Qed.
Lemma edges_law_of f h c r b T T2 A : box_init h c r = Ok b -> (forall i, (i < 3)%nat -> 0 < nth i h 0) ->
  let g := fun u => f (move (pose_rot 3 r) (pose_tr 3 c) u) in
  box_frame h (fun _ => 1) A -> box_frame h g T -> box_frame h (fun u => g u * g u) T2 ->
  forall n sh, (1 <= n)%nat -> shuffles sh ->
    estimates_of (box_edge_pvals b) n (draws_of n (uniform_draw (-1) 1)) (mean_u n)
      (fun counts u => edge_points_from b n u counts sh) (average f) (T / A) ((T2 / A - (T / A) ^ 2) / INR n).
Proof.
  intros Hb Hp g HA HT HT2 n sh Hn HS. pose proof (box_init_inv _ _ _ _ Hb) as (Lh & _ & Eh & _).
  destruct h as [|x [|y [|z [|]]]]; try discriminate Lh. pose proof (Hp 0 ltac:(lia))%nat as Px. pose proof (Hp 1 ltac:(lia))%nat as Py. pose proof (Hp 2 ltac:(lia))%nat as Pz. cbn in Px, Py, Pz. clear Hp.
  assert (EA : A = 8 * (x + y + z)). { eapply (functional_box_frame [x; y; z]); [exact HA|now apply frame_length]. }
  assert (HL : 0 < lsum [x; y; z]) by (unfold lsum; cbn; lra).
  destruct (box_edge_shares [x; y; z] c r b Hb HL) as (LP & P0 & P1 & _).
  assert (Eg : forall P, average f (map (move (pose_rot 3 r) (pose_tr 3 c)) P) = average g P). { intro P. unfold average. rewrite map_map, map_length. reflexivity. }
  assert (HR : forall counts U, multinomial_draw n (length (box_edge_pvals b)) counts -> rows_of n 1 (uniform_draw (-1) 1) U ->
    exists A, edge_points_from b n (map (fun r => nth 0 r 0) U) counts sh = Ok A /\ average f A = / INR n * lsum (map g (map2 (pt (fun _ => 0%nat) (edge_al [x; y; z]) (edge_be [x; y; z])) (expand 0 counts) U))).
  { rewrite LP. intros counts U HC HU. eexists. split; [apply (edges_rows [x; y; z] c r b n U counts sh Hb); auto; cbn; lra|].
    rewrite Eg. eapply average_perm; eauto; [rewrite expand_length; apply HC|apply HU]. }
  clearbody g. clear Eg.
  cbn in HT. destruct HT as (a0 & ? & F0 & (a1 & ? & F1 & (a3 & ? & F3 & (a2 & ? & F2 & (a4 & ? & F4 & (a5 & ? & F5 & (a7 & ? & F7 & (a6 & ? & F6 & (a8 & ? & F8 & (a9 & ? & F9 & (a11 & ? & F11 & (a10 & ? & F10 & -> & ->) & ->) & ->) & ->) & ->) & ->) & ->) & ->) & ->) & ->) & ->) & ->).
  cbn in HT2. destruct HT2 as (b0 & ? & G0 & (b1 & ? & G1 & (b3 & ? & G3 & (b2 & ? & G2 & (b4 & ? & G4 & (b5 & ? & G5 & (b7 & ? & G7 & (b6 & ? & G6 & (b8 & ? & G8 & (b9 & ? & G9 & (b11 & ? & G11 & (b10 & ? & G10 & -> & ->) & ->) & ->) & ->) & ->) & ->) & ->) & ->) & ->) & ->) & ->) & ->).
  apply estimates_of_rows1. eapply estimates_of_eq.
  - apply (kinds_estimate 1 12 (pt (fun _ => 0%nat) (edge_al [x; y; z]) (edge_be [x; y; z])) g
      [a0 / (2 * x); a1 / (2 * x); a2 / (2 * x); a3 / (2 * x); a4 / (2 * y); a5 / (2 * y); a6 / (2 * y); a7 / (2 * y); a8 / (2 * z); a9 / (2 * z); a10 / (2 * z); a11 / (2 * z)]
      [b0 / (2 * x); b1 / (2 * x); b2 / (2 * x); b3 / (2 * x); b4 / (2 * y); b5 / (2 * y); b6 / (2 * y); b7 / (2 * y); b8 / (2 * z); b9 / (2 * z); b10 / (2 * z); b11 / (2 * z)]); auto.
    + intros k Hk. do 12 (destruct k as [|k]; [cbn [nth]; match goal with |- mean_u _ _ (?a / (2 * ?w)) => match goal with H : integral _ (- w) w a |- _ => apply (mean_edge w) in H; [|assumption]; eapply mean_u_ext'; [|exact H] end end;
        intros [|r0 [|]] L; try discriminate L; cbn [nth]; f_equal; unfold pt, co, edge_al, edge_be, edge_s, edge_s'; cbn -[Rmult Rplus]; list_eq; ring|]). lia.
    + intros k Hk. do 12 (destruct k as [|k]; [cbn [nth]; match goal with |- mean_u _ _ (?a / (2 * ?w)) => match goal with H : integral _ (- w) w a |- _ => apply (mean_edge w) in H; [|assumption]; eapply mean_u_ext'; [|exact H] end end;
        intros [|r0 [|]] L; try discriminate L; cbn [nth]; f_equal; f_equal; unfold pt, co, edge_al, edge_be, edge_s, edge_s'; cbn -[Rmult Rplus]; list_eq; ring|]). lia.
  - unfold wsum, box_edge_pvals. rewrite Eh, EA. unfold vdivs, lsum. cbn. field. repeat split; lra.
  - unfold wsum, box_edge_pvals. rewrite Eh, EA. unfold vdivs, lsum. cbn. field. repeat split; try lra. apply not_0_INR. lia.
Qed.
Lemma solid_law_of f h c r b T T2 A : box_init h c r = Ok b -> (forall i, (i < 3)%nat -> 0 < nth i h 0) ->
  let g := fun u => f (move (pose_rot 3 r) (pose_tr 3 c) u) in
  box_volume h (fun _ => 1) A -> box_volume h g T -> box_volume h (fun u => g u * g u) T2 ->
  forall n, (1 <= n)%nat ->
    estimates_of [1] n (rows_of n 3 (uniform_draw (-1) 1)) (mean_rows 3 n)
      (fun _ U => Ok (box_random_points b U)) (average f) (T / A) ((T2 / A - (T / A) ^ 2) / INR n).
Proof.
  intros Hb Hp g HA HT HT2 n Hn. pose proof (box_init_inv _ _ _ _ Hb) as (Lh & _ & Eh & Ec & Er & MQ & Lc & _).
  destruct h as [|x [|y [|z [|]]]]; try discriminate Lh. pose proof (Hp 0 ltac:(lia))%nat as Px. pose proof (Hp 1 ltac:(lia))%nat as Py. pose proof (Hp 2 ltac:(lia))%nat as Pz. cbn in Px, Py, Pz. clear Hp.
  assert (EA : A = 8 * x * y * z). { eapply (functional_box_volume [x; y; z]); [intros u Iu; cbn in Iu; intuition lra|exact HA|]. eapply whole_of; [apply dom3_box_volume|apply box_volume_moments]. }
  cbn in HT, HT2. apply mean_solid in HT; auto. apply mean_solid in HT2; auto.
  eapply estimates_of_eq.
  - apply (kinds_estimate 3 1 (pt (fun a => a) (fun _ _ => 0) (fun _ a => nth a [x; y; z] 0)) g [T / (8 * x * y * z)] [T2 / (8 * x * y * z)]); auto.
    + unfold lsum. cbn. ring.
    + intros [|k] Hk; [|lia]. cbn [nth]. eapply mean_u_ext'; [|exact HT]. intros [|r0 [|r1 [|r2 [|]]]] L; try discriminate L. cbn [nth]. f_equal. unfold pt, co. cbn. list_eq; ring.
    + intros [|k] Hk; [|lia]. cbn [nth]. eapply mean_u_ext'; [|exact HT2]. intros [|r0 [|r1 [|r2 [|]]]] L; try discriminate L. cbn [nth]. f_equal; f_equal; unfold pt, co; cbn; list_eq; ring.
    + intros counts U [HC HC'] [[LU HU3] _]. eexists. split; [reflexivity|]. rewrite Forall_forall in HU3. unfold box_random_points. rewrite Eh.
      rewrite (rows_move_eq 3); auto; [|apply rows_len_of; intros p I; apply in_map_iff in I as (u & <- & I); rewrite vmul_length by (rewrite HU3; auto); auto].
      rewrite Er, Ec. unfold average. rewrite !map_length, LU, map_map. unfold Rdiv. rewrite Rmult_comm. f_equal. rewrite map_map. f_equal.
      assert (LX : length (expand 0 counts) = length U) by (rewrite expand_length; lia). clear -LX HU3. revert LX. generalize (expand 0 counts). induction U as [|u U IH]; intros [|k ks] L; try discriminate L; [reflexivity|].
      cbn [map map2]. f_equal; [|apply IH; [intros; apply HU3; now right|now injection L]]. pose proof (HU3 u (or_introl eq_refl)) as Lu. destruct u as [|u0 [|u1 [|u2 [|]]]]; try discriminate Lu.
      unfold g. f_equal. f_equal. unfold pt, co. cbn. list_eq; ring.
  - unfold wsum, lsum. rewrite EA. cbn. field. repeat split; lra.
  - unfold wsum, lsum. rewrite EA. cbn. field. repeat split; try lra. apply not_0_INR. lia.
Qed.
Lemma rows_law_unique pv n run stat t v t' v' : estimates_of pv n (rows_of n 3 (uniform_draw (-1) 1)) (mean_rows 3 n) run stat t v ->
  estimates_of pv n (rows_of n 3 (uniform_draw (-1) 1)) (mean_rows 3 n) run stat t' v' -> t = t' /\ v = v'.
Proof. apply estimates_of_unique; [intros; eapply mean_rows_unique; eauto|intros; eapply mean_rows_ext; eauto]. Qed.
Lemma draws_law_unique pv n run stat t v t' v' : estimates_of pv n (draws_of n (uniform_draw (-1) 1)) (mean_u n) run stat t v ->
  estimates_of pv n (draws_of n (uniform_draw (-1) 1)) (mean_u n) run stat t' v' -> t = t' /\ v = v'.
Proof. apply estimates_of_unique; [intros; eapply mean_u_unique; eauto|intros; eapply mean_u_ext; eauto]. Qed.
Lemma sampled_box : exists b, box_init [1; 3 / 4; 1 / 2] (Some [1; 2; 3]) None = Ok b /\
  let g := fun u => nth 0 (move (eye 3) [1; 2; 3] u) 0 in
  box_frame [1; 3 / 4; 1 / 2] (fun _ => 1) 18 /\ box_frame [1; 3 / 4; 1 / 2] g 18 /\ box_frame [1; 3 / 4; 1 / 2] (fun u => g u * g u) (92 / 3) /\
  box_volume [1; 3 / 4; 1 / 2] (fun _ => 1) 3 /\ box_volume [1; 3 / 4; 1 / 2] g 3 /\ box_volume [1; 3 / 4; 1 / 2] (fun u => g u * g u) 4 /\ shuffles (@rev vec).
Proof.
  destruct (box_init_good [1; 3 / 4; 1 / 2] (Some [1; 2; 3]) None) as [b Hb]; [reflexivity|intros [|[|[|k]]] H; try lia; cbn; lra|apply is_mat_eye|reflexivity|].
  exists b. split; [exact Hb|]. intro g.
  pose proof (box_frame_moments 1 (3 / 4) (1 / 2) ltac:(lra)) as K. pose proof (box_volume_moments 1 (3 / 4) (1 / 2)) as V.
  assert (Eg : forall u, length u = 3%nat -> g u = affine 1 1 0 0 u). { intros [|u0 [|u1 [|u2 [|]]]] L; try discriminate L. unfold g, affine. cbn. ring. }
  assert (E1 : forall u, length u = 3%nat -> affine 1 1 0 0 u * affine 1 0 0 0 u = g u). { intros u L. rewrite Eg by auto. unfold affine. ring. }
  assert (E2 : forall u, length u = 3%nat -> affine 1 1 0 0 u * affine 1 1 0 0 u = g u * g u). { intros u L. now rewrite Eg by auto. }
  assert (D : forall (D : domain) f f' I I', dom3 D -> (forall u, length u = 3%nat -> f u = f' u) -> D f I -> I = I' -> D f' I'). { intros D f f' I I' HD HE HI <-. eapply HD; eauto. }
  repeat split.
  - eapply (D (box_frame _)); [apply dom3_box_frame| |exact (K 1 0 0 0 1 0 0 0)|]; [intros; unfold affine; ring|field].
  - eapply (D (box_frame _)); [apply dom3_box_frame|exact E1|exact (K 1 1 0 0 1 0 0 0)|field].
  - eapply (D (box_frame _)); [apply dom3_box_frame|exact E2|exact (K 1 1 0 0 1 1 0 0)|field].
  - eapply (D (box_volume _)); [apply dom3_box_volume| |exact (V 1 0 0 0 1 0 0 0)|]; [intros; unfold affine; ring|field].
  - eapply (D (box_volume _)); [apply dom3_box_volume|exact E1|exact (V 1 1 0 0 1 0 0 0)|field].
  - eapply (D (box_volume _)); [apply dom3_box_volume|exact E2|exact (V 1 1 0 0 1 1 0 0)|field].
  - intro P. apply Permutation_sym, Permutation_rev.
Qed.
