(** C106: the laws of C102 and C104 for every continuous function. *)
From Verif Require Import Base.Vec Base.VecFacts Spec.Basic Spec.Shapes Spec.ShapeObjects Spec.Integrals Spec.RandomSpec Spec.Expect Spec.Turns Spec.Continuous Spec.Samples
  Model.Util Model.Polydd Model.Poly Model.Inertial Model.Ellipsoid Model.Box Model.Cylinder Model.Random Model.MonteCarlo
  Proofs.Coord Proofs.Hull Proofs.EllP Proofs.BoxP Proofs.RandomP Proofs.MonoInt Proofs.ContInt Proofs.SamplingP Proofs.TurnsP Proofs.SamplesP.

Definition nearv (e : R) (p q : vec) : Prop := length p = 3%nat /\ length q = 3%nat /\ forall i, (i < 3)%nat -> Rabs (nth i q 0 - nth i p 0) < e.
Lemma nearv_mono : forall e e' x y, e' <= e -> nearv e' x y -> nearv e x y.
Proof. intros e e' x y H (A & B & C). repeat split; auto. intros i Hi. specialize (C i Hi). lra. Qed.
Lemma continuous3_iff f : continuous3 f <-> cont nearv f.
Proof.
  split.
  - intros F p eps P. destruct (Nat.eq_dec (length p) 3) as [L|L].
    + destruct (F p L eps P) as (d & Pd & Hd). exists d. split; [exact Pd|]. intros q (_ & Lq & H). auto.
    + exists 1. split; [lra|]. intros q (L' & _). contradiction.
  - intros F p L eps P. destruct (F p eps P) as (d & Pd & Hd). exists d. split; [exact Pd|]. intros q Lq H. apply Hd. repeat split; auto.
Qed.
Lemma continuous3_mult f g : continuous3 f -> continuous3 g -> continuous3 (fun p => f p * g p).
Proof. rewrite !continuous3_iff. apply cont_mult. exact nearv_mono. Qed.
Lemma continuous3_const k : continuous3 (fun _ => k).
Proof. apply continuous3_iff, cont_const. Qed.
Lemma cont_coord i : (i < 3)%nat -> cont nearv (fun u => nth i u 0).
Proof. intros Hi p eps P. exists eps. split; [exact P|]. intros q (_ & _ & H). auto. Qed.
Lemma continuous3_ext f g : (forall p, length p = 3%nat -> f p = g p) -> continuous3 f -> continuous3 g.
Proof. intros E F p L eps P. destruct (F p L eps P) as (d & Pd & Hd). exists d. split; [exact Pd|]. intros q Lq H. rewrite <- !E by auto. auto. Qed.
Lemma continuous3_move f Q t : continuous3 f -> is_mat 3 3 Q -> length t = 3%nat -> continuous3 (fun u => f (move Q t u)).
Proof.
  intros F [LQ RQ] Lt. rewrite Forall_forall in RQ. destruct Q as [|q0 [|q1 [|q2 [|]]]]; try discriminate LQ.
  assert (L0 : length q0 = 3%nat) by (apply RQ; cbn; auto). assert (L1 : length q1 = 3%nat) by (apply RQ; cbn; auto). assert (L2 : length q2 = 3%nat) by (apply RQ; cbn; auto). clear RQ LQ.
  assert (C : forall a b c k, cont nearv (fun u => a * nth 0 u 0 + b * nth 1 u 0 + c * nth 2 u 0 + k)).
  { intros a b c k. repeat (apply (cont_plus nearv nearv_mono) || apply (cont_mult nearv nearv_mono) || apply cont_const || (apply cont_coord; lia)). }
  destruct q0 as [|a0 [|a1 [|a2 [|]]]]; try discriminate L0. destruct q1 as [|b0 [|b1 [|b2 [|]]]]; try discriminate L1. destruct q2 as [|c0 [|c1 [|c2 [|]]]]; try discriminate L2. destruct t as [|t0 [|t1 [|t2 [|]]]]; try discriminate Lt.
  apply (continuous3_ext (fun u => f [a0 * nth 0 u 0 + a1 * nth 1 u 0 + a2 * nth 2 u 0 + t0; b0 * nth 0 u 0 + b1 * nth 1 u 0 + b2 * nth 2 u 0 + t1; c0 * nth 0 u 0 + c1 * nth 1 u 0 + c2 * nth 2 u 0 + t2])).
  - intros [|u0 [|u1 [|u2 [|]]]] L; try discriminate L. f_equal. unfold move. cbn. list_eq; ring.
  - apply continuous3_iff. apply (cont_point nearv nearv_mono f (fun u => a0 * nth 0 u 0 + a1 * nth 1 u 0 + a2 * nth 2 u 0 + t0) (fun u => b0 * nth 0 u 0 + b1 * nth 1 u 0 + b2 * nth 2 u 0 + t1) (fun u => c0 * nth 0 u 0 + c1 * nth 1 u 0 + c2 * nth 2 u 0 + t2)); auto.
Qed.
Lemma three (h : vec) : length h = 3%nat -> exists x y z, h = [x; y; z].
Proof. destruct h as [|x [|y [|z [|]]]]; try discriminate. eauto. Qed.
Lemma solid_continuous f h c r b : continuous3 f -> box_init h c r = Ok b -> (forall i, (i < 3)%nat -> 0 < nth i h 0) ->
  let g := fun u => f (move (pose_rot 3 r) (pose_tr 3 c) u) in
  exists A T T2, box_volume h (fun _ => 1) A /\ box_volume h g T /\ box_volume h (fun u => g u * g u) T2 /\
  forall n, (1 <= n)%nat ->
    estimates_of [1] n (rows_of n 3 (uniform_draw (-1) 1)) (mean_rows 3 n)
      (fun _ U => Ok (box_random_points b U)) (average f) (T / A) ((T2 / A - (T / A) ^ 2) / INR n).
Proof.
  intros F Hb Hp g. pose proof (box_init_inv _ _ _ _ Hb) as (Lh & Nh & _ & Ec & Er & MQ & Lc & _). rewrite Ec in Lc. rewrite Er in MQ. destruct (three h Lh) as (x & y & z & ->).
  assert (G : continuous3 g) by (apply continuous3_move; auto). pose proof (Nh 1%nat ltac:(lia)) as Hy. pose proof (Nh 2%nat ltac:(lia)) as Hz. cbn in Hy, Hz.
  destruct (volume_exists _ x y z (continuous3_const 1) Hy Hz) as (A & HA). destruct (volume_exists _ x y z G Hy Hz) as (T & HT). destruct (volume_exists _ x y z (continuous3_mult _ _ G G) Hy Hz) as (T2 & HT2).
  exists A, T, T2. repeat (split; [assumption|]). intros n Hn. now apply (solid_law_of f [x; y; z] c r b T T2 A).
Qed.
Lemma edges_continuous f h c r b : continuous3 f -> box_init h c r = Ok b -> (forall i, (i < 3)%nat -> 0 < nth i h 0) ->
  let g := fun u => f (move (pose_rot 3 r) (pose_tr 3 c) u) in
  exists A T T2, box_frame h (fun _ => 1) A /\ box_frame h g T /\ box_frame h (fun u => g u * g u) T2 /\
  forall n sh, (1 <= n)%nat -> shuffles sh ->
    estimates_of (box_edge_pvals b) n (draws_of n (uniform_draw (-1) 1)) (mean_u n)
      (fun counts u => edge_points_from b n u counts sh) (average f) (T / A) ((T2 / A - (T / A) ^ 2) / INR n).
Proof.
  intros F Hb Hp g. pose proof (box_init_inv _ _ _ _ Hb) as (Lh & Nh & _ & Ec & Er & MQ & Lc & _). rewrite Ec in Lc. rewrite Er in MQ. destruct (three h Lh) as (x & y & z & ->).
  assert (G : continuous3 g) by (apply continuous3_move; auto).
  destruct (frame_exists _ x y z (continuous3_const 1)) as (A & HA). destruct (frame_exists _ x y z G) as (T & HT). destruct (frame_exists _ x y z (continuous3_mult _ _ G G)) as (T2 & HT2).
  exists A, T, T2. repeat (split; [assumption|]). intros n sh Hn Hs. now apply (edges_law_of f [x; y; z] c r b T T2 A).
Qed.
Lemma surface_continuous f h b : continuous3 f -> box_init h None None = Ok b -> (forall i, (i < 3)%nat -> 0 < nth i h 0) ->
  exists A T T2, box_shell h (fun _ => 1) A /\ box_shell h f T /\ box_shell h (fun p => f p * f p) T2 /\
  forall n sh, (2 <= n)%nat -> shuffles sh ->
    estimates_of (box_face_pvals b) n (rows_of n 3 (uniform_draw (-1) 1)) (mean_rows 3 n)
      (fun counts U => box_random_points_on_surface b n U counts sh) (average f) (T / A) ((T2 / A - (T / A) ^ 2) / INR n).
Proof.
  intros F Hb Hp. pose proof (box_init_inv _ _ _ _ Hb) as (Lh & Nh & _). destruct (three h Lh) as (x & y & z & ->). pose proof (Nh 1%nat ltac:(lia)) as Hy. pose proof (Nh 2%nat ltac:(lia)) as Hz. cbn in Hy, Hz.
  destruct (shell_exists _ x y z (continuous3_const 1) Hy Hz) as (A & HA). destruct (shell_exists _ x y z F Hy Hz) as (T & HT). destruct (shell_exists _ x y z (continuous3_mult _ _ F F) Hy Hz) as (T2 & HT2).
  exists A, T, T2. repeat (split; [assumption|]). intros n sh Hn Hs. now apply (surface_law_of f [x; y; z] b T T2 A).
Qed.
Lemma ellipsoid_continuous f h r c e : continuous3 f -> ell_init h r c = Ok e -> length h = 3%nat -> (forall a, In a h -> 0 < a) ->
  exists A T a, ell_surface h (fun _ => 1) A /\ ell_surface h (fun p => f (move (transpose (pose_rot 3 r)) (pose_tr 3 c) p)) T /\ 0 < a <= 1 /\ forall k,
    turns_mean k (fun l => point_stat (fun _ => 1) (ell_random_points_on_surface e 1 (surface_draw l) k)) (1 - (1 - a) ^ k) /\
    turns_mean k (fun l => point_stat f (ell_random_points_on_surface e 1 (surface_draw l) k)) (T / A * (1 - (1 - a) ^ k)).
Proof.
  intros F He Lh HP. pose proof (ell_init_inv _ _ _ _ He) as (_ & _ & Er & Ec & MQ & Lc). rewrite Lh in *. rewrite Er in MQ. rewrite Ec in Lc. destruct (three h Lh) as (x & y & z & ->).
  assert (G : continuous3 (fun p => f (move (transpose (pose_rot 3 r)) (pose_tr 3 c) p))) by (apply continuous3_move; auto; apply (is_mat_transpose 3 3); auto).
  destruct (surface_exists _ x y z (continuous3_const 1)) as (A & HA). destruct (surface_exists _ x y z G) as (T & HT).
  destruct (surface_point_law f [x; y; z] r c e A T He Lh HP HA HT) as (a & Ha & K). exists A, T, a. repeat (split; [assumption|]). intro k. apply (K k).
Qed.
Lemma continuous_case : continuous3 (fun p => nth 0 p 0 * nth 1 p 0) /\ (exists b, box_init [1; 2; 3] (Some t0) (Some Q0) = Ok b) /\ (exists b, box_init [1; 2; 3] None None = Ok b) /\
  (exists e, ell_init [3; 2; 1] (Some Q0) (Some t0) = Ok e) /\ shuffles (@rev vec).
Proof.
  split; [|split; [|split; [|split]]].
  - apply continuous3_iff. apply (cont_mult nearv nearv_mono); apply cont_coord; lia.
  - destruct (box_init_good [1; 2; 3] (Some t0) (Some Q0)) as [b Hb]; eauto; [intros [|[|[|i]]] Hi; cbn in *; try lra; lia|apply Q0_orth].
  - destruct (box_init_good [1; 2; 3] None None) as [b Hb]; eauto; [intros [|[|[|i]]] Hi; cbn in *; try lra; lia|apply is_mat_eye].
  - eexists. apply ell_init_good; [intros [|[|[|k]]] H; cbn in *; try lra; lia|apply Q0_orth|reflexivity].
  - intro l. apply Permutation.Permutation_sym, Permutation.Permutation_rev.
Qed.
