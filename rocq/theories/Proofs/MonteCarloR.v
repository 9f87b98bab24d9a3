(** C101: the estimates. *)
From Coq Require Import Permutation.
From Verif Require Import Base.Vec Base.VecFacts Spec.Basic Spec.Shapes Spec.ShapeObjects Spec.Integrals Spec.RandomSpec Spec.Uniform Spec.Expect
  Model.Util Model.Polydd Model.Poly Model.Inertial Model.Ellipsoid Model.Box Model.Cylinder Model.Random Model.MonteCarlo Model.Theory
  Proofs.Coord Proofs.Hull Proofs.BoxP Proofs.DensityP Proofs.RandomP Proofs.RandomS Proofs.UniformP Proofs.Decomp Proofs.TheoryR Proofs.ExpectP Proofs.MonteCarloP Proofs.MonteCarloQ.

Lemma pts_entry n rho al be ks (U : mat) sh i j : (0 < n)%nat -> length ks = n -> length U = n -> shuffles sh -> (i < 3)%nat -> (j < 3)%nat ->
  exists A, sampled_inertia n (sh (map2 (pt rho al be) ks U)) = Ok A /\ entry A i j = / INR n * lsum (map (gI i j) (map2 (pt rho al be) ks U)).
Proof.
  intros Hn LK LU HS Hi Hj. set (P := map2 (pt rho al be) ks U). assert (LP : length P = n) by (unfold P; rewrite map2_length, LK, LU; lia).
  rewrite <- (lsum_map_perm (gI i j) (sh P) P (HS P)). apply sampled_entry; auto; [rewrite (Permutation_length (HS P)); exact LP|].
  intros p I. apply (Permutation_in _ (HS P)) in I. apply in_map2 in I as (k & r & _ & _ & ->). reflexivity.
Qed.
Lemma estimates_eq {X} pv n (D : X -> Prop) mean run i j t v t' v' : estimates pv n D mean run i j t v -> t = t' -> v = v' -> estimates pv n D mean run i j t' v'.
Proof. now intros H <- <-. Qed.

Lemma affine_pack d rho al be h i j pv : (forall a, (a < 3)%nat -> (rho a < d)%nat) -> (i < 3)%nat -> (j < 3)%nat -> length h = 3%nat ->
  (forall k a, (a < 3)%nat -> Rabs (al k a) + Rabs (be k a) <= nth a h 0) -> lsum pv = 1 -> (forall x, In x pv -> 0 <= x) ->
  exists V, 0 <= V <= dot h h ^ 2 /\ forall n run, (0 < n)%nat ->
    (forall counts U, multinomial_draw n (length pv) counts -> rows_of n d (uniform_draw (-1) 1) U ->
      exists A, run counts U = Ok A /\ entry A i j = / INR n * lsum (map (gI i j) (map2 (pt rho al be) (expand 0 counts) U))) ->
    estimates pv n (rows_of n d (uniform_draw (-1) 1)) (mean_rows d n) run i j (wsum pv (m1 rho al be i j)) (V / INR n).
Proof.
  intros H1 Hi Hj Lh H2 H3 H4. exists (vv d rho al be h i j H1 Hi Hj Lh pv). split; [split; [now apply vv_pos|now apply vv_le]|].
  intros n run Hn HR. exact (affine_estimates d rho al be h i j H1 Hi Hj Lh pv H3 n run Hn HR).
Qed.

(** ** the shell *)
Lemma shell_estimates h b i j : box_init h None None = Ok b ->
  0 < nth 0 h 0 * nth 1 h 0 + nth 0 h 0 * nth 2 h 0 + nth 1 h 0 * nth 2 h 0 -> (i < 3)%nat -> (j < 3)%nat ->
  exists I V, mc_shell_pred h = Ok I /\ 0 <= V <= dot h h ^ 2 /\ forall n sh, (2 <= n)%nat -> shuffles sh ->
    estimates (box_face_pvals b) n (rows_of n 3 (uniform_draw (-1) 1)) (mean_rows 3 n) (fun counts U => mc_shell h n U counts sh) i j (entry I i j) (V / INR n).
Proof.
  intros Hb HA Hi Hj. pose proof (box_init_inv _ _ _ _ Hb) as (Lh & Ph & Eh & _).
  destruct (box_face_shares h None None b Hb ltac:(lra)) as (LP & P0 & P1 & _).
  destruct (affine_pack 3 (fun a => a) (face_al h) (face_be h) h i j (box_face_pvals b) (fun a H => H) Hi Hj Lh (face_bound h Ph) P1 P0) as (V & V0 & E).
  assert (E3 : forall n sh, (2 <= n)%nat -> shuffles sh -> estimates (box_face_pvals b) n (rows_of n 3 (uniform_draw (-1) 1)) (mean_rows 3 n) (fun counts U => mc_shell h n U counts sh) i j
    (wsum (box_face_pvals b) (m1 (fun a => a) (face_al h) (face_be h) i j)) (V / INR n)).
  { intros n sh Hn HS. apply E; [lia|]. rewrite LP. intros counts U HC HU. unfold mc_shell. rewrite Hb. cbn [bind].
    rewrite (surface_rows h b n U counts sh Hb HA) by (auto; lia). cbn [bind]. destruct HU as [[LU _] _]. apply pts_entry; auto; [lia|]. rewrite expand_length. apply HC. }
  clear E. destruct h as [|x [|y [|z [|]]]]; try discriminate Lh. cbn [nth] in HA.
  assert (EI : mc_shell_pred [x; y; z] = Ok (th_dual (diag [1 * (x * x * (x * y + x * z + 3 * y * z) / (3 * (x * y + x * z + y * z))); 1 * (y * y * (x * y + 3 * x * z + y * z) / (3 * (x * y + x * z + y * z))); 1 * (z * z * (3 * x * y + x * z + y * z) / (3 * (x * y + x * z + y * z)))]))).
  { unfold mc_shell_pred. rewrite Hb. cbn [bind]. rewrite (box_hollow_ok _ _ _ _ 1 x y z Hb eq_refl ltac:(lra) HA). cbn [bind]. apply dparams_I. }
  eexists. exists V. split; [exact EI|]. split; [exact V0|]. intros n sh Hn HS. eapply estimates_eq; [apply E3; auto| |reflexivity].
  clear E3 V0 EI. unfold box_face_pvals. rewrite Eh. cbv zeta. clear -HA Hi Hj.
  destruct i as [|[|[|i]]]; try lia; destruct j as [|[|[|j]]]; try lia; unfold wsum, vdivs, m1, mm, face_al, face_be, face_sign, th_dual, entry, trace, diagonal, lsum; cbn; unfold entry; cbn; field; lra.
Qed.

(** ** the wireframe *)
Lemma id_move_rows sh rho al be ks (U : mat) : shuffles sh -> map (move (pose_rot 3 None) (pose_tr 3 None)) (sh (map2 (pt rho al be) ks U)) = sh (map2 (pt rho al be) ks U).
Proof.
  intro HS. set (P := map2 _ _ _). rewrite <- (map_id (sh P)) at 2. apply map_ext_in. intros p I. apply id_move. apply (Permutation_in _ (HS P)) in I. apply in_map2 in I as (k & r & _ & _ & ->). reflexivity.
Qed.
Lemma estimates_rows1 pv n run i j t v :
  estimates pv n (rows_of n 1 (uniform_draw (-1) 1)) (mean_rows 1 n) (fun counts U => run counts (map (fun r => nth 0 r 0) U)) i j t v ->
  estimates pv n (draws_of n (uniform_draw (-1) 1)) (mean_u n) run i j t v.
Proof.
  intros (F & M & S & H1 & H2 & H3 & H4). exists (fun counts u => F counts (map (fun x => [x]) u)), M, S.
  assert (E : forall c U, rows_of n 1 (uniform_draw (-1) 1) U -> F c (map (fun x => [x]) (map (fun r => nth 0 r 0) U)) = F c U).
  { intros c U [[_ HU] _]. f_equal. rewrite map_map. rewrite <- (map_id U) at 2. apply map_ext_in. intros r I. rewrite Forall_forall in HU. apply HU in I. destruct r as [|x [|]]; try discriminate I. reflexivity. }
  split; [|split; [|auto]].
  - intros counts u HC [Lu Hu]. destruct (H1 counts (map (fun x => [x]) u) HC) as (A & EA & EE).
    + split; [split; [now rewrite map_length|apply Forall_forall; intros r I; apply in_map_iff in I as (x & <- & _); reflexivity]|].
      intros r x I J. apply in_map_iff in I as (y & <- & I). destruct J as [<-|[]]. auto.
    + exists A. split; [|exact EE]. rewrite map_map in EA. cbn [nth] in EA. now rewrite map_id in EA.
  - intros counts HC. destruct (H2 counts HC) as [R1 R2]. split; apply rows1; eapply mean_rows_ext; eauto; intros U HU; cbv beta; now rewrite E.
Qed.
Lemma wireframe_estimates h b i j : box_init h None None = Ok b -> 0 < nth 0 h 0 + nth 1 h 0 + nth 2 h 0 -> (i < 3)%nat -> (j < 3)%nat ->
  exists I V, mc_wireframe_pred h = Ok I /\ 0 <= V <= dot h h ^ 2 /\ forall n sh, (1 <= n)%nat -> shuffles sh ->
    estimates (box_edge_pvals b) n (draws_of n (uniform_draw (-1) 1)) (mean_u n) (fun counts u => mc_wireframe h n u counts sh) i j (entry I i j) (V / INR n).
Proof.
  intros Hb HA Hi Hj. pose proof (box_init_inv _ _ _ _ Hb) as (Lh & Ph & Eh & _).
  assert (HL : 0 < lsum h). { destruct h as [|x [|y [|z [|]]]]; try discriminate Lh. cbn [nth] in HA. unfold lsum. cbn. lra. }
  destruct (box_edge_shares h None None b Hb HL) as (LP & P0 & P1 & _).
  destruct (affine_pack 1 (fun _ => 0%nat) (edge_al h) (edge_be h) h i j (box_edge_pvals b) (fun a _ => Nat.lt_0_1) Hi Hj Lh (edge_bound h Ph) P1 P0) as (V & V0 & E).
  assert (E3 : forall n sh, (1 <= n)%nat -> shuffles sh -> estimates (box_edge_pvals b) n (draws_of n (uniform_draw (-1) 1)) (mean_u n) (fun counts u => mc_wireframe h n u counts sh) i j
    (wsum (box_edge_pvals b) (m1 (fun _ => 0%nat) (edge_al h) (edge_be h) i j)) (V / INR n)).
  { intros n sh Hn HS. apply estimates_rows1. apply E; [lia|]. rewrite LP. intros counts U HC HU. unfold mc_wireframe. rewrite Hb. cbn [bind]. cbv zeta.
    rewrite (edges_rows h None None b n U counts sh Hb HA HU HC HS). cbn [bind]. rewrite id_move_rows by exact HS. destruct HU as [[LU _] _]. apply pts_entry; auto. rewrite expand_length. apply HC. }
  clear E HL. destruct h as [|x [|y [|z [|]]]]; try discriminate Lh. cbn [nth] in HA.
  assert (EI : mc_wireframe_pred [x; y; z] = Ok (th_dual (diag [1 * (x * x * (x / 3 + y + z) / (x + y + z)); 1 * (y * y * (x + y / 3 + z) / (x + y + z)); 1 * (z * z * (x + y + z / 3) / (x + y + z))]))).
  { unfold mc_wireframe_pred. rewrite Hb. cbn [bind]. rewrite (box_wireframe_ok _ _ _ _ 1 x y z Hb eq_refl ltac:(lra) HA). cbn [bind]. apply dparams_I. }
  eexists. exists V. split; [exact EI|]. split; [exact V0|]. intros n sh Hn HS. eapply estimates_eq; [apply E3; auto| |reflexivity].
  clear E3 V0 EI. unfold box_edge_pvals. rewrite Eh. cbv zeta. clear -HA Hi Hj.
  destruct i as [|[|[|i]]]; try lia; destruct j as [|[|[|j]]]; try lia; unfold wsum, vdivs, m1, mm, edge_al, edge_be, edge_s, edge_s', th_dual, entry, trace, diagonal, lsum; cbn; unfold entry; cbn; field; lra.
Qed.

(** ** the solid box *)
Lemma solid_estimates h b i j : box_init h None None = Ok b -> (i < 3)%nat -> (j < 3)%nat ->
  exists I V, mc_solid_pred h = Ok I /\ 0 <= V <= dot h h ^ 2 /\ forall n, (1 <= n)%nat ->
    estimates [1] n (rows_of n 3 (uniform_draw (-1) 1)) (mean_rows 3 n) (fun _ U => mc_solid h n U) i j (entry I i j) (V / INR n).
Proof.
  intros Hb Hi Hj. pose proof (box_init_inv _ _ _ _ Hb) as (Lh & Ph & Eh & _).
  assert (P1 : lsum [1] = 1) by (unfold lsum; cbn; ring). assert (P0 : forall x, In x [1] -> 0 <= x) by (intros x [<-|[]]; lra).
  destruct (affine_pack 3 (fun a => a) (fun _ _ => 0) (fun _ a => nth a h 0) h i j [1] (fun a H => H) Hi Hj Lh) as (V & V0 & E); auto.
  { intros k a Ha. rewrite Rabs_R0, Rabs_pos_eq by auto. lra. }
  assert (E3 : forall n, (1 <= n)%nat -> estimates [1] n (rows_of n 3 (uniform_draw (-1) 1)) (mean_rows 3 n) (fun _ U => mc_solid h n U) i j
    (wsum [1] (m1 (fun a => a) (fun _ _ => 0) (fun _ a => nth a h 0) i j)) (V / INR n)).
  { intros n Hn. apply E; [lia|]. intros counts U [HC HC'] HU. unfold mc_solid. rewrite Hb. cbn [bind]. destruct HU as [[LU HU3] _]. rewrite Forall_forall in HU3. rewrite (id_points h b U Hb HU3).
    destruct (pts_entry n (fun a => a) (fun _ _ => 0) (fun _ a => nth a h 0) (expand 0 counts) U (fun P => P) i j Hn) as (A & EA & EE); auto; [rewrite expand_length; exact HC'|intro; apply Permutation_refl|].
    exists A. split; [|exact EE]. rewrite <- EA. f_equal. assert (LX : length (expand 0 counts) = length U) by (rewrite expand_length; lia). clear -LX HU3 Lh. revert LX. generalize (expand 0 counts). induction U as [|u U IH]; intros [|k ks] L; try discriminate L; [reflexivity|].
    cbn [map map2]. f_equal; [|apply IH; [intros; apply HU3; now right|now injection L]]. pose proof (HU3 u (or_introl eq_refl)) as Lu. destruct u as [|u0 [|u1 [|u2 [|]]]]; try discriminate Lu.
    destruct h as [|x [|y [|z [|]]]]; try discriminate Lh. unfold pt, co. cbn. list_eq; ring. }
  clear E. destruct h as [|x [|y [|z [|]]]]; try discriminate Lh.
  assert (EI : mc_solid_pred [x; y; z] = Ok (th_dual (diag [1 * (x * x / 3); 1 * (y * y / 3); 1 * (z * z / 3)]))).
  { unfold mc_solid_pred. rewrite Hb. cbn [bind]. rewrite (box_uniform_ok _ _ _ _ 1 Hb ltac:(lra)). cbn [bind nth]. apply dparams_I. }
  eexists. exists V. split; [exact EI|]. split; [exact V0|]. intros n Hn. eapply estimates_eq; [apply E3; auto| |reflexivity].
  clear -Hi Hj. destruct i as [|[|[|i]]]; try lia; destruct j as [|[|[|j]]]; try lia; unfold wsum, m1, mm, th_dual, entry, trace, diagonal, lsum; cbn; unfold entry; cbn; field.
Qed.

(** ** the means are determined *)
Lemma mean_rows_le d n : forall F G I J, (forall M, rows_of n d (uniform_draw (-1) 1) M -> F M <= G M) -> mean_rows d n F I -> mean_rows d n G J -> I <= J.
Proof.
  induction n; intros F G I J H; cbn; [intros -> ->; apply H; split; [split; [reflexivity|constructor]|intros r x []]|].
  intros (K1 & H1 & E1) (K2 & H2 & E2). eapply mean_u_le; [|exact E1|exact E2]. intros r [Lr Hr].
  apply (IHn (fun l => F (r :: l)) (fun l => G (r :: l))); [|now apply H1; split|now apply H2; split].
  intros M [[LM HM] HM']. apply H. split; [split; [cbn; lia|constructor; auto]|]. intros r' x [<-|I']; eauto.
Qed.
Lemma mean_rows_unique d n F I J : mean_rows d n F I -> mean_rows d n F J -> I = J.
Proof. intros H K. apply Rle_antisym; eapply mean_rows_le; eauto; intros; lra. Qed.
Lemma mean_u_unique n F I J : mean_u n F I -> mean_u n F J -> I = J.
Proof. intros H K. apply Rle_antisym; eapply mean_u_le; eauto; intros; lra. Qed.
Lemma estimates_of_unique {X} pv n (D : X -> Prop) (mean : (X -> R) -> R -> Prop) run stat t v t' v' :
  (forall F I J, mean F I -> mean F J -> I = J) -> (forall F G I, (forall x, D x -> F x = G x) -> mean F I -> mean G I) ->
  estimates_of pv n D mean run stat t v -> estimates_of pv n D mean run stat t' v' -> t = t' /\ v = v'.
Proof.
  intros U X1 (F & M & S & H1 & H2 & <- & H4) (F' & M' & S' & H1' & H2' & <- & H4').
  assert (EF : forall c x, multinomial_draw n (length pv) c -> D x -> F c x = F' c x).
  { intros c x HC Hx. destruct (H1 c x HC Hx) as (A & E & <-). destruct (H1' c x HC Hx) as (A' & E' & <-). congruence. }
  assert (EM : multinomial_mean pv n M = multinomial_mean pv n M').
  { apply cat_ext. intros s Ls Hs. pose proof (tally_draw _ _ Hs) as T. rewrite Ls in T. eapply U; [|apply (H2' _ T)]. eapply X1; [|apply (H2 _ T)]. intros. now apply EF. }
  split; [exact EM|]. rewrite <- H4, <- H4'. rewrite EM in H2. apply cat_ext. intros s Ls Hs. pose proof (tally_draw _ _ Hs) as T. rewrite Ls in T.
  eapply U; [|apply (H2' _ T)]. eapply X1; [|apply (H2 _ T)]. intros x Hx. cbv beta. now rewrite EF.
Qed.
Lemma shell_unique pv n run i j t v t' v' : estimates pv n (rows_of n 3 (uniform_draw (-1) 1)) (mean_rows 3 n) run i j t v ->
  estimates pv n (rows_of n 3 (uniform_draw (-1) 1)) (mean_rows 3 n) run i j t' v' -> t = t' /\ v = v'.
Proof. apply estimates_of_unique; [intros; eapply mean_rows_unique; eauto|intros; eapply mean_rows_ext; eauto]. Qed.
Lemma wireframe_unique pv n run i j t v t' v' : estimates pv n (draws_of n (uniform_draw (-1) 1)) (mean_u n) run i j t v ->
  estimates pv n (draws_of n (uniform_draw (-1) 1)) (mean_u n) run i j t' v' -> t = t' /\ v = v'.
Proof. apply estimates_of_unique; [intros; eapply mean_u_unique; eauto|intros; eapply mean_u_ext; eauto]. Qed.

(** ** draws for which the scripts fail *)
Lemma shell_fails h b U counts sh : box_init h None None = Ok b ->
  (0 < nth 0 h 0 * nth 1 h 0 + nth 0 h 0 * nth 2 h 0 + nth 1 h 0 * nth 2 h 0 -> mc_shell h 1 U counts sh = Raise IndexError) /\
  (0 < nth 0 h 0 * nth 1 h 0 + nth 0 h 0 * nth 2 h 0 + nth 1 h 0 * nth 2 h 0 -> mc_shell h 0 U counts sh = NonFinite) /\
  (nth 0 h 0 * nth 1 h 0 + nth 0 h 0 * nth 2 h 0 + nth 1 h 0 * nth 2 h 0 = 0 -> forall n, mc_shell h n U counts sh = Raise ValueError).
Proof.
  intro Hb. pose proof (box_init_inv _ _ _ _ Hb) as (Lh & Ph & Eh & _). destruct h as [|x [|y [|z [|]]]]; try discriminate Lh. cbn [nth].
  unfold mc_shell. rewrite Hb. cbn [bind]. unfold box_random_points_on_surface. rewrite Eh. split; [|split]; intros HA; [| |intro n].
  - rewrite Reqb_false by lra. reflexivity.
  - rewrite Reqb_false by lra. reflexivity.
  - cbv zeta. replace (2 * (4 * y * z + 4 * x * z + 4 * x * y)) with 0 by lra. unfold Reqb. destruct (Req_EM_T 0 0); [reflexivity|lra].
Qed.
Lemma wireframe_fails h b u counts sh : box_init h None None = Ok b ->
  (0 < nth 0 h 0 + nth 1 h 0 + nth 2 h 0 -> mc_wireframe h 0 u counts sh = NonFinite) /\
  (nth 0 h 0 + nth 1 h 0 + nth 2 h 0 = 0 -> forall n, mc_wireframe h n u counts sh = Raise ValueError).
Proof.
  intro Hb. pose proof (box_init_inv _ _ _ _ Hb) as (Lh & Ph & Eh & _). destruct h as [|x [|y [|z [|]]]]; try discriminate Lh. cbn [nth].
  unfold mc_wireframe, edge_points_from. rewrite Hb. cbn [bind]. cbv zeta. unfold box_random_points_on_edges. rewrite Eh. split; intros HA; [|intro n].
  - rewrite Reqb_false by lra. reflexivity.
  - cbv zeta. replace (4 * (x + y + z)) with 0 by lra. unfold Reqb. destruct (Req_EM_T 0 0); [reflexivity|lra].
Qed.
(** the box of the scripts, and a shuffle *)
Lemma script_box : exists b, box_init [1; 3 / 4; 1 / 2] None None = Ok b /\
  mc_shell_pred [1; 3 / 4; 1 / 2] = Ok [[289 / 624; 0; 0]; [0; 101 / 156; 0]; [0; 0; 493 / 624]] /\
  mc_wireframe_pred [1; 3 / 4; 1 / 2] = Ok [[281 / 432; 0; 0]; [0; 11 / 12; 0]; [0; 0; 493 / 432]] /\
  dot [1; 3 / 4; 1 / 2] [1; 3 / 4; 1 / 2] = 29 / 16 /\ shuffles (@rev vec).
Proof.
  destruct (box_init_good [1; 3 / 4; 1 / 2] None None) as [b Hb]; [reflexivity|intros [|[|[|k]]] H; try lia; cbn; lra|apply is_mat_eye|reflexivity|].
  exists b. split; [exact Hb|]. split; [|split; [|split]].
  - unfold mc_shell_pred. rewrite Hb. cbn [bind]. rewrite (box_hollow_ok _ _ _ _ 1 1 (3 / 4) (1 / 2) Hb eq_refl ltac:(lra) ltac:(lra)). cbn [bind]. rewrite dparams_I. f_equal. cbn. list_eq; field.
  - unfold mc_wireframe_pred. rewrite Hb. cbn [bind]. rewrite (box_wireframe_ok _ _ _ _ 1 1 (3 / 4) (1 / 2) Hb eq_refl ltac:(lra) ltac:(lra)). cbn [bind]. rewrite dparams_I. f_equal. cbn. list_eq; field.
  - unfold dot, lsum. cbn. lra.
  - intro P. apply Permutation_sym, Permutation_rev.
Qed.
