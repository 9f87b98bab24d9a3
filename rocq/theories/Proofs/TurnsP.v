(** C104: the law of a point that Ellipsoid.random_points_on_surface returns. *)
From Coquelicot Require Import Coquelicot.
From Verif Require Import Base.Vec Base.VecFacts Spec.Basic Spec.Shapes Spec.ShapeObjects Spec.Integrals Spec.RandomSpec Spec.Uniform Spec.Turns
  Model.Util Model.Polydd Model.Poly Model.Inertial Model.Ellipsoid Model.Box Model.Cylinder Model.Random
  Proofs.Coord Proofs.EllP Proofs.BoxP Proofs.IntegralP Proofs.DensityP Proofs.RandomP Proofs.UniformP Proofs.ExpectP.

(** ** the first accepted candidate *)
Fixpoint first_accepted (h : vec) (K : R) (l : list turn) : option vec :=
  match l with [] => None | (u, phi, v) :: l => if Rleb v (K * ell_area h u phi) then Some (ell_point h u phi) else first_accepted h K l end.
Definition accK (h : vec) : R := lmin h / (nth 0 h 0 * nth 1 h 0 * nth 2 h 0).
Lemma loop_first h l draw : (forall a, In a h -> 0 < a) -> length h = 3%nat -> (forall t, In t l -> turn_draw t) ->
  forall turn, (forall i, (i < length l)%nat -> draw (turn + i)%nat 1%nat = surface_draw l i 1%nat) ->
  ell_surface_loop h 1 draw (length l) turn (zeros2 1 3) 0 = option_map (fun p => Ok [p]) (first_accepted h (accK h) l).
Proof.
  intros HP Lh. destruct h as [|x [|y [|z [|]]]]; try discriminate Lh.
  assert (Hx : 0 < x) by (apply HP; cbn; auto). assert (Hy : 0 < y) by (apply HP; cbn; auto). assert (Hz : 0 < z) by (apply HP; cbn; auto).
  induction l as [|[[u phi] v] l IH]; intros HT turn HD; [reflexivity|]. cbn [length ell_surface_loop Nat.ltb Nat.leb Nat.sub first_accepted].
  pose proof (HD 0%nat ltac:(cbn; lia)) as D0. rewrite Nat.add_0_r in D0. rewrite D0. unfold surface_draw at 1. cbn [nth_error].
  destruct (HT (u, phi, v) (or_introl eq_refl)) as (Hu & _ & _). pose proof (sphere_row u phi Hu) as N1.
  assert (H1 : random_points_on_hypersphere 2 [ell_point [1; 1; 1] u phi] = Ok [ell_point [1; 1; 1] u phi]).
  { set (p := ell_point [1; 1; 1] u phi) in *. unfold random_points_on_hypersphere. cbn [Nat.leb assert_ bind mapM]. unfold normalize_row. rewrite N1, Reqb_false by lra. cbn [bind]. do 2 f_equal. unfold vdivs. rewrite <- (map_id p) at 2. apply map_ext. intros. field. }
  rewrite H1. rewrite (ell_accept_eq [x; y; z] u phi x y z v eq_refl Hx Hy Hz Hu). unfold accK. cbn [nth]. destruct (Rleb v _) eqn:EV.
  - cbn [length Nat.add write_rows firstn app skipn zeros2 repeat option_map]. destruct (length l); reflexivity.
  - cbn [length Nat.add]. change (write_rows (zeros2 1 3) 0 []) with (zeros2 1 3). apply IH; [intros t I; apply HT; now right|].
    intros i Hi. specialize (HD (S i) ltac:(cbn; lia)). rewrite Nat.add_succ_comm. rewrite HD. reflexivity.
Qed.
Lemma surface_run h r c e l : ell_init h r c = Ok e -> (forall a, In a h -> 0 < a) -> length h = 3%nat -> (forall t, In t l -> turn_draw t) ->
  ell_random_points_on_surface e 1 (surface_draw l) (length l) = option_map (fun p => Ok [move (transpose (pose_rot 3 r)) (pose_tr 3 c) p]) (first_accepted h (accK h) l).
Proof.
  intros He HP Lh HT. apply ell_init_inv in He as (_ & E1 & E2 & E3 & MQ & Lc). rewrite Lh in *. unfold ell_random_points_on_surface. rewrite E1.
  assert (F : forallb (Rltb 0) h = true). { apply forallb_forall. intros a I. apply Rltb_iff. auto. }
  rewrite F, Lh. rewrite (loop_first h l (surface_draw l) HP Lh HT 0%nat) by reflexivity. destruct (first_accepted h (accK h) l) as [p|] eqn:EP; [|reflexivity]. cbn [option_map].
  assert (Lp : length p = 3%nat). { clear - EP Lh. induction l as [|[[u phi] v] l IH]; [discriminate|]. cbn in EP. destruct (Rleb _ _); [injection EP as <-; unfold ell_point; rewrite vmul_length; auto|auto]. }
  unfold mat_mul. cbn [map]. unfold move. rewrite E3. do 4 f_equal. rewrite E2 in *. revert MQ Lp. clear. generalize (pose_rot 3 r). intros Q MQ Lp. destruct_vecs. cbn. list_eq; ring.
Qed.

(** ** one turn *)
Lemma step_integral g x y : 0 <= g <= 1 -> integral (fun v => if Rleb v g then x else y) 0 1 (g * x + (1 - g) * y).
Proof.
  intros Hg. assert (A : integral (fun v => if Rleb v g then x else y) 0 g (g * x)).
  { apply (integral_ext (fun _ => x)); [intros v Hv; rewrite Rmin_left, Rmax_right in Hv by lra; unfold Rleb; destruct Rle_dec; auto; lra|].
    apply (integral_eq _ _ _ (scal (g - 0) x)); [apply (is_RInt_const 0 g x)|]. unfold scal. cbn. unfold mult. cbn. ring. }
  assert (B : integral (fun v => if Rleb v g then x else y) g 1 ((1 - g) * y)).
  { apply (integral_ext (fun _ => y)); [intros v Hv; rewrite Rmin_left, Rmax_right in Hv by lra; unfold Rleb; destruct Rle_dec; auto; lra|].
    apply (integral_eq _ _ _ (scal (1 - g) y)); [apply (is_RInt_const g 1 y)|]. reflexivity. }
  exact (is_RInt_Chasles _ 0 g 1 _ _ A B).
Qed.
Lemma const_int x a b : integral (fun _ => x) a b (x * (b - a)).
Proof. apply (integral_eq _ _ _ (scal (b - a) x)); [apply (is_RInt_const a b x)|]. unfold scal. cbn. unfold mult. cbn. ring. Qed.
Lemma turn_const x : turn_mean (fun _ => x) x.
Proof.
  exists (fun _ _ => x). split; [intros; eapply integral_eq; [apply const_int|ring]|].
  exists (fun _ => x * (2 * PI)). split; [intros; eapply integral_eq; [apply const_int|ring]|]. eapply integral_eq; [apply const_int|ring].
Qed.
Lemma turns_const k x : turns_mean k (fun _ => x) x.
Proof. induction k; cbn; [reflexivity|]. exists (fun _ => x). split; [auto|apply turn_const]. Qed.
Lemma turns_ext k : forall F G I, (forall l, length l = k -> (forall t, In t l -> turn_draw t) -> F l = G l) -> turns_mean k F I -> turns_mean k G I.
Proof.
  induction k; cbn; intros F G I H HF; [rewrite HF; apply H; [reflexivity|intros t []]|]. destruct HF as (K & H1 & H2). exists K. split; [|exact H2]. intros t Ht. eapply IHk; [|apply H1; auto].
  intros l Ll Hl. cbv beta. apply H; [cbn; now rewrite Ll|]. intros t' [<-|I']; auto.
Qed.
Lemma turn_step h K (f : vec -> R) M A T : ell_surface h (fun _ => 1) A -> ell_surface h f T ->
  (forall u phi, -1 <= u <= 1 -> 0 <= K * ell_area h u phi <= 1) ->
  turn_mean (fun t => let '(u, phi, v) := t in if Rleb v (K * ell_area h u phi) then f (ell_point h u phi) else M) ((K * T + M * (4 * PI - K * A)) / (4 * PI)).
Proof.
  intros (FA & A1 & A2) (FT & T1 & T2) HK. pose proof PI_RGT_0 as PP. eexists. split; [intros u phi Hu Hphi; cbv beta iota; apply step_integral; apply HK; auto|].
  exists (fun u => M * (2 * PI - 0) + K * FT u + (- M * K) * FA u). split.
  - intros u Hu. eapply integral_ext; [|exact (integral_lin _ _ 0 (2 * PI) M K (- M * K) _ _ (T1 u Hu) (A1 u Hu))]. intros phi _. cbv beta. ring.
  - eapply integral_eq; [exact (integral_lin _ _ (-1) 1 (M * (2 * PI - 0)) K (- M * K) _ _ T2 A2)|]. field. lra.
Qed.
Lemma first_mean h K f A T : ell_surface h (fun _ => 1) A -> ell_surface h f T -> A <> 0 ->
  (forall u phi, -1 <= u <= 1 -> 0 <= K * ell_area h u phi <= 1) -> forall k,
  turns_mean k (fun l => match first_accepted h K l with Some p => f p | None => 0 end) (T / A * (1 - (1 - K * A / (4 * PI)) ^ k)).
Proof.
  intros HA HT NA HK. pose proof PI_RGT_0 as PP. induction k; [cbn; ring|]. cbn [turns_mean].
  eexists. split; [|eapply (fun H E => eq_rect _ (turn_mean _) H _ E); [exact (turn_step h K f (T / A * (1 - (1 - K * A / (4 * PI)) ^ k)) A T HA HT HK)|]].
  - intros [[u phi] v] Ht. cbn [first_accepted]. destruct (Rleb v (K * ell_area h u phi)); [apply turns_const|exact IHk].
  - rewrite <- tech_pow_Rmult. field. split; [lra|exact NA].
Qed.

(** ** the acceptance probability *)
Lemma area_bounds h A b B : ell_surface h (fun _ => 1) A -> (forall u phi, -1 <= u <= 1 -> b <= ell_area h u phi <= B) -> 4 * PI * b <= A <= 4 * PI * B.
Proof.
  intros (F & F1 & F2) H. pose proof PI_RGT_0 as PP.
  assert (I : forall u, -1 <= u <= 1 -> b * (2 * PI) <= F u <= B * (2 * PI)).
  { intros u Hu. pose proof (F1 u Hu) as K. split.
    - apply (is_RInt_le (fun _ => b) (fun phi => 1 * ell_area h u phi) 0 (2 * PI)); [lra|eapply integral_eq; [apply const_int|ring]|exact K|]. intros phi _. destruct (H u phi Hu). lra.
    - apply (is_RInt_le (fun phi => 1 * ell_area h u phi) (fun _ => B) 0 (2 * PI)); [lra|exact K|eapply integral_eq; [apply const_int|ring]|]. intros phi _. destruct (H u phi Hu). lra. }
  split.
  - apply (is_RInt_le (fun _ => b * (2 * PI)) F (-1) 1); [lra|eapply integral_eq; [apply const_int|ring]|exact F2|]. intros u Hu. apply I. lra.
  - apply (is_RInt_le F (fun _ => B * (2 * PI)) (-1) 1); [lra|exact F2|eapply integral_eq; [apply const_int|ring]|]. intros u Hu. apply I. lra.
Qed.
Lemma area_low x y z u phi : 0 < x -> 0 < y -> 0 < z -> -1 <= u <= 1 -> Rmin (y * z) (Rmin (x * z) (x * y)) <= ell_area [x; y; z] u phi.
Proof.
  intros Hx Hy Hz Hu. cbn [ell_area]. set (q := Rmin _ _). assert (P1 : 0 < y * z) by nra. assert (P2 : 0 < x * z) by nra. assert (P3 : 0 < x * y) by nra.
  assert (Q : 0 < q /\ q <= y * z /\ q <= x * z /\ q <= x * y) by (unfold q, Rmin; repeat destruct Rle_dec; lra). destruct Q as (Q0 & Q1 & Q2 & Q3).
  rewrite <- (sqrt_square q) by lra. apply sqrt_le_1_alt. pose proof (sin2_cos2 phi) as T. unfold Rsqr in T.
  assert (S1 : q * q <= (y * z) ^ 2) by nra. assert (S2 : q * q <= (x * z) ^ 2) by nra. assert (S3 : q * q <= (x * y) ^ 2) by nra.
  assert (W : 0 <= 1 - u * u) by nra. set (w := 1 - u * u) in *. set (C := w * cos phi ^ 2). set (S := w * sin phi ^ 2). set (V := u ^ 2).
  assert (PC : 0 <= C) by (unfold C; apply Rmult_le_pos; [lra|apply pow2_ge_0]). assert (PS : 0 <= S) by (unfold S; apply Rmult_le_pos; [lra|apply pow2_ge_0]). assert (PV : 0 <= V) by apply pow2_ge_0.
  assert (SUM : C + S + V = 1). { unfold C, S, V. replace (w * cos phi ^ 2 + w * sin phi ^ 2 + u ^ 2) with (w * (sin phi * sin phi + cos phi * cos phi) + u ^ 2) by ring. rewrite T. unfold w. ring. }
  replace (q * q) with (q * q * (C + S + V)) by (rewrite SUM; ring). 
  pose proof (Rmult_le_compat_r _ _ _ PC S1). pose proof (Rmult_le_compat_r _ _ _ PS S2). pose proof (Rmult_le_compat_r _ _ _ PV S3). lra.
Qed.
Lemma surface_point_law f h r c e A T : ell_init h r c = Ok e -> length h = 3%nat -> (forall a, In a h -> 0 < a) ->
  ell_surface h (fun _ => 1) A -> ell_surface h (fun p => f (move (transpose (pose_rot 3 r)) (pose_tr 3 c) p)) T ->
  exists a, 0 < a <= 1 /\ forall k,
    (forall l, length l = k -> (forall t, In t l -> turn_draw t) -> let o := ell_random_points_on_surface e 1 (surface_draw l) k in o = None \/ exists p, o = Some (Ok [p])) /\
    turns_mean k (fun l => point_stat (fun _ => 1) (ell_random_points_on_surface e 1 (surface_draw l) k)) (1 - (1 - a) ^ k) /\
    turns_mean k (fun l => point_stat f (ell_random_points_on_surface e 1 (surface_draw l) k)) (T / A * (1 - (1 - a) ^ k)).
Proof.
  intros He Lh HP HA HT. pose proof PI_RGT_0 as PP. pose proof Lh as Lh'. destruct h as [|x [|y [|z [|]]]]; try discriminate Lh'. clear Lh'.
  assert (Hx : 0 < x) by (apply HP; cbn; auto). assert (Hy : 0 < y) by (apply HP; cbn; auto). assert (Hz : 0 < z) by (apply HP; cbn; auto).
  assert (PX : 0 < x * y * z) by (apply Rmult_lt_0_compat; nra).
  assert (Hm : 0 < lmin [x; y; z]) by (cbn; unfold Rmin; repeat destruct Rle_dec; lra).
  assert (HK : forall u phi, -1 <= u <= 1 -> 0 <= accK [x; y; z] * ell_area [x; y; z] u phi <= 1).
  { intros u' phi' Hu'. unfold accK. cbn [nth]. destruct (ell_area_pos [x; y; z] u' phi' x y z eq_refl Hx Hy Hz Hu') as [A1 A2]. set (Q := ell_area _ _ _) in *. set (m := lmin _) in *. split.
    - left. apply Rmult_lt_0_compat; auto. now apply Rdiv_lt_0_compat.
    - apply Rmult_le_reg_r with (x * y * z / m); [now apply Rdiv_lt_0_compat|]. replace (m / (x * y * z) * Q * (x * y * z / m)) with Q by (field; repeat split; lra). lra. }
  assert (PK : 0 < accK [x; y; z]) by (unfold accK; cbn [nth]; now apply Rdiv_lt_0_compat).
  assert (PA : 0 < A /\ accK [x; y; z] * A <= 4 * PI).
  { destruct (area_bounds [x; y; z] A (Rmin (y * z) (Rmin (x * z) (x * y))) (/ accK [x; y; z]) HA) as [B1 B2].
    - intros u phi Hu. split; [now apply area_low|]. apply (Rmult_le_reg_l (accK [x; y; z])); auto. rewrite Rinv_r by lra. now apply HK.
    - assert (0 < Rmin (y * z) (Rmin (x * z) (x * y))) by (unfold Rmin; repeat destruct Rle_dec; nra). split; [assert (0 < 4 * PI * Rmin (y * z) (Rmin (x * z) (x * y))) by (apply Rmult_lt_0_compat; lra); lra|].
      apply (Rmult_le_compat_l (accK [x; y; z])) in B2; [|lra]. replace (accK [x; y; z] * (4 * PI * / accK [x; y; z])) with (4 * PI) in B2 by (field; lra). exact B2. }
  destruct PA as [PA QA]. exists (accK [x; y; z] * A / (4 * PI)). split; [split; [apply Rdiv_lt_0_compat; [now apply Rmult_lt_0_compat|lra]|apply (Rmult_le_reg_r (4 * PI)); [lra|]; unfold Rdiv; rewrite Rmult_assoc, Rinv_l by lra; lra]|].
  intro k. split; [|split].
  - intros l <- Hl. rewrite (surface_run _ r c e l He HP Lh Hl). destruct first_accepted; [right; eexists; reflexivity|now left].
  - pose proof (first_mean [x; y; z] (accK [x; y; z]) (fun _ => 1) A A HA HA ltac:(lra) HK k) as K. replace (A / A) with 1 in K by (field; lra). rewrite Rmult_1_l in K.
    eapply turns_ext; [|exact K]. intros l <- Hl. cbv beta. rewrite (surface_run _ r c e l He HP Lh Hl). destruct first_accepted; reflexivity.
  - pose proof (first_mean [x; y; z] (accK [x; y; z]) _ A T HA HT ltac:(lra) HK k) as K.
    eapply turns_ext; [|exact K]. intros l <- Hl. cbv beta. rewrite (surface_run _ r c e l He HP Lh Hl). destruct first_accepted; reflexivity.
Qed.

(** ** means are unique *)
Lemma integral2_unique a b c d f g I J : a <= b -> c <= d -> (forall x y, a <= x <= b -> c < y < d -> f x y = g x y) ->
  integral2 a b (fun _ => c) (fun _ => d) f I -> integral2 a b (fun _ => c) (fun _ => d) g J -> I = J.
Proof.
  intros Hab Hcd E (F & F1 & F2) (G & G1 & G2). eapply integral_unique; [exact F2|]. eapply integral_ext; [|exact G2]. intros x Hx. rewrite Rmin_left, Rmax_right in Hx by lra. cbv beta.
  assert (Hx' : a <= x <= b) by lra. eapply integral_unique; [apply G1; auto|]. eapply integral_ext; [|apply F1; auto]. intros y Hy. rewrite Rmin_left, Rmax_right in Hy by lra. auto.
Qed.
Lemma turn_unique F G I J : (forall t, turn_draw t -> F t = G t) -> turn_mean F I -> turn_mean G J -> I = J.
Proof.
  intros E (H & H1 & H2) (K & K1 & K2). pose proof PI_RGT_0 as PP. enough (4 * PI * I = 4 * PI * J) by (apply (Rmult_eq_reg_l (4 * PI)); lra).
  eapply (integral2_unique (-1) 1 0 (2 * PI) H K); [lra|lra| |exact H2|exact K2]. intros u phi Hu Hphi. eapply integral_unique; [apply H1; lra|].
  eapply integral_ext; [|apply K1; lra]. intros v Hv. rewrite Rmin_left, Rmax_right in Hv by lra. symmetry. apply E. repeat split; lra.
Qed.
Lemma turns_unique k : forall F I J, turns_mean k F I -> turns_mean k F J -> I = J.
Proof.
  induction k; cbn; intros F I J; [congruence|]. intros (G & G1 & G2) (K & K1 & K2). eapply turn_unique; [|exact G2|exact K2]. intros t Ht. eapply IHk; [apply G1|apply K1]; auto.
Qed.
Lemma surface_case : exists e, ell_init [2; 2; 2] None (Some [1; 0; 0]) = Ok e /\ (forall a, In a [2; 2; 2] -> 0 < a) /\
  ell_surface [2; 2; 2] (fun _ => 1) (16 * PI) /\ ell_surface [2; 2; 2] (fun p => nth 0 (move (transpose (eye 3)) [1; 0; 0] p) 0) (16 * PI) /\
  turn_draw (1 / 2, 1, 1 / 3).
Proof.
  pose proof (sphere_surface_moments 2 ltac:(lra)) as K. eexists. split; [apply ell_init_good; [intros [|[|[|k]]] H; cbn in *; try lra; lia|apply is_mat_eye|reflexivity]|].
  split; [intros a [<-|[<-|[<-|[]]]]; lra|]. split; [|split].
  - eapply (dom3_ell_surface 2 2 2 (fun u => affine 1 0 0 0 u * affine 1 0 0 0 u)); [intros; unfold affine; ring|]. replace (16 * PI) with (4 * PI * (2 * 2) * (1 * 1 + 0 * 0 * (2 * 2 / 3) + 0 * 0 * (2 * 2 / 3) + 0 * 0 * (2 * 2 / 3))) by field. exact (K 1 0 0 0 1 0 0 0).
  - eapply (dom3_ell_surface 2 2 2 (fun u => affine 1 1 0 0 u * affine 1 0 0 0 u)).
    + intros; unfold affine; cbn; ring.
    + replace (16 * PI) with (4 * PI * (2 * 2) * (1 * 1 + 1 * 0 * (2 * 2 / 3) + 0 * 0 * (2 * 2 / 3) + 0 * 0 * (2 * 2 / 3))) by field. exact (K 1 1 0 0 1 0 0 0).
  - unfold turn_draw, unit_draw. pose proof PI2_1. lra.
Qed.
