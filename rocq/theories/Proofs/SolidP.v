(** C109: the law of the points of Ellipsoid.random_points and Cylinder.random_points. *)
From Coquelicot Require Import Coquelicot.
From Verif Require Import Base.Vec Base.VecFacts Spec.Basic Spec.Shapes Spec.ShapeObjects Spec.Integrals Spec.RandomSpec Spec.Turns Spec.Continuous Spec.Solid Spec.Samples
  Model.Util Model.Polydd Model.Poly Model.Inertial Model.Ellipsoid Model.Box Model.Cylinder Model.Random
  Proofs.Coord Proofs.Hull Proofs.EllP Proofs.EllForms Proofs.BoxP Proofs.CylP Proofs.IntegralP Proofs.DensityP Proofs.RandomP Proofs.UniformP Proofs.ExpectP Proofs.BallLawP Proofs.TurnsP Proofs.MonoInt Proofs.ContInt Proofs.ContLaw Proofs.SamplingP Proofs.SamplesP.

(** ** the radius *)
Lemma pow_super d x y : (0 < d)%nat -> 0 <= y -> y <= x -> (x - y) ^ d + y ^ d <= x ^ d.
Proof.
  intros Hd Hy Hx. induction d as [|d IH]; [lia|]. destruct d as [|d]; [cbn; lra|]. specialize (IH ltac:(lia)). set (k := S d) in *. cbn [pow].
  assert (A : 0 <= (x - y) ^ k) by (apply pow_le; lra). assert (B : 0 <= y ^ k) by (apply pow_le; lra).
  apply Rle_trans with (x * ((x - y) ^ k + y ^ k)); [|apply Rmult_le_compat_l; lra].
  assert (0 <= y * (x - y) ^ k) by now apply Rmult_le_pos. assert (0 <= (x - y) * y ^ k) by (apply Rmult_le_pos; lra). lra.
Qed.
Lemma rad_pow d c : (0 < d)%nat -> 0 <= c -> rad d c ^ d = c.
Proof.
  intros Hd Hc. pose proof (rad_pos d c) as P. rewrite <- rad_rpow in * by exact Hc. apply Rle_antisym.
  - destruct (Rle_dec (rpow c (1 / INR d) ^ d) c) as [L|L]; [exact L|]. exfalso.
    assert (K : rpow (rpow c (1 / INR d) ^ d) (1 / INR d) = rpow c (1 / INR d)) by now apply rpow_root.
    assert (K2 : rpow (rpow c (1 / INR d) ^ d) (1 / INR d) <= rpow c (1 / INR d)) by (rewrite K; lra).
    destruct (Req_dec c 0) as [->|N]; [apply L; unfold rpow; rewrite Reqb_true by reflexivity; rewrite pow_i by lia; lra|].
    apply L. right. unfold rpow. rewrite Reqb_false by exact N. rewrite <- Rpower_pow by apply exp_pos. rewrite Rpower_mult. replace (1 / INR d * INR d) with 1 by (field; apply not_0_INR; lia). apply Rpower_1. lra.
  - apply (proj1 (rpow_le c (rpow c (1 / INR d)) d Hd Hc P)). lra.
Qed.
Lemma rad_close d a b e : (0 < d)%nat -> 0 < e -> Rabs (a - b) < e ^ d -> Rabs (rad d a - rad d b) < e.
Proof.
  intros Hd He. assert (K : forall a b, b <= a -> a - b < e ^ d -> 0 <= rad d a - rad d b < e).
  { clear a b. intros a b Hab H. assert (NN : forall c, rad d c = rad d (Rmax 0 c)).
    { intro c. unfold Rmax. destruct (Rle_dec 0 c); [reflexivity|]. unfold rad. destruct (Rle_dec c 0), (Rle_dec 0 0); auto; lra. }
    rewrite (NN a), (NN b). set (a' := Rmax 0 a). set (b' := Rmax 0 b).
    assert (B : 0 <= b' <= a' /\ a' - b' < e ^ d). { pose proof (pow_lt e d He). unfold a', b', Rmax. destruct (Rle_dec 0 a), (Rle_dec 0 b); lra. }
    assert (Ra : rad d a' ^ d = a') by (apply rad_pow; lra || lia). assert (Rb : rad d b' ^ d = b') by (apply rad_pow; lra || lia).
    pose proof (rad_pos d a') as Pa. pose proof (rad_pos d b') as Pb.
    assert (M : rad d b' <= rad d a'). { destruct (Rle_dec (rad d b') (rad d a')) as [L|L]; [exact L|]. exfalso. pose proof (pow_super d (rad d b') (rad d a') Hd Pa ltac:(lra)) as S. assert (0 < (rad d b' - rad d a') ^ d) by (apply pow_lt; lra). lra. }
    split; [lra|]. destruct (Rlt_dec (rad d a' - rad d b') e) as [L|L]; [exact L|]. exfalso.
    pose proof (pow_super d (rad d a') (rad d b') Hd Pb M) as S. assert (e ^ d <= (rad d a' - rad d b') ^ d) by (apply pow_incr; lra). lra. }
  intros H. destruct (Rle_dec b a) as [L|L].
  - rewrite Rabs_pos_eq in H by lra. destruct (K a b L H). rewrite Rabs_pos_eq; lra.
  - rewrite Rabs_minus_sym in H |- *. rewrite Rabs_pos_eq in H by lra. destruct (K b a ltac:(lra) H). rewrite Rabs_pos_eq; lra.
Qed.
Lemma rad_cont d c : (0 < d)%nat -> continuous (rad d) c.
Proof.
  intros Hd. apply (proj2 (filterlim_locally (rad d) (rad d c))). intro eps. exists (mkposreal (eps ^ d) (pow_lt _ d (cond_pos eps))). intros y Hy. apply rad_close; auto. apply cond_pos.
Qed.
(** the radius c^(1/d) of a uniform draw c has the density d rho^(d-1) *)
Lemma root_subst d F J : (0 < d)%nat -> (forall x, continuous F x) -> integral (fun rho => F rho * rho ^ (d - 1)) 0 1 J -> integral (fun v => F (rpow v (1 / INR d))) 0 1 (INR d * J).
Proof.
  intros Hd CF HJ. set (f := fun v => F (rad d v)).
  assert (Cf : forall x, continuous f x) by (intro x; apply (continuous_comp (rad d) F); [now apply rad_cont|apply CF]).
  pose proof (is_RInt_comp f (fun y => y ^ d) (fun y => INR d * y ^ (d - 1)) 0 1) as S.
  assert (S' : is_RInt (fun y => scal (INR d * y ^ (d - 1)) (f (y ^ d))) 0 1 (RInt f (0 ^ d) (1 ^ d))).
  { apply S; [intros; apply Cf|]. intros x _. split.
    - replace (INR d * x ^ (d - 1)) with (INR d * 1 * x ^ pred d) by (replace (pred d) with (d - 1)%nat by lia; ring). apply (is_derive_pow (fun y => y) d x 1). apply (is_derive_id (K := R_AbsRing)).
    - apply (ex_derive_continuous (V := R_NormedModule)). auto_derive. auto. }
  clear S. rewrite pow_i, pow1 in S' by lia.
  assert (E1 : integral f 0 1 (RInt f 0 1)) by (apply (RInt_correct (V := R_CompleteNormedModule)), (ex_RInt_continuous (V := R_CompleteNormedModule)); intros; apply Cf).
  assert (E2 : integral (fun rho => INR d * (F rho * rho ^ (d - 1))) 0 1 (RInt f 0 1)).
  { eapply IntegralP.integral_ext; [|exact S']. intros x Hx. rewrite Rmin_left, Rmax_right in Hx by lra. unfold f, scal. cbn. unfold mult. cbn. rewrite <- rad_rpow by (apply pow_le; lra). rewrite rpow_root by (lra || lia). ring. }
  assert (E3 : integral (fun rho => INR d * (F rho * rho ^ (d - 1))) 0 1 (INR d * J)) by exact (is_RInt_scal _ 0 1 (INR d) _ HJ).
  rewrite (integral_unique _ _ _ _ _ E3 E2). eapply IntegralP.integral_ext; [|exact E1]. intros x Hx. rewrite Rmin_left, Rmax_right in Hx by lra. unfold f. rewrite rad_rpow by lra. reflexivity.
Qed.
(** a continuous function along a line *)
Lemma line_continuous f (a b : vec) : continuous3 f -> length a = 3%nat -> length b = 3%nat -> forall x, continuous (fun s => f (vadd (vscale s a) b)) x.
Proof.
  intros Hf La Lb. destruct (three a La) as (a0 & a1 & a2 & ->). destruct (three b Lb) as (b0 & b1 & b2 & ->). intro x.
  assert (C : cont near_1 (fun p => f [snd p * a0 + b0; snd p * a1 + b1; snd p * a2 + b2])).
  { assert (L : forall k l, cont near_1 (fun p : unit * R => snd p * k + l)) by (intros; apply (cont_plus near_1 m1); [apply (cont_mult near_1 m1); cpt|cpt]).
    apply (cont_point near_1 m1 f (fun p => snd p * a0 + b0) (fun p => snd p * a1 + b1) (fun p => snd p * a2 + b2)); auto. }
  apply (proj2 (filterlim_locally (fun s => f (vadd (vscale s [a0; a1; a2]) [b0; b1; b2])) _)). intro eps. destruct (C (tt, x) eps (cond_pos eps)) as (e & P & H).
  exists (mkposreal e P). intros y Hy. exact (H (tt, y) (conj I Hy)).
Qed.

Lemma int_scale f k a b I : 0 < k -> integral f (k * a) (k * b) I -> integral (fun s => f (k * s)) a b (I / k).
Proof.
  intros Hk H. assert (H' : is_RInt f (k * a + 0) (k * b + 0) I) by (rewrite !Rplus_0_r; exact H).
  pose proof (is_RInt_scal _ a b (/ k) _ (is_RInt_comp_lin f k 0 a b I H')) as K. apply (IntegralP.integral_eq _ _ _ (/ k * I)); [|field; lra].
  eapply IntegralP.integral_ext; [|exact K]. intros x _. unfold scal. cbn. unfold mult. cbn. rewrite Rplus_0_r. field. lra.
Qed.
Lemma int_scal f k a b I : integral f a b I -> integral (fun x => k * f x) a b (k * I).
Proof. intro H. exact (is_RInt_scal _ a b k _ H). Qed.
Lemma move_line Q t a (s : R) : is_mat 3 3 Q -> length t = 3%nat -> length a = 3%nat -> move Q t (vscale s a) = vadd (vscale s (mat_vec Q a)) t.
Proof. intros M Lt La. destruct_vecs. unfold move. cbn. list_eq; ring. Qed.

(** ** the ellipsoid *)
Lemma ell_point_run h r c e u phi v : ell_init h r c = Ok e -> length h = 3%nat -> -1 <= u <= 1 -> unit_draw v ->
  ell_random_points e [ell_point [1; 1; 1] u phi] [v] = Ok [move (stretch h r) (pose_tr 3 c) (solid_point [1; 1; 1] u phi (rpow v (1 / INR 3)))].
Proof.
  intros He Lh Hu Hv. assert (Lx : length (ell_point [1; 1; 1] u phi) = 3%nat) by reflexivity. pose proof (sphere_row u phi Hu) as N1.
  assert (Nx : ell_point [1; 1; 1] u phi <> zeros 3). { intro E. rewrite E in N1. assert (Z : norm (zeros 3) = 0) by (unfold norm; cbn; replace (0 * 0 + (0 * 0 + (0 * 0 + 0))) with 0 by ring; apply sqrt_0). lra. }
  rewrite (ell_random_eq h r c e [ell_point [1; 1; 1] u phi] [v] 3 He ltac:(lia) Lh [bpt 3 (ell_point [1; 1; 1] u phi) v]); [|apply ball_run; auto|intros p [<-|[]]; unfold bpt; rewrite !vscale_length; exact Lx].
  cbn [map]. do 2 f_equal. unfold move, solid_point, bpt. unfold unit_draw, uniform_draw in Hv. rewrite rad_rpow by lra. rewrite N1. unfold congd. do 3 f_equal. unfold vscale. rewrite <- (map_id (ell_point [1; 1; 1] u phi)) at 2. apply map_ext. intros. field.
Qed.
Lemma ell_solid_law f h r c e T : continuous3 f -> ell_init h r c = Ok e -> length h = 3%nat -> ell_solid [1; 1; 1] (fun p => f (move (stretch h r) (pose_tr 3 c) p)) T ->
  turn_mean (fun t => let '(u, phi, v) := t in point_stat f (Some (ell_random_points e [ell_point [1; 1; 1] u phi] [v]))) (T / (4 / 3 * PI)).
Proof.
  intros F He Lh HT. pose proof (ell_init_inv _ _ _ _ He) as (_ & _ & Er & Ec & MQ & Lc). rewrite Lh in *. rewrite Er in MQ. rewrite Ec in Lc.
  assert (MA : is_mat 3 3 (stretch h r)) by (apply (congd_is_mat 3); auto; lia). set (g := fun p => f (move (stretch h r) (pose_tr 3 c) p)) in *.
  set (J := fun u phi => itg (fun rho => g (solid_point [1; 1; 1] u phi rho) * rho ^ 2) 0 1).
  assert (CG : forall u phi x, continuous (fun rho => g (solid_point [1; 1; 1] u phi rho)) x).
  { intros u phi x. apply (continuous_ext (fun rho => f (vadd (vscale rho (mat_vec (stretch h r) (ell_point [1; 1; 1] u phi))) (pose_tr 3 c)))).
    - intro rho. unfold g, solid_point. now rewrite move_line.
    - apply line_continuous; auto. rewrite mat_vec_length. apply MA. }
  assert (HJ : forall u phi, integral (fun rho => g (solid_point [1; 1; 1] u phi rho) * rho ^ 2) 0 1 (J u phi)).
  { intros. apply itg_ok. apply (ex_RInt_continuous (V := R_CompleteNormedModule)). intros x _. apply (continuous_mult (K := R_AbsRing)); [apply CG|]. apply (ex_derive_continuous (V := R_NormedModule)). auto_derive. auto. }
  exists (fun u phi => 3 * J u phi). split.
  - intros u phi Hu Hphi. pose proof (root_subst 3 _ _ ltac:(lia) (CG u phi) (HJ u phi)) as K. change (INR 3) with (1 + 1 + 1) in K at 2. apply (IntegralP.integral_eq _ _ _ ((1 + 1 + 1) * J u phi)); [|ring].
    eapply IntegralP.integral_ext; [|exact K]. intros v Hv. rewrite Rmin_left, Rmax_right in Hv by lra. rewrite (ell_point_run h r c) by (auto; unfold unit_draw, uniform_draw; lra). reflexivity.
  - destruct HT as (G & HG & HI). exists (fun u => 3 * G u). split.
    + intros u Hu. destruct (HG u Hu) as (F' & HF & HF'). apply int_scal. eapply IntegralP.integral_ext; [|exact HF']. intros phi Hp. pose proof PI_RGT_0. rewrite Rmin_left, Rmax_right in Hp by lra.
      apply (integral_unique (fun rho => g (solid_point [1; 1; 1] u phi rho) * rho ^ 2) 0 1); [|apply HJ]. eapply IntegralP.integral_ext; [|apply (HF phi); lra]. intros. unfold solid_element. cbn [nth]. ring.
    + apply (IntegralP.integral_eq _ _ _ (3 * T)); [apply int_scal; exact HI|]. field. apply PI_neq0.
Qed.
(** an ellipsoid without rotation: the coordinates of its own solid *)
Lemma int3_scal g k a b lo hi lo' hi' I : integral3 a b lo hi lo' hi' g I -> integral3 a b lo hi lo' hi' (fun x y z => k * g x y z) (k * I).
Proof.
  intros (F & HF & HI). exists (fun x => k * F x). split; [|now apply int_scal]. intros x Hx. destruct (HF x Hx) as (G & HG & HJ). exists (fun y => k * G y). split; [|now apply int_scal]. intros y Hy. apply int_scal. now apply HG.
Qed.
Lemma int3_ext g g' a b lo hi lo' hi' I : (forall x y z, g x y z = g' x y z) -> integral3 a b lo hi lo' hi' g I -> integral3 a b lo hi lo' hi' g' I.
Proof.
  intros E (F & HF & HI). exists F. split; [|exact HI]. intros x Hx. destruct (HF x Hx) as (G & HG & HJ). exists G. split; [|exact HJ]. intros y Hy. eapply IntegralP.integral_ext; [|apply HG; exact Hy]. intros. apply E.
Qed.
Lemma ell_solid_axes f h c e T : continuous3 f -> ell_init h None c = Ok e -> length h = 3%nat -> (forall a, In a h -> 0 < a) -> ell_solid h (fun p => f (vadd p (pose_tr 3 c))) T ->
  turn_mean (fun t => let '(u, phi, v) := t in point_stat f (Some (ell_random_points e [ell_point [1; 1; 1] u phi] [v]))) (T / (4 / 3 * PI * (nth 0 h 0 * nth 1 h 0 * nth 2 h 0))).
Proof.
  intros F He Lh HP HT. pose proof (ell_init_inv _ _ _ _ He) as (_ & _ & Er & Ec & MQ & Lc). rewrite Lh in *. rewrite Ec in Lc. destruct (three h Lh) as (x & y & z & ->).
  assert (Px : 0 < x) by (apply HP; cbn; auto). assert (Py : 0 < y) by (apply HP; cbn; auto). assert (Pz : 0 < z) by (apply HP; cbn; auto). cbn [nth].
  replace (T / (4 / 3 * PI * (x * y * z))) with (/ (x * y * z) * T / (4 / 3 * PI)) by (field; repeat split; try lra; apply PI_neq0).
  apply (ell_solid_law f [x; y; z] None c); auto. unfold ell_solid. eapply int3_ext; [|exact (int3_scal _ (/ (x * y * z)) _ _ _ _ _ _ _ HT)].
  intros u phi rho. cbv beta. unfold solid_element. cbn [nth]. replace (move (stretch [x; y; z] None) (pose_tr 3 c) (solid_point [1; 1; 1] u phi rho)) with (vadd (solid_point [x; y; z] u phi rho) (pose_tr 3 c)).
  - field. repeat split; lra.
  - unfold move. f_equal. unfold solid_point, ell_point, pose_rot. cbn. list_eq; ring.
Qed.
Lemma solid_cont f h : continuous3 f -> length h = 3%nat -> cont near_3 (fun p => f (solid_point h (snd (fst (fst p))) (snd (fst p)) (snd p)) * solid_element h (snd p)).
Proof.
  intros F Lh. destruct (three h Lh) as (x & y & z & ->).
  set (u := fun p : unit * R * R * R => snd (fst (fst p))). set (phi := fun p : unit * R * R * R => snd (fst p)). set (rho := fun p : unit * R * R * R => snd p).
  assert (Cu : cont near_3 u) by (unfold u; cpt). assert (Cp : cont near_3 phi) by (unfold phi; cpt). assert (Cr : cont near_3 rho) by (unfold rho; cpt).
  assert (MU : forall g h, cont near_3 g -> cont near_3 h -> cont near_3 (fun p => g p * h p)) by (intros; apply cont_mult; auto; exact m3).
  assert (PL : forall g h, cont near_3 g -> cont near_3 h -> cont near_3 (fun p => g p + h p)) by (intros; apply cont_plus; auto; exact m3).
  assert (KO : forall k : R, cont near_3 (fun _ => k)) by (intro; cpt).
  assert (CS : cont near_3 (fun p => sqrt (1 + -1 * (u p * u p)))) by (apply (cont_comp near_3 sqrt); [apply continuous_sqrt|auto]).
  assert (Cc : cont near_3 (fun p => cos (phi p))) by (apply (cont_comp near_3 cos); [apply continuous_cos|exact Cp]).
  assert (Cs : cont near_3 (fun p => sin (phi p))) by (apply (cont_comp near_3 sin); [apply continuous_sin|exact Cp]).
  assert (EXT : forall g h, (forall p : unit * R * R * R, g p = h p) -> cont near_3 g -> cont near_3 h).
  { intros g h E G p eps P. destruct (G p eps P) as (e & Pe & H). exists e. split; [exact Pe|]. intros p' N. rewrite <- !E. now apply H. }
  apply (EXT (fun p => f [rho p * (x * (sqrt (1 + -1 * (u p * u p)) * cos (phi p))); rho p * (y * (sqrt (1 + -1 * (u p * u p)) * sin (phi p))); rho p * (z * u p)] * (x * y * z * (rho p * rho p)))).
  - intros p. unfold solid_point, solid_element, ell_point. cbn [vmul map2 vscale map nth]. fold (u p) (phi p) (rho p). replace (1 - u p * u p) with (1 + -1 * (u p * u p)) by ring. f_equal. ring.
  - apply MU; [|auto].
    apply (cont_point near_3 m3 f (fun p => rho p * (x * (sqrt (1 + -1 * (u p * u p)) * cos (phi p)))) (fun p => rho p * (y * (sqrt (1 + -1 * (u p * u p)) * sin (phi p)))) (fun p => rho p * (z * u p))); auto.
Qed.
Lemma ell_solid_exists f h : continuous3 f -> length h = 3%nat -> exists T, ell_solid h f T.
Proof. intros F Lh. pose proof PI_RGT_0. apply cont3_integral; [lra|lra|]. now apply solid_cont. Qed.
Lemma ell_solid_volume h : ell_solid h (fun _ => 1) (4 / 3 * PI * (nth 0 h 0 * nth 1 h 0 * nth 2 h 0)).
Proof.
  set (k := nth 0 h 0 * nth 1 h 0 * nth 2 h 0). exists (fun _ => 2 / 3 * PI * k). split; [|eapply IntegralP.integral_eq; [apply const_int|field]].
  intros u _. exists (fun _ => k / 3). split; [|eapply IntegralP.integral_eq; [apply const_int|field]]. intros phi _. unfold solid_element. fold k.
  assert (K : integral (fun r => k * (r * r)) 0 1 (k * (1 * 1 * 1) / 3 - k * (0 * 0 * 0) / 3)).
  { apply (is_RInt_derive (fun r => k * (r * r * r) / 3)); intros r _.
    - auto_derive; [auto|]. field.
    - apply (ex_derive_continuous (V := R_NormedModule)). auto_derive. auto. }
  eapply IntegralP.integral_ext; [|eapply IntegralP.integral_eq; [exact K|field]]. intros. cbv beta. ring.
Qed.
Lemma solid_element_det x y z u phi rho : -1 < u < 1 -> exists dr du dphi,
  curve_derivative (fun s => solid_point [x; y; z] u phi s) rho dr /\ curve_derivative (fun s => solid_point [x; y; z] s phi rho) u du /\ curve_derivative (fun s => solid_point [x; y; z] u s rho) phi dphi /\
  solid_element [x; y; z] rho = dot dr (cross dphi du).
Proof.
  intros Hu. assert (P : 0 < 1 - u * u) by nra. pose proof (sqrt_lt_R0 _ P) as HS. pose proof (sqrt_sqrt _ (Rlt_le _ _ P)) as E.
  exists [x * (sqrt (1 - u * u) * cos phi); y * (sqrt (1 - u * u) * sin phi); z * u], [rho * (x * (- u / sqrt (1 - u * u) * cos phi)); rho * (y * (- u / sqrt (1 - u * u) * sin phi)); rho * z],
         [rho * (x * (- (sqrt (1 - u * u) * sin phi))); rho * (y * (sqrt (1 - u * u) * cos phi)); 0].
  split; [|split; [|split]].
  - split; [reflexivity|]. intros i Hi. destruct i as [|[|[|i]]]; try lia; cbn; auto_derive; try ring; auto.
  - split; [reflexivity|]. intros i Hi. destruct i as [|[|[|i]]]; try lia; cbn; auto_derive; try (match goal with |- _ = _ => try change (1 + - (u * u)) with (1 - u * u); field; lra end); try (split; auto; lra); auto; ring.
  - split; [reflexivity|]. intros i Hi. destruct i as [|[|[|i]]]; try lia; cbn; auto_derive; try ring; auto.
  - unfold solid_element. cbn. generalize dependent (sqrt (1 - u * u)). intros s HS E. pose proof (sin2_cos2 phi) as F. unfold Rsqr in F. generalize dependent (cos phi). generalize (sin phi). intros v w F.
    transitivity (x * y * z * (rho * rho) * ((s * s + u * u) * (v * v + w * w))); [rewrite F, E; ring|]. field. lra.
Qed.

(** ** the cylinder *)
Lemma cyl_point_run L r ro co cy z phi v : cyl_init L r ro co = Ok cy -> unit_draw v ->
  cyl_random_points cy [z] [[cos phi; sin phi]] [v] = Ok [move (pose_rot 3 ro) (pose_tr 3 co) (polar_point (r * rpow v (1 / INR 2)) phi (L * z))].
Proof.
  intros Hc Hv. assert (N1 : norm [cos phi; sin phi] = 1).
  { unfold norm. cbn. pose proof (sin2_cos2 phi) as T. unfold Rsqr in T. replace (cos phi * cos phi + (sin phi * sin phi + 0)) with 1 by lra. apply sqrt_1. }
  assert (Nx : [cos phi; sin phi] <> zeros 2). { intro E. rewrite E in N1. assert (Z : norm (zeros 2) = 0) by (unfold norm; cbn; replace (0 * 0 + (0 * 0 + 0)) with 0 by ring; apply sqrt_0). lra. }
  rewrite (cyl_run L r ro co) by auto. do 2 f_equal. unfold move, polar_point, bpt. unfold unit_draw, uniform_draw in Hv. rewrite rad_rpow by lra. rewrite N1. do 2 f_equal. cbn. list_eq; field.
Qed.
Lemma cyl_solid_law f L r ro co cy T : continuous3 f -> cyl_init L r ro co = Ok cy -> 0 < L -> 0 < r -> cyl_solid L r (fun p => f (move (pose_rot 3 ro) (pose_tr 3 co) p)) T ->
  polar_mean (fun z phi v => point_stat f (Some (cyl_random_points cy [z] [[cos phi; sin phi]] [v]))) (T / (PI * r ^ 2 * L)).
Proof.
  intros F Hc HL Hr HT. pose proof (cyl_init_inv _ _ _ _ _ Hc) as (_ & _ & MQ & Lc & _). pose proof PI_RGT_0 as PP. set (g := fun p => f (move (pose_rot 3 ro) (pose_tr 3 co) p)) in *.
  assert (G3 : continuous3 g) by (apply continuous3_move; auto).
  set (J := fun z phi => itg (fun rho => g (polar_point rho phi z) * rho) 0 r).
  assert (CG : forall z phi k x, continuous (fun rho => g (polar_point (k * rho) phi z)) x).
  { intros z phi k x. apply (continuous_ext (fun rho => g (vadd (vscale rho [k * cos phi; k * sin phi; 0]) [0; 0; z]))).
    - intro rho. f_equal. unfold polar_point. cbn. list_eq; ring.
    - apply line_continuous; auto. }
  assert (HJ : forall z phi, integral (fun rho => g (polar_point rho phi z) * rho) 0 r (J z phi)).
  { intros. apply itg_ok. apply (ex_RInt_continuous (V := R_CompleteNormedModule)). intros x _. apply (continuous_mult (K := R_AbsRing)); [|apply continuous_id].
    apply (continuous_ext (fun rho => g (polar_point (1 * rho) phi z))); [intro; now rewrite Rmult_1_l|apply CG]. }
  exists (fun z phi => 2 / r ^ 2 * J (L * z) phi). split.
  - intros z phi Hz Hphi.
    assert (HS : integral (fun s => g (polar_point (r * s) phi (L * z)) * s ^ (2 - 1)) 0 1 (J (L * z) phi / r / r)).
    { pose proof (int_scale (fun rho => g (polar_point rho phi (L * z)) * rho) r 0 1 (J (L * z) phi) Hr) as K. rewrite Rmult_0_r, Rmult_1_r in K. specialize (K (HJ (L * z) phi)).
      pose proof (int_scal _ (/ r) _ _ _ K) as K2. eapply IntegralP.integral_ext; [|eapply IntegralP.integral_eq; [exact K2|field; lra]]. intros s _. cbn. field. lra. }
    pose proof (root_subst 2 _ _ ltac:(lia) (CG (L * z) phi r) HS) as K. change (INR 2) with (1 + 1) in K at 2. eapply IntegralP.integral_ext; [|eapply IntegralP.integral_eq; [exact K|field; lra]].
    intros v Hv. rewrite Rmin_left, Rmax_right in Hv by lra. rewrite (cyl_point_run L r ro co) by (auto; unfold unit_draw, uniform_draw; lra). reflexivity.
  - destruct HT as (G & HG & HI). exists (fun z => 2 / r ^ 2 * G (L * z)). split.
    + intros z Hz. assert (HLz : - (L / 2) <= L * z <= L / 2) by (split; [replace (- (L / 2)) with (L * - (1 / 2)) by field|replace (L / 2) with (L * (1 / 2)) by field]; apply Rmult_le_compat_l; lra).
      destruct (HG (L * z) HLz) as (F' & HF & HF'). apply int_scal. eapply IntegralP.integral_ext; [|exact HF']. intros phi Hp. rewrite Rmin_left, Rmax_right in Hp by lra.
      apply (integral_unique (fun rho => g (polar_point rho phi (L * z)) * rho) 0 r); [|apply HJ]. apply (HF phi). lra.
    + assert (HI' : integral G (L * - (1 / 2)) (L * (1 / 2)) T) by (replace (L * - (1 / 2)) with (- (L / 2)) by field; replace (L * (1 / 2)) with (L / 2) by field; exact HI).
      eapply IntegralP.integral_eq; [apply int_scal; exact (int_scale G L _ _ T HL HI')|]. field. repeat split; lra.
Qed.
Lemma cyl_solid_exists f L r : continuous3 f -> 0 <= r -> exists T, cyl_solid L r f T.
Proof.
  intros F Hr. pose proof PI_RGT_0. apply cont3_integral; [lra|lra|].
  assert (MU : forall g h, cont near_3 g -> cont near_3 h -> cont near_3 (fun p => g p * h p)) by (intros; apply cont_mult; auto; exact m3).
  assert (Cr : cont near_3 (fun p => snd p)) by cpt. assert (Cz : cont near_3 (fun p => snd (fst (fst p)))) by cpt. assert (Cp : cont near_3 (fun p => snd (fst p))) by cpt.
  apply MU; [|exact Cr]. unfold polar_point.
  apply (cont_point near_3 m3 f (fun p => snd p * cos (snd (fst p))) (fun p => snd p * sin (snd (fst p))) (fun p => snd (fst (fst p)))); auto; apply MU; auto.
  - apply (cont_comp near_3 cos); [apply continuous_cos|exact Cp].
  - apply (cont_comp near_3 sin); [apply continuous_sin|exact Cp].
Qed.
Lemma cyl_solid_volume L r : cyl_solid L r (fun _ => 1) (PI * r ^ 2 * L).
Proof.
  exists (fun _ => PI * r ^ 2). split; [|eapply IntegralP.integral_eq; [apply const_int|field]].
  intros z _. exists (fun _ => r ^ 2 / 2). split; [|eapply IntegralP.integral_eq; [apply const_int|field]]. intros phi _.
  assert (K : integral (fun s => s) 0 r (r * r / 2 - 0 * 0 / 2)).
  { apply (is_RInt_derive (fun s => s * s / 2)); intros s _; [auto_derive; [auto|field]|apply continuous_id]. }
  eapply IntegralP.integral_ext; [|eapply IntegralP.integral_eq; [exact K|field]]. intros. cbv beta. ring.
Qed.
Lemma polar_element_det rho phi z : exists dr dphi dz,
  curve_derivative (fun s => polar_point s phi z) rho dr /\ curve_derivative (fun s => polar_point rho s z) phi dphi /\ curve_derivative (fun s => polar_point rho phi s) z dz /\ rho = dot dr (cross dphi dz).
Proof.
  exists [cos phi; sin phi; 0], [- (rho * sin phi); rho * cos phi; 0], [0; 0; 1]. split; [|split; [|split]];
    try (split; [reflexivity|]; intros i Hi; destruct i as [|[|[|i]]]; try lia; cbn; auto_derive; try ring; auto).
  cbn. pose proof (sin2_cos2 phi) as T. unfold Rsqr in T. transitivity (rho * (sin phi * sin phi + cos phi * cos phi)); [rewrite T; ring|ring].
Qed.
(** ** continuous functions *)
Lemma ell_random_law f h r c e : continuous3 f -> ell_init h r c = Ok e -> length h = 3%nat ->
  exists T, ell_solid [1; 1; 1] (fun p => f (move (stretch h r) (pose_tr 3 c) p)) T /\
    turn_mean (fun t => let '(u, phi, v) := t in point_stat f (Some (ell_random_points e [ell_point [1; 1; 1] u phi] [v]))) (T / (4 / 3 * PI)).
Proof.
  intros F He Lh. pose proof (ell_init_inv _ _ _ _ He) as (_ & _ & Er & Ec & MQ & Lc). rewrite Lh in *. rewrite Er in MQ. rewrite Ec in Lc. assert (MA : is_mat 3 3 (stretch h r)) by (apply (congd_is_mat 3); auto; lia).
  destruct (ell_solid_exists (fun p => f (move (stretch h r) (pose_tr 3 c) p)) [1; 1; 1]) as (T & HT); [apply continuous3_move; auto|reflexivity|]. exists T. split; [exact HT|]. now apply (ell_solid_law f h r c).
Qed.
Lemma ell_axes_law f h c e : continuous3 f -> ell_init h None c = Ok e -> length h = 3%nat -> (forall a, In a h -> 0 < a) ->
  exists V T, ell_solid h (fun _ => 1) V /\ 0 < V /\ ell_solid h (fun p => f (vadd p (pose_tr 3 c))) T /\
    turn_mean (fun t => let '(u, phi, v) := t in point_stat f (Some (ell_random_points e [ell_point [1; 1; 1] u phi] [v]))) (T / V).
Proof.
  intros F He Lh HP. pose proof (ell_init_inv _ _ _ _ He) as (_ & _ & Er & Ec & MQ & Lc). rewrite Lh in *. rewrite Ec in Lc.
  destruct (ell_solid_exists (fun p => f (vadd p (pose_tr 3 c))) h) as (T & HT); auto.
  { apply (continuous3_ext (fun p => f (move (eye 3) (pose_tr 3 c) p))); [|apply continuous3_move; auto; apply is_mat_eye]. intros p Lp. unfold move. now rewrite mat_vec_eye. }
  eexists. exists T. split; [apply ell_solid_volume|]. split; [|split; [exact HT|now apply (ell_solid_axes f h c)]].
  pose proof PI_RGT_0. destruct (three h Lh) as (x & y & z & ->). cbn [nth]. assert (0 < x) by (apply HP; cbn; auto). assert (0 < y) by (apply HP; cbn; auto). assert (0 < z) by (apply HP; cbn; auto).
  apply Rmult_lt_0_compat; [lra|]. apply Rmult_lt_0_compat; [now apply Rmult_lt_0_compat|assumption].
Qed.
Lemma cyl_random_law f L r ro co cy : continuous3 f -> cyl_init L r ro co = Ok cy -> 0 < L -> 0 < r ->
  exists V T, cyl_solid L r (fun _ => 1) V /\ 0 < V /\ cyl_solid L r (fun p => f (move (pose_rot 3 ro) (pose_tr 3 co) p)) T /\
    polar_mean (fun z phi v => point_stat f (Some (cyl_random_points cy [z] [[cos phi; sin phi]] [v]))) (T / V).
Proof.
  intros F Hc HL Hr. pose proof (cyl_init_inv _ _ _ _ _ Hc) as (_ & _ & MQ & Lc & _).
  destruct (cyl_solid_exists (fun p => f (move (pose_rot 3 ro) (pose_tr 3 co) p)) L r) as (T & HT); [apply continuous3_move; auto|lra|].
  eexists. exists T. split; [apply cyl_solid_volume|]. split; [|split; [exact HT|now apply (cyl_solid_law f L r ro co)]].
  pose proof PI_RGT_0. apply Rmult_lt_0_compat; [|assumption]. apply Rmult_lt_0_compat; [lra|now apply pow_lt].
Qed.
Lemma solid_case : continuous3 (fun p => nth 0 p 0 * nth 1 p 0) /\ (exists e, ell_init [3; 2; 1] (Some Q0) (Some t0) = Ok e) /\ (exists e, ell_init [3; 2; 1] None (Some t0) = Ok e) /\ (exists cy, cyl_init 2 1 (Some Q0) (Some t0) = Ok cy).
Proof.
  split; [apply continuous_case|]. split; [apply continuous_case|]. split.
  - eexists. apply ell_init_good; [intros [|[|[|k]]] H; cbn in *; try lra; lia|apply is_mat_eye|reflexivity].
  - eexists. apply cyl_init_good; [lra|lra|apply Q0_orth|reflexivity].
Qed.
