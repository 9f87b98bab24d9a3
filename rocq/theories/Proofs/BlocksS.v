(** C107: the joint law of n points of Ellipsoid.random_points_on_surface. *)
From Verif Require Import Base.Vec Base.VecFacts Spec.Basic Spec.Shapes Spec.ShapeObjects Spec.Integrals Spec.RandomSpec Spec.Uniform Spec.Expect Spec.Turns Spec.Blocks
  Model.Util Model.Polydd Model.Poly Model.Inertial Model.Ellipsoid Model.Box Model.Cylinder Model.Random
  Proofs.Coord Proofs.EllP Proofs.BoxP Proofs.IntegralP Proofs.DensityP Proofs.RandomP Proofs.UniformP Proofs.ExpectP Proofs.TurnsP Proofs.BlocksP.

Lemma surface_scal h f T k : ell_surface h f T -> ell_surface h (fun p => k * f p) (k * T).
Proof.
  intros (F & F1 & F2). exists (fun u => 0 * (2 * PI - 0) + k * F u + 0 * F u). split.
  - intros u Hu. eapply integral_ext; [|exact (integral_lin _ _ 0 (2 * PI) 0 k 0 _ _ (F1 u Hu) (F1 u Hu))]. intros phi _. cbv beta. ring.
  - eapply integral_eq; [eapply integral_ext; [|exact (integral_lin _ _ (-1) 1 0 k 0 _ _ F2 F2)]|ring]. intros u _. cbv beta. ring.
Qed.
Section Joint.
Variables (h : vec) (K0 A : R) (n : nat).
Notation acc := (fun t : turn => let '(u, phi, v) := t in Rleb v (K0 * ell_area h u phi)).
Notation pt := (fun t : turn => let '(u, phi, _) := t in ell_point h u phi).
Notation a := (K0 * A / (4 * PI)).
Hypothesis HA : ell_surface h (fun _ => 1) A.
Hypothesis HK : forall u phi, -1 <= u <= 1 -> 0 <= K0 * ell_area h u phi <= 1.
Definition slaw (f : vec -> R) (mu : R) := ell_surface h f (A * mu).
Fixpoint sweight (s : R) (fs : list (vec -> R)) (mus : list R) (C : list turn) : R :=
  match C with
  | [] => rprod mus
  | t :: C => if acc t then match fs, mus with f :: fs, _ :: mus => f (pt t) * sweight s fs mus C | _, _ => 0 end else s * sweight s fs mus C
  end.
Lemma sfilter_le (C : list turn) : (length (filter acc C) <= length C)%nat.
Proof. induction C as [|p C IH]; [reflexivity|]. cbn [filter]. destruct (acc p); cbn [length]; lia. Qed.
Lemma sweight_eq s : forall C fs mus, length fs = length mus -> (length C <= length fs)%nat ->
  product fs (map pt (filter acc C)) * rprod (skipn (length (filter acc C)) mus) * s ^ (length C - length (filter acc C)) = sweight s fs mus C.
Proof.
  induction C as [|p C IH]; intros fs mus L LC; [unfold product; destruct fs; cbn [filter map length skipn Nat.sub pow sweight map2 fold_right]; ring|]. cbn [filter sweight]. pose proof (sfilter_le C). destruct (acc p).
  - destruct fs as [|f fs], mus as [|mu mus]; cbn in LC, L; try lia. rewrite <- IH by lia. unfold product. cbn [filter map length skipn Nat.sub pow map2 fold_right]. ring.
  - cbn in LC. rewrite <- IH by lia. cbn [length]. replace (S (length C) - length (filter acc C))%nat with (S (length C - length (filter acc C))) by lia. cbn [pow]. ring.
Qed.
Lemma turns_scal_ext N F G I : (forall l, length l = N -> (forall t, In t l -> turn_draw t) -> F l = G l) -> turns_mean N F I -> turns_mean N G I.
Proof. apply turns_ext. Qed.
Lemma sweight_mean s : forall N r fs mus k, Forall2 slaw fs mus -> (r <= N)%nat -> (r <= length fs)%nat ->
  turns_mean N (fun U => k * sweight s fs mus (firstn r U)) (k * rprod mus * (a + (1 - a) * s) ^ r).
Proof.
  pose proof PI_RGT_0 as PP. induction N; intros r fs mus k HF Hr Hl.
  - replace r with 0%nat by lia. cbn [turns_mean firstn sweight pow]. ring.
  - destruct r as [|r].
    + cbn [turns_mean firstn sweight pow]. exists (fun _ => k * rprod mus * 1). split; [|apply turn_const]. intros u _. exact (IHN 0%nat fs mus k HF ltac:(lia) ltac:(lia)).
    + inversion HF as [|f mu fs' mus' Hf HF' E1 E2]; subst; [cbn in Hl; lia|]. cbn [length] in Hl. cbn [turns_mean firstn sweight].
      set (w := a + (1 - a) * s). pose proof (turn_step h K0 (fun p => k * rprod mus' * w ^ r * f p) (k * s * rprod (mu :: mus') * w ^ r) A (k * rprod mus' * w ^ r * (A * mu)) HA (surface_scal _ _ _ _ Hf) HK) as TS.
      eexists. split; [|eapply (fun H E => eq_rect _ (turn_mean _) H _ E); [exact TS|]].
      * intros [[u phi] v] _. cbv beta iota. destruct (Rleb v _).
        -- replace (k * rprod mus' * w ^ r * f (ell_point h u phi)) with (k * f (ell_point h u phi) * rprod mus' * w ^ r) by ring.
           eapply turns_ext; [|exact (IHN r fs' mus' (k * f (ell_point h u phi)) HF' ltac:(lia) ltac:(lia))]. intros M _ _. cbv beta. ring.
        -- eapply turns_ext; [|exact (IHN r (f :: fs') (mu :: mus') (k * s) HF ltac:(lia) ltac:(cbn; lia))]. intros M _ _. cbv beta. ring.
      * unfold rprod. cbn [fold_right pow]. generalize (w ^ r). intro y. unfold w. field. lra.
Qed.
Notation block := (fun B : list turn => length B = n /\ (forall t, In t B -> turn_draw t)).
(** a loop that fills the empty slots with the accepted candidates, each turn offering one candidate per slot *)
Lemma sjoint_loop fs mus (val : nat -> list (list turn) -> mat -> nat -> R) K : Forall2 slaw fs mus -> length fs = n ->
  (forall K l P, length P = n -> val K l P n = product fs P) -> (forall l P m, length P = n -> (m < n)%nat -> val 0%nat l P m = 0) ->
  (forall K B l P m, length P = n -> (m < n)%nat -> block B ->
    val (S K) (B :: l) P m = val K l (write_rows P m (map pt (filter acc (firstn (n - m) B)))) (m + length (filter acc (firstn (n - m) B)))%nat) ->
  forall P m, length P = n -> (m <= n)%nat ->
  blocks_mean block (turns_mean n) K (fun l => val K l P m) (product fs (firstn m P) * rprod (skipn m mus) * (1 - (1 - a) ^ K) ^ (n - m)).
Proof.
  intros HF LF V1 V0 VS. assert (LM : length mus = n) by (rewrite <- LF; clear - HF; induction HF; cbn; auto).
  induction K as [|K IH]; intros P m LP Hm.
  - cbn [blocks_mean]. destruct (Nat.eq_dec m n) as [->|Nm].
    + rewrite V1 by exact LP. rewrite Nat.sub_diag. rewrite (firstn_all2 P) by lia. rewrite (skipn_all2 mus) by lia. cbn. ring.
    + rewrite V0 by (auto; lia). cbn [pow]. replace (1 - 1) with 0 by ring. rewrite pow_i by lia. ring.
  - destruct (Nat.eq_dec m n) as [->|Nm].
    + rewrite Nat.sub_diag. rewrite (firstn_all2 P) by lia. rewrite (skipn_all2 mus) by lia. cbn [pow rprod fold_right].
      replace (product fs P * 1 * 1) with (product fs P) by ring.
      assert (C : forall J, blocks_mean block (turns_mean n) J (fun _ => product fs P) (product fs P)).
      { induction J; cbn [blocks_mean]; [reflexivity|]. exists (fun _ => product fs P). split; [intros; exact IHJ|apply turns_const]. }
      eapply blocks_ext; [intros F G I E; apply turns_ext; intros; apply E; split; auto| |exact (C (S K))]. intros l _ _. cbv beta. now rewrite V1.
    + cbn [blocks_mean]. exists (fun B => product fs (firstn m P) * sweight (1 - (1 - a) ^ K) (skipn m fs) (skipn m mus) (firstn (n - m) B)). split.
      * intros B HB0. set (fl := filter acc (firstn (n - m) B)). set (new := map pt fl).
        assert (LB : length B = n) by apply HB0.
        assert (LC : length (firstn (n - m) B) = (n - m)%nat) by (rewrite firstn_length; lia).
        assert (Ln : (length fl <= n - m)%nat) by (pose proof (sfilter_le (firstn (n - m) B)) as FL; fold fl in FL; lia).
        assert (LN : length new = length fl) by apply map_length.
        assert (LW : length (write_rows P m new) = n) by (unfold write_rows; rewrite !app_length, firstn_length, skipn_length; lia).
        assert (LP1 : length (firstn m P) = m) by (rewrite firstn_length; lia).
        eapply blocks_ext; [intros F G I E; apply turns_ext; intros; apply E; split; auto|..|].
        2: { pose proof (IH (write_rows P m new) (m + length fl)%nat LW ltac:(lia)) as J.
             assert (E : product fs (firstn (m + length fl) (write_rows P m new)) * rprod (skipn (m + length fl) mus) * (1 - (1 - a) ^ K) ^ (n - (m + length fl)) = product fs (firstn m P) * sweight (1 - (1 - a) ^ K) (skipn m fs) (skipn m mus) (firstn (n - m) B)).
             { unfold write_rows. rewrite app_assoc, firstn_app. replace (m + length fl - length (firstn m P ++ new))%nat with 0%nat by (rewrite app_length; lia).
               rewrite firstn_all2 by (rewrite app_length; lia). cbn [firstn]. rewrite app_nil_r, product_app by lia. rewrite LP1.
               rewrite <- sweight_eq by (rewrite ?skipn_length; lia). fold fl. fold new. rewrite LC, skipn_skipn'. replace (n - (m + length fl))%nat with (n - m - length fl)%nat by lia. ring. }
             rewrite E in J. exact J. }
        intros l Ll HL. cbv beta. rewrite VS by (auto; lia). reflexivity.
      * pose proof (sweight_mean (1 - (1 - a) ^ K) n (n - m) (skipn m fs) (skipn m mus) (product fs (firstn m P))) as W.
        replace (1 - (1 - a) ^ S K) with (a + (1 - a) * (1 - (1 - a) ^ K)) by (cbn; ring). apply W; [|lia|rewrite skipn_length; lia].
        clear - HF. revert fs mus HF. induction m; intros fs mus HF; [exact HF|]. destruct HF; [constructor|]. cbn. now apply IHm.
Qed.
End Joint.
Lemma acc_prob x y z A : 0 < x -> 0 < y -> 0 < z -> let h := [x; y; z] in ell_surface h (fun _ => 1) A ->
  (forall u phi, -1 <= u <= 1 -> 0 <= accK h * ell_area h u phi <= 1) /\ 0 < A /\ 0 < accK h * A / (4 * PI) <= 1.
Proof.
  intros Hx Hy Hz h HA. pose proof PI_RGT_0 as PP.
  assert (PX : 0 < x * y * z) by (apply Rmult_lt_0_compat; [now apply Rmult_lt_0_compat|exact Hz]).
  assert (Hm : 0 < lmin h) by (cbn; unfold Rmin; repeat destruct Rle_dec; lra).
  assert (HK : forall u phi, -1 <= u <= 1 -> 0 <= accK h * ell_area h u phi <= 1).
  { intros u' phi' Hu'. unfold accK. cbn [nth h]. destruct (ell_area_pos h u' phi' x y z eq_refl Hx Hy Hz Hu') as [A1 A2]. fold h. set (Q := ell_area _ _ _) in *. set (m := lmin _) in *. split.
    - left. apply Rmult_lt_0_compat; auto. now apply Rdiv_lt_0_compat.
    - apply Rmult_le_reg_r with (x * y * z / m); [now apply Rdiv_lt_0_compat|]. replace (m / (x * y * z) * Q * (x * y * z / m)) with Q by (field; repeat split; lra). lra. }
  split; [exact HK|]. assert (PK : 0 < accK h) by (unfold accK; cbn [nth h]; now apply Rdiv_lt_0_compat).
  destruct (area_bounds h A (Rmin (y * z) (Rmin (x * z) (x * y))) (/ accK h) HA) as [B1 B2].
  - intros u phi Hu. split; [now apply area_low|]. apply (Rmult_le_reg_l (accK h)); auto. rewrite Rinv_r by lra. now apply HK.
  - assert (0 < y * z) by now apply Rmult_lt_0_compat. assert (0 < x * z) by now apply Rmult_lt_0_compat. assert (0 < x * y) by now apply Rmult_lt_0_compat.
    assert (0 < Rmin (y * z) (Rmin (x * z) (x * y))) by (unfold Rmin; repeat destruct Rle_dec; lra).
    assert (PA : 0 < A) by (assert (0 < 4 * PI * Rmin (y * z) (Rmin (x * z) (x * y))) by (apply Rmult_lt_0_compat; lra); lra).
    apply (Rmult_le_compat_l (accK h)) in B2; [|lra]. replace (accK h * (4 * PI * / accK h)) with (4 * PI) in B2 by (field; lra).
    split; [exact PA|]. split; [apply Rdiv_lt_0_compat; [now apply Rmult_lt_0_compat|lra]|apply (Rmult_le_reg_r (4 * PI)); [lra|]; unfold Rdiv; rewrite Rmult_assoc, Rinv_l by lra; lra].
Qed.
Lemma surface_shift h n draw draw' : forall K t t', (forall i r, draw (t + i)%nat r = draw' (t' + i)%nat r) -> forall P m, ell_surface_loop h n draw K t P m = ell_surface_loop h n draw' K t' P m.
Proof.
  induction K as [|K IH]; intros t t' H P m; cbn [ell_surface_loop]; [reflexivity|]. destruct (Nat.ltb m n); [|reflexivity].
  pose proof (H 0%nat (n - m)%nat) as H0. rewrite !Nat.add_0_r in H0. rewrite H0. destruct (draw' t' (n - m)%nat) as [X u].
  assert (H' : forall i r, draw (S t + i)%nat r = draw' (S t' + i)%nat r) by (intros i r; specialize (H (S i) r); rewrite !Nat.add_succ_comm; exact H).
  destruct (random_points_on_hypersphere _ X); auto.
Qed.
Lemma sphere_rows B : (forall t, In t B -> turn_draw t) -> let X := map (fun t : turn => let '(u, phi, _) := t in ell_point [1; 1; 1] u phi) B in random_points_on_hypersphere 2 X = Ok X.
Proof.
  intros HB X. unfold random_points_on_hypersphere. cbn [Nat.leb assert_ bind]. unfold X. clear X. induction B as [|[[u phi] v] B IH]; [reflexivity|]. cbn [map mapM].
  destruct (HB (u, phi, v) (or_introl eq_refl)) as (Hu & _ & _). pose proof (sphere_row u phi Hu) as N1. set (p := ell_point [1; 1; 1] u phi) in *.
  unfold normalize_row at 1. rewrite N1, Reqb_false by lra. cbn [bind]. rewrite IH by (intros t I; apply HB; now right). cbn [bind]. do 2 f_equal. unfold vdivs. rewrite <- (map_id p) at 2. apply map_ext. intros. field.
Qed.
Lemma accept_rows x y z B : 0 < x -> 0 < y -> 0 < z -> (forall t, In t B -> turn_draw t) -> let h := [x; y; z] in
  surface_accept h (map (fun t : turn => let '(u, phi, _) := t in ell_point [1; 1; 1] u phi) B) (map (fun t : turn => let '(_, _, v) := t in v) B) =
  map (fun t : turn => let '(u, phi, _) := t in ell_point h u phi) (filter (fun t : turn => let '(u, phi, v) := t in Rleb v (accK h * ell_area h u phi)) B).
Proof.
  intros Hx Hy Hz HB h. induction B as [|[[u phi] v] B IH]; [reflexivity|]. cbn [map filter].
  assert (C : forall p X v V, surface_accept h (p :: X) (v :: V) = surface_accept h [p] [v] ++ surface_accept h X V) by (intros; unfold surface_accept; cbn [map map2 combine filter snd]; destruct (Rleb _ _); reflexivity).
  rewrite C, IH by (intros t I; apply HB; now right). destruct (HB (u, phi, v) (or_introl eq_refl)) as (Hu & _ & _).
  rewrite (ell_accept_eq h u phi x y z v eq_refl Hx Hy Hz Hu). change (lmin h / (x * y * z)) with (accK h). destruct (Rleb v _); reflexivity.
Qed.
Lemma surface_joint h r c e A fs Ts : ell_init h r c = Ok e -> length h = 3%nat -> (forall a, In a h -> 0 < a) ->
  ell_surface h (fun _ => 1) A -> Forall2 (fun f T => ell_surface h (fun p => f (move (transpose (pose_rot 3 r)) (pose_tr 3 c) p)) T) fs Ts ->
  let n := length fs in
  exists a, 0 < a <= 1 /\ forall K,
    let run := fun l => ell_random_points_on_surface e n (surface_blocks l) K in
    let mean := blocks_mean (fun B => length B = n /\ (forall t, In t B -> turn_draw t)) (turns_mean n) K in
    mean (fun l => match run l with Some (Ok P) => 1 | _ => 0 end) ((1 - (1 - a) ^ K) ^ n) /\
    mean (fun l => match run l with Some (Ok P) => product fs P | _ => 0 end) (rprod (map (fun T => T / A) Ts) * (1 - (1 - a) ^ K) ^ n).
Proof.
  intros He Lh HP HA HT n. pose proof Lh as Lh'. destruct h as [|x [|y [|z [|]]]]; try discriminate Lh'. clear Lh'.
  assert (Hx : 0 < x) by (apply HP; cbn; auto). assert (Hy : 0 < y) by (apply HP; cbn; auto). assert (Hz : 0 < z) by (apply HP; cbn; auto).
  destruct (acc_prob x y z A Hx Hy Hz HA) as (HK & PA & Pa). set (h := [x; y; z]) in *. exists (accK h * A / (4 * PI)). split; [exact Pa|]. intros K run mean.
  apply ell_init_inv in He as (_ & E1 & E2 & E3 & MQ & Lc). change (length h) with 3%nat in *.
  set (g := fun p : vec => vadd (vec_mat p (e_rot e)) (e_center e)).
  assert (G : forall gs mus, length gs = n -> Forall2 (fun f mu => ell_surface h (fun p => f (g p)) (A * mu)) gs mus ->
    mean (fun l => match run l with Some (Ok P) => product gs P | _ => 0 end) (rprod mus * (1 - (1 - accK h * A / (4 * PI)) ^ K) ^ n)).
  { intros gs mus Lg HF.
    set (val := fun J l P m => match ell_surface_loop h n (surface_blocks l) J 0 P m with Some (Ok P') => product (map (fun f p => f (g p)) gs) P' | _ => 0 end).
    assert (HF' : Forall2 (slaw h A) (map (fun f p => f (g p)) gs) mus) by (clear - HF; induction HF; cbn; constructor; auto).
    pose proof (sjoint_loop h (accK h) A n HA HK (map (fun f p => f (g p)) gs) mus val K HF' ltac:(rewrite map_length; exact Lg)) as J.
    assert (LZ : length (zeros2 n 3) = n) by apply repeat_length.
    assert (J' := fun V1 V0 VS => J V1 V0 VS (zeros2 n 3) 0%nat LZ ltac:(lia)). clear J.
    rewrite Nat.sub_0_r in J'. cbn [firstn skipn] in J'. replace (product (map (fun f p => f (g p)) gs) []) with 1 in J' by (destruct gs; reflexivity). rewrite Rmult_1_l in J'.
    unfold mean. eapply blocks_ext; [intros F H I E; apply turns_ext; intros; apply E; split; auto| |apply J'].
    - intros l _ _. unfold val, run, ell_random_points_on_surface. rewrite E1. 
      replace (forallb (Rltb 0) h) with true by (symmetry; apply forallb_forall; intros q I; apply Rltb_iff; auto). change (length h) with 3%nat.
      destruct (ell_surface_loop h n (surface_blocks l) K 0 (zeros2 n 3) 0) as [[P| |]|]; auto. unfold mat_mul. rewrite map_map. unfold product. f_equal. clear. revert P. induction gs; intros [|p P]; cbn; auto. f_equal. apply IHgs.
    - intros J l P _. unfold val. destruct J; cbn [ell_surface_loop]; rewrite Nat.ltb_irrefl; reflexivity.
    - intros l P m _ Hm. unfold val. cbn [ell_surface_loop]. replace (Nat.ltb m n) with true by (symmetry; now apply Nat.ltb_lt). reflexivity.
    - intros J B l P m LP Hm [LB HB]. unfold val. cbn [ell_surface_loop]. replace (Nat.ltb m n) with true by (symmetry; now apply Nat.ltb_lt).
      assert (HB' : forall t, In t (firstn (n - m) B) -> turn_draw t) by (intros t I; apply HB; rewrite <- (firstn_skipn (n - m)); apply in_or_app; now left).
      unfold surface_blocks at 1. cbn [nth]. change (length h - 1)%nat with 2%nat. rewrite sphere_rows by exact HB'. pose proof (accept_rows x y z (firstn (n - m) B) Hx Hy Hz HB') as AR. cbv zeta in AR. fold h in AR. rewrite AR. rewrite map_length.
      rewrite (surface_shift h n (surface_blocks (B :: l)) (surface_blocks l) J 1 0) by reflexivity. reflexivity. }
  split.
  - pose proof (G (repeat (fun _ => 1) n) (repeat 1 n) (repeat_length _ _)) as G1. replace (rprod (repeat 1 n)) with 1 in G1 by (clear; unfold rprod; induction n; cbn; lra). rewrite Rmult_1_l in G1.
    unfold mean. eapply blocks_ext; [intros F H I E; apply turns_ext; intros; apply E; split; auto| |apply G1].
    + intros l _ _. cbv beta. destruct (run l) as [[P| |]|]; auto. clear. generalize n. clear n. unfold product. revert P. induction P as [|p P IH]; intros [|n]; cbn; try reflexivity. rewrite IH. ring.
    + clear G1. generalize n. clear - HA PA. intro n. induction n; cbn; constructor; auto. replace (A * 1) with A by ring. exact HA.
  - apply G; [reflexivity|].
    assert (EG : forall p, length p = 3%nat -> g p = move (transpose (pose_rot 3 r)) (pose_tr 3 c) p).
    { intros p Lp. unfold g, move. rewrite E3. f_equal. rewrite E2 in *. revert MQ Lp. clear. generalize (pose_rot 3 r). intros Q MQ Lp. destruct_vecs. cbn. list_eq; ring. }
    clear - HT PA EG. induction HT as [|f T fs Ts H HT IH]; cbn; constructor; auto. replace (A * (T / A)) with T by (field; lra).
    revert H. unfold h. apply dom3_ell_surface. intros. rewrite EG; auto.
Qed.
Lemma surface_joint_unique n K F I J : let mean := blocks_mean (fun B => length B = n /\ (forall t, In t B -> turn_draw t)) (turns_mean n) K in mean F I -> mean F J -> I = J.
Proof. apply blocks_unique. intros G H I' J' E HG HH. eapply turns_unique; [|exact HH]. eapply turns_ext; [|exact HG]. intros. apply E. split; auto. Qed.
(** concrete cases *)
Lemma joint_case : exists b, box_init [1; 1; 1] None None = Ok b /\ (forall i, (i < 3)%nat -> 0 < nth i [1; 1; 1] 0) /\
  let ins := fun p => existsb (fun s : vec -> bool => s p) [fun p => Rleb 0 (nth 0 p 0)] in let g := move (pose_rot 3 None) (pose_tr 3 None) in
  box_volume [1; 1; 1] (fun _ => 1) 8 /\ box_volume [1; 1; 1] (fun u => if ins (g u) then 1 else 0) 4 /\
  Forall2 (fun f B => box_volume [1; 1; 1] (fun u => if ins (g u) then f (g u) else 0) B) [(fun p => nth 0 p 0); (fun _ => 1)] [2; 4].
Proof. destruct CapsLawP.half_case as (b & Hb & Hp & H1 & H2 & H3). exists b. split; [exact Hb|]. split; [exact Hp|]. split; [exact H1|]. split; [exact H2|]. constructor; [exact H3|]. constructor; [exact H2|constructor]. Qed.
Lemma surface_joint_case : exists e, ell_init [2; 2; 2] None (Some [1; 0; 0]) = Ok e /\ (forall a, In a [2; 2; 2] -> 0 < a) /\ ell_surface [2; 2; 2] (fun _ => 1) (16 * PI) /\
  Forall2 (fun f T => ell_surface [2; 2; 2] (fun p => f (move (transpose (eye 3)) [1; 0; 0] p)) T) [(fun p => nth 0 p 0); (fun _ => 1)] [16 * PI; 16 * PI].
Proof. destruct surface_case as (e & He & Hp & H1 & H2 & _). exists e. split; [exact He|]. split; [exact Hp|]. split; [exact H1|]. constructor; [exact H2|]. constructor; [exact H1|constructor]. Qed.
