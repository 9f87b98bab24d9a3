(** C107: the joint law of n points of rejection_sample. *)
From Verif Require Import Base.Vec Base.VecFacts Spec.Basic Spec.Shapes Spec.ShapeObjects Spec.Integrals Spec.RandomSpec Spec.Uniform Spec.Expect Spec.Blocks
  Model.Util Model.Polydd Model.Poly Model.Inertial Model.Ellipsoid Model.Box Model.Cylinder Model.Random
  Proofs.Coord Proofs.Hull Proofs.EllP Proofs.BoxP Proofs.IntegralP Proofs.DensityP Proofs.RandomP Proofs.RandomS Proofs.UniformP Proofs.ExpectP Proofs.MonteCarloQ Proofs.MonteCarloR Proofs.VolumeV Proofs.SamplingP Proofs.RejectLaw Proofs.CylP Proofs.MonoInt Proofs.CapsLawP.

Lemma blocks_ext {X} (D : X -> Prop) (mean : (X -> R) -> R -> Prop) (EXT : forall F G I, (forall x, D x -> F x = G x) -> mean F I -> mean G I) K : forall F G I,
  (forall l, length l = K -> Forall D l -> F l = G l) -> blocks_mean D mean K F I -> blocks_mean D mean K G I.
Proof.
  induction K; cbn; intros F G I E; [intros ->; now apply E|]. intros (H & H1 & H2). exists H. split; [|exact H2]. intros B HB. apply (IHK (fun l => F (B :: l))); auto. intros l L HL. apply E; [cbn; lia|now constructor].
Qed.
Lemma reject_shift inside draw draw' n : forall K t t', (forall i r, draw (t + i)%nat r = draw' (t' + i)%nat r) -> forall P m, rejection_loop inside draw n K t P m = rejection_loop inside draw' n K t' P m.
Proof.
  induction K as [|K IH]; intros t t' H P m; cbn [rejection_loop]; [reflexivity|]. destruct (Nat.ltb m n); [|reflexivity].
  pose proof (H 0%nat (n - m)%nat) as H0. rewrite !Nat.add_0_r in H0. rewrite H0.
  assert (H' : forall i r, draw (S t + i)%nat r = draw' (S t' + i)%nat r) by (intros i r; specialize (H (S i) r); rewrite !Nat.add_succ_comm; exact H).
  destruct (negb _); now apply IH.
Qed.
Lemma accepted_filter (ins : vec -> bool) C : map fst (filter snd (combine C (map ins C))) = filter ins C.
Proof. induction C as [|p C IH]; [reflexivity|]. cbn. destruct (ins p); cbn; rewrite IH; reflexivity. Qed.
Lemma none_filter (ins : vec -> bool) C : existsb (fun b => b) (map ins C) = false -> filter ins C = [].
Proof. induction C as [|p C IH]; [reflexivity|]. cbn. destruct (ins p); cbn; [discriminate|exact IH]. Qed.
Lemma filter_le (ins : vec -> bool) C : (length (filter ins C) <= length C)%nat.
Proof. induction C as [|p C IH]; [reflexivity|]. cbn. destruct (ins p); cbn; lia. Qed.
(** one turn of the loop, whether or not a candidate is accepted *)
Lemma reject_turn inside draw n K t P m : (m < n)%nat -> length P = n -> let new := filter (fun p => existsb (fun s => s p) inside) (draw t (n - m)%nat) in
  rejection_loop inside draw n (S K) t P m = rejection_loop inside draw n K (S t) (write_rows P m new) (m + length new).
Proof.
  intros Hm LP new. cbn [rejection_loop]. replace (Nat.ltb m n) with true by (symmetry; apply Nat.ltb_lt; exact Hm). rewrite accepted_filter. fold new.
  destruct (existsb (fun b => b) _) eqn:E; cbn [negb]; [reflexivity|]. apply none_filter in E. fold new in E. rewrite E. cbn [length]. rewrite !Nat.add_0_r. unfold write_rows. cbn [length app]. rewrite Nat.add_0_r, firstn_skipn. reflexivity.
Qed.

Lemma product_app : forall P fs Q, (length P <= length fs)%nat -> product fs (P ++ Q) = product fs P * product (skipn (length P) fs) Q.
Proof. unfold product. induction P as [|p P IH]; intros fs Q H; [destruct fs; cbn; ring|]. destruct fs as [|f fs]; [cbn in H; lia|]. cbn in *. rewrite IH by lia. ring. Qed.
Lemma skipn_skipn' {X} : forall a b (l : list X), skipn a (skipn b l) = skipn (b + a) l.
Proof. intros a b. revert a. induction b; intros a l; [reflexivity|]. destruct l; cbn; [now rewrite skipn_nil|apply IHb]. Qed.
Section Joint.
Variables (h : vec) (Q : mat) (c : vec) (inside : list (vec -> bool)) (a : R) (n : nat).
Notation ins := (fun p => existsb (fun s : vec -> bool => s p) inside).
Notation pt := (box_pt h Q c).
Hypothesis HA : mean_u 3 (fun u => if ins (pt u) then 1 else 0) a.
Definition law_of (f : vec -> R) (mu : R) := mean_u 3 (fun u => if ins (pt u) then f (pt u) else 0) (a * mu).
(** the mean, given the candidates of a turn, when each slot still empty after it is filled with probability s *)
Fixpoint weight (s : R) (fs : list (vec -> R)) (mus : list R) (C : mat) : R :=
  match C with
  | [] => rprod mus
  | p :: C => if ins p then match fs, mus with f :: fs, _ :: mus => f p * weight s fs mus C | _, _ => 0 end else s * weight s fs mus C
  end.
Lemma weight_eq s : forall C fs mus, length fs = length mus -> (length C <= length fs)%nat ->
  product fs (filter ins C) * rprod (skipn (length (filter ins C)) mus) * s ^ (length C - length (filter ins C)) = weight s fs mus C.
Proof.
  induction C as [|p C IH]; intros fs mus L LC; [unfold product; destruct fs; cbn [filter length skipn Nat.sub pow weight map2 fold_right]; ring|]. cbn [filter weight]. pose proof (filter_le ins C). destruct (existsb _ inside).
  - destruct fs as [|f fs], mus as [|mu mus]; cbn in LC, L; try lia. rewrite <- IH by lia. unfold product. cbn [filter length skipn Nat.sub pow map2 fold_right]. ring.
  - cbn in LC. rewrite <- IH by lia. cbn [length]. replace (S (length C) - length (filter ins C))%nat with (S (length C - length (filter ins C))) by lia. cbn [pow]. ring.
Qed.
Lemma weight_mean s : forall N r fs mus k, Forall2 law_of fs mus -> (r <= N)%nat -> (r <= length fs)%nat ->
  mean_rows 3 N (fun U => k * weight s fs mus (map pt (firstn r U))) (k * rprod mus * (a + (1 - a) * s) ^ r).
Proof.
  induction N; intros r fs mus k HF Hr Hl.
  - replace r with 0%nat by lia. cbn [mean_rows firstn map weight pow]. ring.
  - destruct r as [|r].
    + cbn [mean_rows firstn map weight pow]. exists (fun _ => k * rprod mus * 1). split; [|exact (mean_u_const 3 (k * rprod mus * 1))]. intros u _. exact (IHN 0%nat fs mus k HF ltac:(lia) ltac:(lia)).
    + inversion HF as [|f mu fs' mus' Hf HF' E1 E2]; subst; [cbn in Hl; lia|]. cbn [length] in Hl. cbn [mean_rows firstn map weight].
      set (w := a + (1 - a) * s). exists (fun u => if ins (pt u) then k * f (pt u) * rprod mus' * w ^ r else k * s * rprod (mu :: mus') * w ^ r). split.
      * intros u _. cbv beta. destruct (existsb _ inside).
        -- eapply mean_rows_ext; [|exact (IHN r fs' mus' (k * f (pt u)) HF' ltac:(lia) ltac:(lia))]. intros M _. cbv beta. ring.
        -- eapply mean_rows_ext; [|exact (IHN r (f :: fs') (mu :: mus') (k * s) HF ltac:(lia) ltac:(cbn; lia))]. intros M _. cbv beta. ring.
      * eapply mean_u_eq; [eapply mean_u_ext; [|exact (mean_u_lin 3 (fun u => if ins (pt u) then f (pt u) else 0) (fun u => if ins (pt u) then 1 else 0) (k * s * rprod (mu :: mus') * w ^ r) (k * rprod mus' * w ^ r) (- (k * s * rprod (mu :: mus') * w ^ r)) _ _ Hf HA)]|].
        -- intros u _. cbv beta. destruct (existsb _ inside); ring.
        -- unfold rprod. cbn [fold_right pow]. generalize (w ^ r). intro y. unfold w. ring.
Qed.
Definition cand (l : list mat) (t r : nat) : mat := map pt (firstn r (nth t l [])).
Lemma rows_const k : mean_rows 3 n (fun _ => k) k.
Proof. induction n; cbn [mean_rows]; [reflexivity|]. exists (fun _ => k). split; [intros; exact IHn0|apply mean_u_const]. Qed.
Lemma joint_loop fs mus K : Forall2 law_of fs mus -> length fs = n -> forall P m, length P = n -> (m <= n)%nat ->
  blocks_mean (rows_of n 3 (uniform_draw (-1) 1)) (mean_rows 3 n) K
    (fun l => match rejection_loop inside (cand l) n K 0 P m with Ok P' => product fs P' | _ => 0 end) (product fs (firstn m P) * rprod (skipn m mus) * (1 - (1 - a) ^ K) ^ (n - m)).
Proof.
  intros HF LF. assert (LM : length mus = n) by (rewrite <- LF; clear - HF; induction HF; cbn; auto).
  induction K as [|K IH]; intros P m LP Hm.
  - cbn [blocks_mean rejection_loop]. destruct (Nat.ltb m n) eqn:E.
    + apply Nat.ltb_lt in E. cbn [pow]. replace (1 - 1) with 0 by ring. rewrite pow_i by lia. ring.
    + apply Nat.ltb_ge in E. replace m with n by lia. rewrite Nat.sub_diag. rewrite (firstn_all2 P) by lia. rewrite (skipn_all2 mus) by lia. cbn. ring.
  - destruct (Nat.eq_dec m n) as [->|Nm].
    + rewrite Nat.sub_diag. rewrite (firstn_all2 P) by lia. rewrite (skipn_all2 mus) by lia. cbn [pow rprod fold_right].
      replace (product fs P * 1 * 1) with (product fs P) by ring. cbn [blocks_mean]. exists (fun _ => product fs P). split; [|apply rows_const].
      intros B _. cbn [rejection_loop]. rewrite Nat.ltb_irrefl. clear. induction K; cbn [blocks_mean]; [reflexivity|]. exists (fun _ => product fs P). split; [intros; exact IHK|apply rows_const].
    + cbn [blocks_mean]. exists (fun B => product fs (firstn m P) * weight (1 - (1 - a) ^ K) (skipn m fs) (skipn m mus) (map pt (firstn (n - m) B))). split.
      * intros B HB0. set (new := filter ins (map pt (firstn (n - m) B))).
        assert (LB : length B = n) by apply HB0.
        assert (LC : length (map pt (firstn (n - m) B)) = (n - m)%nat) by (rewrite map_length, firstn_length; lia).
        assert (Ln : (length new <= n - m)%nat) by (pose proof (filter_le ins (map pt (firstn (n - m) B))) as FL; fold new in FL; lia).
        assert (LW : length (write_rows P m new) = n) by (unfold write_rows; rewrite !app_length, firstn_length, skipn_length; lia).
        assert (LP1 : length (firstn m P) = m) by (rewrite firstn_length; lia).
        eapply blocks_ext; [intros F G I; apply mean_rows_ext|..|].
        2: { pose proof (IH (write_rows P m new) (m + length new)%nat LW ltac:(lia)) as J.
             assert (E : product fs (firstn (m + length new) (write_rows P m new)) * rprod (skipn (m + length new) mus) * (1 - (1 - a) ^ K) ^ (n - (m + length new)) = product fs (firstn m P) * weight (1 - (1 - a) ^ K) (skipn m fs) (skipn m mus) (map pt (firstn (n - m) B))).
             { unfold write_rows. rewrite app_assoc, firstn_app. replace (m + length new - length (firstn m P ++ new))%nat with 0%nat by (rewrite app_length; lia).
               rewrite firstn_all2 by (rewrite app_length; lia). cbn [firstn]. rewrite app_nil_r, product_app by lia. rewrite LP1.
               rewrite <- weight_eq by (rewrite ?skipn_length; lia). fold new. rewrite LC, skipn_skipn'. replace (n - (m + length new))%nat with (n - m - length new)%nat by lia. ring. }
             rewrite E in J. exact J. }
        intros l Ll HL. cbv beta. rewrite reject_turn by (auto; lia). unfold cand at 1 2. cbn [nth]. fold new.
        rewrite (reject_shift inside (cand (B :: l)) (cand l) n K 1 0); [reflexivity|]. intros i r. reflexivity.
      * pose proof (weight_mean (1 - (1 - a) ^ K) n (n - m) (skipn m fs) (skipn m mus) (product fs (firstn m P))) as W.
        replace (1 - (1 - a) ^ S K) with (a + (1 - a) * (1 - (1 - a) ^ K)) by (cbn; ring). apply W; [|lia|rewrite skipn_length; lia].
        clear - HF. revert fs mus HF. induction m; intros fs mus HF; [exact HF|]. destruct HF; [constructor|]. cbn. now apply IHm.
Qed.
End Joint.
Lemma joint_law inside h c r b V A fs Bs : box_init h c r = Ok b -> (forall i, (i < 3)%nat -> 0 < nth i h 0) ->
  let ins := fun p => existsb (fun s => s p) inside in
  let g := move (pose_rot 3 r) (pose_tr 3 c) in
  box_volume h (fun _ => 1) V -> box_volume h (fun u => if ins (g u) then 1 else 0) A -> 0 < A ->
  Forall2 (fun f B => box_volume h (fun u => if ins (g u) then f (g u) else 0) B) fs Bs ->
  let n := length fs in forall K,
    let run := fun l => rejection_sample inside (fun t m => box_random_points b (firstn m (nth t l []))) n K in
    let mean := blocks_mean (rows_of n 3 (uniform_draw (-1) 1)) (mean_rows 3 n) K in
    mean (fun l => match run l with Ok P => 1 | _ => 0 end) ((1 - (1 - A / V) ^ K) ^ n) /\
    mean (fun l => match run l with Ok P => product fs P | _ => 0 end) (rprod (map (fun B => B / A) Bs) * (1 - (1 - A / V) ^ K) ^ n).
Proof.
  intros Hb Hp ins g HV HA PA HB n K run mean. pose proof (box_init_inv _ _ _ _ Hb) as (Lh & _ & Eh & Ec & Er & MQ & Lc & _).
  destruct h as [|x [|y [|z [|]]]]; try discriminate Lh. pose proof (Hp 0 ltac:(lia))%nat as Px. pose proof (Hp 1 ltac:(lia))%nat as Py. pose proof (Hp 2 ltac:(lia))%nat as Pz. cbn in Px, Py, Pz. clear Hp.
  assert (EV : V = 8 * x * y * z). { eapply (functional_box_volume [x; y; z]); [intros u Iu; cbn in Iu; intuition lra|exact HV|]. eapply whole_of; [apply dom3_box_volume|apply box_volume_moments]. }
  assert (PV : 0 < V) by (rewrite EV; apply Rmult_lt_0_compat; [apply Rmult_lt_0_compat; lra|lra]). clear HV.
  assert (E : forall u, length u = 3%nat -> g [x * nth 0 u 0; y * nth 1 u 0; z * nth 2 u 0] = box_pt [x; y; z] (pose_rot 3 r) (pose_tr 3 c) u).
  { intros [|u0 [|u1 [|u2 [|]]]] L; try discriminate L. unfold g, box_pt. cbn [nth vmul map2]. f_equal. list_eq; ring. }
  assert (HM : forall f B, box_volume [x; y; z] (fun u => if ins (g u) then f (g u) else 0) B -> mean_u 3 (fun u => if ins (box_pt [x; y; z] (pose_rot 3 r) (pose_tr 3 c) u) then f (box_pt [x; y; z] (pose_rot 3 r) (pose_tr 3 c) u) else 0) (B / V)).
  { intros f B H. cbn in H. apply mean_solid in H; auto. rewrite <- EV in H. eapply mean_u_ext'; [|exact H]. intros u L. cbv beta. now rewrite E. }
  pose proof (HM (fun _ => 1) A HA) as HA'.
  assert (ER : forall l, length l = K -> Forall (rows_of n 3 (uniform_draw (-1) 1)) l -> run l = rejection_loop inside (cand [x; y; z] (pose_rot 3 r) (pose_tr 3 c) l) n K 0 (zeros2 n 3) 0).
  { intros l Ll Hl. unfold run, rejection_sample.
    assert (ED : forall t m, box_random_points b (firstn m (nth t l [])) = cand [x; y; z] (pose_rot 3 r) (pose_tr 3 c) l t m).
    { intros t m. unfold cand, box_random_points. rewrite Eh.
      assert (HR : forall q, In q (firstn m (nth t l [])) -> length q = 3%nat).
      { intros q Hq. destruct (le_lt_dec (length l) t) as [Ht|Ht]; [rewrite nth_overflow in Hq by exact Ht; rewrite firstn_nil in Hq; destruct Hq|].
        rewrite Forall_forall in Hl. pose proof (Hl _ (nth_In l [] Ht)) as [[_ HL] _]. rewrite Forall_forall in HL. apply HL. rewrite <- (firstn_skipn m). apply in_or_app. now left. }
      rewrite (rows_move_eq 3); auto; [rewrite Er, Ec, map_map; reflexivity|]. apply rows_len_of. intros q Hq. apply in_map_iff in Hq as (q' & <- & Hq). rewrite vmul_length; [|rewrite (HR q' Hq); reflexivity]. now apply HR. }
    apply reject_shift. intros i m. cbn [Nat.add]. apply ED. }
  assert (G : forall gs mus, length gs = n -> Forall2 (law_of [x; y; z] (pose_rot 3 r) (pose_tr 3 c) inside (A / V)) gs mus ->
    mean (fun l => match run l with Ok P => product gs P | _ => 0 end) (rprod mus * (1 - (1 - A / V) ^ K) ^ n)).
  { intros gs mus Lg HF. pose proof (joint_loop [x; y; z] (pose_rot 3 r) (pose_tr 3 c) inside (A / V) n HA' gs mus K HF Lg (zeros2 n 3) 0) as J.
    assert (LZ : length (zeros2 n 3) = n) by apply repeat_length. specialize (J LZ ltac:(lia)). rewrite Nat.sub_0_r in J. cbn [firstn skipn] in J. replace (product gs []) with 1 in J by (destruct gs; reflexivity). rewrite Rmult_1_l in J.
    unfold mean. eapply blocks_ext; [intros F H I; apply mean_rows_ext| |exact J]. intros l Ll Hl. cbv beta. now rewrite ER. }
  split.
  - pose proof (G (repeat (fun _ => 1) n) (repeat 1 n) (repeat_length _ _)) as G1. replace (rprod (repeat 1 n)) with 1 in G1 by (clear; unfold rprod; induction n; cbn; lra). rewrite Rmult_1_l in G1.
    unfold mean. eapply blocks_ext; [intros F H I; apply mean_rows_ext| |apply G1].
    + intros l _ _. cbv beta. destruct (run l) as [P| |]; auto. clear. generalize n. clear n. unfold product. revert P. induction P as [|p P IH]; intros [|n]; cbn; try reflexivity. rewrite IH. ring.
    + clear G1. generalize n. clear - HA' PV PA. intro n. induction n; cbn; constructor; auto. unfold law_of. replace (A / V * 1) with (A / V) by ring. exact HA'.
  - apply G; [reflexivity|]. clear - HB HM PV PA. induction HB; cbn; constructor; auto. unfold law_of. replace (A / V * (y0 / A)) with (y0 / V) by (field; lra). now apply HM.
Qed.
Lemma blocks_unique {X} (D : X -> Prop) (mean : (X -> R) -> R -> Prop) K :
  (forall F G I J, (forall x, D x -> F x = G x) -> mean F I -> mean G J -> I = J) ->
  forall F I J, blocks_mean D mean K F I -> blocks_mean D mean K F J -> I = J.
Proof.
  intro U. induction K; cbn; intros F I J; [congruence|]. intros (G & G1 & G2) (H & H1 & H2). eapply U; [|exact G2|exact H2]. intros B HB. eapply IHK; [apply G1|apply H1]; auto.
Qed.
Lemma joint_unique n K F I J : blocks_mean (rows_of n 3 (uniform_draw (-1) 1)) (mean_rows 3 n) K F I -> blocks_mean (rows_of n 3 (uniform_draw (-1) 1)) (mean_rows 3 n) K F J -> I = J.
Proof. apply blocks_unique. intros G H I' J' E HG HH. eapply mean_rows_unique; [|exact HH]. eapply mean_rows_ext; [|exact HG]. intros. now apply E. Qed.
Lemma capsule_joint L r ro co c k fs Bs : cyl_init L r ro co = Ok c -> caps_init c = Ok k -> orthogonal 3 (pose_rot 3 ro) -> / 100000000 < r ->
  let g := move (pose_rot 3 ro) (pose_tr 3 co) in let K := Z.to_nat 10000 in let h := [r; r; (L + 2 * r) / 2] in
  let ins := fun u => caps_contains k (g u) (/ 100000000) in
  Forall2 (fun f B => box_volume h (fun u => if ins u then f (g u) else 0) B) fs Bs ->
  let n := length fs in
  exists A a, box_volume h (fun u => if ins u then 1 else 0) A /\ 0 < A /\ 1 / 8 <= a <= 1 /\
    let run := fun l => caps_random_points k (fun t m => firstn m (nth t l [])) n in
    let mean := blocks_mean (rows_of n 3 (uniform_draw (-1) 1)) (mean_rows 3 n) K in
    mean (fun l => match run l with Ok P => 1 | _ => 0 end) ((1 - (1 - a) ^ K) ^ n) /\
    mean (fun l => match run l with Ok P => product fs P | _ => 0 end) (rprod (map (fun B => B / A) Bs) * (1 - (1 - a) ^ K) ^ n).
Proof.
  intros Hc Hk HQ Hr g K h ins HB n. change (/ 100000000) with default_tol in ins |- *. pose proof (caps_inv _ _ _ _ _ _ Hc Hk) as (HL & _ & MQ & Lc & EK).
  destruct (caps_volume _ _ _ _ _ _ Hc Hk HQ Hr) as (A & HA & LA). assert (PR : 0 < r * r) by (apply Rmult_lt_0_compat; lra). assert (PA : 0 < A) by (eapply Rlt_le_trans; [|exact LA]; apply Rmult_lt_0_compat; lra).
  destruct (box_init_good h (Some (pose_tr 3 co)) (Some (pose_rot 3 ro))) as [b Hb]; auto. { intros [|[|[|i]]] Hi; cbn; try lia; lra. }
  assert (Eb : caps_mbb k = Ok b) by (rewrite EK; exact Hb).
  assert (HV : box_volume h (fun _ => 1) (8 * r * r * ((L + 2 * r) / 2))) by (eapply whole_of; [apply dom3_box_volume|apply box_volume_moments]).
  assert (PV : 0 < 8 * r * r * ((L + 2 * r) / 2)) by (apply Rmult_lt_0_compat; [apply Rmult_lt_0_compat|]; lra).
  assert (O : forall p, existsb (fun s : vec -> bool => s p) [fun p => caps_contains k p default_tol] = caps_contains k p default_tol) by (intro p; cbn; apply orb_false_r).
  assert (DOM : forall F G T, (forall u, F u = G u) -> box_volume h F T -> box_volume h G T).
  { intros F G T E. apply dom3_box_volume. intros. apply E. }
  assert (HP : forall i, (i < 3)%nat -> 0 < nth i h 0) by (intros [|[|[|i]]] Hi; cbn; try lia; lra).
  assert (HA2 : box_volume h (fun u => if existsb (fun s : vec -> bool => s (g u)) [fun p => caps_contains k p default_tol] then 1 else 0) A) by (revert HA; apply DOM; intro u; now rewrite O).
  exists A, (A / (8 * r * r * ((L + 2 * r) / 2))). split; [exact HA|]. split; [exact PA|]. split.
  - split; [|apply (rejection_law (fun _ => 1) [fun p => caps_contains k p default_tol] h (Some (pose_tr 3 co)) (Some (pose_rot 3 ro)) b _ A A Hb HP HV HA2 PA HA2)].
    apply Rmult_le_reg_r with (8 * r * r * ((L + 2 * r) / 2)); [exact PV|]. replace (A / (8 * r * r * ((L + 2 * r) / 2)) * (8 * r * r * ((L + 2 * r) / 2))) with A by (field; lra).
    apply Rle_trans with (r * r * ((L + 2 * r) / 2)); [lra|]. apply Rle_trans with (2 := LA). apply Rmult_le_compat_l; lra.
  - unfold caps_random_points. rewrite Eb. cbn [bind]. change default_max_tries with K.
    refine (joint_law [fun p => caps_contains k p default_tol] h (Some (pose_tr 3 co)) (Some (pose_rot 3 ro)) b _ A fs Bs Hb HP HV HA2 PA _ K).
    clear - HB DOM O. induction HB; constructor; auto. revert H. apply DOM. intro u. rewrite O. reflexivity.
Qed.
