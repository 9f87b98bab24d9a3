(** C110: the law of random_weight_vectors, ConvexPolyhedron.random_points and random_psd_matrix. *)
From Coquelicot Require Import Coquelicot.
From Verif Require Import Base.Vec Base.VecFacts Spec.Basic Spec.PolySpec Spec.Integrals Spec.RandomSpec Spec.Expect Spec.Symmetric Spec.Exchangeable Spec.Turns
  Model.Util Model.Polydd Model.Poly Model.Inertial Model.Ellipsoid Model.Box Model.Cylinder Model.Random
  Proofs.IntegralP Proofs.Decomp Proofs.RandomP Proofs.RandomE Proofs.ExpectP Proofs.BallLawP Proofs.TurnsP Proofs.MonoInt.

Lemma lsum_exchange i j x : (i < length x)%nat -> (j < length x)%nat -> lsum (exchange i j x) = lsum x.
Proof.
  intros Hi Hj. set (s := fun k => if Nat.eqb k i then j else if Nat.eqb k j then i else k).
  assert (E : x = map (fun k => nth k x 0) (seq 0 (length x))) by (symmetry; apply (vec_ext (length x)); [now rewrite map_length, seq_length|reflexivity|]; intros k Hk; now rewrite nth_map_seq).
  rewrite E at 2. unfold exchange. fold s. rewrite <- (map_map s (fun k => nth k x 0)). apply lsum_map_perm.
  apply Permutation.NoDup_Permutation_bis.
  - apply FinFun.Injective_map_NoDup; [|apply seq_NoDup]. intros a b H. unfold s in H. repeat match type of H with context [Nat.eqb ?u ?v] => destruct (Nat.eqb_spec u v) end; subst; congruence.
  - rewrite map_length. lia.
  - intros k I. apply in_map_iff in I as (a & <- & I). apply in_seq in I. apply in_seq. unfold s. destruct (Nat.eqb a i); [lia|]. destruct (Nat.eqb a j); lia.
Qed.
Lemma dot_sum k x y : length x = k -> length y = k -> dot x y = lsum (map (fun j => nth j x 0 * nth j y 0) (seq 0 k)).
Proof.
  intros Lx Ly. unfold dot. f_equal. apply (vec_ext k); [rewrite map2_length; lia|now rewrite map_length, seq_length|]. intros j Hj. rewrite nth_map_seq by lia. rewrite (nth_map2 Rmult x y 0 0); auto; try lia. ring.
Qed.
Lemma lsum_const (c : R) (l : list nat) : lsum (map (fun _ => c) l) = INR (length l) * c.
Proof. induction l as [|a l IH]; [change (0 = 0 * c); ring|]. cbn [map length]. rewrite S_INR. change (lsum (c :: map (fun _ : nat => c) l)) with (c + lsum (map (fun _ : nat => c) l)). rewrite IH. ring. Qed.
Section L.
  Context (k : nat) (law : (vec -> R) -> R -> Prop) (HL : exchangeable_law k law).
  Lemma ex_ext F G a : (forall x, draws_of k unit_draw x -> x <> zeros k -> F x = G x) -> law F a -> law G a. Proof. apply HL. Qed.
  Lemma ex_eq F a b : law F a -> a = b -> law F b. Proof. now intros H <-. Qed.
  Lemma ex_sum {A} (F : A -> vec -> R) (m : A -> R) l : (forall a, In a l -> law (F a) (m a)) -> law (fun x => lsum (map (fun a => F a x) l)) (lsum (map m l)).
  Proof.
    destruct HL as (One & Lin & _). induction l as [|a l IH]; intros H.
    - eapply ex_eq; [eapply ex_ext; [|exact (Lin (fun _ => 1) (fun _ => 1) 1 1 0 0 One One)]|]; [intros|]; cbn; ring.
    - pose proof (Lin _ _ _ _ 1 1 (H a (or_introl eq_refl)) (IH (fun b I => H b (or_intror I)))) as K. cbn [map]. change (lsum (m a :: map m l)) with (m a + lsum (map m l)).
      eapply ex_eq; [eapply ex_ext; [|exact K]|ring]. intros x _ _. cbv beta. change (lsum (F a x :: map (fun a0 => F a0 x) l)) with (F a x + lsum (map (fun a0 => F a0 x) l)). ring.
  Qed.
  Lemma ex_scal F a s : law F a -> law (fun x => F x * s) (a * s).
  Proof. intro H. destruct HL as (One & Lin & _). eapply ex_eq; [eapply ex_ext; [|exact (Lin _ _ _ _ s 0 H H)]|]; [intros|]; cbn; ring. Qed.
  Lemma draw_sum x : draws_of k unit_draw x -> x <> zeros k -> 0 < lsum x.
  Proof.
    intros [Lx Hx] Nx. assert (N : forall a, In a x -> 0 <= a) by (intros a I; apply Hx in I; unfold unit_draw, uniform_draw in I; lra). pose proof (lsum_nonneg x N) as P. destruct (Req_dec (lsum x) 0) as [E|E]; [|lra]. exfalso. apply Nx. rewrite <- Lx. clear Lx Hx Nx P.
    induction x as [|a x IH]; [reflexivity|]. change (lsum (a :: x)) with (a + lsum x) in E. pose proof (N a (or_introl eq_refl)). pose proof (lsum_nonneg x (fun b I => N b (or_intror I))). cbn [length zeros repeat]. f_equal; [lra|]. apply IH; [intros; apply N; now right|lra].
  Qed.
  Lemma entry_mean i : (i < k)%nat -> law (fun x => nth i x 0 / lsum x) (1 / INR k).
  Proof.
    intros Hi. pose proof HL as (One & Lin & Uni & Ext & Exc & Exi). destruct (Exi i Hi) as (a & Ha).
    assert (A : forall j, (j < k)%nat -> law (fun x => nth j x 0 / lsum x) a).
    { intros j Hj. eapply ex_ext; [|exact (Exc _ _ i j Hi Hj Ha)]. intros x [Lx _] _. cbv beta. rewrite lsum_exchange by lia. rewrite nth_exchange by lia. now rewrite Nat.eqb_refl. }
    assert (S : law (fun _ => 1) (INR k * a)).
    { pose proof (ex_sum (fun j x => nth j x 0 / lsum x) (fun _ => a) (seq 0 k) ltac:(intros j I; apply A; apply in_seq in I; lia)) as K. eapply ex_eq; [eapply ex_ext; [|exact K]|].
      - intros x Dx Nx. cbv beta. pose proof (draw_sum x Dx Nx) as P. destruct Dx as [Lx _].
        replace (map (fun a0 => nth a0 x 0 / lsum x) (seq 0 k)) with (vdivs x (lsum x)); [rewrite lsum_vdivs; field; lra|].
        apply (vec_ext k); [unfold vdivs; now rewrite map_length|now rewrite map_length, seq_length|]. intros j Hj. rewrite nth_vdivs. now rewrite nth_map_seq.
      - rewrite lsum_const, seq_length. reflexivity. }
    pose proof (Uni _ _ _ One S) as E. assert (0 < INR k) by (apply lt_0_INR; lia). eapply ex_eq; [exact Ha|]. apply (Rmult_eq_reg_l (INR k)); [|lra]. rewrite <- E. field. lra.
  Qed.
  Lemma weight_run x : draws_of k unit_draw x -> x <> zeros k -> random_weight_vectors [x] = Ok [vdivs x (lsum x)].
  Proof. intros Dx Nx. pose proof (draw_sum x Dx Nx). unfold random_weight_vectors. cbn [mapM]. unfold weight_vector. rewrite Reqb_false by lra. reflexivity. Qed.
End L.
Lemma weights_mean k law i : exchangeable_law k law -> (i < k)%nat ->
  law (fun w => point_stat (fun v => nth i v 0) (Some (random_weight_vectors [w]))) (1 / INR k).
Proof.
  intros HL Hi. eapply (ex_ext k law HL); [|exact (entry_mean k law HL i Hi)]. intros x Dx Nx. cbv beta. rewrite (weight_run k x) by auto. cbn [point_stat]. now rewrite nth_vdivs.
Qed.
Lemma poly_mean_point d p law i : poly_ok d p -> exchangeable_law (p_nv p) law -> (i < d)%nat ->
  law (fun w => point_stat (fun v => nth i v 0) (Some (poly_random_points p [w]))) (lsum (map (fun v => nth i v 0) (p_vertices p)) / INR (p_nv p)).
Proof.
  intros (Hd & _ & _ & _ & V & EV & NE & LV) HL Hi. unfold poly_random_points, p_vertices, p_nv, sf_nv in *. rewrite EV in *. cbn [sf_vertices] in *. set (k := length V) in *.
  assert (NC : ncols V = d) by (destruct V; [easy|]; apply LV; now left).
  pose proof (ex_sum k law HL (fun j x => nth j x 0 / lsum x * nth i (nth j V []) 0) (fun j => 1 / INR k * nth i (nth j V []) 0) (seq 0 k)) as K.
  assert (K' := K ltac:(intros j I; apply in_seq in I; apply (ex_scal k law HL (fun x => nth j x 0 / lsum x)); apply (entry_mean k law HL); lia)). clear K.
  assert (0 < INR k) by (apply lt_0_INR; destruct V; [easy|cbn; lia]).
  eapply ex_eq; [eapply (ex_ext k law HL); [|exact K']|].
  - intros x Dx Nx. cbv beta. rewrite (weight_run k x) by auto. cbn [bind point_stat mat_mul map]. rewrite nth_vec_mat by lia. destruct Dx as [Lx _].
    rewrite (dot_sum k) by (rewrite ?vdivs_length; unfold col; rewrite ?map_length; auto). apply lsum_map_ext. intros j I. apply in_seq in I. rewrite nth_vdivs, nth_col. reflexivity.
  - assert (E : map (fun v : vec => nth i v 0) V = map (fun j => nth i (nth j V []) 0) (seq 0 k)).
    { apply (vec_ext k); [now rewrite map_length|now rewrite map_length, seq_length|]. intros j Hj. rewrite nth_map_seq by lia. rewrite (nth_indep _ 0 (nth i [] 0)) by (rewrite map_length; exact Hj). exact (map_nth (fun v : vec => nth i v 0) V [] j). }
    rewrite E. clear E. generalize (seq 0 k). clear - H. intro l. induction l as [|j l IH]; [cbn; field; lra|]. cbn [map].
    match goal with |- lsum (?a :: ?u) = lsum (?b :: ?v) / _ => change (lsum (a :: u)) with (a + lsum u); change (lsum (b :: v)) with (b + lsum v) end. rewrite IH. field. lra.
Qed.
(** ** two weights: the distribution function of an entry *)
Lemma step_int a b c (g : R -> R) u v : a <= c <= b -> (forall y, a < y < c -> g y = u) -> (forall y, c < y < b -> g y = v) -> integral g a b (u * (c - a) + v * (b - c)).
Proof.
  intros Hc H1 H2. apply (is_RInt_Chasles (V := R_NormedModule) g a c b (u * (c - a)) (v * (b - c))).
  - eapply IntegralP.integral_ext; [|apply (const_int u a c)]. intros y Hy. rewrite Rmin_left, Rmax_right in Hy by lra. symmetry. auto.
  - eapply IntegralP.integral_ext; [|apply (const_int v c b)]. intros y Hy. rewrite Rmin_left, Rmax_right in Hy by lra. symmetry. auto.
Qed.
Definition below (t : R) (v : vec) : R := if Rle_dec (nth 0 v 0) t then 1 else 0.
Lemma two_run x y t : 0 < x + y -> point_stat (below t) (Some (random_weight_vectors [[x; y]])) = if Rle_dec (x / (x + y)) t then 1 else 0.
Proof.
  intro P. unfold random_weight_vectors. cbn [mapM]. unfold weight_vector. replace (lsum [x; y]) with (x + y) by (cbn; ring). rewrite Reqb_false by lra. reflexivity.
Qed.
Lemma two_inner t x : 0 < t < 1 -> 0 <= x <= 1 -> integral (fun y => point_stat (below t) (Some (random_weight_vectors [[x; y]]))) 0 1 (Rmax 0 (1 - (1 - t) / t * x)).
Proof.
  intros Ht Hx. set (s := (1 - t) / t). assert (Ps : 0 < s) by (unfold s; apply Rmult_lt_0_compat; [lra|apply Rinv_0_lt_compat; lra]).
  assert (Sx : 0 <= s * x) by (apply Rmult_le_pos; lra). assert (St : s * t = 1 - t) by (unfold s; field; lra).
  assert (I1 : forall y, 0 < y -> y < s * x -> point_stat (below t) (Some (random_weight_vectors [[x; y]])) = 0).
  { intros y Hy H. rewrite two_run by lra. destruct (Rle_dec (x / (x + y)) t) as [L|L]; [|reflexivity]. exfalso. apply (Rmult_le_compat_r (x + y)) in L; [|lra]. unfold Rdiv in L. rewrite Rmult_assoc, Rinv_l, Rmult_1_r in L by lra.
    assert (t * y < t * (s * x)) by (apply Rmult_lt_compat_l; lra). replace (t * (s * x)) with (s * t * x) in * by ring. rewrite St in *. lra. }
  assert (I2 : forall y, 0 < y -> s * x < y -> point_stat (below t) (Some (random_weight_vectors [[x; y]])) = 1).
  { intros y Hy H. rewrite two_run by lra. destruct (Rle_dec (x / (x + y)) t) as [L|L]; [reflexivity|]. exfalso. apply L. apply (Rmult_le_reg_r (x + y)); [lra|]. unfold Rdiv. rewrite Rmult_assoc, Rinv_l, Rmult_1_r by lra.
    assert (t * (s * x) <= t * y) by (apply Rmult_le_compat_l; lra). replace (t * (s * x)) with (s * t * x) in * by ring. rewrite St in *. lra. }
  destruct (Rle_dec (s * x) 1) as [L|L].
  - rewrite Rmax_right by lra. eapply IntegralP.integral_eq; [apply (step_int 0 1 (s * x) _ 0 1); [lra|intros; apply I1; lra|intros; apply I2; lra]|ring].
  - rewrite Rmax_left by lra. eapply IntegralP.integral_eq; [apply (step_int 0 1 1 _ 0 0); [lra|intros; apply I1; lra|intros; lra]|ring].
Qed.
Lemma aff_int s a b : integral (fun x => 1 - s * x) a b (b - a - s * (b * b - a * a) / 2).
Proof.
  apply (IntegralP.integral_eq _ _ _ ((b - s * (b * b) / 2) - (a - s * (a * a) / 2))); [|field]. apply (is_RInt_derive (fun x => x - s * (x * x) / 2)); intros x _; [auto_derive; [auto|field]|].
  apply (ex_derive_continuous (V := R_NormedModule)). auto_derive. auto.
Qed.
Lemma two_cdf t : 0 < t < 1 -> integral2 0 1 (fun _ => 0) (fun _ => 1) (fun x y => point_stat (fun v => if Rle_dec (nth 0 v 0) t then 1 else 0) (Some (random_weight_vectors [[x; y]]))) (if Rle_dec t (1 / 2) then t / (2 * (1 - t)) else 1 - (1 - t) / (2 * t)).
Proof.
  intros Ht. exists (fun x => Rmax 0 (1 - (1 - t) / t * x)). split; [intros x Hx; now apply two_inner|].
  set (s := (1 - t) / t). assert (Ps : 0 < s) by (unfold s; apply Rmult_lt_0_compat; [lra|apply Rinv_0_lt_compat; lra]). assert (St : s * t = 1 - t) by (unfold s; field; lra).
  destruct (Rle_dec t (1 / 2)) as [L|L].
  - assert (S1 : 1 <= s). { apply (Rmult_le_reg_r t); lra. } assert (C1 : 0 < / s <= 1) by (split; [now apply Rinv_0_lt_compat|rewrite <- Rinv_1; apply Rinv_le_contravar; lra]).
    assert (E : s * / s = 1) by (apply Rinv_r; lra).
    apply (IntegralP.integral_eq _ _ _ ((/ s - 0 - s * (/ s * / s - 0 * 0) / 2) + 0 * (1 - / s))).
    + apply (is_RInt_Chasles (V := R_NormedModule) _ 0 (/ s) 1).
      * eapply IntegralP.integral_ext; [|apply (aff_int s 0 (/ s))]. intros x Hx. rewrite Rmin_left, Rmax_right in Hx by lra. cbv beta. rewrite Rmax_right; [reflexivity|]. assert (s * x <= s * / s) by (apply Rmult_le_compat_l; lra). lra.
      * eapply IntegralP.integral_ext; [|apply (const_int 0 (/ s) 1)]. intros x Hx. rewrite Rmin_left, Rmax_right in Hx by lra. cbv beta. rewrite Rmax_left; [reflexivity|]. assert (s * / s <= s * x) by (apply Rmult_le_compat_l; lra). lra.
    + unfold s. field. lra.
  - assert (S1 : s <= 1). { apply (Rmult_le_reg_r t); lra. }
    eapply IntegralP.integral_ext; [|eapply IntegralP.integral_eq; [apply (aff_int s 0 1)|unfold s; field; lra]]. intros x Hx. rewrite Rmin_left, Rmax_right in Hx by lra. cbv beta. rewrite Rmax_right; [reflexivity|].
    assert (s * x <= 1 * 1) by (apply Rmult_le_compat; lra). lra.
Qed.
Lemma two_not_uniform : exists t I, 0 < t < 1 /\ integral2 0 1 (fun _ => 0) (fun _ => 1) (fun x y => point_stat (fun v => if Rle_dec (nth 0 v 0) t then 1 else 0) (Some (random_weight_vectors [[x; y]]))) I /\ I <> t.
Proof.
  exists (1 / 4), (1 / 6). split; [lra|]. split; [|lra]. pose proof (two_cdf (1 / 4) ltac:(lra)) as K. destruct (Rle_dec (1 / 4) (1 / 2)); [|lra]. replace (1 / 6) with (1 / 4 / (2 * (1 - 1 / 4))) by field. exact K.
Qed.
(** ** random_psd_matrix *)
Lemma psd_mean n i j : (i < n)%nat -> (j < n)%nat -> mean_rows n n (fun A => entry (random_psd_matrix A) i j) (if Nat.eqb i j then INR n / 3 else 0).
Proof.
  intros Hi Hj. pose proof (rows_mean n (fun _ r => nth i r 0 * nth j r 0) (fun _ => if Nat.eqb i j then 1 / 3 else 0) (fun _ => coord_mean2 n i j Hi Hj) (seq 0 n) 0 1) as K. rewrite seq_length in K.
  eapply mean_rows_eq; [eapply mean_rows_ext; [|exact K]|].
  - intros A [MA _]. cbv beta. unfold random_psd_matrix. assert (NC : ncols A = n) by (apply (is_mat_ncols n n); auto; lia). pose proof (is_mat_length _ _ _ MA) as LA.
    rewrite entry_mat_mul by (rewrite ?transpose_length; lia). rewrite nth_transpose by lia. rewrite (dot_sum n) by (unfold col; now rewrite map_length). rewrite Rplus_0_l, Rmult_1_l. unfold msum.
    f_equal. apply (vec_ext n); [rewrite map2_length, seq_length; lia|now rewrite map_length, seq_length|]. intros l Hl. rewrite nth_map_seq by lia. rewrite !nth_col. unfold entry.
    rewrite (nth_map2_in _ _ _ 0%nat [] 0) by (rewrite ?seq_length; lia). reflexivity.
  - rewrite lsum_const, seq_length. destruct (Nat.eqb i j); field.
Qed.

(** ** two uniform draws have an exchangeable law *)
Lemma ln_upper x : 0 < x -> ln (1 + x) <= x.
Proof. intro P. rewrite <- (ln_exp x) at 2. apply ln_le; [lra|]. left. apply exp_ineq1. lra. Qed.
Lemma ratio_int x : 0 < x -> integral (fun y => x / (x + y)) 0 1 (x * (ln (1 + x) - ln x)).
Proof.
  intros P. apply (IntegralP.integral_eq _ _ _ (x * ln (x + 1) - x * ln (x + 0))); [|rewrite Rplus_0_r, (Rplus_comm x 1); ring].
  apply (is_RInt_derive (fun y => x * ln (x + y))); intros y Hy; rewrite Rmin_left, Rmax_right in Hy by lra.
  - auto_derive; [lra|]. field. lra.
  - apply (ex_derive_continuous (V := R_NormedModule)). auto_derive. lra.
Qed.
Definition rint (x : R) : R := itg (fun y => x / (x + y)) 0 1.
Lemma rdec x : 0 <= x -> exI (fun y => x / (x + y)) 0 1.
Proof.
  intros [P|<-].
  - apply decreasing_ex; [lra|]. intros y y' H1 H2 H3. apply Rmult_le_compat_l; [lra|]. apply Rinv_le_contravar; lra.
  - apply (MonoInt.ex_ext (fun _ => 0)); [lra|intros; unfold Rdiv; ring|apply const_ex].
Qed.
Lemma rint_bounds x : 0 <= x -> 0 <= rint x <= 1.
Proof.
  intros P. unfold rint. assert (B : forall y, 0 < y < 1 -> 0 <= x / (x + y) <= 1).
  { intros y Hy. split; [apply Rmult_le_pos; [lra|left; apply Rinv_0_lt_compat; lra]|]. apply (Rmult_le_reg_r (x + y)); [lra|]. unfold Rdiv. rewrite Rmult_assoc, Rinv_l by lra. lra. }
  split.
  - apply Rle_trans with (itg (fun _ => 0) 0 1); [rewrite itg_const; lra|]. apply itg_le; [lra|apply const_ex|now apply rdec|]. intros. now apply B.
  - apply Rle_trans with (itg (fun _ => 1) 0 1); [|rewrite itg_const; lra]. apply itg_le; [lra|now apply rdec|apply const_ex|]. intros. now apply B.
Qed.
Lemma rint_val x : 0 < x -> rint x = x * (ln (1 + x) - ln x).
Proof. intro P. apply (integral_unique (fun y => x / (x + y)) 0 1); [apply itg_ok, rdec; lra|now apply ratio_int]. Qed.
Lemma rint_ex a b : 0 <= a <= b -> exI rint a b.
Proof.
  intros H. apply increasing_ex; [lra|]. intros x x' H1 H2 H3. apply itg_le; [lra|apply rdec; lra|apply rdec; lra|]. intros y Hy.
  apply (Rmult_le_reg_r ((x + y) * (x' + y))); [apply Rmult_lt_0_compat; lra|]. replace (x / (x + y) * ((x + y) * (x' + y))) with (x * (x' + y)) by (field; lra). replace (x' / (x' + y) * ((x + y) * (x' + y))) with (x' * (x + y)) by (field; lra).
  assert (x * y <= x' * y) by (apply Rmult_le_compat_r; lra). lra.
Qed.
Definition prim (x : R) : R := x * x / 2 * (ln (1 + x) - ln x) + x / 2 - ln (1 + x) / 2.
Lemma rint_tail e : 0 < e <= 1 -> integral rint e 1 (prim 1 - prim e).
Proof.
  intros He. apply (IntegralP.integral_ext (fun x => x * (ln (1 + x) - ln x))); [intros x Hx; rewrite Rmin_left, Rmax_right in Hx by lra; rewrite rint_val; lra|].
  apply (is_RInt_derive prim); intros x Hx; rewrite Rmin_left, Rmax_right in Hx by lra.
  - unfold prim. auto_derive; [lra|]. field. lra.
  - apply (ex_derive_continuous (V := R_NormedModule)). auto_derive. lra.
Qed.
Lemma prim_small e : 0 < e <= 1 -> - e <= prim e <= e.
Proof.
  intros He. unfold prim. pose proof (ln_upper e ltac:(lra)) as U. assert (L0 : 0 <= ln (1 + e)) by (rewrite <- ln_1; apply ln_le; lra).
  assert (D : 0 <= ln (1 + e) - ln e) by (pose proof (ln_le e (1 + e) ltac:(lra) ltac:(lra)); lra).
  assert (V : e * (ln (1 + e) - ln e) <= 1).
  { rewrite <- ln_div by lra. replace ((1 + e) / e) with (1 + / e) by (field; lra). assert (Q : 0 < / e) by (apply Rinv_0_lt_compat; lra). pose proof (ln_upper (/ e) Q) as K. apply (Rmult_le_compat_l e) in K; [|lra]. rewrite Rinv_r in K by lra. exact K. }
  set (l := ln (1 + e) - ln e) in *. assert (0 <= e * l) by (apply Rmult_le_pos; lra).
  assert (A : e * (e * l) <= e * 1) by (apply Rmult_le_compat_l; lra). assert (B : 0 <= e * (e * l)) by (apply Rmult_le_pos; lra). replace (e * e / 2 * l) with (e * (e * l) / 2) by field. lra.
Qed.
Lemma rint_half : integral rint 0 1 (1 / 2).
Proof.
  pose proof (itg_ok _ _ _ (rint_ex 0 1 ltac:(lra))) as K. set (I := itg rint 0 1) in *.
  assert (P1 : prim 1 = 1 / 2) by (unfold prim; rewrite ln_1; lra).
  assert (B : forall e, 0 < e <= 1 -> Rabs (I - 1 / 2) <= 2 * e).
  { intros e He. pose proof (itg_ok _ _ _ (rint_ex 0 e ltac:(lra))) as K0. pose proof (rint_tail e He) as K1.
    assert (E : I = itg rint 0 e + (prim 1 - prim e)) by (apply (integral_unique rint 0 1); [exact K|exact (is_RInt_Chasles (V := R_NormedModule) rint 0 e 1 _ _ K0 K1)]).
    assert (L : 0 <= itg rint 0 e <= e).
    { split.
      - apply Rle_trans with (itg (fun _ => 0) 0 e); [rewrite itg_const; lra|]. apply itg_le; [lra|apply const_ex|apply rint_ex; lra|]. intros x Hx. apply rint_bounds. lra.
      - apply Rle_trans with (itg (fun _ => 1) 0 e); [|rewrite itg_const; lra]. apply itg_le; [lra|apply rint_ex; lra|apply const_ex|]. intros x Hx. apply rint_bounds. lra. }
    pose proof (prim_small e He). apply Rabs_le. lra. }
  destruct (Req_dec I (1 / 2)) as [E|N]; [rewrite <- E; exact K|]. exfalso. assert (Q : 0 < Rabs (I - 1 / 2)) by (apply Rabs_pos_lt; lra).
  pose proof (B (Rmin 1 (Rabs (I - 1 / 2) / 4))) as C. unfold Rmin in C. destruct (Rle_dec 1 (Rabs (I - 1 / 2) / 4)); lra.
Qed.
Lemma pair_first : pair_mean (fun v => nth 0 v 0 / lsum v) (1 / 2) /\ pair_mean (fun v => nth 1 v 0 / lsum v) (1 / 2).
Proof.
  assert (S : forall x y, lsum [x; y] = x + y) by (intros; cbn; ring). split.
  - exists rint. split; [|exact rint_half]. intros x [Hx _]. eapply IntegralP.integral_ext; [|exact (itg_ok _ _ _ (rdec x Hx))]. intros y _. cbv beta. now rewrite S.
  - exists (fun x => 1 - rint x). split.
    + intros x [Hx _]. pose proof (is_RInt_minus _ _ 0 1 _ _ (const_int 1 0 1) (itg_ok _ _ _ (rdec x Hx))) as K. eapply IntegralP.integral_ext; [|eapply IntegralP.integral_eq; [exact K|]].
      * intros y Hy. rewrite Rmin_left, Rmax_right in Hy by lra. cbv beta. rewrite S. cbn [nth]. unfold minus, plus, opp. cbn. field. lra.
      * unfold minus, plus, opp, rint. cbn. ring.
    + pose proof (is_RInt_minus _ _ 0 1 _ _ (const_int 1 0 1) rint_half) as K. eapply IntegralP.integral_eq; [exact K|]. unfold minus, plus, opp. cbn. field.
Qed.
Lemma pair_mean_lin F G a b s t : pair_mean F a -> pair_mean G b -> pair_mean (fun x => s * F x + t * G x) (s * a + t * b).
Proof.
  intros (f & Hf & If) (g & Hg & Ig). assert (L : forall u v p q I J, integral u p q I -> integral v p q J -> integral (fun x => s * u x + t * v x) p q (s * I + t * J)).
  { intros u v p q I J H K. exact (is_RInt_plus _ _ p q _ _ (is_RInt_scal _ p q s _ H) (is_RInt_scal _ p q t _ K)). }
  exists (fun x => s * f x + t * g x). split; [|now apply L]. intros x Hx. apply (L (fun y => F [x; y]) (fun y => G [x; y])); auto.
Qed.
Lemma pair_mean_uniq F a b : pair_mean F a -> pair_mean F b -> a = b.
Proof.
  intros (f & Hf & If) (g & Hg & Ig). apply (integral_unique f 0 1); [exact If|]. eapply IntegralP.integral_ext; [|exact Ig]. intros x Hx. rewrite Rmin_left, Rmax_right in Hx by lra.
  assert (U : unit_draw x) by (split; lra). exact (integral_unique _ _ _ _ _ (Hg x U) (Hf x U)).
Qed.
Lemma pair_mean_ext F G a : (forall x y, unit_draw x -> 0 < y < 1 -> F [x; y] = G [x; y]) -> pair_mean F a -> pair_mean G a.
Proof.
  intros E (f & Hf & If). exists f. split; [|exact If]. intros x Hx. eapply IntegralP.integral_ext; [|exact (Hf x Hx)]. intros y Hy. rewrite Rmin_left, Rmax_right in Hy by lra. now apply E.
Qed.
Lemma pair_exchangeable : exchangeable_law 2 pair_law.
Proof.
  unfold pair_law. split; [|split; [|split; [|split; [|split]]]].
  - assert (K : pair_mean (fun _ => 1) 1) by (exists (fun _ => 1); split; [intros|]; eapply IntegralP.integral_eq; try apply const_int; ring). split; exact K.
  - intros F G a b s t [A B] [C D]. split; [now apply pair_mean_lin|now apply (pair_mean_lin (fun v => F (rev v)) (fun v => G (rev v)))].
  - intros F a b [A _] [B _]. eapply pair_mean_uniq; eauto.
  - intros F G a E [A B]. assert (D : forall x y, unit_draw x -> 0 < y < 1 -> draws_of 2 unit_draw [x; y] /\ [x; y] <> zeros 2 /\ draws_of 2 unit_draw [y; x] /\ [y; x] <> zeros 2).
    { intros x y Hx Hy. assert (Uy : unit_draw y) by (split; lra). assert (Q : forall u v, unit_draw u -> unit_draw v -> draws_of 2 unit_draw [u; v]) by (intros u v Hu Hv; split; [reflexivity|]; intros w [<-|[<-|[]]]; auto).
      split; [auto|]. split; [intro K; injection K; intros; lra|]. split; [auto|]. intro K; injection K; intros; lra. }
    split; [eapply pair_mean_ext; [|exact A]|eapply pair_mean_ext; [|exact B]]; intros x y Hx Hy; destruct (D x y Hx Hy) as (D1 & D2 & D3 & D4); cbn [rev app]; auto.
  - intros F a i j Hi Hj [A B]. destruct i as [|[|i]]; try lia; destruct j as [|[|j]]; try lia.
    + split; [eapply pair_mean_ext; [|exact A]|eapply pair_mean_ext; [|exact B]]; reflexivity.
    + split; [eapply pair_mean_ext; [|exact B]|eapply pair_mean_ext; [|exact A]]; reflexivity.
    + split; [eapply pair_mean_ext; [|exact B]|eapply pair_mean_ext; [|exact A]]; reflexivity.
    + split; [eapply pair_mean_ext; [|exact A]|eapply pair_mean_ext; [|exact B]]; reflexivity.
  - intros i Hi. exists (1 / 2). destruct pair_first as [A B]. destruct i as [|[|i]]; try lia.
    + split; [exact A|]. eapply pair_mean_ext; [|exact B]. intros x y _ _. cbn [rev app nth]. f_equal. cbn. ring.
    + split; [exact B|]. eapply pair_mean_ext; [|exact A]. intros x y _ _. cbn [rev app nth]. f_equal. cbn. ring.
Qed.
(** a segment *)
Lemma weights_case : exchangeable_law 2 pair_law /\ exists p, poly_ok 1 p /\ p_nv p = 2%nat /\ p_vertices p = [[1]; [3]].
Proof.
  split; [exact pair_exchangeable|]. exists {| p_face := {| ff_A := [[1]; [-1]]; ff_b := [3; -1] |}; p_span := {| sf_vertices := Some [[1]; [3]]; sf_rays := None |} |}. split; [|split; reflexivity].
  split; [lia|]. split; [cbn; lia|]. split; [split; [reflexivity|repeat constructor]|]. split; [reflexivity|]. eexists. split; [reflexivity|]. split; [discriminate|]. intros v [<-|[<-|[]]]; reflexivity.
Qed.
