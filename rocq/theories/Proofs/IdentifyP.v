(** Parameter identification. *)
From Verif Require Import Base.Vec Base.VecFacts Model.Util Model.Inertial Model.Constraint Model.Polydd Model.Poly Model.Ellipsoid Model.Box Model.Cylinder
  Model.Realize Model.RigidBody Model.Identify Spec.Basic Spec.Objects Spec.Shapes Spec.ShapeObjects Spec.PolySpec Spec.Realizable Spec.Bodies
  Spec.ExtremalSpec Spec.Geodesic Spec.Identify
  Proofs.Coord Proofs.LinAlg Proofs.BoxP Proofs.InertialP Proofs.MustContain Proofs.CylP Proofs.Spectral Proofs.MatAlg Proofs.GeodesicP Proofs.LogDet Proofs.Hull Proofs.PimP Proofs.VertexP Proofs.RigidP Proofs.MomentP Proofs.ClosestP.

(** * The objective *)
Lemma mat_vec_concat As x : mat_vec (concat As) x = concat (map (fun A => mat_vec A x) As).
Proof. unfold mat_vec. rewrite concat_map. reflexivity. Qed.
Lemma concat_len {A : Type} r (l : list (list A)) : (forall x, In x l -> length x = r) -> length (concat l) = (length l * r)%nat.
Proof.
  induction l as [|x l IH]; intros H; [reflexivity|]. cbn. rewrite app_length, IH by (intros; apply H; now right).
  rewrite (H x) by now left. lia.
Qed.
Lemma vsub_app a b c d : length a = length c -> vsub (a ++ b) (c ++ d) = vsub a c ++ vsub b d.
Proof.
  revert c. induction a as [|x a IH]; intros [|y c] H; try discriminate; [reflexivity|]. cbn. f_equal. apply IH. now injection H.
Qed.
Lemma vsub_concat (l m : list vec) : Forall2 (fun a b => length a = length b) l m ->
  vsub (concat l) (concat m) = concat (map2 vsub l m).
Proof.
  induction 1 as [|a b l m Hab H IH]; [reflexivity|]. cbn [concat]. rewrite vsub_app, IH by auto. reflexivity.
Qed.
Lemma dot_app a b c d : length a = length c -> dot (a ++ b) (c ++ d) = dot a c + dot b d.
Proof.
  revert c. induction a as [|x a IH]; intros [|y c] H; try discriminate; [cbn [app]; rewrite dot_nil_l; ring|].
  cbn [app]. rewrite !dot_cons, IH by (now injection H). ring.
Qed.
Lemma dot_concat (l m : list vec) : Forall2 (fun a b => length a = length b) l m ->
  dot (concat l) (concat m) = lsum (map2 dot l m).
Proof.
  induction 1 as [|a b l m Hab H IH]; [reflexivity|]. cbn [concat]. rewrite dot_app, IH by auto. reflexivity.
Qed.
Lemma Forall2_nth_intro {A B : Type} (P : A -> B -> Prop) da db l m : length l = length m ->
  (forall i, (i < length l)%nat -> P (nth i l da) (nth i m db)) -> Forall2 P l m.
Proof.
  revert m. induction l as [|a l IH]; intros [|b m] HL H; try discriminate; constructor.
  - apply (H 0%nat). cbn. lia.
  - apply IH; [now injection HL|]. intros i Hi. apply (H (S i)). cbn. lia.
Qed.

(** rows of kron (eye k) W *)
Lemma kron_row_dot (b : vec) (a : vec) (es : list vec) : length a = length es -> (forall e, In e es -> length e = length b) ->
  dot (concat (map (fun x => vscale x b) a)) (concat es) = lsum (map2 (fun x e => x * dot b e) a es).
Proof.
  revert es. induction a as [|x a IH]; intros [|e es] HL He; try discriminate; [reflexivity|].
  cbn [map concat map2]. rewrite dot_app by (rewrite vscale_length; symmetry; apply He; now left).
  rewrite IH by (auto; intros; apply He; now right). rewrite dot_vscale_l. reflexivity.
Qed.
Lemma eye_row_sum k i (f : vec -> R) (es : list vec) : (i < k)%nat -> length es = k ->
  lsum (map2 (fun x e => x * f e) (nth i (eye k) []) es) = f (nth i es []).
Proof.
  intros Hi Hl. assert (L : length (nth i (eye k) []) = k) by (eapply is_mat_row; [apply is_mat_eye|auto]).
  rewrite lsum_rsum, map2_length, L, Hl, Nat.min_id.
  rewrite (rsum_ext k _ (fun j => if Nat.eqb j i then f (nth j es []) else 0)).
  - now rewrite rsum_delta.
  - intros j Hj. rewrite (nth_map2 _ _ _ 0 [] 0) by (lia || ring). change (nth j (nth i (eye k) []) 0) with (entry (eye k) i j).
    rewrite entry_eye by auto. rewrite (Nat.eqb_sym i j). destruct (Nat.eqb j i); ring.
Qed.
Lemma nth_map_d {A B : Type} (f : A -> B) l i d d' : (i < length l)%nat -> nth i (map f l) d = f (nth i l d').
Proof. intros H. rewrite (nth_indep _ d (f d')) by (now rewrite map_length). apply map_nth. Qed.
Lemma mat_vec_kron_eye k r W (es : list vec) : length es = k -> (forall e, In e es -> length e = r) ->
  (forall b, In b W -> length b = r) ->
  mat_vec (kron (eye k) W) (concat es) = concat (map (mat_vec W) es).
Proof.
  intros Hk He HW. unfold kron. rewrite mat_vec_concat. f_equal. rewrite map_map.
  apply (nth_ext _ _ [] []); [rewrite !map_length, eye_length; auto|]. intros i Hi. rewrite map_length, eye_length in Hi.
  rewrite (nth_map_d _ (eye k) i [] []) by (rewrite eye_length; auto). rewrite (nth_map_d _ es i [] []) by lia.
  unfold mat_vec. rewrite map_map. apply map_ext_in. intros b Hb.
  rewrite kron_row_dot.
  - exact (eye_row_sum k i (dot b) es Hi Hk).
  - rewrite Hk. eapply is_mat_row; [apply is_mat_eye|auto].
  - intros e He'. rewrite (HW b Hb). auto.
Qed.
Lemma is_mat_kron_eye k r W : is_mat r r W -> is_mat (k * r) (k * r) (kron (eye k) W).
Proof.
  intros [L H]. rewrite Forall_forall in H. split; [|apply Forall_forall].
  - unfold kron. rewrite (concat_len r); [rewrite map_length, eye_length; auto|].
    intros x Hx. apply in_map_iff in Hx. destruct Hx as [a [<- _]]. now rewrite map_length.
  - unfold kron. intros row Hrow. apply in_concat in Hrow. destruct Hrow as [blk [Hb Hr]].
    apply in_map_iff in Hb. destruct Hb as [a [<- Ha]]. apply in_map_iff in Hr. destruct Hr as [b [<- Hb]].
    rewrite (concat_len r).
    + rewrite map_length. f_equal. destruct (is_mat_eye k) as [_ E]. rewrite Forall_forall in E. auto.
    + intros x Hx. apply in_map_iff in Hx. destruct Hx as [y [<- _]]. rewrite vscale_length. auto.
Qed.

Definition residuals (As : list mat) (bs : list vec) (theta : vec) : list vec :=
  map2 (fun A b => vsub (mat_vec A theta) b) As bs.
Lemma map2_map_l {A B C D : Type} (f : B -> C -> D) (g : A -> B) l m : map2 f (map g l) m = map2 (fun a => f (g a)) l m.
Proof. revert m. induction l as [|a l IH]; intros [|b m]; cbn; auto. now rewrite IH. Qed.
Lemma map_map2 {A B C D : Type} (f : C -> D) (g : A -> B -> C) l m : map f (map2 g l m) = map2 (fun a b => f (g a b)) l m.
Proof. revert m. induction l as [|a l IH]; intros [|b m]; cbn; auto. now rewrite IH. Qed.
Lemma map2_diag {A B : Type} (f : A -> A -> B) l : map2 f l l = map (fun a => f a a) l.
Proof. induction l; cbn; auto. now f_equal. Qed.
Lemma data_Forall2 r c As bs : data_ok r c As bs -> Forall2 (fun A b => is_mat r c A /\ length b = r) As bs.
Proof.
  intros [_ [_ [_ [HL [HA Hb]]]]]. apply (Forall2_nth_intro _ [] []); auto. intros i Hi. split; [apply HA|apply Hb]; apply nth_In; lia.
Qed.
Lemma ncols_concat r c As : (0 < r)%nat -> As <> [] -> (forall A, In A As -> is_mat r c A) -> ncols (concat As) = c.
Proof.
  intros Hr HN H. destruct As as [|A As]; [now destruct HN|]. destruct (H A (or_introl eq_refl)) as [L F].
  destruct A as [|row A]; [cbn in L; lia|]. inversion F; subst. reflexivity.
Qed.
Lemma residuals_len r c As bs theta : data_ok r c As bs -> forall e, In e (residuals As bs theta) -> length e = r.
Proof.
  intros HD e He. pose proof (data_Forall2 _ _ _ _ HD) as F. unfold residuals in He. clear HD.
  induction F as [|A b As bs [HA Hb] F IH]; [destruct He|]. destruct He as [<-|He]; auto.
  destruct HA as [HA _]. rewrite vsub_length; rewrite mat_vec_length; lia.
Qed.
Lemma stacked_residual r c As bs theta : data_ok r c As bs ->
  vsub (mat_vec (concat As) theta) (concat bs) = concat (residuals As bs theta).
Proof.
  intros HD. rewrite mat_vec_concat, vsub_concat.
  - now rewrite map2_map_l.
  - pose proof (data_Forall2 _ _ _ _ HD) as F. clear HD. induction F as [|A b As bs [HA Hb] F IH]; constructor; auto.
    rewrite mat_vec_length. destruct HA as [-> _]. auto.
Qed.
Lemma lso_unweighted r c As bs thetas : data_ok r c As bs -> length (concat thetas) = c ->
  least_squares_objective thetas As bs None = Ok (sum_squares As bs (concat thetas)).
Proof.
  intros HD Hc. pose proof HD as [Hr [_ [HN [HL [HA Hb]]]]]. unfold least_squares_objective, bind.
  destruct As as [|A0 As0] eqn:EA; [now destruct HN|]. rewrite <- EA in *. destruct bs as [|b0 bs0] eqn:Eb; [subst; discriminate|]. rewrite <- Eb in *.
  rewrite Hc, (ncols_concat r c) by auto. rewrite Nat.eqb_refl.
  rewrite (concat_len r As) by (intros x Hx; apply HA; auto). rewrite (concat_len r bs) by auto. rewrite HL, Nat.eqb_refl. cbn [bind].
  f_equal. rewrite (stacked_residual r c) by auto. rewrite dot_concat.
  - rewrite map2_diag. unfold residuals. rewrite map_map2. unfold sum_squares. f_equal. apply map2_ext. intros. rewrite <- norm_sqr. ring.
  - clear. induction (residuals As bs (concat thetas)); constructor; auto.
Qed.
Lemma lso_weighted r c As bs thetas W : data_ok r c As bs -> length (concat thetas) = c -> is_mat r r W ->
  least_squares_objective thetas As bs (Some W) = Ok (weighted_squares W As bs (concat thetas)).
Proof.
  intros HD Hc HW. pose proof HD as [Hr [_ [HN [HL [HA Hb]]]]]. unfold least_squares_objective, bind.
  destruct As as [|A0 As0] eqn:EA; [now destruct HN|]. rewrite <- EA in *. destruct bs as [|b0 bs0] eqn:Eb; [subst; discriminate|]. rewrite <- Eb in *.
  rewrite Hc, (ncols_concat r c) by auto. rewrite Nat.eqb_refl.
  rewrite (concat_len r As) by (intros x Hx; apply HA; auto). rewrite (concat_len r bs) by auto. rewrite HL, Nat.eqb_refl. cbn [bind].
  rewrite (stacked_residual r c) by auto.
  assert (LR : length (residuals As bs (concat thetas)) = length bs) by (unfold residuals; rewrite map2_length; lia).
  rewrite (concat_len r (residuals As bs (concat thetas))) by (eapply residuals_len; eauto). rewrite LR.
  rewrite (proj2 (is_matb_iff _ _ _)) by (apply is_mat_kron_eye; auto). f_equal.
  unfold quad at 1. rewrite (mat_vec_kron_eye _ r); auto.
  - rewrite dot_concat.
    + assert (E : forall l, map2 dot l (map (mat_vec W) l) = map (quad W) l) by (induction l; cbn; auto; now f_equal).
      rewrite E. unfold residuals. rewrite map_map2. reflexivity.
    + assert (F : forall e, In e (residuals As bs (concat thetas)) -> length e = r) by (eapply residuals_len; eauto).
      clear LR. induction (residuals As bs (concat thetas)); constructor.
      * rewrite F by now left. rewrite mat_vec_length. destruct HW; auto.
      * apply IHl. intros. apply F. now right.
  - eapply residuals_len; eauto.
  - destruct HW as [_ F]. rewrite Forall_forall in F. auto.
Qed.

(** * When the residuals vanish *)
Lemma lsum_zero_iff l : (forall x, In x l -> 0 <= x) -> 0 <= lsum l /\ (lsum l = 0 -> forall x, In x l -> x = 0).
Proof.
  induction l as [|a l IH]; intros H; [cbn; split; [lra|intros _ x []]|].
  destruct IH as [I1 I2]; [intros; apply H; now right|]. change (lsum (a :: l)) with (a + lsum l).
  pose proof (H a (or_introl eq_refl)). split; [lra|]. intros E x [<-|Hx]; [lra|]. apply I2; auto. lra.
Qed.
Lemma in_map2 {A B C : Type} (f : A -> B -> C) l m x : In x (map2 f l m) -> exists a b, In a l /\ In b m /\ x = f a b.
Proof.
  revert m. induction l as [|a l IH]; intros [|b m] H; try (destruct H; fail). destruct H as [<-|H].
  - exists a, b. repeat split; now left.
  - destruct (IH m H) as (a' & b' & H1 & H2 & H3). exists a', b'. repeat split; auto; now right.
Qed.
Lemma squares_explain (f : vec -> R) r c As bs theta : data_ok r c As bs -> (forall e, length e = r -> 0 <= f e) -> (forall e, length e = r -> f e = 0 -> e = zeros r) ->
  f (zeros r) = 0 ->
  let s := lsum (map2 (fun A b => f (vsub (mat_vec A theta) b)) As bs) in 0 <= s /\ (s = 0 <-> explains As bs theta).
Proof.
  intros HD F1 F2 F0 s. pose proof (data_Forall2 _ _ _ _ HD) as F. subst s. clear HD. unfold explains.
  induction F as [|A b As bs [[HA _] Hb] F [IH1 IH2]]; [cbn; split; [lra|]; split; auto|].
  cbn [map2]. match goal with |- context [lsum (?a :: ?l)] => change (lsum (a :: l)) with (a + lsum l) end.
  assert (L : length (vsub (mat_vec A theta) b) = r) by (rewrite vsub_length; rewrite mat_vec_length; lia).
  pose proof (F1 _ L). split; [lra|]. split.
  - intros E. constructor; [|apply IH2; lra]. assert (Z : vsub (mat_vec A theta) b = zeros r) by (apply F2; auto; lra).
    apply (vec_ext r); [rewrite mat_vec_length; lia|auto|]. intros i Hi. pose proof (f_equal (fun v => nth i v 0) Z) as E'. cbn in E'.
    rewrite nth_vsub, nth_zeros in E' by (rewrite mat_vec_length; lia). lra.
  - intros E. inversion E; subst. apply IH2 in H5. rewrite H5.
    replace (vsub (mat_vec A theta) (mat_vec A theta)) with (zeros (length A)); [rewrite F0; ring|].
    apply (vec_ext (length A)); [now rewrite zeros_length| |].
    + rewrite vsub_length; now rewrite mat_vec_length.
    + intros i Hi. rewrite nth_vsub, nth_zeros by auto. ring.
Qed.
Lemma sum_squares_zero r c As bs theta : data_ok r c As bs ->
  0 <= sum_squares As bs theta /\ (sum_squares As bs theta = 0 <-> explains As bs theta).
Proof.
  intros HD. apply (squares_explain (fun e => norm e ^ 2) r c); auto.
  - intros. apply pow2_ge_0.
  - intros e He H. replace (norm e ^ 2) with (dot e e) in H by (rewrite <- norm_sqr; ring). apply dot_self_zero in H. now rewrite H, He.
  - replace (norm (zeros r) ^ 2) with (dot (zeros r) (zeros r)) by (rewrite <- norm_sqr; ring). apply dot_zeros_l.
Qed.
Lemma quad_zeros n W : quad W (zeros n) = 0.
Proof. unfold quad. apply dot_zeros_l. Qed.
Lemma weighted_squares_zero r c As bs W theta : data_ok r c As bs -> pos_def r W ->
  0 <= weighted_squares W As bs theta /\ (weighted_squares W As bs theta = 0 <-> explains As bs theta).
Proof.
  intros HD HW. apply (squares_explain (quad W) r c); auto.
  - intros e He. destruct (list_eq_dec Req_EM_T e (zeros r)) as [->|N]; [rewrite quad_zeros; lra|]. specialize (HW e He N). lra.
  - intros e He H. destruct (list_eq_dec Req_EM_T e (zeros r)) as [->|N]; auto. specialize (HW e He N). lra.
  - apply quad_zeros.
Qed.
Lemma inverse_pos_def r C W : SPD r C -> inverse r C W -> pos_def r W.
Proof.
  intros (HC & _ & HP) (_ & HW & E1 & _) x Lx Nx. 
  assert (E : mat_vec C (mat_vec W x) = x).
  { rewrite <- (mat_vec_mat_mul r r r C W x), E1 by auto. now apply mat_vec_eye. }
  assert (LW : length (mat_vec W x) = r) by (rewrite mat_vec_length; apply HW).
  unfold quad. rewrite <- E at 1. rewrite dot_comm. apply HP; auto. intros Z. apply Nx. rewrite <- E, Z.
  apply (vec_ext r); [rewrite mat_vec_length; apply HC|apply zeros_length|]. intros i Hi. now rewrite mat_vec_zeros, !nth_zeros.
Qed.
Lemma explains_unique r c As bs x y : data_ok r c As bs -> determining c As -> length x = c -> length y = c ->
  explains As bs x -> explains As bs y -> x = y.
Proof.
  intros HD HA Lx Ly Ex Ey. assert (Z : forall j, nth j (vsub x y) 0 = 0).
  { apply HA; [rewrite vsub_length; lia|]. intros A HI i. pose proof (data_Forall2 _ _ _ _ HD) as F.
    clear HD HA. unfold explains in *. induction F as [|A' b As bs [HA' Hb] F IH]; [destruct HI|].
    inversion_clear Ex as [|? ? ? ? X1 X2]; inversion_clear Ey as [|? ? ? ? Y1 Y2]. destruct HI as [->|HI]; auto.
    destruct (Nat.lt_ge_cases i (length A)) as [Hi|Hi].
    - rewrite mat_vec_vsub by lia. rewrite nth_vsub by (rewrite !mat_vec_length; auto).
      rewrite X1, Y1. ring.
    - rewrite nth_overflow; [auto|]. rewrite mat_vec_length. auto. }
  apply (vec_ext c); auto. intros j Hj. specialize (Z j). rewrite nth_vsub in Z by lia. lra.
Qed.

(** * The regularizer *)
Definition reg_term (log_det : mat -> R) (J J0' : mat) : R := - log_det J + trace (mat_mul J0' J).
Lemma reg_value log_det inv Js J0s J0s' : Js <> [] -> Forall2 (fun J0 J0' => inv J0 = Ok J0') J0s J0s' -> length Js = length J0s ->
  (forall J, In J Js -> is_mat 4 4 J) -> (forall J, In J J0s -> is_mat 4 4 J) ->
  entropic_regularizer log_det inv Js J0s = Ok (lsum (map2 (reg_term log_det) Js J0s')).
Proof.
  intros HN HI HL HJ HJ0. unfold entropic_regularizer. rewrite HL, Nat.eqb_refl. unfold assert_. cbn [bind].
  destruct Js as [|J Js]; [now destruct HN|]. destruct J0s as [|J0 J0s]; [discriminate|]. cbn [bind].
  rewrite (proj2 (is_matb_iff 4 4 J)) by (apply HJ; now left). cbn [bind].
  rewrite (proj2 (is_matb_iff 4 4 J0)) by (apply HJ0; now left). cbn [bind].
  clear HN HJ HJ0.
  assert (E : forall l l0 l0', Forall2 (fun J0 J0' => inv J0 = Ok J0') l0 l0' -> length l = length l0 ->
    mapM (fun JJ0 => let* J0'0 := inv (snd JJ0) in Ok (- log_det (fst JJ0) + trace (mat_mul J0'0 (fst JJ0)))) (combine l l0) = Ok (map2 (reg_term log_det) l l0')).
  { clear. intros l l0 l0' F. revert l. induction F as [|a b l0 l0' Hab F IH]; intros [|x l] HL; try discriminate; [reflexivity|].
    cbn [combine mapM fst snd map2]. rewrite Hab. cbn [bind]. rewrite IH by (now injection HL). reflexivity. }
  rewrite (E _ _ _ HI HL). reflexivity.
Qed.
Lemma nominal_list inv J0s : (forall J, In J J0s -> nominal_ok inv J) ->
  exists J0s', Forall2 (fun J0 J0' => inv J0 = Ok J0') J0s J0s' /\ Forall2 (fun J0 J0' => SPD 4 J0 /\ inverse 4 J0 J0') J0s J0s'.
Proof.
  induction J0s as [|J J0s IH]; intros H; [exists []; split; constructor|].
  destruct IH as (l & H1 & H2); [intros; apply H; now right|]. destruct (H J (or_introl eq_refl)) as (HS & J' & HI & HV).
  exists (J' :: l). split; constructor; auto.
Qed.
Lemma reg_terms_min log_det Js J0s J0s' : log_det_spec 4 log_det -> length Js = length J0s ->
  Forall2 (fun J0 J0' => SPD 4 J0 /\ inverse 4 J0 J0') J0s J0s' -> (forall J, In J Js -> SPD 4 J) ->
  lsum (map2 (reg_term log_det) J0s J0s') <= lsum (map2 (reg_term log_det) Js J0s') /\
  (lsum (map2 (reg_term log_det) Js J0s') = lsum (map2 (reg_term log_det) J0s J0s') -> Js = J0s).
Proof.
  intros HD HL HF. revert Js HL. induction HF as [|J0 J0' J0s J0s' [HS HI] HF IH]; intros [|J Js] HL HJ; try discriminate; [cbn; split; [lra|auto]|].
  destruct (IH Js) as [I1 I2]; [now injection HL|intros; apply HJ; now right|]. cbn [map2].
  repeat match goal with |- context [lsum (?a :: ?l)] => change (lsum (a :: l)) with (a + lsum l) end.
  destruct (log_det_support 4 ltac:(lia) log_det HD J J0 J0') as [B1 B2]; auto; [apply HJ; now left|].
  pose proof (trace_inv_self 4 J0 J0' HI) as T. rewrite <- T in B1, B2. unfold reg_term in *. split; [lra|]. intros E. f_equal; [apply B2; lra|apply I2; lra].
Qed.
Lemma regularizer_min log_det inv Js J0s : log_det_spec 4 log_det -> Js <> [] -> length Js = length J0s ->
  (forall J, In J J0s -> nominal_ok inv J) -> (forall J, In J Js -> SPD 4 J) ->
  exists v v0, entropic_regularizer log_det inv Js J0s = Ok v /\ entropic_regularizer log_det inv J0s J0s = Ok v0 /\
    v0 <= v /\ (v = v0 -> Js = J0s).
Proof.
  intros HD HN HL H0 HJ. destruct (nominal_list inv J0s H0) as (J0s' & F1 & F2).
  destruct (reg_terms_min log_det Js J0s J0s' HD HL F2 HJ) as [M1 M2].
  exists (lsum (map2 (reg_term log_det) Js J0s')), (lsum (map2 (reg_term log_det) J0s J0s')).
  split; [apply reg_value; auto; [intros J Hj; apply HJ; auto|intros J Hj; apply H0; auto]|].
  split; [apply reg_value; auto; [|intros J Hj; apply H0; auto|intros J Hj; apply H0; auto]|auto].
  destruct J0s; [|discriminate]. destruct Js; [auto|discriminate].
Qed.
Lemma regularizer_convex log_det inv Js Js' J0s t : log_det_spec 4 log_det -> Js <> [] -> length Js = length J0s -> length Js' = length J0s ->
  (forall J, In J J0s -> nominal_ok inv J) -> (forall J, In J Js -> SPD 4 J) -> (forall J, In J Js' -> SPD 4 J) -> 0 <= t <= 1 ->
  exists v v' vt, entropic_regularizer log_det inv Js J0s = Ok v /\ entropic_regularizer log_det inv Js' J0s = Ok v' /\
    entropic_regularizer log_det inv (map2 (fun J J' => madd (mscale (1 - t) J) (mscale t J')) Js Js') J0s = Ok vt /\
    vt <= (1 - t) * v + t * v'.
Proof.
  intros HD HN HL HL' H0 HJ HJ' Ht. destruct (nominal_list inv J0s H0) as (J0s' & F1 & F2).
  assert (H0m : forall J, In J J0s -> is_mat 4 4 J) by (intros J Hj; apply H0; auto).
  assert (N' : Js' <> []) by (destruct Js'; [|discriminate]; destruct J0s; [|discriminate]; destruct Js; [auto|discriminate]).
  eexists _, _, _. split; [|split; [|split]].
  - apply reg_value; [auto|exact F1|auto|intros J Hj; apply HJ; auto|auto].
  - apply reg_value; [auto|exact F1|auto|intros J Hj; apply HJ'; auto|auto].
  - apply reg_value; [|exact F1| | |auto].
    + destruct Js as [|], Js' as [|]; [now destruct HN|now destruct HN|now destruct N'|discriminate].
    + rewrite map2_length. lia.
    + intros J Hj. apply in_map2 in Hj as (A & B & HA & HB & ->). apply is_mat_madd; apply is_mat_mscale; [apply HJ|apply HJ']; auto.
  - clear F1 H0 H0m HN N'. revert Js Js' HL HL' HJ HJ'. induction F2 as [|J0 J0' J0s J0s' [HS HI] HF IH]; intros [|J Js] [|J' Js'] HL HL' HJ HJ'; try discriminate; [cbn; lra|].
    specialize (IH Js Js' ltac:(now injection HL) ltac:(now injection HL') (fun x Hx => HJ x (or_intror Hx)) (fun x Hx => HJ' x (or_intror Hx))).
    cbn [map2]. repeat match goal with |- context [lsum (?a :: ?l)] => change (lsum (a :: l)) with (a + lsum l) end.
    assert (SJ : SPD 4 J) by (apply HJ; now left). assert (SJ' : SPD 4 J') by (apply HJ'; now left).
    pose proof (log_det_concave 4 ltac:(lia) log_det HD t J J' Ht SJ SJ').
    pose proof (trace_mix 4 ltac:(lia) t J0' J J' (proj1 (proj2 HI)) (proj1 SJ) (proj1 SJ')). unfold reg_term in *. lra.
Qed.

(** * The constraints *)
Lemma mapM_Forall2 {A B : Type} (f : A -> res B) l r : mapM f l = Ok r <-> Forall2 (fun a b => f a = Ok b) l r.
Proof.
  split.
  - revert r. induction l as [|a l IH]; intros r H; cbn in H; [injection H as <-; constructor|].
    destruct (f a) as [b| |] eqn:E; cbn in H; try discriminate. destruct (mapM f l) as [bs| |] eqn:E'; cbn in H; try discriminate.
    injection H as <-. constructor; auto.
  - induction 1 as [|a b l r H F IH]; cbn; [reflexivity|]. rewrite H. cbn. rewrite IH. reflexivity.
Qed.
Lemma pmev_ok t : length t = 10%nat -> exists J, pim_must_equal_vec t = Ok J /\ is_mat 4 4 J /\ transpose J = J /\ symmetric 4 J.
Proof.
  intros Ht. destruct_vecs. eexists. split; [reflexivity|]. split; [repeat (constructor; try reflexivity)|]. split; [cbn; list_eq; ring|].
  intros i j Hi Hj. destruct i as [|[|[|[|]]]]; try lia; destruct j as [|[|[|[|]]]]; try lia; cbn; ring.
Qed.
Lemma from_vec_ok_inv t p : ip_from_vec t = Ok p -> length t = 10%nat /\ 0 < nth 0 t 0 /\ ip_ok p /\ symmetric 3 (ip_H p) /\ 0 < ip_mass p /\ ip_vec p = Ok t /\
  pim_must_equal_vec t = Ok (ip_J p).
Proof.
  intros H. assert (L : length t = 10%nat).
  { unfold ip_from_vec, assert_, is_vecb in H. destruct (Nat.eqb_spec (length t) 10); auto. discriminate. }
  assert (M : 0 < nth 0 t 0).
  { unfold ip_from_vec, is_vecb in H. rewrite L in H. cbn [Nat.eqb assert_ bind] in H. unfold ip_init, assert_ in H.
    destruct (Rleb 0 (nth 0 t 0)) eqn:E1; cbn [bind] in H; [|discriminate]. apply Rleb_iff in E1.
    destruct (Reqb (nth 0 t 0) 0) eqn:E2.
    - cbn [bind] in H. destruct (I2H _); discriminate.
    - unfold Reqb in E2. destruct (Req_EM_T (nth 0 t 0) 0); [discriminate|lra]. }
  destruct (from_vec_vec t L M) as (p' & E & O & Em & S & V). rewrite H in E. injection E as <-.
  split; [auto|]. split; [auto|]. split; [auto|]. split; [auto|]. split; [now rewrite Em|]. split; [auto|]. now apply pim_must_equal_vec_J.
Qed.

Lemma ip_J_h p : ip_ok p -> entry (ip_J p) 3 3 = ip_mass p /\ firstn 3 (col 3 (ip_J p)) = vscale (ip_mass p) (ip_com p) /\ is_mat 4 4 (ip_J p).
Proof.
  destruct p as [m c H]. intros [Hc HH]. cbn [ip_com ip_H ip_mass] in *. unfold ip_J, ip_h. cbn [ip_com ip_H ip_mass]. destruct_vecs.
  split; [reflexivity|]. split; [reflexivity|]. repeat (constructor; try reflexivity).
Qed.
Lemma must_contain_scaled s K c m : shape_is s K -> length c = 3%nat -> 0 < m ->
  (shp_must_contain_scaled s (vscale m c) m <-> K c).
Proof.
  intros HS Lc Hm. assert (Lp : length (vscale m c) = 3%nat) by now rewrite vscale_length.
  assert (E : vscale (/ m) (vscale m c) = c).
  { rewrite vscale_vscale. replace (/ m * m) with 1 by (field; lra). apply vscale_1. }
  destruct HS as [h ce r b Hb HQ|q Hq|h r ce e He Lh HQ|L R r ce x Hx HQ|L R r ce x k Hx Hk HQ]; cbn [shp_must_contain_scaled].
  - rewrite (box_must_contain_iff _ _ _ _ _ _ Hb HQ Lp) by lra. rewrite E. intuition lra.
  - rewrite poly_must_contain_iff; [now rewrite E| |lra]. destruct Hq as ((_ & _ & _ & Eq & _) & _). congruence.
  - assert (NE : h <> []) by (intros ->; discriminate). pose proof (ell_must_contain_iff _ _ _ _ (vscale m c) m He NE) as J. rewrite Lh in J.
    rewrite J by auto. rewrite E. intuition lra.
  - rewrite (cyl_must_contain_iff _ _ _ _ _ _ _ Hx HQ Lp). rewrite E. intuition lra.
  - destruct (caps_must_contain_iff _ _ _ _ _ _ (vscale m c) m Hx Hk HQ Lp) as (a & b & E' & J). rewrite J, E.
    apply cyl_init_inv in Hx as (_ & _ & MQ & Hc & ->). rewrite endpoints_eq in E' by auto. injection E' as <- <-. unfold end1, end2. intuition lra.
Qed.
Lemma com_constraint_iff s K p : shape_is s K -> ip_ok p -> 0 < ip_mass p -> (com_constraint s (ip_J p) <-> K (ip_com p)).
Proof.
  intros HS HO Hm. destruct (ip_J_h p HO) as (E1 & E2 & _). unfold com_constraint. rewrite E1, E2. apply must_contain_scaled; auto. apply HO.
Qed.

Definition body_ok (must_realize : bool) (b : Body) : Prop :=
  must_realize = true -> exists Ks, Forall2 shape_is (bd_shapes b) Ks /\ (forall s, In s (bd_shapes b) -> shape_proper s).
Lemma mapM_pmev thetas : Forall (fun t => length t = 10%nat) thetas ->
  exists Js, mapM pim_must_equal_vec thetas = Ok Js /\ length Js = length thetas /\ (forall J, In J Js -> is_mat 4 4 J /\ transpose J = J /\ symmetric 4 J).
Proof.
  induction 1 as [|t l Ht F IH]; [exists []; cbn; split; [auto|split; [auto|intros J []]]|].
  destruct IH as (Js & E & L & H). destruct (pmev_ok t Ht) as (J & EJ & HJ). exists (J :: Js). cbn. rewrite EJ. cbn. rewrite E. cbn.
  split; [auto|]. split; [now rewrite L|]. intros X [<-|HX]; auto.
Qed.
Definition psd_prop (eps : R) (J : mat) : Prop := J = transpose J /\ cp_psd 4 (msub J (mscale eps (eye 4))).
Lemma mapM_psd eps Js : 0 <= eps -> (forall J, In J Js -> is_mat 4 4 J) -> mapM (fun J => pim_psd J eps) Js = Ok (map (psd_prop eps) Js).
Proof.
  intros He H. apply mapM_ok. intros J HJ. unfold pim_psd. rewrite (proj2 (is_matb_iff 4 4 J)) by auto. rewrite (proj2 (Rleb_iff 0 eps)) by auto. reflexivity.
Qed.
Lemma mapM_bodies ut bodies Js : length Js = length bodies -> Forall (body_ok true) bodies -> (forall J, In J Js -> is_mat 4 4 J) ->
  exists c, mapM (fun bJ => rb_moment_sdp_constraints ut (fst bJ) (PVmat (snd bJ)) 0 2) (combine bodies Js) = Ok c.
Proof.
  intros HL HB HJ. apply mapM_total. intros [b J] HI. cbn. rewrite Forall_forall in HB.
  destruct (HB b (in_combine_l _ _ _ _ HI) eq_refl) as (Ks & H1 & H2).
  destruct (body_sdp ut b Ks (PVmat J) J 0 2 H1 H2 eq_refl (HJ J (in_combine_r _ _ _ _ HI)) ltac:(lra) ltac:(lia)) as (Q & E & _). eauto.
Qed.
Lemma id_constraints_build ut P bodies mr coms thetas : 0 <= id_eps P -> length thetas = length bodies -> Forall (fun t => length t = 10%nat) thetas ->
  Forall (body_ok mr) bodies -> exists Js c2, mapM pim_must_equal_vec thetas = Ok Js /\ length Js = length bodies /\
    (forall J, In J Js -> is_mat 4 4 J /\ transpose J = J /\ symmetric 4 J) /\
    (if mr then mapM (fun bJ => rb_moment_sdp_constraints ut (fst bJ) (PVmat (snd bJ)) 0 2) (combine bodies Js) else Ok []) = Ok c2 /\
    id_constraints ut P bodies mr coms thetas = Ok (Forall (fun P => P) (map (psd_prop (id_eps P)) Js ++ c2 ++
      match coms with Some l => map (fun sJ => com_constraint (fst sJ) (snd sJ)) (combine l Js) | None => [] end)).
Proof.
  intros He HL Ht HB. destruct (mapM_pmev thetas Ht) as (Js & E & LJ & HJ).
  assert (exists c2, (if mr then mapM (fun bJ => rb_moment_sdp_constraints ut (fst bJ) (PVmat (snd bJ)) 0 2) (combine bodies Js) else Ok []) = Ok c2) as (c2 & E2).
  { destruct mr; [|eauto]. apply mapM_bodies; auto; [lia|intros; now apply HJ]. }
  exists Js, c2. split; [auto|]. split; [lia|]. split; [auto|]. split; [auto|]. unfold id_constraints. rewrite E. cbn [bind].
  rewrite mapM_psd by (auto; intros; now apply HJ). cbn [bind]. rewrite E2. reflexivity.
Qed.

Lemma Forall2_len {A B : Type} (Q : A -> B -> Prop) l m : Forall2 Q l m -> length l = length m.
Proof. induction 1; cbn; auto. Qed.
Lemma Forall2_in_l {A B : Type} (Q : A -> B -> Prop) l m a : Forall2 Q l m -> In a l -> exists b, In b m /\ Q a b.
Proof. induction 1 as [|x y l m H F IH]; intros []; subst; [exists y; split; [now left|auto]|]. destruct IH as (b & ? & ?); auto. exists b. split; [now right|auto]. Qed.
Lemma Forall2_in_r {A B : Type} (Q : A -> B -> Prop) l m b : Forall2 Q l m -> In b m -> exists a, In a l /\ Q a b.
Proof. induction 1 as [|x y l m H F IH]; intros []; subst; [exists x; split; [now left|auto]|]. destruct IH as (a & ? & ?); auto. exists a. split; [now right|auto]. Qed.
Lemma msub_zero_eye J : is_mat 4 4 J -> msub J (mscale 0 (eye 4)) = J.
Proof. intros H. destruct_vecs. cbn. list_eq; ring. Qed.
Lemma stack_vecs eps mr bodies ps : Forall2 (allowed eps mr) bodies ps ->
  exists vs, Forall2 (fun p t => ip_vec p = Ok t) ps vs /\ Forall (fun t => length t = 10%nat) vs /\ length vs = length bodies /\
    mapM ip_from_vec vs = Ok ps /\ mapM pim_must_equal_vec vs = Ok (map ip_J ps).
Proof.
  induction 1 as [|b p bodies ps (HO & HS & Hm & HP & HR) F IH]; [exists []; cbn; auto|].
  destruct IH as (vs & H1 & H2 & H3 & H4 & H5). destruct (vec_from_vec p HO Hm HS) as (v & E & L & Fv).
  exists (v :: vs). split; [constructor; auto|]. split; [constructor; auto|]. cbn. split; [now rewrite H3|].
  rewrite Fv, (pim_must_equal_vec_J p v HO HS E). cbn. rewrite H4, H5. split; reflexivity.
Qed.
Lemma allowed_body_ok eps mr bodies ps : Forall2 (allowed eps mr) bodies ps -> Forall (body_ok mr) bodies.
Proof. induction 1 as [|b p bodies ps H F IH]; constructor; auto. intros E. destruct H as (_ & _ & _ & _ & HR). destruct (HR E) as (Ks & H1 & H2 & _). eauto. Qed.
Lemma Forall_map_id {A : Type} (Q : A -> Prop) l : Forall (fun P : Prop => P) (map Q l) <-> forall x, In x l -> Q x.
Proof. rewrite Forall_map, Forall_forall. reflexivity. Qed.
Lemma feasible_of_allowed ut P bodies mr coms ps vs : 0 <= id_eps P -> Forall2 (allowed (id_eps P) mr) bodies ps -> com_allowed coms ps ->
  (0 < id_gamma P -> forall p, In p ps -> SPD 4 (ip_J p)) -> Forall2 (fun p t => ip_vec p = Ok t) ps vs ->
  id_feasible ut P bodies mr coms vs.
Proof.
  intros He HA HC HD HV. destruct (stack_vecs _ _ _ _ HA) as (vs' & H1 & H2 & H3 & H4 & H5).
  assert (vs' = vs) as ->.
  { clear -H1 HV. revert vs' H1. induction HV; intros vs' H1; inversion H1; subst; auto. f_equal; [congruence|auto]. }
  split; [auto|]. split; [auto|]. split.
  { intros Hg t J Ht EJ z Lz Nz. apply mapM_Forall2 in H5. destruct (Forall2_in_l _ _ _ _ H5 Ht) as (J' & HJ' & EJ').
    rewrite EJ in EJ'. injection EJ' as <-. apply in_map_iff in HJ' as (p & <- & Hp). now apply (HD Hg p Hp). }
  destruct (id_constraints_build ut P bodies mr coms vs He H3 H2 (allowed_body_ok _ _ _ _ HA)) as (Js & c2 & E1 & E2 & E3 & E4 & E5).
  rewrite E1 in H5. injection H5 as ->. eexists. split; [exact E5|]. apply Forall_app. split; [|apply Forall_app; split].
  - apply Forall_map_id. intros J HJ. split; [symmetry; now apply E3|]. apply in_map_iff in HJ as (p & <- & Hp).
    destruct (Forall2_in_r _ _ _ _ HA Hp) as (b & _ & (_ & _ & _ & (_ & _ & HP) & _)). exact HP.
  - destruct mr; [|injection E4 as <-; constructor]. apply mapM_Forall2 in E4. clear -E4 HA.
    revert c2 E4. induction HA as [|b p bodies ps H F IH]; intros c2 E4; inversion E4 as [|? c ? cs Hc Hcs]; subst; constructor; [|apply IH; auto].
    cbn in Hc. destruct H as (HO & HS & Hm & HP & HR). destruct (HR eq_refl) as (Ks & K1 & K2 & K3).
    destruct (body_sdp ut b Ks (PVmat (ip_J p)) (ip_J p) 0 2 K1 K2 eq_refl (proj2 (proj2 (ip_J_h p HO))) ltac:(lra) ltac:(lia)) as (Q & EQ & HQ).
    rewrite EQ in Hc. injection Hc as <-. apply HQ; auto. rewrite msub_zero_eye by apply (ip_J_h p HO). now apply (realizable_psd (union_of Ks)).
  - destruct coms as [l|]; [|constructor]. cbn in HC. rewrite Forall_map. clear -HC HA.
    revert bodies HA. induction HC as [|s p l ps (K & HK & Kp) F IH]; intros bodies HA; [constructor|]. inversion HA as [|b ? bs ? (HO & HS & Hm & _) HA']; subst.
    cbn. constructor; [|eapply IH; eauto]. cbn. apply (com_constraint_iff s K p); auto.
Qed.

(** * The cost *)
Definition weight_ok (r : nat) (W0 : option mat) : Prop :=
  match W0 with None => True | Some W => is_mat r r W /\ pos_def r W end.
Lemma lso_ok r c As bs W0 thetas : data_ok r c As bs -> weight_ok r W0 -> length (concat thetas) = c ->
  exists v, v = fit_error W0 As bs (concat thetas) /\ least_squares_objective thetas As bs W0 = Ok v /\ 0 <= v /\ (v = 0 <-> explains As bs (concat thetas)).
Proof.
  intros HD HW Hc. destruct W0 as [W|].
  - destruct HW as [HM HP]. exists (weighted_squares W As bs (concat thetas)). split; [reflexivity|]. split; [now apply (lso_weighted r c)|]. now apply (weighted_squares_zero r c).
  - exists (sum_squares As bs (concat thetas)). split; [reflexivity|]. split; [now apply (lso_unweighted r c)|]. now apply (sum_squares_zero r c).
Qed.
Lemma id_init_inv inv As bs Sigma gamma eps P : id_init inv As bs Sigma gamma eps = Ok P ->
  length As = length bs /\ 0 <= gamma /\ 0 <= eps /\ id_As P = As /\ id_bs P = bs /\ id_gamma P = gamma /\ id_eps P = eps /\
  match Sigma with None => id_W0 P = None | Some C => exists W, inv C = Ok W /\ id_W0 P = Some W end.
Proof.
  unfold id_init, assert_. intros H. destruct (Nat.eqb_spec (length As) (length bs)); cbn [bind] in H; [|discriminate].
  destruct (Rleb 0 gamma) eqn:E1; cbn [bind] in H; [|discriminate]. apply Rleb_iff in E1.
  destruct (Rleb 0 eps) eqn:E2; cbn [bind] in H; [|discriminate]. apply Rleb_iff in E2.
  destruct Sigma as [C|]; [destruct (inv C) as [W| |] eqn:EW; cbn [bind] in H; try discriminate|]; injection H as <-; cbn; eauto 12.
Qed.
Lemma id_init_weight r inv As bs Sigma gamma eps P : id_init inv As bs Sigma gamma eps = Ok P -> cov_ok r inv Sigma -> weight_ok r (id_W0 P).
Proof.
  intros H HC. apply id_init_inv in H as (_ & _ & _ & _ & _ & _ & _ & H). destruct Sigma as [C|]; [|now rewrite H].
  destruct H as (W & E & ->). destruct HC as (HS & W' & E' & HI). rewrite E in E'. injection E' as <-. split; [apply HI|]. now apply (inverse_pos_def r C).
Qed.
Lemma concat10 (thetas : list vec) n : Forall (fun t => length t = 10%nat) thetas -> length thetas = n -> length (concat thetas) = (10 * n)%nat.
Proof. intros H <-. rewrite (concat_len 10); [lia|]. now apply Forall_forall. Qed.
Lemma no_pos As (bs : list vec) r c : data_ok r c As bs -> 0 < 1 / 2 / INR (length As).
Proof.
  intros (_ & _ & HN & _). assert (0 < INR (length As)). { apply lt_0_INR. destruct As; [now destruct HN|cbn; lia]. }
  apply Rdiv_lt_0_compat; lra.
Qed.
Lemma id_cost_ok log_det inv P bodies thetas r : data_ok r (10 * length bodies) (id_As P) (id_bs P) -> weight_ok r (id_W0 P) ->
  length thetas = length bodies -> Forall (fun t => length t = 10%nat) thetas ->
  (0 < id_gamma P -> forall b, In b bodies -> nominal_ok inv (ip_J (bd_params b))) ->
  exists v Js, v = fit_error (id_W0 P) (id_As P) (id_bs P) (concat thetas) /\ 0 <= v /\ (v = 0 <-> explains (id_As P) (id_bs P) (concat thetas)) /\ mapM pim_must_equal_vec thetas = Ok Js /\
    (id_gamma P <= 0 -> id_cost log_det inv P bodies thetas = Ok (1 / 2 / INR (length (id_As P)) * v)) /\
    (0 < id_gamma P -> exists g, entropic_regularizer log_det inv Js (map (fun b => ip_J (bd_params b)) bodies) = Ok g /\
       id_cost log_det inv P bodies thetas = Ok (1 / 2 / INR (length (id_As P)) * v + id_gamma P * g)).
Proof.
  intros HD HW HL Ht HN. destruct (mapM_pmev thetas Ht) as (Js & EJ & LJ & HJ).
  destruct (lso_ok r _ _ _ (id_W0 P) thetas HD HW (concat10 _ _ Ht HL)) as (v & Ef & Ev & V0 & V1). exists v, Js.
  split; [auto|]. split; [auto|]. split; [auto|]. split; [auto|]. unfold id_cost. rewrite EJ. cbn [bind]. rewrite Ev. cbn [bind].
  destruct (Rltb 0 (id_gamma P)) eqn:E; [apply Rltb_iff in E|apply Rltb_false in E]; split; intros Hg; try lra; auto.
  destruct (nominal_list inv (map (fun b => ip_J (bd_params b)) bodies)) as (J0s' & F1 & F2).
  { intros J HI. apply in_map_iff in HI as (b & <- & Hb). auto. }
  assert (NB : bodies <> []). { intros ->. destruct HD as (_ & H0 & _). cbn in H0. lia. }
  eexists. rewrite (reg_value log_det inv Js _ J0s'); auto.
  - destruct Js; [|discriminate]. destruct bodies; [auto|]. cbn in LJ, HL. lia.
  - rewrite map_length. lia.
  - intros J HI. now apply HJ.
  - intros J HI. apply in_map_iff in HI as (b & <- & Hb). apply (HN Hg b Hb).
Qed.
Lemma zero_ok (bodies : list Body) : length (map (fun _ => zeros 10) bodies) = length bodies /\ Forall (fun t => length t = 10%nat) (map (fun _ => zeros 10) bodies).
Proof. split; [apply map_length|]. apply Forall_forall. intros x Hx. apply in_map_iff in Hx as (b & <- & _). apply zeros_length. Qed.
Lemma id_solve_run ut log_det inv solver P bodies mr coms r : 0 <= id_eps P -> data_ok r (10 * length bodies) (id_As P) (id_bs P) -> weight_ok r (id_W0 P) ->
  (0 < id_gamma P -> forall b, In b bodies -> nominal_ok inv (ip_J (bd_params b))) -> Forall (body_ok mr) bodies ->
  match coms with Some l => length l = length bodies | None => True end ->
  id_solve ut log_det inv solver P bodies mr coms =
  match solver (id_cost log_det inv P bodies) (id_feasible ut P bodies mr coms) with None => Raise AssertionError | Some thetas => mapM ip_from_vec thetas end.
Proof.
  intros He HD HW HN HB HC. unfold id_solve. destruct (zero_ok bodies) as [Z1 Z2].
  assert (E0 : match coms with Some l => assert_ (Nat.eqb (length l) (length bodies)) | None => Ok tt end = Ok tt).
  { destruct coms; [|auto]. rewrite HC, Nat.eqb_refl. reflexivity. }
  rewrite E0. cbn [bind].
  assert (exists c, id_cost log_det inv P bodies (map (fun _ => zeros 10) bodies) = Ok c) as (c & ->).
  { destruct (id_cost_ok log_det inv P bodies _ r HD HW Z1 Z2 HN) as (v & Js & _ & _ & _ & _ & C1 & C2).
    destruct (Rlt_le_dec 0 (id_gamma P)) as [H|H]; [|eauto]. destruct (C2 H) as (g & _ & E). eauto. }
  destruct (id_constraints_build ut P bodies mr coms _ He Z1 Z2 HB) as (Js & c2 & _ & _ & _ & _ & ->). reflexivity.
Qed.
(** exact data, no regularization *)
Lemma id_fit_lemma ut log_det inv solver r As bs Sigma eps P bodies mr coms ps v : id_init inv As bs Sigma 0 eps = Ok P -> cov_ok r inv Sigma ->
  data_ok r (10 * length bodies) As bs -> Forall2 (allowed eps mr) bodies ps -> com_allowed coms ps -> stacks ps v -> explains As bs v ->
  solved solver (id_cost log_det inv P bodies) (id_feasible ut P bodies mr coms) ->
  exists thetas, id_solve ut log_det inv solver P bodies mr coms = mapM ip_from_vec thetas /\ length thetas = length bodies /\
    Forall (fun t => length t = 10%nat) thetas /\ explains As bs (concat thetas).
Proof.
  intros HI HC HD HA HCo (vs & HV & ->) HE (thetas & ES & HO). pose proof (id_init_weight _ _ _ _ _ _ _ _ HI HC) as HW.
  apply id_init_inv in HI as (_ & _ & He & EA & Eb & Eg & Ee & _). subst As bs eps.
  assert (HF : id_feasible ut P bodies mr coms vs) by (apply (feasible_of_allowed ut P bodies mr coms ps vs); auto; intros; lra).
  destruct HO as [HFt HM]. pose proof HF as (L1 & L2 & _). pose proof HFt as (L3 & L4 & _).
  destruct (id_cost_ok log_det inv P bodies vs r HD HW L1 L2 ltac:(intros; lra)) as (c & Js & _ & _ & C0 & _ & C1 & _).
  destruct (id_cost_ok log_det inv P bodies thetas r HD HW L3 L4 ltac:(intros; lra)) as (c' & Js' & _ & C0' & C1' & _ & C2' & _).
  exists thetas. rewrite (id_solve_run ut log_det inv solver P bodies mr coms r), ES; auto; try (intros; lra).
  - split; [auto|]. split; [auto|]. split; [auto|]. apply C1'.
    destruct (HM vs _ HF (C1 ltac:(lra))) as (k & Ek & Hk). rewrite C2' in Ek by lra. injection Ek as <-.
    rewrite (proj2 C0 HE), Rmult_0_r in Hk. pose proof (no_pos _ _ _ _ HD) as Hp.
    apply Rle_antisym; auto. apply (Rmult_le_reg_l _ _ _ Hp). lra.
  - now apply (allowed_body_ok (id_eps P) mr bodies ps).
  - destruct coms as [l|]; auto. cbn in HCo. rewrite (Forall2_len _ _ _ HCo). symmetry. now apply (Forall2_len _ _ _ HA).
Qed.
Lemma from_vec_stacks thetas rs : mapM ip_from_vec thetas = Ok rs -> stacks rs (concat thetas).
Proof.
  intros H. exists thetas. split; [|reflexivity]. apply mapM_Forall2 in H. induction H as [|t p ts ps E F IH]; constructor; auto. now apply (from_vec_ok_inv t p).
Qed.
Lemma id_fit ut log_det inv solver r As bs Sigma eps P bodies mr coms ps v : id_init inv As bs Sigma 0 eps = Ok P -> cov_ok r inv Sigma ->
  data_ok r (10 * length bodies) As bs -> Forall2 (allowed eps mr) bodies ps -> com_allowed coms ps -> stacks ps v -> explains As bs v ->
  solved solver (id_cost log_det inv P bodies) (id_feasible ut P bodies mr coms) ->
  forall rs, id_solve ut log_det inv solver P bodies mr coms = Ok rs -> length rs = length bodies /\ exists w, stacks rs w /\ explains As bs w.
Proof.
  intros HI HC HD HA HCo HV HE HS rs Hr.
  destruct (id_fit_lemma ut log_det inv solver r As bs Sigma eps P bodies mr coms ps v HI HC HD HA HCo HV HE HS) as (ts & E & L & _ & X).
  rewrite E in Hr. split; [rewrite <- L; now apply (mapM_length ip_from_vec)|]. exists (concat ts). split; [now apply from_vec_stacks|auto].
Qed.
Lemma app_eq_len {A : Type} (a b c d : list A) : length a = length b -> a ++ c = b ++ d -> a = b /\ c = d.
Proof.
  revert b. induction a as [|x a IH]; intros [|y b] L E; try discriminate; auto. injection E as <- E. destruct (IH b) as [-> ->]; auto.
Qed.
Lemma concat_inj10 (l m : list vec) : Forall (fun t => length t = 10%nat) l -> Forall (fun t => length t = 10%nat) m -> length l = length m -> concat l = concat m -> l = m.
Proof.
  intros Hl. revert m. induction Hl as [|a l Ha Hl IH]; intros [|b m] Hm HL E; try discriminate; auto. inversion Hm; subst. cbn in E.
  assert (a = b /\ concat l = concat m) as [-> E'].
  { apply app_eq_len; [congruence|auto]. }
  f_equal. apply IH; auto.
Qed.
Lemma id_recover ut log_det inv solver r As bs Sigma eps P bodies mr coms ps v : id_init inv As bs Sigma 0 eps = Ok P -> cov_ok r inv Sigma ->
  data_ok r (10 * length bodies) As bs -> determining (10 * length bodies) As ->
  Forall2 (allowed eps mr) bodies ps -> com_allowed coms ps -> stacks ps v -> explains As bs v ->
  solved solver (id_cost log_det inv P bodies) (id_feasible ut P bodies mr coms) ->
  id_solve ut log_det inv solver P bodies mr coms = Ok ps.
Proof.
  intros HI HC HD HT HA HCo HV HE HS.
  destruct (id_fit_lemma ut log_det inv solver r As bs Sigma eps P bodies mr coms ps v HI HC HD HA HCo HV HE HS) as (ts & -> & L & L10 & X).
  destruct HV as (vs & HV & ->). destruct (stack_vecs _ _ _ _ HA) as (vs' & H1 & H2 & H3 & H4 & H5).
  assert (vs' = vs) as ->.
  { clear -H1 HV. revert vs' H1. induction HV; intros vs' H1; inversion H1; subst; auto. f_equal; [congruence|auto]. }
  replace ts with vs; auto. apply concat_inj10; auto; [lia|]. apply (explains_unique r (10 * length bodies) As bs); auto using concat10.
Qed.

(** * With regularization *)
Lemma feasible_SPD ut P bodies mr coms thetas Js : id_feasible ut P bodies mr coms thetas -> 0 < id_gamma P -> mapM pim_must_equal_vec thetas = Ok Js ->
  forall J, In J Js -> SPD 4 J.
Proof.
  intros (_ & H10 & HD & _) Hg E J HJ. apply mapM_Forall2 in E. destruct (Forall2_in_r _ _ _ _ E HJ) as (t & Ht & Et).
  rewrite Forall_forall in H10. destruct (pmev_ok t (H10 t Ht)) as (J' & E' & HM & _ & HS). rewrite Et in E'. injection E' as <-.
  split; [auto|]. split; [auto|]. intros x Lx Nx. now apply (HD Hg t J Ht Et).
Qed.
Lemma mapM_pmev_inj l m Js : Forall (fun t => length t = 10%nat) l -> Forall (fun t => length t = 10%nat) m ->
  mapM pim_must_equal_vec l = Ok Js -> mapM pim_must_equal_vec m = Ok Js -> l = m.
Proof.
  intros Hl Hm E1 E2. apply mapM_Forall2 in E1. apply mapM_Forall2 in E2. revert m Hm E2.
  induction E1 as [|t J l Js Et F IH]; intros m Hm E2; inversion E2 as [|t' ? m' ? Et' F']; subst; auto.
  inversion Hl; inversion Hm; subst. f_equal; [now apply (pim_must_equal_vec_inj t t' J)|now apply IH].
Qed.
Lemma id_regularized ut log_det inv solver r As bs Sigma gamma eps P bodies mr coms v : log_det_spec 4 log_det ->
  id_init inv As bs Sigma gamma eps = Ok P -> 0 < gamma -> cov_ok r inv Sigma -> data_ok r (10 * length bodies) As bs ->
  (forall b, In b bodies -> nominal_ok inv (ip_J (bd_params b)) /\ allowed eps mr b (bd_params b)) -> com_allowed coms (map bd_params bodies) ->
  stacks (map bd_params bodies) v ->
  solved solver (id_cost log_det inv P bodies) (id_feasible ut P bodies mr coms) ->
  exists thetas, id_solve ut log_det inv solver P bodies mr coms = mapM ip_from_vec thetas /\
    fit_error (id_W0 P) As bs (concat thetas) <= fit_error (id_W0 P) As bs v /\
    (fit_error (id_W0 P) As bs (concat thetas) = fit_error (id_W0 P) As bs v -> mapM ip_from_vec thetas = Ok (map bd_params bodies)) /\
    (explains As bs v -> fit_error (id_W0 P) As bs (concat thetas) = fit_error (id_W0 P) As bs v).
Proof.
  intros HLD HI Hg HC HD HB HCo (vs & HV & ->) (thetas & ES & HO). pose proof (id_init_weight _ _ _ _ _ _ _ _ HI HC) as HW.
  apply id_init_inv in HI as (_ & _ & He & EA & Eb & Eg & Ee & _). subst As bs eps gamma.
  assert (HN : 0 < id_gamma P -> forall b, In b bodies -> nominal_ok inv (ip_J (bd_params b))) by (intros _ b Hb; now apply HB).
  assert (HA : Forall2 (allowed (id_eps P) mr) bodies (map bd_params bodies)).
  { clear -HB. induction bodies as [|b bodies IH]; constructor; [apply HB; now left|apply IH; intros; apply HB; now right]. }
  assert (HF : id_feasible ut P bodies mr coms vs).
  { apply (feasible_of_allowed ut P bodies mr coms (map bd_params bodies) vs); auto. intros _ p Hp. apply in_map_iff in Hp as (b & <- & Hb). now apply HB. }
  destruct HO as [HFt HM]. pose proof HF as (L1 & L2 & _). pose proof HFt as (L3 & L4 & _).
  destruct (stack_vecs _ _ _ _ HA) as (vs' & H1 & H2 & H3 & H4 & H5).
  assert (vs' = vs) as ->.
  { clear -H1 HV. revert vs' H1. induction HV; intros vs' H1; inversion H1; subst; auto. f_equal; [congruence|auto]. }
  destruct (id_cost_ok log_det inv P bodies vs r HD HW L1 L2 HN) as (c & Js & F0 & C0 & C1 & EJ & _ & C2).
  destruct (id_cost_ok log_det inv P bodies thetas r HD HW L3 L4 HN) as (c' & Js' & F0' & C0' & C1' & EJ' & _ & C2').
  destruct (C2 Hg) as (g & Eg & Ec). destruct (C2' Hg) as (g' & Eg' & Ec'). rewrite EJ in H5. injection H5 as ->. rewrite map_map in Eg, EJ.
  destruct (regularizer_min log_det inv Js' (map (fun b => ip_J (bd_params b)) bodies) HLD) as (u & u0 & U & U0 & Ule & Ueq).
  { destruct bodies as [|b bodies]; [destruct HD as (_ & H & _); cbn in H; lia|]. intros ->. apply mapM_length in EJ'. cbn in EJ', L3. lia. }
  { apply mapM_length in EJ'. rewrite map_length. lia. }
  { intros J HJ. apply in_map_iff in HJ as (b & <- & Hb). now apply HB. }
  { apply (feasible_SPD ut P bodies mr coms thetas); auto. }
  rewrite Eg' in U. injection U as <-. rewrite Eg in U0. injection U0 as <-.
  destruct (HM vs _ HF Ec) as (k & Ek & Hk). rewrite Ec' in Ek. injection Ek as <-.
  pose proof (no_pos _ _ _ _ HD) as Hp. set (a := 1 / 2 / INR (length (id_As P))) in *.
  assert (G1 : id_gamma P * g <= id_gamma P * g') by (apply Rmult_le_compat_l; lra).
  assert (G2 : c' <= c) by (apply (Rmult_le_reg_l a); lra).
  exists thetas. rewrite (id_solve_run ut log_det inv solver P bodies mr coms r), ES; auto.
  2: now apply (allowed_body_ok (id_eps P) mr bodies (map bd_params bodies)).
  2: { destruct coms as [l|]; auto. cbn in HCo. rewrite (Forall2_len _ _ _ HCo), map_length. reflexivity. }
  rewrite <- F0, <- F0'. split; [reflexivity|]. split; [exact G2|]. split.
  - intros Ecc. assert (g' = g). { apply Rle_antisym; [|auto]. apply (Rmult_le_reg_l (id_gamma P)); [lra|]. rewrite Ecc in Hk. lra. }
    apply Ueq in H. subst Js'. rewrite <- H4. f_equal. apply (mapM_pmev_inj thetas vs (map (fun b => ip_J (bd_params b)) bodies)); auto.
  - intros HE. rewrite (proj2 C1 HE) in *. lra.
Qed.
Lemma id_no_worse ut log_det inv solver r As bs Sigma gamma eps P bodies mr coms v : log_det_spec 4 log_det ->
  id_init inv As bs Sigma gamma eps = Ok P -> 0 < gamma -> cov_ok r inv Sigma -> data_ok r (10 * length bodies) As bs ->
  (forall b, In b bodies -> nominal_ok inv (ip_J (bd_params b)) /\ allowed eps mr b (bd_params b)) -> com_allowed coms (map bd_params bodies) ->
  stacks (map bd_params bodies) v ->
  solved solver (id_cost log_det inv P bodies) (id_feasible ut P bodies mr coms) ->
  forall rs, id_solve ut log_det inv solver P bodies mr coms = Ok rs ->
    exists w, stacks rs w /\ fit_error (id_W0 P) As bs w <= fit_error (id_W0 P) As bs v /\
      (fit_error (id_W0 P) As bs w = fit_error (id_W0 P) As bs v -> rs = map bd_params bodies).
Proof.
  intros HLD HI Hg HC HD HB HCo HV HS rs Hr.
  destruct (id_regularized ut log_det inv solver r As bs Sigma gamma eps P bodies mr coms v HLD HI Hg HC HD HB HCo HV HS) as (ts & E & B1 & B2 & _).
  rewrite E in Hr. exists (concat ts). split; [now apply from_vec_stacks|]. split; [auto|]. intros X. apply B2 in X. congruence.
Qed.
Lemma id_nominal ut log_det inv solver r As bs Sigma gamma eps P bodies mr coms v : log_det_spec 4 log_det ->
  id_init inv As bs Sigma gamma eps = Ok P -> 0 < gamma -> cov_ok r inv Sigma -> data_ok r (10 * length bodies) As bs ->
  (forall b, In b bodies -> nominal_ok inv (ip_J (bd_params b)) /\ allowed eps mr b (bd_params b)) -> com_allowed coms (map bd_params bodies) ->
  stacks (map bd_params bodies) v -> explains As bs v ->
  solved solver (id_cost log_det inv P bodies) (id_feasible ut P bodies mr coms) ->
  id_solve ut log_det inv solver P bodies mr coms = Ok (map bd_params bodies).
Proof.
  intros HLD HI Hg HC HD HB HCo HV HE HS.
  destruct (id_regularized ut log_det inv solver r As bs Sigma gamma eps P bodies mr coms v HLD HI Hg HC HD HB HCo HV HS) as (ts & -> & _ & B2 & B3).
  apply B2, B3, HE.
Qed.

(** * Guarantees for every result *)
Lemma bind_ok {A B : Type} (x : res A) (f : A -> res B) b : (let* a := x in f a) = Ok b -> exists a, x = Ok a /\ f a = Ok b.
Proof. destruct x; cbn; try discriminate. eauto. Qed.
Lemma pim_psd_inv J eps c : pim_psd J eps = Ok c -> is_mat 4 4 J /\ 0 <= eps /\ c = psd_prop eps J.
Proof.
  unfold pim_psd, assert_. intros H. destruct (is_matb 4 4 J) eqn:E; cbn [bind] in H; [|discriminate]. apply is_matb_iff in E.
  destruct (Rleb 0 eps) eqn:E2; cbn [bind] in H; [|discriminate]. apply Rleb_iff in E2. injection H as <-. auto.
Qed.
Lemma sym_of_transpose J : is_mat 4 4 J -> J = transpose J -> symmetric 4 J.
Proof. intros HJ E i j Hi Hj. rewrite E at 1. apply entry_transpose. rewrite (is_mat_ncols _ _ _ HJ); auto. Qed.
Lemma sub_eye_ok eps J : is_mat 4 4 J -> symmetric 4 J -> is_mat 4 4 (msub J (mscale eps (eye 4))) /\ symmetric 4 (msub J (mscale eps (eye 4))).
Proof.
  intros HJ HS. assert (HE : is_mat 4 4 (mscale eps (eye 4))) by apply is_mat_mscale, is_mat_eye. split; [now apply is_mat_msub|].
  intros i j Hi Hj. rewrite !(entry_msub _ _ 4 4), !entry_mscale by auto. rewrite (HS i j), !entry_eye by auto. now rewrite Nat.eqb_sym.
Qed.
Lemma id_guarantee ut log_det inv solver P bodies mr coms rs :
  (forall thetas, solver (id_cost log_det inv P bodies) (id_feasible ut P bodies mr coms) = Some thetas -> id_feasible ut P bodies mr coms thetas) ->
  id_solve ut log_det inv solver P bodies mr coms = Ok rs ->
  Forall2 (result_ok (id_eps P) mr) bodies rs /\
  (forall l, coms = Some l -> Forall2 (fun s p => forall K, shape_is s K -> K (ip_com p)) l rs).
Proof.
  intros HF H. unfold id_solve in H. apply bind_ok in H as (u & HC & H). apply bind_ok in H as (u1 & _ & H). apply bind_ok in H as (u2 & _ & H).
  destruct (solver _ _) as [thetas|] eqn:ES; [|discriminate]. specialize (HF thetas eq_refl). destruct HF as (HL & H10 & _ & c & Ec & Hc).
  unfold id_constraints in Ec. apply bind_ok in Ec as (Js & EJ & Ec). apply bind_ok in Ec as (c1 & E1 & Ec). apply bind_ok in Ec as (c2 & E2 & Ec). injection Ec as <-.
  apply Forall_app in Hc as (G1 & Hc). apply Forall_app in Hc as (G2 & G3).
  assert (F : Forall2 (fun p J => ip_ok p /\ symmetric 3 (ip_H p) /\ 0 < ip_mass p /\ J = ip_J p) rs Js).
  { apply mapM_Forall2 in H. apply mapM_Forall2 in EJ. clear -H EJ. revert Js EJ. induction H as [|t p ts ps E F IH]; intros Js EJ; inversion EJ as [|? J ? Js' Ej Fj]; subst; constructor; auto.
    apply from_vec_ok_inv in E as (_ & _ & HO & HS & HM & _ & EJ'). rewrite Ej in EJ'. injection EJ' as <-. auto. }
  assert (LB : length bodies = length rs) by (apply mapM_length in H; lia).
  split.
  - apply mapM_Forall2 in E1. clear -F E1 G1 E2 G2 LB.
    assert (FB : Forall2 (fun b p => mr = true -> forall Ks, Forall2 shape_is (bd_shapes b) Ks -> (forall s, In s (bd_shapes b) -> shape_proper s) -> ip_ok p -> symmetric 4 (ip_J p) ->
        exists Js, ip_J p = msum 4 4 Js /\ Forall2 (fun (K : vec -> Prop) J' => PSD 4 J' /\ (0 < entry J' 3 3 -> K (com_J J'))) Ks Js) bodies rs).
    { destruct mr.
      - apply mapM_Forall2 in E2. clear E1 G1. revert bodies c2 E2 G2 LB. induction F as [|p J rs Js (HO & HS & HM & ->) F IH]; intros [|b bodies] c2 E2 G2 LB; try discriminate; constructor.
        + intros _ Ks K1 K2 _ SY. inversion E2 as [|? cc ? ccs Hcc Hccs]; subst. inversion G2; subst. cbn in Hcc.
          destruct (body_sdp_sound ut b Ks (PVmat (ip_J p)) (ip_J p) 0 2 cc K1 K2 eq_refl (proj2 (proj2 (ip_J_h p HO))) SY ltac:(lra) ltac:(lia) Hcc H1) as (Jl & Q1 & Q2 & _). eauto.
        + inversion E2; subst. inversion G2; subst. eapply IH; eauto.
      - clear -LB. revert bodies LB. induction rs; intros [|b bodies] LB; try discriminate; constructor; auto. intros; discriminate. }
    clear E2 G2 LB. revert bodies FB c1 E1 G1. induction F as [|p J rs Js (HO & HS & HM & ->) F IH]; intros bodies FB c1 E1 G1; inversion FB as [|b ? bs ? HB FB']; subst; constructor.
    + inversion E1 as [|? cc ? ccs Hcc Hccs]; subst. inversion G1 as [|? ? Gc]; subst. apply pim_psd_inv in Hcc as (HJ & He & ->). destruct Gc as [GT GP].
      pose proof (sym_of_transpose _ HJ GT) as SJ. destruct (sub_eye_ok (id_eps P) _ HJ SJ) as [S1 S2].
      split; [auto|]. split; [auto|]. split; [auto|]. split; [split; [auto|split; auto]|]. intros M Ks K1 K2. apply HB; auto.
    + inversion E1; subst. inversion G1; subst. eapply IH; eauto.
  - intros l ->. cbn in HC. unfold assert_ in HC. destruct (Nat.eqb_spec (length l) (length bodies)) as [LL|]; [|discriminate].
    rewrite Forall_map in G3. assert (LL' : length l = length rs) by lia. clear -F G3 LL'. revert l LL' G3. induction F as [|p J rs Js (HO & HS & HM & ->) F IH]; intros [|s l] LL G3; try discriminate; constructor.
    + intros K HK. cbn in G3. inversion G3 as [|? ? G ?]; subst. cbn in G. exact (proj1 (com_constraint_iff s K p HK HO HM) G).
    + apply IH; [now injection LL|]. now inversion G3.
Qed.
Lemma com_J_ip p : ip_ok p -> 0 < ip_mass p -> com_J (ip_J p) = ip_com p.
Proof.
  destruct p as [m c H]. intros [Hc HH] Hm. cbn [ip_com ip_H ip_mass] in *. unfold com_J, ip_J, ip_h. cbn [ip_com ip_H ip_mass]. destruct_vecs.
  cbn. list_eq; field; lra.
Qed.
Lemma result_one eps b p s K : result_ok eps true b p -> bd_shapes b = [s] -> shape_is s K -> shape_proper s -> K (ip_com p).
Proof.
  intros (HO & HS & HM & HP & HR) Eb HK Hs. destruct (HR eq_refl [K]) as (Js & EJ & F).
  { rewrite Eb. constructor; auto. } { rewrite Eb. intros x [<-|[]]. auto. }
  inversion F as [|? J' ? Js' ((HJ & _) & HC) F']; subst. inversion F'; subst.
  assert (E : ip_J p = J') by (rewrite EJ; clear -HJ; destruct_vecs; cbn; list_eq; ring). rewrite <- E, com_J_ip in HC by auto.
  apply HC. now rewrite (proj1 (ip_J_h p HO)).
Qed.

(** * Errors *)
Lemma id_solve_failed ut log_det inv solver r As bs Sigma gamma eps P bodies mr coms : id_init inv As bs Sigma gamma eps = Ok P -> cov_ok r inv Sigma ->
  data_ok r (10 * length bodies) As bs -> (forall b, In b bodies -> nominal_ok inv (ip_J (bd_params b))) ->
  (forall b, In b bodies -> mr = true -> exists Ks, Forall2 shape_is (bd_shapes b) Ks /\ (forall s, In s (bd_shapes b) -> shape_proper s)) ->
  (forall l, coms = Some l -> length l = length bodies) ->
  solver (id_cost log_det inv P bodies) (id_feasible ut P bodies mr coms) = None ->
  id_solve ut log_det inv solver P bodies mr coms = Raise AssertionError.
Proof.
  intros HI HC HD HN HB HL ES. pose proof (id_init_weight _ _ _ _ _ _ _ _ HI HC) as HW.
  apply id_init_inv in HI as (_ & _ & He & EA & Eb & Eg & Ee & _). subst As bs eps gamma.
  rewrite (id_solve_run ut log_det inv solver P bodies mr coms r), ES; auto.
  - apply Forall_forall. intros b Hb E. auto.
  - destruct coms; auto.
Qed.
Lemma id_init_errors inv As bs Sigma gamma eps :
  (length As <> length bs -> id_init inv As bs Sigma gamma eps = Raise AssertionError) /\
  (gamma < 0 -> id_init inv As bs Sigma gamma eps = Raise AssertionError) /\
  (eps < 0 -> id_init inv As bs Sigma gamma eps = Raise AssertionError) /\
  (length As = length bs -> 0 <= gamma -> 0 <= eps -> forall C e, Sigma = Some C -> inv C = Raise e -> id_init inv As bs Sigma gamma eps = Raise e).
Proof.
  unfold id_init, assert_. destruct (Nat.eqb_spec (length As) (length bs)), (Rleb 0 gamma) eqn:E1, (Rleb 0 eps) eqn:E2; cbn [bind];
    try (apply Rleb_iff in E1); try (apply Rleb_iff in E2); try (apply Rleb_false in E1); try (apply Rleb_false in E2);
    repeat split; intros; try lra; try congruence. subst Sigma. now rewrite H3.
Qed.
Lemma id_solve_coms ut log_det inv solver P bodies mr l : length l <> length bodies ->
  id_solve ut log_det inv solver P bodies mr (Some l) = Raise AssertionError.
Proof. intros H. unfold id_solve, assert_. apply Nat.eqb_neq in H. now rewrite H. Qed.
Lemma lso_errors thetas As bs W0 :
  (As = [] \/ bs = [] \/ length (concat thetas) <> ncols (concat As) \/ length (concat As) <> length (concat bs)) ->
  least_squares_objective thetas As bs W0 = Raise ValueError.
Proof.
  intros H. unfold least_squares_objective. destruct As as [|A As]; [reflexivity|]. destruct bs as [|b bs]; [reflexivity|]. cbn [bind].
  destruct (Nat.eqb_spec (length (concat thetas)) (ncols (concat (A :: As)))); cbn [bind]; [|reflexivity].
  destruct (Nat.eqb_spec (length (concat (A :: As))) (length (concat (b :: bs)))); cbn [bind]; [|reflexivity]. destruct H as [H|[H|[H|H]]]; congruence.
Qed.
Lemma regularizer_lengths log_det inv Js J0s : length Js <> length J0s -> entropic_regularizer log_det inv Js J0s = Raise AssertionError.
Proof. intros H. unfold entropic_regularizer, assert_. apply Nat.eqb_neq in H. now rewrite H. Qed.

(** * Point masses at given points *)
Definition at_points (points : mat) (mus : vec) : mat := msum 4 4 (map2 (fun mu P => mscale mu (outer P P)) mus (map (fun p => p ++ [1]) points)).
Lemma at_points_pim points mus : length mus = length points -> (forall p, In p points -> length p = 3%nat) -> pim_of (combine mus points) (at_points points mus).
Proof.
  intros HL HP. assert (HM : forall B, In B (map2 (fun mu P => mscale mu (outer P P)) mus (map (fun p => p ++ [1]) points)) -> is_mat 4 4 B).
  { intros B HB. apply in_map2 in HB as (mu & P & _ & HI & ->). apply in_map_iff in HI as (p & <- & Hp). specialize (HP p Hp).
    apply is_mat_mscale. clear -HP. destruct_vecs. repeat (constructor; try reflexivity). }
  split; [now apply msum_is_mat|]. intros i j Hi Hj. unfold at_points. rewrite msum_entry by auto. f_equal. clear HM.
  revert mus HL. induction points as [|p points IH]; intros [|mu mus] HL; try discriminate; [reflexivity|]. cbn [map map2 combine]. f_equal.
  - rewrite entry_mscale. assert (L : length p = 3%nat) by (apply HP; now left). cbn [fst snd]. rewrite entry_outer. ring.
  - apply IH; [intros; apply HP; now right|now injection HL].
Qed.
Lemma combine_split_app {A B : Type} (a1 a2 : list A) (b1 b2 : list B) : length a1 = length b1 -> combine (a1 ++ a2) (b1 ++ b2) = combine a1 b1 ++ combine a2 b2.
Proof. revert b1. induction a1 as [|x a1 IH]; intros [|y b1] L; try discriminate; auto. cbn. f_equal. apply IH. now injection L. Qed.
Lemma lsum_app' a b : lsum (a ++ b) = lsum a + lsum b.
Proof. induction a as [|x a IH]; cbn [app]; [unfold lsum at 2; cbn; ring|]. change (lsum (x :: a ++ b)) with (x + lsum (a ++ b)). change (lsum (x :: a)) with (x + lsum a). rewrite IH. ring. Qed.
Lemma gather points s : pms_nonneg s -> pms_in (fun x => In x points) s ->
  exists mus, length mus = length points /\ (forall x, In x mus -> 0 <= x) /\
    forall f : vec -> R, lsum (map (fun mp => fst mp * f (snd mp)) (combine mus points)) = lsum (map (fun mp => fst mp * f (snd mp)) s).
Proof.
  induction s as [|[m p] s IH]; intros Hn Hi.
  - exists (zeros (length points)). split; [apply zeros_length|]. split; [intros x Hx; apply repeat_spec in Hx; lra|]. intros f. cbn.
    clear. change (lsum []) with 0. induction points as [|p points IH]; [reflexivity|]. cbn [length zeros repeat combine map fst snd]. unfold zeros in IH.
    match goal with |- context [lsum (?a :: ?l)] => change (lsum (a :: l)) with (a + lsum l) end. rewrite IH. ring.
  - destruct IH as (mus & L & N & E); [intros mp H; apply Hn; now right|intros mp H; apply Hi; now right|].
    destruct (in_split p points) as (l1 & l2 & ->); [apply (Hi (m, p)); now left|].
    assert (exists m1 x m2, mus = m1 ++ x :: m2 /\ length m1 = length l1) as (m1 & x & m2 & -> & L1).
    { exists (firstn (length l1) mus), (nth (length l1) mus 0), (skipn (S (length l1)) mus). rewrite app_length in L. cbn in L. split.
      - rewrite <- (firstn_skipn (length l1) mus) at 1. f_equal. clear -L. revert L. generalize (length l1). intros k. revert mus.
        induction k as [|k IHk]; intros [|y mus] L; cbn in L; try lia; [reflexivity|]. cbn [skipn nth]. apply IHk. lia.
      - rewrite firstn_length. lia. }
    exists (m1 ++ (x + m) :: m2). split; [rewrite !app_length in *; cbn in *; lia|]. split.
    + intros y Hy. pose proof (Hn (m, p) (or_introl eq_refl)) as Hm. cbn in Hm. apply in_app_or in Hy as [Hy|[<-|Hy]].
      * apply N. apply in_or_app. now left.
      * assert (0 <= x) by (apply N; apply in_or_app; right; now left). lra.
      * apply N. apply in_or_app. right. now right.
    + intros f. specialize (E f). cbn [map]. change (lsum (?a :: ?l)) with (a + lsum l). rewrite <- E. cbn [fst snd].
      rewrite !combine_split_app, !map_app, !lsum_app' by auto. cbn [combine map fst snd].
      repeat match goal with |- context [lsum (?a :: ?l)] => change (lsum (a :: l)) with (a + lsum l) end. ring.
Qed.
(** feasible in the discretized problem: point masses at the given points *)
Lemma pim_unique s J J' : pim_of s J -> pim_of s J' -> J = J'.
Proof. intros (H1 & E1) (H2 & E2). apply (mat_ext 4 4); auto. intros i j Hi Hj. rewrite E1, E2; auto. Qed.
Lemma di_constraints_iff points com t : (forall p, In p points -> length p = 3%nat) -> length t = 10%nat ->
  exists J c, pim_must_equal_vec t = Ok J /\ di_constraints points com t = Ok c /\
    (c <-> realizable_J (fun x => In x points) J /\ match com with Some s => com_constraint s J | None => True end).
Proof.
  intros HP Ht. destruct (pmev_ok t Ht) as (J & EJ & HJ & _). exists J. unfold di_constraints. rewrite EJ. cbn [bind]. eexists. split; [reflexivity|]. split; [reflexivity|].
  split.
  - intros (mus & L & N & E & C). split; auto. exists (combine mus points). split; [|split; [|split]].
    + intros [m p] H. apply in_combine_r in H. cbn. auto.
    + intros [m p] H. apply in_combine_l in H. cbn. auto.
    + intros [m p] H. apply in_combine_r in H. cbn. auto.
    + rewrite E. now apply at_points_pim.
  - intros ((s & Ho & Hn & Hi & Hp) & C). destruct (gather points s Hn Hi) as (mus & L & N & E). exists mus. split; [auto|]. split; [auto|]. split; [|auto].
    apply (pim_unique (combine mus points)).
    + split; [auto|]. intros i j Hii Hjj. rewrite (proj2 Hp i j Hii Hjj). specialize (E (fun p => nth i (p ++ [1]) 0 * nth j (p ++ [1]) 0)).
      rewrite (map_ext _ (fun mp => fst mp * (nth i (snd mp ++ [1]) 0 * nth j (snd mp ++ [1]) 0))) by (intro; ring). rewrite <- E.
      f_equal. apply map_ext. intro; ring.
    + now apply at_points_pim.
Qed.
Lemma di_cost_ok P t r : data_ok r 10 (id_As P) (id_bs P) -> weight_ok r (id_W0 P) -> length t = 10%nat ->
  exists v, di_cost P t = Ok (1 / 2 / INR (length (id_As P)) * v) /\ v = fit_error (id_W0 P) (id_As P) (id_bs P) t /\ 0 <= v /\ (v = 0 <-> explains (id_As P) (id_bs P) t).
Proof.
  intros HD HW Ht. destruct (lso_ok r 10 _ _ (id_W0 P) [t] HD HW) as (v & Ef & Ev & V0 & V1); [cbn; now rewrite app_nil_r|].
  cbn [concat] in *. rewrite app_nil_r in *. exists v. unfold di_cost. rewrite Ev. cbn. auto.
Qed.
Lemma di_solve_run solver P points com r : data_ok r 10 (id_As P) (id_bs P) -> weight_ok r (id_W0 P) -> (forall p, In p points -> length p = 3%nat) ->
  di_solve solver P points com = match solver (di_cost P) (di_feasible points com) with None => Raise AssertionError | Some t => let* p := ip_from_vec t in Ok [p] end.
Proof.
  intros HD HW HP. unfold di_solve. destruct (di_cost_ok P (zeros 10) r HD HW (zeros_length 10)) as (v & -> & _). cbn [bind].
  destruct (di_constraints_iff points com (zeros 10) HP (zeros_length 10)) as (J & c & _ & -> & _). reflexivity.
Qed.
Lemma di_fit_lemma solver r inv As bs Sigma gamma eps P points com p v : id_init inv As bs Sigma gamma eps = Ok P -> cov_ok r inv Sigma -> data_ok r 10 As bs ->
  (forall q, In q points -> length q = 3%nat) -> ip_ok p -> symmetric 3 (ip_H p) -> 0 < ip_mass p -> realizable_J (fun x => In x points) (ip_J p) ->
  (forall s, com = Some s -> exists K, shape_is s K /\ K (ip_com p)) -> ip_vec p = Ok v -> explains As bs v ->
  solved solver (di_cost P) (di_feasible points com) ->
  exists t, di_solve solver P points com = (let* p := ip_from_vec t in Ok [p]) /\ length t = 10%nat /\ explains As bs t.
Proof.
  intros HI HC HD HP HO HS HM HR Hcom EV HE (t & ES & (Lt & c0 & Ec0 & Hc0) & Opt). pose proof (id_init_weight _ _ _ _ _ _ _ _ HI HC) as HW.
  apply id_init_inv in HI as (_ & _ & He & EA & Eb & Eg & Ee & _). subst As bs eps gamma.
  destruct (vec_from_vec p HO HM HS) as (v' & EV' & Lv & Fv). rewrite EV in EV'. injection EV' as <-.
  destruct (di_constraints_iff points com v HP Lv) as (J & c & EJ & Ec & Hc). rewrite (pim_must_equal_vec_J p v HO HS EV) in EJ. injection EJ as <-.
  assert (HF : di_feasible points com v).
  { split; [auto|]. exists c. split; [auto|]. apply Hc. split; [auto|]. destruct com as [s|]; auto. destruct (Hcom s eq_refl) as (K & HK & KC). now apply (com_constraint_iff s K p). }
  destruct (di_cost_ok P v r HD HW Lv) as (x & Ex & _ & _ & X1). destruct (di_cost_ok P t r HD HW Lt) as (y & Ey & _ & Y0 & Y1).
  destruct (Opt v _ HF Ex) as (k & Ek & Hk). rewrite Ey in Ek. injection Ek as <-. rewrite (proj2 X1 HE), Rmult_0_r in Hk.
  exists t. rewrite (di_solve_run solver P points com r) by auto. rewrite ES. split; [reflexivity|]. split; [auto|]. apply Y1.
  pose proof (no_pos _ _ _ _ HD) as Hp. apply Rle_antisym; auto. apply (Rmult_le_reg_l _ _ _ Hp). lra.
Qed.
Lemma di_fit solver r inv As bs Sigma gamma eps P points com p v : id_init inv As bs Sigma gamma eps = Ok P -> cov_ok r inv Sigma -> data_ok r 10 As bs ->
  (forall q, In q points -> length q = 3%nat) -> ip_ok p -> symmetric 3 (ip_H p) -> 0 < ip_mass p -> realizable_J (fun x => In x points) (ip_J p) ->
  (forall s, com = Some s -> exists K, shape_is s K /\ K (ip_com p)) -> ip_vec p = Ok v -> explains As bs v ->
  solved solver (di_cost P) (di_feasible points com) ->
  (forall rs, di_solve solver P points com = Ok rs -> exists q w, rs = [q] /\ ip_vec q = Ok w /\ explains As bs w) /\
  (determining 10 As -> di_solve solver P points com = Ok [p]).
Proof.
  intros HI HC HD HP HO HS HM HR Hcom EV HE HSo.
  destruct (di_fit_lemma solver r inv As bs Sigma gamma eps P points com p v HI HC HD HP HO HS HM HR Hcom EV HE HSo) as (t & -> & Lt & Et). split.
  - intros rs H. apply bind_ok in H as (q & Eq & H). injection H as <-. exists q, t. split; [auto|]. split; [now apply (from_vec_ok_inv t q)|auto].
  - intros HDt. destruct (vec_from_vec p HO HM HS) as (v' & EV' & Lv & Fv). rewrite EV in EV'. injection EV' as <-.
    rewrite (explains_unique r 10 As bs t v HD HDt Lt Lv Et HE), Fv. reflexivity.
Qed.
Lemma di_guarantee solver P points com rs : (forall q, In q points -> length q = 3%nat) ->
  (forall t, solver (di_cost P) (di_feasible points com) = Some t -> di_feasible points com t) ->
  di_solve solver P points com = Ok rs ->
  exists p, rs = [p] /\ ip_ok p /\ symmetric 3 (ip_H p) /\ 0 < ip_mass p /\ realizable_J (fun x => In x points) (ip_J p) /\
    in_hull 3 points (ip_com p) /\ (forall s K, com = Some s -> shape_is s K -> K (ip_com p)).
Proof.
  intros HP HF H. unfold di_solve in H. apply bind_ok in H as (u1 & _ & H). apply bind_ok in H as (u2 & _ & H).
  destruct (solver _ _) as [t|] eqn:ES; [|discriminate]. destruct (HF t eq_refl) as (Lt & c & Ec & Hc). apply bind_ok in H as (p & Ep & H). injection H as <-.
  exists p. apply from_vec_ok_inv in Ep as (_ & _ & HO & HS & HM & _ & EJ).
  destruct (di_constraints_iff points com t HP Lt) as (J & c' & EJ' & Ec' & Hc'). rewrite EJ in EJ'. injection EJ' as <-. rewrite Ec in Ec'. injection Ec' as <-.
  apply Hc' in Hc as (HR & HCo). split; [auto|]. split; [auto|]. split; [auto|]. split; [auto|]. split; [auto|]. split.
  - destruct HR as (s & Ho & Hn & Hi & Hp). rewrite <- (com_J_ip p HO HM).
    apply (hull_in_convex 3 (in_hull 3 points) (map snd s)).
    + apply convex_hull_set.
    + intros w Hw. apply in_map_iff in Hw as (mp & <- & Hmp). auto.
    + intros w Hw. apply in_map_iff in Hw as (mp & <- & Hmp). apply hull_vertex; auto.
    + apply pim_com_hull; auto. now rewrite (proj1 (ip_J_h p HO)).
  - intros s K -> HK. now apply (com_constraint_iff s K p).
Qed.
Lemma di_failed solver r inv As bs Sigma gamma eps P points com : id_init inv As bs Sigma gamma eps = Ok P -> cov_ok r inv Sigma -> data_ok r 10 As bs ->
  (forall q, In q points -> length q = 3%nat) -> solver (di_cost P) (di_feasible points com) = None -> di_solve solver P points com = Raise AssertionError.
Proof.
  intros HI HC HD HP ES. pose proof (id_init_weight _ _ _ _ _ _ _ _ HI HC) as HW.
  apply id_init_inv in HI as (_ & _ & He & EA & Eb & Eg & Ee & _). subst As bs eps gamma.
  rewrite (di_solve_run solver P points com r) by auto. now rewrite ES.
Qed.

(** * A result is returned *)
Lemma pmev_33 t J : length t = 10%nat -> pim_must_equal_vec t = Ok J -> entry J 3 3 = nth 0 t 0.
Proof. intros Ht. destruct_vecs. cbn. intros E. injection E as <-. cbn. ring. Qed.
Lemma quad_e4 J : is_mat 4 4 J -> quad J [0; 0; 0; 1] = entry J 3 3.
Proof. intros HJ. destruct_vecs. cbn. ring. Qed.
Lemma feasible_mass ut P bodies mr coms thetas : id_feasible ut P bodies mr coms thetas -> 0 < id_eps P \/ 0 < id_gamma P -> forall t, In t thetas -> 0 < nth 0 t 0.
Proof.
  intros (HL & H10 & HD & c & Ec & Hc) HP t Ht. rewrite Forall_forall in H10. pose proof (H10 t Ht) as Lt. destruct (pmev_ok t Lt) as (J & EJ & HJ & _).
  rewrite <- (pmev_33 t J Lt EJ). destruct HP as [HP|HP].
  - unfold id_constraints in Ec. apply bind_ok in Ec as (Js & EJs & Ec). apply bind_ok in Ec as (c1 & E1 & Ec). apply bind_ok in Ec as (c2 & E2 & Ec). injection Ec as <-.
    apply Forall_app in Hc as (G1 & _). apply mapM_Forall2 in EJs. apply mapM_Forall2 in E1.
    destruct (Forall2_in_l _ _ _ _ EJs Ht) as (J' & IJ & EJ'). rewrite EJ in EJ'. injection EJ' as <-.
    destruct (Forall2_in_l _ _ _ _ E1 IJ) as (cc & Icc & Ecc). apply pim_psd_inv in Ecc as (_ & _ & ->).
    rewrite Forall_forall in G1. destruct (G1 _ Icc) as [_ HQ]. specialize (HQ [0; 0; 0; 1] eq_refl). clear -HQ HJ HP.
    destruct_vecs. cbn in *. lra.
  - rewrite <- quad_e4 by auto. apply (HD HP t J Ht EJ); [reflexivity|]. intros E. injection E. lra.
Qed.
Lemma id_total ut log_det inv solver r As bs Sigma gamma eps P bodies mr coms thetas : id_init inv As bs Sigma gamma eps = Ok P -> cov_ok r inv Sigma ->
  data_ok r (10 * length bodies) As bs -> 0 < eps \/ 0 < gamma -> (0 < gamma -> forall b, In b bodies -> nominal_ok inv (ip_J (bd_params b))) ->
  (forall b, In b bodies -> mr = true -> exists Ks, Forall2 shape_is (bd_shapes b) Ks /\ (forall s, In s (bd_shapes b) -> shape_proper s)) ->
  (forall l, coms = Some l -> length l = length bodies) ->
  solver (id_cost log_det inv P bodies) (id_feasible ut P bodies mr coms) = Some thetas -> id_feasible ut P bodies mr coms thetas ->
  exists rs, id_solve ut log_det inv solver P bodies mr coms = Ok rs /\ Forall2 (fun p t => ip_vec p = Ok t) rs thetas.
Proof.
  intros HI HC HD HP HN HB HL ES HF. pose proof (id_init_weight _ _ _ _ _ _ _ _ HI HC) as HW.
  apply id_init_inv in HI as (_ & _ & He & EA & Eb & Eg & Ee & _). subst As bs eps gamma.
  rewrite (id_solve_run ut log_det inv solver P bodies mr coms r), ES; auto.
  - pose proof (feasible_mass _ _ _ _ _ _ HF HP) as HM. destruct HF as (_ & H10 & _). clear -HM H10.
    induction H10 as [|t l Ht F IH]; [exists []; split; [reflexivity|constructor]|]. destruct IH as (rs & Er & Fr); [intros; apply HM; now right|].
    destruct (from_vec_vec t Ht (HM t (or_introl eq_refl))) as (p & Ep & _ & _ & _ & Ev). exists (p :: rs). cbn. rewrite Ep. cbn. rewrite Er. split; [reflexivity|]. constructor; auto.
  - apply Forall_forall. intros b Hb E. auto.
  - destruct coms; auto.
Qed.
(** the settings gamma and eps of the discretized problem have no effect *)
Lemma di_settings inv As bs Sigma gamma eps gamma' eps' P P' solver points com : id_init inv As bs Sigma gamma eps = Ok P -> id_init inv As bs Sigma gamma' eps' = Ok P' ->
  di_solve solver P points com = di_solve solver P' points com.
Proof.
  intros H H'. apply id_init_inv in H as (_ & _ & _ & EA & Eb & _ & _ & HW). apply id_init_inv in H' as (_ & _ & _ & EA' & Eb' & _ & _ & HW').
  assert (EW : id_W0 P = id_W0 P'). { destruct Sigma as [C|]; [|congruence]. destruct HW as (W & E1 & ->), HW' as (W' & E1' & ->). congruence. }
  unfold di_solve. replace (di_cost P') with (di_cost P); [reflexivity|]. unfold di_cost. now rewrite EA, EA', Eb, Eb', EW.
Qed.
(** parameters that explain the data are optimal *)
Lemma explaining_optimal ut log_det inv r P bodies mr coms vs : log_det_spec 4 log_det -> 0 <= id_gamma P -> data_ok r (10 * length bodies) (id_As P) (id_bs P) -> weight_ok r (id_W0 P) ->
  (forall b, In b bodies -> nominal_ok inv (ip_J (bd_params b))) -> id_feasible ut P bodies mr coms vs -> explains (id_As P) (id_bs P) (concat vs) ->
  (0 < id_gamma P -> mapM pim_must_equal_vec vs = Ok (map (fun b => ip_J (bd_params b)) bodies)) ->
  optimal (id_cost log_det inv P bodies) (id_feasible ut P bodies mr coms) vs.
Proof.
  intros HLD Hg HD HW HN HF HE HJ. split; [auto|]. intros y c Hy Ec. pose proof HF as (L1 & L2 & _). pose proof Hy as (L3 & L4 & _).
  destruct (id_cost_ok log_det inv P bodies vs r HD HW L1 L2 ltac:(auto)) as (x & Js & _ & _ & X1 & EJ & C1 & C2).
  destruct (id_cost_ok log_det inv P bodies y r HD HW L3 L4 ltac:(auto)) as (x' & Js' & _ & X0' & _ & EJ' & C1' & C2').
  rewrite (proj2 X1 HE) in *. pose proof (no_pos _ _ _ _ HD) as Hp. assert (Hx : 0 <= 1 / 2 / INR (length (id_As P)) * x') by (apply Rmult_le_pos; lra).
  destruct (Rlt_le_dec 0 (id_gamma P)) as [G|G].
  - destruct (C2 G) as (g & Eg & E). destruct (C2' G) as (g' & Eg' & E'). rewrite Ec in E'. injection E' as ->. eexists. split; [exact E|].
    rewrite (HJ G) in EJ. injection EJ as <-.
    destruct (regularizer_min log_det inv Js' (map (fun b => ip_J (bd_params b)) bodies) HLD) as (u & u0 & U & U0 & Ule & _).
    { destruct bodies as [|b bodies]; [destruct HD as (_ & H & _); cbn in H; lia|]. intros ->. apply mapM_length in EJ'. cbn in EJ', L3. lia. }
    { apply mapM_length in EJ'. rewrite map_length. lia. }
    { intros J HJ0. apply in_map_iff in HJ0 as (b & <- & Hb). auto. }
    { apply (feasible_SPD ut P bodies mr coms y); auto. }
    rewrite Eg' in U. injection U as <-. rewrite Eg in U0. injection U0 as <-.
    assert (id_gamma P * g <= id_gamma P * g') by (apply Rmult_le_compat_l; lra). lra.
  - rewrite C1' in Ec by auto. injection Ec as <-. eexists. split; [now apply C1|]. lra.
Qed.
Lemma regularizer_single log_det inv J J0 : log_det_spec 4 log_det -> nominal_ok inv J0 -> SPD 4 J ->
  exists v v0, entropic_regularizer1 log_det inv J J0 = Ok v /\ entropic_regularizer1 log_det inv J0 J0 = Ok v0 /\ v0 <= v /\ (v = v0 -> J = J0).
Proof.
  intros HL HN HJ. destruct (regularizer_min log_det inv [J] [J0] HL) as (v & v0 & E1 & E2 & E3 & E4); [discriminate|reflexivity| | |].
  - intros x [<-|[]]. auto.
  - intros x [<-|[]]. auto.
  - exists v, v0. split; [exact E1|]. split; [exact E2|]. split; [auto|]. intros E. now injection (E4 E).
Qed.
