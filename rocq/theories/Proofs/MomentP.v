(** C45: moment and localizing matrices of finite measures. *)
From Verif Require Import Base.Vec Base.VecFacts Spec.Basic Spec.Moments Model.Util Model.Constraint Model.Moment
  Proofs.Coord Proofs.UtilP Proofs.BoxP Proofs.CylP Proofs.PolynomialP Proofs.BasisP.

(** integrals and Gram matrices *)
Lemma integral_cons w x mu f : integral ((w, x) :: mu) f = w * f x + integral mu f. Proof. reflexivity. Qed.
Lemma integral_ext mu f g : (forall wx, In wx mu -> f (snd wx) = g (snd wx)) -> integral mu f = integral mu g.
Proof. intro H. unfold integral. f_equal. apply map_ext_in. intros wx Hw. now rewrite H. Qed.
Lemma integral_plus mu f g : integral mu (fun x => f x + g x) = integral mu f + integral mu g.
Proof. induction mu as [|[w x] mu IH]; [unfold integral; cbn; lra|]. rewrite !integral_cons, IH. lra. Qed.
Lemma integral_scale mu c f : integral mu (fun x => c * f x) = c * integral mu f.
Proof. induction mu as [|[w x] mu IH]; [unfold integral; cbn; lra|]. rewrite !integral_cons, IH. lra. Qed.
Lemma integral_nonneg n mu f : measure_ok n mu -> (forall wx, In wx mu -> 0 <= f (snd wx)) -> 0 <= integral mu f.
Proof.
  intros H Hf. induction mu as [|[w x] mu IH]; [unfold integral; cbn; lra|]. rewrite integral_cons.
  pose proof (H (w, x) (or_introl eq_refl)) as [Hw _]. pose proof (Hf (w, x) (or_introl eq_refl)). cbn in *.
  assert (0 <= integral mu f) by (apply IH; [intros wx Hx; apply H; now right|intros wx Hx; apply Hf; now right]). nra.
Qed.
Lemma integral_zero mu : integral mu (fun _ => 0) = 0.
Proof. induction mu as [|[w x] mu IH]; [reflexivity|]. rewrite integral_cons, IH. lra. Qed.
Lemma gram_length mu g B : length (gram mu g B) = length B. Proof. apply map_length. Qed.
Lemma is_mat_gram mu g B : is_mat (length B) (length B) (gram mu g B).
Proof. split; [apply map_length|]. apply Forall_forall. intros r H. apply in_map_iff in H as (a & <- & _). apply map_length. Qed.
Lemma entry_gram mu g B i j : (i < length B)%nat -> (j < length B)%nat ->
  entry (gram mu g B) i j = integral mu (fun x => g x * mono x (nth i B []) * mono x (nth j B [])).
Proof. intros Hi Hj. unfold entry, gram. rewrite (nth_map_0 _ _ _ []) by auto. rewrite (nth_map_0 _ _ _ []) by auto. reflexivity. Qed.
Lemma gram_cons w x mu g B : gram ((w, x) :: mu) g B = madd (mscale (w * g x) (outer (map (mono x) B) (map (mono x) B))) (gram mu g B).
Proof.
  apply (mat_ext (length B) (length B)).
  - apply is_mat_gram.
  - apply is_mat_madd; [|apply is_mat_gram]. apply is_mat_mscale. rewrite <- (map_length (mono x) B) at 1 2. apply is_mat_outer.
  - intros i j Hi Hj. rewrite entry_gram by auto. rewrite (entry_madd _ _ (length B) (length B)); auto.
    + rewrite entry_mscale, entry_outer, entry_gram by auto. rewrite !(nth_map_0 _ _ _ []) by auto. rewrite integral_cons. lra.
    + apply is_mat_mscale. rewrite <- (map_length (mono x) B) at 1 2. apply is_mat_outer.
    + apply is_mat_gram.
Qed.
Lemma dot_null (l : list idx) (z : vec) : dot (map (fun _ => 0) l) z = 0.
Proof. revert z; induction l as [|a l IH]; intros [|t z]; unfold dot in *; cbn in *; try lra. rewrite IH. lra. Qed.
Lemma quad_gram mu g B z : length z = length B -> quad (gram mu g B) z = integral mu (fun x => g x * (dot (map (mono x) B) z * dot (map (mono x) B) z)).
Proof.
  intro Lz. induction mu as [|[w x] mu IH].
  - unfold integral. cbn [map lsum fold_right]. unfold quad. replace (mat_vec (gram [] g B) z) with (zeros (length B)).
    + rewrite <- Lz. clear. induction z; unfold dot in *; cbn in *; [lra|]. rewrite Rmult_0_r, Rplus_0_l. auto.
    + unfold mat_vec, gram. rewrite map_map. rewrite (map_ext _ (fun _ => 0)).
      * clear. induction B; cbn; f_equal; auto.
      * intro a. apply dot_null.
  - rewrite gram_cons, (quad_madd (length B) (length B)); auto; [|apply is_mat_mscale; rewrite <- (map_length (mono x) B) at 1 2; apply is_mat_outer|apply is_mat_gram].
    rewrite quad_mscale, quad_outer, IH, integral_cons. lra.
Qed.
Lemma gram_psd n mu g B : measure_ok n mu -> (forall wx, In wx mu -> 0 <= g (snd wx)) -> PSD (length B) (gram mu g B).
Proof.
  intros H Hg. split; [apply is_mat_gram|]. split.
  - intros i j Hi Hj. rewrite !entry_gram by auto. apply integral_ext. intros. lra.
  - intros z Lz. rewrite quad_gram by auto. apply (integral_nonneg n); auto. intros wx Hw. apply Rmult_le_pos; [auto|nra].
Qed.
Lemma PSD_var n M : (0 < n)%nat -> PSD n M -> cp_psd_var n M.
Proof. intros Hn (H1 & H2 & H3). split; [exact H1|]. split; [now apply (symmetric_transpose n)|exact H3]. Qed.

(** the table of indices *)
Lemma mapM_ok {A B} (f : A -> res B) (g : A -> B) l : (forall a, In a l -> f a = Ok (g a)) -> mapM f l = Ok (map g l).
Proof. induction l as [|a l IH]; intro H; [reflexivity|]. cbn. rewrite H by now left. cbn. rewrite IH by (intros; apply H; now right). reflexivity. Qed.
Lemma mm_init_ok n d : (0 < d)%nat -> exists s, mm_init n d = Ok s /\ mm_n s = n /\ mm_d s = d /\ mm_r s = length (basis_list n d) /\
  mm_indices s = map (fun a => map (fun b => Index (iadd a b)) (basis_list n d)) (basis_list n d).
Proof.
  intro Hd. unfold mm_init. rewrite basis_ok by auto. cbn [bind]. set (B := basis_list n d).
  assert (E : mapM (fun a => mapM (elt_mul a) (map Index B)) (map Index B) = Ok (map (fun a => map (fun b => Index (iadd a b)) B) B)).
  { rewrite (mapM_ok _ (fun e => match e with Index a => map (fun b => Index (iadd a b)) B | _ => [] end)).
    - rewrite map_map. reflexivity.
    - intros e He. apply in_map_iff in He as (a & <- & Ha). rewrite (mapM_ok _ (fun e => match e with Index b => Index (iadd a b) | _ => NpZero end)).
      + rewrite map_map. reflexivity.
      + intros e' He'. apply in_map_iff in He' as (b & <- & Hb). unfold elt_mul, idx_add.
        apply basis_in in Ha as [-> _]. apply basis_in in Hb as [-> _]. rewrite Nat.eqb_refl. reflexivity. }
  rewrite E. cbn [bind]. eexists. split; [reflexivity|]. cbn. unfold B. rewrite basis_length. auto.
Qed.
Definition is_mm (n d : nat) (s : MM) : Prop := (0 < d)%nat /\ mm_init n d = Ok s.
Lemma is_mm_inv n d s : is_mm n d s -> (0 < d)%nat /\ mm_n s = n /\ mm_d s = d /\ mm_r s = length (basis_list n d) /\
  mm_indices s = map (fun a => map (fun b => Index (iadd a b)) (basis_list n d)) (basis_list n d).
Proof. intros [Hd E]. destruct (mm_init_ok n d Hd) as (s' & E' & H). rewrite E in E'. injection E' as <-. auto. Qed.
Notation bidx n d i := (nth i (basis_list n d) []).
Lemma mm_index_ok n d s i j : is_mm n d s -> (i < mm_r s)%nat -> (j < mm_r s)%nat -> mm_index s i j = Ok (Index (iadd (bidx n d i) (bidx n d j))).
Proof.
  intros Hs Hi Hj. apply is_mm_inv in Hs as (_ & _ & _ & Er & Ei). rewrite Er in *. unfold mm_index. rewrite Ei.
  rewrite (nth_error_nth' _ []) by (now rewrite map_length). rewrite (nth_map_0 _ _ _ []) by auto.
  rewrite (nth_error_nth' _ PyZero) by (now rewrite map_length). rewrite (nth_map_0 _ _ _ []) by auto. reflexivity.
Qed.

(** the table of moments *)
Lemma get_set_index u w (v : R) m : dict_get elt_eqb (Index u) (dict_set elt_eqb (Index w) v m) = if idx_eqb u w then Some v else dict_get elt_eqb (Index u) m.
Proof.
  induction m as [|[k' v'] m IH]; [cbn; reflexivity|]. cbn [dict_set]. destruct (elt_eqb (Index w) k') eqn:E.
  - destruct k' as [| |k']; try easy. cbn in E. apply idx_eqb_eq in E as ->. cbn. destruct idx_eqb; reflexivity.
  - cbn [dict_get]. destruct (elt_eqb (Index u) k') eqn:E'; [|exact IH]. destruct (idx_eqb u w) eqn:E''; [|reflexivity].
    apply idx_eqb_eq in E'' as ->. congruence.
Qed.
Lemma in_upper r i j : In (i, j) (upper_pairs r) <-> (i <= j < r)%nat.
Proof.
  unfold upper_pairs. rewrite in_flat_map. split.
  - intros (a & Ha & H). apply in_map_iff in H as (b & E & Hb). injection E as -> ->. apply in_seq in Ha, Hb. lia.
  - intro H. exists i. split; [apply in_seq; lia|]. apply in_map_iff. exists j. split; [reflexivity|apply in_seq; lia].
Qed.
Lemma var_map_ok n d s M : is_mm n d s -> is_mat (mm_r s) (mm_r s) M -> exists m, mm_var_map s M = Ok m /\
  (forall u v, dict_get elt_eqb (Index u) m = Some v -> exists i j, (i <= j < mm_r s)%nat /\ u = iadd (bidx n d i) (bidx n d j) /\ v = entry M i j) /\
  (forall i j, (i <= j < mm_r s)%nat -> dict_get elt_eqb (Index (iadd (bidx n d i) (bidx n d j))) m <> None).
Proof.
  intros Hs HM. unfold mm_var_map. rewrite (proj2 (is_matb_iff _ _ _) HM). cbn [assert_ bind].
  assert (G : forall l m0, (forall ij, In ij l -> (fst ij <= snd ij < mm_r s)%nat) ->
    exists m, fold_left (fun acc ij => let* m := acc in let* k := mm_index s (fst ij) (snd ij) in
                Ok (dict_set elt_eqb k (entry M (fst ij) (snd ij)) m)) l (Ok m0) = Ok m /\
      (forall u v, dict_get elt_eqb (Index u) m = Some v -> dict_get elt_eqb (Index u) m0 = Some v \/
         exists i j, In (i, j) l /\ u = iadd (bidx n d i) (bidx n d j) /\ v = entry M i j) /\
      (forall u, dict_get elt_eqb (Index u) m0 <> None -> dict_get elt_eqb (Index u) m <> None) /\
      (forall i j, In (i, j) l -> dict_get elt_eqb (Index (iadd (bidx n d i) (bidx n d j))) m <> None)).
  { induction l as [|[i j] l IH]; intros m0 H; cbn [fold_left fst snd].
    - exists m0. split; [reflexivity|]. split; [auto|]. split; [auto|intros i j []].
    - pose proof (H (i, j) (or_introl eq_refl)) as Hij. cbn in Hij. cbn [bind]. rewrite (mm_index_ok n d) by (auto; lia). cbn [bind].
      destruct (IH (dict_set elt_eqb (Index (iadd (bidx n d i) (bidx n d j))) (entry M i j) m0)) as (m & E & H1 & H2 & H3); [intros; apply H; now right|].
      exists m. split; [exact E|]. split; [|split].
      + intros u v Hu. apply H1 in Hu as [Hu|(i' & j' & Hin & Hu)]; [|right; exists i', j'; split; [now right|exact Hu]].
        rewrite get_set_index in Hu. destruct (idx_eqb u _) eqn:Eu; [|auto]. apply idx_eqb_eq in Eu. injection Hu as <-. right. exists i, j. split; [now left|auto].
      + intros u Hu. apply H2. rewrite get_set_index. destruct idx_eqb; easy.
      + intros i' j' [Hin|Hin]; [|auto]. injection Hin as <- <-. apply H2. rewrite get_set_index, idx_eqb_refl. easy. }
  destruct (G (upper_pairs (mm_r s)) []) as (m & E & H1 & _ & H3).
  - intros [i j] H. apply in_upper in H. exact H.
  - exists m. split; [exact E|]. split.
    + intros u v Hu. apply H1 in Hu as [Hu|(i & j & Hin & Hu)]; [easy|]. apply in_upper in Hin. exists i, j. auto.
    + intros i j Hij. apply H3. now apply in_upper.
Qed.
(** the constraints on a moment matrix say that entries with the same index are equal *)
Lemma moment_constraints_iff n d s M : is_mm n d s -> is_mat (mm_r s) (mm_r s) M ->
  exists cs, mm_moment_constraints s M = Ok cs /\
  ((forall c, In c cs -> c) <-> (forall i j k l, (i <= j < mm_r s)%nat -> (k <= l < mm_r s)%nat ->
      iadd (bidx n d i) (bidx n d j) = iadd (bidx n d k) (bidx n d l) -> entry M i j = entry M k l)).
Proof.
  intros Hs HM. destruct (var_map_ok n d s M Hs HM) as (m & Em & H1 & H2). unfold mm_moment_constraints.
  rewrite (proj2 (is_matb_iff _ _ _) HM), Em. cbn [assert_ bind].
  set (val := fun ij : nat * nat => match dict_get elt_eqb (Index (iadd (bidx n d (fst ij)) (bidx n d (snd ij)))) m with Some v => v | None => 0 end).
  rewrite (mapM_ok _ (fun ij => val ij = entry M (fst ij) (snd ij))).
  - eexists. split; [reflexivity|]. split.
    + intros H i j k l Hij Hkl E.
      assert (A : forall a b, (a <= b < mm_r s)%nat -> val (a, b) = entry M a b) by (intros a b Hab; apply H, in_map_iff; exists (a, b); split; [reflexivity|now apply in_upper]).
      rewrite <- (A i j), <- (A k l) by auto. unfold val. cbn [fst snd]. now rewrite E.
    + intros H c Hc. apply in_map_iff in Hc as ([i j] & <- & Hij). apply in_upper in Hij. unfold val. cbn [fst snd].
      specialize (H2 i j Hij). destruct dict_get as [v|] eqn:Ev; [|easy]. apply H1 in Ev as (k & l & Hkl & Eu & ->). symmetry. now apply H.
  - intros [i j] Hij. apply in_upper in Hij. cbn [fst snd]. rewrite (mm_index_ok n d) by (auto; lia). cbn [bind]. unfold val. cbn [fst snd].
    specialize (H2 i j Hij). destruct dict_get; easy.
Qed.
(** every index of degree at most 2 d is in the table *)
Lemma split_idx (u : idx) k : (k <= degree_of u)%nat -> exists a b, length a = length u /\ length b = length u /\ iadd a b = u /\ degree_of a = k.
Proof.
  revert k; induction u as [|x u IH]; intros k H; cbn in H.
  - exists [], []. repeat split; auto. cbn. lia.
  - destruct (le_lt_dec k x) as [L|L].
    + exists (k :: repeat 0%nat (length u)), ((x - k)%nat :: u). cbn [length]. rewrite repeat_length. repeat split; auto.
      * cbn. rewrite iadd_zero_l by auto. f_equal. lia.
      * cbn. rewrite degree_repeat. lia.
    + destruct (IH (k - x)%nat) as (a & b & La & Lb & E & D); [lia|]. exists (x :: a), (0%nat :: b). cbn [length]. rewrite La, Lb. repeat split; auto.
      * cbn. rewrite E. f_equal. lia.
      * cbn. lia.
Qed.
Lemma cover n d u : length u = n -> (degree_of u <= 2 * d)%nat -> exists i j, (i <= j < length (basis_list n d))%nat /\ u = iadd (bidx n d i) (bidx n d j).
Proof.
  intros L H. assert (S : exists a b, length a = n /\ length b = n /\ iadd a b = u /\ (degree_of a <= d)%nat /\ (degree_of b <= d)%nat).
  { destruct (split_idx u (Nat.min d (degree_of u)) ltac:(lia)) as (a & b & La & Lb & E & D). exists a, b. repeat split; try lia; auto.
    rewrite <- E, degree_iadd in H by lia. rewrite <- E, degree_iadd in D by lia. lia. }
  destruct S as (a & b & La & Lb & E & Da & Db).
  destruct (In_nth (basis_list n d) a [] (proj2 (basis_in n d a) (conj La Da))) as (i & Hi & Ei).
  destruct (In_nth (basis_list n d) b [] (proj2 (basis_in n d b) (conj Lb Db))) as (j & Hj & Ej).
  destruct (le_lt_dec i j) as [C|C]; [exists i, j|exists j, i]; (split; [lia|]); rewrite Ei, Ej, <- E; [reflexivity|apply iadd_comm].
Qed.

(** the moment matrix of a measure *)
Definition moment_matrix (mu : list (R * vec)) (n d : nat) : mat := gram mu (fun _ => 1) (basis_list n d).
Lemma bidx_len n d i : (i < length (basis_list n d))%nat -> length (bidx n d i) = n.
Proof. intro H. apply (basis_in n d), nth_In, H. Qed.
Lemma bidx_deg n d i : (i < length (basis_list n d))%nat -> (degree_of (bidx n d i) <= d)%nat.
Proof. intro H. apply (basis_in n d), nth_In, H. Qed.
Lemma entry_moment mu n d i j : measure_ok n mu -> (i < length (basis_list n d))%nat -> (j < length (basis_list n d))%nat ->
  entry (moment_matrix mu n d) i j = integral mu (fun x => mono x (iadd (bidx n d i) (bidx n d j))).
Proof.
  intros H Hi Hj. unfold moment_matrix. rewrite entry_gram by auto. apply integral_ext. intros wx Hw. apply H in Hw as [_ L].
  rewrite mono_add by (rewrite bidx_len; auto). lra.
Qed.
Lemma moment_matrix_ok n d s mu : is_mm n d s -> is_mat (mm_r s) (mm_r s) (moment_matrix mu n d).
Proof. intro Hs. apply is_mm_inv in Hs as (_ & _ & _ & -> & _). apply is_mat_gram. Qed.
Lemma moment_matrix_psd n d s mu : is_mm n d s -> measure_ok n mu -> PSD (mm_r s) (moment_matrix mu n d).
Proof. intros Hs H. apply is_mm_inv in Hs as (_ & _ & _ & -> & _). apply (gram_psd n); auto. intros; lra. Qed.
Lemma moment_matrix_constraints n d s mu : is_mm n d s -> measure_ok n mu ->
  exists cs, mm_moment_constraints s (moment_matrix mu n d) = Ok cs /\ forall c, In c cs -> c.
Proof.
  intros Hs H. destruct (moment_constraints_iff n d s _ Hs (moment_matrix_ok n d s mu Hs)) as (cs & E & I). exists cs. split; [exact E|]. apply I.
  pose proof (is_mm_inv _ _ _ Hs) as (_ & _ & _ & Er & _). rewrite Er. intros i j k l Hij Hkl Eu. rewrite !entry_moment by (auto; lia). now rewrite Eu.
Qed.
Lemma moment_lookup n d s mu : is_mm n d s -> measure_ok n mu -> exists m, mm_var_map s (moment_matrix mu n d) = Ok m /\
  forall u, length u = n -> (degree_of u <= 2 * d)%nat -> dict_get elt_eqb (Index u) m = Some (integral mu (fun x => mono x u)).
Proof.
  intros Hs H. destruct (var_map_ok n d s _ Hs (moment_matrix_ok n d s mu Hs)) as (m & E & H1 & H2). exists m. split; [exact E|].
  pose proof (is_mm_inv _ _ _ Hs) as (_ & _ & _ & Er & _). rewrite Er in *. intros u Lu Du.
  destruct (cover n d u Lu Du) as (i & j & Hij & ->). specialize (H2 i j Hij). destruct dict_get as [v|] eqn:Ev; [|easy].
  apply H1 in Ev as (k & l & Hkl & -> & ->). rewrite entry_moment by (auto; lia). reflexivity.
Qed.

(** localizing matrices *)
Lemma half_up_ge deg : (deg <= 2 * half_up deg)%nat.
Proof.
  unfold half_up. destruct (Nat.even deg) eqn:E.
  - apply Nat.even_spec in E as [k ->]. rewrite Nat.mul_comm, Nat.div_mul by lia. lia.
  - pose proof (Nat.odd_spec deg) as O. unfold Nat.odd in O. rewrite E in O. destruct O as [O _]. destruct (O eq_refl) as [k ->].
    replace (2 * k + 1 + 1)%nat with ((k + 1) * 2)%nat by lia. rewrite Nat.div_mul by lia. lia.
Qed.
Lemma half_up_le deg d : (half_up deg <= d)%nat <-> (deg <= 2 * d)%nat.
Proof.
  unfold half_up. destruct (Nat.even deg) eqn:E.
  - apply Nat.even_spec in E as [k ->]. rewrite Nat.mul_comm, Nat.div_mul by lia. lia.
  - pose proof (Nat.odd_spec deg) as O. unfold Nat.odd in O. rewrite E in O. destruct O as [O _]. destruct (O eq_refl) as [k ->].
    replace (2 * k + 1 + 1)%nat with ((k + 1) * 2)%nat by lia. rewrite Nat.div_mul by lia. lia.
Qed.
Lemma localize_keys n p i q kv : pol_ok n p -> length i = n -> pol_localize p (Index i) = Ok q -> In kv q ->
  exists kv', In kv' p /\ fst kv = iadd (fst kv') i.
Proof.
  intros Hp Hi E H. rewrite (localize_unfold n) in E by (auto; apply Hp). injection E as <-. pose proof (shift_ok n p i Hp Hi) as S.
  rewrite fold_set_nodup in H by apply S. rewrite pol_init_filter in H by apply S. apply filter_In in H as [H _].
  apply in_map_iff in H as (kv' & <- & H). exists kv'. auto.
Qed.
Lemma integral_peval mu q : integral mu (fun x => peval q x) = lsum (map (fun kv => snd kv * integral mu (fun x => mono x (fst kv))) q).
Proof.
  induction q as [|[k v] q IH]; [cbn [map lsum fold_right]; unfold peval; cbn; apply integral_zero|].
  transitivity (v * integral mu (fun x => mono x k) + integral mu (fun x => peval q x)).
  - rewrite <- integral_scale, <- integral_plus. reflexivity.
  - rewrite IH. reflexivity.
Qed.
Lemma map_nth_seq {A B} (g : A -> B) l d : map (fun i => g (nth i l d)) (seq 0 (length l)) = map g l.
Proof. induction l as [|a l IH]; [reflexivity|]. cbn [length seq map]. f_equal. rewrite <- seq_shift, map_map. exact IH. Qed.
(** entry (i, j) of the localizing matrix *)
Lemma localize_entry n d s mu m p deg i j : is_mm n d s -> measure_ok n mu -> pol_ok n p -> pol_degree p = Ok deg -> (deg <= 2 * d)%nat ->
  (forall u, length u = n -> (degree_of u <= 2 * d)%nat -> dict_get elt_eqb (Index u) m = Some (integral mu (fun x => mono x u))) ->
  let B := basis_list n (d - half_up deg) in (i < length B)%nat -> (j < length B)%nat ->
  exists q, (let* k := mm_index s i j in pol_localize p k) = Ok q /\
  pol_substitute q m = Ok (integral mu (fun x => peval p x * mono x (nth i B []) * mono x (nth j B []))).
Proof.
  intros Hs H Hp Hdeg Hd Hm B Hi Hj. pose proof (is_mm_inv _ _ _ Hs) as (_ & _ & _ & Er & _).
  pose proof (proj2 (half_up_le deg d) Hd) as Hv. destruct (basis_split n d (d - half_up deg) ltac:(lia)) as [t Et]. fold B in Et.
  assert (LB : (length B <= length (basis_list n d))%nat) by (rewrite Et, app_length; lia).
  rewrite (mm_index_ok n d) by (auto; rewrite Er; lia). cbn [bind].
  assert (Ei : bidx n d i = nth i B []) by (rewrite Et, app_nth1; auto). assert (Ej : bidx n d j = nth j B []) by (rewrite Et, app_nth1; auto).
  rewrite Ei, Ej. assert (Li : length (nth i B []) = n) by (apply bidx_len; auto). assert (Lj : length (nth j B []) = n) by (apply bidx_len; auto).
  assert (Lk : length (iadd (nth i B []) (nth j B [])) = n) by (apply iadd_length; auto).
  destruct (localize_some n p _ Hp Lk) as (q & Eq & Oq & Vq). exists q. split; [exact Eq|].
  rewrite (substitute_some q m (fun u => integral mu (fun x => mono x u))).
  - rewrite <- integral_peval. f_equal. apply integral_ext. intros wx Hw. apply H in Hw as [_ Lx]. rewrite Vq, mono_add by congruence. lra.
  - intros kv Hkv. apply Hm; [apply Oq; auto|]. destruct (localize_keys n p _ q kv Hp Lk Eq Hkv) as (kv' & Hkv' & ->).
    apply degree_max in Hdeg as [_ Hdeg]. specialize (Hdeg _ Hkv'). pose proof (bidx_deg n (d - half_up deg) i Hi) as Di. pose proof (bidx_deg n (d - half_up deg) j Hj) as Dj.
    fold B in Di, Dj. pose proof (half_up_ge deg). pose proof (proj2 Hp _ Hkv') as Lkv. rewrite !degree_iadd by congruence. lia.
Qed.
Lemma localize_ok n d s mu p deg : is_mm n d s -> measure_ok n mu -> pol_ok n p -> pol_degree p = Ok deg -> (deg <= 2 * d)%nat ->
  mm_localize s (moment_matrix mu n d) p = Ok (gram mu (fun x => peval p x) (basis_list n (d - half_up deg))).
Proof.
  intros Hs H Hp Hdeg Hd. destruct (moment_lookup n d s mu Hs H) as (m & Em & Hm). unfold mm_localize.
  rewrite (proj2 (is_matb_iff _ _ _) (moment_matrix_ok n d s mu Hs)), Em, Hdeg. cbn [assert_ bind].
  pose proof (is_mm_inv _ _ _ Hs) as (_ & En & Ed & Er & _). pose proof (proj2 (half_up_le deg d) Hd) as Hv. set (B := basis_list n (d - half_up deg)).
  unfold pol_dim_sub. rewrite En, Ed. destruct (Nat.ltb_spec d (half_up deg)) as [C|C]; [lia|]. cbn [bind]. rewrite <- basis_length. fold B.
  rewrite (mapM_ok _ (fun i => map (fun j => integral mu (fun x => peval p x * mono x (nth i B []) * mono x (nth j B []))) (seq 0 (length B)))).
  - f_equal. unfold gram. rewrite <- (map_nth_seq (fun a => map (fun b => integral mu (fun x => peval p x * mono x a * mono x b)) B) B []).
    apply map_ext. intro i. apply (map_nth_seq (fun b => integral mu (fun x => peval p x * mono x (nth i B []) * mono x b)) B []).
  - intros i Hi. apply in_seq in Hi. apply mapM_ok. intros j Hj. apply in_seq in Hj.
    destruct (localize_entry n d s mu m p deg i j Hs H Hp Hdeg Hd Hm) as (q & E1 & E2); [fold B; lia|fold B; lia|].
    destruct (mm_index s i j) as [k|e|]; cbn [bind] in *; [rewrite E1; cbn [bind]; exact E2|discriminate E1|discriminate E1].
Qed.
Lemma localize_psd n d s mu p deg : is_mm n d s -> measure_ok n mu -> pol_ok n p -> pol_degree p = Ok deg -> (deg <= 2 * d)%nat ->
  (forall wx, In wx mu -> 0 <= peval p (snd wx)) ->
  exists L, mm_localize s (moment_matrix mu n d) p = Ok L /\ PSD (pol_dim n (d - half_up deg)) L.
Proof.
  intros Hs H Hp Hdeg Hd Hpos. eexists. split; [apply localize_ok; eauto|]. rewrite <- basis_length. apply (gram_psd n); auto.
Qed.
Lemma localize_high n d s M p deg : is_mm n d s -> is_mat (mm_r s) (mm_r s) M -> pol_degree p = Ok deg -> (2 * d < deg)%nat -> mm_localize s M p = Raise ValueError.
Proof.
  intros Hs HM Hdeg Hd. destruct (var_map_ok n d s M Hs HM) as (m & Em & _). unfold mm_localize.
  rewrite (proj2 (is_matb_iff _ _ _) HM), Em, Hdeg. cbn [assert_ bind]. pose proof (is_mm_inv _ _ _ Hs) as (_ & En & Ed & _).
  unfold pol_dim_sub. rewrite Ed. destruct (Nat.ltb_spec d (half_up deg)) as [C|C]; [reflexivity|]. apply half_up_le in C. lia.
Qed.
Lemma localizing_constraints_hold n d s mu polys : is_mm n d s -> measure_ok n mu ->
  (forall p, In p polys -> pol_ok n p /\ (exists deg, pol_degree p = Ok deg /\ (deg <= 2 * d)%nat) /\ forall wx, In wx mu -> 0 <= peval p (snd wx)) ->
  exists cs, mm_localizing_constraints s (moment_matrix mu n d) polys = Ok cs /\ forall c, In c cs -> c.
Proof.
  intros Hs H Hps. destruct (moment_lookup n d s mu Hs H) as (m & Em & Hm). unfold mm_localizing_constraints.
  rewrite (proj2 (is_matb_iff _ _ _) (moment_matrix_ok n d s mu Hs)), Em. cbn [assert_ bind].
  assert (G : forall p, In p polys -> exists c : Prop, (let* deg := pol_degree p in
    let* Ls := mm_localizing_matrix s (half_up deg) p in
    let* L := mapM (mapM (fun q => pol_substitute q m)) Ls in
    Ok (exists L_var, cp_psd_var (length Ls) L_var /\
          forall i j, (i < length Ls)%nat -> (j < length Ls)%nat -> entry L_var i j = entry L i j)) = Ok c /\ c).
  { intros p Hin. destruct (Hps p Hin) as (Hp & (deg & Hdeg & Hd) & Hpos). rewrite Hdeg. cbn [bind]. unfold mm_localizing_matrix.
    pose proof (is_mm_inv _ _ _ Hs) as (_ & En & Ed & Er & _). pose proof (proj2 (half_up_le deg d) Hd) as Hv. set (B := basis_list n (d - half_up deg)).
    unfold pol_dim_sub. rewrite En, Ed. destruct (Nat.ltb_spec d (half_up deg)) as [C|C]; [lia|]. cbn [bind]. rewrite <- basis_length. fold B.
    assert (LB : (length B <= mm_r s)%nat) by (destruct (basis_split n d (d - half_up deg) ltac:(lia)) as [t Et]; rewrite Er, Et, app_length; fold B; lia).
    set (q := fun i j => match (let* k := mm_index s i j in pol_localize p k) with Ok q => q | _ => [] end).
    assert (Q : forall i j, (i < length B)%nat -> (j < length B)%nat -> (let* k := mm_index s i j in pol_localize p k) = Ok (q i j) /\
      pol_substitute (q i j) m = Ok (integral mu (fun x => peval p x * mono x (nth i B []) * mono x (nth j B [])))).
    { intros i j Hi Hj. destruct (localize_entry n d s mu m p deg i j Hs H Hp Hdeg Hd Hm Hi Hj) as (q' & E1 & E2). unfold q. rewrite E1. auto. }
    rewrite (mapM_ok _ (fun i => map (fun j => q i j) (seq 0 (length B)))).
    2:{ intros i Hi. apply in_seq in Hi. apply mapM_ok. intros j Hj. apply in_seq in Hj. apply Q; lia. }
    cbn [bind]. rewrite (mapM_ok _ (map (fun p' => match pol_substitute p' m with Ok v => v | _ => 0 end))).
    2:{ intros l Hl. apply in_map_iff in Hl as (i & <- & Hi). apply in_seq in Hi. apply mapM_ok. intros p' Hp'. apply in_map_iff in Hp' as (j & <- & Hj). apply in_seq in Hj.
        rewrite (proj2 (Q i j ltac:(lia) ltac:(lia))). reflexivity. }
    cbn [bind]. eexists. split; [reflexivity|]. rewrite map_length, seq_length. exists (gram mu (fun x => peval p x) B).
    split.
    - destruct (Nat.eq_dec (length B) 0) as [Z|Z].
      + exfalso. assert (I : In (repeat 0%nat n) B) by (apply basis_in; rewrite repeat_length, degree_repeat; lia). destruct B; [easy|discriminate].
      + apply PSD_var; [lia|]. apply (gram_psd n); auto.
    - intros i j Hi Hj. rewrite entry_gram by auto. unfold entry at 1. rewrite map_map.
      rewrite nth_map_seq by auto. rewrite map_map. rewrite nth_map_seq by auto. rewrite (proj2 (Q i j Hi Hj)). reflexivity. }
  clear - G. induction polys as [|p ps IH]; [exists []; split; [reflexivity|intros c []]|]. cbn [mapM].
  destruct (G p (or_introl eq_refl)) as (c & Ec & Hc). destruct IH as (cs & Ecs & Hcs); [intros; apply G; now right|].
  rewrite Ec. cbn [bind]. rewrite Ecs. cbn [bind]. exists (c :: cs). split; [reflexivity|]. intros c' [<-|H']; [exact Hc|exact (Hcs _ H')].
Qed.

(** relaxation order 0 *)
Lemma mm_zero n s : mm_init n 0 = Ok s -> s = {| mm_n := n; mm_d := 0; mm_r := pol_dim n 0; mm_indices := [[NpZero]] |}.
Proof. intro H. injection H as <-. reflexivity. Qed.
Lemma dim_zero n : pol_dim n 0 = 1%nat. Proof. rewrite <- basis_length. reflexivity. Qed.
Lemma localize_order_zero n s c M p : mm_init n 0 = Ok s -> is_mat 1 1 M -> c <> 0 -> p = pol_init [(repeat 0%nat n, c)] 0 ->
  mm_localize s M p = Raise AttributeError.
Proof.
  intros E HM Hc ->. apply mm_zero in E as ->. unfold mm_localize. cbn [mm_r mm_n mm_d]. rewrite dim_zero, (proj2 (is_matb_iff _ _ _) HM). cbn [assert_ bind].
  unfold mm_var_map. cbn [mm_r mm_n mm_d]. rewrite ?dim_zero, (proj2 (is_matb_iff _ _ _) HM). cbn [assert_ bind upper_pairs seq flat_map map Nat.sub app fold_left fst snd mm_index mm_indices nth_error dict_set].
  rewrite pol_init_filter by (constructor; [easy|constructor]). cbn [filter snd fst].
  destruct (isclose 0 0 c 0) eqn:C; [apply isclose_zero in C; easy|]. cbn [negb]. unfold pol_degree. cbn [map fst]. rewrite idx_deg_degree, degree_repeat. cbn [fold_left bind].
  change (half_up 0) with 0%nat. unfold pol_dim_sub. cbn [Nat.ltb Nat.leb Nat.sub]. rewrite dim_zero. reflexivity.
Qed.

(** the constraints for a polynomial say that its localizing matrix is positive semidefinite *)
Lemma mapM_split {A B C} (h : A -> res C) (f : A -> res B) (g : B -> res C) l r : (forall a c, h a = Ok c -> exists b, f a = Ok b /\ g b = Ok c) ->
  mapM h l = Ok r -> exists bs, mapM f l = Ok bs /\ mapM g bs = Ok r.
Proof.
  intro H. revert r; induction l as [|a l IH]; intros r E; cbn [mapM] in *; [injection E as <-; exists []; auto|].
  apply bind_inv in E as (c & Ec & E). apply bind_inv in E as (cs & Ecs & E). injection E as <-.
  destruct (H a c Ec) as (b & Eb & Eg). destruct (IH cs Ecs) as (bs & Ebs & Egs). exists (b :: bs). rewrite Eb, Ebs. cbn [bind mapM]. rewrite Eg, Egs. auto.
Qed.
Lemma mapM_length {A B} (f : A -> res B) l r : mapM f l = Ok r -> length r = length l.
Proof.
  revert r; induction l as [|a l IH]; intros r E; cbn [mapM] in *; [now injection E as <-|].
  apply bind_inv in E as (c & Ec & E). apply bind_inv in E as (cs & Ecs & E). injection E as <-. cbn. now rewrite (IH cs).
Qed.
Lemma mapM_in {A B} (f : A -> res B) l r b : mapM f l = Ok r -> In b r -> exists a, In a l /\ f a = Ok b.
Proof.
  revert r; induction l as [|a l IH]; intros r E H; cbn [mapM] in *; [now injection E as <-|].
  apply bind_inv in E as (c & Ec & E). apply bind_inv in E as (cs & Ecs & E). injection E as <-. destruct H as [<-|H].
  - exists a. split; [now left|exact Ec].
  - destruct (IH cs Ecs H) as (a' & Ha & E'). exists a'. split; [now right|exact E'].
Qed.
Lemma localizing_iff n d s M p L : is_mm n d s -> mm_localize s M p = Ok L ->
  exists c, mm_localizing_constraints s M [p] = Ok [c] /\ (c <-> PSD (length L) L).
Proof.
  intros Hs E. unfold mm_localize in E. apply bind_inv in E as (u & Eu & E). apply bind_inv in E as (m & Em & E). apply bind_inv in E as (deg & Ed & E).
  apply bind_inv in E as (r & Er & E). unfold mm_localizing_constraints. rewrite Eu, Em. cbn [bind mapM]. rewrite Ed. cbn [bind].
  unfold mm_localizing_matrix. rewrite Er. cbn [bind].
  assert (ML : is_mat r r L).
  { split; [now rewrite (mapM_length _ _ _ E), seq_length|]. apply Forall_forall. intros row Hrow. destruct (mapM_in _ _ _ _ E Hrow) as (i & _ & Ei).
    now rewrite (mapM_length _ _ _ Ei), seq_length. }
  assert (Sp : exists Ls, mapM (fun i => mapM (fun j => let* k := mm_index s i j in pol_localize p k) (seq 0 r)) (seq 0 r) = Ok Ls /\
    mapM (mapM (fun q => pol_substitute q m)) Ls = Ok L).
  { revert E. apply mapM_split. intros i row. apply mapM_split. intros j v Hv. apply bind_inv in Hv as (k & Ek & Hv).
    apply bind_inv in Hv as (q & Eq & Hv). exists q. rewrite Ek. auto. }
  destruct Sp as (Ls & E1 & E2).
  rewrite E1. cbn [bind]. rewrite E2. cbn [bind]. eexists. split; [reflexivity|].
  assert (LL : length Ls = r) by (now rewrite (mapM_length _ _ _ E1), seq_length). rewrite LL, (proj1 ML). split.
  - intros (Lv & (V1 & V2 & V3) & Heq). assert (Lv = L) as -> by (apply (mat_ext r r); auto).
    split; [exact ML|]. split; [|exact V3]. intros i j Hi Hj. rewrite <- V2 at 1. apply entry_transpose. rewrite (is_mat_ncols r r); auto; lia.
  - intros (P1 & P2 & P3). exists L. split; [|auto]. destruct (Nat.eq_dec r 0) as [->|Z].
    + destruct ML as [ML1 _]. destruct L; [|easy]. split; [split; [reflexivity|constructor]|]. split; [reflexivity|exact P3].
    + apply PSD_var; [lia|]. split; auto.
Qed.

(** statements in terms of the basis returned by the code *)
Lemma basis_inj n d B : (0 < d)%nat -> pol_basis n d = Ok (map Index B) -> B = basis_list n d.
Proof.
  intros Hd E. rewrite basis_ok in E by auto. injection E as E. revert E. generalize (basis_list n d) as C. induction B as [|b B IH]; intros [|c C] E; try easy.
  cbn in E. injection E as -> E. f_equal. now apply IH.
Qed.
Lemma measure_moment n d B s mu : (0 < d)%nat -> pol_basis n d = Ok (map Index B) -> mm_init n d = Ok s -> measure_ok n mu ->
  length B = mm_r s /\ PSD (mm_r s) (gram mu (fun _ => 1) B) /\
  exists cs, mm_moment_constraints s (gram mu (fun _ => 1) B) = Ok cs /\ forall c, In c cs -> c.
Proof.
  intros Hd HB Hs Hmu. apply basis_inj in HB as ->; auto. assert (Is : is_mm n d s) by (split; auto).
  split; [|split; [now apply (moment_matrix_psd n d)|now apply moment_matrix_constraints]].
  now apply is_mm_inv in Is as (_ & _ & _ & -> & _).
Qed.
Lemma measure_localize n d B s mu p deg : (0 < d)%nat -> pol_basis n d = Ok (map Index B) -> mm_init n d = Ok s -> measure_ok n mu ->
  pol_ok n p -> pol_degree p = Ok deg -> (deg <= 2 * d)%nat ->
  exists L, mm_localize s (gram mu (fun _ => 1) B) p = Ok L /\
    L = gram mu (fun x => peval p x) (firstn (pol_dim n (d - (deg + 1) / 2)) B) /\
    ((forall wx, In wx mu -> 0 <= peval p (snd wx)) -> PSD (pol_dim n (d - (deg + 1) / 2)) L).
Proof.
  intros Hd HB Hs Hmu Hp Hdeg Hle. apply basis_inj in HB as ->; auto. assert (Is : is_mm n d s) by (split; auto).
  assert (Hh : ((deg + 1) / 2 = half_up deg)%nat).
  { unfold half_up. destruct (Nat.even deg) eqn:E; [|reflexivity]. apply Nat.even_spec in E as [k ->].
    rewrite (Nat.mul_comm 2 k), Nat.div_mul, Nat.add_comm, Nat.div_add by lia. reflexivity. }
  rewrite Hh, basis_prefix by lia. eexists. split; [apply localize_ok; eauto|]. split; [reflexivity|].
  intro Hpos. rewrite <- basis_length. apply (gram_psd n); auto.
Qed.
Lemma measure_localizing n d B s mu polys : (0 < d)%nat -> pol_basis n d = Ok (map Index B) -> mm_init n d = Ok s -> measure_ok n mu ->
  (forall p, In p polys -> pol_ok n p /\ (exists deg, pol_degree p = Ok deg /\ (deg <= 2 * d)%nat) /\ forall wx, In wx mu -> 0 <= peval p (snd wx)) ->
  exists cs, mm_localizing_constraints s (gram mu (fun _ => 1) B) polys = Ok cs /\ forall c, In c cs -> c.
Proof. intros Hd HB Hs Hmu Hp. apply basis_inj in HB as ->; auto. apply localizing_constraints_hold; auto. split; auto. Qed.
Lemma measure_constraints_iff n d B s M : (0 < d)%nat -> pol_basis n d = Ok (map Index B) -> mm_init n d = Ok s -> is_mat (mm_r s) (mm_r s) M ->
  exists cs, mm_moment_constraints s M = Ok cs /\
  ((forall c, In c cs -> c) <-> (forall i j k l, (i <= j < mm_r s)%nat -> (k <= l < mm_r s)%nat ->
      map2 Nat.add (nth i B []) (nth j B []) = map2 Nat.add (nth k B []) (nth l B []) -> entry M i j = entry M k l)).
Proof. intros Hd HB Hs HM. apply basis_inj in HB as ->; auto. apply moment_constraints_iff; auto. split; auto. Qed.
Lemma localize_too_high n d s M p deg : (0 < d)%nat -> mm_init n d = Ok s -> is_mat (mm_r s) (mm_r s) M -> pol_degree p = Ok deg -> (2 * d < deg)%nat ->
  mm_localize s M p = Raise ValueError.
Proof. intros Hd Hs. apply (localize_high n d). split; auto. Qed.
Lemma localizing_is_psd n d s M p L : (0 < d)%nat -> mm_init n d = Ok s -> mm_localize s M p = Ok L ->
  exists c, mm_localizing_constraints s M [p] = Ok [c] /\ (c <-> PSD (length L) L).
Proof. intros Hd Hs. apply (localizing_iff n d). split; auto. Qed.
