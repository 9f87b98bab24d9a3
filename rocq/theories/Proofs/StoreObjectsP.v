From Coq Require Import String.
From Verif Require Import Base.Vec Base.VecFacts Model.Util Model.Inertial Model.Polydd Model.Poly Model.Ellipsoid Model.Box Model.Cylinder
  Model.Realize Model.Moment Model.RigidBody Model.MultiBody Model.Store Model.StoreObjects Spec.Sharing Spec.SharingObjects Proofs.StoreP.
Import ListNotations.
Local Notation length := List.length.

Lemma nth_app_l {A} (l m : list A) i d : (i < length l)%nat -> nth i (l ++ m) d = nth i l d.
Proof. apply app_nth1. Qed.
Lemma set_nth_other {A} (l : list A) i j x d : i <> j -> nth j (set_nth l i x) d = nth j l d.
Proof. revert i j. induction l as [|a l IH]; intros [|i] [|j] H; cbn; auto; try easy; apply IH; lia. Qed.
Lemma set_nth_same {A} (l : list A) i x d : (i < length l)%nat -> nth i (set_nth l i x) d = x.
Proof. revert i. induction l as [|a l IH]; intros [|i] H; cbn in *; try lia; auto. apply IH. lia. Qed.
Lemma set_nth_len {A} (l : list A) i x : length (set_nth l i x) = length l.
Proof. revert i. induction l as [|a l IH]; intros [|i]; cbn; auto. Qed.
Lemma set_nth_app_r {A} (l m : list A) i x : (length l <= i)%nat -> set_nth (l ++ m) i x = l ++ set_nth m (i - length l) x.
Proof. revert i. induction l as [|a l IH]; intros i H; [now rewrite Nat.sub_0_r|]. destruct i as [|i]; cbn in *; [lia|]. f_equal. apply IH. lia. Qed.
Lemma ext_refl {A} (l : list A) : extends l l.
Proof. exists []. now rewrite app_nil_r. Qed.
Lemma ext_app {A} (l m : list A) : extends l (l ++ m).
Proof. now exists m. Qed.
Lemma ext_trans {A} (l m n : list A) : extends l m -> extends m n -> extends l n.
Proof. intros [a ->] [b ->]. exists (a ++ b). now rewrite app_assoc. Qed.
Lemma ext_len {A} (l m : list A) : extends l m -> (length l <= length m)%nat.
Proof. intros [a ->]. rewrite app_length. lia. Qed.
Lemma ext_nth {A} (l m : list A) i d : extends l m -> (i < length l)%nat -> nth i m d = nth i l d.
Proof. intros [a ->] H. now apply app_nth1. Qed.

(** ** changes *)
Lemma changes_lists ms : forall h, length (o_lists (changes h ms)) = length (o_lists h) /\ length (o_shapes (changes h ms)) = length (o_shapes h) /\ length (o_params (changes h ms)) = length (o_params h).
Proof.
  induction ms as [|m ms IH]; intro h; [auto|]. cbn [changes fold_left]. fold (changes (change_apply h m) ms). destruct (IH (change_apply h m)) as (E1 & E2 & E3). rewrite E1, E2, E3.
  destruct m; cbn; rewrite ?set_nth_len; auto.
Qed.
Lemma changes_list h0 ms l : caller_changes h0 ms -> (length (o_lists h0) <= l)%nat -> forall h, list_at (changes h ms) l = list_at h l.
Proof.
  intros C L. induction ms as [|m ms IH]; intro h; [reflexivity|]. cbn [changes fold_left]. fold (changes (change_apply h m) ms).
  rewrite IH by (intros x Hx; apply C; now right). specialize (C m (or_introl eq_refl)). destruct m; cbn in *; try reflexivity. unfold list_at. cbn. apply set_nth_other. lia.
Qed.
Lemma changes_params h0 ms p : caller_changes h0 ms -> (length (o_params h0) <= p)%nat -> forall h, params_at (changes h ms) p = params_at h p.
Proof.
  intros C L. induction ms as [|m ms IH]; intro h; [reflexivity|]. cbn [changes fold_left]. fold (changes (change_apply h m) ms).
  rewrite IH by (intros x Hx; apply C; now right). specialize (C m (or_introl eq_refl)). destruct m; cbn in *; try reflexivity. unfold params_at. cbn. apply set_nth_other. lia.
Qed.
Lemma changes_shape h0 ms r : caller_changes h0 ms -> (length (o_shapes h0) <= r)%nat -> forall h, shape_at (changes h ms) r = shape_at h r.
Proof.
  intros C L. induction ms as [|m ms IH]; intro h; [reflexivity|]. cbn [changes fold_left]. fold (changes (change_apply h m) ms).
  rewrite IH by (intros x Hx; apply C; now right). specialize (C m (or_introl eq_refl)). destruct m; cbn in *; try reflexivity. unfold shape_at. cbn. apply set_nth_other. lia.
Qed.
Lemma hg_refl h : heap_grows h h.
Proof. repeat split; apply ext_refl. Qed.
Lemma hg_trans a b c : heap_grows a b -> heap_grows b c -> heap_grows a c.
Proof. intros (X1 & X2 & X3) (Y1 & Y2 & Y3). repeat split; eapply ext_trans; eauto. Qed.
Lemma hg_list h h' l : heap_grows h h' -> (l < length (o_lists h))%nat -> list_at h' l = list_at h l.
Proof. intros (_ & E & _) H. now apply ext_nth. Qed.
Lemma hg_shape h h' r : heap_grows h h' -> (r < length (o_shapes h))%nat -> shape_at h' r = shape_at h r.
Proof. intros (E & _ & _) H. now apply ext_nth. Qed.
Lemma hg_params h h' p : heap_grows h h' -> (p < length (o_params h))%nat -> params_at h' p = params_at h p.
Proof. intros (_ & _ & E) H. now apply ext_nth. Qed.
Lemma hg_view h h' b : heap_grows h h' -> live_body h b -> bs_view h' b = bs_view h b.
Proof.
  intros G ((L & Lr) & Lp). unfold bs_view. f_equal; [|now apply hg_params]. rewrite (hg_list h h') by auto. apply map_ext_in. intros r Hr. apply hg_shape; auto.
Qed.
Lemma hg_newshapes ss h : heap_grows h (snd (new_shapes ss h)).
Proof. repeat split; cbn; [apply ext_app|apply ext_refl|apply ext_refl]. Qed.
Lemma hg_newlist l h : heap_grows h (snd (new_list l h)).
Proof. repeat split; cbn; [apply ext_refl|apply ext_app|apply ext_refl]. Qed.
Lemma hg_newparams l h : heap_grows h (snd (new_params l h)).
Proof. repeat split; cbn; [apply ext_refl|apply ext_refl|apply ext_app]. Qed.
Lemma nth_snoc {A} (l : list A) x d : nth (length l) (l ++ [x]) d = x.
Proof. rewrite app_nth2, Nat.sub_diag by lia. reflexivity. Qed.
Lemma shapes_new ss h : map (shape_at (snd (new_shapes ss h))) (fst (new_shapes ss h)) = ss.
Proof.
  unfold shape_at. cbn [new_shapes fst snd o_shapes]. generalize (o_shapes h) as l. clear h. intro l.
  assert (K : forall ss pre, map (fun r => nth r (pre ++ ss) no_shape) (seq (length pre) (length ss)) = ss).
  { clear. induction ss as [|s ss IH]; intro pre; [reflexivity|]. cbn [seq map List.length]. f_equal.
    - rewrite app_nth2, Nat.sub_diag by lia. reflexivity.
    - replace (S (length pre)) with (length (pre ++ [s])) by (rewrite app_length; cbn; lia). transitivity (map (fun r => nth r ((pre ++ [s]) ++ ss) no_shape) (seq (length (pre ++ [s])) (length ss))); [|apply IH]. apply map_ext. intro r. now rewrite <- app_assoc. }
  apply K.
Qed.

(** ** RigidBody *)
Lemma bs_init_spec l p h : live_list h l -> match p with Some p => (p < length (o_params h))%nat | None => True end ->
  has_outcome (bs_init (ListObj l) p h) (rb_init (ShapeList (map (shape_at h) (list_at h l))) (option_map (params_at h) p))
    (fun b h' q => bs_view h' b = q /\ heap_grows h h' /\
       forall ms, caller_changes h ms -> bs_view (changes h' ms) b =
         {| bd_shapes := map (shape_at (changes h' ms)) (list_at (changes h' ms) l);
            bd_params := match p with Some p => params_at (changes h' ms) p | None => bd_params q end |}).
Proof.
  intros (L & Lr) Lp. unfold bs_init, rb_init. destruct p as [p|]; cbn [option_map fst snd bind has_outcome].
  - do 2 eexists. split; [reflexivity|]. split; [reflexivity|]. split; [apply hg_refl|]. intros ms _. reflexivity.
  - destruct ip_zero as [z|e|] eqn:EZ; cbn [bind has_outcome]; try reflexivity. do 2 eexists. split; [reflexivity|]. cbn [fst snd].
    pose proof (hg_newparams z h) as G.
    assert (EP : params_at (snd (new_params z h)) (length (o_params h)) = z) by (unfold params_at; cbn; apply nth_snoc).
    split; [|split; [exact G|]].
    + unfold bs_view. cbn [bs_shapes bs_params]. f_equal. exact EP.
    + intros ms C. unfold bs_view. cbn [bs_shapes bs_params bd_params]. f_equal. rewrite (changes_params h ms); auto.
Qed.
Lemma bs_one_spec r p h : (r < length (o_shapes h))%nat -> (p < length (o_params h))%nat ->
  has_outcome (bs_init (OneObj r) (Some p) h) (rb_init (OneShape (shape_at h r)) (Some (params_at h p)))
    (fun b h' q => bs_view h' b = q /\ heap_grows h h' /\
       forall ms, caller_changes h ms -> bs_view (changes h' ms) b =
         {| bd_shapes := [shape_at (changes h' ms) r]; bd_params := params_at (changes h' ms) p |}).
Proof.
  intros Lr Lp. unfold bs_init, rb_init. cbn [bind fst snd has_outcome]. do 2 eexists. split; [reflexivity|]. pose proof (hg_newlist [r] h) as G.
  assert (EL : list_at (snd (new_list [r] h)) (length (o_lists h)) = [r]) by (unfold list_at; cbn; apply nth_snoc).
  split; [|split; [exact G|]].
  - unfold bs_view. cbn [bs_shapes bs_params]. cbn [new_list fst]. rewrite EL. reflexivity.
  - intros ms C. unfold bs_view. cbn [bs_shapes bs_params]. cbn [new_list fst]. rewrite (changes_list h ms) by auto. rewrite EL. reflexivity.
Qed.
Lemma bs_add_spec a b h : live_body h a -> live_body h b ->
  has_outcome (bs_add a b h) (rb_add (bs_view h a) (bs_view h b))
    (fun c h' q => bs_view h' c = q /\ heap_grows h h' /\
       (forall ms, caller_changes h ms -> bs_view (changes h' ms) c =
         {| bd_shapes := map (shape_at (changes h' ms)) (list_at h (bs_shapes a) ++ list_at h (bs_shapes b)); bd_params := bd_params q |}) /\
       (forall r q' d, live_body h d -> bs_view (changes h' [Append (bs_shapes c) r; SetParams (bs_params c) q']) d = bs_view h d)).
Proof.
  intros La Lb. unfold bs_add, rb_add. cbn [bs_view bd_params bd_shapes]. set (l := (list_at h _ ++ list_at h _)%list).
  destruct (ip_add _ _) as [q|e|] eqn:EA; cbn [bind has_outcome]; try reflexivity. do 2 eexists. split; [reflexivity|]. set (h1 := snd (new_list l h)). set (h2 := snd (new_params q h1)).
  assert (G1 : heap_grows h h1) by apply hg_newlist. assert (G2 : heap_grows h1 h2) by apply hg_newparams. pose proof (hg_trans _ _ _ G1 G2) as G.
  assert (EL : list_at h2 (length (o_lists h)) = l) by (unfold list_at; cbn; apply nth_snoc).
  assert (EP : params_at h2 (length (o_params h)) = q) by (unfold params_at; cbn; apply nth_snoc).
  assert (ES : map (shape_at h2) l = (map (shape_at h) (list_at h (bs_shapes a)) ++ map (shape_at h) (list_at h (bs_shapes b)))%list) by (unfold l; rewrite map_app; reflexivity).
  split; [|split; [exact G|split]].
  - unfold bs_view. cbn [bs_shapes bs_params new_list new_params fst]. cbn [o_params h1 new_list snd]. rewrite EL, EP, ES. reflexivity.
  - intros ms C. unfold bs_view. cbn [bs_shapes bs_params new_list new_params fst bd_params]. cbn [o_params h1 new_list snd]. rewrite (changes_list h ms), (changes_params h ms) by auto. rewrite EL, EP. reflexivity.
  - intros r q' d Ld. rewrite <- (hg_view h h2 d) by auto. destruct Ld as ((L & _) & Lp).
    transitivity (bs_view {| o_shapes := o_shapes h2; o_lists := set_nth (o_lists h2) (length (o_lists h)) (list_at h2 (length (o_lists h)) ++ [r]); o_params := set_nth (o_params h2) (length (o_params h)) q' |} d); [reflexivity|].
    unfold bs_view, list_at, params_at. cbn [o_shapes o_lists o_params]. rewrite !set_nth_other by lia. reflexivity.
Qed.
Lemma fresh_list ss h ms : caller_changes h ms -> forall h', heap_grows (snd (new_shapes ss h)) h' ->
  map (shape_at (changes h' ms)) (fst (new_shapes ss h)) = ss.
Proof.
  intros C h' G. rewrite <- (shapes_new ss h) at 2. apply map_ext_in. intros r Hr. cbn [new_shapes fst] in Hr. apply in_seq in Hr.
  rewrite (changes_shape h ms) by (auto; lia). apply hg_shape; auto. cbn. rewrite app_length. lia.
Qed.
Lemma changes_nil h : changes h [] = h.
Proof. reflexivity. Qed.
Lemma no_changes h : caller_changes h [].
Proof. intros m []. Qed.
Lemma bs_mbes_spec mp me b sphere h : live_body h b ->
  has_outcome (bs_mbes mp me b sphere h) (rb_mbes mp me (bs_view h b) sphere)
    (fun c h' q => bs_view h' c = q /\ heap_grows h h' /\ bs_params c = bs_params b /\
       forall ms, caller_changes h ms -> bs_view (changes h' ms) c =
         {| bd_shapes := bd_shapes q; bd_params := params_at (changes h' ms) (bs_params b) |}).
Proof.
  intros ((L & Lr) & Lp). unfold bs_mbes, rb_mbes. cbn [bs_view bd_shapes bd_params]. destruct (mapM _ _) as [es|e|] eqn:EM; cbn [bind has_outcome]; try reflexivity.
  unfold rb_init. cbn [bind has_outcome]. do 2 eexists. split; [reflexivity|]. set (h1 := snd (new_shapes es h)). set (h2 := snd (new_list _ _)).
  assert (G1 : heap_grows h h1) by apply hg_newshapes. assert (G2 : heap_grows h1 h2) by apply hg_newlist. pose proof (hg_trans _ _ _ G1 G2) as G.
  assert (EL : list_at h2 (length (o_lists h)) = fst (new_shapes es h)) by (unfold list_at; cbn; apply nth_snoc).
  assert (K : forall ms, caller_changes h ms -> bs_view (changes h2 ms) {| bs_shapes := length (o_lists h); bs_params := bs_params b |} = {| bd_shapes := es; bd_params := params_at (changes h2 ms) (bs_params b) |}).
  { intros ms C. unfold bs_view. cbn [bs_shapes bs_params]. rewrite (changes_list h ms) by auto. rewrite EL. f_equal. now apply (fresh_list es h). }
  split; [|split; [exact G|split; [reflexivity|]]].
  - rewrite <- (changes_nil h2). etransitivity; [exact (K [] (no_changes h))|]. reflexivity.
  - exact K.
Qed.
Lemma bs_transform_spec dd b R t h : live_body h b ->
  has_outcome (bs_transform dd b R t h) (rb_transform dd (bs_view h b) R t)
    (fun c h' q => bs_view h' c = q /\ heap_grows h h' /\ forall ms, caller_changes h ms -> bs_view (changes h' ms) c = q).
Proof.
  intros ((L & Lr) & Lp). unfold bs_transform, rb_transform. cbn [bs_view bd_shapes bd_params]. destruct (clean_transform R t 3) as [rt|e|]; cbn [bind has_outcome]; try reflexivity.
  destruct (mapM _ _) as [es|e|] eqn:EM; cbn [bind has_outcome]; try reflexivity.
  destruct (ip_transform _ _ _) as [q|e|]; cbn [bind has_outcome]; try reflexivity.
  unfold rb_init. cbn [bind has_outcome]. do 2 eexists. split; [reflexivity|]. set (h1 := snd (new_shapes es h)). set (h2 := snd (new_list _ _)). set (h3 := snd (new_params q h2)).
  assert (G1 : heap_grows h h1) by apply hg_newshapes. assert (G2 : heap_grows h1 h2) by apply hg_newlist. assert (G3 : heap_grows h2 h3) by apply hg_newparams.
  pose proof (hg_trans _ _ _ G1 (hg_trans _ _ _ G2 G3)) as G. pose proof (hg_trans _ _ _ G2 G3) as G23.
  assert (EL : list_at h3 (length (o_lists h)) = fst (new_shapes es h)) by (unfold list_at; cbn; apply nth_snoc).
  assert (EP : params_at h3 (length (o_params h)) = q) by (unfold params_at; cbn; apply nth_snoc).
  assert (K : forall ms, caller_changes h ms -> bs_view (changes h3 ms) {| bs_shapes := length (o_lists h); bs_params := length (o_params h) |} = {| bd_shapes := es; bd_params := q |}).
  { intros ms C. unfold bs_view. cbn [bs_shapes bs_params]. rewrite (changes_list h ms), (changes_params h ms) by auto. rewrite EL, EP. f_equal. now apply (fresh_list es h). }
  split; [|split; [exact G|]].
  - rewrite <- (changes_nil h3). apply K. apply no_changes.
  - exact K.
Qed.
Lemma bs_sum_single b h : bs_radd0 b h = Ok (b, h) /\ rb_radd (bs_view h b) BIntZero = Ok (bs_view h b).
Proof. split; reflexivity. Qed.
