From Coq Require Import String.
From Verif Require Import Base.Vec Base.VecFacts Model.Util Model.Inertial Model.Polydd Model.Poly Model.Ellipsoid Model.Box Model.Cylinder
  Model.Realize Model.Moment Model.RigidBody Model.MultiBody Model.Store Model.StoreObjects Spec.Sharing Spec.SharingObjects Proofs.StoreP Proofs.StoreObjectsP.
Import ListNotations.
Local Notation length := List.length.

Definition vmap (h : oheap) (d : idict BodyS) : idict Body := map (fun kb => (fst kb, bs_view h (snd kb))) d.
Lemma dget_vmap h d k : dget (vmap h d) k = option_map (bs_view h) (dget d k).
Proof. induction d as [|[k' b] d IH]; cbn; auto. destruct (Nat.eqb k k'); auto. Qed.
Lemma dput_vmap h d k b : vmap h (dput d k b) = dput (vmap h d) k (bs_view h b).
Proof. unfold vmap. induction d as [|[k' b'] d IH]; cbn; auto. destruct (Nat.eqb k k'); cbn; auto. now rewrite IH. Qed.
Lemma dget_in {A} (d : idict A) k b : dget d k = Some b -> In b (map snd d).
Proof. induction d as [|[k' b'] d IH]; cbn; [easy|]. destruct (Nat.eqb k k'); [|auto]. intro E. injection E as ->. auto. Qed.
Lemma dput_in {A} (d : idict A) k b x : dget d k = None -> In x (map snd (dput d k b)) -> x = b \/ In x (map snd d).
Proof. induction d as [|[k' b'] d IH]; cbn; [intros _ [H|[]]; auto|]. destruct (Nat.eqb k k'); [easy|]. cbn. intros E [H|H]; auto. destruct (IH E H); auto. Qed.
Definition refs (d : idict BodyS) : list nat := map (fun b => bs_shapes b) (map snd d).
Lemma dput_refs d k b : dget d k = None -> refs (dput d k b) = (refs d ++ [bs_shapes b])%list.
Proof. unfold refs. induction d as [|[k' b'] d IH]; cbn; auto. destruct (Nat.eqb k k'); [easy|]. intro E. cbn. f_equal. auto. Qed.

Definition add_one (s : shp) (b : BodyS) (h : oheap) : oheap := change_apply (snd (new_shapes [s] h)) (Append (bs_shapes b) (length (o_shapes h))).
Lemma add_one_same s b h : live_body h b -> bs_view (add_one s b h) b = {| bd_shapes := (bd_shapes (bs_view h b) ++ [s])%list; bd_params := bd_params (bs_view h b) |}.
Proof.
  intros ((L & Lr) & Lp). unfold bs_view, add_one. cbn [bd_shapes bd_params]. f_equal.
  assert (EL : list_at (change_apply (snd (new_shapes [s] h)) (Append (bs_shapes b) (length (o_shapes h)))) (bs_shapes b) = (list_at h (bs_shapes b) ++ [length (o_shapes h)])%list).
  { unfold list_at at 1. cbn. now rewrite set_nth_same. }
  rewrite EL, map_app. f_equal.
  - apply map_ext_in. intros r Hr. unfold shape_at. cbn. apply app_nth1. auto.
  - cbn [map]. f_equal. unfold shape_at. cbn. apply nth_snoc.
Qed.
Lemma add_one_other s b h x : live_body h x -> bs_shapes x <> bs_shapes b -> bs_view (add_one s b h) x = bs_view h x.
Proof.
  intros ((L & Lr) & Lp) N. unfold bs_view, add_one. f_equal.
  assert (EL : list_at (change_apply (snd (new_shapes [s] h)) (Append (bs_shapes b) (length (o_shapes h)))) (bs_shapes x) = list_at h (bs_shapes x)).
  { unfold list_at at 1. cbn. now rewrite set_nth_other by lia. }
  rewrite EL. apply map_ext_in. intros r Hr. unfold shape_at. cbn. apply app_nth1. auto.
Qed.
Definition inv (h0 h : oheap) (d : idict BodyS) : Prop :=
  heap_grows h0 h /\ NoDup (refs d) /\ forall b, In b (map snd d) -> live_body h b /\ (length (o_lists h0) <= bs_shapes b)%nat.
Lemma vmap_ext h h' d : (forall b, In b (map snd d) -> bs_view h' b = bs_view h b) -> vmap h' d = vmap h d.
Proof. intro H. apply map_ext_in. intros [k b] Hb. cbn. f_equal. apply H. apply in_map_iff. now exists (k, b). Qed.
Lemma vmap_append h d k b s : dget d k = Some b -> NoDup (refs d) -> (forall x, In x (map snd d) -> live_body h x) ->
  vmap (add_one s b h) d = dput (vmap h d) k {| bd_shapes := (bd_shapes (bs_view h b) ++ [s])%list; bd_params := bd_params (bs_view h b) |}.
Proof.
  induction d as [|[k' b'] d IH]; [easy|]. cbn [dget]. intros E ND Lv. inversion ND as [|? ? N1 N2]; subst. cbn [vmap map fst snd dput]. destruct (Nat.eqb k k') eqn:EK.
  - injection E as <-. rewrite add_one_same by (apply Lv; now left). f_equal. apply vmap_ext. intros x Hx. apply add_one_other; [apply Lv; now right|].
    intro E. apply N1. rewrite <- E. apply in_map_iff. now exists x.
  - f_equal.
    + f_equal. apply add_one_other; [apply Lv; now left|]. intro E'. apply N1. rewrite E'. apply in_map_iff. exists b. split; auto. eapply dget_in; eauto.
    + apply IH; auto. intros x Hx. apply Lv. now right.
Qed.
Lemma add_one_live s b h x : live_body h b -> live_body h x -> live_body (add_one s b h) x.
Proof.
  intros Lb ((L & Lr) & Lp). unfold add_one. split; [|exact Lp]. split.
  - cbn. now rewrite set_nth_len.
  - intros r. unfold list_at. cbn. destruct (Nat.eq_dec (bs_shapes b) (bs_shapes x)) as [E|N].
    + rewrite E, set_nth_same by auto. intros [Hr|[<-|[]]]%in_app_or; rewrite app_length; cbn [List.length]; [specialize (Lr r Hr)|]; lia.
    + rewrite set_nth_other by auto. intro Hr. rewrite app_length. specialize (Lr r Hr). lia.
Qed.
Lemma live_grows h h' b : heap_grows h h' -> live_body h b -> live_body h' b.
Proof.
  intros G ((L & Lr) & Lp). pose proof G as (E1 & E2 & E3). apply ext_len in E1, E2, E3. split; [split|]; try lia. rewrite (hg_list h h') by auto. intros r Hr. specialize (Lr r Hr). lia.
Qed.
Lemma geom_step dd ins d g h0 h : inv h0 h d -> has_outcome (mbs_add_geom dd ins d g h) (add_geom dd ins (vmap h d) g) (fun d' h' q => vmap h' d' = q /\ inv h0 h' d').
Proof.
  intros (G & ND & Lv). unfold mbs_add_geom, add_geom. destruct (at_index ins (go_parent g)) as [pin|e|]; cbn [bind has_outcome]; try reflexivity.
  destruct (pin_to_shape dd g) as [s|e|]; cbn [bind has_outcome]; try reflexivity. rewrite dget_vmap.
  destruct (dget d (go_parent g)) as [b|] eqn:ED; cbn [option_map].
  - cbn [has_outcome]. do 2 eexists. split; [reflexivity|]. change (change_apply _ _) with (add_one s b h).
    destruct (Lv b (dget_in _ _ _ ED)) as (Lb & Nb).
    split; [apply vmap_append; auto; intros x Hx; now apply Lv|]. split; [|split; [exact ND|]].
    + destruct G as (G1 & G2 & G3). unfold add_one. cbn. split; [eapply ext_trans; [exact G1|apply ext_app]|]. split; [|exact G3].
      destruct G2 as [new E]. cbn. rewrite E, set_nth_app_r by auto. apply ext_app.
    + intros x Hx. destruct (Lv x Hx). split; auto. now apply add_one_live.
  - destruct (ip_init _ _ _ _ _ _) as [q|e|]; cbn [bind has_outcome rb_init bs_init]; try reflexivity. do 2 eexists. split; [reflexivity|]. cbn [fst snd].
    set (h1 := snd (new_shapes [s] h)). set (h2 := snd (new_params q h1)). set (h3 := snd (new_list [length (o_shapes h)] h2)). set (b := {| bs_shapes := _; bs_params := _ |}).
    assert (G1 : heap_grows h h1) by apply hg_newshapes. assert (G2 : heap_grows h1 h2) by apply hg_newparams. assert (G3 : heap_grows h2 h3) by apply hg_newlist.
    pose proof (hg_trans _ _ _ G1 (hg_trans _ _ _ G2 G3)) as G'.
    assert (EL : list_at h3 (length (o_lists h)) = [length (o_shapes h)]) by (unfold list_at; cbn; apply nth_snoc).
    assert (EB : bs_view h3 b = {| bd_shapes := [s]; bd_params := q |}).
    { unfold bs_view, b. cbn [bs_shapes bs_params]. cbn [new_list new_params fst snd h1 new_shapes h2 o_lists o_params]. rewrite EL. f_equal.
      - cbn. f_equal. apply nth_snoc.
      - unfold params_at. cbn. apply nth_snoc. }
    split; [|split; [eapply hg_trans; eauto|split]].
    + rewrite dput_vmap, EB. f_equal. apply vmap_ext. intros x Hx. apply hg_view; auto. now apply Lv.
    + rewrite dput_refs by auto. apply (NoDup_Add (a := bs_shapes b) (l := refs d)); [rewrite <- (app_nil_r (refs d)) at 1; apply Add_app|]. split; auto.
      intro Hin. apply in_map_iff in Hin. destruct Hin as (x & Ex & Hx). destruct (Lv x Hx) as (((Lx & _) & _) & _). cbn in Ex. lia.
    + intros x Hx. destruct (dput_in d _ b x ED Hx) as [->|Hx'].
      * split; [|cbn; destruct G as (_ & E2 & _); now apply ext_len in E2]. split; [split|].
        -- cbn. rewrite app_length. cbn. lia.
        -- cbn [b bs_shapes new_list fst h2 new_params snd h1 new_shapes o_lists]. rewrite EL. intros r [<-|[]]. cbn. rewrite app_length. cbn. lia.
        -- cbn. rewrite app_length. cbn. lia.
      * destruct (Lv x Hx'). split; auto. eapply live_grows; eauto.
Qed.
Lemma geoms_step dd ins l : forall d h0 h, inv h0 h d -> has_outcome (mbs_add_geoms dd ins d l h) (add_geoms dd ins (vmap h d) l) (fun d' h' q => vmap h' d' = q /\ inv h0 h' d').
Proof.
  induction l as [|g l IH]; intros d h0 h I.
  - exists d, h. auto.
  - cbn [mbs_add_geoms add_geoms]. pose proof (geom_step dd ins d g h0 h I) as S. destruct (add_geom dd ins (vmap h d) g) as [q|e|]; cbn [has_outcome bind] in *.
    + destruct S as (d' & h' & -> & E & I'). cbn [bind fst snd]. rewrite <- E. now apply IH.
    + now rewrite S.
    + now rewrite S.
Qed.
Lemma nodup_two d k k' (b b' : BodyS) : NoDup (refs d) -> dget d k = Some b -> dget d k' = Some b' -> k <> k' -> bs_shapes b <> bs_shapes b'.
Proof.
  induction d as [|[j x] d IH]; [easy|]. intro ND. inversion ND as [|? ? N1 N2]; subst. cbn [dget]. destruct (Nat.eqb k j) eqn:E1, (Nat.eqb k' j) eqn:E2; intros A B NE.
  - apply Nat.eqb_eq in E1, E2. congruence.
  - injection A as <-. intro E. apply N1. cbn. rewrite E. apply in_map_iff. exists b'. split; auto. eapply dget_in; eauto.
  - injection B as <-. intro E. apply N1. cbn. rewrite <- E. apply in_map_iff. exists b. split; auto. eapply dget_in; eauto.
  - auto.
Qed.
Lemma mbs_spec dd inertias l h :
  has_outcome (mbs_add_geoms dd inertias [] l h) (add_geoms dd inertias [] l)
    (fun d h' q => map (fun kb => (fst kb, bs_view h' (snd kb))) d = q /\ heap_grows h h' /\
       forall k b k' b' r, dget d k = Some b -> dget d k' = Some b' -> k <> k' -> bs_view (changes h' [Append (bs_shapes b) r]) b' = bs_view h' b').
Proof.
  assert (I : inv h h []) by (split; [apply hg_refl|split; [constructor|easy]]).
  pose proof (geoms_step dd inertias l [] h h I) as S. cbn [vmap map] in S. unfold has_outcome in *. destruct (add_geoms dd inertias [] l) as [q|e|]; auto.
  destruct S as (d & h' & E & V & (G & ND & Lv)). exists d, h'. split; [exact E|]. split; [exact V|]. split; [exact G|].
  intros k b k' b' r Hb Hb' NE. pose proof (nodup_two d k k' b b' ND Hb Hb' NE) as N. unfold bs_view, list_at. cbn. rewrite set_nth_other by auto. reflexivity.
Qed.
