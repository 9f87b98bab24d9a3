(** Shapes with shared memory. *)
From Verif Require Import Base.Vec Base.Ext Base.VecFacts Model.Util Model.Polydd Model.Poly Model.Inertial Model.Ellipsoid Model.Box Model.Cylinder
  Model.Moment Model.Realize Model.Store Model.StoreShapes Spec.Sharing Proofs.StoreP Proofs.StoreInertialP.

(** ** stepping through programs *)
Lemma imp_alloc1 {B C} v (f : arr1 -> st B) s (r : res C) Q :
  (forall a s1, grows s s1 -> rd1 s1 a = v -> live1 s1 a -> (length s <= a1_buf a)%nat -> implements (f a) s1 r Q) -> implements (sbind (alloc1 v) f) s r Q.
Proof.
  intro H. eapply imp_step; [apply alloc1_ok|apply grows_snoc|]. apply H; [apply grows_snoc|apply rd_alloc1| |auto]. unfold live1. cbn. rewrite app_length. cbn. lia.
Qed.
Lemma imp_alloc2 {B C} M (f : arr2 -> st B) s (r : res C) Q :
  (forall a s1, grows s s1 -> rd2 s1 a = M -> live2 s1 a -> (length s <= a2_buf a)%nat -> implements (f a) s1 r Q) -> implements (sbind (alloc2 M) f) s r Q.
Proof.
  intro H. eapply imp_step; [apply alloc2_ok|apply grows_snoc|]. apply H; [apply grows_snoc|apply rd_alloc2| |auto]. unfold live2. cbn. rewrite app_length. cbn. lia.
Qed.
Lemma imp_get {A B C} (g : store -> A) (f : A -> st B) s (r : res C) Q a : g s = a -> implements (f a) s r Q -> implements (sbind (fun s => Ok (g s, s)) f) s r Q.
Proof. intros <- H. eapply imp_step; [reflexivity|apply grows_refl|exact H]. Qed.
Lemma imp_get1 {B C} b (f : vec -> st B) s (r : res C) Q v : rd1 s b = v -> implements (f v) s r Q -> implements (sbind (get1 b) f) s r Q.
Proof. apply (imp_get (fun s => rd1 s b)). Qed.
Lemma imp_get2 {B C} b (f : mat -> st B) s (r : res C) Q v : rd2 s b = v -> implements (f v) s r Q -> implements (sbind (get2 b) f) s r Q.
Proof. apply (imp_get (fun s => rd2 s b)). Qed.
Lemma imp_copy1 {B C} b (f : arr1 -> st B) s (r : res C) Q v : rd1 s b = v ->
  (forall a s1, grows s s1 -> rd1 s1 a = v -> live1 s1 a -> (length s <= a1_buf a)%nat -> implements (f a) s1 r Q) -> implements (sbind (copy1 b) f) s r Q.
Proof. intros <- H. pose proof (imp_alloc1 (rd1 s b) f s r Q H) as K. exact K. Qed.
Lemma imp_copy2 {B C} b (f : arr2 -> st B) s (r : res C) Q v : rd2 s b = v ->
  (forall a s1, grows s s1 -> rd2 s1 a = v -> live2 s1 a -> (length s <= a2_buf a)%nat -> implements (f a) s1 r Q) -> implements (sbind (copy2 b) f) s r Q.
Proof. intros <- H. pose proof (imp_alloc2 (rd2 s b) f s r Q H) as K. exact K. Qed.
Lemma imp_ret {A B} (a : A) s (b : B) (Q : A -> store -> B -> Prop) : Q a s b -> implements (ret a) s (Ok b) Q.
Proof. intro H. exists a, s. split; [reflexivity|]. split; [apply grows_refl|exact H]. Qed.
(** a program of which only some of its parts depend on the previous result *)
Lemma imp_bind' {A B C D} (m : st A) (f : A -> st B) s (r : res C) (g : C -> res D) P Q :
  implements m s r P -> (forall a s1 c, grows s s1 -> P a s1 c -> implements (f a) s1 (g c) Q) -> implements (sbind m f) s (let* c := r in g c) Q.
Proof. intros H K. eapply imp_bind; [exact H|]. exact K. Qed.

(** carry what is known about a store to one that extends it *)
Ltac hop G :=
  match type of G with grows ?s ?s' =>
    repeat match goal with
    | H : rd1 s ?a = ?v, L : live1 s ?a |- _ => rewrite <- (grows_rd1 s s' a G L) in H; apply (grows_live1 s s' a G) in L
    | H : rd2 s ?a = ?v, L : live2 s ?a |- _ => rewrite <- (grows_rd2 s s' a G L) in H; apply (grows_live2 s s' a G) in L
    end
  end.
Ltac bl := repeat match goal with G : grows ?a ?b |- _ => apply grows_length in G end; lia.

(** ** clean_transform *)
Lemma clean_spec rot tr dim s : live_opt live2 s rot -> live_opt live1 s tr ->
  implements (clean_transform_s rot tr dim) s (clean_transform (option_map (rd2 s) rot) (option_map (rd1 s) tr) dim)
    (fun rt s' q => rd2 s' (fst rt) = fst q /\ rd1 s' (snd rt) = snd q /\ live2 s' (fst rt) /\ live1 s' (snd rt) /\
      (length s <= a2_buf (fst rt))%nat /\ (length s <= a1_buf (snd rt))%nat /\ (a2_buf (fst rt) < a1_buf (snd rt))%nat).
Proof.
  intros Lr Lt. unfold clean_transform_s, clean_transform.
  apply (imp_bind' _ _ s _ _ (fun a s1 q => rd2 s1 a = q /\ live2 s1 a /\ (length s <= a2_buf a)%nat)).
  - destruct rot as [r|]; cbn [option_map].
    + cbn in Lr. eapply imp_copy2; [reflexivity|]. intros a s1 G R1 L1 B1. eapply imp_get2; [exact R1|]. apply imp_lift. intros _ _. apply imp_ret. auto.
    + destruct (imp_alloc2 (eye dim) ret s (Ok (eye dim)) (fun a s1 q => rd2 s1 a = q /\ live2 s1 a /\ (length s <= a2_buf a)%nat)) as (a & s1 & E & G & K).
      { intros a s1 G R1 L1 B1. apply imp_ret. auto. } exists a, s1. split; [exact E|]. auto.
  - intros a s1 q G1 (R1 & L1 & B1).
    assert (Et : option_map (rd1 s) tr = option_map (rd1 s1) tr) by (destruct tr; cbn in *; auto; f_equal; symmetry; now apply grows_rd1). rewrite Et.
    assert (Lt1 : live_opt live1 s1 tr) by (destruct tr; cbn in *; auto; eapply grows_live1; eauto).
    apply (imp_bind' _ _ s1 _ _ (fun c s2 q => rd1 s2 c = q /\ live1 s2 c /\ (length s1 <= a1_buf c)%nat)).
    + destruct tr as [t|]; cbn [option_map].
      * eapply imp_copy1; [reflexivity|]. intros c s2 G R2 L2 B2. eapply imp_get1; [exact R2|]. apply imp_lift. intros _ _. apply imp_ret. auto.
      * destruct (imp_alloc1 (zeros dim) ret s1 (Ok (zeros dim)) (fun c s2 q => rd1 s2 c = q /\ live1 s2 c /\ (length s1 <= a1_buf c)%nat)) as (c & s2 & E & G & K).
        { intros c s2 G R2 L2 B2. apply imp_ret. auto. } exists c, s2. split; [exact E|]. auto.
    + intros c s2 q2 G2 (R2 & L2 & B2). apply imp_ret. cbn [fst snd]. assert (a2_buf a < a1_buf c)%nat by (unfold live2 in L1; lia). hop G2. repeat split; auto. bl.
Qed.

(** ** Ellipsoid *)
Definition els_fresh (s : store) (e : EllS) (s' : store) (q : Ell) : Prop :=
  els_view s' e = q /\ live1 s' (els_half e) /\ live2 s' (els_rot e) /\ live1 s' (els_center e) /\ forall b, In b (els_bufs e) -> (length s <= b)%nat.
Lemma fin_nonneg v : forallb (fun a => eleb (Fin 0) a) (fin1 v) = forallb (Rleb 0) v.
Proof. induction v as [|x v IH]; [reflexivity|]. cbn [forallb]. rewrite <- IH. reflexivity. Qed.
Lemma fin_fin v : forallb is_fin (fin1 v) = true.
Proof. induction v; cbn; auto. Qed.
Lemma to_fin v : map to_R (fin1 v) = v.
Proof. unfold fin1. rewrite map_map. cbn. now rewrite map_id. Qed.
Lemma ell_init_plain h r c : ell_init h r c =
  let* _ := assert_ (forallb (Rleb 0) h) in
  let rot := match r with None => eye (length h) | Some r => r end in
  let* _ := assert_ (is_matb (length h) (length h) rot) in
  let cen := match c with None => zeros (length h) | Some c => c end in
  let* _ := assert_ (is_vecb (length h) cen) in
  Ok {| e_half := h; e_rot := rot; e_center := cen |}.
Proof. unfold ell_init, ell_init_ext. rewrite fin_nonneg, fin_fin, to_fin. unfold fin1. rewrite map_length. reflexivity. Qed.
Lemma els_init_fresh half rot cen s : live1 s half -> live_opt live2 s rot -> live_opt live1 s cen ->
  implements (els_init half rot cen) s (ell_init (rd1 s half) (option_map (rd2 s) rot) (option_map (rd1 s) cen)) (els_fresh s).
Proof.
  intros Lh Lr Lc. rewrite ell_init_plain. unfold els_init. cbv zeta. remember (rd1 s half) as hv eqn:Eh. symmetry in Eh.
  eapply imp_copy1; [exact Eh|]. intros h s1 G1 R1 L1 B1. eapply imp_get1; [exact R1|]. apply imp_lift. intros _ _.
  set (rv := match option_map (rd2 s) rot with None => eye (length hv) | Some r => r end).
  set (cv := match option_map (rd1 s) cen with None => zeros (length hv) | Some c => c end).
  assert (P : implements (match rot with None => alloc2 (eye (length hv)) | Some r => ret r end) s1 (Ok rv) (fun a s2 q => rd2 s2 a = q /\ live2 s2 a)).
  { destruct rot as [r|]; cbn [option_map] in *.
    - apply imp_ret. cbn in Lr. split; [apply (grows_rd2 s s1); auto|eapply grows_live2; eauto].
    - destruct (imp_alloc2 (eye (length hv)) ret s1 (Ok rv) (fun a s2 q => rd2 s2 a = q /\ live2 s2 a)) as (a & s2 & E & G & K).
      { intros a s2 G R2 L2 B2. apply imp_ret. auto. } exists a, s2. auto. }
  destruct P as (r0 & s2 & E2 & G2 & R2 & L2). eapply imp_step; [exact E2|exact G2|].
  eapply imp_copy2; [exact R2|]. intros r s3 G3 R3 L3 B3. eapply imp_get2; [exact R3|]. apply imp_lift. intros _ _.
  assert (P : implements (match cen with None => alloc1 (zeros (length hv)) | Some c => ret c end) s3 (Ok cv) (fun a s4 q => rd1 s4 a = q /\ live1 s4 a)).
  { destruct cen as [c|]; cbn [option_map] in *.
    - apply imp_ret. cbn in Lc. assert (G : grows s s3) by (eapply grows_trans; [exact G1|eapply grows_trans; eauto]). split; [apply (grows_rd1 s s3); auto|eapply grows_live1; eauto].
    - destruct (imp_alloc1 (zeros (length hv)) ret s3 (Ok cv) (fun a s4 q => rd1 s4 a = q /\ live1 s4 a)) as (a & s4 & E & G & K).
      { intros a s4 G R4 L4 B4. apply imp_ret. auto. } exists a, s4. auto. }
  destruct P as (c0 & s4 & E4 & G4 & R4 & L4). eapply imp_step; [exact E4|exact G4|].
  eapply imp_copy1; [exact R4|]. intros c s5 G5 R5 L5 B5. eapply imp_get1; [exact R5|]. apply imp_lift. intros _ _. apply imp_ret.
  hop G2. hop G3. hop G4. hop G5. unfold els_fresh. split; [unfold els_view; cbn [els_half els_rot els_center]; now rewrite R1, R3, R5|].
  cbn [els_half els_rot els_center]. split; [auto|]. split; [auto|]. split; [auto|]. intros b [<-|[<-|[<-|[]]]]; cbn; bl.
Qed.
Lemma els_caller s s' e ws : caller_writes s ws -> (forall b, In b (els_bufs e) -> (length s <= b)%nat) -> els_view (wrs s' ws) e = els_view s' e.
Proof.
  intros Hw Hb. unfold els_view. rewrite (caller_rd1 s s' ws (els_half e)), (caller_rd1 s s' ws (els_center e)), (caller_rd2 s s' ws (els_rot e)); auto; apply Hb; cbn; auto.
Qed.
Lemma els_grows s s' e : grows s s' -> live1 s (els_half e) -> live2 s (els_rot e) -> live1 s (els_center e) -> els_view s' e = els_view s e.
Proof. intros G L1 L2 L3. unfold els_view. now rewrite !(grows_rd1 s s'), (grows_rd2 s s'). Qed.
Lemma els_indep s m r : implements m s r (els_fresh s) ->
  implements m s r (fun e s' q => els_view s' e = q /\ independent s s' (fun t => els_view t e) (els_bufs e)).
Proof.
  apply imp_mono. intros e s' q G _ (V & _ & _ & _ & B). split; [exact V|]. split.
  - intros ws Hw. now apply (els_caller s).
  - intros ws b i W Hb. now apply (own_cell s s' (els_bufs e)).
Qed.
Lemma imp_from {A B} (m : st A) s0 s (r : res B) (Q Q' : A -> store -> B -> Prop) : grows s0 s -> (forall a s' b, grows s s' -> Q a s' b -> Q' a s' b) -> implements m s r Q -> implements m s r Q'.
Proof. intros _ H. apply imp_mono. intros a s' b G _. now apply H. Qed.
Lemma els_fresh_mono s0 s e s' q : grows s0 s -> els_fresh s e s' q -> els_fresh s0 e s' q.
Proof. intros G (V & L1 & L2 & L3 & B). repeat split; auto. intros b Hb. specialize (B b Hb). bl. Qed.
Lemma els_sphere_fresh radius cen s : live_opt live1 s cen ->
  implements (els_sphere radius cen) s (ell_sphere radius (option_map (rd1 s) cen)) (els_fresh s).
Proof.
  intro Lc. unfold els_sphere, ell_sphere. set (cv := match option_map (rd1 s) cen with None => zeros 3 | Some c => c end).
  assert (P : implements (match cen with None => alloc1 (zeros 3) | Some c => copy1 c end) s (Ok cv) (fun a s1 q => rd1 s1 a = q /\ live1 s1 a)).
  { destruct cen as [c|]; cbn [option_map] in *; do 2 eexists; (split; [reflexivity|]); (split; [apply grows_snoc|]); (split; [apply rd_alloc1|]); unfold live1; cbn [a1_buf snd fst]; rewrite app_length; cbn; lia. }
  destruct P as (c & s1 & E & G & R1 & L1). eapply imp_step; [exact E|exact G|]. eapply imp_get1; [exact R1|]. cbv zeta.
  apply imp_alloc1. intros h s2 G2 R2 L2 B2. hop G2. pose proof (els_init_fresh h None (Some c) s2 L2 I L1) as HI. cbn [option_map] in HI. rewrite R1, R2 in HI.
  eapply imp_mono; [|exact HI]. intros e s' q G' _ F. eapply els_fresh_mono; [|exact F]. eapply grows_trans; eauto.
Qed.
Definition els_live (s : store) (e : EllS) : Prop := live1 s (els_half e) /\ live2 s (els_rot e) /\ live1 s (els_center e).
Lemma els_transform_fresh e rot tr s : els_live s e -> live_opt live2 s rot -> live_opt live1 s tr ->
  implements (els_transform e rot tr) s (ell_transform (els_view s e) (option_map (rd2 s) rot) (option_map (rd1 s) tr)) (els_fresh s).
Proof.
  intros (Lh & LR & LC) Lr Lt. unfold els_transform, ell_transform. eapply (imp_get (fun s => els_view s e)); [reflexivity|]. set (ev := els_view s e).
  eapply imp_bind'; [exact (clean_spec rot tr (e_dim ev) s Lr Lt)|]. intros [r c] s1 [rv tv] G1 (R1 & R1' & L1 & L1' & B1 & B1' & _). cbn [fst snd] in *.
  eapply imp_get2; [exact R1|]. eapply imp_get1; [exact R1'|].
  apply imp_alloc2. intros r2 s2 G2 R2 L2 B2. apply imp_alloc1. intros c2 s3 G3 R3 L3 B3.
  assert (G : grows s s3) by (eapply grows_trans; [exact G1|eapply grows_trans; eauto]).
  eapply (imp_copy1 _ _ s3 _ _ (e_half ev)); [unfold ev, els_view; cbn [e_half]; apply (grows_rd1 s s3); auto|]. intros h s4 G4 R4 L4 B4. hop G3. hop G4.
  pose proof (els_init_fresh h (Some r2) (Some c2) s4 L4 L2 L3) as HI. cbn [option_map] in HI. rewrite R4, R2, R3 in HI.
  eapply imp_mono; [|exact HI]. intros e' s' q G' _ F. eapply els_fresh_mono; [|exact F]. eapply grows_trans; eauto.
Qed.
Lemma els_rotate_fresh e rot s : els_live s e -> live2 s rot ->
  implements (els_rotate_about_center e rot) s (ell_rotate_about_center (els_view s e) (rd2 s rot)) (els_fresh s).
Proof.
  intros (Lh & LR & LC) Lr. unfold els_rotate_about_center, ell_rotate_about_center. eapply (imp_get (fun s => els_view s e)); [reflexivity|]. set (ev := els_view s e).
  eapply imp_get2; [reflexivity|]. apply imp_alloc2. intros r2 s2 G2 R2 L2 B2.
  eapply (imp_copy1 _ _ s2 _ _ (e_half ev)); [unfold ev, els_view; cbn [e_half]; apply (grows_rd1 s s2); auto|]. intros h s3 G3 R3 L3 B3.
  assert (G : grows s s3) by (eapply grows_trans; eauto).
  eapply (imp_copy1 _ _ s3 _ _ (e_center ev)); [unfold ev, els_view; cbn [e_center]; apply (grows_rd1 s s3); auto|]. intros c s4 G4 R4 L4 B4. hop G3. hop G4.
  pose proof (els_init_fresh h (Some r2) (Some c) s4 L3 L2 L4) as HI. cbn [option_map] in HI. rewrite R4, R2, R3 in HI.
  eapply imp_mono; [|exact HI]. intros e' s' q G' _ F. eapply els_fresh_mono; [|exact F]. eapply grows_trans; eauto.
Qed.
Lemma els_new_fresh h c s : implements (els_new h c) s (ell_init h None (Some c)) (els_fresh s).
Proof.
  unfold els_new. apply imp_alloc1. intros a s1 G1 R1 L1 B1. apply imp_alloc1. intros b s2 G2 R2 L2 B2. hop G2.
  pose proof (els_init_fresh a None (Some b) s2 L1 I L2) as HI. cbn [option_map] in HI. rewrite R1, R2 in HI.
  eapply imp_mono; [|exact HI]. intros e' s' q G' _ F. eapply els_fresh_mono; [|exact F]. eapply grows_trans; eauto.
Qed.

(** ** forms *)
Definition ffs_live (s : store) (f : FFS) : Prop := live2 s (ffs_A f) /\ live1 s (ffs_b f).
Definition ffs_fresh (s : store) (f : FFS) (s' : store) (q : FaceForm) : Prop :=
  ffs_view s' f = q /\ ffs_live s' f /\ forall b, In b (ffs_bufs f) -> (length s <= b)%nat.
Lemma ffs_grows s s' f : grows s s' -> ffs_live s f -> ffs_view s' f = ffs_view s f.
Proof. intros G [L1 L2]. unfold ffs_view. now rewrite (grows_rd1 s s'), (grows_rd2 s s'). Qed.
Lemma ffs_live_grows s s' f : grows s s' -> ffs_live s f -> ffs_live s' f.
Proof. intros G [L1 L2]. split; [eapply grows_live2|eapply grows_live1]; eauto. Qed.
Lemma ffs_from_cdd_fresh m s : implements (ffs_from_cdd m) s (ff_from_cdd m) (ffs_fresh s).
Proof.
  unfold ffs_from_cdd. replace (ff_from_cdd m) with (let* f := ff_from_cdd m in Ok f) at 2 by (destruct (ff_from_cdd m); reflexivity).
  apply imp_lift. intros f _. apply imp_alloc2. intros A s1 G1 R1 L1 B1. apply imp_alloc1. intros b s2 G2 R2 L2 B2. apply imp_ret. hop G2.
  split; [unfold ffs_view; cbn [ffs_A ffs_b]; rewrite R1, R2; now destruct f|]. split; [now split|]. intros x [<-|[<-|[]]]; cbn; bl.
Qed.
Definition opt_le (n : nat) (o : option arr2) : Prop := match o with Some a => (n <= a2_buf a)%nat | None => True end.
Definition sfs_live (s : store) (f : SFS) : Prop := live_opt live2 s (sfs_vertices f) /\ live_opt live2 s (sfs_rays f).
Definition sfs_fresh (s : store) (f : SFS) (s' : store) (q : SpanForm) : Prop :=
  sfs_view s' f = q /\ sfs_live s' f /\ opt_le (length s) (sfs_vertices f) /\ opt_le (length s) (sfs_rays f).
Lemma rd2_opt_grows s s' o : grows s s' -> live_opt live2 s o -> option_map (rd2 s') o = option_map (rd2 s) o.
Proof. intros G L. destruct o; cbn in *; auto. f_equal. now apply grows_rd2. Qed.
Lemma live2_opt_grows s s' o : grows s s' -> live_opt live2 s o -> live_opt live2 s' o.
Proof. intros G L. destruct o; cbn in *; auto. eapply grows_live2; eauto. Qed.
Lemma sfs_grows s s' f : grows s s' -> sfs_live s f -> sfs_view s' f = sfs_view s f.
Proof. intros G [L1 L2]. unfold sfs_view. now rewrite !(rd2_opt_grows s s'). Qed.
Lemma sfs_live_grows s s' f : grows s s' -> sfs_live s f -> sfs_live s' f.
Proof. intros G [L1 L2]. split; eapply live2_opt_grows; eauto. Qed.
Lemma sfs_bufs_le (s : store) f : opt_le (length s) (sfs_vertices f) -> opt_le (length s) (sfs_rays f) -> forall b, In b (sfs_bufs f) -> (length s <= b)%nat.
Proof. intros H1 H2 b Hb. unfold sfs_bufs in Hb. apply in_app_or in Hb. destruct (sfs_vertices f), (sfs_rays f); cbn in *; destruct Hb as [Hb|Hb]; try destruct Hb as [<-|[]]; easy. Qed.
Lemma copy_opt_spec o s : live_opt live2 s o -> implements (match o with None => ret None | Some v => do v <- copy2 v; ret (Some v) end) s (Ok (option_map (rd2 s) o))
  (fun a s' q => option_map (rd2 s') a = q /\ live_opt live2 s' a /\ opt_le (length s) a).
Proof.
  intro L. destruct o as [v|]; cbn [option_map].
  - eapply imp_copy2; [reflexivity|]. intros a s1 G R1 L1 B1. apply imp_ret. cbn. rewrite R1. auto.
  - apply imp_ret. cbn. auto.
Qed.
Lemma alloc_opt_spec o s : implements (alloc2_opt o) s (Ok o) (fun a s' q => option_map (rd2 s') a = q /\ live_opt live2 s' a /\ opt_le (length s) a).
Proof.
  destruct o as [v|]; cbn [alloc2_opt].
  - apply imp_alloc2. intros a s1 G R1 L1 B1. apply imp_ret. cbn. rewrite R1. auto.
  - apply imp_ret. cbn. auto.
Qed.
Lemma opt_le_mono n m o : (n <= m)%nat -> opt_le m o -> opt_le n o.
Proof. destruct o; cbn; lia. Qed.
Lemma sfs_init_fresh v r sp s : live_opt live2 s v -> live_opt live2 s r -> live_opt live2 s sp ->
  implements (sfs_init v r sp) s (Ok (span_form (option_map (rd2 s) v) (option_map (rd2 s) r) (option_map (rd2 s) sp))) (sfs_fresh s).
Proof.
  intros Lv Lr Lsp. unfold sfs_init.
  destruct (copy_opt_spec v s Lv) as (a & s1 & E1 & G1 & R1 & L1 & B1). eapply imp_step; [exact E1|exact G1|].
  pose proof (live2_opt_grows _ _ _ G1 Lr) as Lr1. pose proof (live2_opt_grows _ _ _ G1 Lsp) as Ls1.
  destruct (copy_opt_spec r s1 Lr1) as (b & s2 & E2 & G2 & R2 & L2 & B2). eapply imp_step; [exact E2|exact G2|].
  rewrite (rd2_opt_grows s s1 r G1 Lr) in R2. pose proof (live2_opt_grows _ _ _ G2 Ls1) as Ls2.
  assert (Esp : option_map (rd2 s2) sp = option_map (rd2 s) sp) by (rewrite (rd2_opt_grows s1 s2), (rd2_opt_grows s s1); auto).
  rewrite <- (rd2_opt_grows s1 s2 a G2 L1) in R1. apply (live2_opt_grows _ _ _ G2) in L1.
  assert (P : implements (match sp with
          | None => ret b
          | Some sp => do spv <- get2 sp;
              match b with
              | None => do q <- alloc2 (spv ++ mneg spv); ret (Some q)
              | Some r => do rv <- get2 r; do q <- alloc2 (rv ++ (spv ++ mneg spv)); ret (Some q)
              end
          end) s2 (Ok (sf_rays (span_form (option_map (rd2 s) v) (option_map (rd2 s) r) (option_map (rd2 s) sp))))
     (fun c s3 q => option_map (rd2 s3) c = q /\ live_opt live2 s3 c /\ opt_le (length s1) c)).
  { destruct sp as [sp|]; cbn [option_map span_form sf_rays] in *; [|apply imp_ret; auto]. injection Esp as Esp. eapply imp_get2; [exact Esp|]. rewrite <- R2. destruct b as [b|]; cbn [option_map].
    - eapply imp_get2; [reflexivity|]. apply imp_alloc2. intros c s3 G3 R3 L3 B3. apply imp_ret. cbn. rewrite R3. repeat split; auto. bl.
    - apply imp_alloc2. intros c s3 G3 R3 L3 B3. apply imp_ret. cbn. rewrite R3. repeat split; auto. bl. }
  destruct P as (c & s3 & E3 & G3 & R3 & L3 & B3). eapply imp_step; [exact E3|exact G3|]. apply imp_ret.
  rewrite <- (rd2_opt_grows s2 s3 a G3 L1) in R1. apply (live2_opt_grows _ _ _ G3) in L1.
  split; [unfold sfs_view; cbn [sfs_vertices sfs_rays]; rewrite R1, R3; reflexivity|]. split; [now split|]. cbn [sfs_vertices sfs_rays]. split; [auto|].
  eapply opt_le_mono; [|exact B3]. bl.
Qed.
Lemma sfs_from_cdd_fresh m s : implements (sfs_from_cdd m) s (sf_from_cdd m)
  (fun o s' q => match o, q with Some f, Some g => sfs_fresh s f s' g | None, None => True | _, _ => False end).
Proof.
  unfold sfs_from_cdd. replace (sf_from_cdd m) with (let* f := sf_from_cdd m in Ok f) at 2 by (destruct (sf_from_cdd m); reflexivity).
  apply imp_lift. intros o _. destruct o as [f|]; [|apply imp_ret; auto].
  destruct (alloc_opt_spec (sf_vertices f) s) as (a & s1 & E1 & G1 & R1 & L1 & B1). eapply imp_step; [exact E1|exact G1|].
  destruct (alloc_opt_spec (sf_rays f) s1) as (b & s2 & E2 & G2 & R2 & L2 & B2). eapply imp_step; [exact E2|exact G2|]. apply imp_ret.
  rewrite <- (rd2_opt_grows s1 s2 a G2 L1) in R1. apply (live2_opt_grows _ _ _ G2) in L1.
  split; [unfold sfs_view; cbn [sfs_vertices sfs_rays]; rewrite R1, R2; now destruct f|]. split; [now split|]. cbn [sfs_vertices sfs_rays]. split; [auto|].
  eapply opt_le_mono; [|exact B2]. bl.
Qed.
Lemma ffs_fresh_mono s0 s e s' q : grows s0 s -> ffs_fresh s e s' q -> ffs_fresh s0 e s' q.
Proof. intros G (V & L1 & B). split; [auto|]. split; [auto|]. intros b Hb. specialize (B b Hb). bl. Qed.
Lemma sfs_fresh_mono s0 s e s' q : grows s0 s -> sfs_fresh s e s' q -> sfs_fresh s0 e s' q.
Proof. intros G (V & L1 & B & B'). apply grows_length in G. split; [auto|]. split; [auto|]. split; eapply opt_le_mono; eauto. Qed.
Lemma ffs_canonical_fresh canon f s : implements (ffs_canonical canon f) s (ff_canonical canon (ffs_view s f)) (ffs_fresh s).
Proof. apply (ffs_from_cdd_fresh (canon (ff_to_cdd (ffs_view s f))) s). Qed.
Lemma sfs_to_face_fresh ineqs f s : implements (sfs_to_face_form ineqs f) s (sf_to_face_form ineqs (sfs_view s f)) (ffs_fresh s).
Proof.
  unfold sf_to_face_form. assert (K : implements (do m <- lift (sf_to_cdd (sfs_view s f)); ffs_from_cdd (ineqs m)) s (let* m := sf_to_cdd (sfs_view s f) in ff_from_cdd (ineqs m)) (ffs_fresh s)).
  { apply imp_lift. intros m _. apply ffs_from_cdd_fresh. } exact K.
Qed.
Lemma sfs_canonical_fresh canon f s : implements (sfs_canonical canon f) s (sf_canonical canon (sfs_view s f))
  (fun o s' q => match o, q with Some f, Some g => sfs_fresh s f s' g | None, None => True | _, _ => False end).
Proof.
  unfold sf_canonical. assert (K : implements (do m <- lift (sf_to_cdd (sfs_view s f)); sfs_from_cdd (canon m)) s (let* m := sf_to_cdd (sfs_view s f) in sf_from_cdd (canon m))
    (fun o s' q => match o, q with Some f, Some g => sfs_fresh s f s' g | None, None => True | _, _ => False end)).
  { apply imp_lift. intros m _. apply sfs_from_cdd_fresh. } exact K.
Qed.
Lemma ffs_to_span_fresh gens f s : implements (ffs_to_span_form gens f) s (ff_to_span_form gens (ffs_view s f))
  (fun o s' q => match o, q with Some f, Some g => sfs_fresh s f s' g | None, None => True | _, _ => False end).
Proof. apply (sfs_from_cdd_fresh (gens (ff_to_cdd (ffs_view s f))) s). Qed.

(** ** ConvexPolyhedron *)
(** what a polyhedron made from given forms holds: those of its forms that were given are stored, the
    others are new *)
Definition pls_parts (s : store) (face : option FFS) (span : option SFS) (p : PolyS) (s' : store) (q : Poly) : Prop :=
  pls_view s' p = q /\ pls_polys p = p_polys q /\ ffs_live s' (pls_face p) /\ sfs_live s' (pls_span p) /\
  match face with Some f => pls_face p = f | None => forall b, In b (ffs_bufs (pls_face p)) -> (length s <= b)%nat end /\
  match span with Some f => pls_span p = f | None => opt_le (length s) (sfs_vertices (pls_span p)) /\ opt_le (length s) (sfs_rays (pls_span p)) end.
Lemma pls_init_parts dd face span s : live_opt ffs_live s face -> live_opt sfs_live s span ->
  implements (pls_init dd face span) s (poly_init dd (option_map (ffs_view s) face) (option_map (sfs_view s) span)) (pls_parts s face span).
Proof.
  intros Lf Ls. unfold pls_init, poly_init.
  apply (imp_bind' _ _ s _ _ (fun f s1 q => ffs_view s1 f = q /\ ffs_live s1 f /\ match face with Some g => f = g | None => forall b, In b (ffs_bufs f) -> (length s <= b)%nat end)).
  - destruct face as [f|]; cbn [option_map].
    + apply imp_ret. auto.
    + destruct span as [sp|]; cbn [option_map]; [|reflexivity]. eapply imp_mono; [|apply sfs_to_face_fresh]. intros f s1 q _ _ (V & L & B). auto.
  - intros f s1 q G1 (V & L & K).
    assert (Es : option_map (sfs_view s) span = option_map (sfs_view s1) span) by (destruct span; cbn in *; auto; f_equal; symmetry; now apply sfs_grows). rewrite Es.
    assert (Ls1 : live_opt sfs_live s1 span) by (destruct span; cbn in *; auto; eapply sfs_live_grows; eauto).
    apply (imp_bind' _ _ s1 _ _ (fun f s2 q => sfs_view s2 f = q /\ sfs_live s2 f /\ match span with Some g => f = g | None => opt_le (length s1) (sfs_vertices f) /\ opt_le (length s1) (sfs_rays f) end)).
    + destruct span as [sp|]; cbn [option_map].
      * apply imp_ret. auto.
      * rewrite <- V. eapply imp_bind'; [apply ffs_to_span_fresh|]. intros [g|] s2 [h|] G2 HF; try easy; cbn in HF. destruct HF as (V2 & L2 & B2 & B2'). apply imp_ret. auto.
    + intros sp s2 spv G2 (V2 & L2 & K2). eapply (imp_get (fun s => sfs_view s sp)); [exact V2|].
      assert (V' : ffs_view s2 f = q) by (rewrite <- V; now apply ffs_grows).
      eapply (imp_get (fun s => ffs_view s f)); [exact V'|]. destruct (sf_bounded spv); [|reflexivity]. apply imp_ret.
      split; [unfold pls_view; cbn [pls_face pls_span]; now rewrite V', V2|]. split; [reflexivity|]. cbn [pls_face pls_span]. split; [eapply ffs_live_grows; eauto|]. split; [auto|]. split; [exact K|].
      destruct span; [exact K2|]. destruct K2 as [K2 K3]. apply grows_length in G1. split; eapply opt_le_mono; eauto.
Qed.
Definition pls_fresh (s : store) (p : PolyS) (s' : store) (q : Poly) : Prop :=
  pls_view s' p = q /\ pls_polys p = p_polys q /\ ffs_live s' (pls_face p) /\ sfs_live s' (pls_span p) /\ forall b, In b (pls_bufs p) -> (length s <= b)%nat.
Lemma ffs_caller s s' f ws : caller_writes s ws -> (forall b, In b (ffs_bufs f) -> (length s <= b)%nat) -> ffs_view (wrs s' ws) f = ffs_view s' f.
Proof. intros Hw Hb. unfold ffs_view. rewrite (caller_rd1 s s' ws (ffs_b f)), (caller_rd2 s s' ws (ffs_A f)); auto; apply Hb; cbn; auto. Qed.
Lemma sfs_caller s s' f ws : caller_writes s ws -> (forall b, In b (sfs_bufs f) -> (length s <= b)%nat) -> sfs_view (wrs s' ws) f = sfs_view s' f.
Proof.
  intros Hw Hb. unfold sfs_view. f_equal.
  - destruct (sfs_vertices f) as [v|] eqn:E; cbn; [|reflexivity]. rewrite (caller_rd2 s s' ws v); auto. apply Hb. unfold sfs_bufs. rewrite E. cbn. auto.
  - destruct (sfs_rays f) as [v|] eqn:E; cbn; [|reflexivity]. rewrite (caller_rd2 s s' ws v); auto. apply Hb. unfold sfs_bufs. rewrite E. apply in_or_app. cbn. auto.
Qed.
Lemma pls_caller s s' p ws : caller_writes s ws -> (forall b, In b (pls_bufs p) -> (length s <= b)%nat) -> pls_view (wrs s' ws) p = pls_view s' p.
Proof.
  intros Hw Hb. unfold pls_view. rewrite (ffs_caller s s' (pls_face p)), (sfs_caller s s' (pls_span p)); auto; intros b H; apply Hb; unfold pls_bufs; apply in_or_app; auto.
Qed.
Lemma pls_indep s m r : implements m s r (pls_fresh s) ->
  implements m s r (fun p s' q => pls_view s' p = q /\ pls_polys p = p_polys q /\ independent s s' (fun t => pls_view t p) (pls_bufs p)).
Proof.
  apply imp_mono. intros e s' q G _ (V & P & _ & _ & B). split; [exact V|]. split; [exact P|]. split.
  - intros ws Hw. now apply (pls_caller s).
  - intros ws b i W Hb. now apply (own_cell s s' (pls_bufs e)).
Qed.
Lemma pls_from_vertices_fresh dd V prune s : live2 s V -> implements (pls_from_vertices dd V prune) s (poly_from_vertices dd (rd2 s V) prune) (pls_fresh s).
Proof.
  intro L. unfold pls_from_vertices, poly_from_vertices.
  destruct (sfs_init_fresh (Some V) None None s L I I) as (f & s1 & E & G & F). eapply imp_step; [exact E|exact G|]. cbn [option_map] in F. cbv zeta. destruct prune.
  - destruct F as (VF & LF & B1 & B2). rewrite <- VF. eapply imp_bind'; [apply sfs_canonical_fresh|]. intros o s2 oq G2 HF. cbn beta in HF.
    assert (Eo : oq = option_map (sfs_view s2) o /\ live_opt sfs_live s2 o /\ match o with Some g => opt_le (length s1) (sfs_vertices g) /\ opt_le (length s1) (sfs_rays g) | None => True end).
    { destruct o as [g|], oq as [h|]; try easy. destruct HF as (HV & HL & HB & HB'). cbn. now rewrite HV. }
    destruct Eo as (-> & Lo & Bo). pose proof (pls_init_parts dd None o s2 I Lo) as HP. cbn [option_map] in HP.
    eapply imp_mono; [|exact HP]. intros p s' q G' _ (V1 & P1 & L1 & L2 & K1 & K2). split; [exact V1|]. split; [exact P1|]. split; [auto|]. split; [auto|].
    intros b Hb. unfold pls_bufs in Hb. apply in_app_or in Hb. destruct Hb as [Hb|Hb]; [specialize (K1 b Hb); bl|].
    assert (Q : opt_le (length s) (sfs_vertices (pls_span p)) /\ opt_le (length s) (sfs_rays (pls_span p))).
    { destruct o as [g|]; [rewrite K2; destruct Bo|destruct K2]; (split; eapply opt_le_mono; [|eassumption|..|eassumption]; bl). }
    destruct Q. eapply sfs_bufs_le; eauto.
  - destruct F as (VF & LF & B1 & B2). pose proof (pls_init_parts dd None (Some f) s1 I LF) as HP. cbn [option_map] in HP. rewrite VF in HP.
    eapply imp_mono; [|exact HP]. intros p s' q G' _ (V1 & P1 & L1 & L2 & K1 & K2). split; [exact V1|]. split; [exact P1|]. split; [auto|]. split; [auto|].
    intros b Hb. unfold pls_bufs in Hb. apply in_app_or in Hb. destruct Hb as [Hb|Hb]; [specialize (K1 b Hb); bl|]. rewrite K2 in Hb. eapply sfs_bufs_le; eauto.
Qed.
Lemma pls_from_halfspaces_fresh dd A b s : live2 s A -> live1 s b -> implements (pls_from_halfspaces dd A b true) s (poly_from_halfspaces dd (rd2 s A) (rd1 s b) true) (pls_fresh s).
Proof.
  intros LA Lb. unfold pls_from_halfspaces, poly_from_halfspaces. eapply imp_step; [reflexivity|apply grows_refl|]. cbn [face_form bind].
  set (f := {| ffs_A := A; ffs_b := b |}). change {| ff_A := rd2 s A; ff_b := rd1 s b |} with (ffs_view s f).
  eapply imp_bind'; [apply ffs_canonical_fresh|]. intros g s1 gq G1 (VG & LG & BG). pose proof (pls_init_parts dd (Some g) None s1 LG I) as HP. cbn [option_map] in HP. rewrite VG in HP.
  eapply imp_mono; [|exact HP]. intros p s' q G' _ (V1 & P1 & L1 & L2 & K1 & K2 & K3). split; [exact V1|]. split; [exact P1|]. split; [auto|]. split; [auto|].
  intros x Hb. unfold pls_bufs in Hb. apply in_app_or in Hb. destruct Hb as [Hb|Hb]; [rewrite K1 in Hb; auto|]. pose proof (sfs_bufs_le s1 _ K2 K3 x Hb). bl.
Qed.
Lemma pls_from_halfspaces_shared dd A b s : live2 s A -> live1 s b ->
  implements (pls_from_halfspaces dd A b false) s (poly_from_halfspaces dd (rd2 s A) (rd1 s b) false)
    (fun p s' q => pls_view s' p = q /\ pls_polys p = p_polys q /\
       forall ws, caller_writes s ws -> pls_view (wrs s' ws) p =
         {| p_face := {| ff_A := rd2 (wrs s' ws) A; ff_b := rd1 (wrs s' ws) b |}; p_span := p_span q |}).
Proof.
  intros LA Lb. unfold pls_from_halfspaces, poly_from_halfspaces. eapply imp_step; [reflexivity|apply grows_refl|]. cbn [face_form bind].
  set (f := {| ffs_A := A; ffs_b := b |}). change {| ff_A := rd2 s A; ff_b := rd1 s b |} with (ffs_view s f).
  pose proof (pls_init_parts dd (Some f) None s (conj LA Lb) I) as HP. cbn [option_map] in HP.
  eapply imp_mono; [|exact HP]. intros p s' q G' _ (V1 & P1 & L1 & L2 & K1 & K2 & K3). split; [exact V1|]. split; [exact P1|]. intros ws Hw.
  rewrite <- V1. unfold pls_view. rewrite K1. cbn [p_span]. f_equal. apply (sfs_caller s); auto. now apply sfs_bufs_le.
Qed.
Lemma ffs_eq_fresh A b Ae be s : live2 s A -> live1 s b -> live2 s Ae -> live1 s be ->
  implements (ffs_init A b (Some Ae) (Some be)) s (face_form (rd2 s A) (rd1 s b) (Some (rd2 s Ae)) (Some (rd1 s be)))
    (fun f s' q => ffs_view s' f = q /\ independent s s' (fun t => ffs_view t f) (ffs_bufs f)).
Proof.
  intros L1 L2 L3 L4. unfold ffs_init, face_form. do 2 (eapply imp_step; [reflexivity|apply grows_refl|]). apply imp_lift. intros _ _.
  do 2 (eapply imp_step; [reflexivity|apply grows_refl|]). apply imp_alloc2. intros a s1 G1 R1 K1 B1. apply imp_alloc1. intros c s2 G2 R2 K2 B2. apply imp_ret. hop G2.
  split; [unfold ffs_view; cbn [ffs_A ffs_b]; now rewrite R1, R2|].
  assert (B : forall x, In x (ffs_bufs {| ffs_A := a; ffs_b := c |}) -> (length s <= x)%nat) by (intros x [<-|[<-|[]]]; cbn; bl). split.
  - intros ws Hw. now apply (ffs_caller s).
  - intros ws x i W Hx. eapply own_cell; eauto. eapply grows_trans; eauto.
Qed.
Lemma ffs_shared A b s s' : exists f, ffs_init A b None None s = Ok (f, s) /\ ffs_view s' f = {| ff_A := rd2 s' A; ff_b := rd1 s' b |}.
Proof. eexists. split; reflexivity. Qed.
(** ** convex_hull *)
Lemma hull_spec canon P s : live2 s P ->
  implements (convex_hull_s canon P) s (convex_hull canon (rd2 s P))
    (fun o s' q => option_map (rd2 s') o = q /\
       ((length (rd2 s P) <= 1)%nat -> o = Some P) /\
       ((2 <= length (rd2 s P))%nat -> forall a, o = Some a -> independent s s' (fun t => rd2 t a) [a2_buf a])).
Proof.
  intro L. unfold convex_hull_s, convex_hull. eapply imp_step; [reflexivity|apply grows_refl|].
  destruct (rd2 s P) as [|p [|p' ps]] eqn:EP.
  - apply imp_ret. cbn. rewrite EP. split; [auto|]. split; [auto|]. cbn. lia.
  - apply imp_ret. cbn. rewrite EP. split; [auto|]. split; [auto|]. cbn. lia.
  - rewrite <- EP. destruct (sfs_init_fresh (Some P) None None s L I I) as (f & s1 & E & G & (VF & LF & B1 & B2)). eapply imp_step; [exact E|exact G|]. cbn [option_map] in VF. rewrite <- VF.
    eapply imp_bind'; [apply sfs_canonical_fresh|]. intros o s2 oq G2 HF. cbn beta in HF. destruct o as [g|], oq as [h|]; try easy. destruct HF as (HV & [HL _] & HB & HB').
    apply imp_ret. split; [rewrite <- HV; reflexivity|]. split; [rewrite EP; cbn; lia|]. intros _ a Ea. rewrite Ea in *. cbn in HB.
    assert (Ba : (length s <= a2_buf a)%nat) by bl. split.
    + intros ws Hw. apply (caller_rd2 s); auto.
    + intros ws x i W Hx. eapply own_cell; eauto; [eapply grows_trans; eauto|]. intros y [<-|[]]. auto.
Qed.
(** ** Box *)
Definition bxs_fresh (s : store) (b : BoxS) (s' : store) (q : Box) : Prop :=
  bxs_view s' b = q /\ pls_polys (bxs_poly b) = p_polys (b_poly q) /\ (forall x, In x (bxs_bufs b) -> (length s <= x)%nat) /\
  (a1_buf (bxs_half b) <> a1_buf (bxs_center b) /\ a2_buf (bxs_rot b) <> a1_buf (bxs_center b) /\ forall x, In x (pls_bufs (bxs_poly b)) -> x <> a1_buf (bxs_center b)).
Lemma bxs_init_fresh dd half cen rot s : live1 s half -> live_opt live1 s cen -> live_opt live2 s rot ->
  implements (bxs_init dd half cen rot) s (box_init (rd1 s half) (option_map (rd1 s) cen) (option_map (rd2 s) rot)) (bxs_fresh s).
Proof.
  intros Lh Lc Lr. unfold bxs_init, box_init. remember (rd1 s half) as hv eqn:Eh. symmetry in Eh.
  eapply imp_copy1; [exact Eh|]. intros h s1 G1 R1 L1 B1. eapply imp_get1; [exact R1|]. apply imp_lift. intros _ _. apply imp_lift. intros _ _.
  assert (Ec : option_map (rd1 s) cen = option_map (rd1 s1) cen) by (destruct cen; cbn in *; auto; f_equal; symmetry; now apply grows_rd1).
  assert (Er : option_map (rd2 s) rot = option_map (rd2 s1) rot) by (destruct rot; cbn in *; auto; f_equal; symmetry; now apply grows_rd2). rewrite Ec, Er.
  assert (Lc1 : live_opt live1 s1 cen) by (destruct cen; cbn in *; auto; eapply grows_live1; eauto).
  assert (Lr1 : live_opt live2 s1 rot) by (destruct rot; cbn in *; auto; eapply grows_live2; eauto).
  eapply imp_bind'; [exact (clean_spec rot cen 3 s1 Lr1 Lc1)|]. intros [r c] s2 [rv tv] G2 (R2 & R2' & L2 & L2' & B2 & B2' & B2q). cbn [fst snd] in *. assert (C1 : (a1_buf h < a1_buf c)%nat) by (unfold live1 in L1; lia). assert (C2 : (a1_buf c < length s2)%nat) by exact L2'. hop G2.
  eapply imp_get2; [exact R2|]. eapply imp_get1; [exact R2'|]. apply imp_lift. intros vs _. apply imp_alloc2. intros V s3 G3 R3 L3 B3. apply imp_lift. intros [Av bv] _. cbn [fst snd].
  apply imp_alloc2. intros A s4 G4 R4 L4 B4. apply imp_alloc1. intros b s5 G5 R5 L5 B5. hop G3. hop G4. hop G5.
  destruct (sfs_init_fresh (Some V) None None s5 L3 I I) as (sf & s6 & E6 & G6 & (V6 & L6 & B6 & B6')). eapply imp_step; [exact E6|exact G6|]. cbn [option_map] in V6. rewrite R3 in V6. hop G6.
  eapply imp_step; [reflexivity|apply grows_refl|]. cbn [face_form bind]. set (ff := {| ffs_A := A; ffs_b := b |}).
  pose proof (pls_init_parts dd (Some ff) (Some sf) s6 (conj L4 L5) L6) as HP. cbn [option_map] in *. rewrite V6 in HP. change (ffs_view s6 ff) with {| ff_A := rd2 s6 A; ff_b := rd1 s6 b |} in HP. rewrite R4, R5 in HP.
  destruct HP as (p & s7 & E7 & G7 & (V7 & P7 & L7 & L7' & K7 & K7')). eapply imp_step; [exact E7|exact G7|]. apply imp_ret. hop G7.
  split; [unfold bxs_view; cbn [bxs_half bxs_center bxs_rot bxs_poly]; now rewrite R1, R2, R2', V7|]. split; [exact P7|].
  assert (Bp : forall x, In x (pls_bufs p) -> (length s2 <= x)%nat).
  { intros x Hx. unfold pls_bufs in Hx. rewrite K7, K7' in Hx. apply in_app_or in Hx. destruct Hx as [[<-|[<-|[]]]|Hx]; [cbn; bl|cbn; bl|]. pose proof (sfs_bufs_le s5 sf B6 B6' x Hx). bl. }
  split.
  - intros x Hx. unfold bxs_bufs in Hx. apply in_app_or in Hx. cbn [bxs_half bxs_center bxs_rot bxs_poly] in Hx. destruct Hx as [[<-|[<-|[<-|[]]]]|Hx]; [bl|bl|bl|]. specialize (Bp x Hx). bl.
  - cbn [bxs_half bxs_center bxs_rot bxs_poly]. split; [lia|]. split; [lia|]. intros x Hx. specialize (Bp x Hx). lia.
Qed.
Lemma bxs_indep s m r : implements m s r (bxs_fresh s) ->
  implements m s r (fun b s' q => bxs_view s' b = q /\ pls_polys (bxs_poly b) = p_polys (b_poly q) /\ independent s s' (fun t => bxs_view t b) (bxs_bufs b)).
Proof.
  apply imp_mono. intros e s' q G _ (V & P & B & _). split; [exact V|]. split; [exact P|]. split.
  - intros ws Hw. unfold bxs_view. rewrite (pls_caller s), !(caller_rd1 s), (caller_rd2 s); auto; try (apply B; cbn; auto). intros x Hx. apply B. unfold bxs_bufs. apply in_or_app. auto.
  - intros ws b i W Hb. now apply (own_cell s s' (bxs_bufs e)).
Qed.
(** ** Cylinder *)
Definition cys_live (s : store) (c : CylS) : Prop := live2 s (cys_rot c) /\ live1 s (cys_center c) /\
  els_live s (cys_ell1 c) /\ els_live s (cys_ell2 c) /\ Forall (els_live s) (cys_disk0s c) /\ Forall (els_live s) (cys_disks c).
Definition cys_fresh (s : store) (c : CylS) (s' : store) (q : Cyl) : Prop :=
  cys_view s' c = q /\ cys_live s' c /\ (forall x, In x (cys_bufs c) -> (length s <= x)%nat) /\
  a2_buf (cys_rot c) <> a1_buf (cys_center c) /\ forall x, In x (flat_map els_bufs (cys_ell1 c :: cys_ell2 c :: cys_disk0s c ++ cys_disks c)) -> x <> a1_buf (cys_center c).
Lemma els_live_grows s s' e : grows s s' -> els_live s e -> els_live s' e.
Proof. intros G (L1 & L2 & L3). repeat split; [eapply grows_live1|eapply grows_live2|eapply grows_live1]; eauto. Qed.
Lemma fresh_unpack s e s' q : els_fresh s e s' q -> els_view s' e = q /\ els_live s' e /\ forall b, In b (els_bufs e) -> (length s <= b)%nat.
Proof. intros (V & L1 & L2 & L3 & B). split; [auto|]. split; [now repeat split|auto]. Qed.
Lemma els_view_grows s s' e : grows s s' -> els_live s e -> els_view s' e = els_view s e.
Proof. intros G (L1 & L2 & L3). now apply els_grows. Qed.
Ltac hope G :=
  match type of G with grows ?s ?s' =>
    repeat match goal with
    | H : els_view s ?a = ?v, L : els_live s ?a |- _ => rewrite <- (els_view_grows s s' a G L) in H; apply (els_live_grows s s' a G) in L
    end
  end; hop G.
Lemma cys_init_fresh len radius rot cen s : live_opt live2 s rot -> live_opt live1 s cen ->
  implements (cys_init len radius rot cen) s (cyl_init len radius (option_map (rd2 s) rot) (option_map (rd1 s) cen)) (cys_fresh s).
Proof.
  intros Lr Lc. unfold cys_init, cyl_init. apply imp_lift. intros _ _. apply imp_lift. intros _ _. cbv zeta.
  set (rv := match option_map (rd2 s) rot with None => eye 3 | Some r => r end). set (cv := match option_map (rd1 s) cen with None => zeros 3 | Some c => c end).
  assert (P : implements (match rot with None => alloc2 (eye 3) | Some r => copy2 r end) s (Ok rv) (fun a s1 q => rd2 s1 a = q /\ live2 s1 a /\ (length s <= a2_buf a)%nat)).
  { destruct rot as [r|]; cbn [option_map] in *; do 2 eexists; (split; [reflexivity|]); (split; [apply grows_snoc|]); (split; [apply rd_alloc2|]); unfold live2; cbn [a2_buf snd fst]; rewrite app_length; cbn; lia. }
  destruct P as (r & s1 & E1 & G1 & R1 & L1 & B1). eapply imp_step; [exact E1|exact G1|]. eapply imp_get2; [exact R1|]. apply imp_lift. intros _ _.
  assert (P : implements (match cen with None => alloc1 (zeros 3) | Some r => copy1 r end) s1 (Ok cv) (fun a s2 q => rd1 s2 a = q /\ live1 s2 a /\ (length s1 <= a1_buf a)%nat)).
  { assert (Ecv : cv = match option_map (rd1 s1) cen with None => zeros 3 | Some c => c end) by (unfold cv; destruct cen; cbn in *; auto; symmetry; now apply grows_rd1). rewrite Ecv. clear Ecv. clearbody cv.
    destruct cen as [c|]; cbn [option_map] in *; do 2 eexists; (split; [reflexivity|]); (split; [apply grows_snoc|]); (split; [apply rd_alloc1|]); unfold live1; cbn [a1_buf snd fst]; rewrite app_length; cbn; lia. }
  destruct P as (c & s2 & E2 & G2 & R2 & L2 & B2). eapply imp_step; [exact E2|exact G2|]. eapply imp_get1; [exact R2|]. apply imp_lift. intros _ _. assert (C1 : (a2_buf r < a1_buf c)%nat) by (unfold live2 in L1; lia). assert (C2 : (a1_buf c < length s2)%nat) by exact L2. hop G2.
  eapply imp_bind'; [apply els_new_fresh|]. intros e1 s3 q1 G3 F1. apply fresh_unpack in F1. destruct F1 as (V1 & M1 & D1). hope G3.
  eapply imp_bind'; [apply els_new_fresh|]. intros e2 s4 q2 G4 F2. apply fresh_unpack in F2. destruct F2 as (V2 & M2 & D2). hope G4.
  eapply imp_bind'; [apply els_new_fresh|]. intros d1 s5 q3 G5 F3. apply fresh_unpack in F3. destruct F3 as (V3 & M3 & D3). hope G5.
  eapply imp_bind'; [apply els_new_fresh|]. intros d2 s6 q4 G6 F4. apply fresh_unpack in F4. destruct F4 as (V4 & M4 & D4). hope G6.
  cbn [mapM].
  pose proof (els_transform_fresh d1 (Some r) (Some c) s6 M3 L1 L2) as T1. cbn [option_map] in T1. rewrite R1, R2, V3 in T1.
  assert (AS : forall (f : list Ell -> Cyl), (let* ds := (let* b := ell_transform q3 (Some rv) (Some cv) in let* bs := (let* b0 := ell_transform q4 (Some rv) (Some cv) in let* bs := Ok [] in Ok (b0 :: bs)) in Ok (b :: bs)) in Ok (f ds)) =
     (let* t1 := ell_transform q3 (Some rv) (Some cv) in let* t2 := ell_transform q4 (Some rv) (Some cv) in Ok (f [t1; t2]))).
  { intro f. destruct (ell_transform q3 _ _); [|reflexivity|reflexivity]. cbn [bind]. destruct (ell_transform q4 _ _); reflexivity. }
  rewrite (AS (fun ds => {| c_length := len; c_radius := radius; c_rot := rv; c_center := cv; c_ell1 := q1; c_ell2 := q2; c_disk0s := [q3; q4]; c_disks := ds |})). clear AS.
  eapply imp_bind'; [exact T1|]. intros t1 s7 q5 G7 F5. apply fresh_unpack in F5. destruct F5 as (V5 & M5 & D5). hope G7.
  pose proof (els_transform_fresh d2 (Some r) (Some c) s7 M4 L1 L2) as T2. cbn [option_map] in T2. rewrite R1, R2, V4 in T2.
  eapply imp_bind'; [exact T2|]. intros t2 s8 q6 G8 F6. apply fresh_unpack in F6. destruct F6 as (V6 & M6 & D6). hope G8. apply imp_ret.
  assert (D : forall x, In x (flat_map els_bufs (e1 :: e2 :: [d1; d2] ++ [t1; t2])) -> (length s2 <= x)%nat).
  { intros x Hx. cbn [app flat_map] in Hx. repeat (apply in_app_or in Hx; destruct Hx as [Hx|Hx]); [specialize (D1 x Hx)|specialize (D2 x Hx)|specialize (D3 x Hx)|specialize (D4 x Hx)|specialize (D5 x Hx)|specialize (D6 x Hx)|destruct Hx]; bl. }
  split; [unfold cys_view; cbn [cys_length cys_radius cys_rot cys_center cys_ell1 cys_ell2 cys_disk0s cys_disks map]; now rewrite R1, R2, V1, V2, V3, V4, V5, V6|].
  split; [unfold cys_live; cbn [cys_rot cys_center cys_ell1 cys_ell2 cys_disk0s cys_disks]; auto 10|]. split.
  - intros x Hx. unfold cys_bufs in Hx. cbn [cys_rot cys_center cys_ell1 cys_ell2 cys_disk0s cys_disks] in Hx. apply in_app_or in Hx. destruct Hx as [[<-|[<-|[]]]|Hx]; [bl|bl|]. specialize (D x Hx). bl.
  - cbn [cys_rot cys_center cys_ell1 cys_ell2 cys_disk0s cys_disks]. split; [lia|]. intros x Hx. specialize (D x Hx). lia.
Qed.
Lemma cys_caller s s' c ws : caller_writes s ws -> (forall x, In x (cys_bufs c) -> (length s <= x)%nat) -> cys_view (wrs s' ws) c = cys_view s' c.
Proof.
  intros Hw B. assert (BE : forall e, In e (cys_ell1 c :: cys_ell2 c :: cys_disk0s c ++ cys_disks c) -> els_view (wrs s' ws) e = els_view s' e).
  { intros e He. apply (els_caller s); auto. intros b Hb. apply B. unfold cys_bufs. apply in_or_app. right. apply in_flat_map. eauto. }
  unfold cys_view. rewrite (caller_rd1 s), (caller_rd2 s); auto; try (apply B; cbn; auto). rewrite (BE (cys_ell1 c)), (BE (cys_ell2 c)) by (cbn; auto). f_equal; apply map_ext_in; intros e He; apply BE; cbn; right; right; apply in_or_app; auto.
Qed.
Lemma cys_indep s m r : implements m s r (cys_fresh s) ->
  implements m s r (fun c s' q => cys_view s' c = q /\ independent s s' (fun t => cys_view t c) (cys_bufs c)).
Proof.
  apply imp_mono. intros e s' q G _ (V & _ & B & _). split; [exact V|]. split.
  - intros ws Hw. now apply (cys_caller s).
  - intros ws b i W Hb. now apply (own_cell s s' (cys_bufs e)).
Qed.
(** assignments to arrays other than those of an object *)
Lemma other_rd1 s ws a : (forall w, In w ws -> fst (fst w) <> a1_buf a) -> rd1 (wrs s ws) a = rd1 s a.
Proof. intro H. apply rd1_ext. intro i. now apply wrs_other. Qed.
Lemma other_rd2 s ws a : (forall w, In w ws -> fst (fst w) <> a2_buf a) -> rd2 (wrs s ws) a = rd2 s a.
Proof. intro H. apply rd2_ext. intro i. now apply wrs_other. Qed.
Lemma other_els s ws e : (forall w x, In w ws -> In x (els_bufs e) -> fst (fst w) <> x) -> els_view (wrs s ws) e = els_view s e.
Proof. intro H. unfold els_view. rewrite !other_rd1, other_rd2; auto; intros w Hw; apply H; cbn; auto. Qed.
Lemma other_ffs s ws e : (forall w x, In w ws -> In x (ffs_bufs e) -> fst (fst w) <> x) -> ffs_view (wrs s ws) e = ffs_view s e.
Proof. intro H. unfold ffs_view. rewrite !other_rd1, other_rd2; auto; intros w Hw; apply H; cbn; auto. Qed.
Lemma other_sfs s ws f : (forall w x, In w ws -> In x (sfs_bufs f) -> fst (fst w) <> x) -> sfs_view (wrs s ws) f = sfs_view s f.
Proof.
  intro H. unfold sfs_view. f_equal.
  - destruct (sfs_vertices f) as [v|] eqn:E; cbn; [|reflexivity]. rewrite other_rd2; auto. intros w Hw. apply H; auto. unfold sfs_bufs. rewrite E. cbn. auto.
  - destruct (sfs_rays f) as [v|] eqn:E; cbn; [|reflexivity]. rewrite other_rd2; auto. intros w Hw. apply H; auto. unfold sfs_bufs. rewrite E. apply in_or_app. cbn. auto.
Qed.
Lemma cys_center_own len radius rot cen s : live_opt live2 s rot -> live_opt live1 s cen ->
  implements (cys_init len radius rot cen) s (cyl_init len radius (option_map (rd2 s) rot) (option_map (rd1 s) cen))
    (fun c s' q => forall ws, writes_to [a1_buf (cys_center c)] ws ->
       let q' := cys_view (wrs s' ws) c in
       q' = {| c_length := c_length q; c_radius := c_radius q; c_rot := c_rot q; c_center := rd1 (wrs s' ws) (cys_center c);
               c_ell1 := c_ell1 q; c_ell2 := c_ell2 q; c_disk0s := c_disk0s q; c_disks := c_disks q |} /\
       forall x tol, cyl_contains q' x tol = cyl_contains q x tol).
Proof.
  intros Lr Lc. eapply imp_mono; [|exact (cys_init_fresh len radius rot cen s Lr Lc)]. intros c s' q G _ (V & _ & _ & N1 & N2) ws W q'.
  assert (E : q' = {| c_length := c_length q; c_radius := c_radius q; c_rot := c_rot q; c_center := rd1 (wrs s' ws) (cys_center c);
               c_ell1 := c_ell1 q; c_ell2 := c_ell2 q; c_disk0s := c_disk0s q; c_disks := c_disks q |}).
  { subst q'. rewrite <- V. assert (WB : forall w, In w ws -> fst (fst w) = a1_buf (cys_center c)) by (intros w Hw; destruct (W w Hw) as [<-|[]]; reflexivity).
    assert (BE : forall e, In e (cys_ell1 c :: cys_ell2 c :: cys_disk0s c ++ cys_disks c) -> els_view (wrs s' ws) e = els_view s' e).
    { intros e He. apply other_els. intros w x Hw Hx. rewrite (WB w Hw). apply not_eq_sym, N2, in_flat_map. eauto. }
    unfold cys_view. cbn [c_length c_radius c_rot c_center c_ell1 c_ell2 c_disk0s c_disks].
    rewrite (BE (cys_ell1 c)), (BE (cys_ell2 c)) by (cbn; auto). f_equal.
    - apply other_rd2. intros w Hw. rewrite (WB w Hw). auto.
    - apply map_ext_in. intros e He. apply BE. right. right. apply in_or_app. auto.
    - apply map_ext_in. intros e He. apply BE. right. right. apply in_or_app. auto. }
  split; [exact E|]. intros x tol. rewrite E. reflexivity.
Qed.
Lemma bxs_center_own dd half cen rot s : live1 s half -> live_opt live1 s cen -> live_opt live2 s rot ->
  implements (bxs_init dd half cen rot) s (box_init (rd1 s half) (option_map (rd1 s) cen) (option_map (rd2 s) rot))
    (fun b s' q => forall ws, writes_to [a1_buf (bxs_center b)] ws ->
       bxs_view (wrs s' ws) b = {| b_half := b_half q; b_center := rd1 (wrs s' ws) (bxs_center b); b_rot := b_rot q; b_poly := b_poly q |}).
Proof.
  intros Lh Lc Lr. eapply imp_mono; [|exact (bxs_init_fresh dd half cen rot s Lh Lc Lr)]. intros c s' q G _ (V & _ & _ & N1 & N2 & N3) ws W.
  rewrite <- V. assert (WB : forall w, In w ws -> fst (fst w) = a1_buf (bxs_center c)) by (intros w Hw; destruct (W w Hw) as [<-|[]]; reflexivity).
  unfold bxs_view. cbn [b_half b_rot b_poly]. f_equal.
  - apply other_rd1. intros w Hw. rewrite (WB w Hw). auto.
  - apply other_rd2. intros w Hw. rewrite (WB w Hw). auto.
  - unfold pls_view. f_equal; [apply other_ffs|apply other_sfs]; intros w x Hw Hx; rewrite (WB w Hw); apply not_eq_sym, N3; unfold pls_bufs; apply in_or_app; auto.
Qed.
(** ** Capsule *)
Lemma cys_view_grows s s' c : grows s s' -> cys_live s c -> cys_view s' c = cys_view s c.
Proof.
  intros G (L1 & L2 & L3 & L4 & L5 & L6). unfold cys_view. rewrite (grows_rd1 s s'), (grows_rd2 s s'), !(els_view_grows s s'); auto. rewrite Forall_forall in L5, L6.
  f_equal; apply map_ext_in; intros e He; apply els_view_grows; auto.
Qed.
Lemma cps_spec c s : live2 s (cys_rot c) -> live1 s (cys_center c) ->
  (forall e, In e (cys_ell1 c :: cys_ell2 c :: cys_disk0s c ++ cys_disks c) -> live1 s (els_half e) /\ live2 s (els_rot e) /\ live1 s (els_center e)) ->
  implements (cps_init c) s (caps_init (cys_view s c))
    (fun k s' q => cps_view s' k = q /\ cps_cyl k = c /\
       forall ws, caller_writes s ws -> cps_view (wrs s' ws) k = {| k_cyl := cys_view (wrs s' ws) c; k_caps := k_caps q |}).
Proof.
  intros L1 L2 L3. assert (Lc : cys_live s c).
  { split; [auto|]. split; [auto|]. split; [apply L3; cbn; auto|]. split; [apply L3; cbn; auto|]. split; apply Forall_forall; intros e He; apply L3; right; right; apply in_or_app; auto. }
  unfold cps_init, caps_init. eapply (imp_get (fun s => cys_view s c)); [reflexivity|]. set (cv := cys_view s c). unfold cyl_endpoints.
  set (p0 := vadd _ (c_center cv)). set (p1 := vadd (vneg _) (c_center cv)). cbn [mapM].
  apply imp_alloc1. intros P0 s1 G1 R1 M1 B1. apply imp_alloc1. intros P1 s2 G2 R2 M2 B2. hop G2.
  assert (AS : forall (f : list Ell -> Caps), (let* ds := (let* b := ell_sphere (c_radius cv) (Some p0) in let* bs := (let* b0 := ell_sphere (c_radius cv) (Some p1) in let* bs := Ok [] in Ok (b0 :: bs)) in Ok (b :: bs)) in Ok (f ds)) =
     (let* t1 := ell_sphere (c_radius cv) (Some p0) in let* t2 := ell_sphere (c_radius cv) (Some p1) in Ok (f [t1; t2]))).
  { intro f. destruct (ell_sphere _ (Some p0)); [|reflexivity|reflexivity]. cbn [bind]. destruct (ell_sphere _ (Some p1)); reflexivity. }
  rewrite (AS (fun ds => {| k_cyl := cv; k_caps := ds |})). clear AS.
  pose proof (els_sphere_fresh (cys_radius c) (Some P0) s2 M1) as T1. cbn [option_map] in T1. rewrite R1 in T1. change (c_radius cv) with (cys_radius c).
  eapply imp_bind'; [exact T1|]. intros t1 s3 q1 G3 F1. apply fresh_unpack in F1. destruct F1 as (V1 & K1 & D1). hope G3.
  pose proof (els_sphere_fresh (cys_radius c) (Some P1) s3 M2) as T2. cbn [option_map] in T2. rewrite R2 in T2.
  eapply imp_bind'; [exact T2|]. intros t2 s4 q2 G4 F2. apply fresh_unpack in F2. destruct F2 as (V2 & K2 & D2). hope G4. apply imp_ret.
  assert (G : grows s s4) by (eapply grows_trans; [exact G1|eapply grows_trans; [exact G2|eapply grows_trans; eauto]]).
  split; [unfold cps_view; cbn [cps_cyl cps_caps map]; rewrite V1, V2, (cys_view_grows s s4 c G Lc); reflexivity|]. split; [reflexivity|].
  intros ws Hw. unfold cps_view. cbn [cps_cyl cps_caps map k_caps]. rewrite !(els_caller s), V1, V2; auto.
  - intros x Hx. specialize (D2 x Hx). bl.
  - intros x Hx. specialize (D1 x Hx). bl.
Qed.
