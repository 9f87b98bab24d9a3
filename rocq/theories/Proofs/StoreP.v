(** Reading and writing of a store (C89, C90). *)
From Verif Require Import Base.Vec Base.VecFacts Spec.Basic Spec.Sharing Model.Util Model.Store.

Lemma sn_length {A} (l : list A) i v : length (set_nth l i v) = length l.
Proof. revert i; induction l as [|a l IH]; intros [|i]; cbn; auto. Qed.
Lemma sn_other {A} (l : list A) i j v d : i <> j -> nth j (set_nth l i v) d = nth j l d.
Proof. revert i j; induction l as [|a l IH]; intros [|i] [|j] H; cbn; auto; try congruence. Qed.
Lemma sn_same {A} (l : list A) i v d : (i < length l)%nat -> nth i (set_nth l i v) d = v.
Proof. revert i; induction l as [|a l IH]; intros [|i] H; cbn in *; auto; try lia. apply IH. lia. Qed.
Lemma wr_length s b i x : length (wr s b i x) = length s.
Proof. apply sn_length. Qed.
Lemma wr_other s b i x b' j : b <> b' -> cell (wr s b i x) b' j = cell s b' j.
Proof. intro H. unfold cell, wr. now rewrite sn_other. Qed.
Lemma wrs_length ws : forall s, length (wrs s ws) = length s.
Proof. induction ws as [|w ws IH]; intro s; cbn; auto. change (length (wrs (wr s (fst (fst w)) (snd (fst w)) (snd w)) ws) = length s). now rewrite IH, wr_length. Qed.
Lemma wrs_other ws b j : forall s, (forall w, In w ws -> fst (fst w) <> b) -> cell (wrs s ws) b j = cell s b j.
Proof.
  induction ws as [|w ws IH]; intros s H; [reflexivity|]. change (cell (wrs (wr s (fst (fst w)) (snd (fst w)) (snd w)) ws) b j = cell s b j).
  rewrite IH by (intros w' Hw; apply H; now right). apply wr_other. apply H. now left.
Qed.
Lemma cell_app s e b i : (b < length s)%nat -> cell (s ++ e) b i = cell s b i.
Proof. intro H. unfold cell. now rewrite app_nth1. Qed.
Lemma rd1_ext s s' a : (forall i, cell s (a1_buf a) i = cell s' (a1_buf a) i) -> rd1 s a = rd1 s' a.
Proof. intro H. unfold rd1. apply map_ext. exact H. Qed.
Lemma rd2_ext s s' a : (forall i, cell s (a2_buf a) i = cell s' (a2_buf a) i) -> rd2 s a = rd2 s' a.
Proof. intro H. unfold rd2. apply map_ext. intro r. apply map_ext. exact H. Qed.
Lemma grows_refl s : grows s s.
Proof. exists []. now rewrite app_nil_r. Qed.
Lemma grows_trans s1 s2 s3 : grows s1 s2 -> grows s2 s3 -> grows s1 s3.
Proof. intros [e1 ->] [e2 ->]. exists (e1 ++ e2). now rewrite app_assoc. Qed.
Lemma grows_snoc s v : grows s (s ++ [v]).
Proof. now exists [v]. Qed.
Lemma grows_length s s' : grows s s' -> (length s <= length s')%nat.
Proof. intros [e ->]. rewrite app_length. lia. Qed.
Lemma grows_cell s s' b i : grows s s' -> (b < length s)%nat -> cell s' b i = cell s b i.
Proof. intros [e ->] H. now apply cell_app. Qed.
Lemma grows_rd1 s s' a : grows s s' -> live1 s a -> rd1 s' a = rd1 s a.
Proof. intros G L. apply rd1_ext. intro i. now apply grows_cell. Qed.
Lemma grows_rd2 s s' a : grows s s' -> live2 s a -> rd2 s' a = rd2 s a.
Proof. intros G L. apply rd2_ext. intro i. now apply grows_cell. Qed.
Lemma grows_live1 s s' a : grows s s' -> live1 s a -> live1 s' a.
Proof. intros G L. apply grows_length in G. unfold live1 in *. lia. Qed.
Lemma grows_live2 s s' a : grows s s' -> live2 s a -> live2 s' a.
Proof. intros G L. apply grows_length in G. unfold live2 in *. lia. Qed.
Lemma map_nth_all (v : vec) : map (fun i => nth i v 0) (seq 0 (length v)) = v.
Proof.
  apply (nth_ext _ _ 0 0); [now rewrite map_length, seq_length|]. intros i Hi. rewrite map_length, seq_length in Hi. now rewrite nth_map_seq.
Qed.
Lemma nth_snoc (s : store) v : nth (length s) (s ++ [v]) [] = v.
Proof. rewrite app_nth2, Nat.sub_diag; auto. Qed.
Lemma rd_alloc1 s v : rd1 (s ++ [v]) {| a1_buf := length s; a1_at := seq 0 (length v) |} = v.
Proof. unfold rd1, cell. cbn [a1_buf a1_at]. rewrite nth_snoc. apply map_nth_all. Qed.
Lemma rows_from_read M : forall pre, map (map (fun i => nth i (pre ++ concat M) 0)) (rows_from (length pre) M) = M.
Proof.
  induction M as [|r M IH]; intro pre; cbn [rows_from map concat]; auto. f_equal.
  - apply (nth_ext _ _ 0 0); [now rewrite map_length, seq_length|]. intros i Hi. rewrite map_length, seq_length in Hi.
    rewrite (nth_indep _ 0 (nth 0 (pre ++ r ++ concat M) 0)) by now rewrite map_length, seq_length. rewrite (map_nth (fun i => nth i (pre ++ r ++ concat M) 0)), seq_nth by auto.
    rewrite app_nth2 by lia. rewrite app_nth1 by lia. f_equal. lia.
  - rewrite app_assoc. rewrite <- (app_length pre r). apply IH.
Qed.
Lemma rd_alloc2 s M : rd2 (s ++ [concat M]) {| a2_buf := length s; a2_at := rows_from 0 M |} = M.
Proof. unfold rd2, cell. cbn [a2_buf a2_at]. rewrite nth_snoc. apply (rows_from_read M []). Qed.

(** writes and arrays *)
Lemma caller_rd1 s s' ws a : caller_writes s ws -> (length s <= a1_buf a)%nat -> rd1 (wrs s' ws) a = rd1 s' a.
Proof. intros H L. apply rd1_ext. intro i. apply wrs_other. intros w Hw. apply H in Hw. lia. Qed.
Lemma caller_rd2 s s' ws a : caller_writes s ws -> (length s <= a2_buf a)%nat -> rd2 (wrs s' ws) a = rd2 s' a.
Proof. intros H L. apply rd2_ext. intro i. apply wrs_other. intros w Hw. apply H in Hw. lia. Qed.
Lemma own_cell s s' own ws b i : grows s s' -> (forall o, In o own -> (length s <= o)%nat) -> writes_to own ws -> (b < length s)%nat -> cell (wrs s' ws) b i = cell s b i.
Proof.
  intros G F W Hb. rewrite wrs_other; [now apply grows_cell|]. intros w Hw E. apply W, F in Hw. lia.
Qed.
Lemma caller_grows s s' ws : grows s s' -> caller_writes s ws -> caller_writes s' ws.
Proof. intros G H w Hw. apply grows_length in G. apply H in Hw. lia. Qed.

(** slices *)
Lemma rd_slice1 s lo n a : rd1 s (slice1 lo n a) = firstn n (skipn lo (rd1 s a)).
Proof. unfold rd1, slice1. cbn [a1_buf a1_at]. now rewrite <- firstn_map, <- skipn_map. Qed.
Lemma rd_row_slice s i n A : rd1 s (row_slice i n A) = firstn n (nth i (rd2 s A) []).
Proof. unfold rd1, rd2, row_slice. cbn [a1_buf a1_at]. rewrite <- firstn_map. f_equal. symmetry. apply (map_nth (map (cell s (a2_buf A))) (a2_at A) []). Qed.
Lemma rd_slice2 s n m A : rd2 s (slice2 n m A) = sub_mat n m (rd2 s A).
Proof.
  unfold rd2, slice2, sub_mat. cbn [a2_buf a2_at]. rewrite map_map, firstn_map, map_map. apply map_ext. intro r. now rewrite firstn_map.
Qed.

(** ** programs *)
Lemma sbind_ok {A B} (m : st A) (f : A -> st B) s a s1 : m s = Ok (a, s1) -> sbind m f s = f a s1.
Proof. intro H. unfold sbind. now rewrite H. Qed.
Lemma sbind_raise {A B} (m : st A) (f : A -> st B) s e : m s = Raise e -> sbind m f s = Raise e.
Proof. intro H. unfold sbind. now rewrite H. Qed.
Lemma sbind_nf {A B} (m : st A) (f : A -> st B) s : m s = NonFinite -> sbind m f s = NonFinite.
Proof. intro H. unfold sbind. now rewrite H. Qed.
(** a first step that is known *)
Lemma imp_step {A B C} (m : st A) (f : A -> st B) s a s1 (r : res C) Q : m s = Ok (a, s1) -> grows s s1 ->
  implements (f a) s1 r Q -> implements (sbind m f) s r Q.
Proof.
  intros H G. unfold implements. rewrite (sbind_ok m f s a s1 H). destruct r; auto. intros (b & s' & E & G' & HQ). exists b, s'. split; [auto|]. split; [eapply grows_trans; eauto|auto].
Qed.
Lemma imp_lift {A B C} (r : res A) (f : A -> st B) s (g : A -> res C) Q : (forall a, r = Ok a -> implements (f a) s (g a) Q) -> implements (sbind (lift r) f) s (let* a := r in g a) Q.
Proof.
  intro H. destruct r as [a|e|]; cbn [bind].
  - eapply imp_step; [reflexivity|apply grows_refl|]. cbn. now apply H.
  - reflexivity.
  - reflexivity.
Qed.
Lemma imp_mono {A B} (m : st A) s (r : res B) (Q Q' : A -> store -> B -> Prop) : (forall a s' b, grows s s' -> r = Ok b -> Q a s' b -> Q' a s' b) -> implements m s r Q -> implements m s r Q'.
Proof. intros H. unfold implements. destruct r as [b|e|]; auto. intros (a & s' & E & G & HQ). exists a, s'. auto. Qed.
