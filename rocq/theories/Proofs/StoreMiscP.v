From Coq Require Import String.
From Verif Require Import Base.Vec Base.VecFacts Model.Util Model.Inertial Model.Polydd Model.Poly Model.Ellipsoid Model.Box Model.Cylinder
  Model.Realize Model.Moment Model.RigidBody Model.MultiBody Model.Store Model.StoreObjects Spec.Sharing Spec.SharingObjects Proofs.StoreP Proofs.StoreObjectsP.
Import ListNotations.
Local Notation length := List.length.

(** ** Polynomial.__add__ *)
Definition upd (c : pol) (kv : list nat * R) : pol :=
  match dict_get idx_eqb (fst kv) c with
  | Some v => dict_set idx_eqb (fst kv) (v + snd kv) c
  | None => dict_set idx_eqb (fst kv) (snd kv) c
  end.
Lemma set_last {A} (l : list A) x y : set_nth (l ++ [x]) (length l) y = (l ++ [y])%list.
Proof. rewrite set_nth_app_r, Nat.sub_diag by lia. reflexivity. Qed.
Lemma loop_add (h : pheap) q : (q < length h)%nat -> forall ks pre d, dict_at h q = (pre ++ ks)%list ->
  fold_left (pos_step (length h) q) (seq (length pre) (length ks)) (h ++ [d]) = (h ++ [fold_left upd ks d])%list.
Proof.
  intro L. induction ks as [|[k v] ks IH]; intros pre d E; [reflexivity|]. cbn [List.length seq fold_left].
  assert (ES : pos_step (length h) q (h ++ [d]) (length pre) = (h ++ [upd d (k, v)])%list).
  { unfold pos_step, upd. assert (EQ : dict_at (h ++ [d]) q = (pre ++ (k, v) :: ks)%list) by (unfold dict_at in *; rewrite app_nth1; auto).
    assert (EC : dict_at (h ++ [d]) (length h) = d) by (unfold dict_at; apply nth_snoc).
    rewrite EQ, EC, nth_error_app2, Nat.sub_diag by lia. cbn [nth_error fst snd]. destruct (dict_get idx_eqb k d); now rewrite set_last. }
  rewrite ES. replace (S (length pre)) with (length (pre ++ [(k, v)])) by (rewrite app_length; cbn; lia). apply IH. rewrite E, <- app_assoc. reflexivity.
Qed.
Lemma pos_add_spec p q h : (p < length h)%nat -> (q < length h)%nat ->
  exists r h', pos_add p q h = (r, h') /\ extends h h' /\ (length h <= r)%nat /\ dict_at h' r = pol_add (dict_at h p) (dict_at h q).
Proof.
  intros Lp Lq. unfold pos_add. do 2 eexists. split; [reflexivity|].
  assert (EQ : dict_at (h ++ [dict_at h p]) q = dict_at h q) by (unfold dict_at; now rewrite app_nth1).
  rewrite EQ.
  pose proof (loop_add h q Lq (dict_at h q) [] (dict_at h p) eq_refl) as K. cbn [List.length] in *. rewrite !K.
  split; [|split].
  - rewrite <- app_assoc. apply ext_app.
  - rewrite app_length. lia.
  - assert (ED : dict_at (h ++ [fold_left upd (dict_at h q) (dict_at h p)]) (length h) = fold_left upd (dict_at h q) (dict_at h p)) by (unfold dict_at at 1; apply nth_snoc).
    rewrite ED. unfold dict_at at 1. rewrite nth_snoc. reflexivity.
Qed.

(** ** compute_joint_torque_regressor *)
Definition puts (ps : list (nat * R)) (v : vec) : vec := fold_left (fun v p => set_nth v (fst p) (snd p)) ps v.
Lemma wrs_last s ps : forall v, wrs (s ++ [v]) (map (fun p => (length s, fst p, snd p)) ps) = (s ++ [puts ps v])%list.
Proof.
  induction ps as [|[i x] ps IH]; intro v; [reflexivity|]. cbn [map wrs fold_left fst snd]. fold (wrs (wr (s ++ [v]) (length s) i x) (map (fun p => (length s, fst p, snd p)) ps)).
  unfold wr. rewrite (nth_snoc s v []), set_last. apply IH.
Qed.
Lemma set_mid {A} (pre r post : list A) k x : (k < length r)%nat -> set_nth (pre ++ r ++ post) (length pre + k) x = (pre ++ set_nth r k x ++ post)%list.
Proof.
  intro H. rewrite set_nth_app_r by lia. replace (length pre + k - length pre)%nat with k by lia. f_equal. revert k H. induction r as [|a r IH]; intros [|k] H; cbn in *; try lia; auto. f_equal. apply IH. lia.
Qed.
Lemma puts_col m k M : (k < m)%nat -> (forall r, In r M -> length r = m) -> forall x pre, length x = length M ->
  puts (map2 (fun row a => (nth k row 0%nat, a)) (rows_from (length pre) M) x) (pre ++ concat M) = (pre ++ concat (map2 (fun r a => set_nth r k a) M x))%list.
Proof.
  intros Hk. induction M as [|r M IH]; intros HM x pre Hx.
  - destruct x; [|easy]. reflexivity.
  - destruct x as [|a x]; [easy|]. cbn [rows_from map2 puts fold_left concat fst snd]. assert (Lr : length r = m) by (apply HM; now left).
    rewrite seq_nth by lia. rewrite set_mid by lia. 
    replace (length pre + length r)%nat with (length (pre ++ set_nth r k a)) by (rewrite app_length, set_nth_len; lia). rewrite app_assoc.
    fold (puts (map2 (fun row a0 => (nth k row 0%nat, a0)) (rows_from (length (pre ++ set_nth r k a)) M) x) ((pre ++ set_nth r k a) ++ concat M)).
    rewrite IH; [now rewrite <- app_assoc| |now injection Hx]. intros r' Hr'. apply HM. now right.
Qed.
Lemma rows_same m M : forall N k, length M = length N -> (forall r, In r M -> length r = m) -> (forall r, In r N -> length r = m) -> rows_from k M = rows_from k N.
Proof.
  induction M as [|r M IH]; intros [|r' N] k HL H1 H2; try easy. cbn [rows_from]. rewrite (H1 r), (H2 r') by now left. f_equal. apply IH; [now injection HL| |]; intros; [apply H1|apply H2]; now right.
Qed.
Lemma set_col_mat n m Y k x Z : is_mat n m Y -> length x = n -> set_col Y k x = Ok Z -> is_mat n m Z.
Proof.
  intros [HL HR] Hx. unfold set_col. destruct (Nat.ltb k (ncols Y)); [|easy]. intro E. injection E as <-.
  assert (K : forall (Y : mat) (x : vec), length x = length Y -> (forall r, In r Y -> length r = m) -> length (map2 (fun r a => set_nth r k a) Y x) = length Y /\ forall r, In r (map2 (fun r a => set_nth r k a) Y x) -> length r = m).
  { clear. induction Y as [|r Y IH]; intros [|a x] HL HR; try easy. cbn. destruct (IH x) as [I1 I2]; [now injection HL|intros; apply HR; now right|]. split; [now rewrite I1|].
    intros q [<-|Hq]; [rewrite set_nth_len; apply HR; now left|auto]. }
  destruct (K Y x) as [K1 K2]; [lia| |]. { intros r Hr. now apply (proj1 (Forall_forall _ _) HR). }
  split; [lia|]. apply Forall_forall. exact K2.
Qed.
Lemma set_col_run n m s M0 M k x : is_mat n m M0 -> is_mat n m M -> length x = n ->
  let Y := {| a2_buf := length s; a2_at := rows_from 0 M0 |} in
  set_col_s Y k x (s ++ [concat M]) = let* Z := set_col M k x in Ok (tt, (s ++ [concat Z])%list).
Proof.
  intros [L0 R0] [L1 R1] Hx Y. rewrite Forall_forall in R0, R1. unfold set_col_s, set_col. subst Y. rewrite (rows_same m M0 M 0) by (auto; lia).
  rewrite rd_alloc2. destruct (Nat.ltb k (ncols M)) eqn:EK; [|reflexivity]. cbn [bind a2_buf a2_at]. do 2 f_equal.
  apply Nat.ltb_lt in EK. assert (Hk : (k < m)%nat). { destruct M as [|r M]; cbn in *; [lia|]. rewrite (R1 r) in EK; auto. }
  pose proof (puts_col m k M Hk R1 x [] ltac:(lia)) as K. cbn [List.length app] in K. rewrite <- K, <- wrs_last. f_equal.
  generalize (rows_from 0 M). clear. intro l. revert x. induction l as [|a l IH]; intros [|b x]; cbn; auto. now rewrite IH.
Qed.
Lemma get_col_len Y k c : get_col Y k = Ok c -> length c = length Y.
Proof. unfold get_col. destruct (Nat.ltb k (ncols Y)); [|easy]. intro E. injection E as <-. apply map_length. Qed.
Lemma get_col_run Y k Yv t : rd2 t Y = Yv -> get_col_s Y k t = let* c := get_col Yv k in Ok (c, t).
Proof. intros <-. reflexivity. Qed.
Lemma swap_run n m s Yp M0 : live2 s Yp -> is_mat n m (rd2 s Yp) -> is_mat n m M0 -> forall l M, is_mat n m M ->
  swap_links_s Yp {| a2_buf := length s; a2_at := rows_from 0 M0 |} l (s ++ [concat M]) = let* Z := swap_links (rd2 s Yp) M l in Ok (tt, (s ++ [concat Z])%list).
Proof.
  intros Ly Hp H0. set (Y := {| a2_buf := length s; a2_at := rows_from 0 M0 |}).
  assert (RD : forall v, rd2 (s ++ [v])%list Yp = rd2 s Yp) by (intro v; apply grows_rd2; auto; apply grows_snoc).
  assert (LP : length (rd2 s Yp) = n) by apply Hp.
  induction l as [|i l IH]; intros M HM; [reflexivity|]. cbn [swap_links_s swap_links]. unfold swap_link, sbind.
  rewrite (get_col_run Yp (i * 10 + 7) (rd2 s Yp)) by apply RD. destruct (get_col (rd2 s Yp) (i * 10 + 7)) as [c7|e|] eqn:E7; cbn [bind fst snd]; try reflexivity.
  pose proof (get_col_len _ _ _ E7) as L7. unfold Y at 1. rewrite (set_col_run n m s M0 M) by (auto; lia). destruct (set_col M (i * 10 + 6) c7) as [M1|e|] eqn:ES1; cbn [bind fst snd]; try reflexivity.
  assert (HM1 : is_mat n m M1) by (eapply set_col_mat; [exact HM| |exact ES1]; lia).
  rewrite (get_col_run Yp (i * 10 + 6) (rd2 s Yp)) by apply RD. destruct (get_col (rd2 s Yp) (i * 10 + 6)) as [c6|e|] eqn:E6; cbn [bind fst snd]; try reflexivity.
  pose proof (get_col_len _ _ _ E6) as L6. unfold Y at 1. rewrite (set_col_run n m s M0 M1) by (auto; lia). destruct (set_col M1 (i * 10 + 7) c6) as [M2|e|] eqn:ES2; cbn [bind fst snd]; try reflexivity.
  apply IH. eapply set_col_mat; [exact HM1| |exact ES2]; lia.
Qed.
Lemma swap_mat n m Yp : length Yp = n -> forall l M Z, is_mat n m M -> swap_links Yp M l = Ok Z -> is_mat n m Z.
Proof.
  intro LP. induction l as [|i l IH]; intros M Z HM; cbn [swap_links]; [intro E; now injection E as <-|]. unfold swap_link.
  destruct (get_col Yp (i * 10 + 7)) as [c7|e|] eqn:E7; cbn [bind]; try easy. destruct (set_col M _ c7) as [M1|e|] eqn:ES1; cbn [bind]; try easy.
  destruct (get_col Yp (i * 10 + 6)) as [c6|e|] eqn:E6; cbn [bind]; try easy. destruct (set_col M1 _ c6) as [M2|e|] eqn:ES2; cbn [bind]; try easy.
  apply get_col_len in E7, E6. apply IH. eapply set_col_mat; [eapply set_col_mat; [exact HM| |exact ES1]| |exact ES2]; lia.
Qed.
Lemma torque_regressor_spec n m nv Y_pin s : live2 s Y_pin -> is_mat n m (rd2 s Y_pin) ->
  implements (torque_regressor_s nv Y_pin) s (swap_links (rd2 s Y_pin) (rd2 s Y_pin) (seq 0 nv))
    (fun Y s' Z => rd2 s' Y = Z /\ rd2 s' Y_pin = rd2 s Y_pin /\ independent s s' (fun t => rd2 t Y) [a2_buf Y]).
Proof.
  intros Ly Hp.
  assert (K : torque_regressor_s nv Y_pin s = let* Z := swap_links (rd2 s Y_pin) (rd2 s Y_pin) (seq 0 nv) in
    Ok ({| a2_buf := length s; a2_at := rows_from 0 (rd2 s Y_pin) |}, (s ++ [concat Z])%list)).
  { unfold torque_regressor_s, copy2, sbind. cbn [get2 bind fst snd alloc2].
    rewrite (swap_run n m s Y_pin (rd2 s Y_pin) Ly Hp Hp (seq 0 nv) (rd2 s Y_pin) Hp). destruct (swap_links _ _ _); reflexivity. }
  destruct (swap_links _ _ _) as [Z|e|] eqn:E; cbn [bind implements] in *; try exact K. rewrite K.
  do 2 eexists. split; [reflexivity|]. split; [apply grows_snoc|]. pose proof (swap_mat n m _ (proj1 Hp) _ _ _ Hp E) as HZ.
  split; [|split].
  - destruct Hp as [P1 P2], HZ as [Z1 Z2]. rewrite Forall_forall in P2, Z2. rewrite (rows_same m _ Z) by (auto; lia). apply rd_alloc2.
  - apply grows_rd2; auto. apply grows_snoc.
  - split.
    + intros ws Hw. apply (caller_rd2 s); auto.
    + intros ws b i W Hb. apply (own_cell s _ [length s]); auto; [apply grows_snoc|]. intros o [<-|[]]. auto.
Qed.
Lemma torque_regressor_model n m regressor_pin M q v a Y_pin s : live2 s Y_pin -> rd2 s Y_pin = regressor_pin q v a -> is_mat n m (regressor_pin q v a) ->
  implements (torque_regressor_s (pm_nv (mb_model M)) Y_pin) s (mb_torque_regressor regressor_pin M q v a)
    (fun Y s' Z => rd2 s' Y = Z /\ rd2 s' Y_pin = rd2 s Y_pin /\ independent s s' (fun t => rd2 t Y) [a2_buf Y]).
Proof. intros L E H. unfold mb_torque_regressor. rewrite <- E in *. eapply torque_regressor_spec; eauto. Qed.

(** ** MomentMatrix.localizing_matrix *)
Fixpoint row_put (row : list mcell) (k : nat) (qs : list pol) : list mcell :=
  match qs with [] => row | q :: r => row_put (set_nth row k (CPol q)) (S k) r end.
Fixpoint put_rows (X : list (list mcell)) (a : nat) (rows : list (list pol)) : list (list mcell) :=
  match rows with [] => X | q :: r => put_rows (set_nth X a (row_put (nth a X []) 0 q)) (S a) r end.
Lemma set_self {A} (l : list A) i d : set_nth l i (nth i l d) = l.
Proof. revert i. induction l as [|a l IH]; intros [|i]; cbn; auto. now rewrite IH. Qed.
Lemma set_set {A} (l : list A) i x y : set_nth (set_nth l i x) i y = set_nth l i y.
Proof. revert i. induction l as [|a l IH]; intros [|i]; cbn; auto. now rewrite IH. Qed.
Lemma row_put_full qs : forall pre row, length row = length qs -> row_put (pre ++ row) (length pre) qs = (pre ++ map CPol qs)%list.
Proof.
  induction qs as [|q qs IH]; intros pre [|c row] HL; try easy. cbn [row_put map]. rewrite set_nth_app_r, Nat.sub_diag by lia. cbn [set_nth].
  replace (S (length pre)) with (length (pre ++ [CPol q])) by (rewrite app_length; cbn; lia). change (CPol q :: row) with ([CPol q] ++ row)%list. rewrite app_assoc, IH by (now injection HL). now rewrite <- app_assoc.
Qed.
Lemma put_rows_full rows : forall pre X, length X = length rows -> (forall i, (i < length rows)%nat -> length (nth i X []) = length (nth i rows [])) ->
  put_rows (pre ++ X) (length pre) rows = (pre ++ map (map CPol) rows)%list.
Proof.
  induction rows as [|q rows IH]; intros pre [|x X] HL HR; try easy. cbn [put_rows map]. rewrite set_nth_app_r, Nat.sub_diag by lia. cbn [set_nth].
  rewrite app_nth2, Nat.sub_diag by lia. cbn [nth]. pose proof (row_put_full q [] x (HR 0%nat ltac:(cbn; lia))) as K. cbn [app List.length] in K. rewrite K.
  replace (S (length pre)) with (length (pre ++ [map CPol q])) by (rewrite app_length; cbn; lia). change (map CPol q :: X) with ([map CPol q] ++ X)%list. rewrite app_assoc, IH; [now rewrite <- app_assoc|now injection HL|].
  intros i Hi. apply (HR (S i)). cbn. lia.
Qed.
Section Loc.
Variables (h0 : mheap) (s : MMS) (p : pol).
Hypothesis (HI : (mms_indices s < length h0)%nat) (HA : all_indices h0 (mms_indices s)).
Let s' : MM := {| mm_n := mms_n s; mm_d := mms_d s; mm_r := mms_r s; mm_indices := index_matrix h0 (mms_indices s) |}.
Let F i j := let* k := mm_index s' i j in pol_localize p k.
Lemma index_cell i j : mm_index s' i j = match mcell_at h0 (mms_indices s) i j with Some (CIdx e) => Ok e | Some (CPol _) => Ok PyZero | None => Raise IndexError end.
Proof.
  unfold mm_index, s', index_matrix, mcell_at. cbn [mm_indices]. rewrite nth_error_map. destruct (nth_error _ i) as [row|]; cbn [option_map]; [|reflexivity].
  rewrite nth_error_map. destruct (nth_error row j) as [[e|q]|]; reflexivity.
Qed.
Lemma step_run X i j : mms_step s p (length h0) (h0 ++ [X]) (i, j) = let* q := F i j in Ok (h0 ++ [set_nth X i (set_nth (nth i X []) j (CPol q))])%list.
Proof.
  unfold mms_step, F. cbn [fst snd]. rewrite index_cell. replace (mcell_at (h0 ++ [X]) (mms_indices s) i j) with (mcell_at h0 (mms_indices s) i j) by (unfold mcell_at, marr_at; now rewrite app_nth1).
  destruct (mcell_at h0 (mms_indices s) i j) as [[e|q]|] eqn:E; cbn [bind].
  - destruct (pol_localize p e); cbn [bind]; try reflexivity. unfold mcell_set, marr_at. rewrite nth_snoc, set_last. reflexivity.
  - destruct (HA i j _ E). easy.
  - reflexivity.
Qed.
Lemma F_bound i j q : F i j = Ok q -> (i < length (marr_at h0 (mms_indices s)))%nat /\ (j < length (nth i (marr_at h0 (mms_indices s)) []))%nat.
Proof.
  unfold F. rewrite index_cell. unfold mcell_at. destruct (nth_error _ i) as [row|] eqn:E1; [|easy]. destruct (nth_error row j) eqn:E2; [|easy]. intros _.
  split; [apply nth_error_Some; congruence|]. rewrite (nth_error_nth _ _ [] E1). apply nth_error_Some. congruence.
Qed.
Let run := fold_left (fun acc ij => let* h := acc in mms_step s p (length h0) h ij).
Lemma run_fail_r l e : run l (Raise e) = Raise e.
Proof. induction l; auto. Qed.
Lemma run_fail_n l : run l NonFinite = NonFinite.
Proof. induction l; auto. Qed.
Lemma row_run i n : forall k X, (forall q j, F i j = Ok q -> (j < k + n)%nat -> (i < length X)%nat) ->
  run (map (fun j => (i, j)) (seq k n)) (Ok (h0 ++ [X])%list) = let* qs := mapM (F i) (seq k n) in Ok (h0 ++ [set_nth X i (row_put (nth i X []) k qs)])%list.
Proof.
  induction n as [|n IH]; intros k X HX.
  - cbn. now rewrite set_self.
  - cbn [seq map mapM]. unfold run. cbn [fold_left bind]. rewrite step_run. destruct (F i k) as [q|e|] eqn:EF; cbn [bind].
    + specialize (HX q k EF ltac:(lia)) as Li. fold run. rewrite IH.
      * destruct (mapM (F i) (seq (S k) n)); cbn [bind]; try reflexivity. do 3 f_equal. cbn [row_put]. rewrite set_nth_same, set_set by auto. reflexivity.
      * intros q' j E Hj. rewrite set_nth_len. apply (HX q' j E). lia.
    + apply run_fail_r.
    + apply run_fail_n.
Qed.
Lemma run_app l m a : run (l ++ m) a = run m (run l a).
Proof. apply fold_left_app. Qed.
Lemma rows_run r n : forall a X, (forall i j q, F i j = Ok q -> (i < a + n)%nat -> (i < length X)%nat) ->
  run (flat_map (fun i => map (fun j => (i, j)) (seq 0 r)) (seq a n)) (Ok (h0 ++ [X])%list) =
  let* rows := mapM (fun i => mapM (F i) (seq 0 r)) (seq a n) in Ok (h0 ++ [put_rows X a rows])%list.
Proof.
  induction n as [|n IH]; intros a X HX; [reflexivity|]. cbn [seq flat_map mapM]. rewrite run_app, row_run by (intros q j E _; apply (HX a j q E); lia).
  destruct (mapM (F a) (seq 0 r)) as [qs|e|] eqn:EM; cbn [bind].
  - rewrite IH; [|intros i j q E Hi; rewrite set_nth_len; apply (HX i j q E); lia]. destruct (mapM _ (seq (S a) n)); reflexivity.
  - apply run_fail_r.
  - apply run_fail_n.
Qed.
Lemma mapM_nth {A B} (f : A -> res B) l : forall r, mapM f l = Ok r -> length r = length l /\ forall i d d', (i < length l)%nat -> f (nth i l d) = Ok (nth i r d').
Proof.
  induction l as [|a l IH]; cbn; intros r.
  - intro E. injection E as <-. split; [reflexivity|]. intros; lia.
  - destruct (f a) as [b|e|] eqn:EF; cbn [bind]; try easy. destruct (mapM f l) as [bs|e|]; cbn [bind]; try easy. intro E. injection E as <-. destruct (IH bs eq_refl) as [I1 I2]. split; [cbn; lia|].
    intros [|i] d d' Hi; cbn; auto. apply I2. lia.
Qed.
Lemma firstn_nth {A} (l : list A) : forall n i d, (i < n)%nat -> nth i (firstn n l) d = nth i l d.
Proof. induction l as [|a l IH]; intros [|n] [|i] d H; cbn; auto; try lia. apply IH. lia. Qed.
Lemma localizing_run v :
  has_outcome (mms_localizing_matrix s v p h0) (mm_localizing_matrix s' v p)
    (fun M h' L => marr_at h' M = map (map CPol) L /\ extends h0 h' /\ (length h0 <= M)%nat).
Proof.
  unfold mms_localizing_matrix, mm_localizing_matrix. cbn [mm_n mm_d s']. destruct (pol_dim_sub (mms_n s) (mms_d s) v) as [r|e|]; cbn [bind has_outcome]; try reflexivity.
  set (X := map (firstn r) (firstn r (marr_at h0 (mms_indices s)))). fold run. unfold all_pairs.
  rewrite rows_run.
  2:{ intros i j q E Hi. destruct (F_bound i j q E) as [B1 _]. unfold X. rewrite map_length, firstn_length. lia. }
  change (mapM (fun i => mapM (fun j => let* k := mm_index s' i j in pol_localize p k) (seq 0 r)) (seq 0 r)) with (mapM (fun i => mapM (F i) (seq 0 r)) (seq 0 r)).
  destruct (mapM (fun i => mapM (F i) (seq 0 r)) (seq 0 r)) as [L|e|] eqn:EM; cbn [bind has_outcome]; try reflexivity.
  do 2 eexists. split; [reflexivity|]. split; [|split; [apply ext_app|lia]]. unfold marr_at at 1. rewrite nth_snoc.
  destruct (mapM_nth _ _ _ EM) as [LL LN]. rewrite seq_length in *.
  assert (B : forall i, (i < r)%nat -> length (nth i L []) = r /\ forall j, (j < r)%nat -> exists q, F i j = Ok q).
  { intros i Hi. specialize (LN i 0%nat [] Hi). rewrite seq_nth in LN by auto. destruct (mapM_nth _ _ _ LN) as [K1 K2]. rewrite seq_length in *. split; [exact K1|].
    intros j Hj. specialize (K2 j 0%nat [] Hj). rewrite seq_nth in K2 by auto. eexists. exact K2. }
  pose proof (put_rows_full L [] X) as K. cbn [app List.length] in K. apply K.
  - rewrite LL. destruct r as [|r]; [reflexivity|]. destruct (proj2 (B r ltac:(lia)) r ltac:(lia)) as [q E]. destruct (F_bound _ _ _ E) as [B1 _]. unfold X. rewrite map_length, firstn_length. lia.
  - rewrite LL. intros i Hi. destruct (B i Hi) as [B1 B2]. rewrite B1. destruct (B2 (pred r) ltac:(lia)) as [q E]. destruct (F_bound _ _ _ E) as [C1 C2]. unfold X.
    rewrite (nth_indep _ [] (firstn r [])) by (rewrite map_length, firstn_length; lia). rewrite (map_nth (firstn r)), firstn_nth, firstn_length by auto. lia.
Qed.
End Loc.
