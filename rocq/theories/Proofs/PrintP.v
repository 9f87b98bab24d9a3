(** C96: printed forms. *)
From Coq Require Import String Ascii List DecimalString Decimal DecimalNat Lia.
From Verif Require Import Model.Print Spec.Text.
Import ListNotations.
Local Open Scope string_scope.

Lemma free_app c s t : free_of c (s ++ t) <-> free_of c s /\ free_of c t.
Proof. induction s as [|d s IH]; cbn; [tauto|]. rewrite IH. tauto. Qed.
(** the first occurrence of a separator determines what is before and after it *)
Lemma split_at c s s' t t' : free_of c s -> free_of c s' -> s ++ String c t = s' ++ String c t' -> s = s' /\ t = t'.
Proof.
  revert s'. induction s as [|d s IH]; intros [|d' s'] F F' E; cbn in *.
  - now injection E.
  - injection E as -> _. tauto.
  - injection E as -> _. tauto.
  - injection E as -> E. destruct (IH s') as (-> & ->); tauto.
Qed.
Lemma app_inj_l s t t' : s ++ t = s ++ t' -> t = t'.
Proof. induction s; cbn; intros H; [auto|]. injection H; auto. Qed.
Lemma app_nil s : s ++ "" = s.
Proof. induction s; cbn; congruence. Qed.
Lemma app_assoc s t u : (s ++ t) ++ u = s ++ t ++ u.
Proof. induction s; cbn; congruence. Qed.
Lemma app_end c s s' : s ++ String c "" = s' ++ String c "" -> s = s'.
Proof.
  revert s'. induction s as [|d s IH]; intros [|d' s'] E; cbn in *; auto.
  - injection E as _ E. destruct s'; discriminate.
  - injection E as _ E. destruct s; discriminate.
  - injection E as -> E. f_equal. auto.
Qed.
(** ** numbers *)
Lemma str_nat_inj n m : str_nat n = str_nat m -> n = m.
Proof.
  unfold str_nat. intro H. apply Unsigned.to_uint_inj. assert (E : NilEmpty.uint_of_string (NilEmpty.string_of_uint (Nat.to_uint n)) = NilEmpty.uint_of_string (NilEmpty.string_of_uint (Nat.to_uint m))) by congruence.
  rewrite !NilEmpty.usu in E. now injection E.
Qed.
Lemma uint_free c u : (forall d, In d (list_ascii_of_string "0123456789") -> d <> c) -> free_of c (NilEmpty.string_of_uint u).
Proof. intro H. induction u; cbn; auto; (split; [apply H; cbn; tauto|auto]). Qed.
Lemma str_nat_free c n : (forall d, In d (list_ascii_of_string "0123456789") -> d <> c) -> free_of c (str_nat n).
Proof. apply uint_free. Qed.
Lemma join_free c l : (forall s, In s l -> free_of c s) -> free_of c (py_join "" l).
Proof. induction l as [|s [|t l] IH]; intros H; cbn; auto; [apply H; now left|]. apply free_app. split; [apply H; now left|]. apply IH. intros; apply H; now right. Qed.
Lemma idx_free c v : (forall d, In d (list_ascii_of_string "0123456789") -> d <> c) -> free_of c (idx_str v).
Proof. intro H. apply join_free. intros s Hs. apply in_map_iff in Hs as (n & <- & _). now apply str_nat_free. Qed.
Lemma str_digit n : n < 10 -> exists c, str_nat n = String c "".
Proof. intro H. do 10 (destruct n as [|n]; [eexists; reflexivity|]). lia. Qed.
Lemma idx_cons n v : idx_str (n :: v) = str_nat n ++ idx_str v.
Proof. unfold idx_str. cbn. destruct (map str_nat v) eqn:E; [cbn; now rewrite app_nil|reflexivity]. Qed.
Lemma str_nat_nonempty n : str_nat n <> "".
Proof. intro H. destruct n; [discriminate H|]. assert (E : str_nat (S n) = str_nat 0 -> S n = 0) by apply str_nat_inj. unfold str_nat in H. destruct (Nat.to_uint (S n)) eqn:X; try discriminate. pose proof (Unsigned.of_to (S n)) as Y. rewrite X in Y. discriminate. Qed.
(** ** moment indices *)
Lemma idx_str_inj u v : digits_only u -> digits_only v -> idx_str u = idx_str v -> u = v.
Proof.
  intros Hu. revert v. induction Hu as [|n u Hn Hu IH]; intros v Hv E.
  - destruct v as [|m v]; [auto|]. inversion Hv; subst. destruct (str_digit m) as (c & Ec); [auto|]. rewrite idx_cons, Ec in E. discriminate.
  - destruct (str_digit n) as (c & Ec); [auto|]. destruct v as [|m v]; [rewrite idx_cons, Ec in E; discriminate|]. inversion Hv; subst. destruct (str_digit m) as (d & Ed); [auto|].
    rewrite !idx_cons, Ec, Ed in E. cbn in E. injection E as -> E. f_equal; [apply str_nat_inj; congruence|now apply IH].
Qed.
(** up to degree ten the printed form determines an index of known length; from degree eleven on it does not *)
Notation deg := (fold_right Nat.add 0).
Lemma deg_zero v : deg v = 0 -> v = repeat 0 (length v).
Proof. induction v as [|n v IH]; cbn; intros H; [auto|]. rewrite <- IH by lia. f_equal. lia. Qed.
Lemma zeros_str v k : deg v <= 10 -> idx_str v = idx_str (repeat 0 k) -> length v = k.
Proof.
  revert k. induction v as [|n v IH]; intros [|k] D E; cbn [fold_right] in D.
  - reflexivity.
  - cbn [repeat] in E. rewrite idx_cons in E. discriminate.
  - rewrite idx_cons in E. exfalso. pose proof (str_nat_nonempty n). destruct (str_nat n); [congruence|discriminate].
  - cbn [repeat] in E. rewrite !idx_cons in E. cbn [length]. f_equal. destruct n as [|n]; [cbn in E; injection E as E; apply IH; [lia|auto]|exfalso]. do 10 (destruct n as [|n]; [discriminate|]). lia.
Qed.
Lemma ten_str v k : deg v <= 9 -> length v = k -> idx_str v <> String "0" (idx_str (repeat 0 k)).
Proof. intros D L E. assert (X : String "0" (idx_str (repeat 0 k)) = idx_str (repeat 0 (S k))) by (cbn [repeat]; rewrite idx_cons; reflexivity). rewrite X in E. apply zeros_str in E; lia. Qed.
Lemma low_degree u v : length u = length v -> deg u <= 10 -> deg v <= 10 -> idx_str u = idx_str v -> u = v.
Proof.
  revert v. induction u as [|a u IH]; intros [|b v] L Du Dv E; try discriminate; [auto|]. cbn [fold_right length] in *. injection L as L. rewrite !idx_cons in E.
  assert (Ha : a = 10 \/ a < 10) by lia. assert (Hb : b = 10 \/ b < 10) by lia. destruct Ha as [->|Ha], Hb as [->|Hb].
  - f_equal. apply IH; auto; [lia|lia|]. cbn in E. now injection E.
  - exfalso. assert (Z : u = repeat 0 (length u)) by (apply deg_zero; lia). rewrite Z in E. destruct b as [|[|b]]; [discriminate| |do 8 (destruct b as [|b]; [discriminate|]); lia].
    cbn in E. injection E as E. apply (ten_str v (length u)); [lia|auto|auto].
  - exfalso. assert (Z : v = repeat 0 (length v)) by (apply deg_zero; lia). rewrite Z in E. destruct a as [|[|a]]; [discriminate| |do 8 (destruct a as [|a]; [discriminate|]); lia].
    cbn in E. injection E as E. apply (ten_str u (length v)); [lia|auto|auto].
  - destruct (str_digit a Ha) as (c & Ec). destruct (str_digit b Hb) as (d & Ed). rewrite Ec, Ed in E. cbn in E. injection E as -> E.
    f_equal; [apply str_nat_inj; congruence|]. apply IH; auto; lia.
Qed.
Lemma idx_str_clash : exists u v, length u = 2 /\ length v = 2 /\ fold_right Nat.add 0 u = 11 /\ fold_right Nat.add 0 v = 11 /\ u <> v /\ idx_str u = idx_str v.
Proof. exists [1; 10], [11; 0]. repeat split; try discriminate. Qed.
Lemma idx_hash_eq {Z : Type} (hash : list nat -> Z) u v : u = v -> idx_hash hash u = idx_hash hash v.
Proof. now intros ->. Qed.
(** ** polynomials *)
Lemma digit_not_space : forall d, In d (list_ascii_of_string "0123456789") -> d <> " "%char.
Proof. intros d H E. subst d. cbn in H. repeat (destruct H as [H|H]; [discriminate|]). exact H. Qed.
Lemma pol_str_inj {K : Type} (show : K -> string) (p q : list (list nat * K)) : faithful show -> (forall c, free_of " " (show c)) ->
  Forall (fun kv => digits_only (fst kv)) p -> Forall (fun kv => digits_only (fst kv)) q -> pol_str show p = pol_str show q -> p = q.
Proof.
  intros HF HS Hp. revert q. induction Hp as [|[u a] p Hu Hp IH]; intros q Hq E.
  - destruct q as [|[v b] q]; [auto|exfalso]. unfold pol_str in E. cbn [map snd fst] in E. assert (X : forall x y, "" <> x ++ " * x^" ++ y) by (intros [|] y; discriminate).
    destruct q as [|z q]; cbn [map py_join] in E; [now apply X in E|]. rewrite app_assoc in E. change ((" * x^" ++ idx_str v) ++ ?r) with (" * x^" ++ (idx_str v ++ r)) in E. now apply X in E.
  - destruct q as [|[v b] q].
    { exfalso. unfold pol_str in E. cbn [map snd fst] in E. assert (X : forall x y, x ++ " * x^" ++ y <> "") by (intros [|] y; discriminate).
      destruct p as [|z p]; cbn [map py_join] in E; [now apply X in E|]. rewrite app_assoc in E. change ((" * x^" ++ idx_str u) ++ ?r) with (" * x^" ++ (idx_str u ++ r)) in E. now apply X in E. }
    inversion Hq as [|? ? Hv Hq']; subst. cbn [fst] in *.
    assert (ST : forall (w : list nat) (c : K) l, exists r, pol_str show ((w, c) :: l) = show c ++ String " " ("* x^" ++ idx_str w ++ r) /\ ((l = [] /\ r = "") \/ (l <> [] /\ r = " + " ++ pol_str show l))).
    { intros w c l. unfold pol_str. destruct l as [|z l]; cbn [map py_join fst snd].
      - exists "". rewrite app_nil. split; [reflexivity|]. left. auto.
      - eexists. split; [rewrite app_assoc; reflexivity|]. right. split; [discriminate|reflexivity]. }
    destruct (ST u a p) as (r & Er & Hr). destruct (ST v b q) as (r' & Er' & Hr'). rewrite Er, Er' in E. apply split_at in E as (E1 & E2); auto. apply HF in E1. subst b.
    cbn in E2. injection E2 as E2. pose proof (idx_free " " u digit_not_space) as Fu. pose proof (idx_free " " v digit_not_space) as Fv.
    assert (EE : idx_str u = idx_str v /\ r = r').
    { destruct Hr as [(-> & ->)|(Np & ->)], Hr' as [(-> & ->)|(Nq & ->)]; cbn [append] in E2 |- *; rewrite ?app_nil in E2.
      - split; auto.
      - exfalso. rewrite E2 in Fu. apply free_app in Fu as (_ & Fu). cbn in Fu. tauto.
      - exfalso. rewrite <- E2 in Fv. apply free_app in Fv as (_ & Fv). cbn in Fv. tauto.
      - apply split_at in E2 as (E2 & E3); auto. split; [auto|]. now rewrite E3. }
    destruct EE as (EE & Rr). apply idx_str_inj in EE; auto. subst v. f_equal. destruct Hr as [(-> & ->)|(Np & ->)], Hr' as [(-> & ->)|(Nq & ->)]; auto; try discriminate.
    cbn in Rr. injection Rr as Rr. apply IH; auto.
Qed.
(** ** records *)
Section Repr.
Context {K V M : Type} (show : K -> string) (show_vec : V -> string) (show_mat : M -> string).
Hypothesis F1 : forall c, free_of "=" (show c).
Hypothesis F2 : forall c, free_of "=" (show_vec c).
Hypothesis F3 : forall c, free_of "=" (show_mat c).
(** a field ends before ", name=" *)
Lemma field_split name s s' t t' : free_of "=" s -> free_of "=" s' -> free_of "=" name -> s ++ name ++ String "=" t = s' ++ name ++ String "=" t' -> s = s' /\ t = t'.
Proof.
  intros A B C E. rewrite <- !app_assoc in E. apply split_at in E as (E & ->); [|now apply free_app|now apply free_app]. split; [|auto]. clear - E. revert s' E. 
  assert (L : forall a b, String.length (a ++ b) = String.length a + String.length b) by (induction a; cbn; auto).
  induction s as [|d s IH]; intros [|d' s'] E; cbn in *; auto.
  - apply (f_equal String.length) in E. cbn in E. rewrite L in E. lia.
  - apply (f_equal String.length) in E. cbn in E. rewrite L in E. lia.
  - injection E as -> E. f_equal. auto.
Qed.
Lemma ip_repr_inj m c H m' c' H' : ip_repr show show_vec show_mat m c H = ip_repr show show_vec show_mat m' c' H' -> show m = show m' /\ show_vec c = show_vec c' /\ show_mat H = show_mat H'.
Proof.
  unfold ip_repr. intro E. apply app_inj_l in E. apply (field_split ", com") in E as (E1 & E); auto; [|cbn; repeat split; discriminate].
  apply (field_split ", H") in E as (E2 & E); auto; [|cbn; repeat split; discriminate]. apply app_end in E. auto.
Qed.
Lemma sv_repr_inj a b a' b' : sv_repr show_vec a b = sv_repr show_vec a' b' -> show_vec a = show_vec a' /\ show_vec b = show_vec b'.
Proof. unfold sv_repr. intro E. apply app_inj_l in E. apply (field_split ", angular") in E as (E1 & E); auto; [|cbn; repeat split; discriminate]. apply app_end in E. auto. Qed.
Lemma box_repr_inj h c r h' c' r' : box_repr show_vec show_mat h c r = box_repr show_vec show_mat h' c' r' -> show_vec h = show_vec h' /\ show_vec c = show_vec c' /\ show_mat r = show_mat r'.
Proof.
  unfold box_repr. intro E. apply app_inj_l in E. apply (field_split ", center") in E as (E1 & E); auto; [|cbn; repeat split; discriminate].
  apply (field_split ", rotation") in E as (E2 & E); auto; [|cbn; repeat split; discriminate]. apply app_end in E. auto.
Qed.
Lemma ell_repr_inj h c r h' c' r' : ell_repr show_vec show_mat h c r = ell_repr show_vec show_mat h' c' r' -> show_vec h = show_vec h' /\ show_vec c = show_vec c' /\ show_mat r = show_mat r'.
Proof.
  unfold ell_repr. intro E. apply app_inj_l in E. apply (field_split ", center") in E as (E1 & E); auto; [|cbn; repeat split; discriminate].
  apply (field_split ", rotation") in E as (E2 & E); auto; [|cbn; repeat split; discriminate]. apply app_end in E. auto.
Qed.
Lemma poly_repr_inj v v' : poly_repr show_mat v = poly_repr show_mat v' -> show_mat v = show_mat v'.
Proof. unfold poly_repr. intro E. apply app_inj_l in E. now apply app_end in E. Qed.
Lemma opt_free o : free_of "=" (show_opt show_mat o).
Proof. destruct o; cbn; auto. repeat split; discriminate. Qed.
Lemma span_repr_inj v r v' r' : span_repr show_mat v r = span_repr show_mat v' r' -> show_opt show_mat v = show_opt show_mat v' /\ show_opt show_mat r = show_opt show_mat r'.
Proof. unfold span_repr. intro E. apply app_inj_l in E. apply (field_split ", rays") in E as (E1 & E); auto using opt_free; [|cbn; repeat split; discriminate]. apply app_end in E. auto. Qed.
Lemma face_repr_inj A b A' b' : face_repr show_vec show_mat A b = face_repr show_vec show_mat A' b' -> show_mat A = show_mat A' /\ show_vec b = show_vec b'.
Proof. unfold face_repr. intro E. apply app_inj_l in E. apply (field_split ", b") in E as (E1 & E); auto; [|cbn; repeat split; discriminate]. apply app_end in E. auto. Qed.
(** a box and an ellipsoid are never printed alike *)
Lemma classes_differ h c r h' c' r' : box_repr show_vec show_mat h c r <> ell_repr show_vec show_mat h' c' r'.
Proof. discriminate. Qed.
End Repr.
Lemma params_repr {K V M : Type} (show : K -> string) (show_vec : V -> string) (show_mat : M -> string) m c H m' c' H' :
  (forall x, free_of "=" (show x)) -> (forall x, free_of "=" (show_vec x)) -> ip_repr show show_vec show_mat m c H = ip_repr show show_vec show_mat m' c' H' ->
  show m = show m' /\ show_vec c = show_vec c' /\ show_mat H = show_mat H'.
Proof. intros. eapply ip_repr_inj; eauto. Qed.
Lemma spatial_repr {V : Type} (show_vec : V -> string) a b a' b' : (forall x, free_of "=" (show_vec x)) -> sv_repr show_vec a b = sv_repr show_vec a' b' -> show_vec a = show_vec a' /\ show_vec b = show_vec b'.
Proof. intros. eapply sv_repr_inj; eauto. Qed.
Lemma shape_repr {V M : Type} (show_vec : V -> string) (show_mat : M -> string) h c r h' c' r' : (forall x, free_of "=" (show_vec x)) ->
  (box_repr show_vec show_mat h c r = box_repr show_vec show_mat h' c' r' -> show_vec h = show_vec h' /\ show_vec c = show_vec c' /\ show_mat r = show_mat r') /\
  (ell_repr show_vec show_mat h c r = ell_repr show_vec show_mat h' c' r' -> show_vec h = show_vec h' /\ show_vec c = show_vec c' /\ show_mat r = show_mat r') /\
  box_repr show_vec show_mat h c r <> ell_repr show_vec show_mat h' c' r'.
Proof. intros F. split; [|split]; [intro; eapply box_repr_inj; eauto|intro; eapply ell_repr_inj; eauto|apply classes_differ]. Qed.
Lemma polyhedron_repr {V M : Type} (show_vec : V -> string) (show_mat : M -> string) A b A' b' v r v' r' : (forall x, free_of "=" (show_mat x)) ->
  (poly_repr show_mat A = poly_repr show_mat A' -> show_mat A = show_mat A') /\
  (face_repr show_vec show_mat A b = face_repr show_vec show_mat A' b' -> show_mat A = show_mat A' /\ show_vec b = show_vec b') /\
  (span_repr show_mat v r = span_repr show_mat v' r' -> show_opt show_mat v = show_opt show_mat v' /\ show_opt show_mat r = show_opt show_mat r').
Proof. intros F. split; [|split]; [apply poly_repr_inj|intro; eapply face_repr_inj; eauto|intro; eapply span_repr_inj; eauto]. Qed.
(** missing rays are told from an array, unless an array is printed as None *)
Lemma show_opt_inj {M : Type} (show_mat : M -> string) o o' : faithful show_mat -> (forall m, show_mat m <> "None") -> show_opt show_mat o = show_opt show_mat o' -> o = o'.
Proof. intros F N. destruct o as [m|], o' as [m'|]; cbn; intros E; auto; [f_equal; auto|now apply N in E|symmetry in E; now apply N in E]. Qed.
(** ** a printer of numbers *)
Lemma str_nat_ok : faithful str_nat /\ (forall n, free_of " " (str_nat n)) /\ (forall n, free_of "=" (str_nat n)) /\ (forall n, str_nat n <> "None").
Proof.
  split; [exact str_nat_inj|]. split; [intro; apply str_nat_free, digit_not_space|].
  assert (E : forall d, In d (list_ascii_of_string "0123456789") -> d <> "="%char) by (intros d H X; subst d; cbn in H; repeat (destruct H as [H|H]; [discriminate|]); exact H).
  assert (N : forall d, In d (list_ascii_of_string "0123456789") -> d <> "N"%char) by (intros d H X; subst d; cbn in H; repeat (destruct H as [H|H]; [discriminate|]); exact H).
  split; [intro; now apply str_nat_free|]. intros n X. pose proof (str_nat_free "N" n N) as F. rewrite X in F. cbn in F. tauto.
Qed.
Lemma print_example : pol_str str_nat [([2; 0], 3); ([0; 1], 12)] = "3 * x^20 + 12 * x^01" /\ digits_only [2; 0] /\ digits_only [0; 1] /\
  box_repr str_nat str_nat 1 2 3 = "Box(half_extents=1, center=2, rotation=3)" /\ idx_str [1; 10] = "110".
Proof. repeat split; repeat constructor. Qed.
