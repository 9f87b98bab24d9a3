(** Linear duality for masses at given points, from Farkas' lemma. *)
From Verif Require Import Base.Vec Base.VecFacts Spec.Basic Spec.Objects Proofs.Coord Proofs.LinAlg Proofs.Hull Proofs.VertexP Proofs.Farkas.

Definition e_ (n k : nat) : vec := map (fun i => if Nat.eqb i k then 1 else 0) (seq 0 n).
Lemma e_length n k : length (e_ n k) = n. Proof. unfold e_. now rewrite map_length, seq_length. Qed.
Lemma nth_e n k i : (i < n)%nat -> nth i (e_ n k) 0 = if Nat.eqb i k then 1 else 0.
Proof. intro Hi. unfold e_. now rewrite nth_map_seq. Qed.
Lemma dot_e_l n k x : length x = n -> (k < n)%nat -> dot (e_ n k) x = nth k x 0.
Proof.
  intros Lx Hk. rewrite (dot_rsum n) by (auto using e_length). rewrite (rsum_ext _ _ (fun i => if Nat.eqb i k then nth i x 0 else 0)); [now rewrite rsum_delta|].
  intros i Hi. rewrite nth_e by exact Hi. destruct (Nat.eqb i k); ring.
Qed.
Notation tests := (list ((vec -> R) * R)).
Definition tz : (vec -> R) * R := (fun _ => 0, 0).
(** the combination of the tests with the given factors, at a point and on the targets *)
Definition tval (T : tests) (lam : nat -> R) (v : vec) : R := rsum (length T) (fun i => lam i * fst (nth i T tz) v).
Definition tgoal (T : tests) (lam : nat -> R) : R := rsum (length T) (fun i => lam i * snd (nth i T tz)).
Definition msys (T : tests) (V : mat) : list (vec * R) :=
  map (fun ft => (map (fun v => - fst ft v) V, - snd ft)) T ++ map (fun k => (vscale (-1) (e_ (length V) k), 0)) (seq 0 (length V)).
Lemma lp_cone T V a b : Farkas.cone (length V) (msys T V) a b ->
  exists lam, (forall i, 0 <= lam i) /\ (forall k, (k < length V)%nat -> nth k a 0 <= - tval T lam (nth k V [])) /\ b = - tgoal T lam.
Proof.
  assert (HS : sys_len (length V) (msys T V)).
  { intros ab H. unfold msys in H. apply in_app_or in H as [H|H]; apply in_map_iff in H as (x & <- & _); cbn [fst]; [apply map_length|]. rewrite vscale_length. apply e_length. }
  unfold tval, tgoal. induction 1 as [|a b H|a b a' b' H1 (l1 & P1 & A1 & B1) H2 (l2 & P2 & A2 & B2)|k a b Hk H1 (l1 & P1 & A1 & B1)].
  - exists (fun _ => 0). split; [intro; lra|]. split; [|rewrite rsum_zero; intros; ring]. intros k Hk. rewrite nth_zeros, rsum_zero; [lra|intros; ring].
  - unfold msys in H. apply in_app_or in H as [H|H].
    + apply in_map_iff in H as (ft & E & H). injection E as <- <-. destruct (In_nth _ _ tz H) as (j & Hj & Ej). exists (fun i => if Nat.eqb i j then 1 else 0). split; [intro i; destruct (Nat.eqb i j); lra|]. split.
      * intros k Hk. rewrite (nth_indep _ 0 ((fun v => - fst ft v) [])) by now rewrite map_length. rewrite (map_nth (fun v => - fst ft v)).
        rewrite (rsum_ext _ _ (fun i => if Nat.eqb i j then fst (nth i T tz) (nth k V []) else 0)) by (intros i _; destruct (Nat.eqb i j); ring). rewrite rsum_delta by exact Hj. rewrite Ej. lra.
      * rewrite (rsum_ext _ _ (fun i => if Nat.eqb i j then snd (nth i T tz) else 0)) by (intros i _; destruct (Nat.eqb i j); ring). rewrite rsum_delta by exact Hj. now rewrite Ej.
    + apply in_map_iff in H as (j & E & H). injection E as <- <-. exists (fun _ => 0). split; [intro; lra|]. split; [|rewrite rsum_zero; intros; ring].
      intros k Hk. rewrite nth_vscale, rsum_zero by (intros; ring). apply in_seq in H. rewrite nth_e by lia. destruct (Nat.eqb _ _); lra.
  - exists (fun i => l1 i + l2 i). split; [intro i; specialize (P1 i); specialize (P2 i); lra|]. pose proof (cone_len _ _ _ _ HS H1). pose proof (cone_len _ _ _ _ HS H2). split.
    + intros k Hk. rewrite nth_vadd by congruence. specialize (A1 k Hk). specialize (A2 k Hk). rewrite (rsum_ext _ _ (fun i => l1 i * fst (nth i T tz) (nth k V []) + l2 i * fst (nth i T tz) (nth k V []))) by (intros; ring). rewrite rsum_plus. lra.
    + rewrite (rsum_ext _ _ (fun i => l1 i * snd (nth i T tz) + l2 i * snd (nth i T tz))) by (intros; ring). rewrite rsum_plus. lra.
  - exists (fun i => k * l1 i). split; [intro i; specialize (P1 i); nra|]. split.
    + intros j Hj. rewrite nth_vscale. specialize (A1 j Hj). rewrite (rsum_ext _ _ (fun i => k * (l1 i * fst (nth i T tz) (nth j V [])))) by (intros; ring). rewrite rsum_scal. nra.
    + rewrite (rsum_ext _ _ (fun i => k * (l1 i * snd (nth i T tz)))) by (intros; ring). rewrite rsum_scal, B1. ring.
Qed.
Lemma dot_neg_map f V ms : length ms = length V -> dot (map (fun v => - f v) V) ms = - vsum f ms V.
Proof. revert ms. induction V as [|v V IH]; intros [|m ms] L; try discriminate; [unfold vsum; cbn; ring|]. cbn [map]. rewrite dot_cons, vsum_cons, IH by (cbn in L; lia). ring. Qed.
Lemma lp_dual T V : (exists ms, length ms = length V /\ (forall i, 0 <= nth i ms 0) /\ forall f t, In (f, t) T -> t <= vsum f ms V) \/
  exists lam, (forall i, 0 <= lam i) /\ (forall v, In v V -> tval T lam v <= 0) /\ 0 < tgoal T lam.
Proof.
  destruct (farkas (length V) (msys T V)) as [(ms & L & HS)|(b & Hb & HC)].
  - intros ab H. unfold msys in H. apply in_app_or in H as [H|H]; apply in_map_iff in H as (x & <- & _); cbn [fst]; [apply map_length|]. rewrite vscale_length. apply e_length.
  - left. exists ms. split; [exact L|]. split.
    + intro i. destruct (Nat.lt_ge_cases i (length V)) as [Hi|Hi]; [|rewrite nth_overflow by lia; lra].
      pose proof (HS (vscale (-1) (e_ (length V) i), 0)) as H. cbn [fst snd] in H. rewrite dot_vscale_l, dot_e_l in H by (rewrite ?L; auto).
      assert (Q : -1 * nth i ms 0 <= 0); [|lra]. apply H. unfold msys. apply in_or_app. right. apply in_map_iff. exists i. split; [reflexivity|apply in_seq; lia].
    + intros f t H. pose proof (HS (map (fun v => - f v) V, - t)) as Q. cbn [fst snd] in Q. rewrite dot_neg_map in Q by exact L.
      assert (Z : - vsum f ms V <= - t); [|lra]. apply Q. unfold msys. apply in_or_app. left. apply in_map_iff. exists (f, t). split; [reflexivity|exact H].
  - right. destruct (lp_cone T V _ _ HC) as (lam & P & A & B). exists lam. split; [exact P|]. split; [|lra]. intros v Hv. destruct (In_nth _ _ [] Hv) as (k & Hk & <-). specialize (A k Hk). rewrite nth_zeros in A. lra.
Qed.
