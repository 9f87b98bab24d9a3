(** Random spatial vectors (C15). *)
From Verif Require Import Base.Vec Base.VecFacts Base.Ext Spec.Basic Spec.Objects Spec.RandomSpec Model.Util Model.Spatial Proofs.Coord Proofs.MatAlg Proofs.Dynamics.

Lemma expect_ext {A} (f g : A -> R) law : (forall wa, In wa law -> f (snd wa) = g (snd wa)) -> expect f law = expect g law.
Proof. intro H. unfold expect. apply lsum_map_ext. intros wa Hw. now rewrite H. Qed.
Lemma expect_const {A} c (law : list (R * A)) : is_law law -> expect (fun _ => c) law = c.
Proof. intros [_ H]. unfold expect. rewrite (lsum_map_ext _ (fun wa => c * fst wa)) by (intros; ring). rewrite lsum_map_scal, H. ring. Qed.
Lemma expect_plus {A} (f g : A -> R) law : expect (fun x => f x + g x) law = expect f law + expect g law.
Proof. unfold expect. rewrite <- lsum_map_plus. apply lsum_map_ext. intros. ring. Qed.
Lemma expect_scal {A} c (f : A -> R) law : expect (fun x => c * f x) law = c * expect f law.
Proof. unfold expect. rewrite <- lsum_map_scal. apply lsum_map_ext. intros. ring. Qed.
Lemma expect_rsum {A} n (f : nat -> A -> R) law : expect (fun x => rsum n (fun k => f k x)) law = rsum n (fun k => expect (f k) law).
Proof.
  induction n as [|n IH]; cbn [rsum].
  - unfold expect. apply lsum_map_zero. intros. ring.
  - rewrite expect_plus, IH. reflexivity.
Qed.
Lemma nth_vm n F x i : is_mat n n F -> (0 < n)%nat -> length x = n -> (i < n)%nat -> nth i (vec_mat x F) 0 = rsum n (fun k => nth k x 0 * entry F k i).
Proof.
  intros HF Hn Hx Hi. rewrite nth_vec_mat by (now rewrite (is_mat_ncols _ _ _ HF)). rewrite (dot_rsum n) by (auto; rewrite col_length; apply HF).
  apply rsum_ext. intros k _. now rewrite nth_col.
Qed.
Lemma gram_entry n F d i j : is_mat n n F -> (0 < n)%nat -> length d = n -> mat_mul (transpose F) F = diag d -> (i < n)%nat -> (j < n)%nat ->
  rsum n (fun k => entry F k i * entry F k j) = if Nat.eqb i j then nth i d 0 else 0.
Proof.
  intros HF Hn Hd E Hi Hj. rewrite <- entry_diag by (now rewrite Hd). rewrite <- E, (entry_mm n) by (auto using is_mat_transpose). apply rsum_ext. intros k _.
  rewrite entry_transpose; [reflexivity|now rewrite (is_mat_ncols _ _ _ HF)].
Qed.
Lemma random_diag_normal_spec factor mean cov :
  sv_ok mean -> sv_ok cov ->
  is_mat 6 6 (factor (diag (sv_vec cov))) ->
  mat_mul (transpose (factor (diag (sv_vec cov)))) (factor (diag (sv_vec cov))) = diag (sv_vec cov) ->
  exists f : vec -> SV,
    (forall x, length x = 6%nat -> sv_random_diag_normal factor mean cov x = Ok (f x) /\ sv_ok (f x) /\
       forall i, (i < 6)%nat -> Rabs (nth i (sv_vec (f x)) 0 - nth i (sv_vec mean) 0) <= sqrt (nth i (sv_vec cov) 0) * norm x) /\
    forall law, standardised 6 law -> forall i, (i < 6)%nat ->
      expect (fun x => nth i (sv_vec (f x)) 0) law = nth i (sv_vec mean) 0 /\
      forall j, (j < 6)%nat ->
        expect (fun x => (nth i (sv_vec (f x)) 0 - nth i (sv_vec mean) 0) * (nth j (sv_vec (f x)) 0 - nth j (sv_vec mean) 0)) law
        = if Nat.eqb i j then nth i (sv_vec cov) 0 else 0.
Proof.
  intros Hm Hc HF E. unfold sv_ok in Hm, Hc. set (F := factor (diag (sv_vec cov))) in *.
  assert (P6 : (0 < 6)%nat) by lia.
  assert (LV : forall x, length (vec_mat x F) = 6%nat) by (intro x; rewrite vec_mat_length; now apply (is_mat_ncols 6 6)).
  assert (NT : forall x i, length x = 6%nat -> (i < 6)%nat -> nth i (vadd (vec_mat x F) (sv_vec mean)) 0 = rsum 6 (fun k => nth k x 0 * entry F k i) + nth i (sv_vec mean) 0).
  { intros x i Hx Hi. rewrite nth_vadd by (now rewrite LV, Hm). now rewrite (nth_vm 6). }
  exists (fun x => {| sv_vec := vadd (vec_mat x F) (sv_vec mean) |}). cbn [sv_vec]. split.
  - intros x Hx. assert (L : length (vadd (vec_mat x F) (sv_vec mean)) = 6%nat) by (unfold vadd; rewrite map2_length, LV, Hm; reflexivity). split; [|split; [exact L|]].
    + unfold sv_random_diag_normal. fold F. now apply sv_from_vec_ok.
    + intros i Hi. rewrite NT by auto.
      replace (rsum 6 (fun k => nth k x 0 * entry F k i) + nth i (sv_vec mean) 0 - nth i (sv_vec mean) 0) with (dot x (col i F)).
      2:{ rewrite (dot_rsum 6) by (auto; rewrite col_length; apply HF). rewrite (rsum_ext 6 _ (fun k => nth k x 0 * entry F k i)) by (intros; now rewrite nth_col). ring. }
      eapply Rle_trans; [apply cauchy_schwarz_norm|]. rewrite Rmult_comm. apply Req_le. f_equal. unfold norm. f_equal.
      rewrite (dot_rsum 6) by (rewrite col_length; apply HF). rewrite (rsum_ext 6 _ (fun k => entry F k i * entry F k i)) by (intros; now rewrite nth_col).
      rewrite (gram_entry 6 F (sv_vec cov)) by auto. now rewrite Nat.eqb_refl.
  - intros law (HL & HX & H1 & H2) i Hi. split.
    + rewrite (expect_ext _ (fun x => rsum 6 (fun k => nth k x 0 * entry F k i) + nth i (sv_vec mean) 0)) by (intros wa Hw; apply NT; auto).
      rewrite expect_plus, (expect_const _ law HL), expect_rsum. rewrite rsum_zero; [ring|]. intros k Hk.
      rewrite (expect_ext _ (fun x => entry F k i * nth k x 0)) by (intros; ring). rewrite expect_scal, H1 by auto. ring.
    + intros j Hj.
      rewrite (expect_ext _ (fun x => rsum 6 (fun k => rsum 6 (fun l => (entry F k i * entry F l j) * (nth k x 0 * nth l x 0))))).
      * rewrite expect_rsum. rewrite <- (gram_entry 6 F (sv_vec cov) i j) by auto. apply rsum_ext. intros k Hk. rewrite expect_rsum.
        rewrite (rsum_ext 6 _ (fun l => if Nat.eqb l k then entry F k i * entry F l j else 0)).
        -- apply (rsum_delta 6 k (fun l => entry F k i * entry F l j)); auto.
        -- intros l Hl. rewrite expect_scal, H2 by auto. rewrite Nat.eqb_sym. destruct (Nat.eqb l k); ring.
      * intros wa Hw. rewrite !NT by (auto; now apply HX). set (x := snd wa).
        replace ((rsum 6 (fun k => nth k x 0 * entry F k i) + nth i (sv_vec mean) 0 - nth i (sv_vec mean) 0) * (rsum 6 (fun k => nth k x 0 * entry F k j) + nth j (sv_vec mean) 0 - nth j (sv_vec mean) 0))
          with (rsum 6 (fun k => nth k x 0 * entry F k i) * rsum 6 (fun k => nth k x 0 * entry F k j)) by ring.
        rewrite <- rsum_scal_r. apply rsum_ext. intros k Hk. rewrite <- rsum_scal. apply rsum_ext. intros l Hl. ring.
Qed.

(** the twelve points +-sqrt 6 e_i with equal weights *)
Definition law6 : list (R * vec) :=
  flat_map (fun i => map (fun s => (/ 12, map (fun k => if Nat.eqb k i then s * sqrt 6 else 0) (seq 0 6))) [1; -1]) (seq 0 6).
Lemma law6_standardised : standardised 6 law6.
Proof.
  assert (S : sqrt 6 * sqrt 6 = 6) by (apply sqrt_sqrt; lra).
  split; [split|split; [|split]].
  - intros wa H. unfold law6 in H. apply in_flat_map in H as (i & _ & H). apply in_map_iff in H as (s & <- & _). cbn [fst]. lra.
  - unfold law6. cbn. lra.
  - intros wa H. unfold law6 in H. apply in_flat_map in H as (i & _ & H). apply in_map_iff in H as (s & <- & _). reflexivity.
  - intros i Hi. do 6 (destruct i as [|i]; [unfold expect, law6; cbn; ring|]). lia.
  - intros i j Hi Hj. do 6 (destruct i as [|i]; [do 6 (destruct j as [|j]; [unfold expect, law6; cbn; first [ring | nra]|]); lia|]). lia.
Qed.
Lemma random_example : exists factor cov law, sv_ok cov /\ sv_vec cov = [4; 4; 4; 1; 1; 1] /\
  is_mat 6 6 (factor (diag (sv_vec cov))) /\
  mat_mul (transpose (factor (diag (sv_vec cov)))) (factor (diag (sv_vec cov))) = diag (sv_vec cov) /\ standardised 6 law /\ length law = 12%nat.
Proof.
  exists (fun _ => diag [2; 2; 2; 1; 1; 1]), {| sv_vec := [4; 4; 4; 1; 1; 1] |}, law6. cbn [sv_vec].
  split; [reflexivity|]. split; [reflexivity|]. split; [apply (is_mat_diag [2; 2; 2; 1; 1; 1])|]. split; [|split; [exact law6_standardised|reflexivity]].
  cbn. list_eq; ring.
Qed.
