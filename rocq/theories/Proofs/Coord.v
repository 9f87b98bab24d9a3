(** Tactics for coordinate proofs on small vectors and matrices. *)
From Verif Require Export Base.VecFacts Spec.Basic.

Lemma cons_eq {A} (a b : A) l l' : a = b -> l = l' -> a :: l = b :: l'.
Proof. congruence. Qed.

Ltac list_eq := repeat (match goal with
  | |- @eq (list _) (_ :: _) (_ :: _) => apply cons_eq
  | |- @eq (list _) [] [] => reflexivity
  end).

Ltac destruct_vecs := repeat match goal with
  | H : length ?v = 3%nat |- _ => is_var v; destruct (len3_inv v H) as (? & ? & ? & ->); clear H
  | H : length ?v = 4%nat |- _ => is_var v; destruct (len4_inv v H) as (? & ? & ? & ? & ->); clear H
  | H : length ?v = 6%nat |- _ => is_var v;
      destruct (len6_inv v H) as (? & ? & ? & ? & ? & ? & ->); clear H
  | H : length ?v = 10%nat |- _ => is_var v;
      destruct (len10_inv v H) as (? & ? & ? & ? & ? & ? & ? & ? & ? & ? & ->); clear H
  | H : is_mat 3 3 ?M |- _ => is_var M;
      destruct (mat33_inv M H) as (? & ? & ? & ? & ? & ? & ? & ? & ? & ->); clear H
  | H : is_mat 4 4 ?M |- _ => is_var M;
      destruct (mat44_inv M H) as (? & ? & ? & ? & ? & ? & ? & ? & ? & ? & ? & ? & ? & ? & ? & ? & ->);
      clear H
  end.

Lemma sym33 a b c d e f g h i : symmetric 3 [[a; b; c]; [d; e; f]; [g; h; i]] ->
  d = b /\ g = c /\ h = f.
Proof.
  intros H. repeat split.
  - apply (H 1%nat 0%nat); lia.
  - apply (H 2%nat 0%nat); lia.
  - apply (H 2%nat 1%nat); lia.
Qed.

Lemma sym33_intro a b c e f i : symmetric 3 [[a; b; c]; [b; e; f]; [c; f; i]].
Proof.
  intros p q Hp Hq. destruct p as [|[|[|p]]]; destruct q as [|[|[|q]]]; try lia; reflexivity.
Qed.

Lemma sym44_intro a b c d e f g h i j : symmetric 4 [[a; b; c; d]; [b; e; f; g]; [c; f; h; i]; [d; g; i; j]].
Proof.
  intros p q Hp Hq.
  destruct p as [|[|[|[|p]]]]; destruct q as [|[|[|[|q]]]]; try lia; reflexivity.
Qed.
Lemma sym44 a b c d e f g h i j k l m n o p :
  symmetric 4 [[a; b; c; d]; [e; f; g; h]; [i; j; k; l]; [m; n; o; p]] ->
  e = b /\ i = c /\ m = d /\ j = g /\ n = h /\ o = l.
Proof.
  intros H. repeat split.
  - apply (H 1%nat 0%nat); lia.
  - apply (H 2%nat 0%nat); lia.
  - apply (H 3%nat 0%nat); lia.
  - apply (H 2%nat 1%nat); lia.
  - apply (H 3%nat 1%nat); lia.
  - apply (H 3%nat 2%nat); lia.
Qed.

Lemma is_mat33 a b c d e f g h i : is_mat 3 3 [[a; b; c]; [d; e; f]; [g; h; i]].
Proof. split; [reflexivity|repeat constructor]. Qed.
Lemma is_mat44 a b c d e f g h i j k l m n o p :
  is_mat 4 4 [[a; b; c; d]; [e; f; g; h]; [i; j; k; l]; [m; n; o; p]].
Proof. split; [reflexivity|repeat constructor]. Qed.

Lemma symmetric_transpose n M : is_mat n n M -> symmetric n M -> transpose M = M.
Proof.
  intros HM HS. destruct n as [|n].
  { destruct HM as [H _]. destruct M; [reflexivity|discriminate]. }
  apply (mat_ext (S n) (S n)); auto.
  - apply is_mat_transpose; auto; lia.
  - intros i j Hi Hj. rewrite entry_transpose by (rewrite (is_mat_ncols _ _ _ HM); lia).
    apply HS; auto.
Qed.
Lemma transpose_symmetric n M : is_mat n n M -> transpose M = M -> symmetric n M.
Proof.
  intros HM HT i j Hi Hj. rewrite <- HT at 1. apply entry_transpose.
  rewrite (is_mat_ncols _ _ _ HM); lia.
Qed.

Lemma is_mat_mul n k m A B : is_mat n k A -> is_mat k m B -> (0 < k)%nat -> is_mat n m (mat_mul A B).
Proof. intros HA HB Hk. eapply is_mat_mat_mul; eauto. eapply is_mat_ncols; eauto. Qed.
Lemma is_mat_congr n m T A : is_mat m n T -> is_mat n n A -> (0 < n)%nat -> (0 < m)%nat ->
  is_mat m m (mat_mul (mat_mul T A) (transpose T)).
Proof.
  intros HT HA Hn Hm. apply (is_mat_mul m n m); auto. apply (is_mat_mul m n n); auto.
  now apply is_mat_transpose.
Qed.
Lemma abs_le_inv x a : Rabs x <= a -> - a <= x <= a.
Proof. intros H. pose proof (Rle_abs x). pose proof (Rle_abs (- x)). rewrite Rabs_Ropp in *. lra. Qed.
