(** Properties C56 (src/rigeo/test_util.py) and C64 (validation_rmse of src/rigeo/util.py). *)
From Coq Require Import Permutation.
From Verif Require Import Base.Vec Base.VecFacts Model.Util Model.TestUtil Spec.Matching Proofs.TestUtilP Proofs.RefutedP.

(** * C56 *)
Theorem C56_sound : forall n m A B rtol atol,
  is_mat n m A -> is_mat n m B -> allclose_unordered A B rtol atol = Ok true ->
  exists f, row_matching n m rtol atol A B f.
Proof. exact unordered_sound. Qed.
Print Assumptions C56_sound.
Theorem C56_zero_tolerance : forall n m A B,
  is_mat n m A -> is_mat n m B ->
  exists r, allclose_unordered A B 0 0 = Ok r /\ (r = true <-> Permutation A B).
Proof. exact unordered_zero. Qed.
Print Assumptions C56_zero_tolerance.
(** the greedy choice succeeds when no row of A is close to two rows of B *)
Theorem C56_complete_when_separated : forall n m A B rtol atol,
  is_mat n m A -> is_mat n m B -> separated_rows n m rtol atol A B ->
  (exists f, row_matching n m rtol atol A B f) -> allclose_unordered A B rtol atol = Ok true.
Proof. exact unordered_complete. Qed.
Print Assumptions C56_complete_when_separated.
(** in general it may miss a matching: finding *)
Theorem C56_incomplete : forall rtol atol,
  0 <= rtol < 1 -> 0 < atol ->
  exists A B, is_mat 2 1 A /\ is_mat 2 1 B /\ allclose_unordered A B rtol atol = Ok false /\
    exists f, row_matching 2 1 rtol atol A B f.
Proof. exact unordered_incomplete. Qed.
Print Assumptions C56_incomplete.
Theorem C56_complete_refuted : exists A B, is_mat 2 1 A /\ is_mat 2 1 B /\ allclose_unordered A B np_rtol np_atol = Ok false /\ exists f, row_matching 2 1 np_rtol np_atol A B f.
Proof. exact unordered_w. Qed.
Print Assumptions C56_complete_refuted.
Theorem C56_shape : forall A B rtol atol,
  length A <> length B \/ ncols A <> ncols B -> allclose_unordered A B rtol atol = Raise AssertionError.
Proof. exact unordered_shape. Qed.
Print Assumptions C56_shape.
Theorem C56_answers : forall n m A B rtol atol,
  is_mat n m A -> is_mat n m B -> exists r, allclose_unordered A B rtol atol = Ok r.
Proof. exact unordered_answers. Qed.
Print Assumptions C56_answers.
Example C56_example : is_mat 2 2 [[1; 2]; [3; 4]] /\ is_mat 2 2 [[3; 4]; [1; 2]] /\
  Permutation [[1; 2]; [3; 4]] [[3; 4]; [1; 2]] /\ row_matching 2 2 0 (1 / 10) [[1; 2]; [3; 4]] [[3; 4]; [1; 2]] (fun i => (1 - i)%nat).
Proof.
  split; [split; [reflexivity|repeat constructor]|]. split; [split; [reflexivity|repeat constructor]|]. split; [apply perm_swap|].
  split; [intros; lia|]. split; [intros; lia|].
  intros [|[|i]] Hi [|[|k]] Hk; try lia; cbn; rewrite Rminus_diag_eq, Rabs_R0 by reflexivity; lra.
Qed.

(** * C64 *)
Theorem C64_value : forall Ys ws theta W,
  length Ys = length ws -> ws <> [] ->
  validation_rmse Ys ws theta W = Ok (sqrt (mean_sq (map (fun Yw => vsub (mat_vec (fst Yw) theta) (snd Yw)) (combine Ys ws)))).
Proof. exact validation_rmse_spec. Qed.
Print Assumptions C64_value.
Theorem C64_zero : forall Ys ws theta W m,
  length Ys = length ws -> ws <> [] -> (forall Y, In Y Ys -> length Y = m) -> (forall w, In w ws -> length w = m) ->
  exists r, validation_rmse Ys ws theta W = Ok r /\ 0 <= r /\
    (r = 0 <-> forall k, (k < length ws)%nat -> mat_vec (nth k Ys []) theta = nth k ws []).
Proof. exact validation_rmse_zero. Qed.
Print Assumptions C64_zero.
Theorem C64_weight_ignored : forall Ys ws theta W W',
  validation_rmse Ys ws theta W = validation_rmse Ys ws theta W'.
Proof. exact validation_rmse_weight. Qed.
Print Assumptions C64_weight_ignored.
Theorem C64_no_data : forall theta W,
  validation_rmse [] [] theta W = NonFinite /\
  forall Ys ws, length Ys <> length ws -> validation_rmse Ys ws theta W = Raise ValueError.
Proof. exact validation_rmse_bad. Qed.
Print Assumptions C64_no_data.
Example C64_example : validation_rmse [[[1]; [0]]; [[2]; [1]]] [[1; 0]; [5; 1]] [1] (Some [[7]]) = Ok (sqrt (9 / 2)).
Proof.
  rewrite validation_rmse_spec by (reflexivity || discriminate). do 2 f_equal. unfold mean_sq. cbn [combine map]. rewrite !norm_sqr. unfold dot, vsub, mat_vec, lsum. cbn [map map2 fold_right length fst snd]. unfold dot, lsum; cbn. change (INR 2) with (1 + 1). field.
Qed.
