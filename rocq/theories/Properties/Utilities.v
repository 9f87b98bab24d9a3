(** Properties C16-C20: utilities (src/rigeo/util.py). *)
From Verif Require Import Proofs.Coord Model.Util Model.Spatial Model.Inertial Model.Constraint
  Spec.Objects Spec.Samples Proofs.InertialP Proofs.InertialT Proofs.Dynamics Proofs.UtilP
  Proofs.SamplesP Proofs.RefutedP.

(** * C16 *)
Theorem C16_unvech_vech : forall n A,
  (1 <= n)%nat -> is_mat n n A -> symmetric n A ->
  exists v, vech A 0 = Ok v /\ unvech v = Ok A.
Proof. exact unvech_vech. Qed.
Print Assumptions C16_unvech_vech.
Theorem C16_vech_unvech : forall n v,
  (1 <= n)%nat -> length v = tri n ->
  exists A, unvech v = Ok A /\ is_mat n n A /\ symmetric n A /\ vech A 0 = Ok v.
Proof. exact vech_unvech. Qed.
Print Assumptions C16_vech_unvech.
Theorem C16_vech_rows : forall n A k,
  is_mat n n A ->
  vech A (Z.of_nat k) =
  Ok (flat_map (fun i => map (fun j => entry A i j) (seq (i + k) (n - (i + k)))) (seq 0 n)).
Proof. exact vech_rows. Qed.
Print Assumptions C16_vech_rows.
Theorem C16_unvech_raise : forall v,
  (forall n, (1 <= n)%nat -> length v <> tri n) ->
  unvech v = Raise AssertionError.
Proof. exact unvech_raise. Qed.
Print Assumptions C16_unvech_raise.
Theorem C16_vech_raise : forall A k,
  ~ is_mat (length A) (length A) A -> vech A k = Raise AssertionError.
Proof. exact vech_raise. Qed.
Print Assumptions C16_vech_raise.
Example C16_example : exists A, unvech [1; 2; 3; 4; 5; 6] = Ok A /\ is_mat 3 3 A /\ symmetric 3 A /\
  vech A 0 = Ok [1; 2; 3; 4; 5; 6].
Proof. exact (vech_unvech 3 [1; 2; 3; 4; 5; 6] (le_S _ _ (le_S _ _ (le_n 1))) eq_refl). Qed.

(** * C17, exact arithmetic *)
Theorem C17_exact : forall x n,
  is_triangular_number x = (true, n) <-> (1 <= n)%Z /\ x = IZR n * (IZR n + 1) / 2.
Proof. exact is_triangular_iff. Qed.
Print Assumptions C17_exact.
Example C17_example : is_triangular_number (INR (tri 4)) = (true, 4%Z).
Proof. exact (is_triangular_tri 4 (le_S _ _ (le_S _ _ (le_S _ _ (le_n 1))))). Qed.

(** * C18, exact arithmetic *)
Theorem C18_exact : forall duration step,
  0 < duration -> 0 < step ->
  exists n ts, compute_evaluation_times duration step = Ok (n, ts) /\ (1 <= n)%Z /\
    length ts = Z.to_nat n /\
    (forall k, (k < length ts)%nat -> nth k ts 0 = INR k * step /\ 0 <= nth k ts 0 < duration) /\
    duration <= IZR n * step.
Proof. exact evaluation_times_spec. Qed.
Print Assumptions C18_exact.
Theorem C18_raise : forall duration step,
  duration <= 0 \/ step <= 0 ->
  compute_evaluation_times duration step = Raise AssertionError.
Proof. exact evaluation_times_raise. Qed.
Print Assumptions C18_raise.
Example C18_example : 0 < 1 /\ 0 < 3 / 10.
Proof. split; lra. Qed.

(** * C19 *)
Theorem C19_apply : forall n r t p,
  is_mat n n r -> length t = n -> length p = n ->
  exists T, transform_matrix (Some r) (Some t) n = Ok T /\
    mat_vec T (p ++ [1]) = vadd (mat_vec r p) t ++ [1].
Proof. exact transform_matrix_apply. Qed.
Print Assumptions C19_apply.
Theorem C19_default : forall n,
  transform_matrix None None n =
  transform_matrix (Some (eye n)) (Some (zeros n)) n.
Proof. exact transform_matrix_default. Qed.
Print Assumptions C19_default.
Theorem C19_inverse : forall Q t,
  orthogonal 3 Q -> length t = 3%nat ->
  exists T Ti, transform_matrix (Some Q) (Some t) 3 = Ok T /\
    transform_matrix_inv (Some Q) (Some t) 3 = Ok Ti /\
    mat_mul T Ti = eye 4 /\ mat_mul Ti T = eye 4.
Proof. exact transform_matrix_inv_3. Qed.
Print Assumptions C19_inverse.
(** in any other dimension the inverse is rejected: finding *)
Theorem C19_inverse_needs_dimension_3 : forall n Q t,
  n <> 3%nat -> is_mat n n Q -> length t = n ->
  transform_matrix_inv (Some Q) (Some t) n = Raise AssertionError.
Proof. exact transform_matrix_inv_other. Qed.
Print Assumptions C19_inverse_needs_dimension_3.
Theorem C19_inverse_other_dimension_refuted : exists Q t, orthogonal 2 Q /\ length t = 2%nat /\ transform_matrix_inv (Some Q) (Some t) 2 = Raise AssertionError.
Proof. exact inverse_w. Qed.
Print Assumptions C19_inverse_other_dimension_refuted.
Example C19_example : orthogonal 3 Q0 /\ length t0 = 3%nat /\
  transform_matrix_inv (Some [[0; -1]; [1; 0]]) (Some [1; 2]) 2 = Raise AssertionError.
Proof.
  split; [exact Q0_orth|]. split; [reflexivity|].
  apply transform_matrix_inv_other; [discriminate| |reflexivity].
  apply is_matb_iff. reflexivity.
Qed.

(** * C20 *)
Theorem C20_vertices : forall h x,
  In x (box_vertices h) <-> is_corner h x.
Proof. exact in_box_vertices. Qed.
Print Assumptions C20_vertices.
Theorem C20_count : forall h,
  length (box_vertices h) = (2 ^ length h)%nat.
Proof. exact box_vertices_length. Qed.
Print Assumptions C20_count.
Theorem C20_hull : forall h x,
  length x = length h -> (forall a, In a h -> 0 <= a) ->
  ((forall i, (i < length h)%nat -> Rabs (nth i x 0) <= nth i h 0) <->
   in_hull (length h) (box_vertices h) x).
Proof. exact box_hull. Qed.
Print Assumptions C20_hull.
Example C20_example : in_hull 2 (box_vertices [1; 2]) [1 / 2; -1].
Proof.
  apply (box_hull [1; 2] [1 / 2; -1]).
  - reflexivity.
  - intros a [<-|[<-|[]]]; lra.
  - intros [|[|i]] Hi; cbn in Hi |- *; try lia.
    + rewrite Rabs_pos_eq; lra.
    + rewrite Rabs_left; lra.
Qed.
