(** Property C110: the law of random_weight_vectors, ConvexPolyhedron.random_points and random_psd_matrix. *)
From Verif Require Import Base.Vec Model.Util Model.Inertial Model.Polydd Model.Poly Model.Random
  Spec.Basic Spec.PolySpec Spec.Integrals Spec.RandomSpec Spec.Expect Spec.Symmetric Spec.Exchangeable Spec.Turns Proofs.WeightsP.

(** * each of the k weights has the mean 1 / k, so for k other than 2 a weight is not uniform on [0, 1] *)
Theorem C110_weights_mean : forall k law i,
  exchangeable_law k law -> (i < k)%nat ->
  law (fun w => point_stat (fun v => nth i v 0) (Some (random_weight_vectors [w]))) (1 / INR k).
Proof. exact weights_mean. Qed.
Print Assumptions C110_weights_mean.
(** * the mean of a sampled point of a polyhedron is the average of the vertices *)
Theorem C110_polyhedron_mean : forall d p law i,
  poly_ok d p -> exchangeable_law (p_nv p) law -> (i < d)%nat ->
  law (fun w => point_stat (fun v => nth i v 0) (Some (poly_random_points p [w]))) (lsum (map (fun v => nth i v 0) (p_vertices p)) / INR (p_nv p)).
Proof. exact poly_mean_point. Qed.
Print Assumptions C110_polyhedron_mean.
(** * two weights: the probability that the first one is at most t; it is not t *)
Theorem C110_two_weights : forall t,
  0 < t < 1 -> integral2 0 1 (fun _ => 0) (fun _ => 1) (fun x y => point_stat (fun v => if Rle_dec (nth 0 v 0) t then 1 else 0) (Some (random_weight_vectors [[x; y]]))) (if Rle_dec t (1 / 2) then t / (2 * (1 - t)) else 1 - (1 - t) / (2 * t)).
Proof. exact two_cdf. Qed.
Print Assumptions C110_two_weights.
Theorem C110_uniform_entries_refuted : exists t I, 0 < t < 1 /\ integral2 0 1 (fun _ => 0) (fun _ => 1) (fun x y => point_stat (fun v => if Rle_dec (nth 0 v 0) t then 1 else 0) (Some (random_weight_vectors [[x; y]]))) I /\ I <> t.
Proof. exact two_not_uniform. Qed.
Print Assumptions C110_uniform_entries_refuted.
(** * two independent uniform draws have an exchangeable law *)
Theorem C110_exchangeable : exchangeable_law 2 pair_law.
Proof. exact pair_exchangeable. Qed.
Print Assumptions C110_exchangeable.
(** * the mean of random_psd_matrix *)
Theorem C110_psd_mean : forall n i j,
  (i < n)%nat -> (j < n)%nat -> mean_rows n n (fun A => entry (random_psd_matrix A) i j) (if Nat.eqb i j then INR n / 3 else 0).
Proof. exact psd_mean. Qed.
Print Assumptions C110_psd_mean.
Example C110_example : exchangeable_law 2 pair_law /\ exists p, poly_ok 1 p /\ p_nv p = 2%nat /\ p_vertices p = [[1]; [3]].
Proof. exact weights_case. Qed.
