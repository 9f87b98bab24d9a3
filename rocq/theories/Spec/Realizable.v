(** Pseudo-inertia matrices of point-mass systems. *)
From Verif Require Import Base.Vec Spec.Basic Model.Constraint Model.Inertial Spec.Objects.

(** J is the sum of m (p, 1) (p, 1)^T *)
Definition pim_of (s : pms) (J : mat) : Prop :=
  is_mat 4 4 J /\ forall i j, (i < 4)%nat -> (j < 4)%nat ->
    entry J i j = lsum (map (fun mp => fst mp * nth i (snd mp ++ [1]) 0 * nth j (snd mp ++ [1]) 0) s).
(** J is the pseudo-inertia matrix of non-negative point masses in K *)
Definition realizable_J (K : vec -> Prop) (J : mat) : Prop :=
  exists s, pms_ok s /\ pms_nonneg s /\ pms_in K s /\ pim_of s J.
(** the pseudo-inertia matrix meant by a parameter variable: the matrix itself, or that of the
    parameters with the given 10-vector *)
Definition pv_value (v : param_var) (J : mat) : Prop :=
  match v with
  | PVmat J' => J' = J
  | PVvec theta => exists p, ip_ok p /\ symmetric 3 (ip_H p) /\ ip_vec p = Ok theta /\ J = ip_J p
  end.
(** the centre of mass and the second-moment matrix of a pseudo-inertia matrix *)
Definition com_J (J : mat) : vec := map (fun i => entry J i 3 / entry J 3 3) (seq 0 3).
Definition second_J (J : mat) (x : vec) : R :=
  lsum (map (fun i => lsum (map (fun j => nth i x 0 * entry J i j * nth j x 0) (seq 0 3))) (seq 0 3)).
