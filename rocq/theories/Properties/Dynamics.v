(** Properties C11-C15: dynamics and spatial vectors (inertial.py, spatial.py, util.py,
    rigidbody.py regressor). *)
From Verif Require Import Proofs.Coord Model.Util Model.Spatial Model.Inertial Model.Constraint
  Spec.Objects Spec.Samples Spec.RandomSpec Proofs.InertialP Proofs.InertialT Proofs.Dynamics Proofs.SamplesP Proofs.SpatialRand.

(** * C11 *)
Theorem C11_regressor : forall p V A,
  ip_ok p -> symmetric 3 (ip_H p) -> sv_ok V -> sv_ok A ->
  exists Y v f, regressor V A = Ok Y /\ ip_vec p = Ok v /\ ip_body_wrench p V A = Ok f /\
    mat_vec Y v = sv_vec f.
Proof. exact regressor_wrench. Qed.
Print Assumptions C11_regressor.
Example C11_example : ip_ok p0 /\ symmetric 3 (ip_H p0) /\ sv_ok V0 /\ sv_ok A0.
Proof. split; [exact p0_ok|]. split; [exact p0_sym|]. split; reflexivity. Qed.

(** * C12 *)
Theorem C12_newton : forall p s w v al a,
  describes p s -> pms_ok s ->
  length w = 3%nat -> length v = 3%nat -> length al = 3%nat -> length a = 3%nat ->
  exists f, ip_body_wrench p {| sv_vec := w ++ v |} {| sv_vec := al ++ a |} = Ok f /\
    sv_vec f = fold_right vadd (zeros 6) (map (point_wrench w v al a) s).
Proof. exact body_wrench_newton. Qed.
Print Assumptions C12_newton.
Example C12_example : describes p0 s0 /\ pms_ok s0.
Proof. exact (conj p0_describes s0_ok). Qed.

(** * C13 *)
Theorem C13_kinetic_energy : forall p s w v,
  describes p s -> pms_ok s -> length w = 3%nat -> length v = 3%nat ->
  exists M, ip_M p = Ok M /\
    quad M (w ++ v) =
    lsum (map (fun mp => fst mp * norm2 (point_velocity w v (snd mp))) s).
Proof. exact kinetic_energy. Qed.
Print Assumptions C13_kinetic_energy.
Theorem C13_nonneg : forall p V,
  ip_ok p -> PSD 4 (ip_J p) -> length V = 6%nat ->
  exists M, ip_M p = Ok M /\ 0 <= quad M V.
Proof. exact kinetic_energy_nonneg. Qed.
Print Assumptions C13_nonneg.
Theorem C13_symmetric : forall p M,
  ip_ok p -> symmetric 3 (ip_H p) -> ip_M p = Ok M -> symmetric 6 M.
Proof. exact ip_M_symmetric. Qed.
Print Assumptions C13_symmetric.
Theorem C13_gyroscopic_power : forall p V,
  ip_ok p -> sv_ok V ->
  exists f, ip_body_wrench p V {| sv_vec := zeros 6 |} = Ok f /\ dot (sv_vec V) (sv_vec f) = 0.
Proof. exact gyroscopic_power. Qed.
Print Assumptions C13_gyroscopic_power.
Example C13_example : exists M, ip_M p0 = Ok M /\ 0 <= quad M (sv_vec V0).
Proof. exact (kinetic_energy_nonneg p0 (sv_vec V0) p0_ok p0_psd eq_refl). Qed.

(** * C14 *)
Theorem C14_skew3 : forall a b,
  length a = 3%nat -> length b = 3%nat ->
  exists S, skew3 a = Ok S /\ is_mat 3 3 S /\ mat_vec S b = cross a b /\ transpose S = mneg S.
Proof. exact skew3_cross. Qed.
Print Assumptions C14_skew3.
Theorem C14_lift3 : forall A x,
  is_mat 3 3 A -> symmetric 3 A -> length x = 3%nat ->
  exists L v, lift3 x = Ok L /\ vech A 0 = Ok v /\ mat_vec L v = mat_vec A x.
Proof. exact lift3_vech. Qed.
Print Assumptions C14_lift3.
Theorem C14_lift6 : forall p V,
  ip_ok p -> symmetric 3 (ip_H p) -> sv_ok V ->
  exists L v M, lift6 V = Ok L /\ ip_vec p = Ok v /\ ip_M p = Ok M /\ mat_vec L v = mat_vec M (sv_vec V).
Proof. exact lift6_M. Qed.
Print Assumptions C14_lift6.
Theorem C14_contact_jacobian : forall p f,
  length p = 3%nat -> length f = 3%nat ->
  exists C, contact_jacobian p = Ok C /\ mat_vec C f = cross p f ++ f.
Proof. exact contact_jacobian_wrench. Qed.
Print Assumptions C14_contact_jacobian.
Theorem C14_not_3 : forall v,
  length v <> 3%nat ->
  skew3 v = Raise AssertionError /\ lift3 v = Raise AssertionError /\
  contact_jacobian v = Raise AssertionError.
Proof. exact not_3_raise. Qed.
Print Assumptions C14_not_3.
Example C14_example : exists S, skew3 [1; 2; 3] = Ok S /\ mat_vec S [4; 5; 6] = [-3; 6; -3].
Proof. eexists. split; [reflexivity|]. cbn. list_eq; ring. Qed.

(** * C15 *)
Theorem C15_parts : forall s,
  sv_ok s -> sv_vec s = sv_angular s ++ sv_linear s /\
  length (sv_angular s) = 3%nat /\ length (sv_linear s) = 3%nat.
Proof. exact sv_parts. Qed.
Print Assumptions C15_parts.
Theorem C15_from_vec : forall v,
  length v = 6%nat -> sv_from_vec v = Ok {| sv_vec := v |}.
Proof. exact sv_from_vec_ok. Qed.
Print Assumptions C15_from_vec.
Theorem C15_from_vec_raise : forall v,
  length v <> 6%nat -> sv_from_vec v = Raise AssertionError.
Proof. exact sv_from_vec_raise. Qed.
Print Assumptions C15_from_vec_raise.
Theorem C15_operations : forall s o c,
  sv_ok s -> sv_ok o ->
  sv_add s o = Ok {| sv_vec := vadd (sv_vec s) (sv_vec o) |} /\
  sv_sub s o = Ok {| sv_vec := vsub (sv_vec s) (sv_vec o) |} /\
  sv_mul s c = Ok {| sv_vec := vscale c (sv_vec s) |} /\
  (c <> 0 -> sv_div s c = Ok {| sv_vec := vscale (/ c) (sv_vec s) |}) /\
  sv_div s 0 = NonFinite.
Proof. exact sv_ops. Qed.
Print Assumptions C15_operations.
Theorem C15_adjoint : forall V W,
  sv_ok V -> sv_ok W ->
  exists ad, sv_adjoint V = Ok ad /\ mat_vec ad (sv_vec W) = motion_cross (sv_vec V) (sv_vec W).
Proof. exact sv_adjoint_cross. Qed.
Print Assumptions C15_adjoint.
Theorem C15_antisymmetric : forall V W,
  length V = 6%nat -> length W = 6%nat ->
  motion_cross V W = vneg (motion_cross W V) /\ motion_cross V V = zeros 6.
Proof. exact motion_cross_antisym. Qed.
Print Assumptions C15_antisymmetric.
Theorem C15_jacobi : forall U V W,
  length U = 6%nat -> length V = 6%nat -> length W = 6%nat ->
  vadd (vadd (motion_cross U (motion_cross V W)) (motion_cross V (motion_cross W U)))
       (motion_cross W (motion_cross U V)) = zeros 6.
Proof. exact motion_cross_jacobi. Qed.
Print Assumptions C15_jacobi.
Theorem C15_random : forall factor mean cov,
  sv_ok mean -> sv_ok cov ->
  is_mat 6 6 (factor (diag (sv_vec cov))) ->
  mat_mul (transpose (factor (diag (sv_vec cov)))) (factor (diag (sv_vec cov))) = diag (sv_vec cov) ->
  exists f : vec -> SV,
    (forall x, length x = 6%nat -> sv_random_diag_normal factor mean cov x = Ok (f x) /\ sv_ok (f x) /\
       forall i, (i < 6)%nat -> Rabs (nth i (sv_vec (f x)) 0 - nth i (sv_vec mean) 0) <= sqrt (nth i (sv_vec cov) 0) * norm x) /\
    forall law, standardised 6 law -> forall i, (i < 6)%nat ->
      expect (fun x => nth i (sv_vec (f x)) 0) law = nth i (sv_vec mean) 0 /\
      forall j, (j < 6)%nat ->
        expect (fun x => (nth i (sv_vec (f x)) 0 - nth i (sv_vec mean) 0) * (nth j (sv_vec (f x)) 0 - nth j (sv_vec mean) 0)) law
        = if Nat.eqb i j then nth i (sv_vec cov) 0 else 0.
Proof. exact random_diag_normal_spec. Qed.
Print Assumptions C15_random.
Example C15_example : sv_ok V0 /\ sv_ok A0 /\
  motion_cross (sv_vec V0) (sv_vec A0) = [-3; 0; 1; -2; -5; 6].
Proof. split; [reflexivity|]. split; [reflexivity|]. cbn. list_eq; ring. Qed.
Example C15_random_example : exists factor cov law, sv_ok cov /\ sv_vec cov = [4; 4; 4; 1; 1; 1] /\
  is_mat 6 6 (factor (diag (sv_vec cov))) /\
  mat_mul (transpose (factor (diag (sv_vec cov)))) (factor (diag (sv_vec cov))) = diag (sv_vec cov) /\ standardised 6 law /\ length law = 12%nat.
Proof. exact random_example. Qed.
