(** Properties C17 and C18 in binary64 (src/rigeo/util.py). *)
From Verif Require Import Base.Vec Model.Util Model.FloatUtil Spec.Floats Proofs.FloatP.

(** * C17 *)
(** [b64] rounds to a nearest floating-point number *)
Theorem C17_rounding : forall x,
  is_b64 (b64 x) /\ forall y, is_b64 y -> Rabs (b64 x - x) <= Rabs (y - x).
Proof. exact b64_nearest. Qed.
Print Assumptions C17_rounding.
Theorem C17_float : forall x z n,
  (z < 2 ^ 49)%Z -> x = PyInt z \/ x = PyFloat (IZR z) ->
  (is_triangular_number_f x = Ok (true, n) <-> (1 <= n)%Z /\ (2 * z = n * (n + 1))%Z).
Proof. exact tri_f_iff. Qed.
Print Assumptions C17_float.
(** below 2 ^ 49 the pair is the one of exact arithmetic, also when the answer is no *)
Theorem C17_float_agrees : forall z,
  (z < 2 ^ 49)%Z ->
  is_triangular_number_f (PyInt z) = Ok (is_triangular_number (IZR z)) /\
  is_triangular_number_f (PyFloat (IZR z)) = Ok (is_triangular_number (IZR z)).
Proof. exact tri_f_agrees. Qed.
Print Assumptions C17_float_agrees.
(** no triangular number is missed as long as np.sqrt accepts the integer *)
Theorem C17_float_complete : forall n,
  (1 <= n)%Z -> (4 * n * (n + 1) + 1 < 2 ^ 64)%Z ->
  is_triangular_number_f (PyInt (n * (n + 1) / 2)) = Ok (true, n).
Proof. exact tri_f_complete. Qed.
Print Assumptions C17_float_complete.
Theorem C17_float_reject : forall x,
  (forall z, value x <> IZR z) \/ value x < 1 -> is_triangular_number_f x = Ok (false, (-1)%Z).
Proof. exact tri_f_reject. Qed.
Print Assumptions C17_float_reject.
(** larger numbers: wrong answers, then an exception *)
Theorem C17_float_int_refuted : exists z, is_triangular_number_f (PyInt z) = Ok (true, (2 ^ 29)%Z) /\
  forall m, (1 <= m)%Z -> (2 * z <> m * (m + 1))%Z.
Proof. exact tri_f_false_int. Qed.
Print Assumptions C17_float_int_refuted.
Theorem C17_float_float_refuted : exists z, is_b64 (IZR z) /\ is_triangular_number_f (PyFloat (IZR z)) = Ok (true, (2 ^ 29)%Z) /\
  forall m, (1 <= m)%Z -> (2 * z <> m * (m + 1))%Z.
Proof. exact tri_f_false_float. Qed.
Print Assumptions C17_float_float_refuted.
Theorem C17_float_big : forall z,
  (2 ^ 61 <= z)%Z -> is_triangular_number_f (PyInt z) = Raise TypeError.
Proof. exact tri_f_big. Qed.
Print Assumptions C17_float_big.
Example C17_float_example : (10 < 2 ^ 49)%Z /\ (1 <= 4)%Z /\ (2 * 10 = 4 * (4 + 1))%Z /\ (4 * 4 * (4 + 1) + 1 < 2 ^ 64)%Z.
Proof. repeat split; discriminate. Qed.

(** * C18 *)
Theorem C18_float : forall d s,
  0 < d -> 0 < s -> is_b64 s ->
  powerRZ 2 (-1022) <= d / s <= 2 ^ 53 - 1 ->
  exists n ts, compute_evaluation_times_f d s = Ok (n, ts) /\ (1 <= n)%Z /\ length ts = Z.to_nat n /\
    (forall k, (k < length ts)%nat ->
       Rabs (nth k ts 0 - INR k * s) <= / 2 ^ 53 * (INR k * s) /\
       0 <= nth k ts 0 < d * (1 + / 2 ^ 53) ^ 2) /\
    (forall j k, (j <= k < length ts)%nat -> nth j ts 0 <= nth k ts 0) /\
    d * (1 - / 2 ^ 53) <= IZR n * s.
Proof. exact times_f_spec. Qed.
Print Assumptions C18_float.
Theorem C18_float_raise : forall d s,
  d <= 0 \/ s <= 0 -> compute_evaluation_times_f d s = Raise AssertionError.
Proof. exact times_f_raise. Qed.
Print Assumptions C18_float_raise.
(** the last time can equal the duration (2.1 / 0.3) *)
Theorem C18_float_strict_refuted : exists d s n ts, is_b64 d /\ is_b64 s /\ 0 < d /\ 0 < s /\
  compute_evaluation_times_f d s = Ok (n, ts) /\ exists k, (k < length ts)%nat /\ nth k ts 0 = d.
Proof. exact times_f_not_strict. Qed.
Print Assumptions C18_float_strict_refuted.
(** the interval may not be covered (0.9 / 0.3) *)
Theorem C18_float_cover_refuted : exists d s n ts, is_b64 d /\ is_b64 s /\ 0 < d /\ 0 < s /\
  compute_evaluation_times_f d s = Ok (n, ts) /\ IZR n * s < d /\ b64 (s * IZR n) < d.
Proof. exact times_f_not_covering. Qed.
Print Assumptions C18_float_cover_refuted.
(** no time at all when the quotient underflows *)
Theorem C18_float_empty_refuted : exists d s, is_b64 d /\ is_b64 s /\ 0 < d /\ 0 < s /\
  compute_evaluation_times_f d s = Ok (0%Z, []).
Proof. exact times_f_empty. Qed.
Print Assumptions C18_float_empty_refuted.
Example C18_float_example : 0 < 1 /\ 0 < 1 / 4 /\ is_b64 (1 / 4) /\ powerRZ 2 (-1022) <= 1 / (1 / 4) <= 2 ^ 53 - 1.
Proof. exact times_f_case. Qed.
