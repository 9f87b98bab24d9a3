(** Floating-point numbers, for the properties about rounding (C17, C18). *)
From Coq Require Import Reals ZArith.
Local Open Scope R_scope.

(** the finite binary64 numbers, without the upper bound on the exponent *)
Definition is_b64 (x : R) : Prop :=
  exists m e : Z, (Z.abs m < 2 ^ 53)%Z /\ (-1074 <= e)%Z /\ x = IZR m * powerRZ 2 e.
