(** Vocabulary for identification from recorded motions. *)
From Verif Require Import Base.Vec Model.Spatial Model.Inertial Spec.Basic Spec.Objects Spec.Geodesic.

(** one pair of spatial velocity and acceleration per sample *)
Definition motions_ok (VAs : list (SV * SV)) : Prop := VAs <> [] /\ forall V A, In (V, A) VAs -> sv_ok V /\ sv_ok A.
(** [As] are the regressor matrices of the samples *)
Definition regressors (VAs : list (SV * SV)) (As : list mat) : Prop := Forall2 (fun VA Y => regressor (fst VA) (snd VA) = Ok Y) VAs As.
(** [bs] are the wrenches of a body with parameters p *)
Definition wrenches (p : IP) (VAs : list (SV * SV)) (bs : list vec) : Prop :=
  Forall2 (fun VA b => exists f, ip_body_wrench p (fst VA) (snd VA) = Ok f /\ sv_vec f = b) VAs bs.
(** bodies with different (consistent) parameters need different wrenches for some of the motions *)
Definition tells_apart (VAs : list (SV * SV)) : Prop := forall p q, ip_ok p -> ip_ok q -> SPD 4 (ip_J p) -> SPD 4 (ip_J q) ->
  (forall V A, In (V, A) VAs -> ip_body_wrench p V A = ip_body_wrench q V A) -> p = q.
(** the body point c is not accelerated *)
Definition unaccelerated (c : vec) (V A : SV) : Prop :=
  point_acceleration (sv_angular V) (sv_linear V) (sv_angular A) (sv_linear A) c = zeros 3.
