(** Vocabulary for how identification results depend on the data. *)
From Verif Require Import Base.Vec.

(** the square of a residual: v^T W v, or |v|^2 without weights *)
Definition wsq (W0 : option mat) (v : vec) : R := match W0 with None => norm v ^ 2 | Some W => quad W v end.
(** how much the predictions A_i x of all observations differ from zero *)
Definition response (W0 : option mat) (As : list mat) (x : vec) : R := lsum (map (fun A => wsq W0 (mat_vec A x)) As).
(** how much two lists of observed values differ *)
Definition disturbance (W0 : option mat) (bs bs' : list vec) : R := lsum (map2 (fun b b' => wsq W0 (vsub b b')) bs bs').
