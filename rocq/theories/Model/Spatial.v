(** Model of /repo/src/rigeo/spatial.py and of util.py:128-140 ([lift6], which takes a
    SpatialVector). *)
From Verif Require Import Base.Vec Model.Util.

(** spatial.py:6-16: the object holds one 6-vector. *)
Record SV := { sv_vec : vec }.

(** spatial.py:52-58 *)
Definition sv_linear (s : SV) : vec := skipn 3 (sv_vec s).
Definition sv_angular (s : SV) : vec := firstn 3 (sv_vec s).

(** spatial.py:9-16 [__init__]: zeros(6) with the slices assigned. *)
Definition sv_init (linear angular : option vec) : res SV :=
  let* a := match angular with
            | None => Ok (zeros 3)
            | Some w => let* _ := assert_ (is_vecb 3 w) in Ok w
            end in
  let* l := match linear with
            | None => Ok (zeros 3)
            | Some v => let* _ := assert_ (is_vecb 3 v) in Ok v
            end in
  Ok {| sv_vec := a ++ l |}.

(** spatial.py:18-21 *)
Definition sv_from_vec (v : vec) : res SV :=
  let* _ := assert_ (is_vecb 6 v) in
  sv_init (Some (skipn 3 v)) (Some (firstn 3 v)).

(** spatial.py:23-25 *)
Definition sv_zero : res SV := sv_init None None.

(** spatial.py:30-34 *)
Definition sv_add (s o : SV) : res SV :=
  sv_init (Some (vadd (sv_linear s) (sv_linear o))) (Some (vadd (sv_angular s) (sv_angular o))).
(** spatial.py:36-40 *)
Definition sv_sub (s o : SV) : res SV :=
  sv_init (Some (vsub (sv_linear s) (sv_linear o))) (Some (vsub (sv_angular s) (sv_angular o))).
(** spatial.py:42-45, scalar [other] *)
Definition sv_mul (s : SV) (c : R) : res SV :=
  sv_init (Some (vscale c (sv_linear s))) (Some (vscale c (sv_angular s))).
(** spatial.py:47-50, scalar [other]; numpy yields inf/nan for 0 *)
Definition sv_div (s : SV) (c : R) : res SV :=
  if Reqb c 0 then NonFinite
  else sv_init (Some (vdivs (sv_linear s) c)) (Some (vdivs (sv_angular s) c)).

(** spatial.py:60-66 [random_diag_normal].  [x] is the standard normal vector drawn by the generator and
    [factor cov] the matrix sqrt(s) V of the singular value decomposition that numpy's
    multivariate_normal computes, which returns x @ factor(cov) + mean. *)
Definition sv_random_diag_normal (factor : mat -> mat) (mean cov_diag : SV) (x : vec) : res SV :=
  let sample := vadd (vec_mat x (factor (diag (sv_vec cov_diag)))) (sv_vec mean) in
  sv_from_vec sample.

(** spatial.py:68-71 *)
Definition sv_adjoint (s : SV) : res mat :=
  let* Sv := skew3 (sv_linear s) in
  let* Sw := skew3 (sv_angular s) in
  Ok (block Sw (zeros2 3 3) Sv Sw).

(** util.py:128-140 [lift6]: np.block of two rows of three blocks *)
Definition lift6 (V : SV) : res mat :=
  let a := sv_linear V in
  let b := sv_angular V in
  let* Sa := skew3 a in
  let* L := lift3 b in
  let* Sb := skew3 b in
  Ok (hstack (hstack (zeros2 3 1) (mneg Sa)) L ++ hstack (hstack (column a) Sb) (zeros2 3 6)).
