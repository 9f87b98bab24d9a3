(** Model of the scripts that compare a sampled inertia matrix with the analytical one. *)
From Verif Require Import Base.Vec Model.Util Model.Polydd Model.Poly Model.Inertial Model.Box Model.Random.

(** scripts/examples/box_shell_inertia_monte_carlo.py:20-21 and
    scripts/examples/box_wireframe_inertia_monte_carlo.py:20-21; for N = 0 the quotient is nan *)
Definition sampled_inertia (n : nat) (points : mat) : res mat :=
  if Nat.eqb n 0 then NonFinite
  else
    let H := mdivs (mat_mul (transpose points) points) (INR n) in
    Ok (msub (mscale (trace H) (eye 3)) H).
(** box_shell_inertia_monte_carlo.py:16-21; the draws are arguments as in Model/Random.v.  The
    half extents and N are literals in the script and arguments here. *)
Definition mc_shell (h : vec) (n : nat) (U : mat) (counts : list nat) (shuffle : mat -> mat) : res mat :=
  let* b := box_init h None None in
  let* points := box_random_points_on_surface b n U counts shuffle in
  sampled_inertia n points.
(** box.py:177-219 with the three uniform draws, whose sizes are idx[4], idx[8] - idx[4] and
    idx[12] - idx[8] (box.py:197-213), taken in order from [u] *)
Definition edge_points_from (b : Box) (n : nat) (u : vec) (counts : list nat) (shuffle : mat -> mat) : res mat :=
  let idx := cumsum (0%nat :: counts) in
  let i4 := nth 4 idx 0%nat in
  let i8 := nth 8 idx 0%nat in
  box_random_points_on_edges b n counts (firstn i4 u) (firstn (i8 - i4) (skipn i4 u)) (skipn i8 u) shuffle.
(** box_wireframe_inertia_monte_carlo.py:16-21 *)
Definition mc_wireframe (h : vec) (n : nat) (u : vec) (counts : list nat) (shuffle : mat -> mat) : res mat :=
  let* b := box_init h None None in
  let* points := edge_points_from b n u counts shuffle in
  sampled_inertia n points.
(** box_shell_inertia_monte_carlo.py:24-25 and box_wireframe_inertia_monte_carlo.py:24-25 *)
Definition mc_shell_pred (h : vec) : res mat :=
  let* b := box_init h None None in
  let* p := box_hollow_density_params b 1 in ip_I p.
Definition mc_wireframe_pred (h : vec) : res mat :=
  let* b := box_init h None None in
  let* p := box_wireframe_density_params b 1 in ip_I p.
(** the same comparison for points in the solid box; no script does this *)
Definition mc_solid (h : vec) (n : nat) (U : mat) : res mat :=
  let* b := box_init h None None in sampled_inertia n (box_random_points b U).
Definition mc_solid_pred (h : vec) : res mat :=
  let* b := box_init h None None in
  let* p := box_uniform_density_params b 1 in ip_I p.
