(** scripts/theory: the derivations behind the formulas of the density methods and behind the
    realizability conditions of boxes and cylinders.  Each script manipulates sympy expressions in
    the half extents; here an expression is the function of its symbols. [limit] is not computed:
    the expression under it is modelled, and the limit is stated of it. *)
From Verif Require Import Base.Vec Model.Util Model.Inertial Model.Box.

(** sympy.trace(X) * eye(3) - X *)
Definition th_dual (X : mat) : mat := msub (mscale (trace X) (eye 3)) X.
(** box_shell_inertia.py:22, ellipsoid_shell_inertia.py:29: sympy.trace(I) * eye(3) / 2 - I *)
Definition th_moment (I : mat) : mat := msub (mdivs (mscale (trace I) (eye 3)) 2) I.

(** box_shell_inertia.py:8-18, ellipsoid_shell_inertia.py:14-24: nom / den as a function of δ *)
Definition th_S (a b c : R) : mat := diag [b ^ 2 + c ^ 2; a ^ 2 + c ^ 2; a ^ 2 + b ^ 2].
Definition th_layer (a b c δ : R) : mat :=
  let a2 := a + δ in
  let b2 := b + δ in
  let c2 := c + δ in
  let nom := msub (mscale (a2 * b2 * c2) (th_S a2 b2 c2)) (mscale (a * b * c) (th_S a b c)) in
  let den := a2 * b2 * c2 - a * b * c in
  mdivs nom den.
(** ellipsoid_shell_inertia.py:7 *)
Definition th_sphere_layer (r δ : R) : R := ((r + δ) ^ 5 - r ^ 5) / ((r + δ) ^ 3 - r ^ 3).

(** box_shell_inertia.py:27-51 [box_shell_inertia_parax] *)
Definition th_shell_parax (a b c : R) : mat * mat :=
  let A1 := 2 * 4 * b * c in
  let A2 := 2 * 4 * a * c in
  let A3 := 2 * 4 * a * b in
  let A := A1 + A2 + A3 in
  let m1 := A1 / A in
  let m2 := A2 / A in
  let m3 := A3 / A in
  let E1 := diag [0; b ^ 2; c ^ 2] in
  let H1 := madd (mdivs (mscale m1 E1) 3) (mscale m1 (diag [a ^ 2; 0; 0])) in
  let E2 := diag [a ^ 2; 0; c ^ 2] in
  let H2 := madd (mdivs (mscale m2 E2) 3) (mscale m2 (diag [0; b ^ 2; 0])) in
  let E3 := diag [a ^ 2; b ^ 2; 0] in
  let H3 := madd (mdivs (mscale m3 E3) 3) (mscale m3 (diag [0; 0; c ^ 2])) in
  let H := madd (madd H1 H2) H3 in
  (H, th_dual H).

(** sympy.Add of v vᵀ / k over a list of columns *)
Definition th_sum_outer (vs : mat) (k : R) : mat :=
  fold_right madd (zeros2 3 3) (map (fun v => mdivs (outer v v) k) vs).
(** box_wireframe_inertia.py:7-45 [box_edge_inertia] *)
Definition th_edge (a b c : R) : mat * mat :=
  let L := a + b + c in
  let rxs := [[0; b; c]; [0; - b; c]; [0; b; - c]; [0; - b; - c]] in
  let Hx := mscale (a / L) (madd (mdivs (diag [a ^ 2; 0; 0]) 3) (th_sum_outer rxs 4)) in
  let rys := [[a; 0; c]; [- a; 0; c]; [a; 0; - c]; [- a; 0; - c]] in
  let Hy := mscale (b / L) (madd (mdivs (diag [0; b ^ 2; 0]) 3) (th_sum_outer rys 4)) in
  let rzs := [[a; b; 0]; [- a; b; 0]; [a; - b; 0]; [- a; - b; 0]] in
  let Hz := mscale (c / L) (madd (mdivs (diag [0; 0; c ^ 2]) 3) (th_sum_outer rzs 4)) in
  let H := madd (madd Hx Hy) Hz in
  (H, th_dual H).
(** box_vertex_inertia.py:5-20 [box_vertex_inertia] *)
Definition th_corners (a b c : R) : mat :=
  [[a; b; c]; [a; b; - c]; [a; - b; c]; [a; - b; - c];
   [- a; b; c]; [- a; b; - c]; [- a; - b; c]; [- a; - b; - c]].
Definition th_vertex (a b c : R) : mat * mat :=
  let H := th_sum_outer (th_corners a b c) 8 in
  (H, th_dual H).

(** cuboid_density_realizability_proof.py:13-36: vertices with a 1 appended and the matrix A *)
Definition th_cuboid_vertices (rx ry rz : R) : mat := map (fun v => v ++ [1]) (th_corners rx ry rz).
Definition th_cuboid_column (v : vec) : vec :=
  let V := outer v v in
  let e i j := nth j (nth i V []) 0 in
  [e 0%nat 1%nat; e 0%nat 2%nat; e 1%nat 2%nat; e 0%nat 3%nat; e 1%nat 3%nat; e 2%nat 3%nat; e 3%nat 3%nat].
Definition th_cuboid_A (rx ry rz : R) : mat := transpose (map th_cuboid_column (th_cuboid_vertices rx ry rz)).
(** lines 43-54 [φ] *)
Definition th_cuboid_phi (rx ry rz x y z : R) : vec :=
  vdivs [(rx + x) * (ry + y) * (rz + z); (rx + x) * (ry + y) * (rz - z);
         (rx + x) * (ry - y) * (rz + z); (rx + x) * (ry - y) * (rz - z);
         (rx - x) * (ry + y) * (rz + z); (rx - x) * (ry + y) * (rz - z);
         (rx - x) * (ry - y) * (rz + z); (rx - x) * (ry - y) * (rz - z)] (8 * rx * ry * rz).
(** lines 56-64 [μ]: each entry of ρ φ is expanded into monomials of x, y, z and the monomials are
    replaced: ρ x y z by α, ρ x y by Hxy, ..., ρ x by hx, ..., ρ by m.  The expansion of the product
    (rx + s x) (ry + t y) (rz + u z) for signs s, t, u is written out here. *)
Definition th_cuboid_subst (rx ry rz Hxy Hxz Hyz hx hy hz m α s t u : R) : R :=
  (m * rx * ry * rz + s * hx * ry * rz + t * hy * rx * rz + u * hz * rx * ry
   + s * t * Hxy * rz + s * u * Hxz * ry + t * u * Hyz * rx + s * t * u * α) / (8 * rx * ry * rz).
Definition th_cuboid_mu (rx ry rz Hxy Hxz Hyz hx hy hz m α : R) : vec :=
  let e := th_cuboid_subst rx ry rz Hxy Hxz Hyz hx hy hz m α in
  [e 1 1 1; e 1 1 (-1); e 1 (-1) 1; e 1 (-1) (-1); e (-1) 1 1; e (-1) 1 (-1); e (-1) (-1) 1; e (-1) (-1) (-1)].

(** cylinder_density_realizability_proof.py:12-18 *)
Definition th_cylinder_P (rz px py pz : R) : mat :=
  let q1 := [px; py; rz; 1] in
  let q2 := [px; py; - rz; 1] in
  mdivs (madd (mscale (rz + pz) (outer q1 q1)) (mscale (rz - pz) (outer q2 q2))) (2 * rz).
