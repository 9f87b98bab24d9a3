(** Property C100: the derivations of scripts/theory, which justify the formulas of the density methods and the
    realizability conditions of boxes and cylinders. *)
From Verif Require Import Base.Vec Model.Util Model.Inertial Model.Polydd Model.Poly Model.Ellipsoid Model.Box Model.Theory
  Spec.Basic Spec.Objects Spec.Shapes Spec.ShapeObjects Spec.Realizable Spec.Samples Spec.Limit Proofs.TheoryQ Proofs.TheoryR.

(** * hollow shapes are limits of thin layers: the layer of mass m between a shape and the one with half extents
    larger by d has parameters that, added to those of the inner solid, give the outer solid *)
Theorem C100_box_layer : forall a b c ce r B m,
  box_init [a; b; c] ce r = Ok B -> 0 < a -> 0 < b -> 0 < c -> 0 < m ->
  exists layer p, box_hollow_density_params B m = Ok p /\ mat_tends_to_0r 4 4 (fun d => ip_J (layer d)) (ip_J p) /\
  forall d, 0 < d -> exists B2 q1 q2, box_init [a + d; b + d; c + d] ce r = Ok B2 /\
    0 < b_volume B2 - b_volume B /\
    box_uniform_density_params B (m * b_volume B / (b_volume B2 - b_volume B)) = Ok q1 /\
    box_uniform_density_params B2 (m * b_volume B2 / (b_volume B2 - b_volume B)) = Ok q2 /\
    ip_mass (layer d) = m /\ ip_add (layer d) q1 = Ok q2.
Proof. exact box_layer. Qed.
Print Assumptions C100_box_layer.
Theorem C100_ellipsoid_layer : forall a b c ce r B m,
  ell_init [a; b; c] r ce = Ok B -> 0 < a -> 0 < b -> 0 < c -> 0 < m ->
  exists layer p, ell_hollow_density_params B m = Ok p /\ mat_tends_to_0r 4 4 (fun d => ip_J (layer d)) (ip_J p) /\
  forall d, 0 < d -> exists B2 q1 q2, ell_init [a + d; b + d; c + d] r ce = Ok B2 /\
    0 < e_volume B2 - e_volume B /\
    ell_uniform_density_params B (m * e_volume B / (e_volume B2 - e_volume B)) = Ok q1 /\
    ell_uniform_density_params B2 (m * e_volume B2 / (e_volume B2 - e_volume B)) = Ok q2 /\
    ip_mass (layer d) = m /\ ip_add (layer d) q1 = Ok q2.
Proof. exact ell_layer. Qed.
Print Assumptions C100_ellipsoid_layer.
(** * box_shell_inertia.py *)
Theorem C100_box_shell : forall a b c B,
  box_init [a; b; c] None None = Ok B -> 0 < a * b + a * c + b * c ->
  exists p I, box_hollow_density_params B 1 = Ok p /\ ip_I p = Ok I /\ mat_tends_to_0r 3 3 (fun d => mdivs (th_layer a b c d) 3) I /\
    th_moment I = ip_H p /\ th_shell_parax a b c = (ip_H p, I).
Proof. exact box_shell_script. Qed.
Print Assumptions C100_box_shell.
(** * ellipsoid_shell_inertia.py *)
Theorem C100_ellipsoid_shell : forall a b c B,
  ell_init [a; b; c] None None = Ok B -> 0 < a * b + a * c + b * c ->
  exists p I, ell_hollow_density_params B 1 = Ok p /\ ip_I p = Ok I /\ mat_tends_to_0r 3 3 (fun d => mdivs (th_layer a b c d) 5) I /\
    th_moment I = ip_H p.
Proof. exact ell_shell_script. Qed.
Print Assumptions C100_ellipsoid_shell.
Theorem C100_sphere_limit : forall r,
  0 < r -> tends_to_0r (th_sphere_layer r) (5 * r ^ 2 / 3).
Proof. exact sphere_layer_limit. Qed.
Print Assumptions C100_sphere_limit.
Theorem C100_sphere_shell : forall r B,
  ell_init [r; r; r] None None = Ok B -> 0 < r ->
  exists p l, ell_hollow_density_params B 1 = Ok p /\ tends_to_0r (th_sphere_layer r) l /\ ip_I p = Ok (mscale (2 / 5 * l) (eye 3)) /\ ip_H p = mscale (r ^ 2 / 3) (eye 3).
Proof. exact sphere_shell_script. Qed.
Print Assumptions C100_sphere_shell.
(** * box_wireframe_inertia.py and box_vertex_inertia.py *)
Theorem C100_box_edges : forall a b c B,
  box_init [a; b; c] None None = Ok B -> 0 < a + b + c ->
  exists p I, box_wireframe_density_params B 1 = Ok p /\ ip_I p = Ok I /\ th_edge a b c = (ip_H p, I).
Proof. exact edge_script. Qed.
Print Assumptions C100_box_edges.
Theorem C100_box_vertices : forall a b c B,
  box_init [a; b; c] None None = Ok B ->
  th_corners a b c = b_vertices B /\
  (let s := map (fun v => (1 / 8, v)) (b_vertices B) in
   is_mat 3 3 (fst (th_vertex a b c)) /\ (forall i j, (i < 3)%nat -> (j < 3)%nat -> entry (fst (th_vertex a b c)) i j = pms_second s i j) /\
   pms_mass s = 1) /\
  fst (th_vertex a b c) = diag [a ^ 2; b ^ 2; c ^ 2] /\ H2I (fst (th_vertex a b c)) = Ok (snd (th_vertex a b c)).
Proof. exact vertex_script. Qed.
Print Assumptions C100_box_vertices.
Theorem C100_cubes : forall r B,
  box_init [r; r; r] None None = Ok B -> 0 < r ->
  (exists p, box_uniform_density_params B 1 = Ok p /\ ip_H p = mscale (r ^ 2 * 3 / 9) (eye 3)) /\
  (exists p, box_hollow_density_params B 1 = Ok p /\ ip_H p = mscale (r ^ 2 * 5 / 9) (eye 3)) /\
  (exists p, box_wireframe_density_params B 1 = Ok p /\ ip_H p = mscale (r ^ 2 * 7 / 9) (eye 3)) /\
  fst (th_vertex r r r) = mscale (r ^ 2 * 9 / 9) (eye 3).
Proof. exact cubes. Qed.
Print Assumptions C100_cubes.
(** * cuboid_density_realizability_proof.py *)
Theorem C100_cuboid_solution : forall rx ry rz Hxy Hxz Hyz hx hy hz m al,
  0 < rx -> 0 < ry -> 0 < rz ->
  mat_vec (th_cuboid_A rx ry rz) (th_cuboid_mu rx ry rz Hxy Hxz Hyz hx hy hz m al) = [Hxy; Hxz; Hyz; hx; hy; hz; m].
Proof. exact cuboid_script. Qed.
Print Assumptions C100_cuboid_solution.
Theorem C100_cuboid_weights : forall rx ry rz x y z,
  0 < rx -> 0 < ry -> 0 < rz -> box_set [rx; ry; rz] (eye 3) (zeros 3) [x; y; z] ->
  let t := combine (th_cuboid_phi rx ry rz x y z) (th_corners rx ry rz) in
  length t = 8%nat /\ pms_nonneg t /\ pms_mass t = 1 /\ (forall i, (i < 3)%nat -> pms_first t i = nth i [x; y; z] 0) /\
  mat_vec (th_cuboid_A rx ry rz) (th_cuboid_phi rx ry rz x y z) = [x * y; x * z; y * z; x; y; z; 1].
Proof. exact phi_script. Qed.
Print Assumptions C100_cuboid_weights.
Theorem C100_cuboid_weights_sum : forall rx ry rz s i,
  0 < rx -> 0 < ry -> 0 < rz -> pms_ok s ->
  nth i (th_cuboid_mu rx ry rz (pms_second s 0 1) (pms_second s 0 2) (pms_second s 1 2) (pms_first s 0) (pms_first s 1) (pms_first s 2) (pms_mass s)
    (lsum (map (fun mp => fst mp * nth 0 (snd mp) 0 * nth 1 (snd mp) 0 * nth 2 (snd mp) 0) s))) 0 =
  lsum (map (fun mp => fst mp * nth i (th_cuboid_phi rx ry rz (nth 0 (snd mp) 0) (nth 1 (snd mp) 0) (nth 2 (snd mp) 0)) 0) s).
Proof. exact phi_sum. Qed.
Print Assumptions C100_cuboid_weights_sum.
Theorem C100_cuboid_masses : forall rx ry rz s,
  0 < rx -> 0 < ry -> 0 < rz -> pms_ok s -> pms_nonneg s -> pms_in (box_set [rx; ry; rz] (eye 3) (zeros 3)) s ->
  let mu := th_cuboid_mu rx ry rz (pms_second s 0 1) (pms_second s 0 2) (pms_second s 1 2) (pms_first s 0) (pms_first s 1) (pms_first s 2) (pms_mass s)
    (lsum (map (fun mp => fst mp * nth 0 (snd mp) 0 * nth 1 (snd mp) 0 * nth 2 (snd mp) 0) s)) in
  let t := combine mu (th_corners rx ry rz) in
  length mu = 8%nat /\ pms_nonneg t /\ pms_mass t = pms_mass s /\
  (forall i, (i < 3)%nat -> pms_first t i = pms_first s i) /\
  (forall i j, (i < 3)%nat -> (j < 3)%nat -> i <> j -> pms_second t i j = pms_second s i j) /\
  (forall i, (i < 3)%nat -> pms_second s i i <= pms_second t i i /\ pms_second t i i = pms_mass s * nth i [rx; ry; rz] 0 ^ 2).
Proof. exact cuboid_certificate. Qed.
Print Assumptions C100_cuboid_masses.
(** * cylinder_density_realizability_proof.py *)
Theorem C100_cylinder_masses : forall rz px py pz,
  0 < rz -> - rz <= pz <= rz ->
  let s := [((rz + pz) / (2 * rz), [px; py; rz]); ((rz - pz) / (2 * rz), [px; py; - rz])] in
  pms_nonneg s /\ pim_of s (th_cylinder_P rz px py pz) /\
  forall i j, (i < 4)%nat -> (j < 4)%nat ->
    entry (th_cylinder_P rz px py pz) i j = if Nat.eqb i 2 && Nat.eqb j 2 then rz ^ 2 else nth i [px; py; pz; 1] 0 * nth j [px; py; pz; 1] 0.
Proof. exact cylinder_script. Qed.
Print Assumptions C100_cylinder_masses.
Example C100_example : exists b e b0 e0, box_init [1; 2; 3] (Some t0) (Some Q0) = Ok b /\ ell_init [1; 2; 3] (Some Q0) (Some t0) = Ok e /\
  box_init [1; 2; 3] None None = Ok b0 /\ ell_init [2; 2; 2] None None = Ok e0 /\
  (exists s, pms_ok s /\ pms_nonneg s /\ pms_in (box_set [1; 2; 3] (eye 3) (zeros 3)) s /\ pms_mass s = 3 /\ pms_second s 0 1 = 2) /\
  0 < 3 /\ - 3 <= -1 <= 3.
Proof. exact theory_case. Qed.
