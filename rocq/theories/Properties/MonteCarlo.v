(** Property C101: the scripts that compare sampled and analytical inertia matrices of boxes.  Over independent
    draws the sampled matrix has the analytical one as its mean, and its mean squared error is inversely
    proportional to the number of samples. *)
From Verif Require Import Base.Vec Model.Util Model.Inertial Model.Polydd Model.Poly Model.Box Model.Random Model.MonteCarlo
  Spec.Basic Spec.Shapes Spec.Integrals Spec.RandomSpec Spec.Expect Proofs.MonteCarloR.

(** * box_shell_inertia_monte_carlo.py *)
Theorem C101_shell : forall h b i j,
  box_init h None None = Ok b ->
  0 < nth 0 h 0 * nth 1 h 0 + nth 0 h 0 * nth 2 h 0 + nth 1 h 0 * nth 2 h 0 -> (i < 3)%nat -> (j < 3)%nat ->
  exists I V, mc_shell_pred h = Ok I /\ 0 <= V <= dot h h ^ 2 /\ forall n sh, (2 <= n)%nat -> shuffles sh ->
    estimates (box_face_pvals b) n (rows_of n 3 (uniform_draw (-1) 1)) (mean_rows 3 n) (fun counts U => mc_shell h n U counts sh) i j (entry I i j) (V / INR n).
Proof. exact shell_estimates. Qed.
Print Assumptions C101_shell.
(** * box_wireframe_inertia_monte_carlo.py *)
Theorem C101_wireframe : forall h b i j,
  box_init h None None = Ok b -> 0 < nth 0 h 0 + nth 1 h 0 + nth 2 h 0 -> (i < 3)%nat -> (j < 3)%nat ->
  exists I V, mc_wireframe_pred h = Ok I /\ 0 <= V <= dot h h ^ 2 /\ forall n sh, (1 <= n)%nat -> shuffles sh ->
    estimates (box_edge_pvals b) n (draws_of n (uniform_draw (-1) 1)) (mean_u n) (fun counts u => mc_wireframe h n u counts sh) i j (entry I i j) (V / INR n).
Proof. exact wireframe_estimates. Qed.
Print Assumptions C101_wireframe.
(** * the solid box *)
Theorem C101_solid : forall h b i j,
  box_init h None None = Ok b -> (i < 3)%nat -> (j < 3)%nat ->
  exists I V, mc_solid_pred h = Ok I /\ 0 <= V <= dot h h ^ 2 /\ forall n, (1 <= n)%nat ->
    estimates [1] n (rows_of n 3 (uniform_draw (-1) 1)) (mean_rows 3 n) (fun _ U => mc_solid h n U) i j (entry I i j) (V / INR n).
Proof. exact solid_estimates. Qed.
Print Assumptions C101_solid.
(** * mean and mean squared error are determined by the program *)
Theorem C101_unique_rows : forall pv n run i j t v t' v',
  estimates pv n (rows_of n 3 (uniform_draw (-1) 1)) (mean_rows 3 n) run i j t v ->
  estimates pv n (rows_of n 3 (uniform_draw (-1) 1)) (mean_rows 3 n) run i j t' v' -> t = t' /\ v = v'.
Proof. exact shell_unique. Qed.
Print Assumptions C101_unique_rows.
Theorem C101_unique_draws : forall pv n run i j t v t' v',
  estimates pv n (draws_of n (uniform_draw (-1) 1)) (mean_u n) run i j t v ->
  estimates pv n (draws_of n (uniform_draw (-1) 1)) (mean_u n) run i j t' v' -> t = t' /\ v = v'.
Proof. exact wireframe_unique. Qed.
Print Assumptions C101_unique_draws.
(** * where the scripts fail *)
Theorem C101_shell_fails : forall h b U counts sh,
  box_init h None None = Ok b ->
  (0 < nth 0 h 0 * nth 1 h 0 + nth 0 h 0 * nth 2 h 0 + nth 1 h 0 * nth 2 h 0 -> mc_shell h 1 U counts sh = Raise IndexError) /\
  (0 < nth 0 h 0 * nth 1 h 0 + nth 0 h 0 * nth 2 h 0 + nth 1 h 0 * nth 2 h 0 -> mc_shell h 0 U counts sh = NonFinite) /\
  (nth 0 h 0 * nth 1 h 0 + nth 0 h 0 * nth 2 h 0 + nth 1 h 0 * nth 2 h 0 = 0 -> forall n, mc_shell h n U counts sh = Raise ValueError).
Proof. exact shell_fails. Qed.
Print Assumptions C101_shell_fails.
Theorem C101_wireframe_fails : forall h b u counts sh,
  box_init h None None = Ok b ->
  (0 < nth 0 h 0 + nth 1 h 0 + nth 2 h 0 -> mc_wireframe h 0 u counts sh = NonFinite) /\
  (nth 0 h 0 + nth 1 h 0 + nth 2 h 0 = 0 -> forall n, mc_wireframe h n u counts sh = Raise ValueError).
Proof. exact wireframe_fails. Qed.
Print Assumptions C101_wireframe_fails.
Example C101_example : exists b, box_init [1; 3 / 4; 1 / 2] None None = Ok b /\
  mc_shell_pred [1; 3 / 4; 1 / 2] = Ok [[289 / 624; 0; 0]; [0; 101 / 156; 0]; [0; 0; 493 / 624]] /\
  mc_wireframe_pred [1; 3 / 4; 1 / 2] = Ok [[281 / 432; 0; 0]; [0; 11 / 12; 0]; [0; 0; 493 / 432]] /\
  dot [1; 3 / 4; 1 / 2] [1; 3 / 4; 1 / 2] = 29 / 16 /\ shuffles (@rev vec).
Proof. exact script_box. Qed.
