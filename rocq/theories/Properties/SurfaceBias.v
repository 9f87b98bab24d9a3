(** Property C108: Box.random_points_on_surface applies the pose twice (C39).  This states by how much the
    mean of its points differs from the mean over the surface, which is the centre of the box. *)
From Verif Require Import Base.Vec Model.Util Model.Inertial Model.Polydd Model.Poly Model.Box Model.Random Model.MonteCarlo
  Spec.Basic Spec.Shapes Spec.ShapeObjects Spec.Integrals Spec.RandomSpec Spec.Expect Proofs.BiasP.

(** * the mean over the surface *)
Theorem C108_surface_mean : forall h c r b i,
  box_init h c r = Ok b -> (forall j, (j < 3)%nat -> 0 < nth j h 0) -> (i < 3)%nat ->
  exists A, 0 < A /\ box_shell h (fun _ => 1) A /\ box_shell h (fun u => nth i (move (pose_rot 3 r) (pose_tr 3 c) u) 0) (nth i (pose_tr 3 c) 0 * A).
Proof. exact surface_centre. Qed.
Print Assumptions C108_surface_mean.
(** * the mean of the sampled points; the entry j of w is the share of the faces that are not normal to axis j *)
Theorem C108_sampled_mean : forall h c r b i,
  box_init h c r = Ok b -> (forall j, (j < 3)%nat -> 0 < nth j h 0) -> (i < 3)%nat ->
  let Q := pose_rot 3 r in let t := pose_tr 3 c in
  let x := nth 0 h 0 in let y := nth 1 h 0 in let z := nth 2 h 0 in let S := y * z + x * z + x * y in
  let w := [(x * z + x * y) / S; (y * z + x * y) / S; (y * z + x * z) / S] in
  forall n sh, (2 <= n)%nat -> shuffles sh -> exists v,
    estimates_of (box_face_pvals b) n (rows_of n 3 (uniform_draw (-1) 1)) (mean_rows 3 n)
      (fun counts U => box_random_points_on_surface b n U counts sh) (average (fun p => nth i p 0)) (nth i (move Q t (vmul w t)) 0) v.
Proof. exact surface_bias. Qed.
Print Assumptions C108_sampled_mean.
(** * a translated box: the sampler is biased in every coordinate in which the box is translated *)
Theorem C108_translated : forall h c b i n sh m v,
  box_init h (Some c) None = Ok b -> (forall j, (j < 3)%nat -> 0 < nth j h 0) -> (i < 3)%nat -> (2 <= n)%nat -> shuffles sh ->
  estimates_of (box_face_pvals b) n (rows_of n 3 (uniform_draw (-1) 1)) (mean_rows 3 n)
    (fun counts U => box_random_points_on_surface b n U counts sh) (average (fun p => nth i p 0)) m v ->
  (nth i c 0 <> 0 -> m <> nth i c 0) /\ (nth i c 0 = 0 -> m = 0).
Proof. exact translated_bias. Qed.
Print Assumptions C108_translated.
Example C108_example : exists b v, box_init [1; 2; 3] (Some [1; 0; 2]) None = Ok b /\ shuffles (@rev vec) /\
  estimates_of (box_face_pvals b) 5 (rows_of 5 3 (uniform_draw (-1) 1)) (mean_rows 3 5)
    (fun counts U => box_random_points_on_surface b 5 U counts (@rev vec)) (average (fun p => nth 0 p 0)) (16 / 11) v.
Proof. exact bias_case. Qed.
