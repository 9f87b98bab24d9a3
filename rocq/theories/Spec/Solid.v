(** The solid ellipsoid and the solid cylinder in polar coordinates. *)
From Verif Require Import Base.Vec Spec.Basic Spec.Shapes Spec.ShapeObjects Spec.Integrals Spec.RandomSpec.

(** the point with radius rho between 0 and 1 on the way from the centre to a point of the surface *)
Definition solid_point (h : vec) (u phi rho : R) : vec := vscale rho (ell_point h u phi).
(** the volume element: the determinant of the three derivatives *)
Definition solid_element (h : vec) (rho : R) : R := nth 0 h 0 * nth 1 h 0 * nth 2 h 0 * rho ^ 2.
Definition ell_solid (h : vec) : domain := fun f I =>
  integral3 (-1) 1 (fun _ => 0) (fun _ => 2 * PI) (fun _ _ => 0) (fun _ _ => 1)
    (fun u phi rho => f (solid_point h u phi rho) * solid_element h rho) I.
(** the solid cylinder about the third axis *)
Definition polar_point (rho phi z : R) : vec := [rho * cos phi; rho * sin phi; z].
Definition cyl_solid (L r : R) : domain := fun f I =>
  integral3 (- (L / 2)) (L / 2) (fun _ => 0) (fun _ => 2 * PI) (fun _ _ => 0) (fun _ _ => r)
    (fun z phi rho => f (polar_point rho phi z) * rho) I.
(** the mean of F over z uniform on [-1/2, 1/2), an azimuth phi uniform on [0, 2 PI] and v uniform on
    [0, 1), independent of each other, exists and is I *)
Definition polar_mean (F : R -> R -> R -> R) (I : R) : Prop :=
  exists H, (forall z phi, - (1 / 2) <= z <= 1 / 2 -> 0 <= phi <= 2 * PI -> integral (F z phi) 0 1 (H z phi)) /\
    integral2 (- (1 / 2)) (1 / 2) (fun _ => 0) (fun _ => 2 * PI) H (2 * PI * I).
(** the symmetric matrix R diag(h) R^T, which takes the unit ball to the ellipsoid with half extents h and rotation R *)
Notation stretch h r := (mat_mul (mat_mul (pose_rot 3 r) (diag h)) (transpose (pose_rot 3 r))).
