(** Mass distributions given by integrals (Riemann integrals of Coquelicot). *)
From Coquelicot Require Hierarchy RInt Derive.
From Verif Require Import Base.Vec Spec.Basic Spec.Shapes Spec.Objects Model.Inertial.

(** the integral of f from a to b exists and is I *)
Definition integral (f : R -> R) (a b I : R) : Prop := @RInt.is_RInt Hierarchy.R_NormedModule f a b I.
(** iterated integrals over {a <= x <= b, lo x <= y <= hi x} and
    {a <= x <= b, lo x <= y <= hi x, lo' x y <= z <= hi' x y} *)
Definition integral2 (a b : R) (lo hi : R -> R) (f : R -> R -> R) (I : R) : Prop :=
  exists F, (forall x, a <= x <= b -> integral (f x) (lo x) (hi x) (F x)) /\ integral F a b I.
Definition integral3 (a b : R) (lo hi : R -> R) (lo' hi' : R -> R -> R) (f : R -> R -> R -> R) (I : R) : Prop :=
  exists F, (forall x, a <= x <= b -> integral2 (lo x) (hi x) (lo' x) (hi' x) (f x) (F x)) /\ integral F a b I.
(** I is a sum of integrals *)
Fixpoint sum_of (l : list (R -> Prop)) (I : R) : Prop :=
  match l with [] => I = 0 | P :: l => exists I1 I2, P I1 /\ sum_of l I2 /\ I = I1 + I2 end.

(** [D f I]: the integral of f over the domain D exists and is I *)
Notation domain := ((vec -> R) -> R -> Prop).

(** the solid box, its six faces and its twelve edges, in the frame of the box *)
Definition box_volume (h : vec) : domain := fun f I =>
  match h with
  | [x; y; z] => integral3 (- x) x (fun _ => - y) (fun _ => y) (fun _ _ => - z) (fun _ _ => z) (fun a b c => f [a; b; c]) I
  | _ => False
  end.
Definition box_shell (h : vec) : domain := fun f I =>
  match h with
  | [x; y; z] =>
      let face w w' g := integral2 (- w) w (fun _ => - w') (fun _ => w') g in
      sum_of [face y z (fun b c => f [x; b; c]); face y z (fun b c => f [- x; b; c]);
              face x z (fun a c => f [a; y; c]); face x z (fun a c => f [a; - y; c]);
              face x y (fun a b => f [a; b; z]); face x y (fun a b => f [a; b; - z])] I
  | _ => False
  end.
Definition box_frame (h : vec) : domain := fun f I =>
  match h with
  | [x; y; z] =>
      let edge w g := integral g (- w) w in
      sum_of [edge x (fun a => f [a; y; z]); edge x (fun a => f [a; y; - z]); edge x (fun a => f [a; - y; z]); edge x (fun a => f [a; - y; - z]);
              edge y (fun b => f [x; b; z]); edge y (fun b => f [x; b; - z]); edge y (fun b => f [- x; b; z]); edge y (fun b => f [- x; b; - z]);
              edge z (fun c => f [x; y; c]); edge z (fun c => f [x; - y; c]); edge z (fun c => f [- x; y; c]); edge z (fun c => f [- x; - y; c])] I
  | _ => False
  end.
(** the solid cylinder about the third axis *)
Definition cyl_volume (L r : R) : domain := fun f I =>
  integral3 (- (L / 2)) (L / 2) (fun _ => - r) (fun _ => r) (fun _ x => - sqrt (r * r - x * x)) (fun _ x => sqrt (r * r - x * x))
    (fun z x y => f [x; y; z]) I.
(** the solid ellipsoid *)
Definition ell_volume (h : vec) : domain := fun f I =>
  match h with
  | [x; y; z] =>
      integral3 (- x) x (fun a => - (y * sqrt (1 - (a / x) ^ 2))) (fun a => y * sqrt (1 - (a / x) ^ 2))
        (fun a b => - (z * sqrt (1 - (a / x) ^ 2 - (b / y) ^ 2))) (fun a b => z * sqrt (1 - (a / x) ^ 2 - (b / y) ^ 2))
        (fun a b c => f [a; b; c]) I
  | _ => False
  end.
(** the surface of the ellipsoid: points with u between -1 and 1 and angle phi between 0 and 2 pi,
    and the area element, which is the length of the cross product of the two derivatives *)
Definition ell_point (h : vec) (u phi : R) : vec :=
  vmul h [sqrt (1 - u * u) * cos phi; sqrt (1 - u * u) * sin phi; u].
Definition ell_area (h : vec) (u phi : R) : R :=
  match h with
  | [x; y; z] => sqrt ((y * z) ^ 2 * ((1 - u * u) * cos phi ^ 2) + (x * z) ^ 2 * ((1 - u * u) * sin phi ^ 2) + (x * y) ^ 2 * u ^ 2)
  | _ => 0
  end.
Definition ell_surface (h : vec) : domain := fun f I =>
  integral2 (-1) 1 (fun _ => 0) (fun _ => 2 * PI) (fun u phi => f (ell_point h u phi) * ell_area h u phi) I.

(** derivative of a curve *)
Definition curve_derivative (g : R -> vec) (t : R) (v : vec) : Prop :=
  length v = 3%nat /\ forall i, (i < 3)%nat ->
    @Derive.is_derive Hierarchy.R_AbsRing Hierarchy.R_NormedModule (fun s => nth i (g s) 0) t (nth i v 0).

(** p are the parameters of a body of mass m spread uniformly over the domain D, the material point
    u of which is located at move Q c u *)
Definition uniform_mass (D : domain) (m : R) (Q : mat) (c : vec) (p : IP) : Prop :=
  ip_mass p = m /\ exists V, 0 < V /\ D (fun _ => 1) V /\
  (forall i, (i < 3)%nat -> exists X, D (fun u => nth i (move Q c u) 0) X /\ nth i (vscale (ip_mass p) (ip_com p)) 0 = m * (X / V)) /\
  (forall i j, (i < 3)%nat -> (j < 3)%nat ->
     exists X, D (fun u => nth i (move Q c u) 0 * nth j (move Q c u) 0) X /\ entry (ip_H p) i j = m * (X / V)).

(** the domain stretched along the axes *)
Definition stretch (h : vec) (D : domain) : domain := fun f I => D (fun u => f (vmul h u)) I.
(** a flat elliptic plate in the plane of the first two axes *)
Definition plate (x y : R) : domain := fun f I =>
  integral2 (- x) x (fun a => - (y * sqrt (1 - (a / x) ^ 2))) (fun a => y * sqrt (1 - (a / x) ^ 2)) (fun a b => f [a; b; 0]) I.

(** p is a consistent parameter object of mass m and centre of mass c which non-negative point
    masses in K have *)
Definition sound_params (K : vec -> Prop) (m : R) (c : vec) (p : IP) : Prop :=
  ip_ok p /\ ip_mass p = m /\ ip_com p = c /\ symmetric 3 (ip_H p) /\ PSD 4 (ip_J p) /\ realizable K (ip_mass p) (ip_h p) (ip_H p).
(** a domain over which every integrand has at most one integral *)
Definition functional (D : domain) : Prop := forall f I I', D f I -> D f I' -> I = I'.
