(** Independent specifications: cross product, symmetry, positive semidefiniteness, orthogonal
    matrices, eigenvalues, convex combinations, point-mass systems. *)
From Verif Require Import Base.Vec.

(** Cross product in coordinates. *)
Definition cross (a b : vec) : vec :=
  match a, b with
  | [a1; a2; a3], [b1; b2; b3] => [a2 * b3 - a3 * b2; a3 * b1 - a1 * b3; a1 * b2 - a2 * b1]
  | _, _ => []
  end.

Definition symmetric (n : nat) (M : mat) : Prop :=
  forall i j, (i < n)%nat -> (j < n)%nat -> entry M i j = entry M j i.

(** Positive semidefinite matrix. *)
Definition PSD (n : nat) (M : mat) : Prop :=
  is_mat n n M /\ symmetric n M /\ forall x, length x = n -> 0 <= quad M x.

(** Orthogonal matrix (rotation or reflection). *)
Definition orthogonal (n : nat) (Q : mat) : Prop :=
  is_mat n n Q /\ mat_mul (transpose Q) Q = eye n /\ mat_mul Q (transpose Q) = eye n.

Definition is_eigenvalue (n : nat) (M : mat) (l : R) : Prop :=
  exists x, length x = n /\ x <> zeros n /\ mat_vec M x = vscale l x.

(** Convex combinations of the rows of V. *)
Definition weights (w : vec) : Prop := (forall x, In x w -> 0 <= x) /\ lsum w = 1.
(** every row has n entries *)
Definition rows_len (n : nat) (V : mat) : Prop := forall v, In v V -> length v = n.
(** sum_i w_i V_i, coordinate by coordinate, in dimension n *)
Definition combine_rows (n : nat) (w : vec) (V : mat) : vec :=
  map (fun j => lsum (map2 (fun c v => c * nth j v 0) w V)) (seq 0 n).
Definition in_hull (n : nat) (V : mat) (p : vec) : Prop :=
  exists w, length w = length V /\ weights w /\ p = combine_rows n w V.

(** A finite system of point masses in R^3: (mass, position). *)
Definition pms := list (R * vec).
Definition pms_ok (s : pms) : Prop := forall mp, In mp s -> length (snd mp) = 3%nat.
Definition pms_nonneg (s : pms) : Prop := forall mp, In mp s -> 0 <= fst mp.
Definition pms_in (K : vec -> Prop) (s : pms) : Prop := forall mp, In mp s -> K (snd mp).
Definition pms_mass (s : pms) : R := lsum (map fst s).
Definition pms_first (s : pms) (i : nat) : R := lsum (map (fun mp => fst mp * nth i (snd mp) 0) s).
Definition pms_second (s : pms) (i j : nat) : R :=
  lsum (map (fun mp => fst mp * nth i (snd mp) 0 * nth j (snd mp) 0) s).

(** mass m, first moment h and second moment H are those of the system s. *)
Definition has_moments (s : pms) (m : R) (h : vec) (H : mat) : Prop :=
  m = pms_mass s /\
  (length h = 3%nat /\ forall i, (i < 3)%nat -> nth i h 0 = pms_first s i) /\
  (is_mat 3 3 H /\ forall i j, (i < 3)%nat -> (j < 3)%nat -> entry H i j = pms_second s i j).

(** Parameters (m, h, H) can be realized by non-negative point masses located in K. *)
Definition realizable (K : vec -> Prop) (m : R) (h : vec) (H : mat) : Prop :=
  exists s, pms_ok s /\ pms_nonneg s /\ pms_in K s /\ has_moments s m h H.

(** Rigid motion of a point. *)
Definition move (Q : mat) (t p : vec) : vec := vadd (mat_vec Q p) t.
Definition pms_move (Q : mat) (t : vec) (s : pms) : pms :=
  map (fun mp => (fst mp, move Q t (snd mp))) s.

(** Inertia of a point mass m at c, added by the parallel axis theorem. *)
Definition parallel_axis (m : R) (c : vec) : mat :=
  mscale m (msub (mscale (dot c c) (eye 3)) (outer c c)).

(** Velocity and acceleration, in the moving body frame, of the body point p for the twist
    (w, v) and spatial acceleration (al, a). *)
Definition point_velocity (w v p : vec) : vec := vadd v (cross w p).

Definition point_acceleration (w v al a p : vec) : vec :=
  vadd (vadd a (cross al p)) (cross w (point_velocity w v p)).

(** The wrench (torque about the origin, force) that Newton's law requires for the point mass. *)
Definition point_wrench (w v al a : vec) (mp : R * vec) : vec :=
  let f := vscale (fst mp) (point_acceleration w v al a (snd mp)) in
  cross (snd mp) f ++ f.

(** Spatial motion cross product of (w, v) and (w', v'). *)
Definition motion_cross (V W : vec) : vec :=
  let w := firstn 3 V in let v := skipn 3 V in let w' := firstn 3 W in let v' := skipn 3 W in
  cross w w' ++ vadd (cross v w') (cross w v').

(** x is a corner of the box with half extents h. *)
Definition is_corner (h x : vec) : Prop :=
  length x = length h /\ forall i, (i < length h)%nat -> nth i x 0 = nth i h 0 \/ nth i x 0 = - nth i h 0.

(** Triangular numbers. *)
Fixpoint tri (n : nat) : nat := match n with O => O | S m => (n + tri m)%nat end.

(** What np.linalg.eigvals promises for a matrix with real spectrum. *)
Definition eigvals_spec (n : nat) (M : mat) (eigs : vec) : Prop :=
  forall l, In l eigs <-> is_eigenvalue n M l.
