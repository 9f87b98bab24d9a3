(** Point sets of the shapes, stated without reference to how the code stores or tests them. *)
From Verif Require Import Base.Vec Spec.Basic.

(** u_i between -h_i and h_i *)
Definition in_cube (h u : vec) : Prop :=
  length u = length h /\ forall i, (i < length h)%nat -> Rabs (nth i u 0) <= nth i h 0.
(** the box with half extents h, orientation Q and centre c *)
Definition box_set (h : vec) (Q : mat) (c p : vec) : Prop :=
  exists u, in_cube h u /\ p = move Q c u.
(** the image of the closed unit ball under u |-> Q (h o u) + c *)
Definition ell_set (h : vec) (Q : mat) (c p : vec) : Prop :=
  exists u, length u = length h /\ dot u u <= 1 /\ p = move Q c (vmul h u).
(** the image of the unit sphere *)
Definition ell_boundary (h : vec) (Q : mat) (c p : vec) : Prop :=
  exists u, length u = length h /\ dot u u = 1 /\ p = move Q c (vmul h u).
(** solid cylinder of length L and radius r about the third axis of Q *)
Definition cyl_set (L r : R) (Q : mat) (c p : vec) : Prop :=
  exists x y z, x * x + y * y <= r * r /\ Rabs z <= L / 2 /\ p = move Q c [x; y; z].
(** points of the segment from a to b *)
Definition segment (a b q : vec) : Prop :=
  exists s, 0 <= s <= 1 /\ q = vadd (vscale (1 - s) a) (vscale s b).
(** points within distance r of the segment from a to b *)
Definition caps_set (a b : vec) (r : R) (p : vec) : Prop :=
  exists q, segment a b q /\ norm (vsub p q) <= r.
(** {x : A x <= b} *)
Definition halfspaces (A : mat) (b x : vec) : Prop :=
  forall i, (i < length A)%nat -> dot (nth i A []) x <= nth i b 0.
(** conv(V) + cone(W) *)
Definition cone (n : nat) (W : mat) (q : vec) : Prop :=
  exists w, length w = length W /\ (forall x, In x w -> 0 <= x) /\ q = combine_rows n w W.
Definition hull_cone (n : nat) (V W : mat) (p : vec) : Prop :=
  exists a q, in_hull n V a /\ cone n W q /\ p = vadd a q.
(** convex sets *)
Definition convex (K : vec -> Prop) : Prop :=
  forall p q t, length p = length q -> K p -> K q -> 0 <= t <= 1 ->
  K (vadd (vscale (1 - t) p) (vscale t q)).

(** What np.linalg.eigh promises for a symmetric matrix: M V = V diag(w) with V orthogonal (no
    order or normal form of the eigenvectors is assumed). *)
Definition eigh_spec (n : nat) (M : mat) (wV : vec * mat) : Prop :=
  length (fst wV) = n /\ orthogonal n (snd wV) /\ mat_mul M (snd wV) = mat_mul (snd wV) (diag (fst wV)).
(** What np.linalg.lstsq promises when A x = y has a solution. *)
Definition lstsq_spec (A : mat) (y x : vec) : Prop :=
  length x = ncols A /\ ((exists x', length x' = ncols A /\ mat_vec A x' = y) -> mat_vec A x = y).

(** numpy's default absolute tolerance 1e-8 separates zero from non-zero half extents in the code *)
(** every half extent is 0 or larger than 1e-8 *)
Definition proper_half (h : vec) : Prop :=
  forall i, (i < length h)%nat -> nth i h 0 = 0 \/ / 100000000 < nth i h 0.
(** every half extent is larger than 1e-8 *)
Definition fat (h : vec) : Prop := forall i, (i < length h)%nat -> / 100000000 < nth i h 0.
(** half extents up to 1e-8 replaced by 0 *)
Definition flatten_half (h : vec) : vec := map (fun a => if Rle_dec a (/ 100000000) then 0 else a) h.

(** a point of K is interior when a whole ball around it lies in K *)
Definition interior_point (n : nat) (K : vec -> Prop) (p : vec) : Prop :=
  exists eps, 0 < eps /\ forall q, length q = n -> norm (vsub q p) < eps -> K q.
