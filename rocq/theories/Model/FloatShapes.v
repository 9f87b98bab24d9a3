(** Membership in polyhedra and boxes (src/rigeo/shape/poly.py, box.py) in binary64.
    Every elementary operation is the exact one followed by rounding to nearest, ties to even, as in
    Model/FloatUtil.v.  Simplification: overflow, nan and infinities are not modelled. *)
From Coq Require Import Permutation.
From Verif Require Import Base.Vec Model.Util Model.FloatUtil Model.Box.

(** the inner product of the pairs as numpy may compute it: numpy leaves the order of the additions
    and the use of fused multiply-add to the BLAS library, so every order is admitted *)
Inductive fl_dot : list (R * R) -> R -> Prop :=
| fl_nil : fl_dot [] 0
| fl_mul a x : fl_dot [(a, x)] (b64 (a * x))
| fl_fma l v a x : l <> [] -> fl_dot l v -> fl_dot (l ++ [(a, x)]) (b64 (v + a * x))
| fl_add l1 l2 v1 v2 : l1 <> [] -> l2 <> [] -> fl_dot l1 v1 -> fl_dot l2 v2 -> fl_dot (l1 ++ l2) (b64 (v1 + v2))
| fl_perm l l' v : Permutation l l' -> fl_dot l v -> fl_dot l' v.
(** A @ x *)
Definition fl_mat_vec (A : mat) (x y : vec) : Prop := Forall2 (fun a v => fl_dot (combine a x) v) A y.
(** x + y, elementwise *)
Definition fl_vadd (x y : vec) : vec := map2 (fun s t => b64 (s + t)) x y.

(** poly.py:161-165 [contains], one point *)
Definition fl_contains (A : mat) (b : vec) (tol : R) (p : vec) (ans : bool) : Prop :=
  exists y, fl_mat_vec A p y /\ ans = forallb (fun yb => Rleb (fst yb) (b64 (snd yb + tol))) (combine y b).
(** poly.py:161-165 [contains], several points *)
Definition fl_contains_all (A : mat) (b : vec) (tol : R) (ps : mat) (ans : list bool) : Prop :=
  Forall2 (fl_contains A b tol) ps ans.

(** box.py:11-15 [_box_vertices]; the products with +-1 are exact *)
Definition fl_box_vertices (half : vec) (Q : mat) (c : vec) (vs : mat) : Prop :=
  Forall2 (fun s v => exists w, fl_mat_vec Q s w /\ v = fl_vadd w c) (box_vertices half) vs.
(** box.py:18-30 [_box_inequalities] *)
Definition fl_box_inequalities (half : vec) (Q : mat) (c : vec) (A : mat) (b : vec) : Prop :=
  match half with
  | [x; y; z] => Forall2 (fl_mat_vec Q) box_normals A /\ exists w, fl_mat_vec A c w /\ b = fl_vadd [x; x; y; y; z; z] w
  | _ => False
  end.
(** base.py:44-45 [contains_polyhedron] and poly.py:172-177 [is_same] of a box and itself *)
Definition fl_box_is_same_self (half : vec) (Q : mat) (c : vec) (tol : R) (ans : bool) : Prop :=
  exists vs A b r, fl_box_vertices half Q c vs /\ fl_box_inequalities half Q c A b /\ fl_contains_all A b tol vs r /\
  ans = forallb (fun x => x) r && forallb (fun x => x) r.

(** box.py:92-99 [from_two_vertices]: center and half extents *)
Definition fl_two_vertices (v1 v2 : vec) : vec * vec :=
  (map2 (fun s t => b64 (1 / 2 * b64 (s + t))) v1 v2,
   map2 (fun s t => b64 (1 / 2 * b64 (Rmax s t - Rmin s t))) v1 v2).
(** box.py:101-106 [from_points_to_bound]; minima and maxima are exact *)
Definition fl_points_to_bound (points : mat) : vec * vec := fl_two_vertices (col_min points) (col_max points).
(** box.py:57-75 constructor with the default rotation, then poly.py:161-165 [contains] of several points *)
Definition fl_aabb_contains (center half : vec) (tol : R) (ps : mat) (ans : list bool) : Prop :=
  exists A b, fl_box_inequalities half (eye 3) center A b /\ fl_contains_all A b tol ps ans.

(** np.sum, in any order *)
Definition fl_sum (l : vec) (v : R) : Prop := fl_dot (map (fun t => (t, 1)) l) v.
(** np.isclose(h, 0), ellipsoid.py:272 *)
Definition fl_zero (h : R) : bool := Rleb (Rabs h) (b64 (/ 100000000)).
(** ellipsoid.py:250-293 [contains], one point; [half_extents_inv] is [1 / half_extents]
    (ellipsoid.py:17-25, 72), taken only where it is finite *)
Definition fl_ell_contains (half : vec) (Q : mat) (c : vec) (tol : R) (p : vec) (ans : bool) : Prop :=
  exists ps v,
    fl_mat_vec (transpose Q) (map2 (fun s t => b64 (s - t)) p c) ps /\
    let hp := combine half ps in
    fl_sum (map (fun q => let s := let r := b64 (1 / fst q) in b64 (r * r) in b64 (b64 (s * snd q) * snd q))
                (filter (fun q => negb (fl_zero (fst q))) hp)) v /\
    ans = forallb (fun q => implb (fl_zero (fst q)) (Rleb (Rabs (snd q)) tol)) hp && Rleb v (b64 (1 + tol)).
