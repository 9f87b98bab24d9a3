(** Model of the extremal ellipsoids: /repo/src/rigeo/shape/ellipsoid.py:543-560, 613-758 and
    poly.py:198-241.  External routines are arguments: scipy's [orth] and [null_space], numpy's
    [eigh], [lstsq], [solve] (linsolve) and [inv], and the convex solver.  A call of the solver is
    modelled by a function of the constraints (a predicate on the variables); the objectives
    -log_det and log_det make sense for positive definite matrices only. *)
From Verif Require Import Base.Vec Base.Ext Model.Util Model.Polydd Model.Constraint Model.Ellipsoid Model.Poly.

(** cvxpy: X << 0, that is 0 - X positive semidefinite *)
Definition cp_nsd (n : nat) (X : mat) : Prop := forall z, length z = n -> quad X z <= 0.
(** arrays with infinite or nan entries cannot be part of a cvxpy problem *)
Definition finite_mat (A : emat) : res mat :=
  if all_fin A then Ok (map (map to_R) A) else NonFinite.
Definition finite_vec (v : evec) : res vec :=
  if forallb is_fin v then Ok (map to_R v) else NonFinite.

(** ellipsoid.py:543-560 [contains_ellipsoid]: the feasibility problem in the scalar t.  The code
    answers True when the solver reports "optimal", so with an exact solver the answer is True
    exactly when this proposition holds.  Different dimensions: ValueError. *)
Definition contains_ellipsoid (self other : Ell) : res Prop :=
  let* self_S := finite_mat (e_S self) in
  let* self_A := finite_mat (e_A self) in
  let* self_b := finite_vec (e_b self) in
  let* other_A := finite_mat (e_A other) in
  let* other_b := finite_vec (e_b other) in
  if Nat.eqb (e_dim self) (e_dim other) then
    Ok (exists t, 0 <= t /\
        cp_nsd (e_dim self + 1)
          (schur (msub self_S (mscale t other_A))
                 (vsub (mat_vec self_A self_b) (vscale t self_b))
                 (dot self_b self_b - 1 - t * (dot other_b other_b - 1))))
  else Raise ValueError.

(** ellipsoid.py:613-626 [_mbee_con_mat]: the 3x3 block matrix with rows
    (S - ti*Ai, e, Z), (e^T, f, d^T), (Z, d, -S) *)
Definition mbee_con_mat (S : mat) (d : vec) (Ai : mat) (bi : vec) (ti : R) : mat :=
  let dim := length S in
  let ci := dot bi bi - 1 in
  let Z := zeros2 dim dim in
  let f := -1 - ti * ci in
  let e := vsub d (vscale ti bi) in
  map2 (fun r x => r ++ x) (map2 (fun r x => r ++ [x]) (msub S (mscale ti Ai)) e) Z ++
  [e ++ [f] ++ d] ++
  map2 (fun r x => r ++ x) (map2 (fun r x => r ++ [x]) Z d) (mneg S).
(** ellipsoid.py:649-663: the variables S (PSD), d and the list ts *)
Definition mbee_constraints (dim : nat) (ABs : list (mat * vec)) (sphere : bool) (S : mat) (d : vec) (ts : vec) : Prop :=
  cp_psd_var dim S /\ length d = dim /\ length ts = length ABs /\
  (forall t, In t ts -> 0 <= t) /\
  Forall2 (fun AB t => cp_nsd (2 * dim + 1) (mbee_con_mat S d (fst AB) (snd AB) t)) ABs ts /\
  (sphere = true -> exists a, S = mscale a (eye dim)).
(** ellipsoid.py:629-667 [mbe_of_ellipsoids]; [solver] returns the values of S and d.  No
    ellipsoids: IndexError at ellipsoids[0]. *)
Definition mbe_of_ellipsoids (eigh : mat -> vec * mat) (linsolve : mat -> vec -> vec)
  (solver : (mat -> vec -> Prop) -> mat * vec) (ellipsoids : list Ell) (sphere : bool) : res Ell :=
  match ellipsoids with
  | [] => Raise IndexError
  | E0 :: _ =>
      let dim := e_dim E0 in
      let* ABs := mapM (fun E => let* A := finite_mat (e_A E) in let* b := finite_vec (e_b E) in Ok (A, b)) ellipsoids in
      if forallb (fun E => Nat.eqb (e_dim E) dim) ellipsoids then
        let '(Sv, d) := solver (fun S d => exists ts, mbee_constraints dim ABs sphere S d ts) in
        let center := linsolve Sv (vneg d) in
        ell_from_shape_matrix eigh Sv (Some center)
      else Raise ValueError
  end.

(** ellipsoid.py:700-708: the variables A (PSD) and b *)
Definition mbe_points_constraints (rank : nat) (P : mat) (sphere : bool) (A : mat) (b : vec) : Prop :=
  cp_psd_var rank A /\ length b = rank /\
  (forall x, In x P -> norm (vadd (mat_vec A x) b) <= 1) /\
  (sphere = true -> exists r, A = mscale r (eye rank)).
(** half_extents = zeros(d); half_extents[nz] = 1.0 / eigs[nz] *)
Definition unproject_half (d : nat) (eigs : vec) : vec :=
  map (fun a => if Reqb a 0 then 0 else / a) eigs ++ zeros (d - length eigs).
(** ellipsoid.py:670-728 [mbe_of_points] with sphere=False.  With sphere=True the name r is rebound
    to a cvxpy variable before the last use of r, so the centre becomes a cvxpy expression; that
    call is not modelled (its constraints are). *)
Definition mbe_of_points (orth null_space : mat -> mat) (eigh : mat -> vec * mat) (lstsq : mat -> vec -> vec)
  (solver : (mat -> vec -> Prop) -> mat * vec) (points : mat) : res Ell :=
  match points with
  | [] => Raise IndexError
  | r :: _ =>
      let D := map (fun p => vsub p r) points in
      let R := orth (transpose D) in
      let rank := ncols R in
      let P := mat_mul D R in
      let '(A, b) := solver (mbe_points_constraints rank P false) in
      let '(eigs, V) := eigh A in
      let half_extents := unproject_half (length r) eigs in
      let N := null_space (transpose (mat_mul R V)) in
      let rotation := hstack (mat_mul R V) N in
      let center := vadd (mat_vec R (lstsq A (vneg b))) r in
      ell_init half_extents (Some rotation) (Some center)
  end.

(** ellipsoid.py:744-754: the variables B (PSD) and c *)
Definition mie_constraints (dim : nat) (A : mat) (b : vec) (sphere : bool) (B : mat) (c : vec) : Prop :=
  cp_psd_var dim B /\ length c = dim /\
  (forall i, (i < length b)%nat -> norm (mat_vec B (nth i A [])) + dot (nth i A []) c <= nth i b 0) /\
  (sphere = true -> exists r, B = mscale r (eye dim)).
(** ellipsoid.py:731-758 [mie_inequality_form] *)
Definition mie_inequality_form (eigh : mat -> vec * mat) (inv : mat -> mat)
  (solver : (mat -> vec -> Prop) -> mat * vec) (A : mat) (b : vec) (sphere : bool) : res Ell :=
  let '(B, c) := solver (mie_constraints (ncols A) A b sphere) in
  let E := mat_mul B B in
  ell_from_shape_matrix eigh (inv E) (Some c).

(** poly.py:206-241 [mie] *)
Definition poly_mie (dd : DD) (orth null_space : mat -> mat) (eigh : mat -> vec * mat) (inv : mat -> mat)
  (solver : (mat -> vec -> Prop) -> mat * vec) (p : Poly) (sphere : bool) : res Ell :=
  match p_vertices p with
  | [] => Raise IndexError
  | r :: _ =>
      let D := map (fun v => vsub v r) (p_vertices p) in
      let R := orth (transpose D) in
      let P := mat_mul D R in
      let* f := sf_to_face_form (dd_ineqs dd) (span_form (Some P) None None) in
      let* ell := mie_inequality_form eigh inv solver (ff_A f) (ff_b f) sphere in
      let half_extents := e_half ell ++ zeros (length r - e_dim ell) in
      let N := null_space (transpose R) in
      let rotation := hstack (mat_mul R (e_rot ell)) N in
      let center := vadd (mat_vec R (e_center ell)) r in
      ell_init half_extents (Some rotation) (Some center)
  end.
(** poly.py:198-204 [mbe] with sphere=False *)
Definition poly_mbe (orth null_space : mat -> mat) (eigh : mat -> vec * mat) (lstsq : mat -> vec -> vec)
  (solver : (mat -> vec -> Prop) -> mat * vec) (p : Poly) : res Ell :=
  mbe_of_points orth null_space eigh lstsq solver (p_vertices p).
