(** Model of the realizability tests and constraints of the shapes: shape/ellipsoid.py:201-229 and
    343-416, shape/poly.py:269-310, shape/box.py:354-379, shape/cylinder.py:143-195.

    A function that returns a list of cvxpy constraints is modelled by the proposition that the
    given value of the parameter variable satisfies all of them for some value of the variables
    that the function creates. *)
From Verif Require Import Base.Vec Base.Ext Model.Util Model.Constraint Model.Moment Model.Polydd Model.Poly
  Model.Inertial Model.Ellipsoid Model.Box Model.Cylinder.

(** A[:, mask] *)
Definition select_cols {A} (mask : list bool) (X : list (list A)) : list (list A) := map (select mask) X.
(** X @ X.T *)
Definition eself_outer (X : emat) : emat := map (fun r => map (fun r' => edot r r') X) X.

(** ellipsoid.py:201-214 [_Q_degenerate] *)
Definition Q_degenerate (e : Ell) : emat * emat :=
  let z := e_z e in
  let nz := map negb z in
  let nonzero_axes := map (fun r => map2 emul (select nz (e_half_inv e)) (fin1 r)) (select_cols nz (e_rot e)) in
  let Qnz := Q_matrix (eself_outer nonzero_axes) (e_center e) 1 in
  let zero_axes := fin2 (select_cols z (e_rot e)) in
  let Qz := Q_matrix (eself_outer zero_axes) (e_center e) 0 in
  (Qnz, Qz).

(** ellipsoid.py:216-229 [_QV_degenerate].  The mask has tolerance 1e-8 but [rank] counts exact
    zeros; when they disagree, S @ c in [_Q_matrix] has mismatched shapes. *)
Definition QV_degenerate (e : Ell) : res (emat * mat) :=
  let nz := map negb (e_z e) in
  let s := esq (select nz (e_half_inv e)) in
  let r := e_rank e in
  if Nat.eqb (length s) r then
    let Qr := Q_matrix (ediag s) (zeros r) 1 in
    let V := map2 (fun row c => row ++ [c]) (select_cols nz (e_rot e)) (e_center e) ++ [zeros r ++ [1]] in
    Ok (Qr, V)
  else Raise ValueError.

(** np.trace(Q @ J) and cp.trace(Q @ J) for a finite matrix Q; an infinite or undefined entry in
    the data of a problem makes cvxpy or the solver fail *)
Definition trace_mul (Q : emat) (J : mat) : res R :=
  if all_fin Q then Ok (trace (mat_mul (map (map to_R) Q) J)) else NonFinite.

(** ellipsoid.py:343-376 [can_realize]; [eigvals] is np.linalg.eigvals, used by
    [params.consistent] *)
Definition ell_can_realize (eigvals : mat -> vec) (e : Ell) (params : IP) (eps : R) : res bool :=
  let* _ := assert_ (Nat.eqb (e_dim e) 3) in
  if negb (ip_consistent (eigvals (ip_J params)) eps) then Ok false
  else if negb (e_is_degenerate e) then
    let* _ := assert_ (all_fin (e_Q e)) in
    let* t := trace_mul (e_Q e) (ip_J params) in
    Ok (Rleb 0 t)
  else
    let '(Qnz, Qz) := Q_degenerate e in
    let* tnz := trace_mul Qnz (ip_J params) in
    let* tz := trace_mul Qz (ip_J params) in
    Ok (Rleb 0 tnz && isclose np_rtol np_atol tz 0).

(** ellipsoid.py:378-416 [moment_constraints]; [use_trace] is the module constant
    USE_ELLIPSOID_TRACE_REALIZABILITY_CONSTRAINTS (False) *)
Definition ell_moment_constraints (use_trace : bool) (e : Ell) (v : param_var) (eps : R) : res Prop :=
  let* _ := assert_ (Nat.eqb (e_dim e) 3) in
  let* Jc := pim_must_equal_param_var v eps in
  let '(J, psd_constraints) := Jc in
  if negb (e_is_degenerate e) then
    let* t := trace_mul (e_Q e) J in
    Ok (psd_constraints /\ 0 <= t)
  else if use_trace then
    let '(nonzero_Q, zero_Q) := Q_degenerate e in
    let* tnz := trace_mul nonzero_Q J in
    let* tz := trace_mul zero_Q J in
    Ok (psd_constraints /\ 0 <= tnz /\ tz = 0)
  else
    let r := e_rank e in
    let* QV := QV_degenerate e in
    let '(Qr, V) := QV in
    if all_fin Qr then
      Ok (exists Jr, cp_psd_var (r + 1) Jr /\ psd_constraints /\
          (forall t, trace_mul Qr Jr = Ok t -> 0 <= t) /\
          J = mat_mul (mat_mul V Jr) (transpose V))
    else NonFinite.

(** m == M[0, 0], h == M[0, 1:4], H == M[1:4, 1:4] (poly.py:285, cylinder.py:162) *)
Definition moments_match (J M : mat) : Prop :=
  entry J 3 3 = entry M 0 0 /\
  (forall i, (i < 3)%nat -> entry J i 3 = entry M 0 (1 + i)) /\
  (forall i j, (i < 3)%nat -> (j < 3)%nat -> entry J i j = entry M (1 + i) (1 + j)).
(** poly.py:275-286, cylinder.py:147-163: MomentMatrix(n=3, d=d), a PSD variable M, and the
    constraints.  (The constraints on M are computed from its value; whether the calls raise does
    not depend on the value.)  For d = 0 the slices have the wrong length. *)
Definition sdp_for (J : mat) (polys : list pol) (d : nat) : res Prop :=
  let* s := mm_init 3 d in
  let* _ := mm_moment_constraints s (zeros2 (mm_r s) (mm_r s)) in
  let* _ := mm_localizing_constraints s (zeros2 (mm_r s) (mm_r s)) polys in
  if Nat.ltb (mm_r s) 4 then Raise ValueError
  else Ok (exists M, cp_psd_var (mm_r s) M /\
             (exists cs, mm_moment_constraints s M = Ok cs /\ forall c, In c cs -> c) /\
             (exists cs, mm_localizing_constraints s M polys = Ok cs /\ forall c, In c cs -> c) /\
             moments_match J M).

(** poly.py:60 [_polys] *)
Definition p_polys (p : Poly) : list pol := map2 (fun a b => pol_affine a b 0) (p_A p) (p_b p).
(** poly.py:269-286 [moment_sdp_constraints]; psd_constraints is never used *)
Definition poly_moment_sdp_constraints (p : Poly) (v : param_var) (eps : R) (d : nat) : res Prop :=
  let* _ := assert_ (Nat.eqb (p_dim p) 3) in
  let* Jc := pim_must_equal_param_var v eps in
  sdp_for (fst Jc) (p_polys p) d.
(** a cvxpy problem: the value of a constant objective and the conjunction of the constraints *)
Record problem := { pb_objective : R; pb_constraints : Prop }.
(** poly.py:264-267 [moment_sdp_feasibility_problem] *)
Definition poly_moment_sdp_feasibility_problem (p : Poly) (v : param_var) (eps : R) (d : nat) : res problem :=
  let* constraints := poly_moment_sdp_constraints p v eps d in
  Ok {| pb_objective := 0; pb_constraints := constraints |}.
(** poly.py:288-289 [moment_lp_constraints] *)
Definition poly_moment_lp_constraints (p : Poly) (v : param_var) (eps : R) (d : nat) : res Prop :=
  Raise NotImplementedError.

(** cp.Variable(n, nonneg=True) *)
Definition cp_nonneg_var (n : nat) (x : vec) : Prop := length x = n /\ forall i, (i < n)%nat -> 0 <= nth i x 0.
(** poly.py:291-310 [moment_vertex_constraints] *)
Definition poly_moment_vertex_constraints (p : Poly) (v : param_var) (eps : R) : res Prop :=
  let* _ := assert_ (Nat.eqb (p_dim p) 3) in
  let* Jc := pim_must_equal_param_var v eps in
  let '(J, psd_constraints) := Jc in
  let Vs := map (fun w => outer w w) (p_vertices p) in
  Ok (exists ms, cp_nonneg_var (p_nv p) ms /\ psd_constraints /\
      entry J 3 3 = lsum ms /\
      map (fun i => entry J i 3) (seq 0 3) = vec_mat ms (p_vertices p) /\
      cp_psd 3 (msub (msum 3 3 (map2 (fun m V => mscale m V) ms Vs)) (sub_mat 3 3 J))).

(** cp.upper_tri(X) == cp.upper_tri(Y): the entries above the diagonal *)
Definition upper_tri_eq (n : nat) (X Y : mat) : Prop :=
  forall i j, (i < j < n)%nat -> entry X i j = entry Y i j.
(** box.py:354-379 [moment_custom_vertex_constraints] *)
Definition box_moment_custom_vertex_constraints (b : Box) (v : param_var) (eps : R) : res Prop :=
  let* Jc := pim_must_equal_param_var v eps in
  let '(J, psd_constraints) := Jc in
  let* T := transform_matrix_inv (Some (b_rot b)) (Some (b_center b)) 3 in
  let J0 := mat_mul (mat_mul T J) (transpose T) in
  let Vs := map (fun w => w ++ [1]) (box_vertices (b_half b)) in
  Ok (exists mus, cp_nonneg_var 8 mus /\
      let Jv := msum 4 4 (map2 (fun m V => mscale m (outer V V)) mus Vs) in
      psd_constraints /\ entry J0 3 3 = entry Jv 3 3 /\ upper_tri_eq 4 J0 Jv /\
      (forall i, (i < 3)%nat -> entry J0 i i <= entry Jv i i)).

(** cylinder.py:93-97 [_poly0s]: keys "001", "000", "200", "020" *)
Definition cyl_poly0s (c : Cyl) : list pol :=
  let h := (1 / 2) * c_length c in
  [ pol_init [([0; 0; 1]%nat, 1); ([0; 0; 0]%nat, h)] 0;
    pol_init [([0; 0; 1]%nat, -1); ([0; 0; 0]%nat, h)] 0;
    pol_init [([2; 0; 0]%nat, -1); ([0; 2; 0]%nat, -1); ([0; 0; 0]%nat, c_radius c ^ 2)] 0 ].
(** cylinder.py:143-163 [moment_sdp_constraints]; psd_constraints is never used *)
Definition cyl_moment_sdp_constraints (c : Cyl) (v : param_var) (eps : R) (d : nat) : res Prop :=
  let* Jc := pim_must_equal_param_var v eps in
  let* T := transform_matrix_inv (Some (c_rot c)) (Some (c_center c)) 3 in
  let J0 := mat_mul (mat_mul T (fst Jc)) (transpose T) in
  sdp_for J0 (cyl_poly0s c) d.
(** cylinder.py:138-141 [moment_sdp_feasibility_problem] *)
Definition cyl_moment_sdp_feasibility_problem (c : Cyl) (v : param_var) (eps : R) (d : nat) : res problem :=
  let* constraints := cyl_moment_sdp_constraints c v eps d in
  Ok {| pb_objective := 0; pb_constraints := constraints |}.
(** constraints of a list of shapes on a list of values: all calls must succeed *)
Fixpoint all_constraints {A B} (f : A -> B -> res Prop) (l : list A) (vs : list B) : res Prop :=
  match l, vs with
  | a :: l', v :: vs' => let* c := f a v in let* cs := all_constraints f l' vs' in Ok (c /\ cs)
  | _, _ => Ok True
  end.
(** cylinder.py:165-195 [moment_custom_vertex_constraints].  As in [sdp_for], the calls are made
    once on zero matrices to see whether they raise. *)
Definition cyl_moment_custom_vertex_constraints (use_trace : bool) (c : Cyl) (v : param_var) (eps : R) : res Prop :=
  let* Jc := pim_must_equal_param_var v eps in
  let '(J, psd_constraints) := Jc in
  let* T := transform_matrix_inv (Some (c_rot c)) (Some (c_center c)) 3 in
  let J0 := mat_mul (mat_mul T J) (transpose T) in
  let disk d J := ell_moment_constraints use_trace d (PVmat J) eps in
  let* _ := all_constraints disk (c_disk0s c) (map (fun _ => zeros2 4 4) (c_disk0s c)) in
  Ok (exists Js, length Js = length (c_disk0s c) /\ Forall (cp_psd_var 4) Js /\
      let J_sum := msum 4 4 Js in
      psd_constraints /\
      (exists P, all_constraints disk (c_disk0s c) Js = Ok P /\ P) /\
      upper_tri_eq 4 J0 J_sum /\
      entry J0 0 0 = entry J_sum 0 0 /\ entry J0 1 1 = entry J_sum 1 1 /\
      entry J0 2 2 <= entry J_sum 2 2 /\ entry J0 3 3 = entry J_sum 3 3).
