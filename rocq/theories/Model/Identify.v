(** Model of /repo/src/rigeo/unused/identify.py.  As it stands the file cannot be imported (its
    relative imports [.constraint] and [.inertial] do not exist below unused/); the model reads
    them as rigeo's.  Not modelled: [iters], [solve_time] and [objective] of the result. *)
From Verif Require Import Base.Vec Model.Util Model.Inertial Model.Constraint Model.Poly Model.Ellipsoid Model.Box Model.Cylinder
  Model.Realize Model.RigidBody.

(** np.kron *)
Definition kron (A B : mat) : mat :=
  concat (map (fun a => map (fun b => concat (map (fun x => vscale x b) a)) B) A).

(** identify.py:11-39 [entropic_regularizer] for lists of matrices ([J0s.ndim == 3], the way it is
    called); [log_det] is cp.log_det and [inv] np.linalg.inv *)
Definition entropic_regularizer (log_det : mat -> R) (inv : mat -> res mat) (Js J0s : list mat) : res R :=
  let* _ := assert_ (Nat.eqb (length Js) (length J0s)) in
  let* J := match Js with [] => Raise IndexError | J :: _ => Ok J end in
  let* _ := assert_ (is_matb 4 4 J) in
  let* J0 := match J0s with [] => Raise IndexError | J0 :: _ => Ok J0 end in
  let* _ := assert_ (is_matb 4 4 J0) in
  let* terms := mapM (fun JJ0 => let* J0' := inv (snd JJ0) in Ok (- log_det (fst JJ0) + trace (mat_mul J0' (fst JJ0)))) (combine Js J0s) in
  Ok (lsum terms).
(** identify.py:30-32: single matrices are wrapped into lists *)
Definition entropic_regularizer1 (log_det : mat -> R) (inv : mat -> res mat) (J J0 : mat) : res R :=
  entropic_regularizer log_det inv [J] [J0].

(** identify.py:42-77 [least_squares_objective].  [As] and [bs] are arrays with one matrix and one
    vector per observation.  np.vstack of nothing and products of unequal shapes raise ValueError.
    cp.psd_wrap returns its argument. *)
Definition least_squares_objective (thetas : list vec) (As : list mat) (bs : list vec) (W0 : option mat) : res R :=
  let* A := match As with [] => Raise ValueError | _ => Ok (concat As) end in
  let* b := match bs with [] => Raise ValueError | _ => Ok (concat bs) end in
  let theta := concat thetas in
  let* _ := if Nat.eqb (length theta) (ncols A) then Ok tt else Raise ValueError in
  let* _ := if Nat.eqb (length A) (length b) then Ok tt else Raise ValueError in
  let e := vsub (mat_vec A theta) b in
  match W0 with
  | None => Ok (dot e e)
  | Some W0 =>
      let W := kron (eye (length bs)) W0 in
      if is_matb (length e) (length e) W then Ok (quad W e) else Raise ValueError
  end.

(** identify.py:114-133 and 230-249, the attributes and [__init__] of both classes *)
Record IdProblem := { id_As : list mat; id_bs : list vec; id_W0 : option mat; id_gamma : R; id_eps : R }.
Definition id_init (inv : mat -> res mat) (As : list mat) (bs : list vec) (Sigma : option mat) (gamma eps : R) : res IdProblem :=
  let* _ := assert_ (Nat.eqb (length As) (length bs)) in
  let* _ := assert_ (Rleb 0 gamma) in
  let* _ := assert_ (Rleb 0 eps) in
  let* W0 := match Sigma with Some C => let* W := inv C in Ok (Some W) | None => Ok None end in
  Ok {| id_As := As; id_bs := bs; id_W0 := W0; id_gamma := gamma; id_eps := eps |}.

(** the [must_contain] method of each kind of shape *)
Definition shp_must_contain_scaled (s : shp) (point : vec) (scale : R) : Prop :=
  match s with
  | SBox b => poly_must_contain (b_poly b) point scale
  | SPoly p => poly_must_contain p point scale
  | SEll e => ell_must_contain e point scale
  | SCyl c => cyl_must_contain c point scale
  | SCaps k => caps_must_contain k point scale
  end.
(** identify.py:184-186 and 299-301: the centre of mass lies in the shape *)
Definition com_constraint (s : shp) (J : mat) : Prop :=
  let m := entry J 3 3 in
  let h := firstn 3 (col 3 J) in
  shp_must_contain_scaled s h m.

(** identify.py:163-174: the cost as a function of the parameter vectors *)
Definition id_cost (log_det : mat -> R) (inv : mat -> res mat) (P : IdProblem) (bodies : list Body) (thetas : list vec) : res R :=
  let* Js := mapM pim_must_equal_vec thetas in
  let* lstsq := least_squares_objective thetas (id_As P) (id_bs P) (id_W0 P) in
  let no := INR (length (id_As P)) in
  if Rltb 0 (id_gamma P) then
    let J0s := map (fun body => ip_J (bd_params body)) bodies in
    let* regularizer := entropic_regularizer log_det inv Js J0s in
    Ok ((1 / 2) / no * lstsq + id_gamma P * regularizer)
  else Ok ((1 / 2) / no * lstsq).
(** identify.py:177-186: the constraints.  [body.moment_sdp_constraints(J)]
    uses its defaults eps=0, d=2. *)
Definition id_constraints (use_trace : bool) (P : IdProblem) (bodies : list Body) (must_realize : bool)
  (com_bounding_shapes : option (list shp)) (thetas : list vec) : res Prop :=
  let* Js := mapM pim_must_equal_vec thetas in
  let* c1 := mapM (fun J => pim_psd J (id_eps P)) Js in
  let* c2 := if must_realize then
               mapM (fun bJ => rb_moment_sdp_constraints use_trace (fst bJ) (PVmat (snd bJ)) 0 2) (combine bodies Js)
             else Ok [] in
  let c3 := match com_bounding_shapes with
            | Some l => map (fun sJ => com_constraint (fst sJ) (snd sJ)) (combine l Js)
            | None => []
            end in
  Ok (Forall (fun P => P) (c1 ++ c2 ++ c3)).
(** where cp.log_det is finite: cvxpy minimises over the domain of the objective *)
Definition id_domain (P : IdProblem) (thetas : list vec) : Prop :=
  0 < id_gamma P -> forall theta J, In theta thetas -> pim_must_equal_vec theta = Ok J ->
    forall z, length z = 4%nat -> z <> zeros 4 -> 0 < quad J z.
(** what cvxpy requires of the values of the variables [cp.Variable(10)] *)
Definition id_feasible (use_trace : bool) (P : IdProblem) (bodies : list Body) (must_realize : bool)
  (com_bounding_shapes : option (list shp)) (thetas : list vec) : Prop :=
  length thetas = length bodies /\ Forall (fun t => length t = 10%nat) thetas /\ id_domain P thetas /\
  exists c, id_constraints use_trace P bodies must_realize com_bounding_shapes thetas = Ok c /\ c.
(** identify.py:135-203 [IdentificationProblem.solve].  [solver cost constraints] is problem.solve:
    the values of the variables when the status is "optimal", and None otherwise.  The expressions
    are built once, which is modelled by building them for zero vectors. *)
Definition id_solve (use_trace : bool) (log_det : mat -> R) (inv : mat -> res mat)
  (solver : (list vec -> res R) -> (list vec -> Prop) -> option (list vec))
  (P : IdProblem) (bodies : list Body) (must_realize : bool) (com_bounding_shapes : option (list shp)) : res (list IP) :=
  let* _ := match com_bounding_shapes with Some l => assert_ (Nat.eqb (length l) (length bodies)) | None => Ok tt end in
  let zero := map (fun _ => zeros 10) bodies in
  let* _ := id_cost log_det inv P bodies zero in
  let* _ := id_constraints use_trace P bodies must_realize com_bounding_shapes zero in
  match solver (id_cost log_det inv P bodies) (id_feasible use_trace P bodies must_realize com_bounding_shapes) with
  | None => Raise AssertionError
  | Some thetas => mapM ip_from_vec thetas
  end.

(** identify.py:278-301: cost and constraints of [DiscretizedIdentificationProblem.solve]; [mus] are
    the masses at the points *)
Definition di_cost (P : IdProblem) (theta : vec) : res R :=
  let* lstsq := least_squares_objective [theta] (id_As P) (id_bs P) (id_W0 P) in
  Ok ((1 / 2) / INR (length (id_As P)) * lstsq).
Definition di_constraints (points : mat) (com_bounding_shape : option shp) (theta : vec) : res Prop :=
  let* J := pim_must_equal_vec theta in
  let Ps := map (fun p => p ++ [1]) points in
  Ok (exists mus, length mus = length points /\ (forall x, In x mus -> 0 <= x) /\
      J = msum 4 4 (map2 (fun mu P => mscale mu (outer P P)) mus Ps) /\
      match com_bounding_shape with Some s => com_constraint s J | None => True end).
Definition di_feasible (points : mat) (com_bounding_shape : option shp) (theta : vec) : Prop :=
  length theta = 10%nat /\ exists c, di_constraints points com_bounding_shape theta = Ok c /\ c.
(** identify.py:251-318 [DiscretizedIdentificationProblem.solve] *)
Definition di_solve (solver : (vec -> res R) -> (vec -> Prop) -> option vec)
  (P : IdProblem) (points : mat) (com_bounding_shape : option shp) : res (list IP) :=
  let* _ := di_cost P (zeros 10) in
  let* _ := di_constraints points com_bounding_shape (zeros 10) in
  match solver (di_cost P) (di_feasible points com_bounding_shape) with
  | None => Raise AssertionError
  | Some theta => let* p := ip_from_vec theta in Ok [p]
  end.
