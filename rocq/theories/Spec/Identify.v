(** Specification vocabulary for parameter identification. *)
From Verif Require Import Base.Vec Model.Constraint Model.Inertial Model.RigidBody Spec.Basic Spec.Objects Spec.Realizable Spec.Bodies
  Spec.ExtremalSpec Spec.Geodesic.

(** one r x c regressor matrix and one r-vector per observation *)
Definition data_ok (r c : nat) (As : list mat) (bs : list vec) : Prop :=
  (0 < r)%nat /\ (0 < c)%nat /\ As <> [] /\ length As = length bs /\
  (forall A, In A As -> is_mat r c A) /\ (forall b, In b bs -> length b = r).
(** sum over the observations of |A_i theta - b_i|^2 *)
Definition sum_squares (As : list mat) (bs : list vec) (theta : vec) : R :=
  lsum (map2 (fun A b => norm (vsub (mat_vec A theta) b) ^ 2) As bs).
(** sum over the observations of e^T W e for e = A_i theta - b_i *)
Definition weighted_squares (W : mat) (As : list mat) (bs : list vec) (theta : vec) : R :=
  lsum (map2 (fun A b => quad W (vsub (mat_vec A theta) b)) As bs).
Definition fit_error (W0 : option mat) (As : list mat) (bs : list vec) (theta : vec) : R :=
  match W0 with None => sum_squares As bs theta | Some W => weighted_squares W As bs theta end.
(** theta explains every observation *)
Definition explains (As : list mat) (bs : list vec) (theta : vec) : Prop :=
  Forall2 (fun A b => mat_vec A theta = b) As bs.
(** the observations determine the parameters *)
Definition determining (c : nat) (As : list mat) : Prop :=
  forall x, length x = c -> (forall A, In A As -> forall i, nth i (mat_vec A x) 0 = 0) -> forall j, nth j x 0 = 0.
(** x minimises the cost over C *)
Definition optimal {X : Type} (cost : X -> res R) (C : X -> Prop) (x : X) : Prop :=
  C x /\ forall y c, C y -> cost y = Ok c -> exists c0, cost x = Ok c0 /\ c0 <= c.
(** the solver reports an optimal solution *)
Definition solved {X : Type} (solver : (X -> res R) -> (X -> Prop) -> option X) (cost : X -> res R) (C : X -> Prop) : Prop :=
  exists x, solver cost C = Some x /\ optimal cost C x.
(** v lists the ten parameters of each of the objects ps *)
Definition stacks (ps : list IP) (v : vec) : Prop :=
  exists vs, Forall2 (fun p t => ip_vec p = Ok t) ps vs /\ v = concat vs.
(** the measurement covariance is positive definite and np.linalg.inv inverts it *)
Definition cov_ok (r : nat) (inv : mat -> res mat) (Sigma : option mat) : Prop :=
  match Sigma with None => True | Some C => SPD r C /\ exists W, inv C = Ok W /\ inverse r C W end.
(** np.linalg.inv inverts the pseudo-inertia matrix of the nominal parameters of each body *)
Definition nominal_ok (inv : mat -> res mat) (J : mat) : Prop :=
  SPD 4 J /\ exists J', inv J = Ok J' /\ inverse 4 J J'.
(** positive mass, J >= eps, and point masses in the shapes of the body with that J *)
Definition allowed (eps : R) (must_realize : bool) (b : Body) (p : IP) : Prop :=
  ip_ok p /\ symmetric 3 (ip_H p) /\ 0 < ip_mass p /\ PSD 4 (msub (ip_J p) (mscale eps (eye 4))) /\
  (must_realize = true -> exists Ks, Forall2 shape_is (bd_shapes b) Ks /\ (forall s, In s (bd_shapes b) -> shape_proper s) /\
    realizable_J (union_of Ks) (ip_J p)).
(** the centres of mass lie in the bounding shapes *)
Definition com_allowed (com_bounding_shapes : option (list shp)) (ps : list IP) : Prop :=
  match com_bounding_shapes with
  | None => True
  | Some l => Forall2 (fun s p => exists K, shape_is s K /\ K (ip_com p)) l ps
  end.
(** what a result satisfies, whatever the data: positive mass, J >= eps, and J is the sum of
    positive semidefinite matrices whose centres of mass lie in the shapes of the body *)
Definition result_ok (eps : R) (must_realize : bool) (b : Body) (p : IP) : Prop :=
  ip_ok p /\ symmetric 3 (ip_H p) /\ 0 < ip_mass p /\ PSD 4 (msub (ip_J p) (mscale eps (eye 4))) /\
  (must_realize = true -> forall Ks, Forall2 shape_is (bd_shapes b) Ks -> (forall s, In s (bd_shapes b) -> shape_proper s) ->
    exists Js, ip_J p = msum 4 4 Js /\ Forall2 (fun (K : vec -> Prop) J' => PSD 4 J' /\ (0 < entry J' 3 3 -> K (com_J J'))) Ks Js).
