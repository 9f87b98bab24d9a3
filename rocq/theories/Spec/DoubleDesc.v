(** What the double description library (cdd) is expected to compute, stated for one input matrix at
    a time.  A matrix [[t | r]] with a set of linearity rows is read either as inequalities or as
    generators. *)
From Verif Require Import Base.Vec Spec.Basic Spec.Shapes Model.Polydd.

(** inequalities: t + r.x >= 0 for every row, with equality for the linearity rows *)
Definition h_ok (n : nat) (m : CDD) : Prop :=
  (forall r, In r (cdd_rows m) -> length r = S n) /\
  (forall i, In i (cdd_lin m) -> (i < length (cdd_rows m))%nat).
Definition h_set (m : CDD) (x : vec) : Prop :=
  (forall r, In r (cdd_rows m) -> 0 <= hd 0 r + dot (tl r) x) /\
  (forall i, In i (cdd_lin m) -> hd 0 (nth i (cdd_rows m) []) + dot (tl (nth i (cdd_rows m) [])) x = 0).

(** generators: t = 1 is a vertex, t = 0 a ray, a linearity row a line; at least one vertex *)
Definition v_ok (n : nat) (m : CDD) : Prop :=
  (forall r, In r (cdd_rows m) -> length r = S n /\ (hd 0 r = 0 \/ hd 0 r = 1)) /\
  (forall i, In i (cdd_lin m) -> (i < length (cdd_rows m))%nat /\ hd 0 (nth i (cdd_rows m) []) = 0) /\
  (exists r, In r (cdd_rows m) /\ hd 0 r = 1).
Definition v_set (n : nat) (m : CDD) (x : vec) : Prop :=
  exists w, length w = length (cdd_rows m) /\
    (forall i, (i < length w)%nat -> ~ In i (cdd_lin m) -> 0 <= nth i w 0) /\
    dot w (map (hd 0) (cdd_rows m)) = 1 /\
    x = combine_rows n w (map (@tl R) (cdd_rows m)).

(** the routines are correct on the matrix m *)
Definition ineqs_correct (n : nat) (ineqs : CDD -> CDD) (m : CDD) : Prop :=
  h_ok n (ineqs m) /\ forall x, length x = n -> (h_set (ineqs m) x <-> v_set n m x).
Definition gens_correct (n : nat) (gens : CDD -> CDD) (m : CDD) : Prop :=
  (cdd_rows (gens m) = [] /\ forall x, length x = n -> ~ h_set m x) \/
  (v_ok n (gens m) /\ forall x, length x = n -> (v_set n (gens m) x <-> h_set m x)).
(** canonicalising generators keeps some of the rows and generates the same set *)
Definition vcanon_correct (n : nat) (canon : CDD -> CDD) (m : CDD) : Prop :=
  v_ok n (canon m) /\ incl (cdd_rows (canon m)) (cdd_rows m) /\
  forall x, length x = n -> (v_set n (canon m) x <-> v_set n m x).
Definition hcanon_correct (n : nat) (canon : CDD -> CDD) (m : CDD) : Prop :=
  h_ok n (canon m) /\ forall x, length x = n -> (h_set (canon m) x <-> h_set m x).

(** the set of a span form: conv(vertices) + cone(rays), a cone if there are no vertices *)
Definition olist {A} (o : option (list A)) : list A := match o with Some l => l | None => [] end.
Definition span_set (n : nat) (f : SpanForm) (x : vec) : Prop :=
  match sf_vertices f with
  | Some V => hull_cone n V (olist (sf_rays f)) x
  | None => cone n (olist (sf_rays f)) x
  end.
(** linear combinations *)
Definition linspan (n : nat) (S : mat) (x : vec) : Prop :=
  exists w, length w = length S /\ x = combine_rows n w S.
