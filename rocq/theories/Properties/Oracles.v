(** Property C111: mbe_of_points can always be run (src/rigeo/shape/ellipsoid.py:670-728). *)
From Verif Require Import Base.Vec Base.Ext Model.Util Model.Polydd Model.Constraint Model.Ellipsoid Model.Poly Model.Extremal
  Spec.Basic Spec.Shapes Spec.ShapeObjects Spec.DoubleDesc Spec.PolySpec Spec.ExtremalSpec Spec.John
  Proofs.JohnEx Proofs.OracleP.

(** every list of vectors has an orthonormal basis of its span, which is what scipy.linalg.orth promises;
    the last clause says that no column lies outside the span *)
Theorem C111_orth : forall d D,
  (0 < d)%nat -> (forall p, In p D -> length p = d) -> exists k W, (k <= d)%nat /\ orth_spec d k D W /\
  forall y, length y = k -> (forall p, In p D -> dot (mat_vec W y) p = 0) -> y = zeros k.
Proof. exact orth_exists_all. Qed.
Print Assumptions C111_orth.
(** orthonormal columns can be completed, which is what scipy.linalg.null_space promises *)
Theorem C111_null_space : forall d k W,
  (0 < k <= d)%nat -> orthonormal d k W -> exists N, null_spec d k (transpose W) N.
Proof. exact null_exists_all. Qed.
Print Assumptions C111_null_space.
Example C111_null_space_example : orthonormal 2 1 [[3 / 5]; [4 / 5]].
Proof. exact diagonal_on. Qed.
(** the routines mbe_of_points calls can keep their promises exactly if two of the points differ *)
Theorem C111_runs : forall d points,
  (0 < d)%nat -> (forall x, In x points -> length x = d) ->
  ((exists k orth null_space eigh lstsq solver, mbe_oracles d k orth null_space eigh lstsq solver points) <-> exists p q, In p points /\ In q points /\ p <> q).
Proof. exact mbe_oracles_exist. Qed.
Print Assumptions C111_runs.
Example C111_runs_example : (exists k orth null_space eigh lstsq solver, mbe_oracles 2 k orth null_space eigh lstsq solver [[0; 0]; [1; 1]; [2; 2]]) /\
  ~ (exists k orth null_space eigh lstsq solver, mbe_oracles 2 k orth null_space eigh lstsq solver [[1; 1]; [1; 1]]).
Proof. exact collinear_run. Qed.
(** then mbe_of_points has a value: some run succeeds, all runs return the same set, and it contains the convex hull *)
Theorem C111_defined : forall d points,
  (0 < d)%nat -> (forall x, In x points -> length x = d) -> (exists p q, In p points /\ In q points /\ p <> q) ->
  exists S : vec -> Prop,
    (exists k orth null_space eigh lstsq solver, mbe_oracles d k orth null_space eigh lstsq solver points) /\
    (forall k orth null_space eigh lstsq solver, mbe_oracles d k orth null_space eigh lstsq solver points ->
      exists e, mbe_of_points orth null_space eigh lstsq solver points = Ok e /\ e_dim e = d /\ orthogonal d (e_rot e) /\ forall x, ell_set (e_half e) (e_rot e) (e_center e) x <-> S x) /\
    forall x, in_hull d points x -> S x.
Proof. exact mbe_defined. Qed.
Print Assumptions C111_defined.
