(** Well-formed polyhedra. *)
From Verif Require Import Base.Vec Spec.Basic Spec.Shapes Model.Polydd Model.Poly.

(** at least one face and at least one vertex in dimension n, and no rays *)
Definition poly_ok (n : nat) (p : Poly) : Prop :=
  (0 < n)%nat /\ (0 < length (p_A p))%nat /\ is_mat (length (p_A p)) n (p_A p) /\
  length (p_b p) = length (p_A p) /\
  exists V, p_span p = {| sf_vertices := Some V; sf_rays := None |} /\ V <> [] /\
            forall v, In v V -> length v = n.
(** the face form and the vertices describe the same set *)
Definition poly_agree (n : nat) (p : Poly) : Prop :=
  poly_ok n p /\
  forall x, length x = n -> (halfspaces (p_A p) (p_b p) x <-> in_hull n (p_vertices p) x).
(** no row with leading 0 vanishes: rays and lines have a direction *)
Definition proper_rays (m : CDD) : Prop :=
  forall r, In r (cdd_rows m) -> hd 0 r = 0 -> exists i, nth i (tl r) 0 <> 0.
(** some row is an inequality that is not marked as an equality *)
Definition has_inequality (m : CDD) : Prop :=
  exists i, (i < length (cdd_rows m))%nat /\ ~ In i (cdd_lin m).
(** the inequalities of both polyhedra as rows [b | -A] *)
Definition stacked (p q : Poly) : CDD :=
  {| cdd_rows := map2 (fun b a => b :: vneg a) (p_b p ++ p_b q) (p_A p ++ p_A q); cdd_lin := [] |}.
(** no face is the trivial inequality 0 <= 0 *)
Definition faces_ok (A : mat) (b : vec) : Prop :=
  forall i, (i < length A)%nat -> (exists j, (j < 3)%nat /\ nth j (nth i A []) 0 <> 0) \/ nth i b 0 <> 0.
