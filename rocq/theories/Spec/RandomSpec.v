(** Specification vocabulary for random points. *)
From Coq Require Import Permutation.
From Verif Require Import Base.Vec Spec.Basic Spec.Shapes.

(** draws of rng.random and of rng.uniform(low, high) *)
Definition unit_draw (x : R) : Prop := 0 <= x < 1.
Definition uniform_draw (low high x : R) : Prop := low <= x < high.
(** n rows of d entries, each in the range P *)
Definition rows_of (n d : nat) (P : R -> Prop) (M : mat) : Prop :=
  is_mat n d M /\ forall r x, In r M -> In x r -> P x.
(** normal draws: any reals, no row being exactly zero *)
Definition normal_rows (n d : nat) (X : mat) : Prop :=
  is_mat n d X /\ forall x, In x X -> x <> zeros d.
Definition draws_of (n : nat) (P : R -> Prop) (v : vec) : Prop := length v = n /\ forall x, In x v -> P x.
(** rng.multinomial(n, pvals) for k outcomes *)
Definition multinomial_draw (n k : nat) (counts : list nat) : Prop :=
  length counts = k /\ fold_right Nat.add 0%nat counts = n.
(** rng.shuffle *)
Definition shuffles (f : mat -> mat) : Prop := forall P, Permutation (f P) P.

(** points of the surface / of an edge of the box with half extents h and pose Q, c *)
Definition box_surface (h : vec) (Q : mat) (c p : vec) : Prop :=
  exists u, in_cube h u /\ (exists i, (i < 3)%nat /\ Rabs (nth i u 0) = nth i h 0) /\ p = move Q c u.
Definition box_edge (h : vec) (Q : mat) (c p : vec) : Prop :=
  exists u i, length u = 3%nat /\ (i < 3)%nat /\ Rabs (nth i u 0) <= nth i h 0 /\
    (forall j, (j < 3)%nat -> j <> i -> Rabs (nth j u 0) = nth j h 0) /\ p = move Q c u.

(** rejection sampling of n points: how many points are still missing before try k when try k
    draws the candidates [draw k r] for r missing points *)
Fixpoint missing (inside : vec -> bool) (draw : nat -> nat -> mat) (n k : nat) : nat :=
  match k with
  | O => n
  | S k => let r := missing inside draw n k in (r - length (filter inside (draw k r)))%nat
  end.
(** the accepted points of the first k tries *)
Definition accepted (inside : vec -> bool) (draw : nat -> nat -> mat) (n k : nat) : mat :=
  flat_map (fun j => filter inside (draw j (missing inside draw n j))) (seq 0 k).
(** a law with finitely many outcomes: non-negative weights with sum one; expectations *)
Definition expect {A} (f : A -> R) (law : list (R * A)) : R := lsum (map (fun wa => fst wa * f (snd wa)) law).
Definition is_law {A} (law : list (R * A)) : Prop := (forall wa, In wa law -> 0 <= fst wa) /\ lsum (map fst law) = 1.
(** mean zero and identity covariance *)
Definition standardised (n : nat) (law : list (R * vec)) : Prop :=
  is_law law /\ (forall wx, In wx law -> length (snd wx) = n) /\
  (forall i, (i < n)%nat -> expect (fun x => nth i x 0) law = 0) /\
  forall i j, (i < n)%nat -> (j < n)%nat -> expect (fun x => nth i x 0 * nth j x 0) law = if Nat.eqb i j then 1 else 0.
