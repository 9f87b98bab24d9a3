(** Means over the draws of a loop every turn of which uses a block of draws. *)
From Verif Require Import Base.Vec Spec.Basic Spec.Integrals Spec.RandomSpec Spec.Turns.

(** the mean of F over K independent blocks exists and is I; D says which blocks can be drawn and
    mean is the mean over one block *)
Fixpoint blocks_mean {X : Type} (D : X -> Prop) (mean : (X -> R) -> R -> Prop) (K : nat) (F : list X -> R) (I : R) : Prop :=
  match K with
  | O => I = F []
  | S K => exists G, (forall B, D B -> blocks_mean D mean K (fun l => F (B :: l)) (G B)) /\ mean G I
  end.
(** the product of the values of the k-th function at the k-th point *)
Definition product (fs : list (vec -> R)) (P : mat) : R := fold_right Rmult 1 (map2 (fun f p => f p) fs P).
(** the product of the numbers *)
Definition rprod (l : list R) : R := fold_right Rmult 1 l.
(** the draws of blocks of turns as the loop of the model takes them: turn number k uses r of the
    directions and numbers of block number k *)
Definition surface_blocks (l : list (list turn)) (k r : nat) : mat * vec :=
  let B := firstn r (nth k l []) in
  (map (fun t : turn => let '(u, phi, _) := t in ell_point [1; 1; 1] u phi) B, map (fun t : turn => let '(_, _, v) := t in v) B).
