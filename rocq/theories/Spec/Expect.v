(** Means over independent draws. *)
From Verif Require Import Base.Vec Spec.Basic Spec.Integrals Spec.RandomSpec.

(** the mean of F over n independent draws, each uniform on [-1, 1), exists and is I *)
Fixpoint mean_u (n : nat) (F : vec -> R) (I : R) : Prop :=
  match n with
  | O => I = F []
  | S n => exists G, (forall x, uniform_draw (-1) 1 x -> mean_u n (fun l => F (x :: l)) (G x)) /\ integral G (-1) 1 (2 * I)
  end.
(** the same for n rows of d draws *)
Fixpoint mean_rows (d n : nat) (F : mat -> R) (I : R) : Prop :=
  match n with
  | O => I = F []
  | S n => exists G, (forall r, draws_of d (uniform_draw (-1) 1) r -> mean_rows d n (fun M => F (r :: M)) (G r)) /\ mean_u d G I
  end.
(** the mean of F over n independent outcomes, outcome k having probability pv_k *)
Fixpoint cat_mean (pv : vec) (n : nat) (F : list nat -> R) : R :=
  match n with
  | O => F []
  | S n => lsum (map2 (fun p k => p * cat_mean pv n (fun s => F (k :: s))) pv (seq 0 (length pv)))
  end.
(** how often each of the outcomes 0 .. K-1 occurs; when the outcomes are independent with
    probabilities pv, this has the law of rng.multinomial(n, pv) *)
Definition tally (K : nat) (s : list nat) : list nat := map (count_occ Nat.eq_dec s) (seq 0 K).
(** the mean of F over counts of the multinomial law *)
Definition multinomial_mean (pv : vec) (n : nat) (F : list nat -> R) : R := cat_mean pv n (fun s => F (tally (length pv) s)).

(** A program runs on counts of the multinomial law with probabilities pv and on further draws x,
    over which [mean] is the mean.  For all draws it returns a matrix; the number [stat] of this matrix
    has the mean t and the mean squared deviation v from t. *)
Definition estimates_of {X} (pv : vec) (n : nat) (draw : X -> Prop) (mean : (X -> R) -> R -> Prop)
    (run : list nat -> X -> res mat) (stat : mat -> R) (t v : R) : Prop :=
  exists (F : list nat -> X -> R) (M S : list nat -> R),
    (forall counts x, multinomial_draw n (length pv) counts -> draw x -> exists A, run counts x = Ok A /\ stat A = F counts x) /\
    (forall counts, multinomial_draw n (length pv) counts -> mean (F counts) (M counts) /\ mean (fun x => (F counts x - t) ^ 2) (S counts)) /\
    multinomial_mean pv n M = t /\ multinomial_mean pv n S = v.
(** the case of the entry i, j *)
Definition estimates {X} (pv : vec) (n : nat) (draw : X -> Prop) (mean : (X -> R) -> R -> Prop)
    (run : list nat -> X -> res mat) (i j : nat) (t v : R) : Prop :=
  estimates_of pv n draw mean run (fun A => entry A i j) t v.
(** the average of f over the rows *)
Definition average (f : vec -> R) (P : mat) : R := lsum (map f P) / INR (length P).
