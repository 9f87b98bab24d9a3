(** Monomials, polynomials as functions, and moments of finite measures. *)
From Verif Require Import Base.Vec Spec.Basic.

(** x_1^a_1 ... x_n^a_n *)
Fixpoint mono (x : vec) (a : list nat) : R :=
  match x, a with
  | t :: x', e :: a' => t ^ e * mono x' a'
  | _, _ => 1
  end.
Fixpoint degree_of (a : list nat) : nat := match a with [] => 0%nat | e :: a' => (e + degree_of a')%nat end.
(** sum of c x^a over a table of coefficients *)
Definition peval (p : list (list nat * R)) (x : vec) : R :=
  lsum (map (fun kv => snd kv * mono x (fst kv)) p).
(** every stored index has n entries, and no index is stored twice *)
Definition pol_ok (n : nat) (p : list (list nat * R)) : Prop :=
  NoDup (map fst p) /\ forall kv, In kv p -> length (fst kv) = n.

(** a finite measure on R^n: weights and points *)
Definition measure_ok (n : nat) (mu : list (R * vec)) : Prop :=
  forall wx, In wx mu -> 0 <= fst wx /\ length (snd wx) = n.
(** the integral of f *)
Definition integral (mu : list (R * vec)) (f : vec -> R) : R :=
  lsum (map (fun wx => fst wx * f (snd wx)) mu).
(** the matrix of the integrals of g x^a x^b, for a and b in the list B *)
Definition gram (mu : list (R * vec)) (g : vec -> R) (B : list (list nat)) : mat :=
  map (fun a => map (fun b => integral mu (fun x => g x * mono x a * mono x b)) B) B.
