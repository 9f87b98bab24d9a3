(** Scalars, exceptions as values, boolean comparisons on reals.
    These model Python/numpy runtime notions rather than a file of /repo. *)
From Coq Require Export Reals List Lra Lia Psatz ZArith Bool Arith.
Export ListNotations.
Global Open Scope R_scope.

(** Python exceptions raised anywhere in /repo/src/rigeo. *)
Inductive exn :=
| AssertionError | ValueError | TypeError | IndexError | KeyError
| AttributeError | NotImplementedError | LinAlgError.

(** Result of a modelled call: a value, an exception, or an object that contains nan/inf
    because numpy divided by zero without raising. *)
Inductive res (A : Type) : Type :=
| Ok (a : A)
| Raise (e : exn)
| NonFinite.
Arguments Ok {A} a.
Arguments Raise {A} e.
Arguments NonFinite {A}.

Definition bind {A B} (r : res A) (f : A -> res B) : res B :=
  match r with Ok a => f a | Raise e => Raise e | NonFinite => NonFinite end.

Notation "'let*' x := e 'in' f" := (bind e (fun x => f))
  (at level 200, x name, e at level 100, f at level 200, right associativity).

(** Python [assert b]. *)
Definition assert_ (b : bool) : res unit := if b then Ok tt else Raise AssertionError.

(** Real comparisons as booleans. *)
Definition Rleb (x y : R) : bool := if Rle_dec x y then true else false.
Definition Rltb (x y : R) : bool := if Rlt_dec x y then true else false.
Definition Reqb (x y : R) : bool := if Req_EM_T x y then true else false.

(** np.isclose(a, b, rtol, atol) on finite reals: |a - b| <= atol + rtol * |b|. *)
Definition isclose (rtol atol a b : R) : bool := Rleb (Rabs (a - b)) (atol + rtol * Rabs b).

(** numpy's default tolerances. *)
Definition np_rtol : R := / 100000.
Definition np_atol : R := / 100000000.

(** Apply a binary function elementwise (numpy elementwise operation on equal shapes;
    unequal shapes are excluded by the premises of the theorems). *)
Fixpoint map2 {A B C} (f : A -> B -> C) (l1 : list A) (l2 : list B) : list C :=
  match l1, l2 with
  | a :: r1, b :: r2 => f a b :: map2 f r1 r2
  | _, _ => []
  end.

(** Python [sum] of a list of floats. *)
Definition lsum (l : list R) : R := fold_right Rplus 0 l.

(** [mapM]: apply a fallible function to each element, first failure wins. *)
Fixpoint mapM {A B} (f : A -> res B) (l : list A) : res (list B) :=
  match l with
  | [] => Ok []
  | a :: r => let* b := f a in let* bs := mapM f r in Ok (b :: bs)
  end.

Global Arguments IZR : simpl never.
Global Arguments INR : simpl never.
Global Arguments Rleb : simpl never.
Global Arguments Rltb : simpl never.
Global Arguments Reqb : simpl never.
