(** Vocabulary for printed forms. *)
From Coq Require Import String Ascii List.

(** the character c does not occur in s *)
Fixpoint free_of (c : ascii) (s : string) : Prop :=
  match s with
  | EmptyString => True
  | String d s' => d <> c /\ free_of c s'
  end.
(** different objects are printed differently *)
Definition faithful {A : Type} (show : A -> string) : Prop := forall x y, show x = show y -> x = y.
(** no exponent has two digits *)
Definition digits_only (v : list nat) : Prop := Forall (fun k => k < 10) v.
