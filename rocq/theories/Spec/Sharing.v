(** Specification vocabulary for objects that may share memory with the arrays of their caller. *)
From Verif Require Import Base.Vec Model.Util Model.Store.

(** arrays that exist in a store *)
Definition live1 (s : store) (a : arr1) : Prop := (a1_buf a < length s)%nat.
Definition live2 (s : store) (a : arr2) : Prop := (a2_buf a < length s)%nat.
Definition live_opt {A} (live : store -> A -> Prop) (s : store) (o : option A) : Prop := match o with None => True | Some a => live s a end.
(** assignments to elements of arrays that existed in s *)
Definition caller_writes (s : store) (ws : writes) : Prop := forall w, In w ws -> (fst (fst w) < length s)%nat.
(** assignments to elements of given buffers *)
Definition writes_to (bufs : list nat) (ws : writes) : Prop := forall w, In w ws -> In (fst (fst w)) bufs.
(** a call that changes nothing that existed before it *)
Definition grows (s s' : store) : Prop := exists new, s' = s ++ new.
(** m, started in s, has the outcome r: it fails as r does, or returns an object related by Q to the
    value of r *)
Definition implements {A B} (m : st A) (s : store) (r : res B) (Q : A -> store -> B -> Prop) : Prop :=
  match r with
  | Ok b => exists a s', m s = Ok (a, s') /\ grows s s' /\ Q a s' b
  | Raise e => m s = Raise e
  | NonFinite => m s = NonFinite
  end.
(** no assignment to arrays that existed before the call changes the object, and no assignment to the
    arrays of the object changes anything that existed before *)
Definition independent {B} (s s' : store) (observe : store -> B) (own : list nat) : Prop :=
  (forall ws, caller_writes s ws -> observe (wrs s' ws) = observe s') /\
  (forall ws b i, writes_to own ws -> (b < length s)%nat -> cell (wrs s' ws) b i = cell s b i).
