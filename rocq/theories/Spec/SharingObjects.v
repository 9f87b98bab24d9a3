(** Specification vocabulary for the objects of Model/StoreObjects.v. *)
From Verif Require Import Base.Vec Model.Util Model.RigidBody Model.MultiBody Model.Moment Model.Store Model.StoreObjects.

(** nothing that existed was changed *)
Definition extends {A} (l l' : list A) : Prop := exists new, l' = l ++ new.
Definition heap_grows (h h' : oheap) : Prop :=
  extends (o_shapes h) (o_shapes h') /\ extends (o_lists h) (o_lists h') /\ extends (o_params h) (o_params h').
(** a call fails as r does, or returns an object and a new state related by Q to the value of r *)
Definition has_outcome {A B S} (o : res (A * S)) (r : res B) (Q : A -> S -> B -> Prop) : Prop :=
  match r with
  | Ok b => exists a s, o = Ok (a, s) /\ Q a s b
  | Raise e => o = Raise e
  | NonFinite => o = NonFinite
  end.
(** modifications of objects that existed in h *)
Definition old_target (h : oheap) (m : change) : Prop :=
  match m with
  | Append l _ => (l < length (o_lists h))%nat
  | SetShape r _ => (r < length (o_shapes h))%nat
  | SetParams p _ => (p < length (o_params h))%nat
  end.
Definition caller_changes (h : oheap) (ms : list change) : Prop := forall m, In m ms -> old_target h m.
Definition live_list (h : oheap) (l : nat) : Prop := (l < length (o_lists h))%nat /\ forall r, In r (list_at h l) -> (r < length (o_shapes h))%nat.
Definition live_body (h : oheap) (b : BodyS) : Prop := live_list h (bs_shapes b) /\ (bs_params b < length (o_params h))%nat.
(** an array of indices *)
Definition index_matrix (h : mheap) (a : nat) : list (list elt) :=
  map (map (fun c => match c with CIdx e => e | CPol _ => PyZero end)) (marr_at h a).
Definition all_indices (h : mheap) (a : nat) : Prop := forall i j c, mcell_at h a i j = Some c -> exists e, c = CIdx e.
