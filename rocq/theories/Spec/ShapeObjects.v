(** Which records of the model are objects that a constructor call can produce. *)
From Verif Require Import Base.Vec Model.Poly Model.Ellipsoid Model.Box Model.Cylinder.

Definition is_box (b : Box) : Prop := exists half center rotation, box_init half center rotation = Ok b.
Definition is_ell (e : Ell) : Prop := exists half rotation center, ell_init half rotation center = Ok e.
Definition is_cyl (c : Cyl) : Prop :=
  exists length radius rotation center, cyl_init length radius rotation center = Ok c.
Definition is_caps (k : Caps) : Prop := exists c, is_cyl c /\ caps_init c = Ok k.

(** defaults of the optional pose arguments in dimension n *)
Definition pose_rot (n : nat) (r : option mat) : mat := match r with None => eye n | Some r => r end.
Definition pose_tr (n : nat) (t : option vec) : vec := match t with None => zeros n | Some t => t end.

(** The axis-aligned box b contains the set K, and each of its six faces is touched by a point of K. *)
Definition tight_box (K : vec -> Prop) (b : Box) : Prop :=
  b_rot b = eye 3 /\ length (b_center b) = 3%nat /\ length (b_half b) = 3%nat /\
  (forall p, K p -> length p = 3%nat ->
     forall i, (i < 3)%nat -> Rabs (nth i p 0 - nth i (b_center b) 0) <= nth i (b_half b) 0) /\
  (forall i, (i < 3)%nat ->
     (exists p, K p /\ length p = 3%nat /\ nth i p 0 = nth i (b_center b) 0 + nth i (b_half b) 0) /\
     (exists p, K p /\ length p = 3%nat /\ nth i p 0 = nth i (b_center b) 0 - nth i (b_half b) 0)).
