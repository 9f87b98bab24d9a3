(** The probability laws that the samplers aim at. *)
From Verif Require Import Base.Vec Spec.Basic Spec.Shapes Spec.Integrals.

(** the faces of the box with half extents h in the order +x, -x, +y, -y, +z, -z *)
Definition face_points (h : vec) (k : nat) (p : vec) : Prop :=
  in_cube h p /\ nth (k / 2) p 0 = (if Nat.even k then 1 else -1) * nth (k / 2) h 0.
Definition face_area (h : vec) (k : nat) (A : R) : Prop :=
  match h with
  | [x; y; z] =>
      let rectangle w w' := integral2 (- w) w (fun _ => - w') (fun _ => w') (fun _ _ => 1) A in
      match (k / 2)%nat with O => rectangle y z | 1%nat => rectangle x z | _ => rectangle x y end
  | _ => False
  end.
(** its edges: four along each axis, the signs of the other two coordinates being ++, +-, --, -+ *)
Definition edge_points (h : vec) (k : nat) (p : vec) : Prop :=
  match h with
  | [x; y; z] =>
      let s := if Nat.ltb (k mod 4) 2 then 1 else -1 in
      let s' := if Nat.eqb (k mod 4) 0 || Nat.eqb (k mod 4) 3 then 1 else -1 in
      exists t, Rabs t <= nth (k / 4) h 0 /\
        p = match (k / 4)%nat with
            | O => [t; s * y; s' * z] | 1%nat => [s * x; t; s' * z] | _ => [s * x; s' * y; t]
            end
  | _ => False
  end.
Definition edge_length (h : vec) (k : nat) (A : R) : Prop :=
  integral (fun _ => 1) (- nth (k / 4) h 0) (nth (k / 4) h 0) A.
(** when counts outcomes of each kind are listed one kind after the other, item j is of kind k *)
Definition of_kind (counts : list nat) (k j : nat) : Prop :=
  (fold_right Nat.add 0 (firstn k counts) <= j < fold_right Nat.add 0 (firstn (S k) counts))%nat.
(** pv are the shares that the parts measured by [part] have in the whole measured by [whole] *)
Definition shares (n : nat) (part : nat -> R -> Prop) (whole : R -> Prop) (pv : vec) : Prop :=
  length pv = n /\ (forall x, In x pv -> 0 <= x) /\ lsum pv = 1 /\
  exists T, 0 < T /\ whole T /\ forall k, (k < n)%nat -> exists A, part k A /\ nth k pv 0 = A / T.
