(** Extended reals with IEEE-style infinities and NaN (numpy semantics without rounding), used
    where the code computes with infinite inverse half extents (shape/ellipsoid.py). *)
From Verif Require Import Base.Vec.

Inductive eR := Fin (r : R) | PInf | NInf | NaN.

Definition eneg (a : eR) : eR :=
  match a with Fin r => Fin (- r) | PInf => NInf | NInf => PInf | NaN => NaN end.
Definition eadd (a b : eR) : eR :=
  match a, b with
  | NaN, _ | _, NaN => NaN
  | Fin x, Fin y => Fin (x + y)
  | PInf, NInf | NInf, PInf => NaN
  | PInf, _ | _, PInf => PInf
  | NInf, _ | _, NInf => NInf
  end.
(** infinity times a finite number *)
Definition inf_times (x : R) : eR := if Rltb 0 x then PInf else if Rltb x 0 then NInf else NaN.
Definition emul (a b : eR) : eR :=
  match a, b with
  | NaN, _ | _, NaN => NaN
  | Fin x, Fin y => Fin (x * y)
  | Fin x, PInf | PInf, Fin x => inf_times x
  | Fin x, NInf | NInf, Fin x => eneg (inf_times x)
  | PInf, PInf | NInf, NInf => PInf
  | PInf, NInf | NInf, PInf => NInf
  end.
Definition esub (a b : eR) : eR := eadd a (eneg b).
(** 1.0 / a; IEEE: 1/0 = inf, 1/inf = 0 *)
Definition einv (a : eR) : eR :=
  match a with
  | Fin x => if Reqb x 0 then PInf else Fin (/ x)
  | PInf | NInf => Fin 0
  | NaN => NaN
  end.
Definition esqrt (a : eR) : eR :=
  match a with
  | Fin x => if Rltb x 0 then NaN else Fin (sqrt x)
  | PInf => PInf
  | NInf | NaN => NaN
  end.
(** comparisons with NaN are false *)
Definition eleb (a b : eR) : bool :=
  match a, b with
  | NaN, _ | _, NaN => false
  | Fin x, Fin y => Rleb x y
  | NInf, _ => true
  | _, PInf => true
  | _, _ => false
  end.
Definition is_fin (a : eR) : bool := match a with Fin _ => true | _ => false end.
(** np.isclose(a, b, rtol, atol): infinities are close exactly when equal, NaN is close to nothing *)
Definition eclose (rtol atol : R) (a b : eR) : bool :=
  match a, b with
  | Fin x, Fin y => isclose rtol atol x y
  | PInf, PInf | NInf, NInf => true
  | _, _ => false
  end.

Notation evec := (list eR).
Notation emat := (list (list eR)).
Definition esum (l : evec) : eR := fold_right eadd (Fin 0) l.
Definition edot (x y : evec) : eR := esum (map2 emul x y).
Definition ecol (j : nat) (A : emat) : evec := map (fun r => nth j r NaN) A.
Definition encols (A : emat) : nat := length (hd [] A).
Definition emat_vec (A : emat) (x : evec) : evec := map (fun r => edot r x) A.
Definition evec_mat (x : evec) (A : emat) : evec :=
  map (fun j => edot x (ecol j A)) (seq 0 (encols A)).
Definition emat_mul (A B : emat) : emat := map (fun r => evec_mat r B) A.
(** np.diag *)
Definition ediag (d : evec) : emat :=
  map (fun i => map (fun j => if Nat.eqb i j then nth i d NaN else Fin 0) (seq 0 (length d)))
      (seq 0 (length d)).
(** finite arrays *)
Definition fin1 (v : vec) : evec := map Fin v.
Definition fin2 (A : mat) : emat := map fin1 A.
Definition all_fin (A : emat) : bool := forallb (forallb is_fin) A.
(** the value of a finite number (used only after [is_fin] has been checked) *)
Definition to_R (a : eR) : R := match a with Fin r => r | _ => 0 end.
