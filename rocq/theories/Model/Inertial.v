(** Model of /repo/src/rigeo/inertial.py *)
From Verif Require Import Base.Vec Model.Util Model.Spatial.

(** inertial.py:8-11 [H2I] *)
Definition H2I (H : mat) : res mat :=
  let* _ := assert_ (is_matb 3 3 H) in
  Ok (msub (mscale (trace H) (eye 3)) H).

(** inertial.py:14-17 [I2H] *)
Definition I2H (I : mat) : res mat :=
  let* _ := assert_ (is_matb 3 3 I) in
  Ok (msub (mscale ((1 / 2) * trace I) (eye 3)) I).

(** inertial.py:20-72: the attributes set by [__init__] *)
Record IP := { ip_mass : R; ip_com : vec; ip_H : mat }.

(** inertial.py:43-72 [__init__].  [h / mass] with mass 0 does not raise: it yields nan, so
    the checks on H and I that follow it in the code are performed before [NonFinite] is
    reported here. *)
Definition ip_init (mass : R) (h com : option vec) (H I : option mat) (translate_from_com : bool)
  : res IP :=
  let* _ := assert_ (Rleb 0 mass) in
  let* com := match h, com with
              | Some _, Some _ => Raise ValueError
              | None, None => Ok (Some (zeros 3))
              | Some h, None => Ok (if Reqb mass 0 then None else Some (vdivs h mass))
              | None, Some c => Ok (Some c)
              end in
  let* H0 := match H, I with
             | Some _, Some _ => Raise ValueError
             | Some H, None => Ok (Some H)
             | None, Some I0 => let* H := I2H I0 in Ok (Some H)
             | None, None => Ok None
             end in
  match com with
  | None => NonFinite
  | Some com =>
      let H1 := match H0 with
                | Some H => H
                | None => if translate_from_com then zeros2 3 3
                          else mscale mass (outer com com)
                end in
      let H2 := if translate_from_com then madd H1 (mscale mass (outer com com)) else H1 in
      Ok {| ip_mass := mass; ip_com := com; ip_H := H2 |}
  end.

(** inertial.py:77-79 [zero] *)
Definition ip_zero : res IP := ip_init 0 None (Some (zeros 3)) (Some (zeros2 3 3)) None false.

(** inertial.py:81-83 [h] *)
Definition ip_h (p : IP) : vec := vscale (ip_mass p) (ip_com p).
(** inertial.py:90-93 [I] *)
Definition ip_I (p : IP) : res mat := H2I (ip_H p).
(** inertial.py:85-88 [vec] *)
Definition ip_vec (p : IP) : res vec :=
  let* I := ip_I p in
  let* v := vech I 0 in
  Ok ([ip_mass p] ++ ip_h p ++ v).
(** inertial.py:95-98 [Hc] *)
Definition ip_Hc (p : IP) : mat := msub (ip_H p) (mscale (ip_mass p) (outer (ip_com p) (ip_com p))).
(** inertial.py:100-103 [Ic] *)
Definition ip_Ic (p : IP) : res mat := H2I (ip_Hc p).
(** inertial.py:105-113 [J] *)
Definition ip_J (p : IP) : mat :=
  map2 (fun r x => r ++ [x]) (ip_H p) (ip_h p) ++ [ip_h p ++ [ip_mass p]].
(** inertial.py:115-119 [M] *)
Definition ip_M (p : IP) : res mat :=
  let* S := skew3 (ip_h p) in
  let* I := ip_I p in
  Ok (block I S (mneg S) (mscale (ip_mass p) (eye 3))).

(** inertial.py:121-134 [from_vec] *)
Definition ip_from_vec (v : vec) : res IP :=
  let* _ := assert_ (is_vecb 10 v) in
  let g i := nth i v 0 in
  let I := [[g 4; g 5; g 6]; [g 5; g 7; g 8]; [g 6; g 8; g 9]]%nat in
  ip_init (g 0%nat) (Some (firstn 3 (skipn 1 v))) None None (Some I) false.

(** inertial.py:136-157 [from_pim] *)
Definition ip_from_pim (J : mat) : res IP :=
  let* _ := assert_ (is_matb 4 4 J) in
  ip_init (entry J 3 3) (Some (firstn 3 (nth 3 J []))) None (Some (sub_mat 3 3 J)) None false.

(** inertial.py:159-178 [from_point_masses].  [sum([...])] starts from the integer 0, which has
    no [shape]: no points gives AttributeError (for an array of shape (0, 3)). *)
Definition homogeneous (p : vec) : vec := p ++ [1].
Definition ip_from_point_masses (masses : vec) (points : mat) : res IP :=
  let* _ := assert_ (Nat.eqb (length masses) (length points)) in
  let P := map homogeneous points in
  match map2 (fun m p => mscale m (outer p p)) masses P with
  | [] => Raise AttributeError
  | X :: Xs => ip_from_pim (fold_left madd Xs X)
  end.

(** np.min *)
Definition lmin (l : vec) : R := match l with [] => 0 | a :: r => fold_left Rmin r a end.
(** np.max *)
Definition lmax (l : vec) : R := match l with [] => 0 | a :: r => fold_left Rmax r a end.

(** np.allclose on two matrices of equal shape *)
Definition allclose_mat (rtol atol : R) (A B : mat) : bool :=
  forallb (fun b => b) (concat (map2 (map2 (isclose rtol atol)) A B)).

(** inertial.py:192-205 [is_same] *)
Definition ip_is_same (p q : IP) : bool := allclose_mat np_rtol np_atol (ip_J p) (ip_J q).

(** inertial.py:207-226 [consistent]; [eigs] is the answer of np.linalg.eigvals(self.J) *)
Definition ip_consistent (eigs : vec) (eps : R) : bool := Rleb eps (lmin eigs).

(** inertial.py:228-239 [transform] *)
Definition ip_transform (p : IP) (rotation : option mat) (translation : option vec) : res IP :=
  let rot := match rotation with None => eye 3 | Some r => r end in
  let tr := match translation with None => zeros 3 | Some t => t end in
  let com := vadd (mat_vec rot (ip_com p)) tr in
  let H := madd (mat_mul (mat_mul rot (ip_Hc p)) (transpose rot))
                (mscale (ip_mass p) (outer com com)) in
  ip_init (ip_mass p) None (Some com) (Some H) None false.

(** inertial.py:241-244 [__add__] *)
Definition ip_add (p q : IP) : res IP :=
  ip_init (ip_mass p + ip_mass q) (Some (vadd (ip_h p) (ip_h q))) None
          (Some (madd (ip_H p) (ip_H q))) None false.

(** inertial.py:246-249 [__radd__]: the left operand is the integer 0 that Python's [sum] starts
    from, or another parameter object. *)
Inductive addend := IntZero | Params (p : IP).
Definition ip_radd (p : IP) (other : addend) : res IP :=
  match other with IntZero => Ok p | Params q => ip_add p q end.
(** Python [sum(l)] over parameter objects: 0 + p1 calls p1.__radd__(0). *)
Definition py_sum (l : list IP) : res addend :=
  fold_left (fun acc p =>
    let* a := acc in
    let* s := match a with IntZero => ip_radd p IntZero | Params q => ip_add q p end in
    Ok (Params s)) l (Ok IntZero).

(** inertial.py:251-254 [body_wrench] *)
Definition ip_body_wrench (p : IP) (V A : SV) : res SV :=
  let* M := ip_M p in
  let* ad := sv_adjoint V in
  sv_from_vec (vsub (mat_vec M (sv_vec A)) (mat_vec (mat_mul (transpose ad) M) (sv_vec V))).

(** rigidbody.py:137-155 [RigidBody.regressor] *)
Definition regressor (V A : SV) : res mat :=
  let* LA := lift6 A in
  let* ad := sv_adjoint V in
  let* LV := lift6 V in
  Ok (msub LA (mat_mul (transpose ad) LV)).
