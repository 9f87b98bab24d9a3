(** The two functions of src/rigeo/util.py whose results depend on rounding, in binary64.
    Every elementary operation is the exact one followed by rounding to nearest, ties to even
    (IEEE 754).  Simplification: the exponent is not bounded above, so overflow to infinity is not
    modelled; nan and infinite arguments are not modelled. *)
From Flocq Require Import Core.Raux.
From Flocq Require Core.
From Verif Require Import Base.Vec Model.Util.

(** rounding to binary64 with subnormals *)
Definition b64 (x : R) : R := Generic_fmt.round Zaux.radix2 (FLT.FLT_exp (-1074) 53) Round_NE.ZnearestE x.

(** the argument of [is_triangular_number]: an unbounded Python integer or a float *)
Inductive number := PyInt (z : Z) | PyFloat (x : R).
Definition value (x : number) : R := match x with PyInt z => IZR z | PyFloat r => r end.

(** util.py:34-56 [is_triangular_number].  For an integer, 1 + 8 * x is exact and np.sqrt converts
    it to binary64, or raises TypeError when it does not fit into 64 bits.  For a float, 8 * x is
    exact and 1 + 8 * x is rounded. *)
Definition is_triangular_number_f (x : number) : res (bool * Z) :=
  let v := value x in
  if negb (is_integer v) || Rltb v 1 then Ok (false, (-1)%Z)
  else
    let* s := match x with
              | PyInt z => if (2 ^ 64 <=? 1 + 8 * z)%Z then Raise TypeError else Ok (b64 (1 + 8 * IZR z))
              | PyFloat r => Ok (b64 (1 + b64 (8 * r)))
              end in
    let n := b64 ((1 / 2) * b64 (b64 (sqrt s) - 1)) in
    Ok (is_integer n, py_int n).

(** util.py:143-166 [compute_evaluation_times] *)
Definition compute_evaluation_times_f (duration step : R) : res (Z * vec) :=
  let* _ := assert_ (Rltb 0 duration) in
  let* _ := assert_ (Rltb 0 step) in
  let n := Zceil (b64 (duration / step)) in
  Ok (n, map (fun k => b64 (step * b64 (INR k))) (seq 0 (Z.to_nat n))).
