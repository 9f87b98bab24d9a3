(** Model of /repo/src/rigeo/moment.py.  Multi-indices hold naturals (the code never builds a
    negative exponent); coefficients are reals. *)
From Verif Require Import Base.Vec Model.Util Model.Constraint.

(** moment.py:9-13 [MomentIndex.__init__]: the tuple of integers *)
Notation idx := (list nat).
(** moment.py:24-27 [MomentIndex.__eq__] on two indices *)
Fixpoint idx_eqb (a b : idx) : bool :=
  match a, b with
  | [], [] => true
  | x :: a', y :: b' => Nat.eqb x y && idx_eqb a' b'
  | _, _ => false
  end.
(** What the lists and arrays of this file hold: the Python integer 0 (the empty sum), numpy's
    integer 0, or a MomentIndex. *)
Inductive elt := PyZero | NpZero | Index (v : idx).
(** dictionary keys: an integer is never equal to a MomentIndex, and hash(0) = hash(np.int64(0)) *)
Definition elt_eqb (a b : elt) : bool :=
  match a, b with
  | Index u, Index v => idx_eqb u v
  | Index _, _ | _, Index _ => false
  | _, _ => true
  end.
(** moment.py:29-34 [MomentIndex.__add__] with an element on the right: 0 is neutral when it is a
    Python int, numpy's 0 has no attribute [value] *)
Definition idx_add (a : idx) (b : elt) : res idx :=
  match b with
  | PyZero => Ok a
  | NpZero => Raise AttributeError
  | Index b => let* _ := assert_ (Nat.eqb (length b) (length a)) in Ok (map2 Nat.add a b)
  end.
(** the builtin [sum] over MomentIndex objects: starts from the integer 0, [0 + g] is
    [g.__radd__(0)] (moment.py:36-38), which swaps the operands *)
Definition elt_sum (l : list idx) : res elt :=
  fold_left (fun acc g => let* a := acc in
    let* s := match a with Index u => idx_add u (Index g) | _ => idx_add g a end in Ok (Index s)) l (Ok PyZero).
(** [a * b] inside np.outer (moment.py:40-41 [__mul__]): the array of [[0]] holds numpy integers;
    a list mixing integers and indices never occurs *)
Definition elt_mul (a b : elt) : res elt :=
  match a with
  | Index u => let* s := idx_add u b in Ok (Index s)
  | _ => Ok NpZero
  end.

(** Python dictionaries as association lists in insertion order. *)
Fixpoint dict_set {K V} (eqb : K -> K -> bool) (k : K) (v : V) (m : list (K * V)) : list (K * V) :=
  match m with
  | [] => [(k, v)]
  | (k', v') :: r => if eqb k k' then (k', v) :: r else (k', v') :: dict_set eqb k v r
  end.
Fixpoint dict_get {K V} (eqb : K -> K -> bool) (k : K) (m : list (K * V)) : option V :=
  match m with
  | [] => None
  | (k', v) :: r => if eqb k k' then Some v else dict_get eqb k r
  end.

(** moment.py:44-54 [Polynomial.__init__]: [coefficients]; entries within tol of 0 are dropped *)
Notation pol := (list (list nat * R)).
Definition pol_init (c : list (idx * R)) (tol : R) : pol :=
  fold_left (fun m kv => if isclose 0 tol (snd kv) 0 then m else dict_set idx_eqb (fst kv) (snd kv) m) c [].
(** moment.py:56-59 [Polynomial.zeros] *)
Definition pol_zeros : pol := pol_init [] 0.
(** e_i in n dimensions: np.zeros(n, dtype=int) with entry i set to 1 (moment.py:73-74, 132-133) *)
Definition unit_idx (n i : nat) : idx := set_nth (repeat 0%nat n) i 1%nat.
(** moment.py:67-76 [Polynomial.affine] *)
Definition pol_affine (a : vec) (b : R) (tol : R) : pol :=
  let n := length a in
  let c := fold_left (fun c i => dict_set idx_eqb (unit_idx n i) (- nth i a 0) c) (seq 0 n)
             (dict_set idx_eqb (repeat 0%nat n) b []) in
  pol_init c tol.
(** np.sum of the integers of an index *)
Definition idx_deg (v : idx) : nat := fold_right Nat.add 0%nat v.
(** moment.py:78-81 [degree]; np.max of an empty list raises ValueError *)
Definition pol_degree (p : pol) : res nat :=
  match map (fun kv => idx_deg (fst kv)) p with
  | [] => Raise ValueError
  | d :: ds => Ok (fold_left Nat.max ds d)
  end.
(** moment.py:90-97 [__add__] *)
Definition pol_add (p q : pol) : pol :=
  pol_init (fold_left (fun c kv =>
    match dict_get idx_eqb (fst kv) c with
    | Some v => dict_set idx_eqb (fst kv) (v + snd kv) c
    | None => dict_set idx_eqb (fst kv) (snd kv) c
    end) q p) 0.
(** moment.py:99-103 [localize] *)
Definition pol_localize (p : pol) (i : elt) : res pol :=
  let* ks := mapM (fun kv => let* k := idx_add (fst kv) i in Ok (k, snd kv)) p in
  Ok (pol_init (fold_left (fun c kv => dict_set idx_eqb (fst kv) (snd kv) c) ks []) 0).
(** moment.py:105-112 [substitute]; a missing index raises KeyError *)
Definition pol_substitute (p : pol) (m : list (elt * R)) : res R :=
  let* ts := mapM (fun kv => match dict_get elt_eqb (Index (fst kv)) m with
                             | Some v => Ok (snd kv * v)
                             | None => Raise KeyError
                             end) p in
  Ok (lsum ts).
(** x ** v with numpy broadcasting of a length-1 operand *)
Definition np_pow (x : vec) (v : idx) : res vec :=
  if Nat.eqb (length x) (length v) then Ok (map2 pow x v)
  else match x, v with
       | [a], _ => Ok (map (pow a) v)
       | _, [e] => Ok (map (fun a => a ^ e) x)
       | _, _ => Raise ValueError
       end.
(** np.prod *)
Definition lprod (l : vec) : R := fold_right Rmult 1 l.
(** moment.py:114-122 [evaluate] *)
Definition pol_evaluate (p : pol) (x : vec) : res R :=
  let* ts := mapM (fun kv => let* m := np_pow x (fst kv) in Ok (snd kv * lprod m)) p in
  Ok (lsum ts).

(** itertools.combinations_with_replacement: by position, in lexicographic order *)
Fixpoint cwr {A} (d : nat) : list A -> list (list A) :=
  match d with
  | O => fun _ => [[]]
  | S d' => fix go (l : list A) := match l with
            | [] => []
            | x :: r => map (cons x) (cwr d' (x :: r)) ++ go r
            end
  end.
(** moment.py:124-138 [Polynomial.basis] *)
Definition pol_basis (n d : nat) : res (list elt) :=
  mapM elt_sum (cwr d (repeat 0%nat n :: map (unit_idx n) (seq 0 n))).
(** math.comb for natural arguments *)
Definition comb (n k : nat) : nat :=
  if Nat.leb k n then (fact n / (fact k * fact (n - k)))%nat else 0%nat.
(** moment.py:140-143 [Polynomial.dim] *)
Definition pol_dim (n d : nat) : nat := comb (n + d) d.
(** [Polynomial.dim(n, d - v)]: math.comb raises ValueError for a negative argument *)
Definition pol_dim_sub (n d v : nat) : res nat :=
  if Nat.ltb d v then Raise ValueError else Ok (pol_dim n (d - v)).
(** moment.py:61-65 [Polynomial.ones]: an integer key is not iterable *)
Definition pol_ones (n d : nat) : res pol :=
  let* b := pol_basis n d in
  let* ks := mapM (fun e => match e with Index v => Ok (v, 1) | _ => Raise TypeError end) b in
  Ok (pol_init ks 0).

(** moment.py:147-155 [MomentMatrix.__init__]: n, d, r, shape = (r, r), indices *)
Record MM := { mm_n : nat; mm_d : nat; mm_r : nat; mm_indices : list (list elt) }.
Definition mm_init (n d : nat) : res MM :=
  let* b := pol_basis n d in
  let* ix := mapM (fun a => mapM (elt_mul a) b) b in
  Ok {| mm_n := n; mm_d := d; mm_r := pol_dim n d; mm_indices := ix |}.
(** self.indices[i, j] *)
Definition mm_index (s : MM) (i j : nat) : res elt :=
  match nth_error (mm_indices s) i with
  | Some row => match nth_error row j with Some e => Ok e | None => Raise IndexError end
  | None => Raise IndexError
  end.
(** the pairs (i, j) with i <= j < r, in the order of the loops (moment.py:170-171, 205-206) *)
Definition upper_pairs (r : nat) : list (nat * nat) :=
  flat_map (fun i => map (fun j => (i, j)) (seq i (r - i))) (seq 0 r).
(** moment.py:163-174 [_compute_var_map] *)
Definition mm_var_map (s : MM) (M : mat) : res (list (elt * R)) :=
  let* _ := assert_ (is_matb (mm_r s) (mm_r s) M) in
  fold_left (fun acc ij =>
    let* m := acc in
    let* k := mm_index s (fst ij) (snd ij) in
    Ok (dict_set elt_eqb k (entry M (fst ij) (snd ij)) m)) (upper_pairs (mm_r s)) (Ok []).
(** moment.py:176-183 [localizing_matrix] with d - v; entries in row-major order *)
Definition mm_localizing_matrix (s : MM) (v : nat) (p : pol) : res (list (list pol)) :=
  let* r := pol_dim_sub (mm_n s) (mm_d s) v in
  mapM (fun i => mapM (fun j => let* k := mm_index s i j in pol_localize p k) (seq 0 r)) (seq 0 r).
(** moment.py:196-209 [moment_constraints] *)
Definition mm_moment_constraints (s : MM) (M : mat) : res (list Prop) :=
  let* _ := assert_ (is_matb (mm_r s) (mm_r s) M) in
  let* m := mm_var_map s M in
  mapM (fun ij =>
    let* k := mm_index s (fst ij) (snd ij) in
    match dict_get elt_eqb k m with
    | Some v => Ok (v = entry M (fst ij) (snd ij))
    | None => Raise KeyError
    end) (upper_pairs (mm_r s)).
(** deg // 2 or (deg + 1) // 2 (moment.py:219-223, 242-246) *)
Definition half_up (deg : nat) : nat := if Nat.even deg then (deg / 2)%nat else ((deg + 1) / 2)%nat.
(** moment.py:185-194 and 211-234 [localizing_constraints]: each polynomial has its own PSD matrix
    variable, equal entry by entry to the substituted localizing matrix *)
Definition mm_localizing_constraints (s : MM) (M : mat) (polys : list pol) : res (list Prop) :=
  let* _ := assert_ (is_matb (mm_r s) (mm_r s) M) in
  let* m := mm_var_map s M in
  mapM (fun p =>
    let* deg := pol_degree p in
    let* Ls := mm_localizing_matrix s (half_up deg) p in
    let* L := mapM (mapM (fun q => pol_substitute q m)) Ls in
    Ok (exists L_var, cp_psd_var (length Ls) L_var /\
          forall i j, (i < length Ls)%nat -> (j < length Ls)%nat -> entry L_var i j = entry L i j)) polys.
(** moment.py:236-253 [localize] *)
Definition mm_localize (s : MM) (M : mat) (p : pol) : res mat :=
  let* _ := assert_ (is_matb (mm_r s) (mm_r s) M) in
  let* m := mm_var_map s M in
  let* deg := pol_degree p in
  let* r := pol_dim_sub (mm_n s) (mm_d s) (half_up deg) in
  mapM (fun i => mapM (fun j =>
    let* k := mm_index s i j in
    let* q := pol_localize p k in
    pol_substitute q m) (seq 0 r)) (seq 0 r).
