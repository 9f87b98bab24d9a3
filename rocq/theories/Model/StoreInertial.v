(** Model of the memory that InertialParameters and SpatialVector objects share with their
    arguments (inertial.py, spatial.py), on top of the values of Model/Inertial.v.  Masses are numbers, which
    cannot be modified in place. *)
From Verif Require Import Base.Vec Model.Util Model.Spatial Model.Inertial Model.Store.

(** inertial.py:20-72: the attributes *)
Record IPS := { s_mass : R; s_com : arr1; s_H : arr2 }.
(** what the object holds now *)
Definition ips_view (s : store) (p : IPS) : IP := {| ip_mass := s_mass p; ip_com := rd1 s (s_com p); ip_H := rd2 s (s_H p) |}.

(** inertial.py:43-72 [__init__].  As in [ip_init], h / mass with mass 0 is reported after the checks. *)
Definition ips_init (mass : R) (h com : option arr1) (H I : option arr2) (translate_from_com : bool) : st IPS :=
  do _ <- lift (assert_ (Rleb 0 mass));
  do com <- match h, com with
            | Some _, Some _ => lift (Raise ValueError)
            | None, None => do c <- alloc1 (zeros 3); ret (Some c)
            | Some h, None => do hv <- get1 h;
                if Reqb mass 0 then ret None else do c <- alloc1 (vdivs hv mass); ret (Some c)
            | None, Some c => ret (Some c)
            end;
  do H0 <- match H, I with
           | Some _, Some _ => lift (Raise ValueError)
           | Some H, None => ret (Some H)
           | None, Some I0 => do Iv <- get2 I0; do Hv <- lift (I2H Iv); do H <- alloc2 Hv; ret (Some H)
           | None, None => ret None
           end;
  match com with
  | None => lift NonFinite
  | Some com =>
      do cv <- get1 com;
      do H1 <- match H0 with
               | Some H => ret H
               | None => alloc2 (if translate_from_com then zeros2 3 3 else mscale mass (outer cv cv))
               end;
      do H2 <- if translate_from_com then do Hv <- get2 H1; alloc2 (madd Hv (mscale mass (outer cv cv))) else ret H1;
      ret {| s_mass := mass; s_com := com; s_H := H2 |}
  end.
(** inertial.py:77-79 [zero] *)
Definition ips_zero : st IPS := do c <- alloc1 (zeros 3); do H <- alloc2 (zeros2 3 3); ips_init 0 None (Some c) (Some H) None false.
(** inertial.py:121-134 [from_vec]: h is a slice of vec *)
Definition ips_from_vec (v : arr1) : st IPS :=
  do vv <- get1 v;
  do _ <- lift (assert_ (is_vecb 10 vv));
  let g i := nth i vv 0 in
  do I <- alloc2 [[g 4; g 5; g 6]; [g 5; g 7; g 8]; [g 6; g 8; g 9]]%nat;
  ips_init (g 0%nat) (Some (slice1 1 3 v)) None None (Some I) false.
(** inertial.py:136-157 [from_pim]: H and h are slices of J *)
Definition ips_from_pim (J : arr2) : st IPS :=
  do Jv <- get2 J;
  do _ <- lift (assert_ (is_matb 4 4 Jv));
  ips_init (entry Jv 3 3) (Some (row_slice 3 3 J)) None (Some (slice2 3 3 J)) None false.
(** inertial.py:159-178 [from_point_masses] *)
Definition ips_from_point_masses (masses : arr1) (points : arr2) : st IPS :=
  do masses <- copy1 masses;
  do points <- copy2 points;
  do m <- get1 masses;
  do P <- get2 points;
  do _ <- lift (assert_ (Nat.eqb (length m) (length P)));
  match map2 (fun m p => mscale m (outer p p)) m (map homogeneous P) with
  | [] => lift (Raise AttributeError)
  | X :: Xs => do J <- alloc2 (fold_left madd Xs X); ips_from_pim J
  end.
(** inertial.py:81-83, 105-113 [h, J]: new arrays *)
Definition ips_h (p : IPS) : st arr1 := do c <- get1 (s_com p); alloc1 (vscale (s_mass p) c).
Definition ips_J (p : IPS) : st arr2 := fun s => alloc2 (ip_J (ips_view s p)) s.
(** inertial.py:228-239 [transform] *)
Definition ips_transform (p : IPS) (rotation : option arr2) (translation : option arr1) : st IPS :=
  do rot <- match rotation with None => ret (eye 3) | Some r => get2 r end;
  do tr <- match translation with None => ret (zeros 3) | Some t => get1 t end;
  do pv <- (fun s => Ok (ips_view s p, s));
  let com := vadd (mat_vec rot (ip_com pv)) tr in
  do c <- alloc1 com;
  do H <- alloc2 (madd (mat_mul (mat_mul rot (ip_Hc pv)) (transpose rot)) (mscale (ip_mass pv) (outer com com)));
  ips_init (s_mass p) None (Some c) (Some H) None false.
(** inertial.py:241-244 [__add__] *)
Definition ips_add (p q : IPS) : st IPS :=
  do pv <- (fun s => Ok (ips_view s p, s));
  do qv <- (fun s => Ok (ips_view s q, s));
  do h <- alloc1 (vadd (ip_h pv) (ip_h qv));
  do H <- alloc2 (madd (ip_H pv) (ip_H qv));
  ips_init (s_mass p + s_mass q) (Some h) None (Some H) None false.
(** inertial.py:246-249 [__radd__] with the integer 0 that Python's sum starts from, and sum(l) of a
    non-empty list *)
Definition ips_radd0 (p : IPS) : st IPS := ret p.
Fixpoint ips_sum_from (acc : IPS) (l : list IPS) : st IPS :=
  match l with [] => ret acc | p :: r => do a <- ips_add acc p; ips_sum_from a r end.
Definition ips_sum (p : IPS) (l : list IPS) : st IPS := do a <- ips_radd0 p; ips_sum_from a l.

(** spatial.py:9-16, 18-21 [SpatialVector.__init__, from_vec]: the elements are copied into a new
    array *)
Record SVS := { ss_vec : arr1 }.
Definition svs_view (s : store) (v : SVS) : SV := {| sv_vec := rd1 s (ss_vec v) |}.
Definition svs_init (linear angular : option arr1) : st SVS :=
  do l <- match linear with None => ret None | Some a => do v <- get1 a; ret (Some v) end;
  do a <- match angular with None => ret None | Some a => do v <- get1 a; ret (Some v) end;
  do v <- lift (sv_init l a);
  do r <- alloc1 (sv_vec v);
  ret {| ss_vec := r |}.
Definition svs_from_vec (v : arr1) : st SVS :=
  do vv <- get1 v;
  do _ <- lift (assert_ (is_vecb 6 vv));
  svs_init (Some (slice1 3 3 v)) (Some (slice1 0 3 v)).
(** spatial.py:52-58 [linear, angular]: slices of the array of the object *)
Definition svs_linear (v : SVS) : arr1 := slice1 3 3 (ss_vec v).
Definition svs_angular (v : SVS) : arr1 := slice1 0 3 (ss_vec v).
