(** Properties C43-C45: multi-indices, polynomials, moment and localizing matrices
    (src/rigeo/moment.py). *)
From Verif Require Import Base.Vec Base.VecFacts Spec.Basic Spec.Moments Model.Util Model.Constraint Model.Moment
  Proofs.PolynomialP Proofs.BasisP Proofs.MomentP.

(** * C43 *)
Theorem C43_basis : forall n d,
  (0 < d)%nat -> exists B, pol_basis n d = Ok (map Index B) /\ NoDup B /\
  (forall a, In a B <-> length a = n /\ (degree_of a <= d)%nat) /\ length B = pol_dim n d /\
  (forall d', (d' <= d)%nat -> forall a, In a (firstn (pol_dim n d') B) <-> length a = n /\ (degree_of a <= d')%nat).
Proof. exact basis_spec. Qed.
Print Assumptions C43_basis.
Theorem C43_dimension : forall n d,
  (pol_dim n d * (fact n * fact d) = fact (n + d))%nat.
Proof. exact dim_formula. Qed.
Print Assumptions C43_dimension.
Theorem C43_first : forall n d B,
  (0 < d)%nat -> pol_basis n d = Ok (map Index B) -> firstn (S n) B = repeat 0%nat n :: map (unit_idx n) (seq 0 n).
Proof. exact basis_first_code. Qed.
Print Assumptions C43_first.
Theorem C43_order_zero : forall n,
  pol_basis n 0 = Ok [PyZero].
Proof. exact basis_zero. Qed.
Print Assumptions C43_order_zero.
Theorem C43_ones : forall n d x,
  (0 < d)%nat -> exists p B, pol_ones n d = Ok p /\ pol_basis n d = Ok (map Index B) /\
  (forall a, dict_get idx_eqb a p = Some 1%R <-> length a = n /\ (degree_of a <= d)%nat) /\ (length x = n -> pol_evaluate p x = Ok (lsum (map (mono x) B))).
Proof. exact pol_ones_basis. Qed.
Print Assumptions C43_ones.
Theorem C43_ones_order_zero : forall n,
  pol_ones n 0 = Raise TypeError.
Proof. exact pol_ones_zero. Qed.
Print Assumptions C43_ones_order_zero.
Example C43_example : pol_basis 2 2 = Ok (map Index [[0; 0]; [1; 0]; [0; 1]; [2; 0]; [1; 1]; [0; 2]])%nat /\ pol_dim 2 2 = 6%nat.
Proof. split; reflexivity. Qed.

(** * C44 *)
Theorem C44_evaluate : forall n p x,
  pol_ok n p -> length x = n -> pol_evaluate p x = Ok (peval p x).
Proof. exact evaluate_some. Qed.
Print Assumptions C44_evaluate.
Theorem C44_add : forall n p q x,
  pol_ok n p -> pol_ok n q -> length x = n ->
  pol_ok n (pol_add p q) /\
  exists a b, pol_evaluate p x = Ok a /\ pol_evaluate q x = Ok b /\ pol_evaluate (pol_add p q) x = Ok (a + b).
Proof. exact pol_add_evaluate. Qed.
Print Assumptions C44_add.
Theorem C44_localize : forall n p i x,
  pol_ok n p -> length i = n -> length x = n ->
  exists q a, pol_localize p (Index i) = Ok q /\ pol_ok n q /\ pol_evaluate p x = Ok a /\ pol_evaluate q x = Ok (mono x i * a).
Proof. exact localize_evaluate. Qed.
Print Assumptions C44_localize.
Theorem C44_localize_mismatch : forall p k v i,
  In (k, v) p -> length i <> length k -> pol_localize p (Index i) = Raise AssertionError.
Proof. exact localize_mismatch. Qed.
Print Assumptions C44_localize_mismatch.
Theorem C44_affine : forall a b x,
  length x = length a -> pol_evaluate (pol_affine a b 0) x = Ok (b - dot a x).
Proof. exact affine_evaluate. Qed.
Print Assumptions C44_affine.
Theorem C44_init_wellformed : forall n c tol,
  (forall kv, In kv c -> length (fst kv) = n) -> pol_ok n (pol_init c tol).
Proof. exact pol_init_ok. Qed.
Print Assumptions C44_init_wellformed.
Theorem C44_affine_wellformed : forall a b tol,
  pol_ok (length a) (pol_affine a b tol).
Proof. exact affine_ok. Qed.
Print Assumptions C44_affine_wellformed.
Theorem C44_no_zero_stored : forall c tol kv,
  In kv (pol_init c tol) -> tol < Rabs (snd kv).
Proof. exact pol_init_stored. Qed.
Print Assumptions C44_no_zero_stored.
Theorem C44_init_function : forall c x,
  NoDup (map fst c) -> peval (pol_init c 0) x = peval c x.
Proof. exact pol_init_peval. Qed.
Print Assumptions C44_init_function.
Theorem C44_degree : forall p d,
  pol_degree p = Ok d <-> ((exists kv, In kv p /\ degree_of (fst kv) = d) /\ forall kv, In kv p -> (degree_of (fst kv) <= d)%nat).
Proof. exact degree_max. Qed.
Print Assumptions C44_degree.
Theorem C44_degree_total : forall p,
  p <> [] -> exists d, pol_degree p = Ok d.
Proof. exact degree_total. Qed.
Print Assumptions C44_degree_total.
Theorem C44_degree_zero_polynomial : pol_degree pol_zeros = Raise ValueError.
Proof. exact degree_zero. Qed.
Print Assumptions C44_degree_zero_polynomial.
Theorem C44_substitute : forall n p m x,
  pol_ok n p -> length x = n ->
  (forall kv, In kv p -> dict_get elt_eqb (Index (fst kv)) m = Some (mono x (fst kv))) -> pol_substitute p m = pol_evaluate p x.
Proof. exact substitute_evaluate. Qed.
Print Assumptions C44_substitute.
Theorem C44_substitute_missing : forall p m k v,
  In (k, v) p -> dict_get elt_eqb (Index k) m = None -> pol_substitute p m = Raise KeyError.
Proof. exact substitute_missing. Qed.
Print Assumptions C44_substitute_missing.
Example C44_example : pol_ok 2 [([1; 0]%nat, 2); ([0; 3]%nat, -1)] /\ length [1; 0]%nat = 2%nat /\ length [3; 4] = 2%nat /\
  NoDup (map fst [([1; 0]%nat, 2); ([0; 3]%nat, -1)]).
Proof.
  assert (N : NoDup (map fst [([1; 0]%nat, 2); ([0; 3]%nat, -1)])) by (repeat constructor; cbn; intuition discriminate).
  repeat split; auto. intros kv [<-|[<-|[]]]; reflexivity.
Qed.

(** * C45 *)
Theorem C45_moment_matrix : forall n d B s mu,
  (0 < d)%nat -> pol_basis n d = Ok (map Index B) -> mm_init n d = Ok s -> measure_ok n mu ->
  length B = mm_r s /\ PSD (mm_r s) (gram mu (fun _ => 1) B) /\
  exists cs, mm_moment_constraints s (gram mu (fun _ => 1) B) = Ok cs /\ forall c, In c cs -> c.
Proof. exact measure_moment. Qed.
Print Assumptions C45_moment_matrix.
Theorem C45_localize : forall n d B s mu p deg,
  (0 < d)%nat -> pol_basis n d = Ok (map Index B) -> mm_init n d = Ok s -> measure_ok n mu ->
  pol_ok n p -> pol_degree p = Ok deg -> (deg <= 2 * d)%nat ->
  exists L, mm_localize s (gram mu (fun _ => 1) B) p = Ok L /\
    L = gram mu (fun x => peval p x) (firstn (pol_dim n (d - (deg + 1) / 2)) B) /\
    ((forall wx, In wx mu -> 0 <= peval p (snd wx)) -> PSD (pol_dim n (d - (deg + 1) / 2)) L).
Proof. exact measure_localize. Qed.
Print Assumptions C45_localize.
Theorem C45_localizing_constraints : forall n d B s mu polys,
  (0 < d)%nat -> pol_basis n d = Ok (map Index B) -> mm_init n d = Ok s -> measure_ok n mu ->
  (forall p, In p polys -> pol_ok n p /\ (exists deg, pol_degree p = Ok deg /\ (deg <= 2 * d)%nat) /\ forall wx, In wx mu -> 0 <= peval p (snd wx)) ->
  exists cs, mm_localizing_constraints s (gram mu (fun _ => 1) B) polys = Ok cs /\ forall c, In c cs -> c.
Proof. exact measure_localizing. Qed.
Print Assumptions C45_localizing_constraints.
Theorem C45_too_high : forall n d s M p deg,
  (0 < d)%nat -> mm_init n d = Ok s -> is_mat (mm_r s) (mm_r s) M -> pol_degree p = Ok deg -> (2 * d < deg)%nat ->
  mm_localize s M p = Raise ValueError.
Proof. exact localize_too_high. Qed.
Print Assumptions C45_too_high.
(** what the constraints say about an arbitrary matrix *)
Theorem C45_moment_constraints_mean : forall n d B s M,
  (0 < d)%nat -> pol_basis n d = Ok (map Index B) -> mm_init n d = Ok s -> is_mat (mm_r s) (mm_r s) M ->
  exists cs, mm_moment_constraints s M = Ok cs /\
  ((forall c, In c cs -> c) <-> (forall i j k l, (i <= j < mm_r s)%nat -> (k <= l < mm_r s)%nat ->
      map2 Nat.add (nth i B []) (nth j B []) = map2 Nat.add (nth k B []) (nth l B []) -> entry M i j = entry M k l)).
Proof. exact measure_constraints_iff. Qed.
Print Assumptions C45_moment_constraints_mean.
Theorem C45_localizing_constraints_mean : forall n d s M p L,
  (0 < d)%nat -> mm_init n d = Ok s -> mm_localize s M p = Ok L ->
  exists c, mm_localizing_constraints s M [p] = Ok [c] /\ (c <-> PSD (length L) L).
Proof. exact localizing_is_psd. Qed.
Print Assumptions C45_localizing_constraints_mean.
(** relaxation order zero: the index of the single entry is an integer *)
Theorem C45_order_zero : forall n s c M p,
  mm_init n 0 = Ok s -> is_mat 1 1 M -> c <> 0 -> p = pol_init [(repeat 0%nat n, c)] 0 ->
  mm_localize s M p = Raise AttributeError.
Proof. exact localize_order_zero. Qed.
Print Assumptions C45_order_zero.
Example C45_example : exists B s, pol_basis 2 2 = Ok (map Index B) /\ mm_init 2 2 = Ok s /\
  measure_ok 2 [(1, [1; 2]); (1 / 2, [-1; 0])] /\ pol_ok 2 [([2; 0]%nat, 1)] /\ pol_degree [([2; 0]%nat, 1)] = Ok 2%nat /\
  (forall wx, In wx [(1, [1; 2]); (1 / 2, [-1; 0])] -> 0 <= peval [([2; 0]%nat, 1)] (snd wx)).
Proof.
  destruct (mm_init_ok 2 2 ltac:(lia)) as (s & Hs & _). exists (basis_list 2 2), s. split; [apply basis_ok; lia|]. split; [exact Hs|].
  split; [intros wx [<-|[<-|[]]]; cbn; split; auto; lra|]. split; [split; [repeat constructor; intros []|intros kv [<-|[]]; reflexivity]|].
  split; [reflexivity|]. intros wx [<-|[<-|[]]]; unfold peval; cbn; lra.
Qed.
