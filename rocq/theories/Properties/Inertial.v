(** Properties C01-C10: inertial parameters (src/rigeo/inertial.py, constraint.py).
    Every theorem is closed by a lemma of Proofs/; the examples show that the hypotheses are met
    by concrete non-trivial objects. *)
From Verif Require Import Proofs.Coord Model.Util Model.Spatial Model.Inertial Model.Constraint
  Spec.Objects Spec.Samples Proofs.InertialP Proofs.InertialT Proofs.Dynamics Proofs.ConsistentP
  Proofs.SamplesP.

(** * C01 *)
(** I2H (H2I X) = X *)
Theorem C01_I2H_H2I : forall X,
  is_mat 3 3 X -> exists Y, H2I X = Ok Y /\ I2H Y = Ok X.
Proof. exact I2H_H2I. Qed.
Print Assumptions C01_I2H_H2I.
(** H2I (I2H X) = X *)
Theorem C01_H2I_I2H : forall X,
  is_mat 3 3 X -> exists Y, I2H X = Ok Y /\ H2I Y = Ok X.
Proof. exact H2I_I2H. Qed.
Print Assumptions C01_H2I_I2H.
(** H2I of the second moment of a point mass is w |-> m p x (w x p) *)
Theorem C01_point_mass : forall m p w,
  length p = 3%nat -> length w = 3%nat ->
  exists Y, H2I (mscale m (outer p p)) = Ok Y /\
            mat_vec Y w = vscale m (cross p (cross w p)).
Proof. exact H2I_point_mass. Qed.
Print Assumptions C01_point_mass.
Theorem C01_H2I_symmetric : forall X Y,
  H2I X = Ok Y -> symmetric 3 X -> symmetric 3 Y.
Proof. exact H2I_symmetric. Qed.
Print Assumptions C01_H2I_symmetric.
Theorem C01_I2H_symmetric : forall X Y,
  I2H X = Ok Y -> symmetric 3 X -> symmetric 3 Y.
Proof. exact I2H_symmetric. Qed.
Print Assumptions C01_I2H_symmetric.
Theorem C01_H2I_raise : forall X,
  ~ is_mat 3 3 X -> H2I X = Raise AssertionError.
Proof. exact H2I_raise. Qed.
Print Assumptions C01_H2I_raise.
Theorem C01_I2H_raise : forall X,
  ~ is_mat 3 3 X -> I2H X = Raise AssertionError.
Proof. exact I2H_raise. Qed.
Print Assumptions C01_I2H_raise.
Example C01_example : is_mat 3 3 [[1; 2; 3]; [4; 5; 6]; [7; 8; 9]] /\
  H2I [[1; 2; 3]; [4; 5; 6]; [7; 8; 9]] = Ok [[14; -2; -3]; [-4; 10; -6]; [-7; -8; 6]] /\
  ~ is_mat 3 3 [[1; 2]; [3; 4]].
Proof.
  split; [apply is_mat33|]. split; [|intros [H _]; discriminate].
  rewrite H2I_ok by apply is_mat33. f_equal. cbn. list_eq; ring.
Qed.

(** * C02 *)
(** from_vec(theta).vec == theta *)
Theorem C02_from_vec_vec : forall v,
  length v = 10%nat -> 0 < nth 0 v 0 ->
  exists p, ip_from_vec v = Ok p /\ ip_ok p /\ ip_mass p = nth 0 v 0 /\
            symmetric 3 (ip_H p) /\ ip_vec p = Ok v.
Proof. exact from_vec_vec. Qed.
Print Assumptions C02_from_vec_vec.
(** from_vec(p.vec) == p *)
Theorem C02_vec_from_vec : forall p,
  ip_ok p -> 0 < ip_mass p -> symmetric 3 (ip_H p) ->
  exists v, ip_vec p = Ok v /\ length v = 10%nat /\ ip_from_vec v = Ok p.
Proof. exact vec_from_vec. Qed.
Print Assumptions C02_vec_from_vec.
(** the order of the entries *)
Theorem C02_vec_order : forall p,
  ip_ok p -> exists Y, ip_I p = Ok Y /\ is_mat 3 3 Y /\
  ip_vec p = Ok [ip_mass p; nth 0 (ip_h p) 0; nth 1 (ip_h p) 0; nth 2 (ip_h p) 0;
                 entry Y 0 0; entry Y 0 1; entry Y 0 2; entry Y 1 1; entry Y 1 2; entry Y 2 2].
Proof. exact ip_vec_ok. Qed.
Print Assumptions C02_vec_order.
Theorem C02_from_vec_massless : forall v,
  length v = 10%nat -> nth 0 v 0 = 0 -> ip_from_vec v = NonFinite.
Proof. exact from_vec_massless. Qed.
Print Assumptions C02_from_vec_massless.
Theorem C02_from_vec_negative : forall v,
  length v = 10%nat -> nth 0 v 0 < 0 -> ip_from_vec v = Raise AssertionError.
Proof. exact from_vec_negative. Qed.
Print Assumptions C02_from_vec_negative.
Theorem C02_from_vec_length : forall v,
  length v <> 10%nat -> ip_from_vec v = Raise AssertionError.
Proof. exact from_vec_length. Qed.
Print Assumptions C02_from_vec_length.
Example C02_example : (length [2; 1; 0; 0; 3; 0; 0; 4; 0; 5] = 10%nat /\
  0 < nth 0 [2; 1; 0; 0; 3; 0; 0; 4; 0; 5] 0) /\
  (ip_ok p0 /\ 0 < ip_mass p0 /\ symmetric 3 (ip_H p0)).
Proof.
  split; [split; [reflexivity|cbn; lra]|].
  exact (conj p0_ok (conj p0_mass p0_sym)).
Qed.

(** * C03 *)
Theorem C03_from_pim_J : forall J,
  is_mat 4 4 J -> symmetric 4 J -> 0 < entry J 3 3 ->
  exists p, ip_from_pim J = Ok p /\ ip_ok p /\ ip_mass p = entry J 3 3 /\
            symmetric 3 (ip_H p) /\ ip_J p = J.
Proof. exact from_pim_J. Qed.
Print Assumptions C03_from_pim_J.
Theorem C03_pim_round_trip : forall p,
  ip_ok p -> 0 < ip_mass p -> ip_from_pim (ip_J p) = Ok p.
Proof. exact pim_roundtrip. Qed.
Print Assumptions C03_pim_round_trip.
(** for a non-symmetric J the last row, not the last column, is used *)
Theorem C03_from_pim_row : forall J,
  is_mat 4 4 J -> 0 < entry J 3 3 ->
  exists p, ip_from_pim J = Ok p /\ ip_ok p /\ ip_mass p = entry J 3 3 /\
   (forall i, (i < 3)%nat -> nth i (ip_com p) 0 = entry J 3 i / entry J 3 3) /\
   (forall i j, (i < 3)%nat -> (j < 3)%nat -> entry (ip_H p) i j = entry J i j).
Proof. exact from_pim_row. Qed.
Print Assumptions C03_from_pim_row.
Theorem C03_from_pim_shape : forall J,
  ~ is_mat 4 4 J -> ip_from_pim J = Raise AssertionError.
Proof. exact from_pim_shape. Qed.
Print Assumptions C03_from_pim_shape.
Theorem C03_from_pim_negative : forall J,
  is_mat 4 4 J -> entry J 3 3 < 0 -> ip_from_pim J = Raise AssertionError.
Proof. exact from_pim_negative. Qed.
Print Assumptions C03_from_pim_negative.
Theorem C03_from_pim_massless : forall J,
  is_mat 4 4 J -> entry J 3 3 = 0 -> ip_from_pim J = NonFinite.
Proof. exact from_pim_massless. Qed.
Print Assumptions C03_from_pim_massless.
Example C03_example : is_mat 4 4 (ip_J p0) /\ symmetric 4 (ip_J p0) /\ 0 < entry (ip_J p0) 3 3.
Proof.
  split; [exact (ip_J_ok p0 p0_ok)|]. split; [exact (ip_J_symmetric p0 p0_ok p0_sym)|].
  cbn. lra.
Qed.

(** * C04 *)
Theorem C04_vec_pim : forall v,
  length v = 10%nat -> 0 < nth 0 v 0 ->
  exists p, ip_from_vec v = Ok p /\ pim_must_equal_vec v = Ok (ip_J p).
Proof. exact pim_must_equal_vec_matches. Qed.
Print Assumptions C04_vec_pim.
Theorem C04_vec_pim_object : forall p v,
  ip_ok p -> symmetric 3 (ip_H p) -> ip_vec p = Ok v ->
  pim_must_equal_vec v = Ok (ip_J p).
Proof. exact pim_must_equal_vec_J. Qed.
Print Assumptions C04_vec_pim_object.
Theorem C04_linear : forall a b v w X Y,
  length v = 10%nat -> length w = 10%nat ->
  pim_must_equal_vec v = Ok X -> pim_must_equal_vec w = Ok Y ->
  pim_must_equal_vec (vadd (vscale a v) (vscale b w)) = Ok (madd (mscale a X) (mscale b Y)).
Proof. exact pim_must_equal_vec_linear. Qed.
Print Assumptions C04_linear.
Theorem C04_injective : forall v w X,
  length v = 10%nat -> length w = 10%nat ->
  pim_must_equal_vec v = Ok X -> pim_must_equal_vec w = Ok X -> v = w.
Proof. exact pim_must_equal_vec_inj. Qed.
Print Assumptions C04_injective.
Theorem C04_shape : forall v,
  length v <> 10%nat -> pim_must_equal_vec v = Raise AssertionError.
Proof. exact pim_must_equal_vec_shape. Qed.
Print Assumptions C04_shape.
Example C04_example : exists v, ip_vec p0 = Ok v /\ pim_must_equal_vec v = Ok (ip_J p0).
Proof.
  destruct (vec_from_vec p0 p0_ok p0_mass p0_sym) as (v & Hv & _).
  exists v. split; [exact Hv|exact (pim_must_equal_vec_J p0 v p0_ok p0_sym Hv)].
Qed.

(** * C05 *)
Theorem C05_congruence : forall p r t,
  ip_ok p -> is_mat 3 3 (rot_of r) -> length (tr_of t) = 3%nat ->
  0 <= ip_mass p ->
  exists q T, ip_transform p r t = Ok q /\ transform_matrix r t 3 = Ok T /\ is_mat 4 4 T /\
    ip_J q = mat_mul (mat_mul T (ip_J p)) (transpose T).
Proof. exact ip_transform_J. Qed.
Print Assumptions C05_congruence.
Theorem C05_compose : forall p R1 t1 R2 t2,
  ip_ok p -> is_mat 3 3 R1 -> length t1 = 3%nat -> is_mat 3 3 R2 -> length t2 = 3%nat ->
  0 <= ip_mass p ->
  exists q, ip_transform p (Some R1) (Some t1) = Ok q /\
    ip_transform q (Some R2) (Some t2) =
    ip_transform p (Some (mat_mul R2 R1)) (Some (vadd (mat_vec R2 t1) t2)).
Proof. exact ip_transform_compose. Qed.
Print Assumptions C05_compose.
Theorem C05_identity : forall p r t,
  ip_ok p -> 0 <= ip_mass p ->
  rot_of r = eye 3 -> tr_of t = zeros 3 -> ip_transform p r t = Ok p.
Proof. exact ip_transform_identity. Qed.
Print Assumptions C05_identity.
Theorem C05_inverse : forall p Q t,
  ip_ok p -> orthogonal 3 Q -> length t = 3%nat -> 0 <= ip_mass p ->
  exists q, ip_transform p (Some Q) (Some t) = Ok q /\
    ip_transform q (Some (transpose Q)) (Some (vneg (mat_vec (transpose Q) t))) = Ok p.
Proof. exact ip_transform_inverse. Qed.
Print Assumptions C05_inverse.
Example C05_example : ip_ok p0 /\ orthogonal 3 Q0 /\ length t0 = 3%nat /\ 0 <= ip_mass p0.
Proof. split; [exact p0_ok|]. split; [exact Q0_orth|]. split; [reflexivity|left; exact p0_mass]. Qed.

(** * C06 *)
(** moving the body moves its points *)
Theorem C06_moves_points : forall p r t s,
  describes p s -> pms_ok s -> 0 <= ip_mass p ->
  is_mat 3 3 (rot_of r) -> length (tr_of t) = 3%nat ->
  exists q, ip_transform p r t = Ok q /\ describes q (pms_move (rot_of r) (tr_of t) s).
Proof. exact transform_describes. Qed.
Print Assumptions C06_moves_points.
(** the central second moment and inertia turn with the body and do not depend on t *)
Theorem C06_central_second_moment : forall p r t q,
  ip_ok p -> is_mat 3 3 (rot_of r) -> length (tr_of t) = 3%nat ->
  0 <= ip_mass p -> ip_transform p r t = Ok q ->
  ip_Hc q = mat_mul (mat_mul (rot_of r) (ip_Hc p)) (transpose (rot_of r)).
Proof. exact ip_Hc_transform. Qed.
Print Assumptions C06_central_second_moment.
Theorem C06_central_inertia : forall p r t q,
  ip_ok p -> orthogonal 3 (rot_of r) -> length (tr_of t) = 3%nat ->
  0 <= ip_mass p -> ip_transform p r t = Ok q ->
  exists Y, ip_Ic p = Ok Y /\ ip_Ic q = Ok (mat_mul (mat_mul (rot_of r) Y) (transpose (rot_of r))).
Proof. exact ip_Ic_transform. Qed.
Print Assumptions C06_central_inertia.
Theorem C06_mass_com : forall p r t q,
  ip_ok p -> is_mat 3 3 (rot_of r) -> length (tr_of t) = 3%nat ->
  0 <= ip_mass p -> ip_transform p r t = Ok q ->
  ip_ok q /\ ip_mass q = ip_mass p /\ ip_com q = vadd (mat_vec (rot_of r) (ip_com p)) (tr_of t).
Proof. exact ip_transform_is_ok. Qed.
Print Assumptions C06_mass_com.
Theorem C06_consistent : forall p r t q,
  ip_ok p -> is_mat 3 3 (rot_of r) -> length (tr_of t) = 3%nat ->
  0 <= ip_mass p -> PSD 4 (ip_J p) -> ip_transform p r t = Ok q -> PSD 4 (ip_J q).
Proof. exact ip_transform_PSD. Qed.
Print Assumptions C06_consistent.
Example C06_example : describes p0 s0 /\ pms_ok s0 /\ 0 <= ip_mass p0 /\
  is_mat 3 3 (rot_of (Some Q0)) /\ length (tr_of (Some t0)) = 3%nat /\ PSD 4 (ip_J p0) /\
  orthogonal 3 (rot_of (Some Q0)).
Proof.
  split; [exact p0_describes|]. split; [exact s0_ok|]. split; [left; exact p0_mass|].
  split; [apply is_mat33|]. split; [reflexivity|]. split; [exact p0_psd|exact Q0_orth].
Qed.

(** * C07 *)
Theorem C07_add_J : forall p q,
  ip_ok p -> ip_ok q -> 0 < ip_mass p + ip_mass q ->
  exists r, ip_add p q = Ok r /\ ip_ok r /\ ip_mass r = ip_mass p + ip_mass q /\
    ip_J r = madd (ip_J p) (ip_J q).
Proof. exact ip_add_J. Qed.
Print Assumptions C07_add_J.
Theorem C07_commutative : forall p q,
  ip_add p q = ip_add q p.
Proof. exact ip_add_comm. Qed.
Print Assumptions C07_commutative.
Theorem C07_associative : forall p q r,
  0 < ip_mass p + ip_mass q -> 0 < ip_mass q + ip_mass r ->
  0 < ip_mass p + ip_mass q + ip_mass r ->
  exists pq qr, ip_add p q = Ok pq /\ ip_add q r = Ok qr /\ ip_add pq r = ip_add p qr.
Proof. exact ip_add_assoc. Qed.
Print Assumptions C07_associative.
Theorem C07_combined_system : forall p q s s',
  describes p s -> describes q s' -> 0 < ip_mass p + ip_mass q ->
  exists r, ip_add p q = Ok r /\ describes r (s ++ s').
Proof. exact ip_add_describes. Qed.
Print Assumptions C07_combined_system.
Theorem C07_sum_J : forall l,
  l <> [] -> (forall p, In p l -> ip_ok p /\ 0 < ip_mass p) ->
  exists r, py_sum l = Ok (Params r) /\ ip_ok r /\
    ip_mass r = lsum (map ip_mass l) /\ 0 < ip_mass r /\
    forall i j, (i < 4)%nat -> (j < 4)%nat ->
      entry (ip_J r) i j = lsum (map (fun p => entry (ip_J p) i j) l).
Proof. exact py_sum_J. Qed.
Print Assumptions C07_sum_J.
Theorem C07_sum_system : forall l,
  l <> [] ->
  (forall p s, In (p, s) l -> describes p s /\ 0 < ip_mass p) ->
  exists r, py_sum (map fst l) = Ok (Params r) /\ describes r (concat (map snd l)).
Proof. exact py_sum_describes. Qed.
Print Assumptions C07_sum_system.
Theorem C07_massless : forall p q,
  ip_mass p = 0 -> ip_mass q = 0 -> ip_add p q = NonFinite.
Proof. exact ip_add_massless. Qed.
Print Assumptions C07_massless.
Example C07_example : exists r, py_sum [p0; p0; p0] = Ok (Params r) /\ ip_mass r = 12.
Proof.
  destruct (py_sum_J [p0; p0; p0]) as (r & H & _ & Hm & _); [discriminate| |].
  - intros p [<-|[<-|[<-|[]]]]; exact (conj p0_ok p0_mass).
  - exists r. split; [exact H|]. rewrite Hm. cbn. ring.
Qed.

(** * C08 *)
Theorem C08_moments : forall ms ps,
  length ms = length ps ->
  Forall (fun p => length p = 3%nat) ps -> 0 < lsum ms ->
  exists p, ip_from_point_masses ms ps = Ok p /\ describes p (system ms ps).
Proof. exact from_point_masses_describes. Qed.
Print Assumptions C08_moments.
Theorem C08_psd : forall p s,
  describes p s -> pms_ok s -> pms_nonneg s -> PSD 4 (ip_J p).
Proof. exact describes_PSD. Qed.
Print Assumptions C08_psd.
Theorem C08_com_hull : forall p s,
  describes p s -> pms_ok s -> pms_nonneg s -> 0 < ip_mass p ->
  in_hull 3 (map snd s) (ip_com p).
Proof. exact describes_com_hull. Qed.
Print Assumptions C08_com_hull.
Theorem C08_errors : forall ms ps,
  Forall (fun p => length p = 3%nat) ps ->
  (length ms <> length ps -> ip_from_point_masses ms ps = Raise AssertionError) /\
  (ms = [] -> ps = [] -> ip_from_point_masses ms ps = Raise AttributeError) /\
  (length ms = length ps -> lsum ms < 0 -> ip_from_point_masses ms ps = Raise AssertionError) /\
  (length ms = length ps -> ms <> [] -> lsum ms = 0 -> ip_from_point_masses ms ps = NonFinite).
Proof. exact from_point_masses_errors. Qed.
Print Assumptions C08_errors.
Example C08_example : exists p,
  ip_from_point_masses [1; 2; 1] [[1; 0; 0]; [0; 1; 0]; [0; 0; 2]] = Ok p /\ describes p s0.
Proof.
  apply (from_point_masses_describes [1; 2; 1] [[1; 0; 0]; [0; 1; 0]; [0; 0; 2]]).
  - reflexivity.
  - repeat constructor.
  - cbn. lra.
Qed.

(** * C09 *)
Theorem C09_consistent_psd : forall p eigs eps,
  ip_ok p -> symmetric 3 (ip_H p) -> eigvals_spec 4 (ip_J p) eigs ->
  (ip_consistent eigs eps = true <-> PSD 4 (msub (ip_J p) (mscale eps (eye 4)))).
Proof. exact consistent_iff. Qed.
Print Assumptions C09_consistent_psd.
Theorem C09_consistent_body : forall p eigs,
  ip_ok p -> symmetric 3 (ip_H p) -> eigvals_spec 4 (ip_J p) eigs ->
  0 < ip_mass p ->
  (ip_consistent eigs 0 = true <->
   exists s, pms_ok s /\ (forall mp, In mp s -> 0 < fst mp) /\ describes p s).
Proof. exact consistent_iff_body. Qed.
Print Assumptions C09_consistent_body.
(** the hypothesis on the eigenvalue routine is met for every diagonal matrix by its diagonal *)
Theorem C09_eigvals_diag : forall d,
  eigvals_spec (length d) (diag d) d.
Proof. exact eigvals_diag. Qed.
Print Assumptions C09_eigvals_diag.
Example C09_example :
  let p := {| ip_mass := 1; ip_com := zeros 3; ip_H := diag [2; 3; 4] |} in
  ip_ok p /\ symmetric 3 (ip_H p) /\ eigvals_spec 4 (ip_J p) [2; 3; 4; 1] /\ 0 < ip_mass p /\
  ip_consistent [2; 3; 4; 1] 1 = true /\ ip_consistent [2; 3; 4; 1] 2 = false.
Proof.
  cbv zeta. split; [split; [reflexivity|exact (is_mat_diag [2; 3; 4])]|].
  split; [cbn; apply sym33_intro|]. split.
  - match goal with |- eigvals_spec 4 ?J _ => replace J with (diag [2; 3; 4; 1]) end.
    + exact (eigvals_diag [2; 3; 4; 1]).
    + cbn. list_eq; ring.
  - split; [cbn; lra|]. unfold ip_consistent. split.
    + apply Rleb_iff. cbn. unfold Rmin. repeat destruct (Rle_dec _ _); lra.
    + apply Rleb_false. cbn. unfold Rmin. repeat destruct (Rle_dec _ _); lra.
Qed.

(** * C10 *)
Theorem C10_parallel_axis : forall m c Ic,
  0 <= m -> length c = 3%nat -> is_mat 3 3 Ic ->
  exists p, ip_init m None (Some c) None (Some Ic) true = Ok p /\
    ip_init m None (Some c) None (Some (madd Ic (parallel_axis m c))) false = Ok p /\
    ip_mass p = m /\ ip_com p = c /\
    ip_I p = Ok (madd Ic (parallel_axis m c)) /\ ip_Ic p = Ok Ic.
Proof. exact parallel_axis_agree. Qed.
Print Assumptions C10_parallel_axis.
Theorem C10_second_moment : forall m c Hc,
  0 <= m -> length c = 3%nat -> is_mat 3 3 Hc ->
  exists p, ip_init m None (Some c) (Some Hc) None true = Ok p /\
    ip_mass p = m /\ ip_com p = c /\ ip_H p = madd Hc (mscale m (outer c c)) /\ ip_Hc p = Hc.
Proof. exact second_moment_translate. Qed.
Print Assumptions C10_second_moment.
Theorem C10_point_mass : forall m c b,
  0 <= m -> length c = 3%nat ->
  exists p, ip_init m None (Some c) None None b = Ok p /\ describes p [(m, c)].
Proof. exact point_mass_init. Qed.
Print Assumptions C10_point_mass.
Theorem C10_h_com : forall m h H I b,
  0 < m ->
  ip_init m (Some h) None H I b = ip_init m None (Some (vdivs h m)) H I b.
Proof. exact init_h_com. Qed.
Print Assumptions C10_h_com.
Theorem C10_errors : forall m h com H I b,
  (m < 0 -> ip_init m h com H I b = Raise AssertionError) /\
  (0 <= m -> h <> None -> com <> None -> ip_init m h com H I b = Raise ValueError) /\
  (0 <= m -> h = None \/ com = None -> H <> None -> I <> None ->
     ip_init m h com H I b = Raise ValueError).
Proof. exact init_errors. Qed.
Print Assumptions C10_errors.
Example C10_example : 0 <= 4 /\ length [1 / 4; 1 / 2; 1 / 2] = 3%nat /\
  is_mat 3 3 [[1; 0; 0]; [0; 2; 0]; [0; 0; 4]].
Proof. split; [lra|]. split; [reflexivity|apply is_mat33]. Qed.
