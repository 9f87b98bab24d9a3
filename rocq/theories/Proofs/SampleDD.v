(** Intervals of the real line as polyhedra: the hypotheses about the double description library
    hold for concrete matrices. *)
From Verif Require Import Base.Vec Base.VecFacts Spec.Basic Spec.Shapes Spec.ShapeObjects Spec.DoubleDesc Spec.PolySpec
  Model.Util Model.Polydd Model.Poly Proofs.Coord Proofs.Hull Proofs.BoxP Proofs.CylP Proofs.DDP Proofs.PolyP.

Definition vrows (a b : R) : CDD := {| cdd_rows := [[1; a]; [1; b]]; cdd_lin := [] |}.
Definition hrows (a b : R) : CDD := {| cdd_rows := [[- a; 1]; [b; -1]]; cdd_lin := [] |}.
(** a library that answers every question about the interval [a, b] *)
Definition dd1 (a b : R) : DD := {| dd_ineqs := fun _ => hrows a b; dd_gens := fun _ => vrows a b; dd_canon := fun m => m |}.
(** a library that finds every set of inequalities infeasible *)
Definition dd_none : DD := {| dd_ineqs := fun m => m; dd_gens := fun _ => {| cdd_rows := []; cdd_lin := [] |}; dd_canon := fun m => m |}.

Lemma vrows_set a b x : a <= b -> (v_set 1 (vrows a b) [x] <-> a <= x <= b).
Proof.
  intro Hab. split.
  - intros (w & L & P & D & E). cbn in L. destruct (len2_inv _ L) as (u & v & ->). cbn in D, E. unfold dot in D. cbn in D.
    pose proof (P 0%nat ltac:(cbn; lia) ltac:(intros [])) as P0. pose proof (P 1%nat ltac:(cbn; lia) ltac:(intros [])) as P1. cbn in P0, P1.
    injection E as ->. assert (u = 1 - v) as -> by lra. nra.
  - intros Hx. destruct (Req_EM_T a b) as [<-|N].
    + exists [1; 0]. split; [reflexivity|]. split; [intros [|[|i]] Hi _; cbn in *; [lra|lra|lia]|]. split; [unfold dot; cbn; lra|]. cbn. list_eq. lra.
    + exists [(b - x) / (b - a); (x - a) / (b - a)]. split; [reflexivity|].
      assert (I : 0 < / (b - a)) by (apply Rinv_0_lt_compat; lra).
      split; [intros [|[|i]] Hi _; cbn in *; [apply Rmult_le_pos; lra|apply Rmult_le_pos; lra|lia]|].
      split; [unfold dot; cbn; field; lra|]. cbn. list_eq. field. lra.
Qed.
Lemma hrows_set a b x : h_set (hrows a b) [x] <-> a <= x <= b.
Proof.
  split.
  - intros [H _]. pose proof (H [- a; 1] (or_introl eq_refl)) as H1. pose proof (H [b; -1] (or_intror (or_introl eq_refl))) as H2.
    unfold dot in H1, H2. cbn in H1, H2. lra.
  - intro Hx. split; [|intros i []]. intros r [<-|[<-|[]]]; unfold dot; cbn; lra.
Qed.
Lemma hrows_ok a b : h_ok 1 (hrows a b).
Proof. split; [intros r [<-|[<-|[]]]; reflexivity|intros i []]. Qed.
Lemma vrows_ok a b : v_ok 1 (vrows a b).
Proof.
  split; [intros r [<-|[<-|[]]]; cbn; auto|]. split; [intros i []|]. exists [1; a]. split; [now left|reflexivity].
Qed.
Lemma dd1_ineqs a b : a <= b -> ineqs_correct 1 (dd_ineqs (dd1 a b)) (vrows a b).
Proof.
  intro Hab. split; [apply hrows_ok|]. intros x Lx. destruct (len1_inv _ Lx) as (y & ->). cbn [dd_ineqs dd1].
  rewrite hrows_set, vrows_set by auto. reflexivity.
Qed.
(** the polyhedron [a, b] *)
Definition pinterval (a b : R) : Poly :=
  {| p_face := {| ff_A := [[-1]; [1]]; ff_b := [- a; b] |}; p_span := {| sf_vertices := Some [[a]; [b]]; sf_rays := None |} |}.
Lemma pinterval_from a b : poly_from_vertices (dd1 a b) [[a]; [b]] false = Ok (pinterval a b).
Proof.
  unfold poly_from_vertices, poly_init, sf_to_face_form, pinterval. cbn. unfold ff_from_cdd. cbn.
  repeat f_equal; cbn; list_eq; try reflexivity; lra.
Qed.
Lemma pinterval_agree a b : a <= b -> poly_agree 1 (pinterval a b).
Proof.
  intro Hab. apply (from_vertices_agree 1 (dd1 a b) [[a]; [b]]); auto.
  - discriminate.
  - intros v [<-|[<-|[]]]; reflexivity.
  - apply dd1_ineqs. auto.
  - apply pinterval_from.
Qed.
Lemma pinterval_contains a b x : poly_contains (pinterval a b) [x] 0 = true <-> a <= x <= b.
Proof.
  rewrite poly_contains_halfspaces by reflexivity. cbn. unfold halfspaces. cbn. split.
  - intro H. pose proof (H 0%nat ltac:(lia)) as H0. pose proof (H 1%nat ltac:(lia)) as H1. cbn in H0, H1. unfold dot in H0, H1. cbn in H0, H1. lra.
  - intros Hx [|[|i]] Hi; [| |lia]; unfold dot; cbn; lra.
Qed.
(** [0, 1] and [1/2, 3/2] *)
Lemma stacked_interval : gens_correct 1 (dd_gens (dd1 (1 / 2) 1)) (stacked (pinterval 0 1) (pinterval (1 / 2) (3 / 2))).
Proof.
  right. split; [apply vrows_ok|]. intros x Lx. destruct (len1_inv _ Lx) as (y & ->). cbn [dd_gens dd1].
  rewrite vrows_set by lra. rewrite (stacked_contains 1) by (apply pinterval_agree; lra). rewrite !pinterval_contains. lra.
Qed.
(** [0, 1] and [2, 3] *)
Lemma stacked_disjoint : gens_correct 1 (dd_gens dd_none) (stacked (pinterval 0 1) (pinterval 2 3)).
Proof.
  left. split; [reflexivity|]. intros x Lx. destruct (len1_inv _ Lx) as (y & ->).
  rewrite (stacked_contains 1) by (apply pinterval_agree; lra). rewrite !pinterval_contains. lra.
Qed.
Lemma vrows_forms a b s m : sf_from_cdd (vrows a b) = Ok (Some s) -> sf_to_cdd s = Ok m -> m = vrows a b.
Proof.
  pose proof (sf_roundtrip {| sf_vertices := Some [[a]; [b]]; sf_rays := None |} ltac:(discriminate) ltac:(discriminate) ltac:(left; discriminate)) as R.
  cbn [sf_to_cdd sf_vertices sf_rays bind map app] in R. fold (vrows a b) in R. intro H. rewrite R in H. injection H as <-. cbn. intro H. injection H as <-. reflexivity.
Qed.
Lemma interval_intersection : poly_agree 1 (pinterval 0 1) /\ poly_agree 1 (pinterval (1 / 2) (3 / 2)) /\
  gens_correct 1 (dd_gens (dd1 (1 / 2) 1)) (stacked (pinterval 0 1) (pinterval (1 / 2) (3 / 2))) /\
  proper_rays (dd_gens (dd1 (1 / 2) 1) (stacked (pinterval 0 1) (pinterval (1 / 2) (3 / 2)))) /\
  (forall s m, sf_from_cdd (dd_gens (dd1 (1 / 2) 1) (stacked (pinterval 0 1) (pinterval (1 / 2) (3 / 2)))) = Ok (Some s) ->
     sf_to_cdd s = Ok m -> has_inequality (dd_ineqs (dd1 (1 / 2) 1) m) /\ ineqs_correct 1 (dd_ineqs (dd1 (1 / 2) 1)) m) /\
  poly_contains (pinterval 0 1) [3 / 4] 0 = true /\ poly_contains (pinterval (1 / 2) (3 / 2)) [3 / 4] 0 = true.
Proof.
  split; [apply pinterval_agree; lra|]. split; [apply pinterval_agree; lra|]. split; [apply stacked_interval|]. split.
  - intros r [<-|[<-|[]]] H; cbn in H; lra.
  - split; [|split; apply pinterval_contains; lra]. intros s m H1 H2. rewrite (vrows_forms _ _ _ _ H1 H2). split.
    + exists 0%nat. cbn. split; [lia|tauto].
    + apply dd1_ineqs. lra.
Qed.

(** a library that describes the point 1 by one generator and one equality *)
Definition dd_point : DD :=
  {| dd_ineqs := fun _ => {| cdd_rows := [[-1; 1]]; cdd_lin := [0%nat] |};
     dd_gens := fun _ => {| cdd_rows := [[1; 1]]; cdd_lin := [] |}; dd_canon := fun m => m |}.
Lemma point_set x : v_set 1 {| cdd_rows := [[1; 1]]; cdd_lin := [] |} [x] <-> x = 1.
Proof.
  split.
  - intros (w & L & P & D & E). cbn in L. destruct (len1_inv _ L) as (u & ->). cbn in D, E. unfold dot in D. cbn in D.
    injection E as ->. lra.
  - intros ->. exists [1]. split; [reflexivity|]. split; [intros [|i] Hi _; cbn in *; [lra|lia]|]. split; [unfold dot; cbn; lra|]. cbn. list_eq. lra.
Qed.
Lemma point_intersection : poly_agree 1 (pinterval 0 1) /\ poly_agree 1 (pinterval 1 2) /\
  gens_correct 1 (dd_gens dd_point) (stacked (pinterval 0 1) (pinterval 1 2)) /\
  ineqs_correct 1 (dd_ineqs dd_point) {| cdd_rows := [[1; 1]]; cdd_lin := [] |} /\
  poly_intersect dd_point (pinterval 0 1) (pinterval 1 2) = Raise IndexError.
Proof.
  split; [apply pinterval_agree; lra|]. split; [apply pinterval_agree; lra|]. split; [|split].
  - right. split.
    + split; [intros r [<-|[]]; cbn; auto|]. split; [intros i []|]. exists [1; 1]. split; [now left|reflexivity].
    + intros x Lx. destruct (len1_inv _ Lx) as (y & ->). cbn [dd_gens dd_point].
      rewrite point_set, (stacked_contains 1) by (apply pinterval_agree; lra). rewrite !pinterval_contains. lra.
  - split.
    + split; [intros r [<-|[]]; reflexivity|]. intros i [<-|[]]. cbn. lia.
    + intros x Lx. destruct (len1_inv _ Lx) as (y & ->). rewrite point_set. cbn [dd_ineqs dd_point]. split.
      * intros [_ H]. specialize (H 0%nat (or_introl eq_refl)). cbn in H. unfold dot in H. cbn in H. lra.
      * intros ->. split; [intros r [<-|[]]; unfold dot; cbn; lra|]. intros i [<-|[]]. unfold dot; cbn. lra.
  - rewrite intersect_unfold. cbn [dd_gens dd_point].
    pose proof (sf_roundtrip {| sf_vertices := Some [[1]]; sf_rays := None |} ltac:(discriminate) ltac:(discriminate) ltac:(left; discriminate)) as R.
    cbn [sf_to_cdd sf_vertices sf_rays bind map app] in R. rewrite R. cbn. unfold poly_init, sf_to_face_form. cbn. reflexivity.
Qed.
Lemma interval_canon : vcanon_correct 1 (fun _ => vrows 0 2) {| cdd_rows := map (cons 1) [[0]; [1]; [2]]; cdd_lin := [] |} /\
  rows_len 1 [[0]; [1]; [2]].
Proof.
  split; [|intros v [<-|[<-|[<-|[]]]]; reflexivity]. split; [apply vrows_ok|]. split; [intros r [<-|[<-|[]]]; cbn; auto|].
  intros x Lx. destruct (len1_inv _ Lx) as (y & ->). rewrite vrows_set by lra. split.
  - intro H. exists [1 - y / 2; 0; y / 2]. split; [reflexivity|]. split; [intros [|[|[|i]]] Hi _; cbn in *; [lra|lra|lra|lia]|].
    split; [unfold dot; cbn; lra|]. cbn. list_eq. lra.
  - intros (w & L & P & D & E). cbn in L. destruct (len3_inv _ L) as (u & v & z & ->). cbn in D, E. unfold dot in D. cbn in D.
    pose proof (P 0%nat ltac:(cbn; lia) ltac:(intros [])) as P0. pose proof (P 1%nat ltac:(cbn; lia) ltac:(intros [])) as P1.
    pose proof (P 2%nat ltac:(cbn; lia) ltac:(intros [])) as P2. cbn in P0, P1, P2. injection E as ->. lra.
Qed.
