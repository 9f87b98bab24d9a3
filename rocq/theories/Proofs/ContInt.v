(** Integrals of continuous functions over boxes, their faces and edges and the surface of an ellipsoid exist. *)
From Coquelicot Require Import Coquelicot.
From Verif Require Import Base.Vec Base.VecFacts Spec.Basic Spec.Integrals Spec.Continuous Proofs.IntegralP Proofs.MonoInt.

(** a property that holds near every point of a segment holds on the segment with one radius *)
Lemma tube (Q : R -> R -> Prop) c d : c <= d -> (forall e e' z, e' <= e -> Q e z -> Q e' z) ->
  (forall z, c <= z <= d -> exists e, 0 < e /\ forall z', Rabs (z' - z) < e -> Q e z') -> exists e, 0 < e /\ forall z, c <= z <= d -> Q e z.
Proof.
  intros Hcd Mono Loc. set (E := fun t => c <= t <= d /\ exists e, 0 < e /\ forall z, c <= z <= t -> Q e z).
  assert (E0 : E c). { split; [lra|]. destruct (Loc c ltac:(lra)) as (e & P & H). exists e. split; [exact P|]. intros z Hz. apply H. replace (z - c) with 0 by lra. now rewrite Rabs_R0. }
  destruct (completeness E) as (s & U & L); [exists d; intros t [[_ H] _]; exact H|now exists c|].
  assert (S1 : c <= s) by now apply U. assert (S2 : s <= d) by (apply L; intros t [[_ H] _]; exact H).
  destruct (Loc s ltac:(lra)) as (e & P & H).
  destruct (Classical_Prop.classic (exists t, E t /\ s - e < t)) as [(t & (Bt & e' & P' & H') & Ht)|N].
  - assert (G : forall z, c <= z <= s + e / 2 -> Q (Rmin e e') z).
    { intros z Hz. destruct (Rle_dec z t) as [T|T]; [apply (Mono e'); [apply Rmin_r|apply H'; lra]|apply (Mono e); [apply Rmin_l|]]. apply H. apply Rabs_def1; lra. }
    assert (PM : 0 < Rmin e e') by now apply Rmin_glb_lt.
    destruct (Rle_dec (s + e / 2) d) as [D|D].
    + assert (s + e / 2 <= s); [|lra]. apply U. split; [lra|]. exists (Rmin e e'). auto.
    + exists (Rmin e e'). split; [exact PM|]. intros z Hz. apply G. lra.
  - exfalso. assert (s <= s - e); [|lra]. apply L. intros t Et. apply Rnot_lt_le. intro K. apply N. now exists t.
Qed.

Section Cont.
  Context {X : Type} (near : R -> X -> X -> Prop).
  Definition cont (g : X -> R) : Prop := forall x eps, 0 < eps -> exists e, 0 < e /\ forall x', near e x x' -> Rabs (g x' - g x) < eps.
  Definition near2 (e : R) (p q : X * R) : Prop := near e (fst p) (fst q) /\ Rabs (snd q - snd p) < e.
  Context (mono : forall e e' x y, e' <= e -> near e' x y -> near e x y) (refl : forall e x, 0 < e -> near e x x).
  Lemma cont_const k : cont (fun _ => k).
  Proof. intros x eps P. exists 1. split; [lra|]. intros. rewrite Rminus_diag_eq, Rabs_R0 by reflexivity. exact P. Qed.
  Lemma cont_plus f g : cont f -> cont g -> cont (fun x => f x + g x).
  Proof.
    intros F G x eps P. destruct (F x (eps / 2) ltac:(lra)) as (a & Pa & Ha). destruct (G x (eps / 2) ltac:(lra)) as (b & Pb & Hb).
    exists (Rmin a b). split; [now apply Rmin_glb_lt|]. intros x' H. specialize (Ha x' (mono _ _ _ _ (Rmin_l a b) H)). specialize (Hb x' (mono _ _ _ _ (Rmin_r a b) H)).
    apply Rabs_def2 in Ha. apply Rabs_def2 in Hb. apply Rabs_def1; lra.
  Qed.
  Lemma cont_mult f g : cont f -> cont g -> cont (fun x => f x * g x).
  Proof.
    intros F G x eps P. set (M := Rabs (f x) + Rabs (g x) + 1). assert (PM : 0 < M) by (pose proof (Rabs_pos (f x)); pose proof (Rabs_pos (g x)); unfold M; lra).
    set (d := Rmin 1 (eps / M) / 2). assert (Pd : 0 < d) by (unfold d; apply Rdiv_lt_0_compat; [apply Rmin_glb_lt; [lra|now apply Rdiv_lt_0_compat]|lra]).
    assert (D1 : d <= 1 / 2) by (unfold d; pose proof (Rmin_l 1 (eps / M)); lra). assert (D2 : d * M < eps). { assert (0 < eps / M) by now apply Rdiv_lt_0_compat. assert (d < eps / M) by (unfold d; pose proof (Rmin_r 1 (eps / M)); lra). apply Rlt_le_trans with (eps / M * M); [now apply Rmult_lt_compat_r|right; field; lra]. }
    destruct (F x d Pd) as (a & Pa & Ha). destruct (G x d Pd) as (b & Pb & Hb).
    exists (Rmin a b). split; [now apply Rmin_glb_lt|]. intros x' H. specialize (Ha x' (mono _ _ _ _ (Rmin_l a b) H)). specialize (Hb x' (mono _ _ _ _ (Rmin_r a b) H)).
    replace (f x' * g x' - f x * g x) with ((f x' - f x) * (g x' - g x) + f x * (g x' - g x) + (f x' - f x) * g x) by ring.
    eapply Rle_lt_trans; [apply Rabs_triang|]. eapply Rle_lt_trans; [apply Rplus_le_compat_r, Rabs_triang|]. rewrite !Rabs_mult. set (u := Rabs (f x' - f x)) in *. set (v := Rabs (g x' - g x)) in *.
    assert (U0 : 0 <= u) by apply Rabs_pos. assert (V0 : 0 <= v) by apply Rabs_pos. pose proof (Rabs_pos (f x)). pose proof (Rabs_pos (g x)).
    assert (u * v <= d * 1) by (apply Rmult_le_compat; lra). assert (Rabs (f x) * v <= Rabs (f x) * d) by (apply Rmult_le_compat_l; lra). assert (u * Rabs (g x) <= d * Rabs (g x)) by (apply Rmult_le_compat_r; lra).
    unfold M in D2. lra.
  Qed.
  Lemma cont_comp (phi : R -> R) g : (forall y, continuous phi y) -> cont g -> cont (fun x => phi (g x)).
  Proof.
    intros F G x eps P. destruct (proj1 (filterlim_locally phi (phi (g x))) (F (g x)) (mkposreal eps P)) as (a & Ha). destruct (G x a (cond_pos a)) as (b & Pb & Hb).
    exists b. split; [exact Pb|]. intros x' H. exact (Ha (g x') (Hb x' H)).
  Qed.
End Cont.
Arguments cont {X} near g.
Arguments near2 {X} near e p q.
Section Int.
  Context {X : Type} (near : R -> X -> X -> Prop).
  Context (mono : forall e e' x y, e' <= e -> near e' x y -> near e x y) (refl : forall e x, 0 < e -> near e x x).
  Lemma near2_mono : forall e e' x y, e' <= e -> near2 near e' x y -> near2 near e x y.
  Proof. intros e e' x y H [A B]. split; [now apply (mono e e')|lra]. Qed.
  Lemma near2_refl : forall e x, 0 < e -> near2 near e x x.
  Proof. intros e x H. split; [now apply refl|]. now rewrite Rminus_diag_eq, Rabs_R0. Qed.
  Lemma section_ex g c d x : cont (near2 near) g -> exI (fun z => g (x, z)) c d.
  Proof.
    intros G. apply (ex_RInt_continuous (V := R_CompleteNormedModule)). intros z _. apply (proj2 (filterlim_locally (fun z => g (x, z)) (g (x, z)))). intro eps. destruct (G (x, z) eps (cond_pos eps)) as (e & P & H).
    exists (mkposreal e P). intros y Hy. apply H. split; [now apply refl|exact Hy].
  Qed.
  Lemma int_cont g c d : c <= d -> cont (near2 near) g -> cont near (fun x => itg (fun z => g (x, z)) c d).
  Proof.
    intros Hcd G x eps P. set (m := eps / (d - c + 1) / 2). assert (Pm : 0 < m) by (unfold m; apply Rdiv_lt_0_compat; [apply Rdiv_lt_0_compat|]; lra).
    assert (Em : m * (d - c) < eps). { assert (E : m * (d - c + 1) = eps / 2) by (unfold m; field; lra). assert (0 <= m * (d - c)) by (apply Rmult_le_pos; lra). lra. }
    destruct (tube (fun e z => forall x', near e x x' -> Rabs (g (x', z) - g (x, z)) <= m) c d Hcd) as (e & Pe & He).
    - intros e e' z H K x' N. apply K. now apply (mono e e').
    - intros z Hz. destruct (G (x, z) (m / 2) ltac:(lra)) as (e & Pe & He). exists e. split; [exact Pe|]. intros z' Hz' x' N.
      pose proof (He (x', z') (conj N Hz')) as A. pose proof (He (x, z') (conj (refl e x Pe) Hz')) as B. apply Rabs_def2 in A. apply Rabs_def2 in B. apply Rabs_le. lra.
    - exists e. split; [exact Pe|]. intros x' N. pose proof (section_ex g c d x G) as X1. pose proof (section_ex g c d x' G) as X2.
      assert (K : forall y y', (forall z, c <= z <= d -> g (y, z) <= g (y', z) + m) -> itg (fun z => g (y, z)) c d <= itg (fun z => g (y', z)) c d + m * (d - c)).
      { intros y y' H. pose proof (section_ex g c d y G) as Y1. pose proof (section_ex g c d y' G) as Y2.
        apply Rle_trans with (itg (fun z => g (y', z) + m) c d); [apply itg_le; auto; [apply ex_plus; [exact Y2|apply const_ex]|intros z Hz; apply H; lra]|].
        right. rewrite <- itg_const. exact (RInt_plus (V := R_CompleteNormedModule) (fun z => g (y', z)) (fun _ => m) c d Y2 (const_ex m c d)). }
      assert (A : forall z, c <= z <= d -> - m <= g (x', z) - g (x, z) <= m) by (intros z Hz; apply Rabs_le_between; now apply He).
      pose proof (K x x' ltac:(intros z Hz; specialize (A z Hz); lra)) as K1. pose proof (K x' x ltac:(intros z Hz; specialize (A z Hz); lra)) as K2. apply Rabs_def1; lra.
  Qed.
End Int.
Definition near0 (e : R) (x y : unit) : Prop := True.
Notation near_1 := (near2 near0).
Notation near_2 := (near2 near_1).
Notation near_3 := (near2 near_2).
Lemma m0 : forall e e' x y, e' <= e -> near0 e' x y -> near0 e x y. Proof. easy. Qed.
Lemma r0 : forall e x, 0 < e -> near0 e x x. Proof. easy. Qed.
Lemma m1 : forall e e' x y, e' <= e -> near_1 e' x y -> near_1 e x y. Proof. exact (near2_mono _ m0). Qed.
Lemma r1 : forall e x, 0 < e -> near_1 e x x. Proof. exact (near2_refl _ r0). Qed.
Lemma m2 : forall e e' x y, e' <= e -> near_2 e' x y -> near_2 e x y. Proof. exact (near2_mono _ m1). Qed.
Lemma r2 : forall e x, 0 < e -> near_2 e x x. Proof. exact (near2_refl _ r1). Qed.
Lemma cont1_integral (g : R -> R) a b : cont near_1 (fun p => g (snd p)) -> exists I, integral g a b I.
Proof. intro G. exact (section_ex near0 r0 (fun p => g (snd p)) a b tt G). Qed.
Lemma cont2_integral (g : R -> R -> R) a b c d : c <= d -> cont near_2 (fun p => g (snd (fst p)) (snd p)) -> exists I, integral2 a b (fun _ => c) (fun _ => d) g I.
Proof.
  intros Hcd G. set (F := fun x => itg (g x) c d).
  assert (C : cont near_1 (fun p => F (snd p))) by exact (int_cont near_1 m1 r1 _ c d Hcd G).
  destruct (cont1_integral F a b C) as (I & HI). exists I, F. split; [|exact HI]. intros x _. apply itg_ok. exact (section_ex near_1 r1 _ c d (tt, x) G).
Qed.
Lemma cont3_integral (g : R -> R -> R -> R) a b c d c' d' : c <= d -> c' <= d' -> cont near_3 (fun p => g (snd (fst (fst p))) (snd (fst p)) (snd p)) ->
  exists I, integral3 a b (fun _ => c) (fun _ => d) (fun _ _ => c') (fun _ _ => d') g I.
Proof.
  intros Hcd Hcd' G. set (F := fun x y => itg (g x y) c' d').
  assert (C : cont near_2 (fun p => F (snd (fst p)) (snd p))) by exact (int_cont near_2 m2 r2 _ c' d' Hcd' G).
  set (F1 := fun x => itg (F x) c d). assert (C1 : cont near_1 (fun p => F1 (snd p))) by exact (int_cont near_1 m1 r1 _ c d Hcd C).
  destruct (cont1_integral F1 a b C1) as (I & HI). exists I, F1. split; [|exact HI]. intros x _. exists (F x). split.
  - intros y _. apply itg_ok. exact (section_ex near_2 r2 _ c' d' ((tt, x), y) G).
  - apply itg_ok. exact (section_ex near_1 r1 _ c d (tt, x) C).
Qed.
(** a continuous function of a point whose coordinates are continuous *)
Lemma cont_point {X} (near : R -> X -> X -> Prop) (mono : forall e e' x y, e' <= e -> near e' x y -> near e x y) f a b c :
  continuous3 f -> cont near a -> cont near b -> cont near c -> cont near (fun x => f [a x; b x; c x]).
Proof.
  intros F A B C x eps P. destruct (F [a x; b x; c x] eq_refl eps P) as (d & Pd & Hd). destruct (A x d Pd) as (e1 & P1 & H1). destruct (B x d Pd) as (e2 & P2 & H2). destruct (C x d Pd) as (e3 & P3 & H3).
  exists (Rmin e1 (Rmin e2 e3)). split; [repeat apply Rmin_glb_lt; auto|]. intros x' N. apply Hd; [reflexivity|]. intros [|[|[|i]]] Hi; cbn [nth].
  - apply H1. eapply mono; [|exact N]. apply Rmin_l.
  - apply H2. eapply mono; [|exact N]. eapply Rle_trans; [apply Rmin_r|apply Rmin_l].
  - apply H3. eapply mono; [|exact N]. eapply Rle_trans; [apply Rmin_r|apply Rmin_r].
  - lia.
Qed.
Lemma cont_snd {X} (near : R -> X -> X -> Prop) : cont (near2 near) snd.
Proof. intros x eps P. exists eps. split; [exact P|]. intros x' [_ H]. exact H. Qed.
Lemma cont_fst {X} (near : R -> X -> X -> Prop) g : cont near g -> cont (near2 near) (fun p => g (fst p)).
Proof. intros G x eps P. destruct (G (fst x) eps P) as (e & Pe & H). exists e. split; [exact Pe|]. intros x' [N _]. now apply H. Qed.

Lemma m3 : forall e e' x y, e' <= e -> near_3 e' x y -> near_3 e x y. Proof. exact (near2_mono _ m2). Qed.
Ltac cpt := first [apply cont_const | apply cont_snd | exact (cont_fst _ snd (cont_snd _)) | exact (cont_fst _ _ (cont_fst _ snd (cont_snd _)))].
Lemma volume_exists f x y z : continuous3 f -> 0 <= y -> 0 <= z -> exists I, box_volume [x; y; z] f I.
Proof.
  intros F Hy Hz. apply cont3_integral; [lra|lra|]. apply (cont_point near_3 m3 f (fun p => snd (fst (fst p))) (fun p => snd (fst p)) snd); auto; cpt.
Qed.
Lemma face_exists g w w' : 0 <= w' -> cont near_2 (fun p => g (snd (fst p)) (snd p)) -> exists I, integral2 (- w) w (fun _ => - w') (fun _ => w') g I.
Proof. intros H G. apply cont2_integral; [lra|exact G]. Qed.
Lemma sum_exists (l : list (R -> Prop)) : Forall (fun P => exists I, P I) l -> exists I, sum_of l I.
Proof. induction 1 as [|P l (I1 & H1) _ (I2 & H2)]; [now exists 0|]. exists (I1 + I2), I1, I2. auto. Qed.
Lemma shell_exists f x y z : continuous3 f -> 0 <= y -> 0 <= z -> exists I, box_shell [x; y; z] f I.
Proof.
  intros F Hy Hz. apply sum_exists. repeat (apply Forall_cons; [|]); [..|constructor]; (apply cont2_integral; [lra|]).
  - apply (cont_point near_2 m2 f (fun p => x) (fun p => snd (fst p)) snd); auto; cpt.
  - apply (cont_point near_2 m2 f (fun p => - x) (fun p => snd (fst p)) snd); auto; cpt.
  - apply (cont_point near_2 m2 f (fun p => snd (fst p)) (fun p => y) snd); auto; cpt.
  - apply (cont_point near_2 m2 f (fun p => snd (fst p)) (fun p => - y) snd); auto; cpt.
  - apply (cont_point near_2 m2 f (fun p => snd (fst p)) snd (fun p => z)); auto; cpt.
  - apply (cont_point near_2 m2 f (fun p => snd (fst p)) snd (fun p => - z)); auto; cpt.
Qed.
Lemma frame_exists f x y z : continuous3 f -> exists I, box_frame [x; y; z] f I.
Proof.
  intros F. apply sum_exists.
  assert (E1 : forall w b c, exists I, integral (fun a => f [a; b; c]) (- w) w I) by (intros; apply cont1_integral; apply (cont_point near_1 m1 f snd (fun p => b) (fun p => c)); auto; cpt).
  assert (E2 : forall w a c, exists I, integral (fun b => f [a; b; c]) (- w) w I) by (intros; apply cont1_integral; apply (cont_point near_1 m1 f (fun p => a) snd (fun p => c)); auto; cpt).
  assert (E3 : forall w a b, exists I, integral (fun c => f [a; b; c]) (- w) w I) by (intros; apply cont1_integral; apply (cont_point near_1 m1 f (fun p => a) (fun p => b) snd); auto; cpt).
  repeat (apply Forall_cons; [|]); [..|constructor]; auto.
Qed.
Lemma surface_exists f x y z : continuous3 f -> exists I, ell_surface [x; y; z] f I.
Proof.
  intros F. pose proof PI_RGT_0 as PP. unfold ell_surface. apply cont2_integral; [lra|].
  set (u := fun p : unit * R * R => snd (fst p)). set (phi := fun p : unit * R * R => snd p).
  assert (Cu : cont near_2 u) by (unfold u; cpt). assert (Cp : cont near_2 phi) by (unfold phi; cpt).
  assert (C1 : cont near_2 (fun p => 1 + -1 * (u p * u p))) by (apply cont_plus; [exact m2|cpt|apply cont_mult; [exact m2|cpt|apply cont_mult; auto; exact m2]]).
  assert (CS : cont near_2 (fun p => sqrt (1 + -1 * (u p * u p)))) by (apply (cont_comp near_2 sqrt); [apply continuous_sqrt|exact C1]).
  assert (Cc : cont near_2 (fun p => cos (phi p))) by (apply (cont_comp near_2 cos); [apply continuous_cos|exact Cp]).
  assert (Cs : cont near_2 (fun p => sin (phi p))) by (apply (cont_comp near_2 sin); [apply continuous_sin|exact Cp]).
  assert (EXT : forall g h, (forall p : unit * R * R, g p = h p) -> cont near_2 g -> cont near_2 h).
  { intros g h E G p eps P. destruct (G p eps P) as (e & Pe & H). exists e. split; [exact Pe|]. intros p' N. rewrite <- !E. now apply H. }
  assert (MU : forall g h, cont near_2 g -> cont near_2 h -> cont near_2 (fun p => g p * h p)) by (intros; apply cont_mult; auto; exact m2).
  assert (PL : forall g h, cont near_2 g -> cont near_2 h -> cont near_2 (fun p => g p + h p)) by (intros; apply cont_plus; auto; exact m2).
  assert (KO : forall k : R, cont near_2 (fun _ => k)) by (intro; cpt).
  apply (EXT (fun p => f [x * (sqrt (1 + -1 * (u p * u p)) * cos (phi p)); y * (sqrt (1 + -1 * (u p * u p)) * sin (phi p)); z * u p] *
    sqrt ((y * z) ^ 2 * ((1 + -1 * (u p * u p)) * (cos (phi p) * cos (phi p))) + (x * z) ^ 2 * ((1 + -1 * (u p * u p)) * (sin (phi p) * sin (phi p))) + (x * y) ^ 2 * (u p * u p)))).
  - intros p. unfold ell_point, ell_area. cbn [vmul map2]. fold (u p) (phi p). replace (1 - u p * u p) with (1 + -1 * (u p * u p)) by ring. f_equal. f_equal. ring.
  - apply MU.
    + apply (cont_point near_2 m2 f (fun p => x * (sqrt (1 + -1 * (u p * u p)) * cos (phi p))) (fun p => y * (sqrt (1 + -1 * (u p * u p)) * sin (phi p))) (fun p => z * u p)); auto.
    + apply (cont_comp near_2 sqrt); [apply continuous_sqrt|]. repeat (apply PL || apply MU); auto.
Qed.
