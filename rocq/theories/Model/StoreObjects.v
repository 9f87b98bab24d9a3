(** Model of the objects that rigid bodies, multibodies, polynomials, moment matrices and torque
    regressors share or modify in place, on top of the values of Model/{RigidBody,MultiBody,Moment}.v. *)
From Coq Require Import String.
From Verif Require Import Base.Vec Model.Util Model.Inertial Model.Polydd Model.Poly Model.Ellipsoid Model.Box Model.Cylinder
  Model.Realize Model.Moment Model.RigidBody Model.MultiBody Model.Store.
Import ListNotations.

(** ** Rigid bodies *)
(** the shapes, the lists of shapes and the inertial parameters that exist, each an object named by its
    number *)
Record oheap := { o_shapes : list shp; o_lists : list (list nat); o_params : list IP }.
Definition no_shape : shp := SEll {| e_half := []; e_rot := []; e_center := [] |}.
Definition no_params : IP := {| ip_mass := 0; ip_com := []; ip_H := [] |}.
Definition shape_at (h : oheap) (r : nat) : shp := nth r (o_shapes h) no_shape.
Definition list_at (h : oheap) (l : nat) : list nat := nth l (o_lists h) [].
Definition params_at (h : oheap) (p : nat) : IP := nth p (o_params h) no_params.
(** rigidbody.py:34-35: the attributes refer to a list and to a set of parameters *)
Record BodyS := { bs_shapes : nat; bs_params : nat }.
Definition bs_view (h : oheap) (b : BodyS) : Body :=
  {| bd_shapes := map (shape_at h) (list_at h (bs_shapes b)); bd_params := params_at h (bs_params b) |}.
(** new objects *)
Definition new_shapes (ss : list shp) (h : oheap) : list nat * oheap :=
  (seq (List.length (o_shapes h)) (List.length ss), {| o_shapes := o_shapes h ++ ss; o_lists := o_lists h; o_params := o_params h |}).
Definition new_list (l : list nat) (h : oheap) : nat * oheap :=
  (List.length (o_lists h), {| o_shapes := o_shapes h; o_lists := o_lists h ++ [l]; o_params := o_params h |}).
Definition new_params (p : IP) (h : oheap) : nat * oheap :=
  (List.length (o_params h), {| o_shapes := o_shapes h; o_lists := o_lists h; o_params := o_params h ++ [p] |}).
(** modifications in place: appending a shape to a list, giving a shape or a set of parameters other
    attributes *)
Inductive change := Append (l r : nat) | SetShape (r : nat) (s : shp) | SetParams (p : nat) (q : IP).
Definition change_apply (h : oheap) (m : change) : oheap :=
  match m with
  | Append l r => {| o_shapes := o_shapes h; o_lists := set_nth (o_lists h) l (list_at h l ++ [r]); o_params := o_params h |}
  | SetShape r s => {| o_shapes := set_nth (o_shapes h) r s; o_lists := o_lists h; o_params := o_params h |}
  | SetParams p q => {| o_shapes := o_shapes h; o_lists := o_lists h; o_params := set_nth (o_params h) p q |}
  end.
Definition changes (h : oheap) (ms : list change) : oheap := fold_left change_apply ms h.
(** rigidbody.py:28-35 [__init__] with a shape or a list; the list is stored as it is *)
Inductive objs_arg := OneObj (r : nat) | ListObj (l : nat).
Definition bs_init (shapes : objs_arg) (params : option nat) (h : oheap) : res (BodyS * oheap) :=
  let lh := match shapes with OneObj r => new_list [r] h | ListObj l => (l, h) end in
  let* ph := match params with
             | Some p => Ok (p, snd lh)
             | None => let* z := ip_zero in Ok (new_params z (snd lh))
             end in
  Ok ({| bs_shapes := fst lh; bs_params := fst ph |}, snd ph).
(** rigidbody.py:37-40 [__add__]: list concatenation makes a new list of the same shapes *)
Definition bs_add (a b : BodyS) (h : oheap) : res (BodyS * oheap) :=
  let lh := new_list (list_at h (bs_shapes a) ++ list_at h (bs_shapes b)) h in
  let* q := ip_add (params_at h (bs_params a)) (params_at h (bs_params b)) in
  let ph := new_params q (snd lh) in
  bs_init (ListObj (fst lh)) (Some (fst ph)) (snd ph).
(** rigidbody.py:42-45 [__radd__] with the integer 0 *)
Definition bs_radd0 (b : BodyS) (h : oheap) : res (BodyS * oheap) := Ok (b, h).
(** rigidbody.py:88-112 [mbes]: the parameters are those of the body *)
Definition bs_mbes (mbe_points : mat -> bool -> res Ell) (mbe_ells : list Ell -> bool -> res Ell) (b : BodyS) (sphere : bool) (h : oheap) : res (BodyS * oheap) :=
  let* es := mapM (fun s =>
    let* _ := check_kwargs (mbe_declared s) ["sphere"; "solver"]%string in
    let* e := shp_mbe mbe_points mbe_ells s sphere in Ok (SEll e)) (map (shape_at h) (list_at h (bs_shapes b))) in
  let sh := new_shapes es h in
  let lh := new_list (fst sh) (snd sh) in
  bs_init (ListObj (fst lh)) (Some (bs_params b)) (snd lh).
(** rigidbody.py:114-138 [transform] *)
Definition bs_transform (dd : DD) (b : BodyS) (rotation : option mat) (translation : option vec) (h : oheap) : res (BodyS * oheap) :=
  let* rt := clean_transform rotation translation 3 in
  let* shapes := mapM (fun s => shp_transform dd s (Some (fst rt)) (Some (snd rt))) (map (shape_at h) (list_at h (bs_shapes b))) in
  let* q := ip_transform (params_at h (bs_params b)) (Some (fst rt)) (Some (snd rt)) in
  let sh := new_shapes shapes h in
  let lh := new_list (fst sh) (snd sh) in
  let ph := new_params q (snd lh) in
  bs_init (ListObj (fst lh)) (Some (fst ph)) (snd ph).

(** ** MultiBody *)
(** multibody.py:69-85: the body of the loop; a further shape of a link is appended in place *)
Definition mbs_add_geom (dd : DD) (inertias : list PinInertia) (bodies : idict BodyS) (g : GeomObj) (h : oheap) : res (idict BodyS * oheap) :=
  let joint_idx := go_parent g in
  let* inertia := at_index inertias joint_idx in
  let* shape := pin_to_shape dd g in
  let r := List.length (o_shapes h) in
  let h := snd (new_shapes [shape] h) in
  match dget bodies joint_idx with
  | Some b => Ok (bodies, change_apply h (Append (bs_shapes b) r))
  | None =>
      let* params := ip_init (pi_mass inertia) None (Some (pi_lever inertia)) None (Some (pi_inertia inertia)) true in
      let ph := new_params params h in
      let lh := new_list [r] (snd ph) in
      let* bh := bs_init (ListObj (fst lh)) (Some (fst ph)) (snd lh) in
      Ok (dput bodies joint_idx (fst bh), snd bh)
  end.
Fixpoint mbs_add_geoms (dd : DD) (inertias : list PinInertia) (bodies : idict BodyS) (l : list GeomObj) (h : oheap) : res (idict BodyS * oheap) :=
  match l with
  | [] => Ok (bodies, h)
  | g :: r => let* bh := mbs_add_geom dd inertias bodies g h in mbs_add_geoms dd inertias (fst bh) r (snd bh)
  end.
(** multibody.py:303-307 at the level of arrays: columns of Y are assigned from columns of Y_pin, both
    read when the assignment is made *)
Definition get_col_s (Y : arr2) (k : nat) : st vec := do M <- get2 Y; lift (get_col M k).
Definition set_col_s (Y : arr2) (k : nat) (x : vec) : st unit := fun s =>
  if Nat.ltb k (ncols (rd2 s Y)) then Ok (tt, wrs s (map2 (fun row a => (a2_buf Y, nth k row 0%nat, a)) (a2_at Y) x)) else Raise IndexError.
Fixpoint swap_links_s (Y_pin Y : arr2) (l : list nat) : st unit :=
  match l with
  | [] => ret tt
  | i :: r =>
      do c7 <- get_col_s Y_pin (i * 10 + 7);
      do _ <- set_col_s Y (i * 10 + 6) c7;
      do c6 <- get_col_s Y_pin (i * 10 + 6);
      do _ <- set_col_s Y (i * 10 + 7) c6;
      swap_links_s Y_pin Y r
  end.
(** multibody.py:296-307 [compute_joint_torque_regressor] after pinocchio's function returned Y_pin *)
Definition torque_regressor_s (nv : nat) (Y_pin : arr2) : st arr2 :=
  do Y <- copy2 Y_pin;
  do _ <- swap_links_s Y_pin Y (seq 0 nv);
  ret Y.

(** ** Polynomials: dictionaries are objects named by their number *)
Definition pheap := list pol.
Definition dict_at (h : pheap) (p : nat) : pol := nth p h [].
(** moment.py:92-96: the loop over the items of [q], read as the loop reaches them, that updates [c] *)
Definition pos_step (c q : nat) (h : pheap) (i : nat) : pheap :=
  match nth_error (dict_at h q) i with
  | None => h
  | Some (k, v) =>
      match dict_get idx_eqb k (dict_at h c) with
      | Some x => set_nth h c (dict_set idx_eqb k (x + v) (dict_at h c))
      | None => set_nth h c (dict_set idx_eqb k v (dict_at h c))
      end
  end.
(** moment.py:90-97 [__add__]; the result is the number of the dictionary of the new polynomial
    (moment.py:48 makes a new one) *)
Definition pos_add (p q : nat) (h : pheap) : nat * pheap :=
  let c := List.length h in
  let h := h ++ [dict_at h p] in
  let h := fold_left (pos_step c q) (seq 0 (List.length (dict_at h q))) h in
  (List.length h, h ++ [pol_init (dict_at h c) 0]).

(** ** Moment matrices: arrays of objects, indices or polynomials, named by their number *)
Inductive mcell := CIdx (e : elt) | CPol (p : pol).
Definition mheap := list (list (list mcell)).
Definition marr_at (h : mheap) (a : nat) : list (list mcell) := nth a h [].
Definition mcell_at (h : mheap) (a i j : nat) : option mcell :=
  match nth_error (marr_at h a) i with Some row => nth_error row j | None => None end.
Definition mcell_set (h : mheap) (a i j : nat) (x : mcell) : mheap :=
  set_nth h a (set_nth (marr_at h a) i (set_nth (nth i (marr_at h a) []) j x)).
(** moment.py:147-155: the attribute [indices] refers to such an array *)
Record MMS := { mms_n : nat; mms_d : nat; mms_r : nat; mms_indices : nat }.
(** moment.py:182: self.indices[i, j] is read, then M[i, j] is assigned; a polynomial is not an index
    (adding one to an index raises AttributeError, moment.py:31) *)
Definition mms_step (s : MMS) (p : pol) (M : nat) (h : mheap) (ij : nat * nat) : res mheap :=
  match mcell_at h (mms_indices s) (fst ij) (snd ij) with
  | None => Raise IndexError
  | Some (CPol _) => Raise AttributeError
  | Some (CIdx k) => let* q := pol_localize p k in Ok (mcell_set h M (fst ij) (snd ij) (CPol q))
  end.
Definition all_pairs (r : nat) : list (nat * nat) := flat_map (fun i => map (fun j => (i, j)) (seq 0 r)) (seq 0 r).
(** moment.py:176-183 [localizing_matrix] with d - v *)
Definition mms_localizing_matrix (s : MMS) (v : nat) (p : pol) (h : mheap) : res (nat * mheap) :=
  let* r := pol_dim_sub (mms_n s) (mms_d s) v in
  let M := List.length h in
  let h := h ++ [map (firstn r) (firstn r (marr_at h (mms_indices s)))] in
  let* h := fold_left (fun acc ij => let* h := acc in mms_step s p M h ij) (all_pairs r) (Ok h) in
  Ok (M, h).
