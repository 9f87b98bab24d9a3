(** numpy arrays by reference: the memory that arrays share.  A buffer is a list of reals, a store the
    list of all buffers; an array is a buffer and the positions of its elements in it, so that a slice is
    an array on the same buffer.  Nothing here is code of /repo: these are the rules of numpy that
    Model/StoreInertial.v and Model/StoreShapes.v are written in. *)
From Verif Require Import Base.Vec Model.Util.

Definition store := list vec.
Record arr1 := { a1_buf : nat; a1_at : list nat }.
Record arr2 := { a2_buf : nat; a2_at : list (list nat) }.
Definition cell (s : store) (b i : nat) : R := nth i (nth b s []) 0.
(** the elements of an array *)
Definition rd1 (s : store) (a : arr1) : vec := map (cell s (a1_buf a)) (a1_at a).
Definition rd2 (s : store) (a : arr2) : mat := map (map (cell s (a2_buf a))) (a2_at a).
(** basic slices share the buffer: a[lo:lo+n], A[i, :n], A[:n, :m] *)
Definition slice1 (lo n : nat) (a : arr1) : arr1 := {| a1_buf := a1_buf a; a1_at := firstn n (skipn lo (a1_at a)) |}.
Definition row_slice (i n : nat) (A : arr2) : arr1 := {| a1_buf := a2_buf A; a1_at := firstn n (nth i (a2_at A) []) |}.
Definition slice2 (n m : nat) (A : arr2) : arr2 := {| a2_buf := a2_buf A; a2_at := map (firstn m) (firstn n (a2_at A)) |}.
(** x[i] = v for the i-th element of buffer b, if there is one *)
Definition wr (s : store) (b i : nat) (x : R) : store := set_nth s b (set_nth (nth b s []) i x).
(** a sequence of such assignments *)
Definition writes := list (nat * nat * R).
Definition wrs (s : store) (ws : writes) : store := fold_left (fun s w => wr s (fst (fst w)) (snd (fst w)) (snd w)) ws s.

(** programs that may raise and may allocate *)
Definition st (A : Type) := store -> res (A * store).
Definition ret {A} (a : A) : st A := fun s => Ok (a, s).
Definition sbind {A B} (m : st A) (f : A -> st B) : st B := fun s => let* r := m s in f (fst r) (snd r).
Notation "'do' x <- e ; f" := (sbind e (fun x => f)) (at level 200, x name, e at level 100, f at level 200).
Definition lift {A} (r : res A) : st A := fun s => let* a := r in Ok (a, s).
Definition get1 (a : arr1) : st vec := fun s => Ok (rd1 s a, s).
Definition get2 (a : arr2) : st mat := fun s => Ok (rd2 s a, s).
(** a new array: the result of an arithmetic operation, of np.array, of fancy indexing *)
Definition alloc1 (v : vec) : st arr1 := fun s => Ok ({| a1_buf := length s; a1_at := seq 0 (length v) |}, s ++ [v]).
Fixpoint rows_from (k : nat) (M : mat) : list (list nat) :=
  match M with [] => [] | r :: M' => seq k (length r) :: rows_from (k + length r) M' end.
Definition alloc2 (M : mat) : st arr2 := fun s => Ok ({| a2_buf := length s; a2_at := rows_from 0 M |}, s ++ [concat M]).
(** np.array(a) *)
Definition copy1 (a : arr1) : st arr1 := do v <- get1 a; alloc1 v.
Definition copy2 (a : arr2) : st arr2 := do M <- get2 a; alloc2 M.
