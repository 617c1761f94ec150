(** Model of flint-extras/src/nmod_mat_extra/nmod_mat_rotations.c and of the row rotations and
    sorting permutations of flint-extras/src/nmod_poly_mat_extra/nmod_poly_mat_utils.c.
    A matrix is an array of rows: copying the c entries of a row (FLINT >= 3.3) or its row
    pointer (FLINT < 3.3) is copying the row function. *)
From mathcomp Require Import all_ssreflect all_algebra.
From Verif Require Import A_base.
Set Implicit Arguments.
Unset Strict Implicit.
Unset Printing Implicit Defensive.

Section Array.
Variable T : Type.

(** nmod_mat_rotations.c:28-31 (also 35-38, 40-46, 93-96, 101-104):
    tmp = v[j]; for (ii = j; ii > i; ii--) v[ii] = v[ii-1]; v[i] = tmp *)
Definition rot_down (v : nat -> T) (i j : nat) : nat -> T :=
  let tmp := v j in
  upd (foldl (fun v ii => upd v ii (v ii.-1)) v (rev (iota i.+1 (j - i)))) i tmp.

(** nmod_mat_rotations.c:58-61 (also 65-68, 70-76):
    tmp = v[i]; for (ii = i; ii < j; ii++) v[ii] = v[ii+1]; v[j] = tmp *)
Definition rot_up (v : nat -> T) (i j : nat) : nat -> T :=
  let tmp := v i in
  upd (foldl (fun v ii => upd v ii (v ii.+1)) v (iota i (j - i))) j tmp.

(** nmod_mat_rotations.c:123-126: as rot_up, except that the last assignment goes to v[i] *)
Definition rot_left_entries (v : nat -> T) (i j : nat) : nat -> T :=
  let tmp := v i in
  upd (foldl (fun v ii => upd v ii (v ii.+1)) v (iota i (j - i))) i tmp.
End Array.

Section Mat.
Variables R V : Type.
Implicit Types (A : fmat R) (vec : option (nat -> V)).

(** nmod_mat_rotations.c:22-50 and nmod_poly_mat_utils.c:22-51; vec is None for NULL *)
Definition rotate_rows_downward A vec i j : fmat R * option (nat -> V) :=
  if i != j then (rot_down A i j, omap (fun v => rot_down v i j) vec) else (A, vec).

(** nmod_mat_rotations.c:52-80 and nmod_poly_mat_utils.c:53-82 *)
Definition rotate_rows_upward A vec i j : fmat R * option (nat -> V) :=
  if i != j then (rot_up A i j, omap (fun v => rot_up v i j) vec) else (A, vec).

(** nmod_mat_rotations.c:87-107; m is mat->r *)
Definition rotate_columns_rightward m A vec i j : fmat R * option (nat -> V) :=
  if i != j then
    (foldl (fun A ii => upd A ii (rot_down (A ii) i j)) A (iota 0 m),
     omap (fun v => rot_down v i j) vec)
  else (A, vec).

(** nmod_mat_rotations.c:109-129 *)
Definition rotate_columns_leftward m A vec i j : fmat R * option (nat -> V) :=
  if i != j then
    (foldl (fun A ii => upd A ii (rot_left_entries (A ii) i j)) A (iota 0 m),
     omap (fun v => rot_up v i j) vec)
  else (A, vec).

(** FLINT's _perm_compose(store, store, act, n): a copy t of the n first entries of store, then
    store[i] = t[act[i]] for i < n. Reading t beyond n, or act beyond its length len, is
    undefined. *)
Definition perm_compose (len n : nat) (store : nat -> V) (act : nat -> nat) : aoutcome (nat -> V) :=
  if (len < n)%N || has (fun i => (n <= act i)%N) (iota 0 n) then AUB
  else AOk (foldl (fun s i => upd s i (store (act i))) store (iota 0 n)).

(** nmod_mat_rotations.c:141-164; mat is m x n, act has n entries; the composition is done with
    length mat->r (line 147) *)
Definition mat_permute_columns m n A (act : nat -> nat) vec
  : aoutcome (fmat R * option (nat -> V)) :=
  let A' := foldl (fun A i =>
      let buf := A i in
      upd A i (foldl (fun r j => upd r j (buf (act j))) (A i) (iota 0 n))) A (iota 0 m) in
  match vec with
  | None => AOk (A', None)
  | Some s =>
    match perm_compose n m s act with
    | AOk s' => AOk (A', Some s')
    | AUB => AUB
    end
  end.
End Mat.

(** nmod_poly_mat_utils.c:96-113: lexicographic order on (value, index) *)
Definition pair_le (a b : int * nat) : bool :=
  (a.1 < b.1)%R || ((a.1 == b.1) && (a.2 <= b.2)%N).

(** nmod_poly_mat_utils.c:130-149; qsort of pairs for a total order is modelled by [sort] *)
Definition vec_sort_permutation (n : nat) (vec : nat -> int) : (nat -> nat) * (nat -> int) :=
  let pairs := sort pair_le [seq (vec i, i) | i <- iota 0 n] in
  (fun i => (nth (0%R, 0%N) pairs i).2, fun i => (nth (0%R, 0%N) pairs i).1).

(** nmod_poly_mat_utils.c:151-162: (mat', vec', perm); nmod_poly_mat_permute_rows(mat, perm, NULL)
    replaces row i by row perm[i] *)
Definition permute_rows_by_sorting_vec (R : Type) (r : nat) (A : fmat R) (vec : nat -> int)
  : fmat R * (nat -> int) * (nat -> nat) :=
  let '(perm, svec) := vec_sort_permutation r vec in
  let perm' i := if (i < r)%N then perm i else i in
  (fun i => A (perm' i), fun i => if (i < r)%N then svec i else vec i, perm').

(** nmod_poly_mat_utils.c:165-176 *)
Definition permute_columns_by_sorting_vec (R : Type) (r : nat) (A : fmat R) (vec : nat -> int)
  : fmat R * (nat -> int) * (nat -> nat) :=
  let '(perm, svec) := vec_sort_permutation r vec in
  let perm' i := if (i < r)%N then perm i else i in
  (fun i j => A i (perm' j), fun i => if (i < r)%N then svec i else vec i, perm').
