(** Model of flint-extras/src/nmod_mat_poly_extra/nmod_mat_poly_mbasis.c. *)
From mathcomp Require Import all_ssreflect all_algebra zify.
From Verif Require Import A_base A_nullspace_model A_matpoly_model.
Set Implicit Arguments.
Unset Strict Implicit.
Unset Printing Implicit Defensive.
Import GRing.Theory Num.Theory.
Local Open Scope ring_scope.

(** nmod_mat_poly_mbasis.c:69-86, _slong_pair_compare (as a <= test), and 99-114,
    _find_shift_permutation. qsort is trusted to sort. Shifts are unbounded
    integers here (slong in C). *)
Definition shift_le (s : nat -> int) (i j : nat) : bool :=
  if s i == s j then (i <= j)%N else (s i < s j)%R.
Definition find_shift_permutation (m : nat) (s : nat -> int) : seq nat :=
  sort (shift_le s) (iota 0 m).

Section MBasis.
Variable F : fieldType.

(** nmod_mat_poly_mbasis.c:296-307: rows rk.. += nsbas * rows 0..rk-1, in every
    coefficient *)
Definition const_update m rk (K : fmat F) (A : mat_poly F) : mat_poly F :=
  MatPoly (mp_len A) (fun d i j =>
    if (rk <= i < m)%N then mp_co A d i j + \sum_(l < rk) K (i - rk)%N l * mp_co A d l j
    else mp_co A d i j).

(** nmod_mat_poly_mbasis.c:311-317: one more coefficient if one of the first rk
    rows is nonzero in the leading coefficient *)
Definition grow_length m rk (A : mat_poly F) : mat_poly F :=
  if has (fun i => ~~ all (fun j => mp_co A (mp_len A).-1 i j == 0) (iota 0 m)) (iota 0 rk)
  then mp_set_length A (mp_len A).+1 else A.

(** nmod_mat_poly_mbasis.c:336-344 (FLINT >= 3.3 branch): the first rk rows are
    multiplied by X, without changing the length *)
Definition shift_rows rk (A : mat_poly F) : mat_poly F :=
  let co1 := foldl (fun co d => upd co d (fun i j => if (i < rk)%N then co d.-1 i j else co d i j))
               (mp_co A) (rev (iota 1 (mp_len A).-1)) in
  MatPoly (mp_len A) (upd co1 0%N (fun i j => if (i < rk)%N then 0 else co1 0%N i j)).

(** _perm_inv (FLINT) *)
Definition perm_inv m (p : seq nat) : seq nat := [seq index i p | i <- iota 0 m].

(** nmod_mat_poly_mbasis.c:174-365, one iteration; None is the "break" of the
    case nullity == 0 (whose final update is in mbasis_loop) *)
Definition mbasis_step m n (matp : mat_poly F) (ord : nat) (st : mat_poly F * (nat -> int))
  : option (mat_poly F * (nat -> int)) :=
  let '(appbas, s) := st in
  let res := if ord == 0%N then mp_co matp 0%N else mp_mul_coeff m appbas matp ord in
  let perm := find_shift_permutation m s in
  let res := fperm_rows (nth 0%N perm) res in
  let '(nullity, nsbas, pivots) := left_nullspace_compact m n res in
  if nullity == 0%N then None
  else if (nullity < m)%N then
    let rk := (m - nullity)%N in
    let pivots := [seq nth 0%N perm i | i <- pivots] in
    let s := foldl (fun s i => upd s (nth 0%N pivots i) (s (nth 0%N pivots i) + 1))
               s (iota 0 rk) in
    let appbas := mp_permute_rows appbas pivots in
    let appbas := const_update m rk nsbas appbas in
    let appbas := grow_length m rk appbas in
    let appbas := shift_rows rk appbas in
    Some (mp_permute_rows appbas (perm_inv m pivots), s)
  else Some (appbas, s).

(** nmod_mat_poly_mbasis.c:162-366, the loop; [k] is order - ord *)
Fixpoint mbasis_loop m n (matp : mat_poly F) (k ord : nat) (st : mat_poly F * (nat -> int))
  : mat_poly F * (nat -> int) :=
  if k is k'.+1 then
    match mbasis_step m n matp ord st with
    | Some st' => mbasis_loop m n matp k' ord.+1 st'
    | None => (mp_shift_left true st.1 st.1 k,
               foldl (fun s i => upd s i (s i + k%:Z)) st.2 (iota 0 m))
    end
  else st.

(** nmod_mat_poly_mbasis.c:116-378, nmod_mat_poly_mbasis. With order = 0 and a
    nonzero matp, line 374 clears the uninitialised matrix nsbas. *)
Definition mbasis m n (matp : mat_poly F) (order : nat) (s : nat -> int)
  : aoutcome (mat_poly F * (nat -> int)) :=
  if mp_is_zero matp then AOk (mp_one, s)
  else if order == 0%N then AUB
  else AOk (mbasis_loop m n matp order 0 (mp_one, s)).

(** approximant_basis.c:18-31, nmod_poly_mat_mbasis *)
Definition pm_mbasis m n (P : fmat {poly F}) (order : nat) (s : nat -> int)
  : aoutcome (fmat {poly F} * (nat -> int)) :=
  match mbasis m n (mp_set_trunc_from_poly_mat m n P order) order s with
  | AOk (app, t) => AOk (pm_set_from_mat_poly app, t)
  | AUB => AUB
  end.
End MBasis.
