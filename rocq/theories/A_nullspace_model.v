(** Model of flint-extras/src/nmod_mat_extra/left_nullspace.c. *)
From mathcomp Require Import all_ssreflect all_algebra zify.
From Verif Require Import A_base.
Set Implicit Arguments.
Unset Strict Implicit.
Unset Printing Implicit Defensive.
Import GRing.Theory Num.Theory.
Local Open Scope ring_scope.

Section Nullspace.
Variable F : fieldType.
Implicit Types A X : fmat F.

(** FLINT's nmod_mat_nullspace(X, B), for B with r rows and c columns (trusted,
    not in the repository). FLINT computes the reduced row echelon form of B,
    lists the pivot columns and the nonpivot columns, and stores as i-th column
    of X the kernel vector with 1 at the i-th nonpivot position and, at the
    pivot positions, the opposite of the coordinates of that nonpivot column on
    the pivot columns. The reduced form is unique, which allows the following
    direct definition. [depcol k]: column k is a combination of the previous
    ones. *)
Definition col_vec r (B : fmat F) (k : nat) : 'cV[F]_r := mx_of r 1 (fun i _ => B i k).
Definition depcol r (B : fmat F) (k : nat) : bool :=
  ((col_vec r B k)^T <= (mx_of r k B)^T)%MS.
Definition pivcols r c (B : fmat F) : seq nat := [seq k <- iota 0 c | ~~ depcol r B k].
Definition npivcols r c (B : fmat F) : seq nat := [seq k <- iota 0 c | depcol r B k].
(** coordinates of column k on the pivot columns *)
Definition coords r c (B : fmat F) (k : nat) : 'rV[F]_(size (pivcols r c B)) :=
  (col_vec r B k)^T *m
  pinvmx (mx_of r (size (pivcols r c B)) (fun i t => B i (nth 0%N (pivcols r c B) t)))^T.
Definition coord_at r c (B : fmat F) (k t : nat) : F :=
  if insub t is Some t' then coords r c B k 0 t' else 0.
Definition nmod_mat_nullspace r c (B : fmat F) : nat * fmat F :=
  let piv := pivcols r c B in
  let npiv := npivcols r c B in
  (size npiv,
   fun i j =>
     if i == nth 0%N npiv j then 1
     else if i \in piv then - coord_at r c B (nth 0%N npiv j) (index i piv)
     else 0).

(** left_nullspace.c:68-75: position of the last nonzero entry of column j of X,
    scanning upwards from row r-1. The C code would end with -1 when there is
    none ("we should never arrive at"); the model ends with r. *)
Fixpoint scan_last (r k : nat) (f : nat -> F) : nat :=
  if k is k'.+1 then (if f k' == 0 then scan_last r k' f else k') else r.

(** left_nullspace.c:77-87: the positions strictly before, between and after the
    pivot positions, in the order in which the three loops store them in
    permutation[0], permutation[1], ... Simplification: the model returns them as
    a list rather than writing into the array that also holds the pivots; that
    they fill exactly permutation[0..rank) is part of the theorem C15. *)
Definition gaps (m : nat) (ps : seq nat) : seq nat :=
  let p0 := head 0%N ps in
  iota 0 p0
  ++ flatten [seq iota (nth 0%N ps j).+1 (nth 0%N ps j.+1 - (nth 0%N ps j).+1)
             | j <- iota 0 (size ps).-1]
  ++ iota (last 0%N ps).+1 (m - (last 0%N ps).+1).

(** left_nullspace.c:42-102, nmod_mat_left_nullspace_compact; returns (nullity,
    X, permutation). A has m rows and n columns. *)
Definition left_nullspace_compact m n (A : fmat F) : nat * fmat F * seq nat :=
  let '(nullity, Xt) := nmod_mat_nullspace n m (ftr A) in
  if nullity == 0%N then (0%N, fzero, iota 0 m)
  else
    let ps := [seq scan_last m m (fun i => Xt i j) | j <- iota 0 nullity] in
    let perm := gaps m ps ++ ps in
    (nullity, (fun i j => Xt (nth 0%N perm j) i), perm).

(** left_nullspace.c:18-40, nmod_mat_left_nullspace: expansion of the compact
    form; X starts as the zero matrix. *)
Definition left_nullspace m n (A : fmat F) : nat * fmat F :=
  let '(nullity, Y, perm) := left_nullspace_compact m n A in
  let rank := (m - nullity)%N in
  let X1 := foldl (fun (X : fmat F) i => upd X i (upd (X i) (nth 0%N perm (rank + i)) 1))
              fzero (iota 0 nullity) in
  let X2 := foldl (fun (X : fmat F) i =>
              foldl (fun (X : fmat F) j => upd X i (upd (X i) (nth 0%N perm j) (Y i j)))
                X (iota 0 rank))
              X1 (iota 0 nullity) in
  (nullity, X2).
End Nullspace.
