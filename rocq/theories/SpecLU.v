(** Specifications for constant matrices: rotations, LU factors, row rank profile. *)
From mathcomp Require Import all_ssreflect all_algebra.
Set Implicit Arguments.
Unset Strict Implicit.
Unset Printing Implicit Defensive.
Import GRing.Theory.
Local Open Scope ring_scope.

Section Rot.
Variable T : Type.
(** nmod_mat_extra.h:403-420: entry j goes to position i, entries i..j-1 move one step further *)
Definition rotated_down (i j : nat) (old new : nat -> T) : Prop :=
  [/\ new i = old j,
      forall k, (i < k <= j)%N -> new k = old (k - 1)%N &
      forall k, (k < i)%N || (j < k)%N -> new k = old k].
(** nmod_mat_extra.h:423-440: entry i goes to position j, entries i+1..j move one step back *)
Definition rotated_up (i j : nat) (old new : nat -> T) : Prop :=
  [/\ new j = old i,
      forall k, (i <= k < j)%N -> new k = old (k + 1)%N &
      forall k, (k < i)%N || (j < k)%N -> new k = old k].
End Rot.

Section LU.
Variable F : fieldType.
Definition unit_lower m (L : 'M[F]_m) : Prop :=
  (forall i, L i i = 1) /\ (forall i j : 'I_m, (i < j)%N -> L i j = 0).

(** the factors stored in the compact matrix LU of rank rk: L has ones on its diagonal, the
    entries of LU strictly below the diagonal in its rk first columns, and zeros elsewhere; U has
    the entries of LU on and above the diagonal in its rk first rows and zeros elsewhere *)
Definition stored_L m rk (LU : nat -> nat -> F) : 'M[F]_m :=
  \matrix_(i, j) if i == j then 1 else if (j < i)%N && (j < rk)%N then LU i j else 0.
Definition stored_U m n rk (LU : nat -> nat -> F) : 'M[F]_(m, n) :=
  \matrix_(i, j) if (i < rk)%N && (i <= j)%N then LU i j else 0.

(** row i of A is a linear combination of the rows of smaller index *)
Definition depends_on_previous m n (A : 'M[F]_(m, n)) (i : 'I_m) : Prop :=
  exists c : 'I_m -> F, row i A = \sum_(k < m | (k < i)%N) c k *: row k A.

(** perm is a permutation of 0..n-1 *)
Definition is_perm n (p : nat -> nat) : Prop :=
  (forall i, (i < n)%N -> (p i < n)%N) /\ (forall i j, (i < n)%N -> (j < n)%N -> p i = p j -> i = j).

(** nmod_mat_extra.h:330-352: rk is the rank of A, A = P L U Q for the stored factors, the
    pivots (diagonal entries of U) are nonzero and LU is zero beyond them, and P lists first
    the row rank profile of A, then the other row indices, both in increasing order *)
Definition is_pluq m n (A : nat -> nat -> F) (LU : nat -> nat -> F) (P Q : nat -> nat) (rk : nat) : Prop :=
  let A' := \matrix_(i < m, j < n) A i j in
  [/\ [/\ rk = \rank A', is_perm m P & is_perm n Q],
      \matrix_(i < m, j < n) A (P i) (Q j) = stored_L m rk LU *m stored_U m n rk LU,
      (forall k, (k < rk)%N -> LU k k != 0) /\
      (forall i j, (rk <= i < m)%N -> (rk <= j < n)%N -> LU i j = 0),
      (forall i i', (i < i')%N -> (i' < rk)%N || (rk <= i)%N && (i' < m)%N -> (P i < P i')%N) &
      forall i a : 'I_m, P i = a -> (depends_on_previous A' a <-> (rk <= i)%N)].
End LU.
