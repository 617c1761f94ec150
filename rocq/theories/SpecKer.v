(** What NTL's kernel and image (mat_lzz_p.h) return, for matrices given by their entries. *)
From mathcomp Require Import all_ssreflect all_algebra.
From Verif Require Import A_base.
Set Implicit Arguments.
Unset Strict Implicit.
Unset Printing Implicit Defensive.
Import GRing.Theory.
Local Open Scope ring_scope.

Section Spec.
Variable F : fieldType.
Implicit Types (A K B : fmat F).

(** the k rows of K are a basis of the left kernel of the m x n matrix A *)
Definition left_kernel_of (m n : nat) A (k : nat) K : Prop :=
  [/\ mx_of k m K *m mx_of m n A = 0, row_free (mx_of k m K) & (k + \rank (mx_of m n A))%N = m].

(** the r rows of B are a basis of the row space of the k x m matrix A, in row echelon form *)
Definition image_of (k m : nat) A (r : nat) B : Prop :=
  [/\ r = \rank (mx_of k m A), (mx_of r m B :=: mx_of k m A)%MS
    & exists lead : nat -> nat, (forall i, (i < r)%N -> [/\ (lead i < m)%N, B i (lead i) != 0 & forall j, (j < lead i)%N -> B i j = 0])
        /\ (forall i j, (i < j < r)%N -> (lead i < lead j)%N)].

(** comment of mat_lzz_pX_pmbasis.cpp:90-92: when the rightmost nonzero entries of the rows are on the diagonal of the rightmost k x k
    submatrix, this submatrix is the identity *)
Definition identity_block (k m : nat) K : Prop :=
  (forall i, (i < k)%N -> K i (m - k + i)%N != 0 /\ forall c, (m - k + i < c < m)%N -> K i c = 0) ->
  forall i j, (i < k)%N -> (j < k)%N -> K i (m - k + j)%N = (i == j)%:R.

(** the matrix described by the vector pivdeg and the constant matrix K (mat_lzz_pX_approximant.h, mbasis1): the row i is X e_i when
    pivdeg[i] is not zero, and otherwise the next row of K *)
Definition order1_basis (m : nat) K (pivdeg : seq nat) : 'M[{poly F}]_m :=
  \matrix_(i, j) (if nth 0%N pivdeg i == 0%N then (K (count (fun q => nth 0%N pivdeg q == 0%N) (iota 0 i)) j)%:P
                  else if i == j then 'X else 0).
End Spec.
