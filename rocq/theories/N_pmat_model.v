(** Matrices of polynomials of ntl-extras: dimensions, entries, degree. *)
From mathcomp Require Import all_ssreflect all_algebra.
From Verif Require Import A_base A_mul_model.
Set Implicit Arguments.
Unset Strict Implicit.
Unset Printing Implicit Defensive.
Import GRing.Theory.
Local Open Scope ring_scope.

Section PMat.
Variable F : fieldType.
Local Notation P := {poly F}.

(** a Mat<zz_pX>: NumRows, NumCols and the entries; those outside of the dimensions do not exist *)
Record pmat := Pmat { nr : nat; nc : nat; ent : fmat P }.

(** mat_lzz_pX_utils.cpp:136-144, deg, plus one: the degree of the zero polynomial is -1 *)
Definition plen (a : pmat) : nat :=
  foldl (fun d i => foldl (fun d j => if (d < size (ent a i j))%N then size (ent a i j) else d) d (iota 0 (nc a)))
    0%N (iota 0 (nr a)).

(** c is the matrix with these dimensions and entries *)
Definition is_pmat (c : pmat) (m n : nat) (e : fmat P) : Prop :=
  [/\ nr c = m, nc c = n & forall i j, (i < m)%N -> (j < n)%N -> ent c i j = e i j].

(** the product of matrices *)
Definition pprod (a b : pmat) : fmat P := fun i j => \sum_(k < nc a) ent a i k * ent b k j.
End PMat.
