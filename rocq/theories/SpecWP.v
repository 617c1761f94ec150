(** Specification of weak Popov form computations on a block of rows
    (documentation: flint-extras/src/nmod_poly_mat_forms.h:735-842). A matrix given by its
    entries is a function of the row and column indices. *)
From mathcomp Require Import all_ssreflect all_algebra fraction.
From Verif Require Import SpecA SpecForms.
Set Implicit Arguments.
Unset Strict Implicit.
Unset Printing Implicit Defensive.
Import GRing.Theory Num.Theory.
Local Open Scope ring_scope.

(** pivots: rightmost for ROW_LOWER, leftmost for ROW_UPPER *)
Definition leftmost (o : orientation) : bool := if o is ROW_UPPER then true else false.

Section Spec.
Variable F : fieldType.
Local Notation P := {poly F}.

(** the block of r rows and c columns whose first row is r0 *)
Definition block r0 r c (M : nat -> nat -> P) : 'M[P]_(r, c) :=
  \matrix_(i < r, j < c) M (r0 + i)%N j.

(** rank over the field of fractions *)
Definition prank r c (M : 'M[P]_(r, c)) : nat :=
  \rank (map_mx (@FracField.tofrac [idomainType of P]) M).

(** rows r0..r0+r-1 are multiplied on the left by U, the other rows are unchanged *)
Definition left_multiplied r0 r c (U : 'M[P]_r) (M M' : nat -> nat -> P) : Prop :=
  block r0 r c M' = U *m block r0 r c M /\
  forall i j, (i < r0)%N || (r0 + r <= i)%N -> M' i j = M i j.

(** a relation between the values of an optional argument before and after *)
Definition opt_rel (T : Type) (Q : T -> T -> Prop) (x y : option T) : Prop :=
  match x, y with Some a, Some b => Q a b | None, None => True | _, _ => False end.

(** pivind lists the pivots of the k rows of M, which is in weak Popov form *)
Definition weak_popov_with up (s : nat -> int) k c (M : 'M[P]_(k, c)) (pivind : nat -> int) : Prop :=
  exists2 piv : 'I_k -> 'I_c, injective piv &
    forall i, pivot_at up s (row i M) (piv i) /\ pivind i = (piv i : nat)%:Z.
Definition ordered_weak_popov_with up (s : nat -> int) k c (M : 'M[P]_(k, c)) (pivind : nat -> int) : Prop :=
  exists2 piv : 'I_k -> 'I_c, increasing piv &
    forall i, pivot_at up s (row i M) (piv i) /\ pivind i = (piv i : nat)%:Z.

(** rrp lists k of the m first rows of M, in increasing order, and for each p <= m the number of
    those among the p first rows is the rank of the p first rows *)
Definition row_rank_profile r0 m c (M : nat -> nat -> P) k (rrp : nat -> nat) : Prop :=
  [/\ forall i, (i < k)%N -> (rrp i < m)%N,
      forall i i', (i < i' < k)%N -> (rrp i < rrp i')%N &
      forall p, (p <= m)%N -> prank (block r0 p c M) = #|[set i : 'I_k | (rrp i < p)%N]|].
End Spec.
