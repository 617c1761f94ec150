(** Approximants of a polynomial matrix with one order per column (mat_lzz_pX_approximant.h:21-46). *)
From mathcomp Require Import all_ssreflect all_algebra.
From Verif Require Import SpecA SpecForms.
Set Implicit Arguments.
Unset Strict Implicit.
Unset Printing Implicit Defensive.
Import GRing.Theory.
Local Open Scope ring_scope.

Section Spec.
Variable F : fieldType.
(** v A = 0 mod X^(o_j) in each column j *)
Definition approximants (o : nat -> nat) m n (A : 'M[{poly F}]_(m, n)) (v : 'rV[{poly F}]_m) : Prop :=
  forall j : 'I_n, 'X^(o j) %| (v *m A) 0 j.

(** P is an s-ordered weak Popov basis of the approximants, with the s-degrees t of its rows *)
Definition minimal_approx_basis (o : nat -> nat) m n (A : 'M[{poly F}]_(m, n)) (s t : nat -> int) (P : 'M[{poly F}]_m) : Prop :=
  [/\ basis_of (approximants o A) P, ordered_weak_popov_form false s P &
      forall i : 'I_m, is_rdeg (fun j : 'I_m => s j) (row i P) (t i)].

(** P is an s-Popov basis of the approximants, with the s-degrees t of its rows *)
Definition popov_approx_basis (o : nat -> nat) m n (A : 'M[{poly F}]_(m, n)) (s t : nat -> int) (P : 'M[{poly F}]_m) : Prop :=
  [/\ basis_of (approximants o A) P, popov_form false s P &
      forall i : 'I_m, is_rdeg (fun j : 'I_m => s j) (row i P) (t i)].
End Spec.
