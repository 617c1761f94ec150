(** Specification of minimal kernel bases in the four orientations. *)
From mathcomp Require Import all_ssreflect all_algebra.
From Verif Require Import SpecA SpecForms.
Set Implicit Arguments.
Unset Strict Implicit.
Unset Printing Implicit Defensive.
Import GRing.Theory Num.Theory.
Local Open Scope ring_scope.

Section Spec.
Variable F : fieldType.

(** the rows of K are a basis of the left kernel of A; row i has s-degree t i and s-pivot
    index piv i, and these indices are increasing. [up] tells which pivots are considered,
    see SpecForms.pivot_at *)
Definition left_kernel_basis (up : bool) m n k (s : nat -> int) (A : 'M[{poly F}]_(m, n))
  (K : 'M[{poly F}]_(k, m)) (piv : nat -> nat) (t : nat -> int) : Prop :=
  [/\ kernel_basis A K,
      forall i : 'I_k, exists2 j : 'I_m, piv i = j & pivot_at up s (row i K) j,
      forall i i' : 'I_k, (i < i')%N -> (piv i < piv i')%N &
      forall i : 'I_k, is_rdeg (fun j : 'I_m => s j) (row i K) (t i)].

(** d i is the largest degree of the entries of row i of A, or 0 if this row is zero *)
Definition row_degrees0 m n (A : 'M[{poly F}]_(m, n)) (d : nat -> int) : Prop :=
  forall i : 'I_m, (row i A = 0 /\ d i = 0) \/ is_rdeg (fun _ : 'I_n => 0) (row i A) (d i).
End Spec.
