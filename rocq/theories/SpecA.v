(** Specifications for the algebra layer, on mathcomp matrices only. *)
From mathcomp Require Import all_ssreflect all_algebra.
Set Implicit Arguments.
Unset Strict Implicit.
Unset Printing Implicit Defensive.
Import GRing.Theory Num.Theory.
Local Open Scope ring_scope.

Section Spec.
Variable F : fieldType.

(** ** Shifted degrees and pivots of a polynomial row vector *)
(** deg p + s for a nonzero polynomial p *)
Definition sdeg (s : int) (p : {poly F}) : int := (size p)%:Z - 1 + s.

(** t bounds the shifted degrees of all nonzero entries *)
Definition rdeg_le n (s : 'I_n -> int) (v : 'rV[{poly F}]_n) (t : int) : Prop :=
  forall j, v 0 j != 0 -> sdeg (s j) (v 0 j) <= t.

(** t is the shifted row degree of the (nonzero) vector *)
Definition is_rdeg n (s : 'I_n -> int) (v : 'rV[{poly F}]_n) (t : int) : Prop :=
  rdeg_le s v t /\ exists2 j, v 0 j != 0 & sdeg (s j) (v 0 j) = t.

(** j is the s-pivot index ("lower": rightmost entry reaching the s-degree) *)
Definition is_pivot n (s : 'I_n -> int) (v : 'rV[{poly F}]_n) (j : 'I_n) : Prop :=
  v 0 j != 0 /\
  (forall k : 'I_n, v 0 k != 0 -> sdeg (s k) (v 0 k) <= sdeg (s j) (v 0 j)) /\
  (forall k : 'I_n, (j < k)%N -> v 0 k != 0 -> sdeg (s k) (v 0 k) < sdeg (s j) (v 0 j)).

(** s-ordered weak Popov form: the s-pivot indices of the rows are strictly
    increasing (in particular no row is zero); s-weak Popov: pairwise distinct *)
Definition ordered_weak_popov m n (s : 'I_n -> int) (P : 'M[{poly F}]_(m, n)) : Prop :=
  exists2 piv : 'I_m -> 'I_n,
    (forall i i' : 'I_m, (i < i')%N -> (piv i < piv i')%N) &
    (forall i, is_pivot s (row i P) (piv i)).

Definition weak_popov m n (s : 'I_n -> int) (P : 'M[{poly F}]_(m, n)) : Prop :=
  exists2 piv : 'I_m -> 'I_n, injective piv & (forall i, is_pivot s (row i P) (piv i)).

(** ** Approximants *)
(** v is an approximant of A at order d: v A = 0 mod X^d *)
Definition approximant m n (d : nat) (A : 'M[{poly F}]_(m, n)) (v : 'rV[{poly F}]_m) : Prop :=
  forall j, 'X^d %| (v *m A) 0 j.

(** the rows of P form a basis of the module of vectors satisfying Q *)
Definition basis_of m k (Q : 'rV[{poly F}]_m -> Prop) (P : 'M[{poly F}]_(k, m)) : Prop :=
  (forall i, Q (row i P)) /\
  (forall v, Q v -> exists w : 'rV_k, v = w *m P) /\
  (forall w : 'rV_k, w *m P = 0 -> w = 0).

Definition approx_basis m n d (A : 'M[{poly F}]_(m, n)) (P : 'M_m) : Prop :=
  basis_of (approximant d A) P.

Definition kernel_basis m n k (A : 'M[{poly F}]_(m, n)) (P : 'M_(k, m)) : Prop :=
  basis_of (fun v => v *m A = 0) P.

(** ** Unimodular equivalence *)
Definition unimodular m (U : 'M[{poly F}]_m) : Prop := exists V : 'M_m, U *m V = 1%:M /\ V *m U = 1%:M.

(** ** Congruence modulo X^d, value at 0 *)
Definition cong d m n (M N : 'M[{poly F}]_(m, n)) : Prop := forall i j, 'X^d %| M i j - N i j.
Definition at0 m n (M : 'M[{poly F}]_(m, n)) : 'M[F]_(m, n) := map_mx (horner_eval 0) M.

End Spec.

Section SpecKernel.
Variable F : fieldType.

(** K is a basis of the left kernel of A in s-ordered weak Popov form; piv and t give
    the s-pivot indices and the s-degrees of its rows *)
Definition minimal_kernel_basis m n k (s : 'I_m -> int) (A : 'M[{poly F}]_(m, n))
  (K : 'M[{poly F}]_(k, m)) (piv : nat -> nat) (t : nat -> int) : Prop :=
  [/\ kernel_basis A K,
      forall i : 'I_k, exists2 j : 'I_m, piv i = j & is_pivot s (row i K) j,
      forall i i' : 'I_k, (i < i')%N -> (piv i < piv i')%N &
      forall i : 'I_k, is_rdeg s (row i K) (t i)].
End SpecKernel.
