(** Specification of upper row echelon forms and of Hermite forms with their pivots, and of rank
    profiles (documentation: flint-extras/src/nmod_poly_mat_forms.h:526-570, 615-640). *)
From mathcomp Require Import all_ssreflect all_algebra fraction.
From Verif Require Import A_base SpecA SpecForms SpecWP.
Set Implicit Arguments.
Unset Strict Implicit.
Unset Printing Implicit Defensive.
Import GRing.Theory Num.Theory.
Local Open Scope ring_scope.

Section Spec.
Variable F : fieldType.
Local Notation P := {poly F}.

(** monic greatest common divisor and cofactors of two nonzero polynomials *)
Definition xgcd_spec (xgcd : P -> P -> P * P * P) : Prop :=
  forall a b, a != 0 -> b != 0 ->
    let '(g, u, v) := xgcd a b in [/\ g \is monic, g %| a, g %| b & u * a + v * b = g].

(** M is in upper row echelon form: the rk first rows have their leftmost nonzero entries in the
    increasing columns pivind, the other rows are zero *)
Definition uref_with m n (M : 'M[P]_(m, n)) (rk : nat) (pivind : nat -> nat) : Prop :=
  [/\ (rk <= m)%N,
      forall i : 'I_m, (i < rk)%N ->
        exists2 j : 'I_n, pivind i = j & echelon_pivot_at true (row i M) j,
      forall i i', (i < i' < rk)%N -> (pivind i < pivind i')%N &
      forall i : 'I_m, (rk <= i)%N -> row i M = 0].

(** moreover the pivots are monic and the entries above them have smaller degree *)
Definition hermite_with m n (M : 'M[P]_(m, n)) (rk : nat) (pivind : nat -> nat) : Prop :=
  uref_with M rk pivind /\
  forall (i : 'I_m) (j : 'I_n), (i < rk)%N -> pivind i = j ->
    M i j \is monic /\ forall i' : 'I_m, (i' < i)%N -> (size (M i' j) < size (M i j))%N.

(** i first rows and j first columns of a matrix *)
Definition leading_block i j (M : nat -> nat -> P) : 'M[P]_(i, j) := \matrix_(a < i, b < j) M a b.

(** the columns pivind 0 < ... < pivind (rk - 1) form the column rank profile: for each p the
    rank of the p first columns is the number of those columns *)
Definition column_rank_profile m n (M : nat -> nat -> P) (rk : nat) (pivind : nat -> nat) : Prop :=
  forall p, (p <= n)%N -> prank (leading_block m p M) = #|[set i : 'I_rk | (pivind i < p)%N]|.

(** matrix rank profile (Dumas, Pernet, Sultan): the rank of the i x j leading submatrix is the
    number of ones at positions (k, mrp k) in that submatrix; mrp k = -1 if row k has no one *)
Definition matrix_rank_profile m n (M : nat -> nat -> P) (mrp : nat -> int) : Prop :=
  (forall i, (i < m)%N -> mrp i = -1 \/ exists2 j, (j < n)%N & mrp i = j%:Z) /\
  forall i j, (i <= m)%N -> (j <= n)%N ->
    prank (leading_block i j M) = #|[set k : 'I_i | (0 <= mrp k) && (mrp k < j%:Z)]|.

(** A' = U A for a matrix U whose determinant satisfies Q, and T' = U T if the optional matrix T
    is present *)
Definition transformed m n cT (Q : P -> Prop) (A : nat -> nat -> P) (T : option (nat -> nat -> P))
  (A' : nat -> nat -> P) (T' : option (nat -> nat -> P)) : Prop :=
  exists U : 'M[P]_m, [/\ Q (\det U), leading_block m n A' = U *m leading_block m n A &
    opt_rel (fun B B' => leading_block m cT B' = U *m leading_block m cT B) T T'].

(** determinant 1 or -1; nonzero constant determinant, that is, unimodular *)
Definition sign_det (d : P) : Prop := d = 1 \/ d = -1.
Definition const_det (d : P) : Prop := exists2 c : F, c != 0 & d = c%:P.

(** entries 0, ..., m-1 of the optional array contain the matrix rank profile, the others are
    unchanged *)
Definition mrp_filled m n (M : nat -> nat -> P) (r r' : option (nat -> int)) : Prop :=
  opt_rel (fun r r' => matrix_rank_profile m n M r' /\ forall i, (m <= i)%N -> r' i = r i) r r'.
End Spec.
