(** Specifications of pivots and of the forms of polynomial matrices (definitions
    of flint-extras/src/nmod_poly_mat_forms.h:60-100, 176-200, 258-280, 420-470),
    on mathcomp matrices only. *)
From mathcomp Require Import all_ssreflect all_algebra.
From Verif Require Import SpecA.
Set Implicit Arguments.
Unset Strict Implicit.
Unset Printing Implicit Defensive.
Import GRing.Theory Num.Theory.
Local Open Scope ring_scope.

(** nmod_poly_mat_forms.h:99-105 *)
Inductive orientation := COL_UPPER | COL_LOWER | ROW_UPPER | ROW_LOWER.

(** a NULL shift stands for the zero shift *)
Definition shiftf (shift : option (nat -> int)) : nat -> int :=
  if shift is Some s then s else fun _ => 0.

Section Spec.
Variable F : fieldType.

(** [up = false]: rightmost entry reaching the s-degree; [up = true]: leftmost *)
Definition before (up : bool) n (k j : 'I_n) : bool := if up then (k < j)%N else (j < k)%N.

Definition pivot_at (up : bool) n (s : nat -> int) (v : 'rV[{poly F}]_n) (j : 'I_n) : Prop :=
  [/\ v 0 j != 0,
      (forall k, v 0 k != 0 -> sdeg (s k) (v 0 k) <= sdeg (s j) (v 0 j)) &
      (forall k, before up k j -> v 0 k != 0 -> sdeg (s k) (v 0 k) < sdeg (s j) (v 0 j))].

(** rightmost (resp. leftmost) nonzero entry *)
Definition echelon_pivot_at (up : bool) n (v : 'rV[{poly F}]_n) (j : 'I_n) : Prop :=
  v 0 j != 0 /\ forall k, before up k j -> v 0 k = 0.

Definition increasing m n (piv : 'I_m -> 'I_n) : Prop :=
  forall i i' : 'I_m, (i < i')%N -> (piv i < piv i')%N.

(** row-wise forms *)
Definition weak_popov_form up (s : nat -> int) m n (M : 'M[{poly F}]_(m, n)) : Prop :=
  exists2 piv : 'I_m -> 'I_n, injective piv & forall i, pivot_at up s (row i M) (piv i).

Definition ordered_weak_popov_form up (s : nat -> int) m n (M : 'M[{poly F}]_(m, n)) : Prop :=
  exists2 piv : 'I_m -> 'I_n, increasing piv & forall i, pivot_at up s (row i M) (piv i).

Definition popov_form up (s : nat -> int) m n (M : 'M[{poly F}]_(m, n)) : Prop :=
  exists2 piv : 'I_m -> 'I_n, increasing piv &
    forall i, [/\ pivot_at up s (row i M) (piv i),
                  M i (piv i) \is monic &
                  forall i', i' != i -> (size (M i' (piv i)) < size (M i (piv i)))%N].

(** zero rows are grouped at the top ([up = false]) or at the bottom *)
Definition echelon_form up m n (M : 'M[{poly F}]_(m, n)) : Prop :=
  exists2 piv : 'I_m -> option 'I_n,
    (forall i, if piv i is Some j then echelon_pivot_at up (row i M) j else row i M = 0) &
    forall i i' : 'I_m, (i < i')%N ->
      match piv i, piv i' with
      | Some j, Some j' => (j < j')%N
      | Some _, None => up
      | None, Some _ => ~~ up
      | None, None => true
      end.

(** entries below (resp. above) a pivot have smaller degree *)
Definition hermite_form up m n (M : 'M[{poly F}]_(m, n)) : Prop :=
  exists2 piv : 'I_m -> 'I_n, increasing piv &
    forall i, [/\ echelon_pivot_at up (row i M) (piv i),
                  M i (piv i) \is monic &
                  forall i', before up i' i -> (size (M i' (piv i)) < size (M i (piv i)))%N].

(** s-leading matrix, s-reduced form *)
Definition leading_matrix_of (s : nat -> int) m n (M : 'M[{poly F}]_(m, n)) (L : 'M[F]_(m, n)) : Prop :=
  forall i, (row i M = 0 -> row i L = 0) /\
    (forall t, is_rdeg (fun j : 'I_n => s j) (row i M) t ->
       forall j, L i j = if s j <= t then (M i j)`_`|t - s j|%N else 0).

Definition reduced_form (s : nat -> int) m n (M : 'M[{poly F}]_(m, n)) : Prop :=
  exists2 L, leading_matrix_of s M L & row_free L.

(** column-wise forms are defined by transposition *)
Definition oriented (Q : bool -> forall m n, 'M[{poly F}]_(m, n) -> Prop) (o : orientation)
  m n (M : 'M[{poly F}]_(m, n)) : Prop :=
  match o with
  | ROW_LOWER => Q false m n M
  | ROW_UPPER => Q true m n M
  | COL_UPPER => Q false n m M^T
  | COL_LOWER => Q true n m M^T
  end.
End Spec.
