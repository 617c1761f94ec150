(** ntl-extras/mat_lzz_pX_extra/src/mat_lzz_pX_linearization.cpp: joining and collapsing columns, partial linearization of columns, products by
    partial linearization. A long is an integer without bounds; the divisions of doubles are exact. The dimensions d, s, dA, dB and the
    linearization degrees are nonnegative. *)
From Coq Require Import ZArith.
From mathcomp Require Import all_ssreflect all_algebra.
From Verif Require Import A_base N_pmat_model N_util_model N_forms_model N_pmb_model.
Set Implicit Arguments.
Unset Strict Implicit.
Unset Printing Implicit Defensive.
Import GRing.Theory Num.Theory.
Local Open Scope ring_scope.

Section Lin.
Variable F : fieldType.
Local Notation P := {poly F}.
Local Notation pmat := (pmat F).

(** 10-26, horizontal_join; LogicError is an error of NTL *)
Definition horizontal_join (a b : pmat) : fout pmat :=
  if nr a != nr b then Undef
  else Ret (Pmat (nr a) (nc a + nc b) (fun i j => if (j < nc a)%N then ent a i j else ent b i (j - nc a)%N)).

(** 34-57, collapse_consecutive_columns: the coefficient k d + ell is that of degree ell of a[j][i s + k], ell < d. A division by
    zero is undefined *)
Definition collapse_consecutive_columns (a : pmat) (d s : nat) : fout pmat :=
  if (s == 0%N) || (nc a != nc a %/ s * s)%N then Undef
  else Ret (Pmat (nr a) (nc a %/ s) (fun j i => \poly_(n < d * s) (ent a j (i * s + n %/ d)%N)`_(n %% d))).
(** 65-88, collapse_nonconsecutive_columns *)
Definition collapse_nonconsecutive_columns (a : pmat) (d s : nat) : fout pmat :=
  if (s == 0%N) || (nc a != nc a %/ s * s)%N then Undef
  else Ret (Pmat (nr a) s (fun j i => \poly_(n < d * (nc a %/ s)) (ent a j (i + n %/ d * s)%N)`_(n %% d))).

(** 117-118, 173-177: the number of columns for the target degree t, at least -1 *)
Definition lin_count (t : int) (pd : nat) : nat := `| - divz (- (t + 1)) pd.+1%:Z |.
Definition lin_cols (cnt : nat -> nat) (j : nat) : nat := (\sum_(l < j) cnt l)%N.
(** the column of pmat and the index in its expansion of the column c of parlin, from the column j on *)
Fixpoint lin_block (cnt : nat -> nat) (n c j : nat) : nat * nat :=
  if n is n'.+1 then if (c < cnt j)%N then (j, c) else lin_block cnt n' (c - cnt j) j.+1 else (j, c).
(** 124-145, 179-200, column_partial_linearization: reached_deg for the column j, and the entries. The loops are replaced by the value of each
    entry: what is written for a column with no expansion goes to the first column of the next one and is overwritten; after the last
    column of parlin it is outside of the matrix. SetLength of a negative number is an error of NTL *)
Definition lin_reached (cnt pd : nat -> nat) (dinf j : nat) : nat := (dinf + (cnt j).-1 * (pd j).+1)%N.
Definition lin_fill (cnt pd : nat -> nat) (dinf : nat) (pm : pmat) : fout pmat :=
  let n := nc pm in
  if has (fun j => has (fun i => (size (ent pm i j) < lin_reached cnt pd dinf j)%N || (lin_cols cnt n <= lin_cols cnt j)%N) (iota 0 (nr pm))) (iota 0 n)
  then Undef
  else Ret (Pmat (nr pm) (lin_cols cnt n) (fun i c =>
    let: (j, k) := lin_block cnt n c 0 in
    if (k < (cnt j).-1)%N then \poly_(dd < (pd j).+1) (ent pm i j)`_(dinf + k * (pd j).+1 + dd)
    else \poly_(dd < size (ent pm i j) - lin_reached cnt pd dinf j) (ent pm i j)`_(lin_reached cnt pd dinf j + dd))).
(** 98-148; a target degree below -1 is not modelled *)
Definition column_partial_linearization (pm : pmat) (pd : nat -> nat) (td : nat -> int) : fout pmat :=
  if has (fun j => td j < -1) (iota 0 (nc pm)) then Undef else lin_fill (fun j => lin_count (td j) (pd j)) pd 0 pm.
(** 154-203 *)
Definition dinf_count (pd : nat -> nat) (td : nat -> int) (dinf j : nat) : nat :=
  lin_count (if 0 < td j - dinf%:Z then td j - dinf%:Z else 0) (pd j).
Definition column_partial_linearization_dinf (pm : pmat) (pd : nat -> nat) (td : nat -> int) (dinf : nat) : fout pmat :=
  lin_fill (dinf_count pd td dinf) pd dinf pm.

(** multiply *)
Variable mul : pmat -> pmat -> fout pmat.
(** the entries of c after SetDims(m, n): NTL keeps the rows when the number of columns does not change *)
Definition kept (x : pmat) (n i j : nat) : P := if (nc x == n) && (i < nr x)%N then ent x i j else 0.
(** 225-242, 273-292: c[i][j] after the loop on jj, before normalize. SetLength keeps the first coefficients of the previous value x of c; the
    memory beyond the length is taken to be zero; an index outside of the length is undefined *)
Definition compress (old : P) (len : int) (cp : nat -> P) (cnt pd : nat) : fout P :=
  if (len < 0) || has (fun k => (cp k != 0) && (len < (k * pd.+1 + size (cp k))%N%:Z)) (iota 0 cnt) then Undef
  else Ret (\poly_(n < `|len|) old`_n + \sum_(k < cnt) 'X^(k * pd.+1) * cp k).
(** all entries, or the first error *)
Definition all_entries (m n : nat) (f : nat -> nat -> fout P) : fout pmat :=
  if all (fun i => all (fun j => if f i j is Ret _ then true else false) (iota 0 n)) (iota 0 m)
  then Ret (Pmat m n (fun i j => if f i j is Ret p then p else 0)) else Undef.

(** 208-244, right_parlin_multiply; x is the previous value of c, another matrix than a and b *)
Definition right_parlin_multiply (x a b : pmat) (pd : nat) (cd : nat -> int) : fout pmat :=
  let cnt := fun j => lin_count (cd j) pd in
  fbind (column_partial_linearization b (fun _ => pd) cd) (fun b_parlin =>
  fbind (mul a b_parlin) (fun c_parlin =>
  all_entries (nr a) (nc b) (fun i j =>
    compress (kept x (nc b) i j) (line_degree (ent a i) (nc a) + cd j + 1) (fun k => ent c_parlin i (lin_cols cnt j + k)%N) (cnt j) pd))).

(** 246-296, right_parlin_middle_product; >>= with a negative number is a shift to the left. The comment of
    the function asks for deg(a) <= dA; the other case is not modelled (Undef) *)
Definition right_parlin_middle_product (x a b : pmat) (pd : nat) (td : nat -> int) (dA dB : nat) : fout pmat :=
  let dinf := (dA.+1 - plen a)%N in
  let cnt := dinf_count (fun _ => pd) td dinf in
  if (dA.+1 < plen a)%N then Undef
  else fbind (column_partial_linearization_dinf b (fun _ => pd) td dinf) (fun b_parlin =>
  fbind (mul a b_parlin) (fun c_parlin =>
  all_entries (nr a) (nc b) (fun i j =>
    fbind (compress (kept x (nc b) i j) (line_degree (ent a i) (nc a) + td j - dinf%:Z + 1) (fun k => ent c_parlin i (lin_cols cnt j + k)%N) (cnt j) pd)
    (fun c => Ret (if plen a is d.+1 then \poly_(k < dB.+1) c`_(d + k) else \poly_(k < dB.+1) ('X * c)`_k))))).
End Lin.
