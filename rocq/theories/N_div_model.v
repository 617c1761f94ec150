(** ntl-extras/mat_lzz_pX_extra/src/mat_lzz_pX_division.cpp: division with remainder of polynomial matrices, and the row degrees of
    mat_lzz_pX_forms.cpp:15-33.
    Degrees are in Z (type long). Q and R are not A or B, and Q is not R; see quo_rem_R_is_A for the other case.
    solve_series and multiply are parameters here; they are those of N_solve_model.v and N_mm_model.v in P_ndiv.v. *)
From Coq Require Import ZArith.
From mathcomp Require Import all_ssreflect all_algebra.
From Verif Require Import A_base A_mul_model N_multi_model N_pmat_model N_util_model N_eval_model N_solve_model.
Set Implicit Arguments.
Unset Strict Implicit.
Unset Printing Implicit Defensive.
Import GRing.Theory.
Local Open Scope ring_scope.

Section Division.
Variable F : fieldType.
Local Notation P := {poly F}.
Local Notation pmat := (pmat F).
Local Notation smat := (smat F).

(** NTL, deg: -1 for zero *)
Definition zdeg (f : P) : Z := Z.sub (Z.of_nat (size f)) 1.
(** mat_lzz_pX_forms.cpp:15-33, row_degree; entry i of the vector, for i < nr a *)
Definition row_degree (a : pmat) (i : nat) : Z :=
  foldl (fun r j => if Z.ltb r (zdeg (ent a i j)) then zdeg (ent a i j) else r) (Zneg 1) (iota 0 (nc a)).
(** NTL, reverse(x, s, hi) for a polynomial with the vector of coefficients s, hi >= 0: the result is normalized. *)
Definition reverse_stored (s : seq F) (hi : nat) : P := \poly_(k < hi.+1) s`_(hi - k).
(** mat_lzz_pX_utils.cpp:393-402, reverse *)
Definition sm_reverse (x : smat) (hi : nat) : pmat := Pmat (sr x) (sc x) (fun i j => reverse_stored (sent x i j) hi).

Variable series : pmat -> pmat -> nat -> option (aoutcome smat).
Variable mul : pmat -> pmat -> option (aoutcome pmat).

(** 26-30: the maximum of rdegA[i] - rdegB[i] for i < m *)
Definition max_diff (rA rB : nat -> Z) (m : nat) : Z :=
  foldl (fun d i => if Z.ltb d (Z.sub (rA i) (rB i)) then Z.sub (rA i) (rB i) else d) (Z.sub (rA 0%N) (rB 0%N)) (iota 1 m.-1).

(** 10-61, quo_rem. The vectors of the degrees are read at the indices i < m (line 26: at 0 also when m = 0), the rows of A are
    reversed with the degrees of the rows of B (line 49). The pair is (Q, R). *)
Definition quo_rem (A B : pmat) : option (aoutcome (pmat * pmat)) :=
  let m := nr B in let n := nc A in
  if (m == 0%N) || (nr A < m)%N then Some AUB else
  let rA := row_degree A in let rB := row_degree B in
  let d := max_diff rA rB m in
  if Z.ltb d 0 then Some (AOk (Pmat m n (fun _ _ => 0), A)) else
  if (m < nr A)%N then Some AUB else
  let Brev := row_reverse false (new_pmat F) B rB in
  let buf := row_reverse false (new_pmat F) A (fun i => Z.add (rB i) d) in
  bindm (series Brev buf (Z.to_nat d).+1) (fun R =>
  let Q := sm_reverse R (Z.to_nat d) in
  bindm (mul B Q) (fun buf =>
  bindm (Some (pm_sub_to false false (new_pmat F) A buf)) (fun R => Some (AOk (Q, R))))).

(** the call quo_rem(Q, A, A, B), where R is A: A is overwritten in line 54, the difference in line 60 is the one of the reversed
    quotient and B Q *)
Definition quo_rem_R_is_A (A B : pmat) : option (aoutcome (pmat * pmat)) :=
  let m := nr B in let n := nc A in
  if (m == 0%N) || (nr A < m)%N then Some AUB else
  let rA := row_degree A in let rB := row_degree B in
  let d := max_diff rA rB m in
  if Z.ltb d 0 then Some (AOk (Pmat m n (fun _ _ => 0), A)) else
  if (m < nr A)%N then Some AUB else
  let Brev := row_reverse false (new_pmat F) B rB in
  let buf := row_reverse false (new_pmat F) A (fun i => Z.add (rB i) d) in
  bindm (series Brev buf (Z.to_nat d).+1) (fun A =>
  let Q := sm_reverse A (Z.to_nat d) in
  bindm (mul B Q) (fun buf =>
  bindm (Some (pm_sub_to true false (polys A) (polys A) buf)) (fun R => Some (AOk (Q, R))))).
End Division.
