(** ntl-extras/structured_lzz_p/src/hankel_like_plus_lzz_p.cpp and hankel_like_minus_lzz_p.cpp: Hankel-like matrices given by generators, over
    the same blocks as in N_tlike_model.v. AUB is an error of NTL or undefined behaviour. *)
From mathcomp Require Import all_ssreflect all_algebra.
From Verif Require Import A_base A_mul_model N_pmat_model N_util_model N_str_model N_circ_model N_tlike_model.
Set Implicit Arguments.
Unset Strict Implicit.
Unset Printing Implicit Defensive.
Import GRing.Theory.
Local Open Scope ring_scope.

Section Hlike.
Variable F : fieldType.
Variable MX : nat.

(** hankel_like_plus_lzz_p.cpp:57-58; vecG (47-54) is that of toeplitz_like_plus_lzz_p *)
Definition hplus_vecH (H : cmat F) (i : nat) : seq F := mkseq (fun j => cent H j i) (cr H).
(** 30-61 and 84-108: the input is read up to n - 1 and its size is not checked *)
Definition hplus_right (G H : cmat F) (v : seq F) : aoutcome (seq F) :=
  if (size v < cr H)%N || ((0 < cc G)%N && ((cr G == 0%N) || (cc H < cc G)%N)) then AUB
  else
    let tmp0 := mkseq (fun i => v`_(cr H - 1 - i)) (cr H) in
    sum_terms (cc G) (cr G) (fun i => abind (ltt_right MX (hplus_vecH H i) tmp0) (fun tmp1 => ccol_right (plus_vecG G (cr H) i) (cr H) tmp1)).

(** hankel_like_minus_lzz_p.cpp:53-54; vecH (57-66) is that of toeplitz_like_minus_lzz_p *)
Definition hminus_vecG (G : cmat F) (i : nat) : seq F := mkseq (fun j => - cent G (cr G - 1 - j)%N i) (cr G).
(** 31-69 and 92-112; a matrix without rows or columns is left without its structured blocks: the products with them are not modelled *)
Definition hminus_right (G H : cmat F) (v : seq F) : aoutcome (seq F) :=
  if (0 < cc G)%N && ((cr G == 0%N) || (cr H == 0%N) || (cc H < cc G)%N) then AUB
  else sum_terms (cc G) (cr G) (fun i =>
    abind (crow_right (minus_vecH H i) (cr G) v) (fun tmp1 =>
    abind (ltt_right MX (hminus_vecG G i) tmp1) (fun tmp2 => AOk (mkseq (fun j => tmp2`_(cr G - 1 - j)) (cr G))))).
End Hlike.
