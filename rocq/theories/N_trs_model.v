(** Model of the bilinear transforms of ntl-extras/lzz_pX_CRT (lzz_pX_Transform*.cpp) and of the products of
    matrices based on them (mat_lzz_pX_extra/src/mat_lzz_pX_multiply_transform.cpp). *)
From mathcomp Require Import all_ssreflect all_algebra.
From Verif Require Import A_base A_mul_model N_multi_model N_pmat_model.
Set Implicit Arguments.
Unset Strict Implicit.
Unset Printing Implicit Defensive.
Import GRing.Theory.
Local Open Scope ring_scope.

Section Trs.
Variable F : fieldType.
Local Notation P := {poly F}.
Local Notation arr := (nat -> F).

(** SetCoeff(P, i, c) *)
Definition set_coeff (p : P) (i : nat) (c : F) : P := \poly_(k < maxn (size p) i.+1) (if k == i then c else p`_k).

(** a transform: input length, transform length and the three virtual functions; a vector val is used at the indices
    below the transform length only *)
Record trs := Trs { t_m : nat; t_n : nat; t_left : P -> arr; t_right : P -> arr; t_back : arr -> P }.

(** *** lzz_pX_Transform_naive.cpp *)

(** 21-41, forward_left: the values written at val[0], val[1], ..; idx is the number of values written so far *)
Definition naive_left_seq (m : nat) (f : P) : seq F :=
  flatten [seq [seq f`_j | j <- rev (iota 0 i.+1)] | i <- iota 0 m] ++
  flatten [seq [seq f`_j | j <- rev (iota i (m - i))] | i <- iota 1 m.-1].
Definition naive_left (m : nat) (f : P) : arr := fun j => nth 0 (naive_left_seq m f) j.

(** 46-66, forward_right *)
Definition naive_right_seq (m : nat) (f : P) : seq F :=
  flatten [seq [seq f`_j | j <- iota 0 i.+1] | i <- iota 0 m] ++
  flatten [seq [seq f`_j | j <- iota i (m - i)] | i <- iota 1 m.-1].
Definition naive_right (m : nat) (f : P) : arr := fun j => nth 0 (naive_right_seq m f) j.

(** 71-94, backward; the loop over j reads cnt values *)
Definition naive_read (val : arr) (i cnt : nat) (st : P * nat) : P * nat :=
  let: (p, idx) := st in
  let res := val idx in
  let: (res, idx) := foldl (fun (st : F * nat) j => (st.1 + val st.2, st.2.+1)) (res, idx.+1) (iota 1 cnt) in
  (set_coeff p i res, idx).
Definition naive_back (m : nat) (val : arr) : P :=
  let st := foldl (fun st i => naive_read val i i st) (0, 0%N) (iota 0 m) in
  (foldl (fun st i => naive_read val i (2 * m - 2 - i) st) st (iota m m.-1)).1.

(** 12-16, constructor *)
Definition trs_naive (d : nat) : trs := Trs d (d * d) (naive_left d) (naive_right d) (naive_back d).

(** *** lzz_pX_Transform_montgomery.cpp *)

(** 18-55, zz_pX_Transform_karatsuba *)
Definition kara_left (p : P) : arr := nth 0 [:: p`_0; p`_1; p`_0 + p`_1].
Definition kara_back (v : arr) : P :=
  set_coeff (set_coeff (set_coeff 0 0 (v 0%N)) 1 (v 2%N - v 0%N - v 1%N)) 2 (v 1%N).
Definition trs_kara : trs := Trs 2 3 kara_left kara_left kara_back.

(** 67-103, zz_pX_Transform_montgomery3; forward_right is forward_left (lzz_pX_CRT.h:678-681) *)
Definition mont_left (p : P) : arr :=
  let a0 := p`_0 in let a1 := p`_1 in let a2 := p`_2 in
  let s := a1 + a2 in
  nth 0 [:: a0; a1; a2; a0 + a2; s; a0 + s].
Definition mont_back (v : arr) : P :=
  let s := v 2%N - v 3%N in
  let p := set_coeff 0 0 (v 0%N) in
  let p := set_coeff p 1 (s - v 4%N + v 5%N) in
  let p := set_coeff p 2 (v 1%N - v 0%N - s) in
  let p := set_coeff p 3 (v 4%N - v 1%N - v 2%N) in
  set_coeff p 4 (v 2%N).
Definition trs_mont : trs := Trs 3 6 mont_left mont_left mont_back.

(** 114-161, zz_pX_Transform_karatsuba4 *)
Definition kara4_left (p : P) : arr :=
  let a0 := p`_0 in let a1 := p`_1 in let a2 := p`_2 in let a3 := p`_3 in
  let s1 := a0 + a2 in
  let s2 := a1 + a3 in
  nth 0 [:: a0; a1; a0 + a1; a2; a3; a2 + a3; s1; s2; s1 + s2].
Definition kara4_back (v : arr) : P :=
  let c0 := v 0%N in
  let c1 := v 2%N - v 0%N - v 1%N in
  let s := v 1%N - v 3%N in
  let c2 := s + v 6%N - v 0%N in
  let c4 := v 7%N - v 4%N - s in
  let c5 := v 5%N - v 3%N - v 4%N in
  let c6 := v 4%N in
  let c3 := v 8%N - (c1 + c5 + v 6%N + v 7%N) in
  Poly [:: c0; c1; c2; c3; c4; c5; c6].
Definition trs_kara4 : trs := Trs 4 9 kara4_left kara4_left kara4_back.

(** *** mat_lzz_pX_multiply_transform.cpp *)

(** 10-27, 33-47, 53-67, 73-87. forward_left_matrix, forward_right_matrix (lzz_pX_Transform.cpp:76-125) have the loops
    of [t_interpolate_matrix], backward_matrix (157-182) those of [interpolate_matrix], but returns a matrix of dimensions 0 x 0
    when the transform length is zero. mul(valC[i], valA[i], valB[i]) raises an error when the dimensions do not agree. *)
Definition mul_trs (T : trs) (a b : pmat F) : aoutcome (pmat F) :=
  let n := t_n T in
  let valA := t_interpolate_matrix n (t_left T) (nr a) (nc a) (ent a) (fun _ _ _ => 0) in
  let valB := t_interpolate_matrix n (t_right T) (nr b) (nc b) (ent b) (fun _ _ _ => 0) in
  if n == 0%N then AOk (Pmat 0 0 (fun _ _ => 0))
  else if nc a != nr b then AUB
  else
    let valC := fun j => fmul (nc a) (valA j) (valB j) in
    AOk (Pmat (nr a) (nc b) (interpolate_matrix n (t_back T) (nr a) (nc b) valC (fun _ _ => 0))).

Definition multiply_transform_naive (a b : pmat F) : aoutcome (pmat F) :=
  mul_trs (trs_naive (maxn (plen a) (plen b))) a b.

(** 93-109, multiply_transform *)
Definition multiply_transform (a b : pmat F) (len : nat) : aoutcome (pmat F) :=
  match len with
  | 2 => mul_trs trs_kara a b
  | 3 => mul_trs trs_mont a b
  | 4 => mul_trs trs_kara4 a b
  | _ => multiply_transform_naive a b
  end.

(** mat_lzz_pX_multiply.h:191-192, multiply_transform without a length *)
Definition multiply_transform_auto (a b : pmat F) : aoutcome (pmat F) :=
  multiply_transform a b (maxn (plen a) (plen b)).
End Trs.
