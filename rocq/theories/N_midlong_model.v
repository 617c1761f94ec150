(** The branch use_long of tPlainMul2 with machine integers
    (ntl-extras/lzz_pX_middle_product/src/lzz_pX_middle_product.cpp:44-55): the sum of the products
    is accumulated in a long, 64 bits with a sign, and reduced at the end. *)
From Coq Require Import ZArith.
From Verif Require Import A_base.
Local Open Scope Z_scope.

(** NTL_SP_BOUND for 60-bit single precision, NTL's default on 64-bit machines, and KARX as defined in
    lzz_pX_middle_product.h:13 *)
Definition sp_bound : Z := 2 ^ 60.
Definition karx : Z := 32.

(** lzz_pX_middle_product.cpp:250 and :190: the choice of the branch *)
Definition use_long (p : Z) : bool := ((p <? sp_bound / karx) && (p * karx <? sp_bound / p))%bool.

(** lzz_pX_middle_product.cpp:48-53: the coefficient b[j]; AUB when a long overflows *)
Fixpoint accum_long (a c : nat -> Z) (j i n : nat) (acc : Z) : aoutcome Z :=
  match n with
  | O => AOk acc
  | S n' =>
    let t := c (i + j)%nat * a i in
    if (Z.abs t <? 2 ^ 63) && (Z.abs (acc + t) <? 2 ^ 63) then accum_long a c j (S i) n' (acc + t)
    else AUB
  end%bool.
Definition tplain_long (p : Z) (a c : nat -> Z) (sa j : nat) : aoutcome Z :=
  match accum_long a c j 0 sa 0 with
  | AOk s => AOk (s mod p)
  | AUB => AUB
  end.
