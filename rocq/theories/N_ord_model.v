(** Model of ntl-extras/lzz_p_extra/src/lzz_p_extra.cpp: order. The residues are integers in [0, m),
    with m > 1 any modulus (prime or not). *)
From mathcomp Require Import all_ssreflect.
Set Implicit Arguments.
Unset Strict Implicit.
Unset Printing Implicit Defensive.

(** lzz_p_extra.cpp:19-27: the loop; the outer None when [fuel] iterations do not suffice, the inner None
    for the result -1 *)
Fixpoint order_loop (fuel m a o ap : nat) : option (option nat) :=
  if fuel is fuel'.+1 then
    if ap == 1 then Some (Some o)
    else if o == m then Some None
    else order_loop fuel' m a o.+1 (ap * a %% m)
  else None.

(** lzz_p_extra.cpp:12-29, order *)
Definition order (fuel m a : nat) : option (option nat) :=
  if a == 0 then Some None else order_loop fuel m a 1 a.
