(** Model of flint-extras/src/nmod_poly_mat_extra/nmod_poly_mat_dixon.c. *)
From mathcomp Require Import all_ssreflect all_algebra zify.
From Verif Require Import A_base A_matpoly_model A_mbasis_model A_mul_model A_pmbasis_model.
Set Implicit Arguments.
Unset Strict Implicit.
Unset Printing Implicit Defensive.
Import GRing.Theory Num.Theory.
Local Open Scope ring_scope.

Section Dixon.
Variable F : fieldType.
Implicit Types (A B S : fmat {poly F}).

(** nmod_poly_mat_dixon.c:38-50: H = [A \\ -Id], of dimensions 2n x n. modulus - 1
    is -1. *)
Definition inv_trunc_H n A : fmat {poly F} := fun i j =>
  if (i < n)%N then A i j else if (i - n)%N == j then (-1)%:P else 0.
(** nmod_poly_mat_dixon.c:56-61 *)
Definition inv_trunc_shift n (order : nat) : nat -> int := fun i =>
  if (i < n)%N then 0 else order%:Z.

(** nmod_poly_mat_dixon.c:32-81, nmod_poly_mat_inv_trunc. [S0] is the content of S
    before the call; the result is (is_inv, S). *)
Definition inv_trunc v36 (modn n : nat) S0 A (order : nat) : aoutcome (bool * fmat {poly F}) :=
  match pmbasis v36 modn (2 * n) n (inv_trunc_H n A) order (inv_trunc_shift n order) with
  | AOk (tsf, _) =>
    let is_inv := all (fun i => all (fun j =>
       tsf (n + i)%N (n + j)%N == (if i == j then 1 else 0)) (iota 0 n)) (iota 0 n) in
    AOk (is_inv, if is_inv then fun i j => tsf (n + i)%N j else S0)
  | AUB => AUB
  end.

(** nmod_poly_mat_dixon.c:122-136, one iteration on (X, BB) *)
Definition dixon_step (modn n m : nat) A C (order l : nat) (st : fmat {poly F} * fmat {poly F})
  : fmat {poly F} * fmat {poly F} :=
  let '(X, BB) := st in
  let S := pm_trunc order (pm_multiply modn n n m C BB) in
  let T : fmat {poly F} := fun i j => 'X^(l * order) * S i j in
  let X : fmat {poly F} := fun i j => X i j + T i j in
  let T := pm_multiply modn n n m A S in
  let T : fmat {poly F} := fun i j => BB i j - T i j in
  (X, pm_shr order T).

(** the loop, None when it did not stop after [fuel] iterations; l * order is
    computed without wrap around *)
Fixpoint dixon_loop (fuel modn n m : nat) A C (order sigma l : nat) st : option (fmat {poly F}) :=
  if (l * order < sigma)%N then
    if fuel is fuel'.+1 then
      dixon_loop fuel' modn n m A C order sigma l.+1 (dixon_step modn n m A C order l st)
    else None
  else Some st.1.

(** nmod_poly_mat_dixon.c:94-143, nmod_poly_mat_dixon; X0 is the content of X before
    the call. The result is (return value, X), None if the loop did not stop. *)
Definition dixon fuel v36 (modn n m : nat) X0 A B (order sigma : nat)
  : aoutcome (option (bool * fmat {poly F})) :=
  match inv_trunc v36 modn n fzero A order with
  | AOk (false, _) => AOk (Some (false, X0))
  | AOk (true, C) =>
    AOk (omap (pair true) (dixon_loop fuel modn n m A C order sigma 0 (fzero, B)))
  | AUB => AUB
  end.
End Dixon.
