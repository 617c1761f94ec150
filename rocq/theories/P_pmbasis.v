(** C20: minimal approximant bases by divide and conquer. *)
From mathcomp Require Import all_ssreflect all_algebra zify.
From Verif Require Import A_base SpecA A_matpoly_model A_mbasis_model A_mbasis_abs A_mbasis_proof
  A_mul_model A_pmbasis_model A_pmbasis_proof P_approx.
Set Implicit Arguments.
Unset Strict Implicit.
Unset Printing Implicit Defensive.
Import GRing.Theory Num.Theory.
Local Open Scope ring_scope.

Section P.
Variable F : fieldType.

(** every order, shift, threshold and both variants of the middle product *)
Theorem C20_pmbasis_threshold thres v36 modn m n (A : fmat {poly F}) d (s : nat -> int) :
  modn \in [char F] -> (0 < thres)%N ->
  exists P t, pmbasis_rec d.+1 thres v36 modn m n A d s = AOk (P, t) /\
    approx_basis_result (mx_of m n A) d (fun i => s i) (fun i => t i) (mx_of m m P).
Proof.
move=> Hc Ht; have [P [t [E B D]]] := pmbasis_rec_correct v36 m n A s Hc Ht (ltnSn d).
by exists P, t; split=> //; exact: deg_inv_result.
Qed.

Theorem C20_pmbasis v36 modn m n (A : fmat {poly F}) d (s : nat -> int) : modn \in [char F] ->
  exists P t, pmbasis v36 modn m n A d s = AOk (P, t) /\
    approx_basis_result (mx_of m n A) d (fun i => s i) (fun i => t i) (mx_of m m P).
Proof. by move=> Hc; exact: C20_pmbasis_threshold. Qed.
End P.

(** a concrete case: order 100 (two levels of recursion) over F_7, A = [[1], [X]] *)
Example C20_example :
  let A : fmat {poly [fieldType of 'F_7]} := fun i _ => if i == 0%N then 1 else 'X in
  exists P t, pmbasis true 7 2 1 A 100 (fun _ => 0) = AOk (P, t) /\
    approx_basis_result (mx_of 2 1 A) 100 (fun=> 0) (fun i => t i) (mx_of 2 2 P).
Proof.
have C : 7%N \in [char [fieldType of 'F_7]] by exact: (@char_Fp 7).
move=> A; exact: (C20_pmbasis true 2 1 A 100 (fun=> 0) C).
Qed.

Print Assumptions C20_pmbasis_threshold.
Print Assumptions C20_pmbasis.
