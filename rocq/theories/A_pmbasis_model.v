(** Model of flint-extras/src/nmod_poly_mat_extra/approximant_basis.c. *)
From mathcomp Require Import all_ssreflect all_algebra zify.
From Verif Require Import A_base A_matpoly_model A_mbasis_model A_mul_model.
Set Implicit Arguments.
Unset Strict Implicit.
Unset Printing Implicit Defensive.
Import GRing.Theory Num.Theory.
Local Open Scope ring_scope.

Section PMBasis.
Variable F : fieldType.

(** nmod_poly_mat_approximant.h:101 *)
Definition PMBASIS_THRES : nat := 32.

(** approximant_basis.c:33-69, nmod_poly_mat_pmbasis; [thres] is PMBASIS_THRES,
    [fuel] bounds the depth of the recursion (running out of it is AUB). order is
    a nonnegative slong. *)
Fixpoint pmbasis_rec (fuel thres : nat) (v36 : bool) (modn m n : nat)
  (ipmat : fmat {poly F}) (order : nat) (s : nat -> int)
  : aoutcome (fmat {poly F} * (nat -> int)) :=
  if fuel is fuel'.+1 then
    let pmat := pm_trunc order ipmat in
    if (order <= thres)%N then pm_mbasis m n pmat order s
    else
      let order1 := (order %/ 2)%N in
      let order2 := (order - order1)%N in
      match pmbasis_rec fuel' thres v36 modn m n pmat order1 s with
      | AOk (app1, s1) =>
        match mulmid v36 modn m m n app1 pmat order1 order with
        | AOk residual =>
          match pmbasis_rec fuel' thres v36 modn m n residual order2 s1 with
          | AOk (app2, s2) => AOk (pm_multiply modn m m m app2 app1, s2)
          | AUB => AUB
          end
        | AUB => AUB
        end
      | AUB => AUB
      end
  else AUB.
Definition pmbasis v36 modn m n ipmat order s :=
  pmbasis_rec order.+1 PMBASIS_THRES v36 modn m n ipmat order s.
End PMBasis.
