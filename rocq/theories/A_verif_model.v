(** Model of flint-extras/src/nmod_poly_mat_extra/verification.c. *)
From mathcomp Require Import all_ssreflect all_algebra fraction zify.
From Verif Require Import A_base SpecForms A_mul_model A_forms_model.
Set Implicit Arguments.
Unset Strict Implicit.
Unset Printing Implicit Defensive.
Import GRing.Theory Num.Theory.
Local Open Scope ring_scope.

Section Verif.
Variable F : fieldType.
Implicit Types (P A : fmat {poly F}).

(** verification.c:21-116, nmod_poly_mat_is_approximant_basis. [pr] x [pc] are the
    dimensions of appbas, m x n those of pmat. With wrong dimensions the code goes on
    and reads outside of the matrices. nmod_poly_mat_det and nmod_mat_rank are the
    determinant and the rank. *)
Definition is_approximant_basis (modn pr pc m n : nat) P A (order : nat) shift o : aoutcome bool :=
  if (pr != m) || (pc != m) then AUB
  else
    let success1 := is_ordered_weak_popov m m P shift o in
    let residual := pm_multiply modn m m n P A in
    let success2 := all (fun i => all (fun j => ptrunc order (residual i j) == 0) (iota 0 n)) (iota 0 m) in
    let D : int := \sum_(i < m) pdeg (P i i) in
    let success3 := pdeg (\det (mx_of m m P)) == D in
    let CP0 : 'M[F]_(m, m + n) :=
      row_mx (mx_of m m (fun i j => (P i j)`_0)) (mx_of m n (fun i j => (residual i j)`_order)) in
    let success4 := \rank CP0 == m in
    AOk [&& success1, success2, success3 & success4].

(** FLINT: nmod_poly_mat_rank, rank over the field of fractions *)
Definition pm_rank m n A : nat := \rank (map_mx (@FracField.tofrac [idomainType of {poly F}]) (mx_of m n A)).

(** verification.c:119-218, nmod_poly_mat_is_kernel; ker has dimensions kr x kc. The
    residual matrix has the dimensions of mat: a larger product is written outside
    of it. *)
Definition is_kernel (modn kr kc m n : nat) ker shift A f o : aoutcome bool :=
  let rk := pm_rank m n A in
  if row_wise o then
    if (kc != m) || (m < kr)%N then AUB
    else
      match is_form kr kc ker f shift o with
      | AOk form =>
        let residual := pm_multiply modn kr m n ker A in
        AOk [&& kr == (m - rk)%N, form &
             all (fun i => all (fun j => residual i j == 0) (iota 0 n)) (iota 0 kr)]
      | AUB => AUB
      end
  else
    if (kr != n) || (n < kc)%N then AUB
    else
      match is_form kr kc ker f shift o with
      | AOk form =>
        let residual := pm_multiply modn m n kc A ker in
        AOk [&& kc == (n - rk)%N, form &
             all (fun i => all (fun j => residual i j == 0) (iota 0 kc)) (iota 0 m)]
      | AUB => AUB
      end.
End Verif.
