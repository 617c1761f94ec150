(** ntl-extras/mat_lzz_pX_extra/src/mat_lzz_pX_pmbasis.cpp, lines 1442-1668: the Popov variants of the approximant bases and the divide and
    conquer algorithms. NTL's kernel and image are parameters as in N_mb_model.v; the middle product and the product of polynomial matrices
    are parameters too (they are modelled in N_mp3_model.v, N_mp_model.v and N_mm_model.v). *)
From Coq Require Import ZArith.
From mathcomp Require Import all_ssreflect all_algebra.
From Verif Require Import A_base A_mul_model N_pmat_model N_util_model N_forms_model N_appbas_model N_mb_model.
Set Implicit Arguments.
Unset Strict Implicit.
Unset Printing Implicit Defensive.
Import GRing.Theory.
Local Open Scope ring_scope.

Definition fbind (T U : Type) (r : fout T) (f : T -> fout U) : fout U :=
  match r with Ret x => f x | Throws => Throws | Undef => Undef end.
(** an outcome of the models of the products: None is an error of NTL *)
Definition fout_of (T : Type) (r : option (aoutcome T)) : fout T :=
  match r with None => Throws | Some AUB => Undef | Some (AOk x) => Ret x end.

Section PMB.
Variable F : fieldType.
Local Notation pmat := (pmat F).
Local Notation P := {poly F}.
Variable ker : nat -> nat -> fmat F -> nat * fmat F.
Variable img : nat -> nat -> fmat F -> nat * fmat F.
(** middle_product(b, a, c, dA, dB) and multiply(c, a, b) *)
Variable mid : pmat -> pmat -> nat -> nat -> fout pmat.
Variable mul : pmat -> pmat -> fout pmat.

(** 1480-1522, pmbasis; the depth of the recursion is at most fuel, which is not part of the code *)
Fixpoint pmbasis_rec (fuel : nat) (pm : pmat) (order : nat) (shift : seq int) : fout (pmat * seq int) :=
  if (order <= 32)%N then mbasis ker img pm order shift
  else if fuel is fuel.+1 then
    let order1 := order./2 in
    let order2 := (order - order1)%N in
    let trunc_pmat := pm_truncate false (new_pmat F) pm order1 in
    fbind (pmbasis_rec fuel trunc_pmat order1 shift) (fun xy => let: (appbas, shift) := xy in
    let trunc_pmat := pm_truncate false trunc_pmat pm order in
    fbind (mid appbas trunc_pmat order1 (order2 - 1)) (fun residual =>
    fbind (pmbasis_rec fuel residual order2 shift) (fun xy => let: (appbas2, shift) := xy in
    fbind (mul appbas2 appbas) (fun appbas => Ret (appbas, shift)))))
  else Undef.
Definition pmbasis (pm : pmat) (order : nat) (shift : seq int) : fout (pmat * seq int) := pmbasis_rec order pm order shift.

(** 1442-1472 and 1527-1557: two calls of mb (mbasis or pmbasis), the second one with the shift minus the row degrees; then the inverse of
    the leading matrix. NTL: inv of a constant matrix is an error when it is singular *)
Definition popov_twice (mb : pmat -> nat -> seq int -> fout (pmat * seq int)) (pm : pmat) (order : nat) (shift : seq int) :
    fout (pmat * seq int) :=
  fbind (mb pm order shift) (fun xy => let: (_, rdeg) := xy in
  let popov_shift := mkseq (fun i => shift`_i - rdeg`_i) (nr pm) in
  fbind (mb pm order popov_shift) (fun xy => let: (appbas, _) := xy in
  fbind (row_leading_matrix_sh appbas popov_shift) (fun lead =>
  let L := mx_of (nr appbas) (nr appbas) lead in
  if (nr appbas == nc appbas) && (L \in unitmx) then
    let linv := Cmat (nr appbas) (nr appbas) (fun i j => if (insub i, insub j) is (Some i', Some j') then invmx L i' j' else 0) in
    match pm_cmul true appbas linv appbas with AOk r => Ret (r, rdeg) | AUB => Undef end
  else Undef))).
(** 1442-1472 *)
Definition popov_mbasis : pmat -> nat -> seq int -> fout (pmat * seq int) := popov_twice (mbasis ker img).
(** 1527-1557 *)
Definition popov_pmbasis : pmat -> nat -> seq int -> fout (pmat * seq int) := popov_twice pmbasis.

(** 1559-1668, pmbasis_2x1; the four polynomials are the entries of the first result. [mid] is middle_product_evaluate_FFT_new. A negative
    threshold is not modelled. The clocks and the messages for order > 200000 are left out *)
Definition pmat22 (p00 p01 p10 p11 : P) : pmat :=
  Pmat 2 2 (fun i j => if i == 0%N then (if j == 0%N then p00 else p01) else (if j == 0%N then p10 else p11)).
Definition pmat21 (f0 f1 : P) : pmat := Pmat 2 1 (fun i _ => if i == 0%N then f0 else f1).
Fixpoint pmbasis_2x1 (fuel : nat) (f0 f1 : P) (order : nat) (s0 s1 : int) (threshold : nat) : fout (pmat * (int * int)) :=
  if (order <= threshold)%N then
    let st := appbas_iterative_2x1 f0 f1 order s0 s1 in Ret (pmat22 (q00 st) (q01 st) (q10 st) (q11 st), (z0 st, z1 st))
  else if fuel is fuel.+1 then
    let order1 := order./2 in
    let order2 := (order - order1)%N in
    fbind (pmbasis_2x1 fuel (ptrunc order1 f0) (ptrunc order1 f1) order1 s0 s1 threshold) (fun xy => let: (appbas, (s0, s1)) := xy in
    let tmp := pmat21 (ptrunc order f0) (ptrunc order f1) in
    (* deg(appbas) = plen appbas - 1 *)
    let tmp := pm_rshift true tmp tmp (Z.sub (Z.of_nat order1) (Z.pred (Z.of_nat (plen appbas)))) in
    if plen appbas is d.+1 then
      fbind (mid appbas tmp d (order2 - 1)) (fun res =>
      fbind (pmbasis_2x1 fuel (ent res 0%N 0%N) (ent res 1%N 0%N) order2 s0 s1 threshold) (fun xy => let: (appbas2, s) := xy in
      fbind (mul appbas2 appbas) (fun appbas => Ret (appbas, s))))
    else Undef)
  else Undef.
End PMB.
