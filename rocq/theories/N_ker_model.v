(** ntl-extras/mat_lzz_pX_extra/src/mat_lzz_pX_kernel.cpp: verification of kernel bases, kernel bases by one approximant basis, and the
    algorithm of Zhou, Labahn and Storjohann with approximant bases. A long is an integer without bounds; the divisions of doubles are
    exact; the messages are not modelled. The functions with interpolant bases (lines 216-301, 613-1250) are not modelled. *)
From Coq Require Import ZArith.
From mathcomp Require Import all_ssreflect all_algebra.
From Verif Require Import A_base N_pmat_model N_util_model N_forms_model N_pmb_model.
Set Implicit Arguments.
Unset Strict Implicit.
Unset Printing Implicit Defensive.
Import GRing.Theory Num.Theory.
Local Open Scope ring_scope.

Section Ker.
Variable F : fieldType.
Local Notation P := {poly F}.
Local Notation pmat := (pmat F).
(** pmbasis (N_pmb_model.v), multiply and middle_product(b, a, c, dA, dB) *)
Variable pmb : pmat -> nat -> seq int -> fout (pmat * seq int).
Variable mul : pmat -> pmat -> fout pmat.
Variable mid : pmat -> pmat -> nat -> nat -> fout pmat.

(** the rows of a with the given indices *)
Definition take_rows (a : pmat) (l : seq nat) : pmat := Pmat (size l) (nc a) (fun i j => ent a (nth 0%N l i) j).
(** n columns of a, from the column c *)
Definition take_cols (a : pmat) (c n : nat) : pmat := Pmat (nr a) n (fun i j => ent a i (c + j)%N).
(** kerbas.SetDims(0, m) *)
Definition no_rows (m : nat) : pmat := Pmat 0 m (fun _ _ => 0).
(** 176-183, 341-347: gauss on the coefficient of degree 0 *)
Definition full_rank0 (pm : pmat) : bool := (nr pm <= nc pm)%N && (\rank (mx_of (nr pm) (nc pm) (fun i j => (ent pm i j)`_0)) == nr pm).

(** 61-130, is_kernel_basis; left and right are the random constant vectors of lines 103 and 105. The product of the projections is computed
    by lines 104 and 106-108 *)
Definition is_kernel_basis (kerbas pm : pmat) (shift : seq int) (f : form) (randomized : bool) (left right : nat -> F) : fout bool :=
  let m := nr pm in
  if nc kerbas != m then Ret false
  else fbind (is_row_polmatform_sh f kerbas shift) (fun b =>
  if ~~ b then Ret false
  else if ~~ randomized then
    fbind (mul kerbas pm) (fun product => Ret (plen product == 0%N))
  else
    let pk j := \sum_(i < nr kerbas) (left i)%:P * ent kerbas i j in
    let pp i := \sum_(j < nc pm) ent pm i j * (right j)%:P in
    Ret (\sum_(i < m) pk i * pp i == 0)).

(** 144-213, kernel_basis_via_approximation: kerbas, pivind and shift; x is the previous value of kerbas. plen is the degree plus one.
    A shift of another length than the number of rows is not checked and makes the code read out of the vectors *)
Definition kernel_via_order (pm : pmat) (amp : int) : nat := ((nc pm).+1 * (plen pm).-1 + `|amp| + 1)%N.
Definition kernel_basis_via_approximation (x pm : pmat) (shift : seq int) : fout (pmat * seq nat * seq int) :=
  let m := nr pm in
  if plen pm == 0%N then Ret (pm_ident x m, iota 0 m, shift)
  else if m == 1%N then Ret (no_rows 1, [::], [::])
  else if full_rank0 pm then Ret (no_rows m, [::], [::])
  else
    let d := (plen pm).-1 in
    fbind (amplitude shift) (fun amp =>
    let order := kernel_via_order pm amp in
    fbind (pmb pm order shift) (fun xy => let: (appbas, rdeg) := xy in
    let pivind := [seq i <- iota 0 m | rdeg`_i - shift`_i + amp < order%:Z - d%:Z] in
    Ret (take_rows appbas pivind, pivind, [seq rdeg`_i | i <- pivind]))).

(** *** 314-611, kernel_basis_zls_via_approximation *)
(** 408-414 *)
Definition diff_shift (shift rdeg : seq int) : int :=
  foldl (fun d i => if shift`_i - rdeg`_i < d then shift`_i - rdeg`_i else d) (shift`_0 - rdeg`_0) (iota 1 (size shift).-1).
(** 419-421, 427 *)
Definition zls_order (n : nat) (shift : seq int) : int :=
  let sorted := sort (fun x y : int => x <= y) shift in
  let rho := foldl +%R 0 (drop (size shift - n) sorted) in
  2 * - divz (- rho) n%:Z + 1.
(** 577-609: l1 and l2 are the rows not yet merged, with their pivots *)
Fixpoint merge_rows (T : Type) (l1 : seq (int * T)) : seq (int * T) -> seq T :=
  if l1 is x1 :: l1' then
    fix aux (l2 : seq (int * T)) :=
      if l2 is x2 :: l2' then (if x1.1 < x2.1 then x1.2 :: merge_rows l1' l2 else x2.2 :: aux l2') else [seq x.2 | x <- l1]
  else fun l2 => [seq x.2 | x <- l2].

(** fuel bounds the depth of the recursion and is not part of the code. The modifications of pmat are local variables. The last
    argument of mid is a difference of nonnegative numbers, cut at zero when the first is smaller *)
Fixpoint kernel_zls (fuel : nat) (pm : pmat) (shift : seq int) : fout (pmat * seq int) :=
  let m := nr pm in let n := nc pm in
  if m == 1%N then (if plen pm != 0%N then Ret (no_rows 1, [::]) else Ret (pm_ident (new_pmat F) 1, shift))
  else if full_rank0 pm then Ret (no_rows m, [::])
  else
    let rdeg := row_degree pm in
    if max_element rdeg is Some mx then
    if mx == -1 then Ret (pm_ident (new_pmat F) m, shift)
    else if (m < 2 * n)%N then
      if fuel is fuel.+1 then
        let n1 := n./2 in let n2 := (n - n1)%N in
        fbind (kernel_zls fuel (take_cols pm 0 n1) shift) (fun xy => let: (kerbas1, shift) := xy in
        if nr kerbas1 == 0%N then Ret (no_rows m, [::])
        else
          fbind (mul kerbas1 (take_cols pm n1 n2)) (fun pm =>
          fbind (kernel_zls fuel pm shift) (fun xy => let: (kerbas, shift) := xy in
          fbind (mul kerbas kerbas1) (fun kerbas => Ret (kerbas, shift)))))
      else Undef
    else
      let diff := diff_shift shift rdeg in
      let shift := [seq x - diff | x <- shift] in
      let order := zls_order n shift in
      let copy_shift := shift in
      fbind (pmb pm `|order| shift) (fun xy => let: (appbas, shift) := xy in
      let rows_app_ker := [seq i <- iota 0 m | shift`_i < order] in
      let rows_app_notker := [seq i <- iota 0 m | ~~ (shift`_i < order)] in
      let rdeg1 := [seq shift`_i | i <- rows_app_ker] in
      let rdeg2 := [seq shift`_i | i <- rows_app_notker] in
      let sum_matdeg := foldl (fun s i => s + rdeg`_i) 0 rows_app_notker in
      let sum_kerdeg := foldl (fun s i => s + pdeg (ent appbas i i)) 0 rows_app_ker in
      if (sum_kerdeg == sum_matdeg) || (n == 1%N) || (size rows_app_ker == m) then Ret (take_rows appbas rows_app_ker, rdeg1)
      else if fuel is fuel.+1 then
        let approx := take_rows appbas rows_app_notker in
        fbind (mid approx pm `|order| ((plen pm).-1 + (plen approx).-1 - `|order|)) (fun pm =>
        let n1 := n./2 in let n2 := (n - n1)%N in
        fbind (kernel_zls fuel (take_cols pm 0 n1) rdeg2) (fun xy => let: (kerbas1, rdeg2) := xy in
        fbind (mul kerbas1 (take_cols pm n1 n2)) (fun pm =>
        fbind (kernel_zls fuel pm rdeg2) (fun xy => let: (kerbas, rdeg2) := xy in
        if nr kerbas == 0%N then Ret (take_rows appbas rows_app_ker, rdeg1)
        else
          fbind (mul kerbas1 approx) (fun pm =>
          fbind (mul kerbas pm) (fun approx =>
          fbind (row_pivots_sh approx copy_shift) (fun pivs =>
          let rows := merge_rows
            [seq (i%:Z, (ent appbas i, shift`_i + diff)) | i <- rows_app_ker]
            [seq (nth 0 pivs.1 i, (ent approx i, nth 0 rdeg2 i + diff)) | i <- iota 0 (nr approx)] in
          Ret (Pmat (size rows) m (fun i => (nth (fun _ => 0, 0) rows i).1), [seq x.2 | x <- rows]))))))))
      else Undef)
    else Undef.

(** 133-142, kernel_basis *)
Definition kernel_basis_zls (fuel : nat) (pm : pmat) (shift : seq int) : fout pmat :=
  fbind (kernel_zls fuel pm shift) (fun xy => Ret xy.1).
End Ker.
