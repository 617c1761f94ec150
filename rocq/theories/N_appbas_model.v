(** Model of ntl-extras/mat_lzz_pX_extra/src/mat_lzz_pX_approximant.cpp: iterative computation of approximant bases, and
    the general interface. A long is an integer without bounds, an order (list of positive integers) is a list of natural
    numbers. Printing is not modelled. *)
From Coq Require Import ZArith.
From mathcomp Require Import all_ssreflect all_algebra.
From Verif Require Import A_base A_mul_model N_multi_model N_pmat_model N_util_model N_forms_model.
Set Implicit Arguments.
Unset Strict Implicit.
Unset Printing Implicit Defensive.
Import GRing.Theory Num.Theory.
Local Open Scope ring_scope.

(** std::max_element on a nonempty vector: position of the first maximum *)
Definition first_max (l : seq nat) : nat :=
  foldl (fun b k => if (nth 0 l b < nth 0 l k)%N then k else b) 0%N (iota 1 (size l).-1).
(** vector::erase at one position *)
Definition erase (l : seq nat) (j : nat) : seq nat := take j l ++ drop j.+1 l.

Section AppBas.
Variable F : fieldType.
Local Notation P := {poly F}.
Local Notation pmat := (pmat F).

(** the local variables of the loop 174-255; ab_sh is the argument shift, which is modified *)
Record abst := Abst { ab_mat : pmat; ab_res : pmat; ab_ord : seq nat; ab_ind : seq nat; ab_sh : seq int }.

(** 194-207: the indices of the nonzero entries of c, and piv, None for -1 *)
Definition scan_nonzero (c : nat -> F) (shift : seq int) (rdim : nat) : seq nat * option nat :=
  foldl (fun (st : seq nat * option nat) i =>
    if c i != 0 then
      (rcons st.1 i, if st.2 is Some piv then (if shift`_i < shift`_piv then Some i else st.2) else Some i)
    else st) ([::], None) (iota 0 rdim).

(** 218-221: row += c * row piv, for the first n columns *)
Definition add_row (n : nat) (row piv : nat) (c : F) (M : fmat P) : fmat P :=
  foldl (fun M k => upd2 M row k (M row k + c%:P * M piv k)) M (iota 0 n).
(** 213-223 *)
Definition clear_rows (rdim ncols : nat) (cst : nat -> F) (piv : nat) (nz : seq nat) (st : fmat P * fmat P) : fmat P * fmat P :=
  foldl (fun (st : fmat P * fmat P) row =>
    if row != piv then
      let c := - cst row / cst piv in (add_row rdim row piv c st.1, add_row ncols row piv c st.2)
    else st) st nz.

(** one pass of the loop 174-255 *)
Definition ab_step (rdim : nat) (order : seq nat) (order_wise : bool) (st : abst) : aoutcome abst :=
  let: Abst appbas residual rem_order rem_index shift := st in
  (* 185-189 *)
  let j := if order_wise then first_max rem_order else 0%N in
  let deg := (nth 0%N order (nth 0%N rem_index j) - nth 0%N rem_order j)%N in
  (* 194-207 *)
  let cst i := (ent residual i j)`_deg in
  let: (nz, opiv) := scan_nonzero cst shift rdim in
  (* 210-233 *)
  let upd :=
    if opiv is Some piv then
      let: (Ma, Mr) := clear_rows rdim (nc residual) cst piv nz (ent appbas, ent residual) in
      let appbas := Pmat (nr appbas) (nc appbas) Ma in
      let shift := set_nth 0 shift piv (shift`_piv + 1) in
      match shift_row (fun p => lshift p 1) true appbas appbas piv with
      | AOk appbas =>
        let Mr := foldl (fun M k => upd2 M piv k (ptrunc (nth 0%N order (nth 0%N rem_index k)) (lshift (M piv k) 1))) Mr
                    (iota 0 (nc residual)) in
        AOk (appbas, Pmat (nr residual) (nc residual) Mr, shift)
      | AUB => AUB
      end
    else AOk (appbas, residual, shift) in
  match upd with
  | AOk (appbas, residual, shift) =>
    (* 236-254 *)
    if (1 < nth 0%N rem_order j)%N then
      AOk (Abst appbas residual (set_nth 0%N rem_order j (nth 0%N rem_order j).-1) rem_index shift)
    else
      let rem_order := erase rem_order j in
      let rem_index := erase rem_index j in
      let residual := if rem_order is [::] then residual else
        Pmat rdim (size rem_order) (fun i k => if (k < j)%N then ent residual i k else ent residual i k.+1) in
      AOk (Abst appbas residual rem_order rem_index shift)
  | AUB => AUB
  end.

(** the loop; AUB when it does not end within the given number of passes *)
Fixpoint ab_loop (fuel : nat) (rdim : nat) (order : seq nat) (order_wise : bool) (st : abst) : aoutcome abst :=
  if ab_ord st is [::] then AOk st else
  if fuel is fuel.+1 then
    match ab_step rdim order order_wise st with AOk st => ab_loop fuel rdim order order_wise st | AUB => AUB end
  else AUB.

(** 147-256, appbas_iterative. x is the previous value of appbas. Orders and shifts of another length than the numbers of
    columns and of rows are not checked and make the code read out of the vectors. The number of passes is the sum of
    the orders, a null order counting for one *)
Definition appbas_iterative (x pm : pmat) (order : seq nat) (shift : seq int) (order_wise : bool) : aoutcome (pmat * seq int) :=
  let rdim := nr pm in
  let cdim := nc pm in
  if (size order != cdim) || (size shift != rdim) then AUB else
  let appbas := pm_ident x rdim in
  match ab_loop (sumn order + size order).+1 rdim order order_wise (Abst appbas pm order (iota 0 cdim) shift) with
  | AOk st => AOk (ab_mat st, ab_sh st)
  | AUB => AUB
  end.

(** 261-339, appbas_iterative_2x1; the eight variables updated by the loop *)
Record st21 := St21 { q00 : P; q01 : P; q10 : P; q11 : P; r0 : P; r1 : P; z0 : int; z1 : int }.
Definition step21 (st : st21) (ord : nat) : st21 :=
  let: St21 p00 p01 p10 p11 r0 r1 s0 s1 := st in
  let c0 := r0`_ord in
  let c1 := r1`_ord in
  if (c0 != 0) && (c1 != 0) then
    if s0 <= s1 then
      let c := - c1 / c0 in
      St21 (lshift p00 1) (lshift p01 1) (p10 + c%:P * p00) (p11 + c%:P * p01) (lshift r0 1) (r1 + c%:P * r0) (s0 + 1) s1
    else
      let c := - c0 / c1 in
      St21 (p00 + c%:P * p10) (p01 + c%:P * p11) (lshift p10 1) (lshift p11 1) (r0 + c%:P * r1) (lshift r1 1) s0 (s1 + 1)
  else if c1 != 0 then St21 p00 p01 (lshift p10 1) (lshift p11 1) r0 (lshift r1 1) s0 (s1 + 1)
  else if c0 != 0 then St21 (lshift p00 1) (lshift p01 1) p10 p11 (lshift r0 1) r1 (s0 + 1) s1
  else st.
Definition appbas_iterative_2x1 (f0 f1 : P) (order : nat) (s0 s1 : int) : st21 :=
  foldl step21 (St21 1 0 0 1 f0 f1 s0 s1) (iota 0 order).

(** 344-375, popov_appbas_iterative. NTL: inv of a constant matrix is an error when it is singular *)
Definition popov_appbas_iterative (x pm : pmat) (order : seq nat) (shift : seq int) (order_wise : bool) : fout (pmat * seq int) :=
  match appbas_iterative x pm order shift order_wise with
  | AUB => Undef
  | AOk (appbas, rdeg) =>
    let popov_shift := mkseq (fun i => shift`_i - rdeg`_i) (nr pm) in
    match appbas_iterative appbas pm order popov_shift order_wise with
    | AUB => Undef
    | AOk (appbas, _) =>
      match row_leading_matrix_sh appbas popov_shift with
      | Ret lead =>
        let L := mx_of (nr appbas) (nr appbas) lead in
        if (nr appbas == nc appbas) && (L \in unitmx) then
          let linv := Cmat (nr appbas) (nr appbas) (fun i j =>
            if (insub i, insub j) is (Some i', Some j') then invmx L i' j' else 0) in
          match pm_cmul true appbas linv appbas with AOk r => Ret (r, rdeg) | AUB => Undef end
        else Undef
      | Throws => Throws
      | Undef => Undef
      end
    end
  end.

(** 20-50, approximant_basis; order_wise is true by default (mat_lzz_pX_approximant.h:212, 257) *)
Definition approximant_basis (x pm : pmat) (order : seq nat) (shift : seq int) (f : form) (row_wise generic : bool) :
    fout (pmat * seq int) :=
  if row_wise && ~~ generic then
    if (form_value f < form_value POPOV)%N then
      match appbas_iterative x pm order shift true with AOk r => Ret r | AUB => Undef end
    else if form_value f == form_value POPOV then popov_appbas_iterative x pm order shift true
    else Throws
  else Throws.
End AppBas.
