(** ntl-extras/mat_lzz_pX_extra/src/mat_lzz_pX_pmbasis.cpp, lines 28-445, 452-789 and 1122-1436: approximant bases at order one and the
    iterative algorithms mbasis. NTL's kernel and image (mat_lzz_p.h) are parameters: [ker m n A] and [img k m A] give a number of rows and
    the entries. Shifts are unbounded integers (long in C++). *)
From Coq Require Import ZArith.
From mathcomp Require Import all_ssreflect all_algebra.
From Verif Require Import A_base A_mbasis_model N_pmat_model N_util_model N_forms_model.
Set Implicit Arguments.
Unset Strict Implicit.
Unset Printing Implicit Defensive.
Import GRing.Theory.
Local Open Scope ring_scope.

(** 270, 641, 1277: std::adjacent_find(begin, end) != end *)
Fixpoint has_adjacent (l : seq nat) : bool :=
  if l is x :: l' then (if l' is y :: _ then x == y else false) || has_adjacent l' else false.

Section MB.
Variable F : fieldType.
Local Notation pmat := (pmat F).
Variable ker : nat -> nat -> fmat F -> nat * fmat F.
Variable img : nat -> nat -> fmat F -> nat * fmat F.

(** 93-100, 248-257, 619-628, 1255-1264: number of decrements of the pivot index, from m-1, along the zero entries on the right of the row v; m when the
    row is zero (the index then becomes negative) *)
Definition scan (v : nat -> F) (m : nat) : nat := find (fun d => v (m.-1 - d)%N != 0) (iota 0 m).
Definition pivots (K : fmat F) (k m : nat) : aoutcome (seq nat) :=
  if has (fun i => scan (K i) m == m) (iota 0 k) then AUB else AOk [seq (m.-1 - scan (K i) m)%N | i <- iota 0 k].

(** 107-116, 273-283, 644-654, 1280-1290: the matrix with reversed columns, its image, reversed back *)
Definition echelon (k m : nat) (K : fmat F) : aoutcome (fmat F) :=
  let im := img k m (fun i j => K i (m.-1 - j)%N) in
  if (im.1 < k)%N then AUB else AOk (fun i j => im.2 (k - i - 1)%N (m.-1 - j)%N).

(** 248-294 (mbasis1), 619-664 (mbasis_rescomp), 1255-1300 (mbasis_resupdate): pivot indices, and echelon form if they are not distinct.
    stale is the vector p_pivind before: the two last functions give it the length m-1, and sort it entirely *)
Definition kernel_shape (stale : seq nat) (k m : nat) (K : fmat F) : aoutcome (fmat F * seq nat) :=
  match pivots K k m with
  | AUB => AUB
  | AOk pp =>
    if pp == [seq (m - k + i)%N | i <- iota 0 k] then AOk (K, pp)
    else if ~~ has_adjacent (sort leq (pp ++ drop k stale)) then AOk (K, pp)
    else match echelon k m K with
    | AUB => AUB
    | AOk K' => match pivots K' k m with AUB => AUB | AOk pp' => AOk (K', pp') end
    end
  end.

(** 144-163, 300-319, 672-692, 1308-1328: pivind, the permutation of the rows of the kernel, and the kernel with rows and columns in the
    original order. std::sort is used on distinct keys; the loops assign each entry of kerbas once *)
Definition pivind_of (ps pp : seq nat) : seq nat := [seq nth 0%N ps p | p <- pp].
Definition perm_rows (pivind : seq nat) (k : nat) : seq nat :=
  sort (fun a b => (nth 0%N pivind a <= nth 0%N pivind b)%N) (iota 0 k).
Definition permute_back (ps rows : seq nat) (K : fmat F) : fmat F := fun i c => K (nth 0%N rows i) (index c ps).
(** 145-149, 301-305: pivdeg *)
Definition pivdeg_of (m : nat) (pivind : seq nat) : seq nat := [seq (if i \in pivind then 0 else 1)%N | i <- iota 0 m].

(** 184-334, mbasis1: number of rows and entries of kerbas, and the vector pivdeg. [find_shift_permutation] (stable sort of the shift) is
    in A_mbasis_model.v *)
Definition mbasis1 (m n : nat) (pm : fmat F) (shift : seq int) : aoutcome (nat * fmat F * seq nat) :=
  let ps := find_shift_permutation m (nth 0 shift) in
  let: (k, pk) := ker m n (fun i j => pm (nth 0%N ps i) j) in
  if k == 0%N then AOk (k, pk, nseq m 1%N)
  else if k == m then AOk (k, pk, nseq m 0%N)
  else match kernel_shape [::] k m pk with
  | AUB => AUB
  | AOk (pk, pp) =>
    let pivind := pivind_of ps pp in
    AOk (k, permute_back ps (perm_rows pivind k) pk, pivdeg_of m pivind)
  end.

(** 28-177, popov_mbasis1. The loop 95-101 stops at the first unexpected pivot; the pivots are then computed again. NTL's inv aborts on a
    singular matrix *)
Definition popov_shape (k m : nat) (K : fmat F) : aoutcome (fmat F * seq nat) :=
  match pivots K k m with
  | AUB => AUB
  | AOk pp =>
    if pp == [seq (m - k + i)%N | i <- iota 0 k] then AOk (K, pp)
    else match echelon k m K with
    | AUB => AUB
    | AOk K' =>
      match pivots K' k m with
      | AUB => AUB
      | AOk pp' =>
        let tmat := \matrix_(i < k, j < k) K' i (nth 0%N pp' j) in
        if tmat \in unitmx then
          AOk (fun i j => \sum_(l < k) (if insub i is Some i' then invmx tmat i' l else 0) * K' l j, pp')
        else AUB
      end
    end
  end.
Definition popov_mbasis1 (m n : nat) (pm : fmat F) (shift : seq int) : aoutcome (nat * fmat F * seq nat) :=
  let ps := find_shift_permutation m (nth 0 shift) in
  let: (k, pk) := ker m n (fun i j => pm (nth 0%N ps i) j) in
  if k == 0%N then AOk (k, pk, nseq m 1%N)
  else if k == m then AOk (k, pk, nseq m 0%N)
  else match popov_shape k m pk with
  | AUB => AUB
  | AOk (pk, pp) =>
    let pivind := pivind_of ps pp in
    AOk (k, permute_back ps (perm_rows pivind k) pk, pivdeg_of m pivind)
  end.

(** *** mbasis_plain *)
(** coefficient of degree ord of app * pm, computed by the loops 407-416 and 430-440: d runs over max(0, ord - deg(pm)) .. deg(app); plen is
    the degree plus one. A coefficient of pm of negative degree is zero *)
Definition plain_residual (app pm : pmat) (ord : nat) : fmat F := fun i j =>
  let dmin := (ord.+1 - plen pm)%N in
  foldl (fun r d => r + \sum_(l < nc app) (ent app i l)`_d * (if (d <= ord)%N then (ent pm l j)`_(ord - d) else 0)) 0
    (iota dmin (plen app - dmin)).
(** 388-402: row is the number of null entries of pivdeg before i *)
Definition plain_update (app : pmat) (k : nat) (kerbas : fmat F) (pivdeg : seq nat) : pmat :=
  Pmat (nr app) (nc app) (fun i j =>
    if nth 0%N pivdeg i == 0%N then
      \sum_(l < nr app) (kerbas (count (fun q => nth 0%N pivdeg q == 0%N) (iota 0 i)) l)%:P * ent app l j
    else ent app i j * 'X).

(** 368-444; fuel is order - ord + 1 *)
Fixpoint plain_loop (pm : pmat) (order fuel ord : nat) (app : pmat) (shift : seq int) (res : fmat F) : aoutcome (pmat * seq int) :=
  if fuel isn't f.+1 then AOk (app, shift)
  else match mbasis1 (nr pm) (nc pm) res shift with
  | AUB => AUB
  | AOk (k, kerbas, pivdeg) =>
    if k == 0%N then
      AOk (Pmat (nr app) (nc app) (fun i j => ent app i j * 'X^(order - ord + 1)), [seq x + (order - ord + 1)%:Z | x <- shift])
    else if (k < nr pm)%N then
      let shift := [seq x.1 + x.2%:Z | x <- zip shift pivdeg] in
      let app := plain_update app k kerbas pivdeg in
      plain_loop pm order f ord.+1 app shift (if (ord < order)%N then plain_residual app pm ord else res)
    else plain_loop pm order f ord.+1 app shift (if (ord < order)%N then plain_residual app pm ord else res)
  end.
(** 339-445, mbasis_plain. In the exceptional case 422-440 the residual is zero before the loop *)
Definition mbasis_plain (x pm : pmat) (order : nat) (shift : seq int) : aoutcome (pmat * seq int) :=
  plain_loop pm order order 1 (pm_ident x (nr pm)) shift (fun i j => (ent pm i j)`_0).

(** *** mbasis_rescomp and mbasis_resupdate *)
(** coeffs_appbas (of length deg_appbas + 1: the vector grows exactly when deg_appbas does), deg_appbas, shift, p_pivind *)
Record mbst := MBst { cf : nat -> fmat F; cdeg : nat; csh : seq int; cpiv : seq nat }.

(** 696-743, 1332-1379: degrees and coefficients of the basis *)
(** the row i of each matrix of v is replaced by the row index of i in sorted pivots of kerbas * v[d], for d in the window [lo, lo+len) *)
Definition replace_rows (m k : nat) (kerbas : fmat F) (pv : seq nat) (lo len : nat) (v : nat -> fmat F) : nat -> fmat F :=
  fun d i j => if (i \in pv) && (lo <= d < lo + len)%N then \sum_(l < m) kerbas (index i pv) l * v d l j else v d i j.
(** for d = lo+len-1 .. lo: the rows i not among the pivots of v[d+1] and v[d] are swapped *)
Definition shift_up (pv : seq nat) (lo len : nat) (v : nat -> fmat F) : nat -> fmat F :=
  foldl (fun v d => fun e i => if i \in pv then v e i else if e == d.+1 then v d i else if e == d then v d.+1 i else v e i) v
    (rev (iota lo len)).
Definition mb_update (m k : nat) (kerbas : fmat F) (pv : seq nat) (st : mbst) (stale : seq nat) : mbst :=
  let sh := [seq (if i \in pv then nth 0 (csh st) i else nth 0 (csh st) i + 1) | i <- iota 0 m] in
  let up := has (fun i => (i \notin pv) && has (fun j => cf st (cdeg st) i j != 0) (iota 0 m)) (iota 0 m) in
  let dg := if up then (cdeg st).+1 else cdeg st in
  let c := if up then (fun d => if d == dg then (fun _ _ => 0) else cf st d) else cf st in
  let c := replace_rows m k kerbas pv 0 dg.+1 c in
  MBst (shift_up pv 0 dg c) dg sh stale.

(** 532-692 and 1198-1328, the base case shared by both loops: permutation, kernel, shape, permutation back; Empty and Full are the two
    exceptional cases *)
Inductive base_case := Empty | Full | Usual (k : nat) (kerbas : fmat F) (pv p_pivind : seq nat).
Definition mb_base (m n : nat) (res : fmat F) (st : mbst) : aoutcome base_case :=
  let ps := find_shift_permutation m (nth 0 (csh st)) in
  let: (k, pk) := ker m n (fun i j => res (nth 0%N ps i) j) in
  if k == 0%N then AOk Empty
  else if k == m then AOk Full
  else match kernel_shape (cpiv st) k m pk with
  | AUB => AUB
  | AOk (pk, pp) =>
    let pivind := pivind_of ps pp in
    let rows := perm_rows pivind k in
    AOk (Usual k (permute_back ps rows pk) [seq nth 0%N pivind r | r <- rows] (pp ++ drop k (cpiv st)))
  end.

(** 570 and 779, 1236 and 1426: conversion of the coefficients, shifted in the case of an empty kernel *)
Definition conv_out (m : nat) (st : mbst) (shl : nat) : pmat := Pmat m m (fun i j => (\poly_(d < (cdeg st).+1) cf st d i j) * 'X^shl).

(** 586-595, 752-759: sum over d = max(0, ord - order + 1) .. deg_appbas of coeffs_appbas[d] * coeffs_pmat[ord-d]; coeffs_pmat has the
    length order *)
Definition comp_residual (m : nat) (pm : pmat) (order ord : nat) (st : mbst) : aoutcome (fmat F) :=
  if (ord < cdeg st)%N then AUB
  else let dmin := (ord.+1 - order)%N in
    AOk (fun i j => foldl (fun r d => r + \sum_(l < m) cf st d i l * (ent pm l j)`_(ord - d)) 0 (iota dmin ((cdeg st).+1 - dmin))).

(** 532-771; fuel is order - ord + 1 *)
Fixpoint rescomp_loop (pm : pmat) (order fuel ord : nat) (st : mbst) (res : fmat F) : aoutcome (pmat * seq int) :=
  let m := nr pm in
  if fuel isn't f.+1 then AOk (conv_out m st 0, csh st)
  else match mb_base m (nc pm) res st with
  | AUB => AUB
  | AOk Empty => AOk (conv_out m st (order - ord + 1), [seq x + (order - ord + 1)%:Z | x <- csh st])
  | AOk Full =>
    if (ord < order)%N then
      match comp_residual m pm order ord st with AUB => AUB | AOk res => rescomp_loop pm order f ord.+1 st res end
    else rescomp_loop pm order f ord.+1 st res
  | AOk (Usual k kerbas pv stale) =>
    let st := mb_update m k kerbas pv st stale in
    if (ord < order)%N then
      match comp_residual m pm order ord st with AUB => AUB | AOk res => rescomp_loop pm order f ord.+1 st res end
    else rescomp_loop pm order f ord.+1 st res
  end.

(** 478-512, 1160-1179: the identity *)
Definition mb_start (m : nat) (shift : seq int) : mbst :=
  MBst (fun _ i j => if i == j then 1 else 0) 0 shift (nseq m.-1 0%N).

(** 452-789, mbasis_rescomp; coeffs_pmat[0] does not exist at order 0, and the constructor of std::vector throws for the length -1 *)
Definition mbasis_rescomp (pm : pmat) (order : nat) (shift : seq int) : fout (pmat * seq int) :=
  if order == 0%N then Undef
  else if nr pm == 0%N then Throws
  else match rescomp_loop pm order order 1 (mb_start (nr pm) shift) (fun i j => (ent pm i j)`_0) with AUB => Undef | AOk r => Ret r end.

(** 1198-1420; rs are the residuals. 1391-1402: kerbas * residuals[d] for ord <= d < order, then the rows which are not pivots are swapped
    for d = order-2 .. ord-1 *)
Fixpoint resupdate_loop (pm : pmat) (order fuel ord : nat) (st : mbst) (rs : nat -> fmat F) : aoutcome (pmat * seq int) :=
  let m := nr pm in
  if fuel isn't f.+1 then AOk (conv_out m st 0, csh st)
  else match mb_base m (nc pm) (rs ord.-1) st with
  | AUB => AUB
  | AOk Empty => AOk (conv_out m st (order - ord + 1), [seq x + (order - ord + 1)%:Z | x <- csh st])
  | AOk Full => resupdate_loop pm order f ord.+1 st rs
  | AOk (Usual k kerbas pv stale) =>
    let st := mb_update m k kerbas pv st stale in
    let rs := replace_rows m k kerbas pv ord (order - ord) rs in
    let rs := shift_up pv ord.-1 (order - ord) rs in
    resupdate_loop pm order f ord.+1 st rs
  end.
(** 1122-1436, mbasis_resupdate *)
Definition mbasis_resupdate (pm : pmat) (order : nat) (shift : seq int) : fout (pmat * seq int) :=
  if nr pm == 0%N then Throws
  else match resupdate_loop pm order order 1 (mb_start (nr pm) shift) (fun d i j => (ent pm i j)`_d) with AUB => Undef | AOk r => Ret r end.

(** mat_lzz_pX_approximant.h:443-456, mbasis *)
Definition mbasis (pm : pmat) (order : nat) (shift : seq int) : fout (pmat * seq int) :=
  if ((nr pm)./2 + 1 < nc pm)%N then mbasis_resupdate pm order shift else mbasis_rescomp pm order shift.
End MB.
