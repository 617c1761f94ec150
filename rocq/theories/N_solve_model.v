(** Model of ntl-extras/mat_lzz_pX_extra/src/mat_lzz_pX_linsolve.cpp:14-225: solution of A u = b modulo a power of the variable.
    solve_series_high_order_lifting and the functions over the rational fractions (lines 228-...) are not modelled.
    add_LeftShift can leave vectors of coefficients with leading zeros, see C57: the solutions are modelled with the vectors of
    coefficients that are stored. None: fuel is too small; AUB: an error of NTL or an access out of bounds. *)
From Coq Require Import ZArith.
From mathcomp Require Import all_ssreflect all_algebra.
From Verif Require Import A_base A_mul_model N_multi_model N_pmat_model N_trs_model N_util_model N_eval_model.
Set Implicit Arguments.
Unset Strict Implicit.
Unset Printing Implicit Defensive.
Import GRing.Theory.
Local Open Scope ring_scope.

Section Solve.
Variable F : fieldType.
Local Notation P := {poly F}.
Local Notation pmat := (pmat F).

(** a Mat<zz_pX> with the vectors of coefficients of the entries, as stored *)
Record smat := Smat { sr : nat; sc : nat; sent : nat -> nat -> seq F }.
Definition stored (a : pmat) : smat := Smat (nr a) (nc a) (fun i j => polyseq (ent a i j)).
(** no leading zero *)
Definition normal_mat (s : smat) : bool := all_entries (fun i j => last 1 (sent s i j) != 0) (sr s) (sc s).
Definition polys (s : smat) : pmat := Pmat (sr s) (sc s) (fun i j => Poly (sent s i j)).

(** lzz_pX_extra.cpp:447-482, add_LeftShift, when c is a; garb is what the memory of c.rep holds after its length. See
    add_left_shift in N_poly_model *)
Definition add_shift_to (garb : nat -> F) (a b : seq F) (k : nat) : seq F :=
  let sa := size a in
  let sb := (size b + k)%N in
  let mn := minn sa sb in
  let mx := maxn sa sb in
  let c : nat -> F := fun i => if (i < sa)%N then a`_i else garb i in
  let c : nat -> F := foldl (fun (c : nat -> F) i => upd c i 0) c (iota (minn sa k) (k - minn sa k)) in
  let c : nat -> F := foldl (fun (c : nat -> F) i => upd c i (c i + b`_(i - k))) c (iota k (mn - k)) in
  let i := maxn k mn in
  if (mn < sb)%N then mkseq (foldl (fun (c : nat -> F) i => upd c i b`_(i - k)) c (iota i (mx - i))) mx
  else polyseq (Poly (mkseq c mx)).
(** mat_lzz_pX_arith.cpp:103-114, add_LeftShift of matrices, when c is a; the loop is entry by entry *)
Definition sm_add_shift (garb : nat -> nat -> nat -> F) (a b : smat) (k : nat) : aoutcome smat :=
  if (sr a != sr b) || (sc a != sc b) then AUB
  else AOk (Smat (sr a) (sc a) (fun i j => add_shift_to (garb i j) (sent a i j) (sent b i j) k)).
(** NTL, trunc(x, x, n): the vector is not modified, and not normalized, when its length is at most n *)
Definition trunc_stored (n : nat) (s : seq F) : seq F := if (n < size s)%N then polyseq (Poly (take n s)) else s.

Variable garb : nat -> nat -> nat -> F.
(** middle_product, inv_trunc in a new matrix and get_lmultiplier. mp_raw: middle_product when the first operand has leading
    zeros, which is not modelled *)
Variables (mp : pmat -> pmat -> nat -> nat -> option (aoutcome pmat)) (mp_raw : smat -> pmat -> nat -> nat -> option (aoutcome pmat)).
Variables (inv : pmat -> nat -> option (aoutcome pmat)).
Variables (get : pmat -> nat -> option (aoutcome (pmat -> option (aoutcome pmat)))).

(** the transpose of sol is copied before the middle product *)
Definition strans (s : smat) : smat := Smat (sc s) (sr s) (fun i j => sent s j i).
Definition mp_stored (x : smat) (c : pmat) (dA dB : nat) : option (aoutcome pmat) :=
  if normal_mat x then mp (polys x) c dA dB else mp_raw x c dA dB.

(** 20-60, solve_DAC. The buffer bufB holds the transpose of sol when the residue is transposed into it; here it still holds the
    truncation of b (the contents do not matter). *)
Fixpoint solve_DAC (fuel : nat) (A b : pmat) (prec : nat) (invA : pmat -> option (aoutcome pmat)) (thresh : nat) : option (aoutcome smat) :=
  if (prec <= thresh)%N then
    bindm (invA b) (fun sol => Some (AOk (stored (pm_truncate true sol sol prec))))
  else if fuel is fuel'.+1 then
    let hprec := prec./2 in
    let kprec := (prec - hprec)%N in
    let bufA := pm_truncate false (new_pmat F) A hprec in
    let bufB := pm_truncate false (new_pmat F) b hprec in
    bindm (solve_DAC fuel' bufA bufB hprec invA thresh) (fun sol =>
    let bufA := transpose bufA A in
    bindm (mp_stored (strans sol) bufA hprec kprec.-1) (fun residue =>
    let bufB := transpose bufB residue in
    let bufA := pm_truncate false bufA A kprec in
    let residue := pm_rshift false residue b (Z.of_nat hprec) in
    bindm (Some (pm_sub_to false true bufB residue bufB)) (fun bufB =>
    bindm (solve_DAC fuel' bufA bufB kprec invA thresh) (fun residue =>
    Some (sm_add_shift garb sol residue hprec)))))
  else None.

(** 77-80, 126-129: A and b are truncated if one of the degrees is at least prec *)
Definition truncated (A b : pmat) (prec : nat) : pmat * pmat :=
  if (prec < plen A)%N || (prec < plen b)%N then (pm_truncate false (new_pmat F) A prec, pm_truncate false (new_pmat F) b prec)
  else (A, b).

(** 70-112, solve_series_low_precision; the thresholds are in thresholds_solve_lift.orig. When u is A or b, the solution is
    computed in a new matrix. *)
Definition default_thresh (fftp small : bool) : nat := (if fftp then 32 else if small then 32 else 16)%N.
Definition solve_series_low_precision (fuel : nat) (fftp small : bool) (A b : pmat) (prec : nat) (thresh : option nat) : option (aoutcome smat) :=
  let Ab := truncated A b prec in
  let thresh := odflt (default_thresh fftp small) thresh in
  bindm (inv Ab.1 thresh) (fun invA =>
  bindm (get invA thresh.-1) (fun mult =>
  solve_DAC fuel Ab.1 Ab.2 prec mult thresh)).

(** 164-189, one iteration of the loop of solve_series_high_precision *)
Definition high_step (lenA : nat) (multA multI : pmat -> option (aoutcome pmat)) (b : pmat) (st : smat * pmat * nat) :
    option (aoutcome (smat * pmat * nat)) :=
  let: (u, sol, shift) := st in
  bindm (multA sol) (fun upper =>
  let upper := pm_rshift true upper upper (Z.of_nat lenA) in
  let upper := Pmat (nr upper) (nc upper)
    (win (fun i j M => foldl (fun p k => set_coeff p k ((ent b i j)`_(k + shift) - p`_k)) (M i j) (iota 0 lenA))
      0 (nr b) 0 (nc b) (ent upper)) in
  bindm (multI upper) (fun sol =>
  let sol := pm_truncate true sol sol lenA in
  bindm (Some (sm_add_shift garb u (stored sol) shift)) (fun u =>
  Some (AOk (u, sol, (shift + lenA)%N))))).

(** 121-191, solve_series_high_precision; A = 0 is not invertible, and divides by lenA = 0 *)
Definition solve_series_high_precision (A b : pmat) (prec : nat) : option (aoutcome smat) :=
  let Ab := truncated A b prec in
  let A := Ab.1 in let b := Ab.2 in
  let lenA := plen A in
  if lenA == 0%N then Some AUB else
  bindm (inv A lenA) (fun invA =>
  bindm (get invA lenA.-1) (fun multI =>
  bindm (get A lenA.-1) (fun multA =>
  let nb := (1 + prec.-1 %/ lenA)%N in
  bindm (multI (pm_truncate false (new_pmat F) b lenA)) (fun u =>
  let u := pm_truncate true u u lenA in
  bindm (foldl (fun st _ => bindm st (high_step lenA multA multI b)) (Some (AOk (stored u, u, lenA))) (iota 1 nb.-1)) (fun st =>
  let u := st.1.1 in
  Some (AOk (Smat (sr u) (sc u) (fun i j => trunc_stored prec (sent u i j))))))))).

(** 198-204, solve_series *)
Definition solve_series (fuel : nat) (fftp small : bool) (A b : pmat) (prec : nat) : option (aoutcome smat) :=
  if (prec <= 4 * (plen A).-1)%N then solve_series_low_precision fuel fftp small A b prec None
  else solve_series_high_precision A b prec.

(** 212-224, solve_series for vectors of length n *)
Definition solve_series_vec (fuel : nat) (fftp small : bool) (A : pmat) (n : nat) (b : nat -> P) (prec : nat) : option (aoutcome (nat -> seq F)) :=
  bindm (solve_series fuel fftp small A (Pmat n 1 (fun i _ => b i)) prec) (fun umat =>
  if (sr umat < n)%N then Some AUB else Some (AOk (fun i => sent umat i 0%N))).
End Solve.
