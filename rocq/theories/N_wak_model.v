(** Model of the naive product and of Waksman's product of matrices of polynomials of ntl-extras:
    mat_lzz_pX_extra/src/mat_lzz_pX_multiply_naive.cpp. *)
From mathcomp Require Import all_ssreflect all_algebra.
From Verif Require Import A_base A_mul_model N_multi_model N_pmat_model N_trs_model N_util_model.
Set Implicit Arguments.
Unset Strict Implicit.
Unset Printing Implicit Defensive.
Import GRing.Theory.
Local Open Scope ring_scope.

Section Wak.
Variable F : fieldType.
Local Notation P := {poly F}.
Local Notation pmat := (pmat F).

(** 162-188, multiply_naive. An output that is an operand is replaced by a new matrix, then swapped (alias). The
    accesses a[i][0], b[0][j], .., b[v-1][j] of the loops must exist *)
Definition multiply_naive (alias : bool) (x a b : pmat) : aoutcome pmat :=
  let x := if alias then new_pmat F else x in
  let u := nr a in let v := nc a in let w := nc b in
  if (0 < u)%N && (0 < w)%N && ((v == 0%N) || (nr b < v)%N) then AUB
  else
    let c := set_dims x u w in
    AOk (Pmat u w (foldl (fun M i => foldl (fun M j =>
      let M := upd2 M i j (ent a i 0%N * ent b 0%N j) in
      foldl (fun M k => upd2 M i j (M i j + ent a i k * ent b k j)) M (iota 1 (v - 1))) M (iota 0 w)) (ent c) (iota 0 u))).

(** the products added for the index j2: 46-51 and 83-90, ... *)
Definition wak_plus (a b : pmat) (j2 l k : nat) : P :=
  (ent a l (j2 - 1)%N + ent b j2 k) * (ent a l j2 + ent b (j2 - 1)%N k).
Definition wak_minus (a b : pmat) (j2 l k : nat) : P :=
  (ent a l (j2 - 1)%N - ent b j2 k) * (ent a l j2 - ent b (j2 - 1)%N k).

(** 42-72 (first: the values are written) and 79-114 (they are added). The loops that update c and d, or c and e, are
    written here as two loops since these arrays are distinct *)
Definition wak_step (first : bool) (a b : pmat) (j2 : nat) (st : fmat P * (nat -> P) * (nat -> P)) : fmat P * (nat -> P) * (nat -> P) :=
  let m := nr a in let p := nc b in
  let: (c, d, e) := st in
  let acc (old new : P) := if first then new else old + new in
  let g l k (M : fmat P) := acc (M l k) (wak_plus a b j2 l k) in
  let c := win g 0 1 0 p c in
  let d := foldl (fun (d : nat -> P) k => upd d k (acc (d k) (wak_minus a b j2 0%N k))) d (iota 0 p) in
  let c := win g 1 (m - 1) 0 1 c in
  let e := foldl (fun (e : nat -> P) l => upd e l (acc (e l) (wak_minus a b j2 l 0%N))) e (iota 1 (m - 1)) in
  let c := win g 1 (m - 1) 1 (p - 1) c in
  (c, d, e).

(** 117-144 *)
Definition wak_final (m p : nat) (st : fmat P * (nat -> P) * (nat -> P)) : fmat P :=
  let: (c, d, e) := st in
  let inv2 : F := (2%:R)^-1 in
  let: (c, e) := foldl (fun st l => let: (c, e) := st in
    let e : nat -> P := upd e l (e l + c l 0%N) in
    let e : nat -> P := upd e l (inv2 *: e l) in
    (upd2 c l 0%N (c l 0%N - e l), e)) (c, e) (iota 1 (m - 1)) in
  let buf0 := inv2 *: (d 0%N + c 0%N 0%N) in
  let c := upd2 c 0%N 0%N (c 0%N 0%N - buf0) in
  foldl (fun (c : fmat P) k =>
    let buf1 := inv2 *: (d k + c 0%N k) in
    let c := upd2 c 0%N k (c 0%N k - buf1) in
    let buf1 := buf1 - buf0 in
    foldl (fun (c : fmat P) l => upd2 c l k (c l k - (buf1 + e l))) c (iota 1 (m - 1))) c (iota 1 (p - 1)).

(** 10-154, multiply_waksman. Without a row or without a column, d[0] or c[0][0] (128) does not exist; b must have at
    least n rows. d0, e0: the vectors d and e are made of zeros by SetLength *)
Definition multiply_waksman (alias : bool) (x a b : pmat) : aoutcome pmat :=
  let n := nc a in
  if ((2%:R : F) == 0) || (n < 2)%N then multiply_naive alias x a b
  else
    let x := if alias then new_pmat F else x in
    let m := nr a in let p := nc b in
    if (m == 0%N) || (p == 0%N) || (nr b < n)%N then AUB
    else
      let c := set_dims x m p in
      let st := wak_step true a b 1 (ent c, fun _ => 0, fun _ => 0) in
      let st := foldl (fun st j => wak_step false a b (2 * j - 1) st) st (iota 2 (n./2 - 1)) in
      let c := wak_final m p st in
      AOk (Pmat m p (if odd n then win (fun l k M => M l k + ent a l (n - 1)%N * ent b (n - 1)%N k) 0 m 0 p c else c)).
End Wak.
