(** Model of the basic operations on matrices of polynomials of ntl-extras: mat_lzz_pX_extra/src/mat_lzz_pX_utils.cpp
    and mat_lzz_pX_extra/src/mat_lzz_pX_arith.cpp. The entrywise operations on vectors (lines 57-94, 183-238, 344-350, 369-375 of the
    second file, the vector versions of trunc and of the shifts in the first one) are the case of one row of those on
    matrices and are not modelled apart; random is not modelled. *)
From Coq Require Import ZArith.
From mathcomp Require Import all_ssreflect all_algebra.
From Verif Require Import A_base A_mul_model N_multi_model N_pmat_model N_trs_model.
Set Implicit Arguments.
Unset Strict Implicit.
Unset Printing Implicit Defensive.
Import GRing.Theory.
Local Open Scope ring_scope.

Section Util.
Variable F : fieldType.
Local Notation P := {poly F}.
Local Notation pmat := (pmat F).

(** a Mat<zz_p> *)
Record cmat := Cmat { cr : nat; cc : nat; cent : fmat F }.
(** a Vec<Mat<zz_p>> whose matrices all have the same dimensions (mat_lzz_pX_utils.h: "this is currently assumed to
    hold, and not checked by the algorithms") *)
Record vmat := Vmat { vlen : nat; vr : nat; vc : nat; vent : nat -> fmat F }.

(** NTL, Mat::SetDims: the rows are kept when the number of columns does not change, and the matrix is built anew with
    zero entries otherwise *)
Definition set_dims (x : pmat) (m n : nat) : pmat := Pmat m n (if n == nc x then ent x else fun _ _ => 0).
(** a default constructed matrix *)
Definition new_pmat : pmat := Pmat 0 0 (fun _ _ => 0).

(** NTL on polynomials: LeftShift and RightShift by a signed amount, reverse with respect to a signed bound *)
Definition rshift (p : P) (n : Z) : P := match n with Zneg q => p * 'X^(Pos.to_nat q) | _ => pshr (Z.to_nat n) p end.
Definition lshift (p : P) (n : Z) : P := match n with Zneg q => pshr (Pos.to_nat q) p | _ => p * 'X^(Z.to_nat n) end.
Definition zreverse (p : P) (hi : Z) : P :=
  match hi with Zneg _ => 0 | _ => let h := Z.to_nat hi in \poly_(k < h.+1) p`_(h - k) end.

(** the loops "for i, for j: x[i][j] = g(i, j)" over a window; the value may depend on the current state *)
Definition win (g : nat -> nat -> fmat P -> P) (r m c n : nat) (M : fmat P) : fmat P :=
  foldl (fun M i => foldl (fun M j => upd2 M i j (g i j M)) M (iota c n)) M (iota r m).
(** entrywise operation x = g(a); alias tells whether x and a are the same object *)
Definition ewise (alias : bool) (g : nat -> nat -> P -> P) (x a : pmat) : pmat :=
  let x := if alias then a else set_dims x (nr a) (nc a) in
  Pmat (nr x) (nc x) (win (fun i j M => g i j (if alias then M i j else ent a i j)) 0 (nr a) 0 (nc a) (ent x)).

(** *** mat_lzz_pX_utils.cpp *)

(** 15-20, clear *)
Definition pm_clear (x : pmat) : pmat := Pmat (nr x) (nc x) (win (fun _ _ _ => 0) 0 (nr x) 0 (nc x) (ent x)).
(** 26-33, clear of a window *)
Definition clear_window (x : pmat) (ro co nrows ncols : nat) : pmat :=
  let r_end := minn (ro + nrows) (nr x) in
  let c_end := minn (co + ncols) (nc x) in
  Pmat (nr x) (nc x) (win (fun _ _ _ => 0) ro (r_end - ro) co (c_end - co) (ent x)).
(** 38-49, ident *)
Definition pm_ident (x : pmat) (dim : nat) : pmat :=
  let x := set_dims x dim dim in
  Pmat dim dim (foldl (fun M i =>
    let M := foldl (fun M j => upd2 M i j 0) M (iota 0 i) in
    let M := upd2 M i i 1 in
    foldl (fun M j => upd2 M i j 0) M (iota i.+1 (dim - i.+1))) (ent x) (iota 0 dim)).
(** 54-61, ident_mat_zz_pX *)
Definition ident_mat (dim : nat) : pmat :=
  let x := set_dims new_pmat dim dim in
  Pmat dim dim (foldl (fun M i => upd2 M i i 1) (ent x) (iota 0 dim)).

(** a nested loop that returns false as soon as a test fails *)
Definition all_entries (t : nat -> nat -> bool) (m n : nat) : bool :=
  foldl (fun ok i => foldl (fun ok j => if ok then t i j else false) ok (iota 0 n)) true (iota 0 m).
(** 77-84, IsZero *)
Definition pm_is_zero (a : pmat) : bool := all_entries (fun i j => ent a i j == 0) (nr a) (nc a).
(** 89-104 and 109-123, IsIdent *)
Definition is_ident_test (a : pmat) i j : bool :=
  if (i == j) && ~~ (ent a i j == 1) then false else if (i != j) && ~~ (ent a i j == 0) then false else true.
Definition pm_is_ident (a : pmat) : bool :=
  if nr a != nc a then false else all_entries (is_ident_test a) (nr a) (nr a).
Definition pm_is_ident_dim (a : pmat) (dim : nat) : bool :=
  if (nr a != dim) || (nc a != dim) then false else all_entries (is_ident_test a) dim dim.
(** 149-156, IsConstant *)
Definition pm_is_constant (a : pmat) : bool :=
  all_entries (fun i j => ~~ (1 < size (ent a i j))%N) (nr a) (nc a).

(** 162-169, GetCoeff *)
Definition get_coeff (a : pmat) (k : nat) : cmat :=
  Cmat (nr a) (nc a) (foldl (fun M i => foldl (fun M j => upd2 M i j (ent a i j)`_k) M (iota 0 (nc a)))
    (fun _ _ => 0) (iota 0 (nr a))).
(** 174-185, SetCoeff *)
Definition pm_set_coeff (x : pmat) (k : nat) (a : cmat) : aoutcome pmat :=
  if (nr x != cr a) || (nc x != cc a) then AUB
  else AOk (Pmat (nr x) (nc x) (win (fun i j M => set_coeff (M i j) k (cent a i j)) 0 (nr x) 0 (nc x) (ent x))).

(** 190-219, transpose *)
Definition swap2 (M : fmat P) i j : fmat P := let a := M i j in let b := M j i in upd2 (upd2 M i j b) j i a.
Definition transpose_alias (a : pmat) : pmat :=
  let n := nr a in let m := nc a in
  if n == m then
    Pmat n m (foldl (fun M i => foldl (fun M j => swap2 M i j) M (iota i.+1 (n - i.+1))) (ent a) (iota 0 n))
  else
    Pmat m n (foldl (fun M i => foldl (fun M j => upd2 M j i (ent a i j)) M (iota 0 m)) (fun _ _ => 0) (iota 0 n)).
Definition transpose (x a : pmat) : pmat :=
  let n := nr a in let m := nc a in
  let x := set_dims x m n in
  Pmat m n (foldl (fun M i => foldl (fun M j => upd2 M j i (ent a i j)) M (iota 0 m)) (ent x) (iota 0 n)).

(** 222-236, mirror: std::reverse on the entries of a vector of length n *)
Definition mirror (n : nat) (v : nat -> P) : nat -> P :=
  foldl (fun (v : nat -> P) i => let a := v i in let b := v (n - 1 - i)%N in upd (upd v i b) (n - 1 - i) a) v (iota 0 n./2).

(** 248-254, trunc *)
Definition pm_truncate (alias : bool) (x a : pmat) (n : nat) : pmat := ewise alias (fun _ _ => ptrunc n) x a.
(** 256-261, truncRow; an index out of range is an error *)
Definition trunc_row (alias : bool) (x a : pmat) (r n : nat) : aoutcome pmat :=
  if (0 < nc a)%N && (nr a <= r)%N then AUB else
  let x := if alias then a else set_dims x (nr a) (nc a) in
  AOk (Pmat (nr x) (nc x) (win (fun i j M => ptrunc n (if alias then M i j else ent a i j)) r 1 0 (nc a) (ent x))).
(** 263-268, truncCol *)
Definition trunc_col (alias : bool) (x a : pmat) (c n : nat) : aoutcome pmat :=
  if (0 < nr a)%N && (nc a <= c)%N then AUB else
  let x := if alias then a else set_dims x (nr a) (nc a) in
  AOk (Pmat (nr x) (nc x) (win (fun i j M => ptrunc n (if alias then M i j else ent a i j)) 0 (nr a) c 1 (ent x))).
(** 296-302, LeftShift and 304-310, RightShift *)
Definition pm_lshift (alias : bool) (x a : pmat) (n : Z) : pmat := ewise alias (fun _ _ p => lshift p n) x a.
Definition pm_rshift (alias : bool) (x a : pmat) (n : Z) : pmat := ewise alias (fun _ _ p => rshift p n) x a.
(** 316-331, LeftShiftRow and 333-348, RightShiftRow: sh is LeftShift or RightShift of a polynomial by n *)
Definition shift_row (sh : P -> P) (alias : bool) (x a : pmat) (r : nat) : aoutcome pmat :=
  if (nr a <= r)%N then AUB else
  AOk (if alias then Pmat (nr a) (nc a) (foldl (fun M j => upd2 M r j (sh (M r j))) (ent a) (iota 0 (nc a)))
  else
    let x := set_dims x (nr a) (nc a) in
    let M := foldl (fun M i => upd M i (ent a i)) (ent x) (iota 0 r) in
    let M := foldl (fun M j => upd2 M r j (sh (ent a r j))) M (iota 0 (nc a)) in
    Pmat (nr a) (nc a) (foldl (fun M i => upd M i (ent a i)) M (iota r.+1 (nr a - r.+1)))).
(** 350-367, LeftShiftCol and 369-386, RightShiftCol *)
Definition shift_col (sh : P -> P) (alias : bool) (x a : pmat) (c : nat) : aoutcome pmat :=
  if (nc a <= c)%N then AUB else
  AOk (if alias then Pmat (nr a) (nc a) (foldl (fun M i => upd2 M i c (sh (M i c))) (ent a) (iota 0 (nr a)))
  else
    let x := set_dims x (nr a) (nc a) in
    Pmat (nr a) (nc a) (foldl (fun M i =>
      let M := foldl (fun M j => upd2 M i j (ent a i j)) M (iota 0 c) in
      let M := upd2 M i c (sh (ent a i c)) in
      foldl (fun M j => upd2 M i j (ent a i j)) M (iota c.+1 (nc a - c.+1))) (ent x) (iota 0 (nr a)))).
(** 393-402, reverse; 408-421, col_reverse; 427-440, row_reverse *)
Definition pm_reverse (alias : bool) (x a : pmat) (hi : Z) : pmat := ewise alias (fun _ _ p => zreverse p hi) x a.
Definition col_reverse (alias : bool) (x a : pmat) (hi : nat -> Z) : pmat := ewise alias (fun _ j p => zreverse p (hi j)) x a.
Definition row_reverse (alias : bool) (x a : pmat) (hi : nat -> Z) : pmat := ewise alias (fun i _ p => zreverse p (hi i)) x a.

(** 446-452, eval of a matrix of polynomials *)
Definition eval_pmat (a : pmat) (pt : F) : cmat :=
  Cmat (nr a) (nc a) (foldl (fun M i => foldl (fun M j => upd2 M i j (ent a i j).[pt]) M (iota 0 (nc a)))
    (fun _ _ => 0) (iota 0 (nr a))).
(** 457-471, eval of a vector of matrices *)
Definition eval_vmat (v : vmat) (pt : F) : cmat :=
  if vlen v == 0%N then Cmat 0 0 (fun _ _ => 0)
  else Cmat (vr v) (vc v) (foldl (fun (M : fmat F) d => fun i j => M i j * pt + vent v d i j) (vent v (vlen v).-1)
    (rev (iota 0 (vlen v).-1))).

(** 540-546, conv from a constant matrix *)
Definition conv_const (x : pmat) (a : cmat) : pmat :=
  let x := set_dims x (cr a) (cc a) in
  Pmat (cr a) (cc a) (win (fun i j _ => (cent a i j)%:P) 0 (cr a) 0 (cc a) (ent x)).

(** 7-8, CACHE_FRIENDLY_SIZE and MATRIX_BLOCK_SIZE *)
Definition cache_size : nat := 32.
Definition block_size : nat := 8.
(** "for (k = 0; k < len; k += s)": the number of iterations *)
Definition blocks (len s : nat) : nat := (len + s - 1) %/ s.

(** 556-576, conv to a vector of matrices; pmat[i][j][k] is an access to the array of the coefficients of the entry,
    and must be within its length *)
Definition conv_vmat (a : pmat) : aoutcome vmat :=
  let m := nr a in let n := nc a in
  let len := plen a in
  let body V := foldl (fun (V : aoutcome (nat -> fmat F)) b =>
    let k := (b * cache_size)%N in
    let k_bound := minn cache_size (len - k) in
    foldl (fun V i => foldl (fun V j => foldl (fun V kk =>
      if V is AOk V' then
        if (k + kk < size (ent a i j))%N then AOk (upd3 V' (k + kk) i j (ent a i j)`_(k + kk)) else AUB
      else AUB) V (iota 0 k_bound)) V (iota 0 n)) V (iota 0 m)) V (iota 0 (blocks len cache_size)) in
  if body (AOk (fun _ _ _ => 0)) is AOk V then AOk (Vmat len m n V) else AUB.

(** 578-621, conv from a vector of matrices. raw stands for the arrays of coefficients of the entries (SetLength gives
    them the length len, their contents is raw0 before); they are turned into polynomials by normalize *)
Definition conv_pmat (x : pmat) (v : vmat) (raw0 : nat -> nat -> nat -> F) : pmat :=
  let len := vlen v in
  if len == 0%N then pm_clear x
  else if len == 1%N then conv_const x (Cmat (vr v) (vc v) (vent v 0%N))
  else
    let m := vr v in let n := vc v in
    let x := set_dims x m n in
    Pmat m n (foldl (fun M i => foldl (fun M jb =>
      let j := (jb * cache_size)%N in
      let j_bound := minn cache_size (n - j) in
      let raw := foldl (fun raw kb =>
        let k := (kb * block_size)%N in
        let k_bound := minn block_size (len - k) in
        foldl (fun raw jj => foldl (fun raw kk =>
          upd3 raw i (j + jj) (k + kk) (vent v (k + kk) i (j + jj))%N) raw (iota 0 k_bound)) raw (iota 0 j_bound))
        raw0 (iota 0 (blocks len block_size)) in
      foldl (fun M jj => upd2 M i (j + jj) (Poly (mkseq (raw i (j + jj)%N) len))) M (iota 0 j_bound))
      M (iota 0 (blocks n cache_size))) (ent x) (iota 0 m)).

(** 630-646, conv to a vector of matrices, truncated *)
Definition conv_vmat_order (a : pmat) (order : nat) : vmat :=
  Vmat order (nr a) (nc a) (foldl (fun V k => foldl (fun V i => foldl (fun V j => upd3 V k i j (ent a i j)`_k) V (iota 0 (nc a)))
    V (iota 0 (nr a))) (fun _ _ _ => 0) (iota 0 order)).
(** 648-672, conv from a vector of matrices, truncated *)
Definition conv_pmat_order (x : pmat) (v : vmat) (order : nat) : pmat :=
  let len := minn order (vlen v) in
  if len == 0%N then pm_clear x
  else
    let m := vr v in let n := vc v in
    let x := set_dims x m n in
    Pmat m n (win (fun i j _ => Poly (mkseq (fun k => vent v k i j) len)) 0 m 0 n (ent x)).

(** *** mat_lzz_pX_arith.cpp *)

(** the binary entrywise operations: 22-34, add; 125-137, sub. al_a, al_b: c and a, c and b are the same object *)
Definition ewise2 (al_a al_b : bool) (g : P -> P -> P) (x a b : pmat) : aoutcome pmat :=
  if (nr a != nr b) || (nc a != nc b) then AUB
  else
    let x := if al_a then a else if al_b then b else set_dims x (nr a) (nc a) in
    AOk (Pmat (nr x) (nc x) (win (fun i j M => g (if al_a then M i j else ent a i j) (if al_b then M i j else ent b i j))
      0 (nr a) 0 (nc a) (ent x))).
Definition pm_add_to al_a al_b := ewise2 al_a al_b +%R.
Definition pm_sub_to al_a al_b := ewise2 al_a al_b (fun p q => p - q).
(** 39-51, 142-154, 159-171: one operand is a constant matrix *)
Definition pm_addc (alias : bool) (x a : pmat) (b : cmat) : aoutcome pmat :=
  if (nr a != cr b) || (nc a != cc b) then AUB
  else AOk (ewise alias (fun i j p => p + (cent b i j)%:P) x a).
Definition pm_subc (alias : bool) (x a : pmat) (b : cmat) : aoutcome pmat :=
  if (nr a != cr b) || (nc a != cc b) then AUB
  else AOk (ewise alias (fun i j p => p - (cent b i j)%:P) x a).
Definition pm_csub (alias : bool) (x : pmat) (a : cmat) (b : pmat) : aoutcome pmat :=
  if (cr a != nr b) || (cc a != nc b) then AUB
  else AOk (ewise alias (fun i j p => (cent a i j)%:P - p) x b).
(** 241-250, negate; 352-361, product by a scalar; 377-386, product by a polynomial that is not an entry of c *)
Definition pm_negate (alias : bool) (x a : pmat) : pmat := ewise alias (fun _ _ p => - p) x a.
Definition pm_mul_scalar (alias : bool) (x a : pmat) (b : F) : pmat := ewise alias (fun _ _ p => b *: p) x a.
Definition pm_mul_poly (alias : bool) (x a : pmat) (b : P) : pmat := ewise alias (fun _ _ p => p * b) x a.

(** 263-296, product by a constant matrix on the right. A matrix c that is a itself is replaced by a new one *)
Definition pm_mulc (alias : bool) (x a : pmat) (b : cmat) : aoutcome pmat :=
  let x := if alias then new_pmat else x in
  if nc a != cr b then AUB
  else
    let m := nr a in let n := nc a in let p := cc b in
    let c := pm_clear (set_dims x m p) in
    AOk (Pmat m p (foldl (fun M d =>
      let tmp := foldl (fun T u => foldl (fun T v => upd2 T u v (ent a u v)`_d) T (iota 0 n)) (fun _ _ => 0) (iota 0 m) in
      let res := fmul n tmp (cent b) in
      win (fun u v M => set_coeff (M u v) d (res u v)) 0 m 0 p M) (ent c) (iota 0 (plen a)))).
(** 301-335, product by a constant matrix on the left *)
Definition pm_cmul (alias : bool) (x : pmat) (a : cmat) (b : pmat) : aoutcome pmat :=
  let x := if alias then new_pmat else x in
  if cc a != nr b then AUB
  else
    let m := cr a in let n := cc a in let p := nc b in
    let c := pm_clear (set_dims x m p) in
    AOk (Pmat m p (foldl (fun M d =>
      let tmp := foldl (fun T u => foldl (fun T v => upd2 T u v (ent b u v)`_d) T (iota 0 p)) (fun _ _ => 0) (iota 0 n) in
      let res := fmul n (cent a) tmp in
      win (fun u v M => set_coeff (M u v) d (res u v)) 0 m 0 p M) (ent c) (iota 0 (plen b)))).
End Util.
