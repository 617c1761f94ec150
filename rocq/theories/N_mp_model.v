(** Model of the middle products of matrices of polynomials of ntl-extras, mat_lzz_pX_extra/src:
    mat_lzz_pX_middle_product.cpp, mat_lzz_pX_middle_product_evaluate_FFT.cpp, mat_lzz_pX_middle_product_evaluate_dense.cpp.
    The counters ell, rst, rtu, jst, jtu that are incremented along the loops are written in closed form. In all functions the
    result is written when the operands are not read any more (the functions that write it earlier use another
    matrix in case of aliasing), and its previous contents are overwritten. Operands whose dimensions do not match are an error. *)
From mathcomp Require Import all_ssreflect all_algebra.
From Verif Require Import A_base A_mul_model N_multi_model N_pmat_model N_util_model N_poly_model N_mid_model N_mfft_model N_eval_model N_mmfft_model.
Set Implicit Arguments.
Unset Strict Implicit.
Unset Printing Implicit Defensive.
Import GRing.Theory.
Local Open Scope ring_scope.

Section MP.
Variable F : fieldType.
Local Notation P := {poly F}.
Local Notation pmat := (pmat F).
Local Notation arr := (nat -> F).
(** the constants of NTL and the points of its FFT, see N_mmfft_model *)
Variables (wbits spbits : nat) (pr : nat) (rep : F -> nat) (nbits : nat) (fftp : bool) (maxroot : nat) (x : nat -> arr).
(** the thresholds and the memory of the middle product of polynomials, see N_mid_model *)
Variables (fuel MX KARX : nat) (ul : bool).

(** mat_lzz_pX_middle_product.cpp:63-89, middle_product_naive. [garb i j k]: the memory used by the product of a[i][k] and c[k][j].
    The first product reads a[i][0] and c[0][j] *)
Definition middle_product_naive (garb : nat -> nat -> nat -> arr) (a c : pmat) (dA dB : nat) : option (aoutcome pmat) :=
  let u := nr a in let v := nc a in let w := nc c in
  let mid i j k := middle_product fuel MX KARX ul (garb i j k) (ent a i k) (ent c k j) dA dB in
  if (nr c != v) || ((v == 0%N) && (0 < u)%N && (0 < w)%N) then Some AUB
  else omap (fun B => AOk (Pmat u w B))
    (foldl (fun (st : option (fmat P)) i => foldl (fun st j =>
        obind (fun B => obind (fun b0 =>
          foldl (fun st k => obind (fun B : fmat P => omap (fun buf => upd2 B i j (B i j + buf)) (mid i j k)) st)
            (Some (upd2 B i j b0)) (iota 1 (v - 1))) (mid i j 0%N)) st)
        st (iota 0 w)) (Some (fun _ _ => 0)) (iota 0 u)).

(** *** mat_lzz_pX_middle_product_evaluate_FFT.cpp *)

(** NTL, FromfftRep(f, R, lo, hi): the coefficients lo .. hi of the polynomial of degree less than len with the values v *)
Definition from_range (len : nat) (y v : arr) (lo hi : nat) : P :=
  fromfft (\poly_(i < len) fmul len (finv len (vdm y)) (fun k _ => v k) i 0%N) lo (minn hi (len - 1)).
(** 75-76, 195-196, 234-237, 323-324, 422-423, 510-511: index and number of points *)
Definition mp_idx (dA dB : nat) : nat := next_pow2 (dA + dB + 1).
Definition mp_len (dA dB : nat) : nat := (2 ^ mp_idx dA dB)%N.
(** the case that is not modelled, a modulus not set by FFTInit; and errors: a transform that is too large, dimensions *)
Definition mp_bad (a c : pmat) (dA dB : nat) : bool := [|| ~~ fftp, (maxroot < mp_idx dA dB)%N | nr c != nc a].

(** 226-314, middle_product_evaluate_FFT_matmul *)
Definition core_matmul (len : nat) (y : arr) (out : arr -> P) (a c : pmat) : aoutcome pmat :=
  let s := nr a in let t := nc a in let u := nc c in
  (* 245-268 *)
  let load (s t : nat) (e : fmat P) : arr := foldl (fun M i => foldl (fun M k =>
      let R := to_rep y (e i k) in
      foldl (fun M r => upd M (r * (s * t) + i * t + k)%N (R r)) M (iota 0 len)) M (iota 0 t)) (fun _ => 0) (iota 0 s) in
  let mA := load s t (ent a) in
  let mC := load t u (ent c) in
  let z : fmat F := fun _ _ => 0 in
  (* 278-301 *)
  let: (_, _, B) := foldl (fun (st : fmat F * fmat F * (nat -> arr)) j => let: (va, vc, B) := st in
      let va := fill s t (fun i k => mA (j * (s * t) + i * t + k)%N) va in
      let vc := fill t u (fun i k => mC (j * (t * u) + i * u + k)%N) vc in
      let vb := fmul t va vc in
      (va, vc, foldl (fun B i => foldl (fun B k => upd2 B (i * u + k)%N j (vb i k)) B (iota 0 u)) B (iota 0 s)))
    (z, z, (fun _ _ => 0)) (iota 0 len) in
  (* 303-313: all the values of R1 are overwritten *)
  AOk (unload out s u B).

Definition run_mp (core : nat -> arr -> (arr -> P) -> pmat -> pmat -> aoutcome pmat) (a c : pmat) (dA dB : nat) : aoutcome pmat :=
  let K := mp_idx dA dB in let len := mp_len dA dB in
  if mp_bad a c dA dB then AUB else core len (x K) (fun v => from_range len (x K) v dA (dA + dB)) a c.
(** 172-217; 49-164 (ll_type); 226-314; 316-413; 415-502; 504-578: the loops are those of the functions of
    mat_lzz_pX_multiply_evaluate_FFT.cpp, except for the second one *)
Definition mp_fft_direct : pmat -> pmat -> nat -> nat -> aoutcome pmat := run_mp (fun _ => @core_direct F).
Definition mp_fft_ll : pmat -> pmat -> nat -> nat -> aoutcome pmat := run_mp (fun _ => core_ll wbits spbits pr rep).
Definition mp_fft_matmul : pmat -> pmat -> nat -> nat -> aoutcome pmat := run_mp core_matmul.
Definition mp_fft_matmul1 : pmat -> pmat -> nat -> nat -> aoutcome pmat := run_mp (@core_matmul1 F).
Definition mp_fft_matmul2 : pmat -> pmat -> nat -> nat -> aoutcome pmat := run_mp (@core_matmul2 F).
Definition mp_fft_matmul3 : pmat -> pmat -> nat -> nat -> aoutcome pmat := run_mp (@core_matmul3 F).

(** 587-603, middle_product_evaluate_FFT *)
Definition mp_evaluate_fft (a c : pmat) (dA dB : nat) : aoutcome pmat :=
  let thresh := if (nbits < 30)%N then (20 * 20 * 20)%N else (45 * 45 * 45)%N in
  if (nr a * nc a * nc c < thresh)%N then mp_fft_direct a c dA dB else mp_fft_matmul a c dA dB.

(** *** mat_lzz_pX_middle_product_evaluate_dense.cpp:11-86, middle_product_evaluate_dense. The indices dA - k and k of the rows
    of tmp_mat are out of range when a or c have a larger degree *)
Definition mp_evaluate_dense (a c : pmat) (dA dB : nat) : aoutcome pmat :=
  let m := nr a in let n := nc a in let p := nc c in
  let nb := (dA + dB + 1)%N in
  if (nr c != n) || (dA.+1 < plen a)%N || (nb < plen c)%N then AUB
  else
    let: (V, vA, vB) := @vandermonde F dA.+1 dB.+1 nb in
    match inv_mat nb V with
    | AUB => AUB
    | AOk iv =>
      let z : fmat F := fun _ _ => 0 in
      let ivt : fmat F := fun i j => iv j i in
      let vBt : fmat F := fun i j => vB j i in
      (* lines 26-31 *)
      let tmp := foldl (fun M i => foldl (fun M j =>
          foldl (fun M k => upd2 M (dA - k)%N (i * n + j)%N (ent a i j)`_k) M (iota 0 (size (ent a i j)))) M (iota 0 n)) z (iota 0 m) in
      let valA := fmul dA.+1 vA tmp in
      (* lines 37-47: the rows are kept when the number of columns does not change *)
      let tmp := if (n * p == m * n)%N then tmp else z in
      let tmp := foldl (fun M i => foldl (fun M j =>
          let d := size (ent c i j) in
          let M := foldl (fun M k => upd2 M k (i * p + j)%N (ent c i j)`_k) M (iota 0 d) in
          foldl (fun M k => upd2 M k (i * p + j)%N 0) M (iota d (nb - d))) M (iota 0 p)) tmp (iota 0 n) in
      let valC := fmul nb ivt tmp in
      (* lines 55-74 *)
      let: (_, _, valB) := foldl (fun (st : fmat F * fmat F * fmat F) i => let: (valAp, valCp, valB) := st in
          let valAp := fill m n (fun u v => valA i (u * n + v)%N) valAp in
          let valCp := fill n p (fun u v => valC i (u * p + v)%N) valCp in
          let valBp := fmul n valAp valCp in
          (valAp, valCp,
           foldl (fun M u => foldl (fun M v => upd2 M i (u * p + v)%N (valBp u v)) M (iota 0 p)) valB (iota 0 m)))
        (z, z, z) (iota 0 nb) in
      let tmp := fmul nb vBt valB in
      (* lines 77-85 *)
      AOk (Pmat m p (win (fun u v _ => \poly_(i < dB.+1) tmp i (u * p + v)%N) 0 m 0 p (fun _ _ => 0)))
    end.

(** mat_lzz_pX_middle_product_evaluate_FFT.cpp:605-676, middle_product_evaluate_FFT_new *)
Definition mp_evaluate_fft_new (a c : pmat) (dA dB : nat) : aoutcome pmat :=
  let cube := (nr a * nc a * nc c)%N in
  let d := ((dA + dB) %/ 2)%N in
  if (nbits < 25)%N then
    if (cube < 4 * 4 * 4)%N || ((cube <= 6 * 6 * 6)%N && (100 < d)%N) then mp_fft_direct a c dA dB
    else if (cube <= 8 * 8 * 8)%N then mp_fft_ll a c dA dB
    else if (d < 32)%N then mp_evaluate_dense a c dA dB
    else if (cube <= 16 * 16 * 16)%N then
      if (50 < d)%N then mp_fft_matmul2 a c dA dB else mp_evaluate_dense a c dA dB
    else if (100 < d)%N || ((cube < 64 * 64 * 64)%N && (80 < d)%N) then mp_fft_matmul1 a c dA dB
    else mp_evaluate_dense a c dA dB
  else
    if (cube < 4 * 4 * 4)%N || ((cube == 4 * 4 * 4)%N && (90 <= d)%N) || ((cube <= 8 * 8 * 8)%N && (65 <= d)%N)
    then mp_fft_direct a c dA dB
    else if (cube < 20 * 20 * 20)%N || ((cube < 25 * 25 * 25)%N && (1300 <= d)%N) then mp_fft_ll a c dA dB
    else if [|| (cube < 25 * 25 * 25)%N, (512 < d)%N, (cube < 48 * 48 * 48)%N && (32 < d)%N
              | (cube < 128 * 128 * 128)%N && (256 < d)%N] then mp_fft_matmul1 a c dA dB
    else mp_fft_matmul3 a c dA dB.
End MP.
