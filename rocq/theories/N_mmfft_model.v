(** Model of ntl-extras/mat_lzz_pX_extra/src/mat_lzz_pX_multiply_evaluate_FFT.cpp: products of matrices of polynomials
    by evaluation at roots of unity. The counters rst, rtu, jst, jtu that are incremented along the loops are written in closed
    form. In all functions the result is written when the operands are not read any more (the first two functions
    use another matrix in case of aliasing), and its previous contents are overwritten. *)
From mathcomp Require Import all_ssreflect all_algebra.
From Verif Require Import A_base A_mul_model N_multi_model N_pmat_model N_util_model N_poly_model N_mfft_model N_eval_model.
Set Implicit Arguments.
Unset Strict Implicit.
Unset Printing Implicit Defensive.
Import GRing.Theory.
Local Open Scope ring_scope.

(** mat_lzz_pX_multiply_evaluate_FFT.cpp:6-7 *)
Definition line_size : nat := 8.
Definition mblock_size : nat := 16.

Section MatFft.
Variable F : fieldType.
Local Notation P := {poly F}.
Local Notation pmat := (pmat F).
Local Notation arr := (nat -> F).

(** the number of bits of a word, NTL_BITS_PER_LONG; of a modulus, NTL_SP_NBITS *)
Variables (wbits spbits : nat).
(** the modulus, the integer that represents an element, NumBits of the modulus *)
Variables (pr : nat) (rep : F -> nat) (nbits : nat).
(** the modulus was set by FFTInit, and its MaxRoot *)
Variables (fftp : bool) (maxroot : nat).
(** [x k i]: the i-th point of the transforms of size 2^k, in the order used by NTL *)
Variable x : nat -> arr.
(** NTL, FFTRoundUp(l, k) *)
Variable ru : nat -> nat -> nat.

(** NTL, TofftRep_trunc(R, f, k, len): the values of f at the first len points (NTL reduces f modulo X^(2^k) - 1, which
    does not change its values at the 2^k-th roots of unity); this is [to_rep (x k) f]. FromfftRep(f, R, 0, l - 1) for l <= len: the first l coefficients of the polynomial
    of degree less than len with these values *)
Definition from_trunc (len : nat) (y v : arr) (l : nat) : P :=
  ptrunc l (\poly_(i < len) fmul len (finv len (vdm y)) (fun k _ => v k) i 0%N).

(** 71-75, 188-192, 239-244, 350-355, 454-459: number of coefficients of the result, index and number of points. The
    code computes deg(a) + deg(b) + 1, which is -1 when both are zero: NextPowerOfTwo and FFTRoundUp treat it as 0,
    and FromfftRep returns 0 *)
Definition len_actual (a b : pmat) : nat := (plen a + plen b - 1)%N.
Definition fft_idx (a b : pmat) : nat := next_pow2 (len_actual a b).
Definition fft_len (a b : pmat) : nat := ru (len_actual a b) (fft_idx a b).
(** the case that is not modelled: a modulus not set by FFTInit (the representation then uses other moduli);
    and errors: a transform that is too large, entries b[j][i] that do not exist *)
Definition fft_bad (a b : pmat) : bool :=
  [|| ~~ fftp, (maxroot < fft_idx a b)%N, (2 ^ fft_idx a b < fft_len a b)%N
    | (fft_len a b < len_actual a b)%N] || (nr b < nc a)%N.

(** The functions are written for any points y, number of points len, and function [out] that computes an entry of the
    result from its values: they are used for the middle products as well, in N_mp_model *)
Section Core.
Variables (len : nat) (y : arr) (out : arr -> P).

(** *** 197-222, multiply_evaluate_FFT_direct; the arithmetic operations on fftRep act on all values at once *)
Definition core_direct (a b : pmat) : aoutcome pmat :=
  let m := nr a in let n := nc a in let p := nc b in
  let valb := foldl (fun (V : nat -> nat -> arr) i => foldl (fun V j => upd2 V i j (to_rep y (ent b j i))) V (iota 0 n))
    (fun _ _ _ => 0) (iota 0 p) in
  (* vala[0] does not exist when n = 0 *)
  if (n == 0%N) && (0 < m)%N && (0 < p)%N then AUB else
  let: (_, C) := foldl (fun (st : (nat -> arr) * fmat P) i => let: (vala, C) := st in
      let vala := foldl (fun (V : nat -> arr) j => upd V j (to_rep y (ent a i j))) vala (iota 0 n) in
      (vala, foldl (fun C k =>
          let tmp1 : arr := fun r => vala 0%N r * valb k 0%N r in
          let tmp1 := foldl (fun (tmp1 : arr) j => let tmp2 : arr := fun r => vala j r * valb k j r in
              fun r => tmp1 r + tmp2 r) tmp1 (iota 1 (n - 1)) in
          upd2 C i k (out tmp1)) C (iota 0 p)))
    (fun _ _ => 0, fun _ _ => 0) (iota 0 m) in
  AOk (Pmat m p C).

(** *** 81-165, multiply_evaluate_FFT_direct_ll_type, with the double words of NTL *)

(** ll_mul and ll_mul_add: integers modulo 2^(2 wbits) *)
Definition ll_mul (x y : nat) : nat := (x * y) %% 2 ^ (2 * wbits).
Definition ll_mul_add (z x y : nat) : nat := (z + x * y) %% 2 ^ (2 * wbits).
(** sp_ll_red_21(rem(z.hi, pr, red1), z.lo, pr, red2), and the same with sp_ll_red_21_normalized, which is used when the
    modulus has spbits bits: the two branches of the function differ by this only *)
Definition ll_red (z : nat) : nat :=
  let hi := (z %/ 2 ^ wbits)%N in let lo := (z %% 2 ^ wbits)%N in
  (((hi %% pr) * 2 ^ wbits + lo) %% pr)%N.
(** 77-79 *)
Definition slice : nat := (2 ^ (2 * (wbits - spbits)) - 1)%N.
Definition first_slice (n : nat) : nat := if (n %% slice != 0)%N then (n %% slice)%N else slice.
Definition nb_slices (n : nat) : nat := if (n %% slice != 0)%N then (n %/ slice)%N else (n %/ slice - 1)%N.
(** 104-124 and 139-159: the values u and v of a row and a column, for the k-th point; for n = 0 see below *)
Definition ll_dot (n : nat) (u v : nat -> nat) : nat :=
  let tmp := ll_mul (u 0%N) (v 0%N) in
  let tmp := foldl (fun tmp j => ll_mul_add tmp (u j) (v j)) tmp (iota 1 (first_slice n - 1)) in
  let: (tmp, _) := foldl (fun (st : nat * nat) jj => let: (tmp, start) := st in
      let tmp := ll_red tmp in
      (foldl (fun tmp j => ll_mul_add tmp (u (j + start)%N) (v (j + start)%N)) tmp (iota 0 slice), (start + slice)%N))
    (tmp, first_slice n) (iota 0 (nb_slices n)) in
  ll_red tmp.
Definition core_ll (a b : pmat) : aoutcome pmat :=
  let m := nr a in let n := nc a in let p := nc b in
  (* a[0][0] is read in line 90 *)
  if (m == 0%N) || (n == 0%N) then AUB else
  let valb := foldl (fun (V : nat -> nat -> arr) i => foldl (fun V j => upd2 V i j (to_rep y (ent b j i))) V (iota 0 n))
    (fun _ _ _ => 0) (iota 0 p) in
  let: (_, C) := foldl (fun (st : (nat -> arr) * fmat P) i => let: (vala, C) := st in
      let vala := foldl (fun (V : nat -> arr) j => upd V j (to_rep y (ent a i j))) vala (iota 0 n) in
      (vala, foldl (fun C k =>
          let tmp_r : arr := fun r => (ll_dot n (fun j => rep (vala j r)) (fun j => rep (valb k j r)))%:R in
          upd2 C i k (out tmp_r)) C (iota 0 p)))
    (fun _ _ => 0, fun _ _ => 0) (iota 0 m) in
  AOk (Pmat m p C).

(** *** the three functions that use products of matrices over the field *)

(** The pointers R.tbl[0] and RR[kk]: None for the null pointer. Lines 260-265, 277-282, 473-478, 494-499: R.tbl[0] is
    allocated, filled, and swapped with RR[kk] *)
Definition buffers := (option arr * (nat -> option arr))%type.
Definition load_block (f : nat -> arr) (bnd : nat) (st : buffers) : buffers :=
  foldl (fun (st : buffers) kk => let: (R, RR) := st in let R := Some (f kk) in (RR kk, upd RR kk R)) st (iota 0 bnd).
Definition rd (o : option arr) (r : nat) : F := if o is Some v then v r else 0.
(** some pointer that is going to be dereferenced is null *)
Definition null_in (RR : nat -> option arr) (bnd : nat) : bool := ~~ all (fun kk => isSome (RR kk)) (iota 0 bnd).
(** 255-270, 273-286, 469-482, 490-503: all values of the s x t matrix e; [wr M r i k v] stores the value v at the r-th
    point of the entry (i, k) *)
Definition load_phase (T : Type) (wr : T -> nat -> nat -> nat -> F -> T) (bs len s t : nat) (y : arr) (e : fmat P)
    (st : aoutcome (buffers * T)) : aoutcome (buffers * T) :=
  foldl (fun st i => foldl (fun (st : aoutcome (buffers * T)) blk =>
      match st with
      | AUB => AUB
      | AOk (RS, M) =>
        let k := (blk * bs)%N in
        let kk_bnd := minn bs (t - k) in
        let: (R, RR) := load_block (fun kk => to_rep y (e i (k + kk)%N)) kk_bnd RS in
        if null_in RR kk_bnd && (0 < len)%N then AUB
        else AOk (R, RR, foldl (fun M r => foldl (fun M kk => wr M r i (k + kk)%N (rd (RR kk) r)) M (iota 0 kk_bnd)) M (iota 0 len))
      end) st (iota 0 (blocks t bs))) st (iota 0 s).
Definition no_buffers : buffers := (None, fun _ => None).

(** 314-321, and 419-426 where the last two loops are exchanged: C[i u + k][j] is the entry (i, k) of the product for the
    j-th point, for the block of points number blk *)
Definition store_block (len s u blk : nat) (vc : nat -> fmat F) (C : nat -> arr) : nat -> arr :=
  let j := (blk * line_size)%N in
  let jj_bnd := minn line_size (len - j) in
  foldl (fun C i => foldl (fun C kb =>
      let k := (kb * mblock_size)%N in
      let kk_bnd := minn mblock_size (u - k) in
      foldl (fun C jj => foldl (fun C kk => upd2 C (i * u + (k + kk))%N (j + jj)%N (vc jj i (k + kk)%N)) C (iota 0 kk_bnd))
        C (iota 0 jj_bnd)) C (iota 0 (blocks u mblock_size))) C (iota 0 s).
(** the last loops of matmul1 and matmul2, 327-332 and 431-436: the buffers of mat_valC are all allocated *)
Definition unload (s u : nat) (C : nat -> arr) : pmat :=
  Pmat s u (win (fun i k _ => out (C (i * u + k)%N)) 0 s 0 u (fun _ _ => 0)).

(** 245-333, multiply_evaluate_FFT_matmul1 *)
Definition core_matmul1 (a b : pmat) : aoutcome pmat :=
  let s := nr a in let t := nc a in let u := nc b in
  match load_phase (fun M r i k v => upd M (r * (s * t) + i * t + k)%N v) line_size len s t y (ent a)
      (AOk (no_buffers, (fun _ => 0) : arr)) with
  | AUB => AUB
  | AOk (RS, mA) =>
    match load_phase (fun M r i k v => upd M (r * (t * u) + i * u + k)%N v) line_size len t u y (ent b)
        (AOk (RS, (fun _ => 0) : arr)) with
    | AUB => AUB
    | AOk (_, mB) =>
      let z : fmat F := fun _ _ => 0 in
      let: (_, _, _, C) := foldl (fun (st : fmat F * fmat F * (nat -> fmat F) * (nat -> arr)) blk =>
          let: (va, vb, vc, C) := st in
          let j := (blk * line_size)%N in
          let: (va, vb, vc) := foldl (fun (st : fmat F * fmat F * (nat -> fmat F)) jj => let: (va, vb, vc) := st in
              let va := fill s t (fun i k => mA ((j + jj) * (s * t) + i * t + k)%N) va in
              let vb := fill t u (fun i k => mB ((j + jj) * (t * u) + i * u + k)%N) vb in
              (va, vb, upd vc jj (fmul t va vb))) (va, vb, vc) (iota 0 (minn line_size (len - j))) in
          (va, vb, vc, store_block len s u blk vc C))
        (z, z, (fun _ => z), (fun _ _ => 0)) (iota 0 (blocks len line_size)) in
      AOk (unload s u C)
    end
  end.

(** 361-367 and 372-378: arrays of values; each buffer is allocated, filled, and swapped with the entry of the vector *)
Definition load_arrays (s t : nat) (y : arr) (e : fmat P) : nat -> arr :=
  foldl (fun V i => foldl (fun V k => upd V (i * t + k)%N (to_rep y (e i k))) V (iota 0 t)) (fun _ _ => 0) (iota 0 s).
(** 399-406 and 407-414: the matrices of the points of a block *)
Definition gather (len s t blk : nat) (V : nat -> arr) (W : nat -> fmat F) : nat -> fmat F :=
  let j := (blk * line_size)%N in
  let jj_bnd := minn line_size (len - j) in
  foldl (fun W i => foldl (fun W kb =>
      let k := (kb * mblock_size)%N in
      let kk_bnd := minn mblock_size (t - k) in
      foldl (fun W jj => foldl (fun W kk => upd3 W jj i (k + kk)%N (V (i * t + (k + kk))%N (j + jj)%N)) W (iota 0 kk_bnd))
        W (iota 0 jj_bnd)) W (iota 0 (blocks t mblock_size))) W (iota 0 s).
(** 356-437, multiply_evaluate_FFT_matmul2 *)
Definition core_matmul2 (a b : pmat) : aoutcome pmat :=
  let s := nr a in let t := nc a in let u := nc b in
  let mA := load_arrays s t y (ent a) in
  let mB := load_arrays t u y (ent b) in
  let z : nat -> fmat F := fun _ _ _ => 0 in
  let: (_, _, _, C) := foldl (fun (st : (nat -> fmat F) * (nat -> fmat F) * (nat -> fmat F) * (nat -> arr)) blk =>
      let: (va, vb, vc, C) := st in
      let va := gather len s t blk mA va in
      let vb := gather len t u blk mB vb in
      let vc := foldl (fun (vc : nat -> fmat F) jj => upd vc jj (fmul t (va jj) (vb jj))) vc
        (iota 0 (minn line_size (len - blk * line_size))) in
      (va, vb, vc, store_block len s u blk vc C))
    (z, z, z, (fun _ _ => 0)) (iota 0 (blocks len line_size)) in
  AOk (unload s u C).

(** 460-528, multiply_evaluate_FFT_matmul3; the buffers RR are written (lines 519-521) whatever they hold *)
Definition core_matmul3 (a b : pmat) : aoutcome pmat :=
  let s := nr a in let t := nc a in let u := nc b in
  let z : nat -> fmat F := fun _ _ _ => 0 in
  match load_phase (fun M r i k v => upd3 M r i k v) mblock_size len s t y (ent a) (AOk (no_buffers, z)) with
  | AUB => AUB
  | AOk (RS, mA) =>
    match load_phase (fun M r i k v => upd3 M r i k v) mblock_size len t u y (ent b) (AOk (RS, z)) with
    | AUB => AUB
    | AOk (RS, mB) =>
      let mA := foldl (fun mA j => upd mA j (fmul t (mA j) (mB j))) mA (iota 0 len) in
      match foldl (fun st i => foldl (fun (st : aoutcome (buffers * fmat P)) blk =>
          match st with
          | AUB => AUB
          | AOk (R, RR, C) =>
            let k := (blk * mblock_size)%N in
            let kk_bnd := minn mblock_size (u - k) in
            if null_in RR kk_bnd && (0 < len)%N then AUB else
            let RR := foldl (fun (RR : nat -> option arr) r => foldl (fun RR kk =>
                upd RR kk (Some (upd (fun r => rd (RR kk) r) r (mA r i (k + kk)%N)))) RR (iota 0 kk_bnd)) RR (iota 0 len) in
            AOk (foldl (fun (st : buffers * fmat P) kk => let: (R, RR, C) := st in
                let: (R, RR) := (RR kk, upd RR kk R) in
                (R, RR, upd2 C i (k + kk)%N (out (rd R)))) (R, RR, C) (iota 0 kk_bnd))
          end) st (iota 0 (blocks u mblock_size))) (AOk (RS, (fun _ _ => 0) : fmat P)) (iota 0 s) with
      | AUB => AUB
      | AOk (_, C) => AOk (Pmat s u C)
      end
    end
  end.

End Core.

(** 173-223, 48-166, 233-333, 344-437, 448-528: the five functions *)
Definition run_fft (core : nat -> arr -> (arr -> P) -> pmat -> pmat -> aoutcome pmat) (a b : pmat) : aoutcome pmat :=
  let la := len_actual a b in let K := fft_idx a b in let len := fft_len a b in
  if fft_bad a b then AUB else core len (x K) (fun v => from_trunc len (x K) v la) a b.
Definition multiply_fft_direct : pmat -> pmat -> aoutcome pmat := run_fft (fun _ => core_direct).
Definition multiply_fft_ll : pmat -> pmat -> aoutcome pmat := run_fft (fun _ => core_ll).
Definition multiply_fft_matmul1 : pmat -> pmat -> aoutcome pmat := run_fft core_matmul1.
Definition multiply_fft_matmul2 : pmat -> pmat -> aoutcome pmat := run_fft core_matmul2.
Definition multiply_fft_matmul3 : pmat -> pmat -> aoutcome pmat := run_fft core_matmul3.

(** 659-716, multiply_evaluate_FFT; nbits is NumBits(zz_p::modulus()). When deg(a) + deg(b) is negative d is 0 or -1
    in the code and 0 here, which are both less than the thresholds *)
Definition multiply_evaluate_fft (a b : pmat) : aoutcome pmat :=
  let cube := (nr a * nc a * nc b)%N in
  let d := ((plen a + plen b - 2) %/ 2)%N in
  if (nbits < 25)%N then
    if (cube < 4 * 4 * 4)%N || ((cube <= 6 * 6 * 6)%N && (100 < d)%N) then multiply_fft_direct a b
    else if (cube <= 8 * 8 * 8)%N then multiply_fft_ll a b
    else if (d < 32)%N then multiply_evaluate_dense a b
    else if (cube <= 16 * 16 * 16)%N then
      if (50 < d)%N then multiply_fft_matmul2 a b else multiply_evaluate_dense2 a b
    else if (100 < d)%N || ((cube < 64 * 64 * 64)%N && (80 < d)%N) then multiply_fft_matmul1 a b
    else multiply_evaluate_dense2 a b
  else
    if (cube < 4 * 4 * 4)%N || ((cube == 4 * 4 * 4)%N && (90 <= d)%N) || ((cube <= 8 * 8 * 8)%N && (65 <= d)%N)
    then multiply_fft_direct a b
    else if (cube < 20 * 20 * 20)%N || ((cube < 25 * 25 * 25)%N && (1300 <= d)%N) then multiply_fft_ll a b
    else if [|| (cube < 25 * 25 * 25)%N, (512 < d)%N, (cube < 48 * 48 * 48)%N && (32 < d)%N
              | (cube < 128 * 128 * 128)%N && (256 < d)%N] then multiply_fft_matmul1 a b
    else multiply_fft_matmul3 a b.
End MatFft.
