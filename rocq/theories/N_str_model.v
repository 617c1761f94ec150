(** ntl-extras/structured_lzz_p/src/hankel_lzz_p.cpp, toeplitz_lzz_p.cpp and lower_triangular_toeplitz_lzz_p.cpp: structured matrices and their
    products with vectors and matrices. A vector is a sequence; the transposed product tKarMul_aux is that of N_mid_model.v and an fftRep a
    residue modulo X^(2^k) - 1. None is a recursion that does not end within the fuel, AUB an error of NTL or undefined behaviour. The
    branches on &res == &input make a copy and are not repeated. *)
From mathcomp Require Import all_ssreflect all_algebra.
From Verif Require Import A_base A_mul_model N_pmat_model N_util_model N_poly_model N_mid_model.
Set Implicit Arguments.
Unset Strict Implicit.
Unset Printing Implicit Defensive.
Import GRing.Theory.
Local Open Scope ring_scope.

Section Str.
Variable F : fieldType.
Local Notation P := {poly F}.
(** MX is NTL_zz_pX_MUL_CROSSOVER, garb the content of the memory; ul and KARX as in N_mid_model.v *)
Variables (fuel MX KARX : nat) (ul : bool) (garb : nat -> F).

(** a hankel_lzz_p or toeplitz_lzz_p: n, m, data, data_rev; fft_data is computed from data_rev *)
Record hmat := Hmat { hn : nat; hm : nat; hdata : seq F; hrev : seq F }.
(** hankel_lzz_p.cpp:31-49, toeplitz_lzz_p.cpp:31-49: input is read up to the index n + m - 2; SetLength(-1) is an error *)
Definition hmat_init (input : seq F) (rows cols : nat) : aoutcome hmat :=
  if (rows + cols == 0)%N || (size input < rows + cols - 1)%N then AUB
  else AOk (Hmat rows cols input (mkseq (fun i => input`_(rows + cols - 2 - i)) (rows + cols - 1))).

(** the calls tKarMul_aux(res, sb, in, sa, data_rev, sa + sb - 1, stk) of all products; res, in, data_rev and stk are laid out one after
    the other, the size of stk is that of Kar_stk_size *)
Definition kar_product (rev : seq F) (sb sa : nat) (v : nat -> F) : option (nat -> F) :=
  let a := sb in let c := (sb + sa)%N in let stk := (sb + sa + (sa + sb - 1))%N in
  let M := mloop sa a (fun _ i => v i) garb in
  let M := mloop (sa + sb - 1) c (fun _ i => rev`_i) M in
  obind (fun _ => tkar fuel KARX ul M 0 sb a sa c (sa + sb - 1) stk) (kar_stk_size fuel KARX (maxn sa sb)).
(** the fft branches: w is written in input_X, the result is FromfftRep(res, fft_input, sa - 1, sa + sb - 2) *)
Definition fft_product (rev : seq F) (sb sa : nat) (w : nat -> F) : nat -> F :=
  let k := next_pow2 (sa + sb - 1) in
  let data_X := \poly_(i < sa + sb - 1) rev`_i in
  let input_X := \poly_(i < sa) w i in
  let r := fromfft (fftmul k (cyc k input_X) (cyc k data_X)) (sa - 1) (sa + sb - 2) in
  fun i => r`_i.
Definition kar_branch (h : hmat) : bool := (minn (hn h) (hm h) <= (2 * MX) %/ 4)%N.

(** *** hankel_lzz_p.cpp *)
(** 67-73 *)
Definition hankel_dense (h : hmat) : cmat F := Cmat (hn h) (hm h) (fun i j => (hdata h)`_(hm h + hn h - 2 - i - j)).
(** 78-116, the product of the matrix and the vector v; also the loops 164-171 and 179-192 for one column *)
Definition hankel_right_core (h : hmat) (v : nat -> F) : option (nat -> F) :=
  if kar_branch h then kar_product (hrev h) (hn h) (hm h) v
  else Some (fft_product (hrev h) (hn h) (hm h) (fun i => v (hm h - 1 - i)%N)).
Definition hankel_right (h : hmat) (v : seq F) : option (aoutcome (seq F)) :=
  if size v != hm h then Some AUB else omap (fun r => AOk (mkseq r (hn h))) (hankel_right_core h (fun i => v`_i)).
(** 200-237; also the loops 283-290 and 298-311 for one row *)
Definition hankel_left_core (h : hmat) (v : nat -> F) : option (nat -> F) :=
  if kar_branch h then kar_product (hrev h) (hm h) (hn h) v
  else Some (fft_product (hrev h) (hm h) (hn h) (fun i => v (hn h - 1 - i)%N)).
Definition hankel_left (h : hmat) (v : seq F) : option (aoutcome (seq F)) :=
  if size v != hn h then Some AUB else omap (fun r => AOk (mkseq r (hm h))) (hankel_left_core h (fun i => v`_i)).

(** the dense product of NTL is used when the matrix is almost square, the other operand has enough columns and the dimensions are below
    a threshold that depends on the prime (137-150, 257-270) *)
Variable small_dims : nat -> bool.
Definition use_dense (h : hmat) (p : nat) : bool :=
  [&& (maxn (hm h) (hn h) %/ 2 <= minn (hm h) (hn h))%N, (minn (hm h) (hn h) %/ 4 <= p)%N & small_dims (minn (hm h) (hn h))].
Definition dense_mul (a b : cmat F) : cmat F := Cmat (cr a) (cc b) (fun i j => \sum_(k < cc a) cent a i k * cent b k j).
(** p vectors computed one after the other *)
Definition vectors (p : nat) (f : nat -> option (nat -> F)) : option (nat -> nat -> F) :=
  if all (fun l => isSome (f l)) (iota 0 p) then Some (fun l i => if f l is Some r then r i else 0) else None.
(** 122-194 *)
Definition hankel_right_mat (h : hmat) (b : cmat F) : option (aoutcome (cmat F)) :=
  if cr b != hm h then Some AUB
  else if use_dense h (cc b) then Some (AOk (dense_mul (hankel_dense h) b))
  else omap (fun r => AOk (Cmat (hn h) (cc b) (fun i j => r j i))) (vectors (cc b) (fun j => hankel_right_core h (fun i => cent b i j))).
(** 242-313 *)
Definition hankel_left_mat (h : hmat) (b : cmat F) : option (aoutcome (cmat F)) :=
  if cc b != hn h then Some AUB
  else if use_dense h (cr b) then Some (AOk (dense_mul b (hankel_dense h)))
  else omap (fun r => AOk (Cmat (cr b) (hm h) (fun i j => r i j))) (vectors (cr b) (fun i => hankel_left_core h (fun j => cent b i j))).

(** *** toeplitz_lzz_p.cpp *)
(** 67-73 *)
Definition toeplitz_dense (h : hmat) : cmat F := Cmat (hn h) (hm h) (fun i j => (hdata h)`_(hm h + i - 1 - j)).
(** 117-122: exchange of res[i] and res[n-1-i] for 2 i <= n - 1 *)
Definition reverse_loop (n : nat) (r : nat -> F) : nat -> F :=
  foldl (fun r i => let ri := r i in upd (upd r i (r (n - 1 - i)%N)) (n - 1 - i) ri) r (iota 0 (uphalf n)).
(** 78-115, before the exchange *)
Definition toeplitz_right_core (h : hmat) (v : nat -> F) : option (nat -> F) :=
  if kar_branch h then kar_product (hrev h) (hn h) (hm h) v
  else Some (fft_product (hrev h) (hn h) (hm h) (fun i => v (hm h - 1 - i)%N)).
Definition toeplitz_right (h : hmat) (v : seq F) : option (aoutcome (seq F)) :=
  if size v != hm h then Some AUB
  else omap (fun r => AOk (mkseq (reverse_loop (hn h) r) (hn h))) (toeplitz_right_core h (fun i => v`_i)).
(** 208-250 *)
Definition toeplitz_left_core (h : hmat) (v : nat -> F) : option (nat -> F) :=
  if kar_branch h then kar_product (hrev h) (hm h) (hn h) (fun i => v (hn h - 1 - i)%N)
  else Some (fft_product (hrev h) (hm h) (hn h) v).
Definition toeplitz_left (h : hmat) (v : seq F) : option (aoutcome (seq F)) :=
  if size v != hn h then Some AUB else omap (fun r => AOk (mkseq r (hm h))) (toeplitz_left_core h (fun i => v`_i)).
(** 130-202; res[n-1-j][i] = res_vec[j] *)
Definition toeplitz_right_mat (h : hmat) (b : cmat F) : option (aoutcome (cmat F)) :=
  if cr b != hm h then Some AUB
  else if use_dense h (cc b) then Some (AOk (dense_mul (toeplitz_dense h) b))
  else omap (fun r => AOk (Cmat (hn h) (cc b) (fun i j => r j (hn h - 1 - i)%N))) (vectors (cc b) (fun j => toeplitz_right_core h (fun i => cent b i j))).
(** 255-326 *)
Definition toeplitz_left_mat (h : hmat) (b : cmat F) : option (aoutcome (cmat F)) :=
  if cc b != hn h then Some AUB
  else if use_dense h (cr b) then Some (AOk (dense_mul b (toeplitz_dense h)))
  else omap (fun r => AOk (Cmat (cr b) (hm h) (fun i j => r i j))) (vectors (cr b) (fun i => toeplitz_left_core h (fun j => cent b i j))).

(** *** lower_triangular_toeplitz_lzz_p.cpp; the matrix is given by data, dataX and fft are computed from it *)
(** 62-68, to_dense; x is the previous value of Mdense: NTL keeps the rows when the number of columns does not change *)
Definition ltt_dense (x : cmat F) (data : seq F) : cmat F :=
  let n := size data in
  Cmat n n (fun i j => if (j <= i)%N then data`_(i - j) else if (cc x == n) && (i < cr x)%N then cent x i j else 0).
(** 73-110: MulTrunc or the fft; w is written in input_X *)
Definition ltt_core (data : seq F) (w : nat -> F) : nat -> F :=
  let n := size data in let input_X := \poly_(i < n) w i in
  if (n <= MX %/ 2)%N then fun i => (ptrunc n (Poly data * input_X))`_i
  else
    let k := next_pow2 (n + n - 1) in
    fun i => (fromfft (fftmul k (cyc k input_X) (cyc k (Poly data))) 0 (n - 1))`_i.
Definition ltt_right (data v : seq F) : aoutcome (seq F) :=
  if size v != size data then AUB else AOk (mkseq (ltt_core data (fun i => v`_i)) (size data)).
(** 134-177 *)
Definition ltt_left (data v : seq F) : aoutcome (seq F) :=
  let n := size data in
  if size v != n then AUB else AOk (mkseq (fun i => ltt_core data (fun i => v`_(n - 1 - i)) (n - 1 - i)%N) n).
(** 116-128 and 182-194: the products with a matrix; res is the previous value of the result, and the functions do nothing else. When res and
    input are the same matrix the result is a new one, of dimension 0 *)
Definition ltt_right_mat (same : bool) (data : seq F) (res b : cmat F) : aoutcome (cmat F) :=
  if cr b != size data then AUB else AOk (if same then Cmat 0 0 (fun _ _ => 0) else res).
Definition ltt_left_mat (same : bool) (data : seq F) (res b : cmat F) : aoutcome (cmat F) :=
  if cc b != size data then AUB else AOk (if same then Cmat 0 0 (fun _ _ => 0) else res).
End Str.
