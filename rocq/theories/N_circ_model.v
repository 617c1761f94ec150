(** ntl-extras/structured_lzz_p/src/circulant_column_lzz_p.cpp and circulant_row_lzz_p.cpp: rectangular circulant matrices. A vector is a
    sequence, an fftRep a residue modulo X^(2^k) - 1; AUB is an error of NTL or undefined behaviour. The branches on &res == &input make a copy
    and are not repeated. *)
From mathcomp Require Import all_ssreflect all_algebra.
From Verif Require Import A_base A_mul_model N_pmat_model N_util_model N_poly_model N_mid_model.
Set Implicit Arguments.
Unset Strict Implicit.
Unset Printing Implicit Defensive.
Import GRing.Theory.
Local Open Scope ring_scope.

Section Circ.
Variable F : fieldType.
Local Notation P := {poly F}.

(** one chunk of len entries of the vector: circulant_column_lzz_p.cpp:121-140 and 144-160 (with len = n), circulant_row_lzz_p.cpp:193-212
    and 216-232; also 197-217 of the first and 107-127 of the second: product, then sum of the coefficients i and i + n *)
Definition circ_fold (n len : nat) (q : P) (w : nat -> F) : nat -> F :=
  let L := next_pow2 (n + len - 1) in
  let out := fromfft (fftmul L (cyc L (\poly_(i < len) w i)) (cyc L q)) 0 (n + len - 2) in
  fun i => if (i < len)%N then out`_i + out`_(i + n) else out`_i.
(** circulant_column_lzz_p.cpp:107-161, circulant_row_lzz_p.cpp:179-233: the vector of length m is cut into chunks of length n; the last one first *)
Definition circ_chunks (n m : nat) (q : P) (v : nat -> F) : nat -> F :=
  let leftover := if (m %% n == 0)%N then n else (m %% n)%N in
  let nb := if (m %% n == 0)%N then (m %/ n).-1 else (m %/ n)%N in
  foldl (fun res r i => res i + circ_fold n n q (fun k => v (k + r * n)%N) i) (circ_fold n leftover q (fun k => v (k + nb * n)%N)) (iota 0 nb).
(** circulant_column_lzz_p.cpp:197-232, circulant_row_lzz_p.cpp:107-142: the entries from n on are copied from n entries before, in increasing
    order (the do loop goes through them by chunks of n) *)
Definition circ_repeat (n m : nat) (q : P) (v : nat -> F) : nat -> F :=
  foldl (fun res i => upd res i (res (i - n)%N)) (circ_fold n n q v) (iota n (m - n)).

(** *** circulant_column_lzz_p: data is the first column, m the number of columns; the constructor (30-59) reads input[0] *)
Definition ccol_poly1 (data : seq F) : P := \poly_(i < size data) if i is i'.+1 then data`_(size data - 1 - i') else data`_0.
Definition ccol_poly2 (data : seq F) : P := \poly_(i < size data) data`_i.
(** 77-89 *)
Definition ccol_dense (data : seq F) (m : nat) : cmat F :=
  let n := size data in
  Cmat n m (fun j i => data`_(n - 1 - `|((i%:Z - j%:Z - 1) %% n%:Z)%Z|)).
(** 94-162; without columns the number of chunks is -1 and the vector is read at a negative index *)
Definition ccol_right (data : seq F) (m : nat) (v : seq F) : aoutcome (seq F) :=
  let n := size data in
  if (n == 0%N) || (size v != m) || (m == 0%N) then AUB else AOk (mkseq (circ_chunks n m (ccol_poly2 data) (fun i => v`_i)) n).
(** 184-233; input_X has length m and n entries are written *)
Definition ccol_left (data : seq F) (m : nat) (v : seq F) : aoutcome (seq F) :=
  let n := size data in
  if (n == 0%N) || (size v != n) || (m < n)%N then AUB else AOk (mkseq (circ_repeat n m (ccol_poly1 data) (fun i => v`_i)) m).
(** 167-179 and 238-250: nothing is done, as in lower_triangular_toeplitz_lzz_p.cpp; res is the previous value of the result *)
Definition ccol_right_mat (same : bool) (data : seq F) (m : nat) (res b : cmat F) : aoutcome (cmat F) :=
  if cr b != m then AUB else AOk (if same then Cmat 0 0 (fun _ _ => 0) else res).
Definition ccol_left_mat (same : bool) (data : seq F) (m : nat) (res b : cmat F) : aoutcome (cmat F) :=
  if cc b != size data then AUB else AOk (if same then Cmat 0 0 (fun _ _ => 0) else res).

(** *** circulant_row_lzz_p: n is the number of rows; the constructor (30-59) reads input[m-1] *)
Definition crow_poly1 (data : seq F) : P := \poly_(i < size data) if i is i'.+1 then data`_i' else data`_(size data - 1).
Definition crow_poly2 (data : seq F) : P := \poly_(i < size data) data`_(size data - 1 - i).
(** 77-89 *)
Definition crow_dense (data : seq F) (n : nat) : cmat F :=
  let m := size data in
  Cmat n m (fun i j => data`_(`|((i%:Z - j%:Z - 1) %% m%:Z)%Z|)).
(** 94-143 *)
Definition crow_right (data : seq F) (n : nat) (v : seq F) : aoutcome (seq F) :=
  let m := size data in
  if (m == 0%N) || (size v != m) then AUB else AOk (mkseq (circ_repeat m n (crow_poly1 data) (fun i => v`_i)) n).
(** 166-235 *)
Definition crow_left (data : seq F) (n : nat) (v : seq F) : aoutcome (seq F) :=
  let m := size data in
  if (m == 0%N) || (size v != n) || (n == 0%N) then AUB else AOk (mkseq (circ_chunks m n (crow_poly2 data) (fun i => v`_i)) m).
(** 148-161: Error in every case *)
Definition crow_right_mat (data : seq F) (n : nat) (res b : cmat F) : aoutcome (cmat F) := AUB.
(** 240-252 *)
Definition crow_left_mat (same : bool) (data : seq F) (n : nat) (res b : cmat F) : aoutcome (cmat F) :=
  if cc b != n then AUB else AOk (if same then Cmat 0 0 (fun _ _ => 0) else res).
End Circ.
