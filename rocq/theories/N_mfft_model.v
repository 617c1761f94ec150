(** Model of ntl-extras/lzz_pX_CRT/src/lzz_pX_Multipoint_FFT.cpp: evaluation at roots of unity. *)
From mathcomp Require Import all_ssreflect all_algebra.
From Verif Require Import A_base A_mul_model N_poly_model.
Set Implicit Arguments.
Unset Strict Implicit.
Unset Printing Implicit Defensive.
Import GRing.Theory.
Local Open Scope ring_scope.

(** lzz_pX_Multipoint_FFT.cpp:13-27, RevInc; the mask m is 2^(j-1), and a ^= m clears or sets this bit. For k = 0
    the code shifts by -1 (see [bit_reverse_init]). *)
Fixpoint rev_inc (j a : nat) : nat :=
  if j is j'.+1 then
    let m := (2 ^ j')%N in
    if odd (a %/ m) then rev_inc j' (a - m)%N else (a + m)%N
  else a.

(** lzz_pX_Multipoint_FFT.cpp:30-38, BitReverse_init; RevInc is called after each iteration, hence 1L << -1 for k = 0 *)
Definition bit_reverse_init (k : nat) : aoutcome (nat -> nat) :=
  if k == 0%N then AUB
  else AOk (foldl (fun (st : (nat -> nat) * nat) i => let: (rev, j) := st in (upd rev i j, rev_inc k j))
              (fun _ => 0%N, 0%N) (iota 0 (2 ^ k))).1.

Section Fft.
Variable F : fieldType.
Local Notation P := {poly F}.
Local Notation arr := (nat -> F).

(** NTL's TofftRep(y, f, k): the first table of y holds the values of f at the 2^k-th roots of
    unity, in an order that depends on the version of NTL: [x i] is the i-th one. FromfftRep(f, y, 0, n - 1) is
    the inverse transform. *)
Definition to_rep (x : arr) (f : P) : arr := fun i => f.[x i].
Definition from_rep (n : nat) (x : arr) (v : arr) : P :=
  \poly_(i < n) ((n%:R)^-1 * \sum_(j < n) v j * (x j)^-1 ^+ i).

(** the fields of the class; wk is only a temporary *)
Record mfft := Mfft { m_n : nat; m_k : nat; m_x : arr; m_rev : bool; m_idx : nat -> nat }.

(** lzz_pX_Multipoint_FFT.cpp:45-86, constructor; [fftp] tells whether zz_p was initialised by FFTInit, [maxroot] is
    MaxRoot. For n = 1 the reads of wk.tbl[0][1] would also be out of bounds. *)
Definition mfft_init (fftp : bool) (maxroot : nat) (x : arr) (n : nat) : aoutcome mfft :=
  let k := next_pow2 n in
  if n != (2 ^ k)%N then AUB
  else if ~~ fftp then AUB
  else if (maxroot < k)%N then AUB
  else match bit_reverse_init k with
  | AUB => AUB
  | AOk indices =>
    let wk := to_rep x 'X in
    let z1 := wk 1%N in
    let z2 := wk n./2 in
    let: (ok, do_rev, _, _) := foldl (fun (st : bool * bool * F * F) i => let: (ok, dr, pow1, pow2) := st in
        let ok := ok && ((wk i == pow1) || (wk (indices i) == pow2)) in
        let dr := if wk (indices i) == pow2 then dr else false in
        (ok, dr, pow1 * z1, pow2 * z2)) (true, true, 1, 1) (iota 0 n) in
    if ok then AOk (Mfft n k x do_rev indices) else AUB
  end.

(** lzz_pX_Multipoint_FFT.cpp:91-102, evaluate *)
Definition mfft_evaluate (o : mfft) (f : P) : arr := to_rep (m_x o) f.

(** lzz_pX_Multipoint_FFT.cpp:107-116, interpolate *)
Definition mfft_interpolate (o : mfft) (val : arr) : P := from_rep (m_n o) (m_x o) val.

(** lzz_pX_Multipoint_FFT.cpp:121-170, t_evaluate; the tables have n entries *)
Definition mfft_t_evaluate (o : mfft) (val : arr) (osz : option nat) : aoutcome P :=
  let n := m_n o in
  let m := odflt n osz in
  let tmp := \poly_(i < n) (if ~~ m_rev o then val i else val (m_idx o i)) in
  let frep := to_rep (m_x o) tmp in
  if (n < m)%N then AUB
  else AOk (\poly_(i < m) (if ~~ m_rev o then frep i else frep (m_idx o i))).

(** lzz_pX_Multipoint_FFT.cpp:175-221, t_interpolate; val may hold anything before the last loop *)
Definition mfft_t_interpolate (o : mfft) (f : P) (val : arr) : arr :=
  let n := m_n o in
  if n == 1%N then upd val 0%N f`_0
  else if n == 2%N then
    let half := (2%:R)^-1 in
    upd (upd val 0%N ((f`_0 + f`_1) * half)) 1%N ((f`_0 - f`_1) * half)
  else
    let frep i := if ~~ m_rev o then f`_i else f`_(m_idx o i) in
    let tmp := from_rep n (m_x o) frep in
    if ~~ m_rev o then foldl (fun (val : arr) i => upd val i tmp`_i) val (iota 0 n)
    else foldl (fun (val : arr) i => upd val (m_idx o i) tmp`_i) val (iota 0 n).

(** lzz_pX_Multipoint_FFT.cpp:226-230, get_FFT_points *)
Definition get_fft_points (fftp : bool) (maxroot : nat) (x : nat -> arr) (n : nat) : aoutcome mfft :=
  let k := next_pow2 n in mfft_init fftp maxroot (x k) (2 ^ k)%N.
End Fft.
