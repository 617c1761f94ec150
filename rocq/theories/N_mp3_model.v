(** Model of the middle product of matrices of polynomials of ntl-extras, mat_lzz_pX_extra/src:
    mat_lzz_pX_multiply_3_primes.cpp (the middle product modulo any p by FFT primes) and mat_lzz_pX_middle_product.cpp
    (the middle product modulo a prime, which chooses one of the algorithms). *)
From Coq Require Import ZArith.
From mathcomp Require Import all_ssreflect all_algebra.
From Verif Require Import A_base N_pmat_model N_util_model N_poly_model N_mm3_model N_mp_model.
Set Implicit Arguments.
Unset Strict Implicit.
Unset Printing Implicit Defensive.
Import GRing.Theory.

Section Primes.
(** the FFT primes of NTL, see N_mm3_model *)
Variables (q : nat -> nat) (nbits maxroot : nat -> nat) (x : forall i, nat -> nat -> 'F_(q i)).

(** the operation modulo one FFT prime: middle_product_evaluate_FFT *)
Definition eval_mp (idx : nat) (a c : zmat) (dA dB : nat) : aoutcome zmat :=
  match mp_evaluate_fft (nbits idx) true (maxroot idx) (@x idx) (to_field (q idx) a) (to_field (q idx) c) dA dB with
  | AUB => AUB
  | AOk b => AOk (from_field b)
  end.
(** mat_lzz_pX_multiply_3_primes.cpp:232-248, middle_product_modulo_FFT_prime *)
Definition mp_modulo_fft_prime (p : nat) (a c : zmat) (dA dB idx : nat) : aoutcome zmat :=
  let fft_p := q idx in
  if fft_p < p then eval_mp idx (reduce_mod_p fft_p a) (reduce_mod_p fft_p c) dA dB else eval_mp idx a c dA dB.
(** 333-352, middle_product_3_primes *)
Definition middle_product_3_primes (p : nat) (a c : zmat) (dA dB : nat) : option (aoutcome zmat) :=
  three_primes q p (nb_primes p (znc a) dA.+1 dB.+1 (q 0) (q 1) (q 2)) (mp_modulo_fft_prime p a c dA dB).
End Primes.

Section Middle.
(** the modulus and its FFT, the FFT primes, see N_mm_model *)
Variables (p : nat) (fftp : bool) (maxroot_p : nat) (xp : nat -> nat -> 'F_p) (nbits_p : nat).
Variables (q : nat -> nat) (nbits maxroot : nat -> nat) (x3 : forall i, nat -> nat -> 'F_(q i)).
(** thresholds_matrix_middle_product.h, and thresholds_matrix_multiply.h plus one (it may be -1); the integer part of the cubic root *)
Variables (nv ev : nat -> nat) (cbrt : nat -> nat).
(** the middle product of polynomials, see N_mid_model *)
Variables (fuel MX KARX : nat) (ul : bool) (garb : nat -> nat -> nat -> nat -> 'F_p).
Local Notation pmat := (pmat [fieldType of 'F_p]).

(** middle_product_3_primes, on the coefficients *)
Definition middle_3p (a c : pmat) (dA dB : nat) : option (aoutcome pmat) :=
  match @middle_product_3_primes q nbits maxroot x3 p (from_field a) (from_field c) dA dB with
  | None => None
  | Some AUB => Some AUB
  | Some (AOk b) => Some (AOk (to_field p b))
  end.

(** mat_lzz_pX_middle_product.cpp:31-54, for deg(a) >= dA >= 0 *)
Definition middle_choice (a c : pmat) (dA dB : nat) (is_prime : bool) : option (aoutcome pmat) :=
  let dmax := maxn dA dB in
  let sz := cbrt (nr a * nc a * nc c) in
  if dmax < nv sz then middle_product_naive fuel MX KARX ul garb a c dA dB
  else if fftp && (next_pow2 (dA + dB + 1) <= maxroot_p) then Some (mp_evaluate_fft nbits_p fftp maxroot_p xp a c dA dB)
  else if is_prime && (dmax < ev sz) && (2 * (dA + dB + 1) < p) then Some (mp_evaluate_dense a c dA dB)
  else middle_3p a c dA dB.
(** 31-54, for a zero matrix and dA = -1. The products of polynomials by zero return 0 and do not use dA. For the FFT, modulo p or
    modulo the first FFT prime, the entries of the result are FromfftRep(b, R, -1, dB - 1), which reads before the array of
    values. The matrix vdm1 of middle_product_evaluate_dense has no column and its entry (0, 0) is written. *)
Definition middle_zero (a c : pmat) (dB : nat) (is_prime : bool) : option (aoutcome pmat) :=
  let sz := cbrt (nr a * nc a * nc c) in
  let fft := if (0 < nr a) && (0 < nc c) then AUB else AOk (Pmat (nr a) (nc c) (fun _ _ => 0%R)) in
  if dB < nv sz then middle_product_naive fuel MX KARX ul garb a c 0 dB
  else if fftp && (next_pow2 dB <= maxroot_p) then Some fft
  else if is_prime && (dB < ev sz) && (2 * dB < p) then Some AUB
  else Some fft.

(** 14-54, middle_product. The recursive call has dA = deg(a) *)
Definition middle_mat (a c : pmat) (dA dB : nat) (is_prime : bool) : option (aoutcome pmat) :=
  if plen a < dA.+1 then
    let cc := pm_rshift false (new_pmat _) c (Z.of_nat (dA.+1 - plen a)) in
    if plen a is d.+1 then middle_choice a cc d dB is_prime else middle_zero a cc dB is_prime
  else middle_choice a c dA dB is_prime.
End Middle.
