(** Model of ntl-extras/mat_lzz_pX_extra/src/mat_lzz_pX_multiply.cpp: the product of matrices of polynomials modulo a prime, which
    chooses one of the algorithms, and the products by vectors. *)
From mathcomp Require Import all_ssreflect all_algebra.
From Verif Require Import A_base N_pmat_model N_multi_model N_util_model N_poly_model N_trs_model N_wak_model N_eval_model N_mmfft_model N_mm3_model.
Set Implicit Arguments.
Unset Strict Implicit.
Unset Printing Implicit Defensive.
Import GRing.Theory.

Section Multiply.
(** the modulus; its FFT: p_info, MaxRoot, the points, NumBits *)
Variables (p : nat) (fftp : bool) (maxroot_p : nat) (xp : nat -> nat -> 'F_p) (nbits_p : nat).
(** the constants of NTL and its FFT primes, see N_mm3_model *)
Variables (wbits spbits : nat) (ru : nat -> nat -> nat).
Variables (q : nat -> nat) (nbits maxroot : nat -> nat) (x3 : forall i, nat -> nat -> 'F_(q i)).
(** the thresholds of thresholds_matrix_multiply.h, plus one (they may be -1) for the last two; the integer part of the cubic root *)
Variables (trs : nat) (wak ev : nat -> nat) (cbrt : nat -> nat).
Local Notation pmat := (pmat [fieldType of 'F_p]).
Local Notation P := {poly 'F_p}.

(** multiply_3_primes, on the coefficients *)
Definition multiply_3p (a b : pmat) : option (aoutcome pmat) :=
  match @multiply_3_primes wbits spbits ru q nbits maxroot x3 p (from_field a) (from_field b) with
  | None => None
  | Some AUB => Some AUB
  | Some (AOk c) => Some (AOk (to_field p c))
  end.

(** mat_lzz_pX_multiply.cpp:11-97, when c is not a nor b; x: the matrix c before *)
Definition multiply_noalias (x a b : pmat) (is_prime : bool) : option (aoutcome pmat) :=
  if (plen a == 0) || (plen b == 0) then Some (AOk (pm_clear (set_dims x (nr a) (nc b))))
  else
  let dA := (plen a).-1 in let dB := (plen b).-1 in let dmax := maxn dA dB in
  if dA == 0 then Some (pm_cmul false x (get_coeff a 0) b)
  else if dB == 0 then Some (pm_mulc false x a (get_coeff b 0))
  else if nc a == 1 then Some (multiply_naive false x a b)
  else if dmax <= trs then Some (multiply_transform a b dmax.+1)
  else
  let sz := cbrt (nr a * nc a * nc b) in
  if dmax < wak sz then Some (multiply_waksman false x a b)
  else if fftp && (next_pow2 (dA + dB + 1) <= maxroot_p) then
    Some (multiply_evaluate_fft wbits spbits p (fun z : 'F_p => val z) nbits_p fftp maxroot_p xp ru a b)
  else if is_prime && (2 * (dA + dB + 1) < p) && (dmax < ev sz) then Some (multiply_evaluate_dense a b)
  else multiply_3p a b.
(** 18-31: c may be a or b; is_prime is not passed to the recursive call *)
Definition multiply (alias : bool) (x a b : pmat) (is_prime : bool) : option (aoutcome pmat) :=
  if (plen a == 0) || (plen b == 0) then Some (AOk (pm_clear (set_dims x (nr a) (nc b))))
  else if alias then multiply_noalias (new_pmat _) a b true
  else multiply_noalias x a b is_prime.

(** 102-112, product by a column; b has n entries *)
Definition multiply_col (a : pmat) (n : nat) (b : nat -> P) (is_prime : bool) : option (aoutcome (nat * (nat -> P))) :=
  let bmat := Pmat n 1 (foldl (fun M i => upd2 M i 0 (b i)) (fun _ _ => 0%R) (iota 0 n)) in
  match multiply false (new_pmat _) a bmat is_prime with
  | None => None
  | Some AUB => Some AUB
  | Some (AOk cmat) =>
    Some (AOk (nr cmat, foldl (fun c i => upd c i (ent cmat i 0)) (fun _ => 0%R) (iota 0 (nr cmat))))
  end.
(** 117-124, product of a row by a matrix; a has n entries *)
Definition multiply_row (n : nat) (a : nat -> P) (b : pmat) (is_prime : bool) : option (aoutcome (nat * (nat -> P))) :=
  match multiply false (new_pmat _) (Pmat 1 n (fun _ j => a j)) b is_prime with
  | None => None
  | Some AUB => Some AUB
  | Some (AOk cmat) => if nr cmat == 0 then Some AUB else Some (AOk (nc cmat, ent cmat 0))
  end.
End Multiply.
