(** Model of ntl-extras/mat_lzz_pX_extra/src/mat_lzz_pX_multiply_3_primes.cpp: products of matrices of polynomials modulo p,
    by products modulo one, two or three FFT primes. The modulus p does not have to be prime: here a polynomial is the
    vector of its coefficients, which are integers, as in NTL. *)
From mathcomp Require Import all_ssreflect all_algebra.
From Verif Require Import A_base N_pmat_model N_mmfft_model.
Set Implicit Arguments.
Unset Strict Implicit.
Unset Printing Implicit Defensive.
Import GRing.Theory.

(** NTL, the arithmetic of single-precision residues: SubMod, AddMod, MulMod and MulModPrecon for reduced operands; rem(a, p, s) is a %% p.
    InvMod fails when the inverse does not exist. *)
Definition sub_mod (x y n : nat) : nat := if x < y then x + n - y else x - y.
Definition add_mod (x y n : nat) : nat := if n <= x + y then x + y - n else x + y.
Definition mul_mod (x y n : nat) : nat := x * y %% n.
Definition inv_mod (x n : nat) : option nat := if coprime x n then Some ((egcdn x n).1 %% n) else None.

(** NTL, zz_pX::normalize: the leading zeros are removed *)
Fixpoint normalize (s : seq nat) : seq nat :=
  if s is c :: s' then let t := normalize s' in if (c == 0) && (t == [::]) then [::] else c :: t else [::].

(** a Mat<zz_pX>: an entry is its vector of coefficients *)
Record zmat := ZMat { znr : nat; znc : nat; zent : nat -> nat -> seq nat }.
(** mat_lzz_pX_utils.cpp:136-144, deg, plus one *)
Definition zlen (a : zmat) : nat :=
  foldl (fun d i => foldl (fun d j => if d < size (zent a i j) then size (zent a i j) else d) d (iota 0 (znc a))) 0 (iota 0 (znr a)).

(** 9-20 and 25-41, reduce_mod_p, in place or not: all entries *)
Definition reduce_entry (p : nat) (s : seq nat) : seq nat :=
  normalize (foldl (fun t k => set_nth 0 t k (nth 0 s k %% p)) (nseq (size s) 0) (iota 0 (size s))).
Definition reduce_mod_p (p : nat) (a : zmat) : zmat := ZMat (znr a) (znc a) (fun i j => reduce_entry p (zent a i j)).

(** 66-91 and 137-199: the vector of length [hi] whose coefficients are computed by f, first those of index less than [lo] *)
Definition combine (lo hi : nat) (f : nat -> nat) : seq nat :=
  let c := nseq hi 0 in
  let c := foldl (fun c k => set_nth 0 c k (f k)) c (iota 0 lo) in
  let c := foldl (fun c k => set_nth 0 c k (f k)) c (iota lo (hi - lo)) in
  normalize c.

(** 47-95, reconstruct_2CRT, when p0 <= p1 *)
Definition crt2_sorted (p : nat) (c0 : zmat) (p0 : nat) (c1 : zmat) (p1 : nat) : aoutcome zmat :=
  match inv_mod p0 p1 with
  | None => AUB
  | Some p0_inv =>
    let p0_red := p0 %% p in
    let f (s0 s1 : seq nat) k :=
      let m0 := nth 0 s0 k in
      let alpha := sub_mod (nth 0 s1 k) m0 p1 in
      let alpha := mul_mod alpha p0_inv p1 in
      let alpha := alpha %% p in
      let m0 := m0 %% p in
      add_mod m0 (mul_mod alpha p0_red p) p in
    AOk (ZMat (znr c0) (znc c0) (fun i j => let s0 := zent c0 i j in let s1 := zent c1 i j in
      combine (minn (size s0) (size s1)) (maxn (size s0) (size s1)) (f s0 s1)))
  end.
Definition reconstruct_2crt (p : nat) (c0 : zmat) (p0 : nat) (c1 : zmat) (p1 : nat) : aoutcome zmat :=
  if p1 < p0 then crt2_sorted p c1 p1 c0 p0 else crt2_sorted p c0 p0 c1 p1.

(** 100-203, reconstruct_3CRT, when p0 <= p1 <= p2 *)
Definition crt3_sorted (p : nat) (c0 : zmat) (p0 : nat) (c1 : zmat) (p1 : nat) (c2 : zmat) (p2 : nat) : aoutcome zmat :=
  let p0_p := p0 %% p in
  let p1_p := p1 %% p in
  let p0p1_p := mul_mod p0_p p1_p p in
  let p0p1_p2 := mul_mod p0 p1 p2 in
  match inv_mod p0 p1, inv_mod p0p1_p2 p2 with
  | Some p0_inv_p1, Some p0p1_inv_p2 =>
    let f (s0 s1 s2 : seq nat) k :=
      let alpha0 := nth 0 s0 k in
      let m1 := nth 0 s1 k in
      let m2 := nth 0 s2 k in
      let alpha1 := sub_mod m1 alpha0 p1 in
      let alpha1 := mul_mod alpha1 p0_inv_p1 p1 in
      let alpha1_p0_p2 := mul_mod alpha1 p0 p2 in
      let alpha1_p0_p2 := add_mod alpha0 alpha1_p0_p2 p2 in
      let alpha2 := sub_mod m2 alpha1_p0_p2 p2 in
      let alpha2 := mul_mod alpha2 p0p1_inv_p2 p2 in
      let alpha0 := alpha0 %% p in
      let alpha1 := alpha1 %% p in
      let alpha2 := alpha2 %% p in
      add_mod alpha0 (add_mod (mul_mod alpha1 p0_p p) (mul_mod alpha2 p0p1_p p) p) p in
    AOk (ZMat (znr c0) (znc c0) (fun i j => let s0 := zent c0 i j in let s1 := zent c1 i j in let s2 := zent c2 i j in
      combine (minn (size s0) (minn (size s1) (size s2))) (maxn (size s0) (maxn (size s1) (size s2))) (f s0 s1 s2)))
  | _, _ => AUB
  end.
(** the recursive calls that sort the primes; [None] when the fuel is not sufficient *)
Fixpoint reconstruct_3crt (fuel p : nat) (c0 : zmat) (p0 : nat) (c1 : zmat) (p1 : nat) (c2 : zmat) (p2 : nat) : option (aoutcome zmat) :=
  if fuel is fuel'.+1 then
    if p1 < p0 then reconstruct_3crt fuel' p c1 p1 c0 p0 c2 p2
    else if p2 < p1 then reconstruct_3crt fuel' p c0 p0 c2 p2 c1 p1
    else Some (crt3_sorted p c0 p0 c1 p1 c2 p2)
  else None.

(** 253-276, constructor of lzz_pX_3_primes: the number of primes, for operands of degrees less than lA and lB *)
Definition nb_primes (p ncols lA lB p0 p1 p2 : nat) : option nat :=
  let max_coeff := ncols * minn lA lB * (p - 1) * (p - 1) in
  if max_coeff < p0 then Some 1
  else if 2 * max_coeff < p0 * p1 then Some 2
  else if 2 * max_coeff < p0 * p1 * p2 then Some 3
  else None.

(** A Mat<zz_pX> seen modulo the prime q *)
Definition to_field (q : nat) (a : zmat) : pmat [fieldType of 'F_q] :=
  Pmat (znr a) (znc a) (fun i j => (\poly_(k < size (zent a i j)) ((nth 0%N (zent a i j) k)%:R : 'F_q))%R).
Definition from_field (q : nat) (c : pmat [fieldType of 'F_q]) : zmat :=
  ZMat (nr c) (nc c) (fun i j => map (fun z : 'F_q => val z) (ent c i j)).

Section Primes.
(** the constants of NTL, see N_mmfft_model *)
Variables (wbits spbits : nat) (ru : nat -> nat -> nat).
(** the FFT primes of NTL, numbered from 0; for each one, the number of bits, MaxRoot, the points *)
Variables (q : nat -> nat) (nbits maxroot : nat -> nat) (x : forall i, nat -> nat -> 'F_(q i)).

(** the operation modulo one FFT prime: multiply_evaluate_FFT *)
Definition eval_fft (idx : nat) (a b : zmat) : aoutcome zmat :=
  match multiply_evaluate_fft wbits spbits (q idx) (fun z : 'F_(q idx) => val z) (nbits idx) true (maxroot idx) (@x idx) ru
    (to_field (q idx) a) (to_field (q idx) b) with
  | AUB => AUB
  | AOk c => AOk (from_field c)
  end.

(** 209-226, multiply_modulo_FFT_prime *)
Definition multiply_modulo_fft_prime (p : nat) (a b : zmat) (idx : nat) : aoutcome zmat :=
  let fft_p := q idx in
  if fft_p < p then eval_fft idx (reduce_mod_p fft_p a) (reduce_mod_p fft_p b) else eval_fft idx a b.

(** 281-298, reconstruct *)
Definition reconstruct (p nb : nat) (cs : nat -> zmat) : option (aoutcome zmat) :=
  match nb with
  | 1 => Some (AOk (reduce_mod_p p (cs 0)))
  | 2 => Some (reconstruct_2crt p (cs 0) (q 0) (cs 1) (q 1))
  | 3 => reconstruct_3crt 4 p (cs 0) (q 0) (cs 1) (q 1) (cs 2) (q 2)
  | _ => Some AUB
  end.

(** 308-326 and 335-351: f i is the result modulo the i-th prime *)
Definition three_primes (p : nat) (nb : option nat) (f : nat -> aoutcome zmat) : option (aoutcome zmat) :=
  match nb with
  | None => Some AUB
  | Some nb =>
    if nb == 1 then Some (match f 0 with AUB => AUB | AOk c => AOk (reduce_mod_p p c) end)
    else
      let cs := foldl (fun (st : aoutcome (nat -> zmat)) i =>
          match st with
          | AUB => AUB
          | AOk cs => match f i with AUB => AUB | AOk c => AOk (upd cs i c) end
          end) (AOk (fun _ => ZMat 0 0 (fun _ _ => [::]))) (iota 0 nb) in
      match cs with
      | AUB => Some AUB
      | AOk cs => reconstruct p nb cs
      end
  end.
(** 306-327, multiply_3_primes. Operands of degree -1: dA + 1 is 0 *)
Definition multiply_3_primes (p : nat) (a b : zmat) : option (aoutcome zmat) :=
  three_primes p (nb_primes p (znc a) (zlen a) (zlen b) (q 0) (q 1) (q 2)) (multiply_modulo_fft_prime p a b).
End Primes.
