(** Model of ntl-extras/lzz_pX_extra/src/lzz_pX_extra.cpp: power series division, Taylor shift,
    addition with a shift. A zz_pX is a polynomial over F (zz_p for a prime modulus); a read
    of a coefficient beyond the length, which in NTL's memory layout meets the zeros stripped by
    normalize, is the coefficient 0. *)
From mathcomp Require Import all_ssreflect all_algebra.
From Verif Require Import A_base A_mul_model.
Set Implicit Arguments.
Unset Strict Implicit.
Unset Printing Implicit Defensive.
Import GRing.Theory.
Local Open Scope ring_scope.

(** NTL's NextPowerOfTwo(m): the smallest k >= 0 with m <= 2^k; NumBits(m): the number of bits of
    m >= 0 *)
Definition next_pow2 (m : nat) : nat := up_log 2 m.
Definition num_bits (m : nat) : nat := up_log 2 m.+1.

Section Fft.
Variable F : fieldType.
Local Notation P := {poly F}.

(** NTL's fftRep of size 2^k: NTL documents that polynomials are reduced modulo X^(2^k) - 1 and
    that mul is the product modulo this polynomial. TofftRep(y, x, k, lo, hi) takes the
    coefficients lo..hi, FromfftRep(x, y, lo, hi) returns the coefficients lo..hi (zero beyond
    2^k - 1). *)
Definition cyc (k : nat) (p : P) : P := p %% ('X^(2 ^ k) - 1).
Definition tofft (k : nat) (p : P) (lo hi : nat) : P := cyc k (\poly_(i < hi.+1 - lo) p`_(lo + i)).
Definition fftmul (k : nat) (p q : P) : P := cyc k (p * q).
Definition fromfft (p : P) (lo hi : nat) : P := \poly_(i < hi.+1 - lo) p`_(lo + i).

(** lzz_pX_extra.cpp:23-81, PlainInvTruncMul. AUB stands for an error raised by NTL (division by
    zero). *)
Definition plain_inv_trunc_mul (b a : P) (m : nat) : aoutcome P :=
  if a == 0 then AUB
  else if a`_0 == 0 then AUB
  else
    let na := (size a).-1 in
    let s := (a`_0)^-1 in
    let is_one := s == 1 in
    if na == 0%N then
      AOk (\poly_(k < minn m (size b)) (if is_one then b`_k else b`_k * s))
    else
      let x k := if (k < minn m (size b))%N then b`_k else 0 in
      let x := upd x 0%N (x 0%N * s) in
      let x := foldl (fun x k =>
          let buf := foldl (fun buf i => buf - x i * a`_(k - i)) (x k) (iota (k - na) (k - (k - na))) in
          upd x k (if is_one then buf else buf * s)) x (iota 1 (m - 1)) in
      AOk (\poly_(k < m) x k).

(** lzz_pX_extra.cpp:107-134: one iteration of the loop with k = 2^t, l = 2k *)
Definition newton_step (a x : P) (t : nat) : P :=
  let k := (2 ^ t)%N in
  let l := (2 * k)%N in
  let r1 := cyc t.+1 x in
  let r2 := fftmul t.+1 (tofft t.+1 a 0 l.-1) r1 in
  let p1 := fromfft r2 k l.-1 in
  let r2 := fftmul t.+1 (cyc t.+1 p1) r1 in
  let p1 := fromfft r2 0 (l - k).-1 in
  \poly_(i < l) (if (i < k)%N then x`_i else - p1`_(i - k)).

(** lzz_pX_extra.cpp:107-134: the loop; it stops with x the inverse modulo X^(2^t) and
    2^t < m <= 2^(t+1). None when [fuel] iterations do not suffice. *)
Fixpoint newton_loop (fuel : nat) (a x : P) (t m : nat) : option (P * nat) :=
  if (m <= 2 * 2 ^ t)%N then Some (x, t)
  else if fuel is fuel'.+1 then newton_loop fuel' a (newton_step a x t) t.+1 m else None.

(** lzz_pX_extra.cpp:140-169 *)
Definition newton_last_small (b a x : P) (t m : nat) : P :=
  let k := (2 ^ t)%N in
  let r1 := cyc t.+1 x in
  let r0 := fromfft (fftmul t.+1 r1 (cyc t.+1 b)) 0 k.-1 in
  let r3 := fftmul t (cyc t r0) (cyc t a) in
  let q := fromfft r3 0 (2 * k - 2) - b in
  let r3 := fftmul t.+1 (cyc t.+1 q) r1 in
  let q := fromfft r3 0 (m - k).-1 in
  \poly_(i < m) (if (i < k)%N then r0`_i else - q`_(i - k)).

(** lzz_pX_extra.cpp:170-213; l is m - 1 *)
Definition newton_last_large (b a x : P) (t m : nat) : P :=
  let k := (2 ^ t)%N in
  let l := m.-1 in
  let lmk := (l - k)%N in
  let r1 := cyc t.+1 x in
  let p2h := fromfft (fftmul t.+1 r1 (tofft t.+1 b k l)) 0 lmk in
  let p2l := fromfft (fftmul t.+1 r1 (tofft t.+1 b 0 k.-1)) 0 l in
  let p1 := fromfft (fftmul t.+1 r1 (tofft t.+1 a 0 l)) k l in
  let p1 := fromfft (fftmul t.+1 (tofft t.+1 p1 0 lmk) (tofft t.+1 p2l 0 lmk)) 0 lmk in
  \poly_(i < l.+1)
    (if (i < k)%N then p2l`_i
     else (if (k < size b)%N then p2l`_i + p2h`_(i - k) else p2l`_i) - p1`_(i - k)).

(** NTL's PlainInvTrunc(x, a, k) *)
Definition plain_inv_trunc (a : P) (k : nat) : aoutcome P := plain_inv_trunc_mul 1 a k.

(** lzz_pX_extra.cpp:89-214, NewtonInvTruncMul; CR is NTL_zz_pX_NEWTON_CROSSOVER *)
Definition newton_inv_trunc_mul (fuel CR : nat) (b a : P) (m : nat) : option (aoutcome P) :=
  let t := (next_pow2 CR - 3)%N in
  match plain_inv_trunc a (2 ^ t)%N with
  | AUB => Some AUB
  | AOk x =>
    match newton_loop fuel a x t m with
    | None => None
    | Some (x, t) =>
      let k := (2 ^ t)%N in
      Some (AOk (if (size a <= k)%N && (size b <= k)%N then newton_last_small b a x t m
                 else newton_last_large b a x t m))
    end
  end.

(** lzz_pX_extra.cpp:220-244, InvTruncMul; the case of aliasing calls the function on a
    temporary *)
Definition inv_trunc_mul (fuel CR : nat) (b a : P) (m : nat) : option (aoutcome P) :=
  if m == 0%N then Some (AOk 0)
  else if (CR < m)%N && (1 < size a)%N then newton_inv_trunc_mul fuel CR b a m
  else Some (plain_inv_trunc_mul b a m).
End Fft.

(** Taylor shift. The argument [d1] is d + 1, for the bound d >= -1 on the degrees. *)
Section Shift.
Variable F : fieldType.
Local Notation P := {poly F}.
Implicit Types (f : P) (c : F).

(** lzz_pX_extra.cpp:263-281: the vector precomp *)
Definition dac_precomp (d1 : nat) c : seq P :=
  let ell := num_bits (if d1 is d.+1 then d else 1) in
  let p0 := (('X + c%:P) ^+ 2) ^+ 2 in
  (fix sqrs (n : nat) (p : P) : seq P := if n is n'.+1 then p :: sqrs n' (p ^+ 2) else [::])
    (maxn 1 (ell - 2)) p0.

(** lzz_pX_extra.cpp:306-325: a full block of four coefficients from i *)
Definition dac_block c f (i : nat) : P :=
  let f0 := f`_i in let f1 := f`_i.+1 in let f2 := f`_i.+2 in let f3 := f`_i.+3 in
  let cc := c ^+ 2 in let c3 := 3%:R * c in
  let buf := c3 * f3 + f2 in
  Poly [:: (c * f3 + f2) * cc + c * f1 + f0; (buf + f2) * c + f1; buf; f3].
(** lzz_pX_extra.cpp:327-336: the last block *)
Definition dac_last_block c f (i : nat) : P :=
  let f0 := f`_i in let f1 := f`_i.+1 in let f2 := f`_i.+2 in let f3 := f`_i.+3 in
  let cc := c ^+ 2 in let c3 := 3%:R * c in
  Poly [:: f0 + c * f1 + cc * (f2 + c * f3); f1 + c * (2%:R * f2 + c3 * f3); f2 + c3 * f3; f3].

(** lzz_pX_extra.cpp:301-336: the initial vector v; the full blocks are those with
    i <= deg(f) - 3 *)
Definition dac_init c f : nat -> P :=
  let nfull := (size f %/ 4)%N in
  let v := foldl (fun v j => upd v j (dac_block c f (4 * j))) (fun _ => 0) (iota 0 nfull) in
  if (4 * nfull < size f)%N then upd v nfull (dac_last_block c f (4 * nfull)) else v.

(** lzz_pX_extra.cpp:342-354: one pass, in place, on a vector of length len > 1; the new length is
    uphalf len *)
Definition dac_pass (p : P) (v : nat -> P) (len : nat) : nat -> P :=
  let v := upd v 1%N (v 1%N * p) in
  let v := upd v 0%N (v 0%N + v 1%N) in
  let v := foldl (fun v i => let v := upd v i (p * v (2 * i).+1) in upd v i (v i + v (2 * i)%N))
             v (iota 1 (len %/ 2 - 1)) in
  if odd len then upd v (len %/ 2)%N (v (2 * (len %/ 2))%N) else v.

(** lzz_pX_extra.cpp:338-356; precomp read beyond its end is undefined *)
Fixpoint dac_loop (precomp : seq P) (v : nat -> P) (len : nat) : aoutcome P :=
  if (1 < len)%N then
    if precomp is p :: precomp' then dac_loop precomp' (dac_pass p v len) (uphalf len) else AUB
  else AOk (v 0%N).

(** lzz_pX_extra.cpp:287-358; a degree too large raises an error *)
Definition dac_shift (d1 : nat) c f : aoutcome P :=
  if d1 == 0%N then AOk 0
  else if (d1 < size f)%N then AUB
  else dac_loop (dac_precomp d1 c) (dac_init c f)
         (if (d1 %% 4)%N != 0%N then (1 + d1 %/ 4)%N else (d1 %/ 4)%N).

(** lzz_pX_extra.cpp:372-391: the arrays fact, ifact and the polynomial v. With d = -1 the array
    fact has no entry and the write to fact[0] is undefined; the inverse of zero is an error. *)
Definition lc_init (d1 : nat) c : aoutcome ((nat -> F) * (nat -> F) * P) :=
  if d1 == 0%N then AUB
  else
    let fact := foldl (fun t i => upd t i (i%:R * t i.-1)) (upd (fun _ => 0) 0%N 1) (iota 1 d1.-1) in
    if has (fun i => fact i == 0) (iota 0 d1) then AUB
    else
      let ifact i := (fact i)^-1 in
      let v := foldl (fun v i => upd v i (c * v i.-1)) (upd (fun _ => 0) 0%N 1) (iota 1 d1.-1) in
      AOk (fact, ifact, \poly_(i < d1) (v i * ifact i)).

(** lzz_pX_extra.cpp:397-423: u[d-i] with i > d is undefined *)
Definition lc_shift (d1 : nat) (fact ifact : nat -> F) (v : P) f : aoutcome P :=
  if d1 == 0%N then AOk 0
  else if (d1 < size f)%N then AUB
  else
    let d := d1.-1 in
    let u := foldl (fun u i => upd u (d - i)%N (f`_i * fact i)) (fun _ => 0) (iota 0 (size f)) in
    let w := ptrunc d1 ((\poly_(i < d1) u i) * v) in
    let g := foldl (fun g i => upd g (d - i)%N (w`_i * ifact (d - i)%N)) (fun _ => 0) (iota 0 (size w)) in
    let g := foldl (fun g i => upd g (d - i)%N 0) g (iota (size w) (d1 - size w)) in
    AOk (\poly_(i < d1) g i).

(** lzz_pX_extra.cpp:428-442, get_shift, with the object it returns represented by the function
    shift of its class *)
Definition get_shift (d1 : nat) c : aoutcome (P -> aoutcome P) :=
  let prod := foldl (fun p i => p * i%:R) 2%:R (iota 3 (d1 - 3)) in
  if (prod : F) != 0 then
    match lc_init d1 c with
    | AOk (fact, ifact, v) => AOk (lc_shift d1 fact ifact v)
    | AUB => AUB
    end
  else AOk (dac_shift d1 c).

(** lzz_pX_extra.cpp:448-453: the function shift *)
Definition taylor_shift f c : aoutcome P :=
  match get_shift (size f) c with
  | AOk s => s f
  | AUB => AUB
  end.

Inductive aliasing := NoAlias | AliasA | AliasB.

(** lzz_pX_extra.cpp:458-496, add_LeftShift. The result is the vector of coefficients of c, as
    stored; garb is what c.rep holds before. *)
Definition add_left_shift (al : aliasing) (garb : nat -> F) (a b : P) (k : nat) : seq F :=
  let sa := size a in
  let sb := (size b + k)%N in
  let mn := minn sa sb in
  let mx := maxn sa sb in
  let rda (c : nat -> F) i := if al is AliasA then c i else a`_i in
  let rdb (c : nat -> F) i := if al is AliasB then c i else b`_i in
  let c : nat -> F := match al with
           | NoAlias => garb
           | AliasA => fun i => if (i < sa)%N then a`_i else garb i
           | AliasB => fun i => if (i < size b)%N then b`_i else garb i
           end in
  let c : nat -> F := if al is AliasA then c else foldl (fun (c : nat -> F) i => upd c i (rda c i)) c (iota 0 (minn sa k)) in
  let c : nat -> F := foldl (fun (c : nat -> F) i => upd c i 0) c (iota (minn sa k) (k - minn sa k)) in
  let c : nat -> F := foldl (fun (c : nat -> F) i => upd c i (rda c i + rdb c (i - k)%N)) c (iota k (mn - k)) in
  let i := maxn k mn in
  if (mn < sa)%N && (if al is AliasA then false else true) then
    mkseq (foldl (fun (c : nat -> F) i => upd c i (rda c i)) c (iota i (mx - i))) mx
  else if (mn < sb)%N then
    mkseq (foldl (fun (c : nat -> F) i => upd c i (rdb c (i - k)%N)) c (iota i (mx - i))) mx
  else Poly (mkseq c mx).
End Shift.
