(** Model of ntl-extras/lzz_pX_middle_product/src/lzz_pX_middle_product.cpp. The arrays of zz_p
    handled through pointers live in one memory, a function from addresses to zz_p; a pointer is an
    address. Nothing is assumed of the initial content of the memory. *)
From mathcomp Require Import all_ssreflect all_algebra.
From Verif Require Import A_base A_mul_model N_poly_model.
Set Implicit Arguments.
Unset Strict Implicit.
Unset Printing Implicit Defensive.
Import GRing.Theory.
Local Open Scope ring_scope.

Section Mid.
Variable F : fieldType.
Definition mem := nat -> F.
Implicit Types (M : mem) (a b c stk T : nat).

(** for (i = 0; i < n; i++) p[i] = g(i), g reading the memory *)
Definition mloop (n p : nat) (g : mem -> nat -> F) M : mem :=
  foldl (fun M i => upd M (p + i)%N (g M i)) M (iota 0 n).

(** lzz_pX_middle_product.cpp:29-56, tPlainMul2; the arithmetic is exact in F (the overflow of the
    branch use_long is modelled in N_midlong_model.v) *)
Definition tplain (ul : bool) M b sb a sa c : mem :=
  if ul then
    mloop sb b (fun M j => foldl (fun acc i => acc + M (c + (i + j))%N * M (a + i)%N) 0 (iota 0 sa)) M
  else
    foldl (fun M i => mloop sb b (fun M j => M (c + (i + j))%N * M (a + i)%N + M (b + j)%N) M)
      (mloop sb b (fun _ _ => 0) M) (iota 0 sa).

(** lzz_pX_middle_product.cpp:61-72, Kar_stk_size *)
Fixpoint kar_stk_size (fuel KARX N : nat) : option nat :=
  if fuel is fuel'.+1 then
    let hn := uphalf N in
    let s := (4 * hn - 1)%N in
    if (KARX <= hn)%N then omap (addn s) (kar_stk_size fuel' KARX hn) else Some s
  else None.

(** lzz_pX_middle_product.cpp:77-83, KarSub *)
Definition kar_sub M T b sb : mem := mloop sb T (fun M i => M (T + i)%N - M (b + i)%N) M.
(** lzz_pX_middle_product.cpp:88-98, KarFoldSub *)
Definition kar_fold_sub M T b sb hsa : mem :=
  let m := (sb - hsa)%N in
  let M := mloop m T (fun M i => M (b + (hsa + i))%N - M (b + i)%N) M in
  foldl (fun M i => upd M (T + i)%N (0 - M (b + i)%N)) M (iota m (hsa - m)).
(** lzz_pX_middle_product.cpp:103-108, KarAdd2 *)
Definition kar_add2 M T a b s : mem := mloop s T (fun M i => M (a + i)%N + M (b + i)%N) M.
(** lzz_pX_middle_product.cpp:113-118, KarAdd *)
Definition kar_add M T b sb : mem := mloop sb T (fun M i => M (T + i)%N + M (b + i)%N) M.

(** lzz_pX_middle_product.cpp:124-181, tKarMul_aux *)
Fixpoint tkar (fuel KARX : nat) (ul : bool) M b sb a sa c sc stk : option mem :=
  if (sa < KARX)%N || (sb < KARX)%N then Some (tplain ul M b sb a sa c)
  else if fuel is fuel'.+1 then
    let rec := tkar fuel' KARX ul in
    let hsa := uphalf sa in
    let hsb := uphalf sb in
    if (sb <= sa)%N && (sb <= hsa)%N then
      let T := stk in
      let stk := (stk + sb)%N in
      obind (fun M =>
        omap (fun M => kar_add M b T sb)
          (rec M T sb a hsa c (minn (sb + hsa - 1) sc) stk))
        (rec M b sb (a + hsa)%N (sa - hsa)%N (c + hsa)%N (sc - hsa)%N stk)
    else if (sa < sb)%N && (sa <= hsb)%N then
      obind (fun M => rec M (b + hsb)%N (sb - hsb)%N a sa (c + hsb)%N (sc - hsb)%N stk)
        (rec M b hsb a sa c (minn (sa + hsb - 1) sc) stk)
    else
      let hs := if (sa < sb)%N then hsb else hsa in
      let hs2 := (2 * hs)%N in
      let T := stk in
      let stk := (stk + (hs2 + hs))%N in
      let T1 := (T + hs)%N in
      let T2 := (T1 + hs)%N in
      let M := kar_fold_sub M T a sa hs in
      obind (fun M =>
        let i := (sc - hs)%N in
        let M := kar_add2 M T (c + hs)%N c i in
        let M := foldl (fun M i => upd M (T + i)%N (M (c + i)%N)) M
                   (iota i (minn sc (sa + sb - 1 - hs) - i)) in
        let i := maxn i (minn sc (sa + sb - 1 - hs)) in
        let M := foldl (fun M i => upd M (T + i)%N 0) M (iota i (sa + sb - 1 - hs - i)) in
        obind (fun M =>
          let M := kar_sub M (b + hs)%N b (sb - hs) in
          omap (fun M => kar_add M b T2 hs)
            (rec M T2 hs a hs T (hs2 - 1)%N stk))
          (rec M (b + hs)%N (sb - hs)%N (a + hs)%N (sa - hs)%N T1 (sa + sb - 1 - hs2)%N stk))
        (rec M b hs T hs (c + hs)%N (minn (hs2 - 1) (sc - hs)) stk)
  else None.

(** lzz_pX_middle_product.cpp:199-207, middle_FFT *)
Definition middle_fft (a c : {poly F}) (dA dB : nat) : {poly F} :=
  let k := next_pow2 (dA + dB + 1) in
  fromfft (fftmul k (tofft k a 0 dA) (tofft k c 0 (dA + dB))) dA (dA + dB).

(** lzz_pX_middle_product.cpp:214-270, middle_product; the vectors ap, bp, cp, stk are laid out one
    after the other. MX is NTL_zz_pX_MUL_CROSSOVER. *)
Definition middle_product (fuel MX KARX : nat) (ul : bool) (garb : mem) (a c : {poly F}) (dA dB : nat) : option {poly F} :=
  if (c == 0) || (a == 0) then Some 0
  else if (MX < dA)%N && (MX < dB)%N then Some (middle_fft a c dA dB)
  else
    let ap := 0%N in
    let bp := (dA + 1)%N in
    let cp := (bp + (dB + 1))%N in
    let stk := (cp + (dA + dB + 1))%N in
    let M := foldl (fun M i => upd M (ap + i)%N 0) garb (iota 0 (dA - (size a).-1)) in
    let i0 := (dA - (size a).-1)%N in
    let M := foldl (fun M i => upd M (ap + i)%N a`_(dA - i)) M (iota i0 (dA + 1 - i0)) in
    let M := foldl (fun M i => upd M (cp + i)%N c`_i) M (iota 0 (minn (size c) (dA + dB + 1))) in
    let M := foldl (fun M i => upd M (cp + i)%N 0) M (iota (size c) (dA + dB + 1 - size c)) in
    omap (fun M : mem => \poly_(i < dB + 1) M (bp + i)%N)
      (if (minn dA dB < KARX)%N then Some (tplain ul M bp (dB + 1)%N ap (dA + 1)%N cp)
       else tkar fuel KARX ul M bp (dB + 1) ap (dA + 1) cp (dA + dB + 1) stk).
End Mid.
