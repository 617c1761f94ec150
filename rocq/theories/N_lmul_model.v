(** Model of ntl-extras/mat_lzz_pX_extra/src/mat_lzz_pX_lmultiplier.cpp: the objects that hold a matrix of polynomials a and multiply it by
    matrices b of bounded degree. An object is constructed from a and the bound dB >= 0 and is not modified afterwards: it is
    modelled by the function that its method multiply(c, b) computes. The result c is written when b is not read any more
    (line 89-95 in the first class), so that c may be b, and its previous contents are overwritten. *)
From mathcomp Require Import all_ssreflect all_algebra.
From Verif Require Import A_base A_mul_model N_multi_model N_pmat_model N_util_model N_poly_model N_geo_model N_mfft_model N_eval_model.
From Verif Require Import N_mmfft_model N_mm3_model.
Set Implicit Arguments.
Unset Strict Implicit.
Unset Printing Implicit Defensive.
Import GRing.Theory.
Local Open Scope ring_scope.

Section Fft.
Variable F : fieldType.
Local Notation P := {poly F}.
Local Notation pmat := (pmat F).
Local Notation arr := (nat -> F).
(** see N_mmfft_model *)
Variables (wbits spbits : nat) (pr : nat) (rep : F -> nat) (nbits : nat).
Variables (fftp : bool) (maxroot : nat) (x : nat -> arr) (ru : nat -> nat -> nat).

(** 64, 74, 263, 270: __dA + dB + 1, where lA is __dA + 1; index and number of points. NextPowerOfTwo and FFTRoundUp treat 0 and 1
    in the same way *)
Definition lm_idx (lA dB : nat) : nat := next_pow2 (lA + dB).
Definition lm_len (lA dB : nat) : nat := ru (lA + dB) (lm_idx lA dB).
(** not modelled: a modulus not set by FFTInit; error: a transform that is too large *)
Definition lm_bad (lA dB : nat) : bool :=
  [|| ~~ fftp, (maxroot < lm_idx lA dB)%N | (2 ^ lm_idx lA dB < lm_len lA dB)%N].

(** 75-81, constructor of mat_lzz_pX_lmultiplier_FFT_direct: vala[i][j] *)
Definition direct_vala (K : nat) (a : pmat) : nat -> nat -> arr :=
  foldl (fun (V : nat -> nat -> arr) i => foldl (fun V j => upd2 V i j (to_rep (x K) (ent a i j))) V (iota 0 (nc a)))
    (fun _ _ _ => 0) (iota 0 (nr a)).

(** 132-133, 225-226, 307: the actual length, and the number of points. The values of a are known at the first [full] points; the function
    FFTRoundUp is increasing, so that len <= full: the other case is not modelled. The entries b[j][i] must exist. *)
Definition act_len (lA : nat) (b : pmat) : nat := (lA + plen b - 1)%N.
Definition act_bad (n lA K full : nat) (b : pmat) : bool :=
  (nr b < n)%N || (full < ru (act_len lA b) K)%N.

(** 144-175, 179-210, 232-247: the columns of b; [dot] computes the values of an entry of the result *)
Definition direct_cols (m n lA K : nat) (vala : nat -> nat -> arr) (dot : (nat -> arr) -> (nat -> arr) -> arr) (b : pmat) : pmat :=
  let la := act_len lA b in let len := ru la K in
  let: (_, C) := foldl (fun (st : (nat -> arr) * fmat P) i => let: (valb, C) := st in
      let valb := foldl (fun (V : nat -> arr) j => upd V j (to_rep (x K) (ent b j i))) valb (iota 0 n) in
      (valb, foldl (fun C k => upd2 C k i (from_trunc len (x K) (dot valb (vala k)) la)) C (iota 0 m)))
    (fun _ _ => 0, fun _ _ => 0) (iota 0 (nc b)) in
  Pmat m (nc b) C.

(** 217-248, multiply_direct. valb[0] does not exist when n = 0. *)
Definition dot_direct (n : nat) (valb va : nat -> arr) : arr :=
  let tmp1 : arr := fun r => valb 0%N r * va 0%N r in
  foldl (fun (tmp1 : arr) j => let tmp2 : arr := fun r => valb j r * va j r in fun r => tmp1 r + tmp2 r) tmp1 (iota 1 (n - 1)).
Definition lm_direct (m n lA K full : nat) (vala : nat -> nat -> arr) (b : pmat) : aoutcome pmat :=
  if act_bad n lA K full b || ((n == 0%N) && (0 < m)%N && (0 < nc b)%N) then AUB
  else AOk (direct_cols m n lA K vala (dot_direct n) b).

(** 122-215, multiply_direct_ll_type; the two branches differ by the reduction, see [ll_red]. b[0][0] is read in line 139. *)
Definition dot_ll (n : nat) (valb va : nat -> arr) : arr :=
  fun r => (ll_dot wbits spbits pr n (fun j => rep (valb j r)) (fun j => rep (va j r)))%:R.
Definition lm_ll (m n lA K full : nat) (vala : nat -> nat -> arr) (b : pmat) : aoutcome pmat :=
  if [|| act_bad n lA K full b, nr b == 0%N, nc b == 0%N | n == 0%N] then AUB
  else AOk (direct_cols m n lA K vala (dot_ll n) b).

(** 61-119, mat_lzz_pX_lmultiplier_FFT_direct, constructor and multiply. When __dA + dB is negative d is 0 or -1
    in the code and 0 here, which are both less than the thresholds. *)
Definition lmul_direct (a : pmat) (dB : nat) : aoutcome (pmat -> aoutcome pmat) :=
  let m := nr a in let n := nc a in let lA := plen a in
  let K := lm_idx lA dB in let full := lm_len lA dB in
  if lm_bad lA dB then AUB else
  let vala := direct_vala K a in
  AOk (fun b =>
    if (dB.+1 < plen b)%N then AUB else
    let cube := (m * n * nc b)%N in
    let d := ((lA + plen b - 2) %/ 2)%N in
    if (if (nbits < 25)%N then (cube < 4 * 4 * 4)%N || ((cube <= 6 * 6 * 6)%N && (100 < d)%N)
        else (cube < 4 * 4 * 4)%N || ((cube == 4 * 4 * 4)%N && (90 <= d)%N) || ((cube <= 8 * 8 * 8)%N && (65 <= d)%N))
    then lm_direct m n lA K full vala b else lm_ll m n lA K full vala b).

(** 260-375, mat_lzz_pX_lmultiplier_FFT_matmul, constructor and multiply *)
Definition lmul_matmul (a : pmat) (dB : nat) : aoutcome (pmat -> aoutcome pmat) :=
  let s := nr a in let t := nc a in let lA := plen a in
  let K := lm_idx lA dB in let full := lm_len lA dB in
  if lm_bad lA dB then AUB else
  match load_phase (fun M r i k v => upd3 M r i k v) mblock_size full s t (x K) (ent a) (AOk (@no_buffers F, (fun _ _ _ => 0) : nat -> fmat F)) with
  | AUB => AUB
  | AOk (_, va) => AOk (fun b =>
    if (dB.+1 < plen b)%N || act_bad t lA K full b then AUB else
    let u := nc b in
    let la := act_len lA b in let len := ru la K in
    match load_phase (fun M r i k v => upd M (r * (t * u) + i * u + k)%N v) line_size len t u (x K) (ent b)
        (AOk (@no_buffers F, (fun _ => 0) : arr)) with
    | AUB => AUB
    | AOk (_, mB) =>
      let z : fmat F := fun _ _ => 0 in
      let: (_, _, C) := foldl (fun (st : fmat F * (nat -> fmat F) * (nat -> arr)) blk =>
          let: (vb, vc, C) := st in
          let j := (blk * line_size)%N in
          let: (vb, vc) := foldl (fun (st : fmat F * (nat -> fmat F)) jj => let: (vb, vc) := st in
              let vb := fill t u (fun i k => mB ((j + jj) * (t * u) + i * u + k)%N) vb in
              (vb, upd vc jj (fmul t (va (j + jj)%N) vb))) (vb, vc) (iota 0 (minn line_size (len - j))) in
          (vb, vc, store_block len s u blk vc C))
        (z, (fun _ => z), (fun _ _ => 0)) (iota 0 (blocks len line_size)) in
      AOk (unload (fun v => from_trunc len (x K) v la) s u C)
    end)
  end.

(** 631-637, get_lmultiplier for a modulus set by FFTInit *)
Definition lmul_fft (a : pmat) (dB : nat) : aoutcome (pmat -> aoutcome pmat) :=
  if (nr a <= 100)%N then lmul_direct a dB else lmul_matmul a dB.
End Fft.

Section Points.
Variable F : fieldType.
Local Notation P := {poly F}.
Local Notation pmat := (pmat F).
Local Notation arr := (nat -> F).

(** 449-460, 528-544: the products at the points, [va j] is the value of a at the j-th point; the result is given by [store] *)
Definition lm_products (T : Type) (store : nat -> fmat F -> T -> T) (n t u : nat) (va : nat -> fmat F) (vB : nat -> nat -> nat -> F) (z : T) : T :=
  (foldl (fun (st : fmat F * T) j => let: (vb, C) := st in
      let vb := fill t u (fun i k => vB j i k) vb in
      (vb, store j (fmul t (va j) vb) C)) (fun _ _ => 0, z) (iota 0 n)).2.

(** 479-557, mat_lzz_pX_lmultiplier_dense, constructor and multiply. When a is zero the entry (0, 0) of the
    matrix vdm1 of vandermonde does not exist; inv is an error when the points are not distinct. The degree of b is not
    tested: a coefficient of too large degree is written outside of tmp_mat. *)
Definition lmul_dense (a : pmat) (dB : nat) : aoutcome (pmat -> aoutcome pmat) :=
  let m := nr a in let n := nc a in let lA := plen a in
  if lA == 0%N then AUB else
  let nb := (lA + dB)%N in
  let: (V, vA, vB) := vandermonde F lA dB.+1 nb in
  match inv_mat nb V with
  | AUB => AUB
  | AOk iv =>
    let z : fmat F := fun _ _ => 0 in
    let coefs (s t : nat) (e : fmat P) := foldl (fun M i => foldl (fun M j =>
        foldl (fun M k => upd2 M k (i * t + j)%N (e i j)`_k) M (iota 0 (size (e i j)))) M (iota 0 t)) z (iota 0 s) in
    let valA := fmul lA vA (coefs m n (ent a)) in
    let valAp := foldl (fun (V : nat -> fmat F) i => upd V i (fill m n (fun u v => valA i (u * n + v)%N) z)) (fun _ => z) (iota 0 nb) in
    AOk (fun b => let p := nc b in
      if (dB.+1 < plen b)%N || (nr b < n)%N then AUB else
      let valB := fmul dB.+1 vB (coefs n p (ent b)) in
      let valC := lm_products (fun i valCp C => foldl (fun M u => foldl (fun M v => upd2 M i (u * p + v)%N (valCp u v)) M (iota 0 p)) C (iota 0 m))
        nb n p valAp (fun i u v => valB i (u * p + v)%N) z in
      let tmp := fmul nb iv valC in
      AOk (Pmat m p (win (fun u v _ => \poly_(i < nb) tmp i (u * p + v)%N) 0 m 0 p (fun _ _ => 0))))
  end.

(** see N_eval_model *)
Variables (fuel MX KARX : nat) (ul : bool) (garb : arr).
Variables (cord : nat) (rnd : seq F) (feas fft : bool).

(** 386-467, mat_lzz_pX_lmultiplier_geometric, constructor and multiply. The constructor prepares the degree dB only. *)
Definition lmul_geometric (a : pmat) (dB : nat) : option (aoutcome (pmat -> option (aoutcome pmat))) :=
  let s := nr a in let t := nc a in
  let n := (plen a + dB)%N in
  bindm (Some (get_geometric_points cord rnd feas fft n)) (fun o =>
  bindm (Some (prepare_degree o dB)) (fun o =>
  let ev := geo_evaluate fuel MX KARX ul garb o in
  bindm (foldl (fun st i => foldl (fun st k => bindm st (fun M => bindm (ev (ent a i k)) (fun v =>
      Some (AOk (foldl (fun M r => upd3 M r i k (v r)) M (iota 0 n)))))) st (iota 0 t)) (Some (AOk (fun _ _ _ => 0))) (iota 0 s)) (fun va =>
  Some (AOk (fun b => let u := nc b in
    if (dB.+1 < plen b)%N || (nr b < t)%N then Some AUB else
    let n := g_n o in
    bindm (store_vals ev n t u (ent b)) (fun vB =>
    let C := lm_products (fun j vc C => foldl (fun C i => foldl (fun C k => upd2 C (i * u + k)%N j (vc i k)) C (iota 0 u)) C (iota 0 s))
      n t u va (fun j i k => vB (j * (t * u) + i * u + k)%N) (fun _ _ => 0) in
    Some (AOk (Pmat s u (win (fun i k _ => geo_interpolate o (C (i * u + k)%N)) 0 s 0 u (fun _ _ => 0)))))))))).
End Points.

Section Get.
(** the modulus and its FFT; the constants of NTL and its FFT primes; see N_mm_model *)
Variables (p : nat) (fftp : bool) (maxroot_p : nat) (xp : nat -> nat -> 'F_p) (nbits_p : nat).
Variables (wbits spbits : nat) (ru : nat -> nat -> nat).
Variables (q : nat -> nat) (nbits maxroot : nat -> nat) (x3 : forall i, nat -> nat -> 'F_(q i)).
Variables (fuel MX KARX : nat) (ul : bool) (garb : nat -> 'F_p) (rnd : seq 'F_p) (feas fft : bool).
Local Notation pmat := (pmat [fieldType of 'F_p]).

(** 575-579: the multiplier modulo the i-th FFT prime *)
Definition fft_mul (a : zmat) (dB i : nat) : aoutcome (zmat -> aoutcome zmat) :=
  match lmul_fft wbits spbits (q i) (fun z : 'F_(q i) => val z) (nbits i) true (maxroot i) (@x3 i) ru (to_field (q i) (reduce_mod_p (q i) a)) dB with
  | AUB => AUB
  | AOk f => AOk (fun b => match f (to_field (q i) b) with AUB => AUB | AOk c => AOk (from_field c) end)
  end.
Definition failed (A : Type) (r : aoutcome A) : bool := if r is AUB then true else false.

(** 568-621, mat_lzz_pX_lmultiplier_3_primes, constructor and multiply *)
Definition lmul_3 (a : zmat) (dB : nat) : aoutcome (zmat -> option (aoutcome zmat)) :=
  match nb_primes p (znc a) (zlen a) dB.+1 (q 0) (q 1) (q 2) with
  | None => AUB
  | Some nb =>
    let muls := foldl (fun (V : nat -> aoutcome (zmat -> aoutcome zmat)) i => upd V i (fft_mul a dB i)) (fun _ => AUB) (iota 0 nb) in
    if has (fun i => failed (muls i)) (iota 0 nb) then AUB
    else AOk (fun b => three_primes q p (Some nb) (fun i =>
      match muls i with
      | AUB => AUB
      | AOk f => f (if (p < q i)%N then b else reduce_mod_p (q i) b)
      end))
  end.
Definition lmul_3p (a : pmat) (dB : nat) : aoutcome (pmat -> option (aoutcome pmat)) :=
  match lmul_3 (from_field a) dB with
  | AUB => AUB
  | AOk f => AOk (fun b => match f (from_field b) with
    | None => None
    | Some AUB => Some AUB
    | Some (AOk c) => Some (AOk (to_field p c))
    end)
  end.

Definition total (A B : Type) (r : aoutcome (A -> aoutcome B)) : option (aoutcome (A -> option (aoutcome B))) :=
  Some (match r with AUB => AUB | AOk f => AOk (fun b => Some (f b)) end).

(** 626-655, get_lmultiplier; type_of_prime is in lzz_p_extra.h:69-76. dA <= 30 when lA <= 31. *)
Definition get_lmultiplier (a : pmat) (dB : nat) : option (aoutcome (pmat -> option (aoutcome pmat))) :=
  let m := nr a in let lA := plen a in
  let dense := [|| (m <= 20)%N && (lA <= 31)%N, (m <= 40)%N && (lA <= 91)%N | (lA <= 151)%N] in
  if fftp then total (lmul_fft wbits spbits p (fun z : 'F_p => val z) nbits_p fftp maxroot_p xp ru a dB)
  else if (nbits_p <= 25)%N then
    if dense then total (lmul_dense a dB) else Some (lmul_3p a dB)
  else if dense then total (lmul_dense a dB)
  else if (m <= 200)%N then Some (lmul_3p a dB)
  else lmul_geometric fuel MX KARX ul garb p rnd feas fft a dB.
End Get.
