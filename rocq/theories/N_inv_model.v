(** Model of ntl-extras/mat_lzz_pX_extra/src/mat_lzz_pX_inv_trunc.cpp: inverse of a matrix of polynomials modulo a power of the
    variable, by the naive algorithm and by three versions of Newton iteration. high_order_lift_inverse_odd (lines 453-480) is not modelled.
    Two of the versions write the arrays of coefficients of the entries of the result directly: the result is modelled with its
    memory. None: fuel is too small; AUB: an error of NTL or an access out of bounds. *)
From Coq Require Import ZArith.
From mathcomp Require Import all_ssreflect all_algebra.
From Verif Require Import A_base A_mul_model N_multi_model N_pmat_model N_util_model N_poly_model N_geo_model N_mfft_model N_eval_model N_mp_model.
Set Implicit Arguments.
Unset Strict Implicit.
Unset Printing Implicit Defensive.
Import GRing.Theory.
Local Open Scope ring_scope.

(** 16-30, degrees. The entries are appended, and the vector is reversed at the end *)
Fixpoint degrees_loop (fuel n thresh : nat) (all_deg : seq nat) : option (seq nat) :=
  if (thresh < n)%N then
    if fuel is fuel'.+1 then
      let n := if odd n then n.+1 else n in
      degrees_loop fuel' n./2 thresh (n :: all_deg)
    else None
  else Some (n :: all_deg).
Definition degrees (fuel n thresh : nat) : option (seq nat) := degrees_loop fuel n thresh [::].

Section Inv.
Variable F : fieldType.
Local Notation P := {poly F}.
Local Notation pmat := (pmat F).
Local Notation arr := (nat -> F).

(** *** A matrix of polynomials with its memory *)

(** [cells i j]: the array x[i][j].rep, beyond its length as well: what is there was left by an earlier use of the
    vector, or is the value 0 of a zz_p when it is constructed. [lens i j]: the length of this array *)
Record raw := Raw { rr : nat; rc : nat; cells : nat -> nat -> arr; lens : nat -> nat -> nat }.
(** the matrix of polynomials *)
Definition value (x : raw) : pmat := Pmat (rr x) (rc x) (fun i j => \poly_(k < lens x i j) cells x i j k).
(** a new matrix *)
Definition new_raw : raw := Raw 0 0 (fun _ _ _ => 0) (fun _ _ => 0%N).
(** NTL, SetDims: see set_dims in N_util_model *)
Definition raw_dims (x : raw) (m n : nat) : raw :=
  if n == rc x then Raw m n (cells x) (lens x) else Raw m n (fun _ _ _ => 0) (fun _ _ => 0%N).
(** NTL, zz_pX::normalize, for an array of length n: the new length *)
Definition norm_len (c : arr) (n : nat) : nat := size (\poly_(k < n) c k).
(** a loop over the entries *)
Definition each (s t : nat) (g : nat -> nat -> raw -> raw) (x : raw) : raw :=
  foldl (fun x i => foldl (fun x j => g i j x) x (iota 0 t)) x (iota 0 s).
Definition set_entry (x : raw) (i j : nat) (c : arr) (l : nat) : raw :=
  Raw (rr x) (rc x) (upd2 (cells x) i j c) (upd2 (lens x) i j l).

(** mat_lzz_pX_utils.cpp:540-546, conv from a constant matrix. NTL, conv(zz_pX, zz_p): SetLength(0) for zero, otherwise
    SetLength(1) and the coefficient is written *)
Definition raw_const (x : raw) (s : nat) (c : fmat F) : raw :=
  each s s (fun i j x => if c i j == 0 then set_entry x i j (cells x i j) 0%N
                         else set_entry x i j (upd (cells x i j) 0%N (c i j)) 1%N) (raw_dims x s s).
(** mat_lzz_pX_utils.cpp:578-622, conv from a vector of matrices. The loops by blocks are in conv_pmat in N_util_model; here
    they are written entry by entry *)
Definition raw_vec (x : raw) (s len : nat) (v : nat -> fmat F) : raw :=
  if len == 1%N then raw_const x s (v 0%N)
  else each s s (fun i j x =>
      let c := foldl (fun c k => upd c k (v k i j)) (cells x i j) (iota 0 len) in
      set_entry x i j c (norm_len c len)) (raw_dims x s s).
(** mat_lzz_pX_utils.cpp:248-254, trunc(x, x, n): NTL shortens the arrays that are longer than n *)
Definition raw_trunc (x : raw) (n : nat) : raw :=
  each (rr x) (rc x) (fun i j x =>
      if (n < lens x i j)%N then set_entry x i j (cells x i j) (norm_len (cells x i j) n) else x) x.

(** *** 38-90, plain_inv_trunc *)

(** 65-84: the coefficient of index k; ac and xc: the coefficients of a and x, d the degree of a *)
Definition plain_coef (s d : nat) (ac xc : nat -> fmat F) (k : nat) : fmat F :=
  let minkd := minn k d in
  let t := fmul s (xc (k - 1)%N) (ac 1%N) in
  let t := foldl (fun (t : fmat F) i => let buf := fmul s (xc (k - i)%N) (ac i) in fun u v => t u v + buf u v) t (iota 2 (minkd - 1)) in
  let t := fmul s t (xc 0%N) in
  fun u v => - t u v.
(** x_coeffs[0] does not exist when m = 0; inv is an error when a is not square *)
Definition plain_inv_trunc (x : raw) (a : pmat) (m : nat) : aoutcome raw :=
  if plen a == 0%N then AUB
  else
    let d := (plen a).-1 in
    let ac := vent (conv_vmat_order a (minn d.+1 m)) in
    if (m == 0%N) || (nr a != nc a) then AUB
    else
      let s := nr a in
      match inv_mat s (ac 0%N) with
      | AUB => AUB
      | AOk x0 =>
        if d == 0%N then AOk (raw_const x s x0)
        else
          let xc := foldl (fun xc k => upd xc k (plain_coef s d ac xc k)) (upd (fun _ _ _ => 0) 0%N x0) (iota 1 (m - 1)) in
          AOk (raw_vec x s m xc)
      end.

(** *** 213-230, 401-417: -P is written in the upper part of the entries of x *)
Definition write_high (k : nat) (p : P) (c : arr) : arr :=
  foldl (fun c ii => upd c ii (if (size p <= ii - k)%N then 0 else - p`_(ii - k))) c (iota k k).
Definition raise_entries (s k : nat) (p : nat -> nat -> P) (x : raw) : raw :=
  each s s (fun i ell x => let c := write_high k (p i ell) (cells x i ell) in
      set_entry x i ell c (norm_len c (2 * k))) x.

(** *** 99-235, newton_inv_trunc_FFT *)
Section FFT.
(** the modulus was set by FFTInit, and its MaxRoot; the points of the transforms, see N_mmfft_model *)
Variables (fftp : bool) (maxroot : nat) (y : nat -> arr).

(** 132-231: the iteration *)
Definition fft_step (x : raw) (a : pmat) (s k : nat) : aoutcome raw :=
  let t := next_pow2 (2 * k) in
  let n := (2 ^ t)%N in
  (* the case that is not modelled, and the errors of TofftRep *)
  if ~~ fftp || (maxroot < t)%N then AUB
  else
    let ev (p : P) : option (aoutcome arr) := Some (AOk (to_rep (y t) p)) in
    match store_vals ev n s s (ent (value x)), store_vals ev n s s (fun i j => ptrunc (2 * k) (ent a i j)) with
    | Some (AOk mat_val1), Some (AOk mat_val2) =>
      let mat_val3 := pointwise n s s s mat_val1 mat_val2 in
      (* 184-195; each entry is the values of a polynomial *)
      match store_vals ev n s s (fun i ell => from_range n (y t) (mat_val3 (i * s + ell)%N) k (2 * k - 1)) with
      | Some (AOk mat_val2) =>
        let mat_val3 := pointwise n s s s mat_val2 mat_val1 in
        AOk (raise_entries s k (fun i ell => from_range n (y t) (mat_val3 (i * s + ell)%N) 0 (k - 1)) x)
      | _ => AUB
      end
    | _, _ => AUB
    end.
Fixpoint fft_loop (fuel : nat) (x : raw) (a : pmat) (s k m : nat) : option (aoutcome raw) :=
  if (k < m)%N then
    if fuel is fuel'.+1 then bindm (Some (fft_step x a s k)) (fun x => fft_loop fuel' x a s (2 * k)%N m) else None
  else Some (AOk (raw_trunc x m)).
(** 119-235, when x is not a *)
Definition newton_fft_noalias (fuel : nat) (x : raw) (a : pmat) (m thresh : nat) : option (aoutcome raw) :=
  bindm (Some (plain_inv_trunc x a thresh)) (fun x => fft_loop fuel (raw_dims x (nr a) (nr a)) a (nr a) thresh m).
(** 99-107; None for thresh: the default value, 8 (thresholds_plain_newton_geometric_mp_inv_trunc.h) *)
Definition newton_inv_trunc_fft (fuel : nat) (alias : bool) (x : raw) (a : pmat) (m : nat) (thresh : option nat) : option (aoutcome raw) :=
  newton_fft_noalias fuel (if alias then new_raw else x) a m (odflt 8%N thresh).
End FFT.

(** *** 244-288, newton_inv_trunc_middle_product *)
Section Middle.
(** middle_product and multiply(y, y, x), with the default is_prime *)
Variables (mp : pmat -> pmat -> nat -> nat -> option (aoutcome pmat)) (mul : pmat -> pmat -> option (aoutcome pmat)).

(** 270-284; tr is overwritten. all_deg[idx] must exist *)
Fixpoint middle_loop (fuel : nat) (x a : pmat) (all_deg : seq nat) (idx k m : nat) : option (aoutcome pmat) :=
  if (k < m)%N then
    if fuel is fuel'.+1 then
      let tr := pm_truncate false (new_pmat F) a (2 * k) in
      bindm (mp x tr k (k - 1)) (fun y =>
      bindm (mul y x) (fun y =>
      let y := pm_truncate true y y k in
      let y := pm_lshift true y y (Z.of_nat k) in
      bindm (Some (pm_sub_to true false x x y)) (fun x =>
      if (size all_deg <= idx)%N then Some AUB
      else
        let k2 := (2 * k)%N in
        let k3 := nth 0%N all_deg idx in
        let x := if k2 != k3 then pm_truncate true x x k3 else x in
        middle_loop fuel' x a all_deg idx.+1 k3 m)))
    else None
  else Some (AOk (pm_truncate true x x m)).
(** 244-253 (thresh is not passed to the recursive call) and 255-288; the default threshold is 64 for all primes *)
Definition newton_inv_trunc_middle (fuel : nat) (alias : bool) (x : raw) (a : pmat) (m : nat) (thresh : option nat) : option (aoutcome pmat) :=
  let thresh := if alias then None else thresh in
  let x := if alias then new_raw else x in
  match degrees fuel m (odflt 64%N thresh) with
  | None => None
  | Some all_deg =>
    let k := nth 0%N all_deg 0 in
    bindm (Some (plain_inv_trunc x a k)) (fun x => middle_loop fuel (value x) a all_deg 1 k m)
  end.
End Middle.

(** *** 297-428, newton_inv_trunc_geometric *)
Section Geometric.
(** the middle product used by the evaluation, the modulus, the random values and the choices of the constructor of the
    points, see N_geo_model *)
Variables (gfuel MX KARX : nat) (ul : bool) (garb : arr) (cord : nat) (rnd : seq F) (feas fft : bool).

(** 349-354, power_x *)
Definition powers (n : nat) (inv_q : F) : arr :=
  foldl (fun (p : arr) i => upd p i (p i.-1 * inv_q)) (upd (fun _ => 0) 0%N 1) (iota 1 (n - 1)).
(** 380-400, mat_val3 *)
Definition geo_values (n s k : nat) (power_x mat_val1 mat_val2 : arr) : fmat F :=
  let z : fmat F := fun _ _ => 0 in
  (foldl (fun (st : fmat F * fmat F * fmat F) j => let: (v1, v2, C) := st in
      let coeff := power_x j ^+ k in
      let v1 := fill s s (fun i ell => mat_val1 (j * (s * s) + i * s + ell)%N) v1 in
      let v2 := fill s s (fun i ell => mat_val2 (j * (s * s) + i * s + ell)%N) v2 in
      let v3 := fmul s v1 v2 in
      let v3 := foldl (fun v3 i => foldl (fun (v3 : fmat F) ell =>
          if i == ell then upd2 v3 i ell ((v3 i ell - 1) * coeff) else upd2 v3 i ell (v3 i ell * coeff)) v3 (iota 0 s)) v3 (iota 0 s) in
      let v3 := fmul s v3 v1 in
      (v1, v2, foldl (fun C i => foldl (fun C ell => upd2 C (i * s + ell)%N j (v3 i ell)) C (iota 0 s)) C (iota 0 s)))
    (z, z, z) (iota 0 n)).2.
(** 333-418: the iteration *)
Definition geo_step (x : raw) (a : pmat) (s k : nat) : option (aoutcome raw) :=
  let n := (3 * k - 2)%N in
  bindm (Some (get_geometric_points cord rnd feas fft n)) (fun o =>
  bindm (Some (prepare_degree o (k - 1))) (fun o =>
  bindm (Some (if k != 1%N then prepare_degree o (2 * k - 1) else AOk o)) (fun o =>
  let power_x := powers n (get_q o)^-1 in
  let ev := geo_evaluate gfuel MX KARX ul garb o in
  bindm (store_vals ev n s s (ent (value x))) (fun mat_val1 =>
  bindm (store_vals ev n s s (fun i j => ptrunc (2 * k) (ent a i j))) (fun mat_val2 =>
  let mat_val3 := geo_values n s k power_x mat_val1 mat_val2 in
  Some (AOk (raise_entries s k (fun i ell => geo_interpolate o (mat_val3 (i * s + ell)%N)) x))))))).
(** 333-427 *)
Fixpoint geo_loop (fuel : nat) (x : raw) (a : pmat) (s : nat) (all_deg : seq nat) (idx k m : nat) : option (aoutcome raw) :=
  if (k < m)%N then
    if fuel is fuel'.+1 then
      bindm (geo_step x a s k) (fun x =>
      if (size all_deg <= idx)%N then Some AUB
      else
        let k2 := (2 * k)%N in
        let k3 := nth 0%N all_deg idx in
        let x := if k2 != k3 then raw_trunc x k3 else x in
        geo_loop fuel' x a s all_deg idx.+1 k3 m)
    else None
  else Some (AOk (raw_trunc x m)).
(** 297-331; the first test compares the contents of x and a, [same]; the default threshold is 32 for all primes *)
Definition newton_inv_trunc_geometric (fuel : nat) (same : bool) (x : raw) (a : pmat) (m : nat) (thresh : option nat) : option (aoutcome raw) :=
  let thresh := if same then None else thresh in
  let x := if same then new_raw else x in
  match degrees fuel m (odflt 32%N thresh) with
  | None => None
  | Some all_deg =>
    let k := nth 0%N all_deg 0 in
    bindm (Some (plain_inv_trunc x a k)) (fun x => geo_loop fuel x a (nr a) all_deg 1 k m)
  end.
End Geometric.

(** *** 437-450, inv_trunc; max_degree_middle_product_inv_trunc() is LONG_MAX, so that the last function is not used *)
Definition inv_trunc (fuel : nat) (fftp : bool) (maxroot : nat) (y : nat -> arr)
    (mp : pmat -> pmat -> nat -> nat -> option (aoutcome pmat)) (mul : pmat -> pmat -> option (aoutcome pmat))
    (alias : bool) (x : raw) (a : pmat) (m : nat) : option (aoutcome pmat) :=
  if fftp && (next_pow2 (m + 2) <= maxroot)%N then
    bindm (newton_inv_trunc_fft fftp maxroot y fuel alias x a m None) (fun x => Some (AOk (value x)))
  else newton_inv_trunc_middle mp mul fuel alias x a m None.
End Inv.
