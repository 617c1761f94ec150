(** ntl-extras/mat_lzz_pX_extra/src/mat_lzz_pX_determinant.cpp: determinants of polynomial matrices. NTL's determinant of a matrix over the
    field is the determinant; it is an error for a matrix that is not square. A long is an integer without bounds; the division of doubles
    of line 248 is exact; the messages are not modelled. determinant_via_linsolve (lines 296-301) is not modelled. *)
From Coq Require Import ZArith.
From mathcomp Require Import all_ssreflect all_algebra.
From Verif Require Import A_base A_mul_model N_multi_model N_crt_model N_poly_model N_geo_model N_mfft_model N_pmat_model N_util_model N_forms_model N_eval_model N_pmb_model N_ker_model.
Set Implicit Arguments.
Unset Strict Implicit.
Unset Printing Implicit Defensive.
Import GRing.Theory Num.Theory.
Local Open Scope ring_scope.

Section Det.
Variable F : fieldType.
Local Notation P := {poly F}.
Local Notation pmat := (pmat F).

(** 11-37, verify_determinant; pt1 and pt2 are the random points of lines 17 and 31 *)
Definition verify_determinant (det : P) (pm : pmat) (up_to_constant randomized : bool) (pt1 pt2 : F) : fout bool :=
  if ~~ randomized then Throws
  else if nr pm != nc pm then Undef
  else
    let det_at pt := \det (mx_of (nr pm) (nr pm) (fun i j => (ent pm i j).[pt])) in
    if ~~ up_to_constant then Ret (det_at pt1 == det.[pt1])
    else Ret (det_at pt1 * det.[pt2] == det_at pt2 * det.[pt1]).

(** 48-178, determinant_expansion_by_minors; x is the previous value of det, kept when the dimension is 0 or more than 4. The columns are
    assumed to exist, [det22 a b] is the determinant of the rows 0, 1 and the columns a, b *)
Definition expansion_by_minors (x : P) (pm : pmat) : P :=
  let e := ent pm in
  match nr pm with
  | 1 => e 0%N 0%N
  | 2 => e 0%N 0%N * e 1%N 1%N - e 0%N 1%N * e 1%N 0%N
  | 3 =>
    let det := e 2%N 0%N * (e 0%N 1%N * e 1%N 2%N - e 0%N 2%N * e 1%N 1%N) in
    let det := det + e 2%N 1%N * (e 0%N 2%N * e 1%N 0%N - e 0%N 0%N * e 1%N 2%N) in
    det + e 2%N 2%N * (e 0%N 0%N * e 1%N 1%N - e 0%N 1%N * e 1%N 0%N)
  | 4 =>
    let det22_0 := e 0%N 0%N * e 1%N 1%N - e 0%N 1%N * e 1%N 0%N in
    let det22_1 := e 0%N 0%N * e 1%N 2%N - e 0%N 2%N * e 1%N 0%N in
    let det22_2 := e 0%N 0%N * e 1%N 3%N - e 0%N 3%N * e 1%N 0%N in
    let det22_3 := e 0%N 1%N * e 1%N 2%N - e 0%N 2%N * e 1%N 1%N in
    let det22_4 := e 0%N 1%N * e 1%N 3%N - e 0%N 3%N * e 1%N 1%N in
    let det22_5 := e 0%N 2%N * e 1%N 3%N - e 0%N 3%N * e 1%N 2%N in
    let det33 := e 2%N 1%N * det22_5 - e 2%N 2%N * det22_4 + e 2%N 3%N * det22_3 in
    let det := - (e 3%N 0%N * det33) in
    let det33 := e 2%N 0%N * det22_5 - e 2%N 2%N * det22_2 + e 2%N 3%N * det22_1 in
    let det := det + e 3%N 1%N * det33 in
    let det33 := e 2%N 0%N * det22_4 - e 2%N 1%N * det22_2 + e 2%N 3%N * det22_0 in
    let det := det + - (e 3%N 2%N * det33) in
    let det33 := e 2%N 0%N * det22_3 - e 2%N 1%N * det22_1 + e 2%N 2%N * det22_0 in
    det + e 3%N 3%N * det33
  | _ => x
  end.

(** 180-208, determinant_expansion_by_minors_rec; lines 195-200 fill all of buf. INIT_SIZE with a negative dimension is an error of NTL. fuel
    bounds the depth of the recursion and is not part of the code *)
Definition minor_buf (pm : pmat) (k : nat) : pmat :=
  Pmat (nr pm).-1 (nr pm).-1 (fun i j => if (i < k)%N then ent pm i j.+1 else ent pm i.+1 j.+1).
Fixpoint expansion_rec (fuel : nat) (pm : pmat) : fout P :=
  let dim := nr pm in
  if dim == 1%N then Ret (ent pm 0%N 0%N)
  else if dim == 0%N then Undef
  else if fuel is fuel.+1 then
    foldl (fun (det : fout P) k => fbind det (fun det => fbind (expansion_rec fuel (minor_buf pm k)) (fun tmp =>
      let tmp := ent pm k 0%N * tmp in
      Ret (if ~~ odd k then det + tmp else det - tmp)))) (Ret 0) (iota 0 dim)
  else Undef.

(** 210-284, determinant_generic_knowing_degree: the returned boolean and det. pmb is pmbasis and mul is multiply. A negative order is an
    error of NTL (SetLength) *)
Variable pmb : pmat -> nat -> seq int -> fout (pmat * seq int).
Variable mul : pmat -> pmat -> fout pmat.
(** 251-253; plen is the degree plus one *)
Definition generic_order (dim cdim1 plen_l : nat) : int :=
  let deg_l := plen_l%:Z - 1 in
  let deg_ker := - divz (- (cdim1%:Z * deg_l)) (dim - cdim1)%:Z in
  deg_l + deg_ker + 1.
Fixpoint generic_knowing_degree (fuel : nat) (x : P) (pm : pmat) (degree : int) : fout (bool * P) :=
  let dim := nr pm in
  if (dim <= 4)%N then let det := expansion_by_minors x pm in Ret (degree == (size det)%:Z - 1, det)
  else if fuel is fuel.+1 then
    let cdim1 := dim./2 in let cdim2 := (dim - cdim1)%N in
    let pmat_l := take_cols pm 0 cdim1 in
    let pmat_r := take_cols pm cdim1 cdim2 in
    let order := generic_order dim cdim1 (plen pmat_l) in
    if order < 0 then Undef
    else fbind (pmb pmat_l `|order| (nseq dim 0)) (fun xy => let: (appbas, _) := xy in
    let kerbas := Pmat cdim2 dim (fun i j => ent appbas (i + cdim1)%N j) in
    fbind (mul kerbas pmat_r) (fun pmatt => generic_knowing_degree fuel x pmatt degree))
  else Undef.

(** 294-304, determinant_via_evaluation_general: None if the construction of the points does not end *)
Definition det_points (pm : pmat) : int := (nr pm)%:Z * ((plen pm)%:Z - 1) + 1.
Definition det_evaluation_general (fuel : nat) (pm : pmat) : option (aoutcome P) :=
  if (det_points pm < 0) || (nr pm != nc pm) then Some AUB
  else bindm (get_general_points F fuel `|det_points pm|) (fun ev =>
    Some (AOk (gen_interpolate ev (fun k => \det (mx_of (nr pm) (nr pm) (fun i j => gen_evaluate (gen_tree ev) (ent pm i j) k)))))).

(** 306-318, determinant_via_evaluation_geometric; the parameters are those of N_eval_model.v. The values of
    evaluate_matrix are stored in one array, as in that file *)
Variables (gfuel MX KARX : nat) (ul : bool) (garb : nat -> F) (cord : nat) (rnd : seq F) (feas fft : bool).
Definition det_evaluation_geometric (pm : pmat) : option (aoutcome P) :=
  if (det_points pm < 0) || (nr pm != nc pm) then Some AUB
  else bindm (Some (get_geometric_points cord rnd feas fft `|det_points pm|)) (fun o =>
  bindm (Some (if plen pm is d.+1 then prepare_degree o d else AUB)) (fun o =>
  bindm (store_vals (geo_evaluate gfuel MX KARX ul garb o) (g_n o) (nr pm) (nc pm) (ent pm)) (fun evals =>
  Some (AOk (geo_interpolate o (fun k => \det (mx_of (nr pm) (nr pm) (fun i j => evals (k * (nr pm * nc pm) + i * nc pm + j)%N)))))))).

(** 320-352, determinant_via_evaluation_FFT, when zz_p was initialised by FFTInit; [x k] are the 2^k-th roots of unity, see N_mfft_model.v.
    NextPowerOfTwo is 0 for a negative number; nb_points is computed with the type int. FromfftRep gives zero when its last index is negative *)
Definition det_evaluation_fft (maxroot : nat) (x : nat -> nat -> F) (pm : pmat) : aoutcome P :=
  let last := (nr pm)%:Z * ((plen pm)%:Z - 1) in
  let k := next_pow2 (if last < 0 then 0%N else `|last|.+1) in
  if (maxroot < k)%N || (31 <= k)%N || (nr pm != nc pm) then AUB
  else
    let v := fun l => \det (mx_of (nr pm) (nr pm) (fun i j => to_rep (x k) (ent pm i j) l)) in
    AOk (if last < 0 then 0 else \poly_(i < `|last|.+1) (from_rep (2 ^ k) (x k) v)`_i).
End Det.
