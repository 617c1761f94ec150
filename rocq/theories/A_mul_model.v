(** Models of the polynomial matrix products: flint-extras/src/nmod_poly_mat_extra/
    mul.c, mul_geometric.c, mul_vandermonde.c, mul_waksman.c, mulmid.c. Residues are
    elements of a field F, [modn] is the modulus (the characteristic of F). *)
From mathcomp Require Import all_ssreflect all_algebra zify.
From Verif Require Import A_base A_matpoly_model.
Set Implicit Arguments.
Unset Strict Implicit.
Unset Printing Implicit Defensive.
Import GRing.Theory Num.Theory.
Local Open Scope ring_scope.

Section Waksman.
(** any commutative coefficient ring, as Z/n with n not necessarily prime *)
Variable R : comRingType.
Implicit Types A B : fmat {poly R}.

(** mul_waksman.c:17-157, nmod_poly_mat_mul_waksman, C not aliased. State: the
    entries C, Crow, Ccol. The loops of lines 71-106 update each entry once. The
    modulus is assumed < 2^64 - 1 so that modn + 1 does not wrap (line 45). *)
Definition wak_state := (fmat {poly R} * (nat -> {poly R}) * (nat -> {poly R}))%type.
Definition wak_step A B (st : wak_state) (j : nat) : wak_state :=
  let '(C, Crow, Ccol) := st in
  let j2 := (j * 2 - 1)%N in
  ((fun l k => C l k + (A l (j2 - 1)%N + B j2 k) * (A l j2 + B (j2 - 1)%N k)),
   (fun k => Crow k + (A 0%N (j2 - 1)%N - B j2 k) * (A 0%N j2 - B (j2 - 1)%N k)),
   (fun l => Ccol l + (A l (j2 - 1)%N - B j2 0%N) * (A l j2 - B (j2 - 1)%N 0%N))).
(** lines 109-132: corrections of the first column, the first entry, then the
    other columns *)
Definition wak_finish (half : R) (st : wak_state) : fmat {poly R} :=
  let '(C, Crow, Ccol) := st in
  (* lines 109-114 *)
  let Ccol l := half *: (Ccol l + C l 0%N) in
  let C1 : fmat {poly R} := fun l k => if (k == 0%N) && (0 < l)%N then C l k - Ccol l else C l k in
  (* lines 116-118 *)
  let val0 := half *: (Crow 0%N + C1 0%N 0%N) in
  let C2 : fmat {poly R} := fun l k => if (k == 0%N) && (l == 0%N) then C1 l k - val0 else C1 l k in
  (* lines 120-132 *)
  let val1 k := half *: (Crow k + C2 0%N k) in
  fun l k =>
    if (0 < k)%N then
      (if l == 0%N then C2 0%N k - val1 k else C2 l k - (val1 k - val0) - Ccol l)
    else C2 l k.
Definition mul_waksman (modn m n p : nat) A B : fmat {poly R} :=
  if (m < 1)%N || (n < 1)%N || (p < 1)%N then fzero
  else
    let half : R := ((modn + 1) %/ 2)%N%:R in
    let C := wak_finish half
      (foldl (wak_step A B) (fzero, (fun _ => 0), (fun _ => 0)) (iota 1 (n %/ 2))) in
    (* lines 134-142 *)
    if odd n then (fun l k => C l k + A l (n - 1)%N * B (n - 1)%N k) else C.

(** mul_waksman.c:35-43, aliased output: the temporary has [n] columns instead of
    [p]; the recursive call writes p columns *)
Definition mul_waksman_alias (modn m n p : nat) A B : aoutcome (fmat {poly R}) :=
  if (m < 1)%N || (n < 1)%N || (p < 1)%N then AOk fzero
  else if (n < p)%N then AUB
  else AOk (mul_waksman modn m n p A B).
End Waksman.

Section Mul.
Variable F : fieldType.
Implicit Types A B : fmat {poly F}.

(** FLINT: nmod_poly_set_trunc / nmod_poly_truncate, nmod_poly_shift_right,
    nmod_poly_shift_left, entry by entry for matrices
    (nmod_poly_mat_utils.c/h: nmod_poly_mat_set_trunc, nmod_poly_mat_truncate,
    nmod_poly_mat_shift_right) *)
Definition ptrunc (d : nat) (p : {poly F}) : {poly F} := \poly_(k < d) p`_k.
Definition pshr (d : nat) (p : {poly F}) : {poly F} := \poly_(k < size p - d) p`_(d + k).
Definition pm_trunc d A : fmat {poly F} := fun i j => ptrunc d (A i j).
Definition pm_shr d A : fmat {poly F} := fun i j => pshr d (A i j).

(** FLINT: nmod_mat_inv, on an n x n matrix (unspecified when singular) *)
Definition finv n (V : fmat F) : fmat F := fun i j =>
  match insub i, insub j with
  | Some i', Some j' => (invmx (mx_of n n V)) i' j'
  | _, _ => 0
  end.

(** nmod_extra/nmod_find_root.c:14-31, nmod_find_root(n, mod), on field elements;
    the inner loop makes at most n steps *)
Fixpoint fr_inner (fuel : nat) (q qk : F) (k n : nat) : F :=
  if fuel is fuel'.+1 then
    if (qk != 1) && (k < n)%N then fr_inner fuel' q (qk * q) k.+1 n else qk
  else qk.
Fixpoint fr_outer (cnt q n : nat) : F :=
  if cnt is cnt'.+1 then
    if fr_inner n q%:R q%:R 1 n != 1 then q%:R else fr_outer cnt' q.+1 n
  else 0.
Definition find_root (modn n : nat) : F := fr_outer (modn - 2) 2 n.

(** FLINT: evaluation of a polynomial at q^k (k-th point of the geometric
    progression with ratio q), and interpolation: the coefficients of the
    polynomial of length <= n taking value v_k at q^k, k < n *)
Definition eval_geom (q : F) (p : {poly F}) (k : nat) : F := p.[q ^+ k].
Definition vdm (x : nat -> F) : fmat F := fun k i => x k ^+ i.
Definition interp_geom (q : F) (n : nat) (v : nat -> F) : nat -> F :=
  fun i => fmul n (finv n (vdm (fun k => q ^+ k))) (fun k _ => v k) i 0%N.

(** mul_geometric.c:32-119, _nmod_poly_mat_mul_geometric_precomp, res not aliased;
    [n] is the inner dimension; FLINT's progression initialised with w has
    ratio w^2 *)
Definition mul_geometric_precomp (n : nat) A (len1 : nat) B (len2 : nat) (q : F) : fmat {poly F} :=
  if (len1 == 0%N) || (len2 == 0%N) then fzero
  else
    let len := (len1 + len2 - 1)%N in
    let mod1 k : fmat F := fun i j => eval_geom q (A i j) k in
    let mod2 k : fmat F := fun i j => eval_geom q (B i j) k in
    let res k : fmat F := fmul n (mod1 k) (mod2 k) in
    fun i j => \poly_(t < len) interp_geom q len (fun k => res k i j) t.

(** mul_geometric.c:121-157, nmod_poly_mat_mul_geometric *)
Definition mul_geometric (modn m n p : nat) A B : fmat {poly F} :=
  let len1 := pm_max_length m n A in
  let len2 := pm_max_length n p B in
  if (len1 == 0%N) || (len2 == 0%N) then fzero
  else
    let w := find_root modn (2 * (len1 + len2 - 1)) in
    mul_geometric_precomp n A len1 B len2 (w ^+ 2).

(** mul_vandermonde.c:13-63, vandermonde_init1: points 0, 1, .., nb_points-1; row
    0 of vdm is 1, 0, .., 0; vdm1 and vdm2 are made of the first columns *)
Definition vdm_points1 (i : nat) : F := i%:R.

(** mul_vandermonde.c:71-209, nmod_poly_mat_mul_vandermonde1, c not aliased. The
    columns of tmp_mat, valA, valB, valC are indexed by ell = i*n + j. *)
Definition mul_vandermonde1 (m n p : nat) A B : fmat {poly F} :=
  let ellA := pm_max_length m n A in
  let ellB := pm_max_length n p B in
  if (ellA == 0%N) || (ellB == 0%N) then fzero
  else
    let nb := ((ellA - 1) + (ellB - 1) + 1)%N in
    let V := vdm vdm_points1 in
    let tmpA : fmat F := fun k ell => (A (ell %/ n) (ell %% n))%N`_k in
    let valA := fmul ellA V tmpA in
    let tmpB : fmat F := fun k ell => (B (ell %/ p) (ell %% p))%N`_k in
    let valB := fmul ellB V tmpB in
    let valAp i : fmat F := fun u v => valA i (u * n + v)%N in
    let valBp i : fmat F := fun u v => valB i (u * p + v)%N in
    let valC : fmat F := fun i ell => fmul n (valAp i) (valBp i) (ell %/ p)%N (ell %% p)%N in
    let tmp := fmul nb (finv nb V) valC in
    fun u v => \poly_(i < nb) tmp i (u * p + v)%N.

(** mul_vandermonde.c:216-260, vandermonde_init2: points (i+1)^2 *)
Definition vdm_points2 (i : nat) : F := i.+1%:R * i.+1%:R.

(** mul_vandermonde.c:315-330 and 354-379: even and odd parts of an entry of
    length d *)
Definition even_part (a : {poly F}) (k : nat) : F :=
  let d := size a in
  if (2 * k + 1 < d)%N then a`_(2 * k)
  else if (d %% 2 == 1)%N && (k == d %/ 2)%N then a`_(d - 1) else 0.
Definition odd_part (a : {poly F}) (k : nat) : F :=
  if (2 * k + 1 < size a)%N then a`_(2 * k + 1) else 0.

(** mul_vandermonde.c:268-503, nmod_poly_mat_mul_vandermonde2, c not aliased *)
Definition mul_vandermonde2 (m n p : nat) A B : fmat {poly F} :=
  let ellA := pm_max_length m n A in
  let ellB := pm_max_length n p B in
  if (ellA == 0%N) || (ellB == 0%N) then fzero
  else
    let dA := (ellA - 1)%N in
    let dB := (ellB - 1)%N in
    let sA := (dA %/ 2 + 1)%N in
    let sB := (dB %/ 2 + 1)%N in
    let nb := ((dA + dB) %/ 2 + 1)%N in
    let V := vdm vdm_points2 in
    let tA part : fmat F := fun k ell => part (A (ell %/ n) (ell %% n))%N k in
    let tB part : fmat F := fun k ell => part (B (ell %/ p) (ell %% p))%N k in
    let pt i : F := i.+1%:R in
    let valA_even := fmul sA V (tA even_part) in
    let valA_odd : fmat F := fun i j => pt i * fmul sA V (tA odd_part) i j in
    let valB_even := fmul sB V (tB even_part) in
    let valB_odd : fmat F := fun i j => pt i * fmul sB V (tB odd_part) i j in
    let valAp_even i : fmat F := fun u v => valA_even i (u * n + v)%N + valA_odd i (u * n + v)%N in
    let valAp_odd i : fmat F := fun u v => valA_even i (u * n + v)%N - valA_odd i (u * n + v)%N in
    let valBp_even i : fmat F := fun u v => valB_even i (u * p + v)%N + valB_odd i (u * p + v)%N in
    let valBp_odd i : fmat F := fun u v => valB_even i (u * p + v)%N - valB_odd i (u * p + v)%N in
    let inv2 : F := (2%:R)^-1 in
    let inv2pt i : F := ((2 * i.+1)%:R)^-1 in
    let Cp_even i := fmul n (valAp_even i) (valBp_even i) in
    let Cp_odd i := fmul n (valAp_odd i) (valBp_odd i) in
    let valC_even : fmat F := fun i ell =>
      (Cp_even i (ell %/ p)%N (ell %% p)%N + Cp_odd i (ell %/ p)%N (ell %% p)%N) * inv2 in
    let valC_odd : fmat F := fun i ell =>
      (Cp_even i (ell %/ p)%N (ell %% p)%N - Cp_odd i (ell %/ p)%N (ell %% p)%N) * inv2pt i in
    let tmp_even := fmul nb (finv nb V) valC_even in
    let tmp_odd := fmul nb (finv nb V) valC_odd in
    fun u v => \poly_(t < 2 * nb)
      (if odd t then tmp_odd t./2 (u * p + v)%N else tmp_even t./2 (u * p + v)%N).

(** nmod_poly_mat_multiply.h:25-29, nmod_poly_extra.h:38 *)
Definition can_use_vandermonde1 (modn len : nat) := (len <= modn)%N.
Definition can_use_vandermonde2 (modn len : nat) := (2 * len <= modn)%N.
Definition can_use_waksman (modn : nat) := modn != 2%N.
Definition can_use_geometric (modn len : nat) := (10 * len <= modn)%N.

(** FLINT: n_cbrt, the integer part of the cube root *)
Definition ncbrt (x : nat) : nat := \max_(i < x.+1 | (i ^ 3 <= x)%N) i.

(** mul.c:19-97, nmod_poly_mat_multiply; aliased outputs go through a temporary
    (lines 42-50); FLINT's nmod_poly_mat_mul is the product *)
Definition pm_multiply (modn m n p : nat) A B : fmat {poly F} :=
  let len1 := pm_max_length m n A in
  let len2 := pm_max_length n p B in
  if (len1 == 0%N) || (len2 == 0%N) then fzero
  else if [|| m == 1%N, p == 1%N, n == 1%N, len1 == 1%N | len2 == 1%N] then fmul n A B
  else
    let dim := ncbrt (m * n * p) in
    let len := (len1 + len2 - 1)%N in
    if (12 < dim)%N then
      if can_use_geometric modn len && (300 < len)%N then mul_geometric modn m n p A B
      else if can_use_vandermonde2 modn len then mul_vandermonde2 m n p A B
      else fmul n A B
    else if (10 < dim)%N then
      if can_use_vandermonde2 modn len && (len < 200)%N then mul_vandermonde2 m n p A B
      else if can_use_waksman modn then mul_waksman modn m n p A B
      else fmul n A B
    else if (8 < dim)%N then
      if can_use_vandermonde2 modn len && (len < 120)%N then mul_vandermonde2 m n p A B
      else if can_use_waksman modn then mul_waksman modn m n p A B
      else fmul n A B
    else if can_use_waksman modn then mul_waksman modn m n p A B
    else fmul n A B.

(** mulmid.c:28-42, _nmod_poly_mat_mulmid_naive *)
Definition mulmid_naive (modn m n p : nat) A (len1 : nat) B (len2 nlo nhi : nat) : fmat {poly F} :=
  if [|| len1 == 0%N, len2 == 0%N | (nhi <= nlo)%N] then fzero
  else pm_trunc (nhi - nlo) (pm_shr nlo (pm_multiply modn m n p A B)).

(** FLINT: _nmod_poly_reverse to length l *)
Definition preverse (l : nat) (p : {poly F}) : {poly F} := \poly_(i < l) p`_(l.-1 - i).

(** mulmid.c:54-138, _nmod_poly_mat_mulmid_geometric1_precomp *)
Definition mulmid_geometric1 (n : nat) A B (nlo nhi : nat) (q : F) : fmat {poly F} :=
  let mod1 k : fmat F := fun i j => eval_geom q (preverse nlo.+1 (A i j)) k in
  let mod2 k : fmat F := fun i j =>
    let len := minn nhi (size (B i j)) in
    interp_geom q nhi (fun t => if (t < len)%N then (B i j)`_t else 0) k in
  let res k := fmul n (mod1 k) (mod2 k) in
  fun i j => \poly_(k < nhi - nlo) eval_geom q (\poly_(t < nhi) res t i j) k.

(** mulmid.c:145-233, _nmod_poly_mat_mulmid_geometric2_precomp *)
Definition mulmid_geometric2 (n : nat) A B (nlo nhi : nat) (q : F) : fmat {poly F} :=
  let mod2 k : fmat F := fun i j => eval_geom q (preverse nlo.+1 (B i j)) k in
  let mod1 k : fmat F := fun i j =>
    let len := minn nhi (size (A i j)) in
    interp_geom q nhi (fun t => if (t < len)%N then (A i j)`_t else 0) k in
  let res k := fmul n (mod1 k) (mod2 k) in
  fun i j => \poly_(k < nhi - nlo) eval_geom q (\poly_(t < nhi) res t i j) k.

(** mulmid.c:235-297, _nmod_poly_mat_mulmid_geometric(_precomp) *)
Definition mulmid_geometric_precomp n A len1 B len2 (nlo nhi : nat) (q : F) : fmat {poly F} :=
  if (len1 == 0%N) || (len2 == 0%N) then fzero
  else if (len1 <= nlo.+1)%N then mulmid_geometric1 n A B nlo nhi q
  else mulmid_geometric2 n A B nlo nhi q.
Definition mulmid_geometric (modn n : nat) A len1 B len2 (nlo nhi : nat) : fmat {poly F} :=
  if (len1 == 0%N) || (len2 == 0%N) then fzero
  else mulmid_geometric_precomp n A len1 B len2 nlo nhi ((find_root modn (2 * nhi)) ^+ 2).

(** mulmid.c:470-497, _nmod_poly_mat_mulmid; [v36] tells whether FLINT >= 3.6 *)
Definition mulmid_raw (v36 : bool) (modn m n p : nat) A (len1 : nat) B (len2 nlo nhi : nat) :=
  if [|| len1 == 0%N, len2 == 0%N | (nhi <= nlo)%N] then fzero
  else if [&& v36, can_use_geometric modn nhi,
              ((8 <= m) && (2 <= p) || (2 <= m) && (8 <= p))%N &
              (len1 <= nlo.+1)%N || (len2 <= nlo.+1)%N]
       then mulmid_geometric modn n A len1 B len2 nlo nhi
       else mulmid_naive modn m n p A len1 B len2 nlo nhi.

(** mulmid.c:499-559, nmod_poly_mat_mulmid; [fuel] bounds the number of nested
    calls (at most 3: see C42_mulmid), running out of it is AUB *)
Fixpoint mulmid_rec (fuel : nat) (v36 : bool) (modn m n p : nat) A B (nlo nhi : nat)
  : aoutcome (fmat {poly F}) :=
  if fuel is fuel'.+1 then
    let len1 := pm_max_length m n A in
    let len2 := pm_max_length n p B in
    let nhi := minn nhi (len1 + len2 - 1) in
    if [|| len1 == 0%N, len2 == 0%N | (nhi <= nlo)%N] then AOk fzero
    else if (nhi < len1)%N then mulmid_rec fuel' v36 modn m n p (pm_trunc nhi A) B nlo nhi
    else if (nhi < len2)%N then mulmid_rec fuel' v36 modn m n p A (pm_trunc nhi B) nlo nhi
    else if ((len1 <= len2) && (len1 <= nlo))%N then
      AOk (mulmid_raw v36 modn m n p A len1 (pm_shr (nlo - len1 + 1) B)
             (len2 + len1 - 1 - nlo) (len1 - 1) (nhi - nlo + len1 - 1))
    else if (len2 <= nlo)%N then
      AOk (mulmid_raw v36 modn m n p (pm_shr (nlo - len2 + 1) A)
             (len1 + len2 - 1 - nlo) B len2 (len2 - 1) (nhi - nlo + len2 - 1))
    else AOk (mulmid_raw v36 modn m n p A len1 B len2 nlo nhi)
  else AUB.
Definition mulmid v36 modn m n p A B nlo nhi := mulmid_rec 3 v36 modn m n p A B nlo nhi.

(** mul_vandermonde.c:93-101 and 292-300, aliased output: same temporary, and its
    modulus is [p], the number of columns; the result also gives the modulus
    stored in the entries of the output matrix *)
Definition mul_vandermonde1_alias (modn m n p : nat) A B : aoutcome (nat * fmat {poly F}) :=
  if (pm_max_length m n A == 0%N) || (pm_max_length n p B == 0%N) then AOk (modn, fzero)
  else if (n < p)%N then AUB
  else AOk (p, mul_vandermonde1 m n p A B).
End Mul.
