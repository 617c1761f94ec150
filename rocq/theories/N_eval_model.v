(** Model of the products of matrices of polynomials of ntl-extras by evaluation and interpolation:
    mat_lzz_pX_extra/src/mat_lzz_pX_multiply_evaluate_dense.cpp, mat_lzz_pX_multiply_evaluate_geometric.cpp and
    mat_lzz_pX_t_multiply_evaluate.cpp. The counters ell, rst, rtu, jst, jtu that are incremented along the loops are
    written in closed form. The result is written once everything has been read, so that it makes no difference
    whether it is one of the operands; its previous contents are overwritten. *)
From mathcomp Require Import all_ssreflect all_algebra.
From Verif Require Import A_base A_mul_model N_multi_model N_pmat_model N_util_model N_poly_model N_mid_model N_geo_model.
Set Implicit Arguments.
Unset Strict Implicit.
Unset Printing Implicit Defensive.
Import GRing.Theory.
Local Open Scope ring_scope.

Section Dense.
Variable F : fieldType.
Local Notation P := {poly F}.
Local Notation pmat := (pmat F).

(** NTL, inv of an n x n matrix: an error when it is singular *)
Definition inv_mat (n : nat) (V : fmat F) : aoutcome (fmat F) :=
  if mx_of n n V \in unitmx then AOk (finv n V) else AUB.

(** the loop "for i, for j: M[i][j] = g(i, j)" *)
Definition fill (m n : nat) (g : nat -> nat -> F) (M : fmat F) : fmat F :=
  foldl (fun M i => foldl (fun M j => upd2 M i j (g i j)) M (iota 0 n)) M (iota 0 m).

(** mat_lzz_pX_multiply_evaluate_dense.cpp:36-47 and 81-92: the row i of vdm, vdm1 and vdm2 *)
Definition vdm_row (pt : F) (s1 s2 nb i : nat) (st : fmat F * fmat F * fmat F) : fmat F * fmat F * fmat F :=
  let: (V, V1, V2) := st in
  foldl (fun (st : fmat F * fmat F * fmat F) j => let: (V, V1, V2) := st in
      let V := upd2 V i j (V i j.-1 * pt) in
      (V, if (j < s1)%N then upd2 V1 i j (V i j) else V1, if (j < s2)%N then upd2 V2 i j (V i j) else V2))
    (upd2 V i 0%N 1, upd2 V1 i 0%N 1, upd2 V2 i 0%N 1) (iota 1 (nb - 1)).

(** mat_lzz_pX_multiply_evaluate_dense.cpp:11-52, vandermonde, for s1 = d1 + 1 > 0 and s2 = d2 + 1 > 0. When one of
    them is 0 the entry (0, 0) of vdm1 or vdm2 does not exist, see [multiply_evaluate_dense] *)
Definition vandermonde (s1 s2 nb : nat) : fmat F * fmat F * fmat F :=
  let z : fmat F := fun _ _ => 0 in
  foldl (fun st i => vdm_row i%:R s1 s2 nb i st) (upd2 z 0%N 0%N 1, upd2 z 0%N 0%N 1, upd2 z 0%N 0%N 1) (iota 1 (nb - 1)).

(** mat_lzz_pX_multiply_evaluate_dense.cpp:57-97, vandermonde2 *)
Definition vandermonde2 (s1 s2 nb : nat) : fmat F * fmat F * fmat F :=
  let z : fmat F := fun _ _ => 0 in
  foldl (fun st i => vdm_row (i.+1%:R * i.+1%:R) s1 s2 nb i st) (z, z, z) (iota 0 nb).

(** mat_lzz_pX_multiply_evaluate_dense.cpp:105-250, multiply_evaluate_dense. lA and lB are dA + 1 and dB + 1. The rows
    of b with index at least NumCols(a) are not used; when rows are missing b[i][j] does not exist. *)
Definition multiply_evaluate_dense (a b : pmat) : aoutcome pmat :=
  let lA := plen a in let lB := plen b in
  let m := nr a in let n := nc a in let p := nc b in
  if (lA == 0%N) || (lB == 0%N) || (nr b < n)%N then AUB
  else
    let nb := (lA + lB - 1)%N in
    let: (V, vA, vB) := vandermonde lA lB nb in
    match inv_mat nb V with
    | AUB => AUB
    | AOk iv =>
      let z : fmat F := fun _ _ => 0 in
      (* lines 138-143 *)
      let tmp := foldl (fun M i => foldl (fun M j =>
          foldl (fun M k => upd2 M k (i * n + j)%N (ent a i j)`_k) M (iota 0 (size (ent a i j)))) M (iota 0 n)) z (iota 0 m) in
      let valA := fmul lA vA tmp in
      (* lines 164-177: the rows are kept when the number of columns does not change *)
      let tmp := if (n * p == m * n)%N then tmp else z in
      let tmp := foldl (fun M i => foldl (fun M j =>
          let d := size (ent b i j) in
          let M := foldl (fun M k => upd2 M k (i * p + j)%N (ent b i j)`_k) M (iota 0 d) in
          foldl (fun M k => upd2 M k (i * p + j)%N 0) M (iota d (minn lA lB - d))) M (iota 0 p)) tmp (iota 0 n) in
      let valB := fmul lB vB tmp in
      (* lines 196-223 *)
      let: (_, _, valC) := foldl (fun (st : fmat F * fmat F * fmat F) i => let: (valAp, valBp, valC) := st in
          let valAp := fill m n (fun u v => valA i (u * n + v)%N) valAp in
          let valBp := fill n p (fun u v => valB i (u * p + v)%N) valBp in
          let valCp := fmul n valAp valBp in
          (valAp, valBp,
           foldl (fun M u => foldl (fun M v => upd2 M i (u * p + v)%N (valCp u v)) M (iota 0 p)) valC (iota 0 m)))
        (z, z, z) (iota 0 nb) in
      let tmp := fmul nb iv valC in
      (* lines 235-244 *)
      AOk (Pmat m p (win (fun u v _ => \poly_(i < nb) tmp i (u * p + v)%N) 0 m 0 p (fun _ _ => 0)))
    end.

(** mat_lzz_pX_multiply_evaluate_dense.cpp:303-309: the first d coefficients by pairs, then the last one *)
Definition split_a (a : P) (ell : nat) (st : fmat F * fmat F) : fmat F * fmat F :=
  let d := (size a).-1 in
  let: (E, D) := foldl (fun (st : fmat F * fmat F) k => let: (E, D) := st in
      (upd2 E k ell a`_(2 * k), upd2 D k ell a`_(2 * k + 1))) st (iota 0 (d.+1)./2) in
  if (0 < size a)%N && ~~ odd d then (upd2 E d./2 ell a`_d, D) else (E, D).
(** mat_lzz_pX_multiply_evaluate_dense.cpp:341-358 *)
Definition split_b (sB : nat) (b : P) (ell : nat) (st : fmat F * fmat F) : fmat F * fmat F :=
  let d := (size b).-1 in
  let k0 := (d.+1)./2 in
  let: (E, D) := foldl (fun (st : fmat F * fmat F) k => let: (E, D) := st in
      (upd2 E k ell b`_(2 * k), upd2 D k ell b`_(2 * k + 1))) st (iota 0 k0) in
  let: (E, D, k1) := if (0 < size b)%N && (2 * k0 == d)%N
    then (upd2 E k0 ell b`_d, upd2 D k0 ell 0, k0.+1) else (E, D, k0) in
  foldl (fun (st : fmat F * fmat F) k => let: (E, D) := st in (upd2 E k ell 0, upd2 D k ell 0)) (E, D) (iota k1 (sB - k1)).

(** mat_lzz_pX_multiply_evaluate_dense.cpp:259-466, multiply_evaluate_dense2. When a is zero dA = -1 and the C++ division gives
    dA/2 + 1 = 1, as for dA = 0; the number of points is rounded in the same way. inv is an error when 2 or 2 (i + 1)
    is zero. *)
Definition multiply_evaluate_dense2 (a b : pmat) : aoutcome pmat :=
  let lA := plen a in let lB := plen b in
  let m := nr a in let n := nc a in let p := nc b in
  let sA := ((lA.-1) %/ 2 + 1)%N in
  let sB := ((lB.-1) %/ 2 + 1)%N in
  (* (dA + dB) / 2 + 1, rounded towards zero *)
  let nb := if (lA + lB == 0)%N then 0%N else if (lA + lB == 1)%N then 1%N else ((lA + lB - 2) %/ 2 + 1)%N in
  if (nr b < n)%N then AUB
  else
    let: (V, vA, vB) := vandermonde2 sA sB nb in
    match inv_mat nb V with
    | AUB => AUB
    | AOk iv =>
      let z : fmat F := fun _ _ => 0 in
      let: (Ea, Oa) := foldl (fun st i => foldl (fun st j => split_a (ent a i j) (i * n + j)%N st) st (iota 0 n)) (z, z) (iota 0 m) in
      let valAeven := fmul sA vA Ea in
      let valAodd := fmul sA vA Oa in
      let: (Eb, Ob) := if (n * p == m * n)%N then (Ea, Oa) else (z, z) in
      let: (Eb, Ob) := foldl (fun st i => foldl (fun st j => split_b sB (ent b i j) (i * p + j)%N st) st (iota 0 p)) (Eb, Ob) (iota 0 n) in
      let valBeven := fmul sB vB Eb in
      let valBodd := fmul sB vB Ob in
      (* lines 389-394: the rows i of valAodd and valBodd are multiplied by i + 1 *)
      let: (valAodd, valBodd) := foldl (fun (st : fmat F * fmat F) i => let: (A, B) := st in
          (foldl (fun A j => upd2 A i j (i.+1%:R * A i j)) A (iota 0 (m * n)),
           foldl (fun B j => upd2 B i j (i.+1%:R * B i j)) B (iota 0 (n * p)))) (valAodd, valBodd) (iota 0 nb) in
      if (2%:R : F) == 0 then AUB
      else
      let inv2 : F := 2%:R^-1 in
      let st := foldl (fun (st : aoutcome (fmat F * fmat F)) i =>
          match st with
          | AUB => AUB
          | AOk (valCeven, valCodd) =>
            (* the four matrices are entirely rewritten for each i *)
            let valApeven := fill m n (fun u v => valAeven i (u * n + v)%N + valAodd i (u * n + v)%N) z in
            let valApodd := fill m n (fun u v => valAeven i (u * n + v)%N - valAodd i (u * n + v)%N) z in
            let valBpeven := fill n p (fun u v => valBeven i (u * p + v)%N + valBodd i (u * p + v)%N) z in
            let valBpodd := fill n p (fun u v => valBeven i (u * p + v)%N - valBodd i (u * p + v)%N) z in
            let Ce := fmul n valApeven valBpeven in
            let Co := fmul n valApodd valBpodd in
            if ((2 * i.+1)%:R : F) == 0 then AUB
            else
              let inv2pt : F := (2 * i.+1)%:R^-1 in
              let valCeven := foldl (fun M u => foldl (fun M v => upd2 M i (u * p + v)%N (Ce u v + Co u v)) M (iota 0 p)) valCeven (iota 0 m) in
              let valCodd := foldl (fun M u => foldl (fun M v => upd2 M i (u * p + v)%N (Ce u v - Co u v)) M (iota 0 p)) valCodd (iota 0 m) in
              AOk (foldl (fun M j => upd2 M i j (M i j * inv2)) valCeven (iota 0 (m * p)),
                   foldl (fun M j => upd2 M i j (M i j * inv2pt)) valCodd (iota 0 (m * p)))
          end) (AOk (z, z)) (iota 0 nb) in
      match st with
      | AUB => AUB
      | AOk (valCeven, valCodd) =>
        let tmp_even := fmul nb iv valCeven in
        let tmp_odd := fmul nb iv valCodd in
        (* lines 448-460 *)
        AOk (Pmat m p (win (fun u v _ => Poly (foldl (fun (s : seq F) i =>
            set_nth 0 (set_nth 0 s (2 * i) (tmp_even i (u * p + v)%N)) (2 * i + 1) (tmp_odd i (u * p + v)%N))
            (nseq (2 * nb) 0) (iota 0 nb))) 0 m 0 p (fun _ _ => 0)))
      end
    end.
End Dense.

Section Geometric.
Variable F : fieldType.
Local Notation P := {poly F}.
Local Notation pmat := (pmat F).
Local Notation arr := (nat -> F).
Variables (fuel MX KARX : nat) (ul : bool) (garb : arr).
(** the modulus, the random values drawn by element_of_order, the choices of the constructor of the points *)
Variables (cord : nat) (rnd : seq F) (feas fft : bool).

Definition bindm (A B : Type) (x : option (aoutcome A)) (f : A -> option (aoutcome B)) : option (aoutcome B) :=
  match x with None => None | Some AUB => Some AUB | Some (AOk y) => f y end.

(** mat_lzz_pX_multiply_evaluate_geometric.cpp:46-52 and 55-61, mat_lzz_pX_t_multiply_evaluate.cpp:27-47: the entry
    [r s t + i t + k] of the result is the r-th value for the entry (i, k) of e *)
Definition store_vals (ev : P -> option (aoutcome arr)) (n s t : nat) (e : fmat P) : option (aoutcome arr) :=
  foldl (fun st i => foldl (fun st k => bindm st (fun M => bindm (ev (e i k)) (fun v =>
      Some (AOk (foldl (fun M r => upd M (r * (s * t) + i * t + k)%N (v r)) M (iota 0 n))))))
    st (iota 0 t)) (Some (AOk (fun _ => 0))) (iota 0 s).

(** mat_lzz_pX_multiply_evaluate_geometric.cpp:64-88, mat_lzz_pX_t_multiply_evaluate.cpp:49-81: products at the points *)
Definition pointwise (n s t u : nat) (vA vB : arr) : fmat F :=
  let z : fmat F := fun _ _ => 0 in
  (foldl (fun (st : fmat F * fmat F * fmat F) j => let: (va, vb, C) := st in
      let va := fill s t (fun i k => vA (j * (s * t) + i * t + k)%N) va in
      let vb := fill t u (fun i k => vB (j * (t * u) + i * u + k)%N) vb in
      let vc := fmul t va vb in
      (va, vb, foldl (fun C i => foldl (fun C k => upd2 C (i * u + k)%N j (vc i k)) C (iota 0 u)) C (iota 0 s)))
    (z, z, z) (iota 0 n)).2.

(** mat_lzz_pX_multiply_evaluate_geometric.cpp:11-96, multiply_evaluate_geometric *)
Definition multiply_evaluate_geometric (x a b : pmat) : option (aoutcome pmat) :=
  let s := nr a in let t := nc a in let u := nc b in
  let lA := plen a in let lB := plen b in
  if (lA == 0%N) || (lB == 0%N) then Some (AOk (pm_clear (set_dims x s t)))
  else
    let sz := (lA + lB - 1)%N in
    bindm (Some (get_geometric_points cord rnd feas fft sz)) (fun o =>
    bindm (Some (prepare_degree o lA.-1)) (fun o =>
    bindm (Some (prepare_degree o lB.-1)) (fun o =>
    if (nr b < t)%N then Some AUB
    else
    let n := g_n o in
    let ev := geo_evaluate fuel MX KARX ul garb o in
    bindm (store_vals ev n s t (ent a)) (fun vA =>
    bindm (store_vals ev n t u (ent b)) (fun vB =>
    let C := pointwise n s t u vA vB in
    Some (AOk (Pmat s u (win (fun i k _ => geo_interpolate o (C (i * u + k)%N)) 0 s 0 u (fun _ _ => 0))))))))).

(** mat_lzz_pX_t_multiply_evaluate.cpp:11-92 and 100-115, t_multiply_evaluate_geometric, for dA and dB nonnegative. The
    entries c[i][k] with i < NumCols(a) must exist. *)
Definition t_multiply_evaluate_geometric (a c : pmat) (dA dB : nat) : option (aoutcome pmat) :=
  let dC := (dA + dB)%N in
  if (dA.+1 < plen a)%N || (dC.+1 < plen c)%N then Some AUB
  else
    bindm (Some (get_geometric_points cord rnd feas fft dC.+1)) (fun o =>
    bindm (Some (prepare_degree o dA)) (fun o =>
    bindm (Some (prepare_degree o dB)) (fun o =>
    let s := nr a in let t := nc a in let u := nc c in
    if (nr c < t)%N then Some AUB
    else
    let n := g_n o in
    bindm (store_vals (geo_evaluate fuel MX KARX ul garb o) n s t (ent a)) (fun vA =>
    bindm (store_vals (fun p => Some (AOk (geo_t_interpolate o p))) n t u (ent c)) (fun vC =>
    let B := pointwise n s t u vA vC in
    bindm (foldl (fun st i => foldl (fun st k => bindm st (fun M =>
        bindm (geo_t_evaluate fuel MX KARX ul garb o (B (i * u + k)%N) (Some dB.+1)) (fun r => Some (AOk (upd2 M i k r)))))
      st (iota 0 u)) (Some (AOk (fun _ _ => 0))) (iota 0 s)) (fun M => Some (AOk (Pmat s u M)))))))).
End Geometric.
