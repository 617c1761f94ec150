(** Model of flint-extras/src/nmod_poly_mat_extra/nmod_poly_mat_hermite.c:1-866 and of
    nmod_poly_mat_hnf_ur_maxdeg_atomic, _revlex_xgcd, _lex_xgcd
    (flint-extras/src/nmod_poly_mat_forms.h). mat is m x n, tsf (or other) has cT columns.
    The pivot indices stored in pivind are nonnegative: they are modelled by natural numbers. *)
From mathcomp Require Import all_ssreflect all_algebra.
From Verif Require Import A_base A_rot_model A_wpopov_model.
Set Implicit Arguments.
Unset Strict Implicit.
Unset Printing Implicit Defensive.
Import GRing.Theory Num.Theory.
Local Open Scope ring_scope.

Section Hermite.
Variable F : fieldType.
Local Notation P := {poly F}.
Local Notation omat := (option (fmat P)).
Implicit Types (A : fmat P) (T : omat).

(** FLINT's nmod_poly_xgcd(g, u, v, a, b), returning (g, u, v). It is a parameter: the theorems
    hold for every function returning the monic gcd and cofactors. *)
Variable xgcd : P -> P -> P * P * P.

Section Ops.
Variables n cT : nat.

(** nmod_poly_mat_hermite.c:58-96. The leading coefficient of a zero entry is read out of
    bounds, a negative exp writes before the coefficients: both are undefined. *)
Definition uref_atomic A T (pi1 pi2 j : nat) : aoutcome (fmat P * omat) :=
  let l1 := size (A pi1 j) in
  let l2 := size (A pi2 j) in
  if (l1 == 0%N) || (l2 == 0%N) || (l1 < l2)%N then AUB else
  let exp := (l1 - l2)%N in
  let cst := - (lead_coef (A pi1 j) * (lead_coef (A pi2 j))^-1) in
  let body M jj := upd M pi1 (upd (M pi1) jj (M pi1 jj + 'X^exp * (cst *: M pi2 jj))) in
  AOk (foldl body (body A j) (iota j.+1 (n - j.+1)), omap (fun B => foldl body B (iota 0 cT)) T).

(** nmod_poly_mat_hermite.c:115-196. The entry mat[ii,j], used as a temporary by the loops and
    set to zero at the end, is only shown with its last value; nmod_poly_divides is the exact
    quotient. *)
Definition xgcd_collision A T (pi ii j : nat) : fmat P * omat :=
  if A pi j == 1 then
    let f := A ii j in
    let body M jj := upd M ii (upd (M ii) jj (M ii jj - f * M pi jj)) in
    let A1 := foldl body A (iota j.+1 (n - j.+1)) in
    (upd A1 ii (upd (A1 ii) j 0), omap (fun B => foldl body B (iota 0 cT)) T)
  else
    let '(g, u, v) := xgcd (A pi j) (A ii j) in
    let pivg := A pi j %/ g in
    let nonzg := A ii j %/ g in
    let A1 := upd A pi (upd (A pi) j g) in
    let body (M : fmat P) jj :=
      let t := M pi jj in
      let M := upd M pi (upd (M pi) jj (u * t + v * M ii jj)) in
      upd M ii (upd (M ii) jj (pivg * M ii jj - nonzg * t)) in
    let A2 := foldl body A1 (iota j.+1 (n - j.+1)) in
    (upd A2 ii (upd (A2 ii) j 0), omap (fun B => foldl body B (iota 0 cT)) T).

(** nmod_poly_mat_hermite.c:210-237; division by a zero pivot is undefined *)
Definition uref_reduce A T (i j ii : nat) : aoutcome (fmat P * omat) :=
  if (size (A i j) <= size (A ii j))%N then
    if A i j == 0 then AUB else
    let u := A ii j %/ A i j in
    let v := A ii j %% A i j in
    let A1 := upd A ii (upd (A ii) j v) in
    let u' := - u in
    let body M jj := upd M ii (upd (M ii) jj (M ii jj + u' * M i jj)) in
    AOk (foldl body A1 (iota j.+1 (n - j.+1)), omap (fun B => foldl body B (iota 0 cT)) T)
  else AOk (A, T).

(** nmod_poly_mat_hermite.c:250-264; the returned constant is not used by the callers *)
Definition uref_normalize_pivot A T (i j : nat) : aoutcome (fmat P * omat) :=
  if A i j \is monic then AOk (A, T)
  else if A i j == 0 then AUB
  else
    let inv := (lead_coef (A i j))^-1 in
    let body M jj := upd M i (upd (M i) jj (inv *: M i jj)) in
    AOk (foldl body A (iota j (n - j)), omap (fun B => foldl body B (iota 0 cT)) T).

Definition abind (X Y : Type) (x : aoutcome X) (f : X -> aoutcome Y) : aoutcome Y :=
  if x is AOk a then f a else AUB.

(** the loops over the rows above the pivot (i,j), nmod_poly_mat_hermite.c:286-287, 825-826,
    845-846 *)
Definition uref_reduce_above A T (i j : nat) : aoutcome (fmat P * omat) :=
  foldl (fun st ii => abind st (fun x => uref_reduce x.1 x.2 i j ii)) (AOk (A, T)) (iota 0 i).

(** nmod_poly_mat_hermite.c:273-292 *)
Definition normalize_uref A T (pivind : nat -> nat) (rk : nat) : aoutcome (fmat P * omat) :=
  foldl (fun st i => abind st (fun x =>
      abind (uref_normalize_pivot x.1 x.2 i (pivind i)) (fun y =>
      uref_reduce_above y.1 y.2 i (pivind i))))
    (AOk (A, T)) (iota 0 rk).
End Ops.

(** result of an echelon form computation: mat, tsf, pivind, mrp, returned value *)
Record ur_result := URR {
  ur_mat : fmat P; ur_tsf : omat; ur_pivind : nat -> nat; ur_mrp : option (nat -> int);
  ur_rk : nat }.

Section Algos.
Variables m n cT : nat.

(** first row >= lo with a nonzero entry in column j, m if there is none
    (nmod_poly_mat_hermite.c:377-379, 518-520, 529-530) *)
Definition first_nz A (j lo : nat) : nat :=
  (lo + find (fun i => A i j != 0%R) (iota lo (m - lo)))%N.

(** nmod_poly_mat_hermite.c:386-405: the two entries of largest degrees *)
Definition maxdeg_select A (j pi1 : nat) : nat * nat :=
  let pi2 := pi1.+1 in
  let '(pi1, pi2) := if (size (A pi1 j) < size (A pi2 j))%N then (pi2, pi1) else (pi1, pi2) in
  foldl (fun p i =>
      if (size (A p.1 j) < size (A i j))%N then (i, p.1)
      else if (size (A p.2 j) < size (A i j))%N then (p.1, i)
      else p)
    (pi1, pi2) (iota (maxn pi1 pi2).+1 (m - (maxn pi1 pi2).+1)).

(** the while loop on column j, nmod_poly_mat_hermite.c:374-421; None when [fuel] iterations do
    not suffice *)
Fixpoint maxdeg_col (fuel : nat) A T (pivind : nat -> nat) (rk j : nat)
  : option (aoutcome (fmat P * omat * (nat -> nat) * nat)) :=
  if fuel is fuel'.+1 then
    let found A T pi1 :=
      Some (AOk (swap_rows A pi1 rk, omap (fun B => swap_rows B pi1 rk) T, upd pivind rk j, rk.+1)) in
    let pi1 := first_nz A j rk in
    if pi1 == m then Some (AOk (A, T, pivind, rk))
    else if pi1 == (m - 1)%N then found A T pi1
    else
      let '(pi1, pi2) := maxdeg_select A j pi1 in
      if A pi2 j == 0 then found A T pi1
      else match uref_atomic n cT A T pi1 pi2 j with
           | AUB => Some AUB
           | AOk (A', T') => maxdeg_col fuel' A' T' pivind rk j
           end
  else None.

(** the loop over cnt columns from column j, nmod_poly_mat_hermite.c:371-422 *)
Fixpoint maxdeg_cols (fuel cnt : nat) A T (pivind : nat -> nat) (rk j : nat)
  : option (aoutcome (fmat P * omat * (nat -> nat) * nat)) :=
  if cnt is cnt'.+1 then
    match maxdeg_col fuel A T pivind rk j with
    | Some (AOk (A', T', pivind', rk')) => maxdeg_cols fuel cnt' A' T' pivind' rk' j.+1
    | r => r
    end
  else Some (AOk (A, T, pivind, rk)).

(** nmod_poly_mat_hermite.c:357-424 *)
Definition uref_maxdeg_atomic (fuel : nat) A T (pivind : nat -> nat) : option (aoutcome ur_result) :=
  if (m == 0%N) || (n == 0%N) then Some (AOk (URR A T pivind None 0)) else
  match maxdeg_cols fuel n A T pivind 0 0 with
  | Some (AOk (A', T', pivind', rk)) => Some (AOk (URR A' T' pivind' None rk))
  | Some AUB => Some AUB
  | None => None
  end.

(** mrp filled with -1, nmod_poly_mat_hermite.c:477-479, 496-497 *)
Definition mrp_fill (mrp : option (nat -> int)) : option (nat -> int) :=
  omap (fun r => foldl (fun r i => upd r i (-1)) r (iota 0 m)) mrp.

(** nmod_poly_mat_hermite.c:525-533: elimination below the pivot (pi,j), from row ii *)
Fixpoint revlex_elim (fuel : nat) A T (pi ii j : nat) : option (fmat P * omat) :=
  if (ii < m)%N then
    if fuel is fuel'.+1 then
      let ii := first_nz A j ii in
      if (ii < m)%N then
        let '(A', T') := xgcd_collision n cT A T pi ii j in revlex_elim fuel' A' T' pi ii j
      else Some (A, T)
    else None
  else Some (A, T).

(** nmod_poly_mat_hermite.c:515-544; perm is used only when mrp is not NULL *)
Fixpoint revlex_cols (fuel cnt : nat) A T (pivind : nat -> nat) (mrp : option (nat -> int))
  (perm : nat -> nat) (rk j : nat) : option ur_result :=
  if cnt is cnt'.+1 then
    let pi := first_nz A j rk in
    if (pi < m)%N then
      match revlex_elim fuel A T pi pi.+1 j with
      | None => None
      | Some (A', T') =>
        let '(A2, operm) := rotate_rows_downward A' (omap (fun _ => perm) mrp) rk pi in
        let perm2 := if operm is Some p then p else perm in
        let T2 := omap (fun B => (rotate_rows_downward (V := nat) B None rk pi).1) T' in
        revlex_cols fuel cnt' A2 T2 (upd pivind rk j)
          (omap (fun r => upd r (perm2 rk) j%:Z) mrp) perm2 rk.+1 j.+1
      end
    else revlex_cols fuel cnt' A T pivind mrp perm rk j.+1
  else Some (URR A T pivind mrp rk).

(** nmod_poly_mat_hermite.c:473-555 *)
Definition uref_revlex_xgcd (fuel : nat) A T (pivind : nat -> nat) (mrp : option (nat -> int))
  : option ur_result :=
  if (m == 0%N) || (n == 0%N) then Some (URR A T pivind (mrp_fill mrp) 0) else
  revlex_cols fuel n A T pivind (mrp_fill mrp) id 0 0.

(** row by row algorithm: mat, tsf, pivind, mrp, pivot_row, rk, zr *)
Record lex_state := LX {
  lx_mat : fmat P; lx_tsf : omat; lx_pivind : nat -> nat; lx_mrp : option (nat -> int);
  lx_prow : nat -> int; lx_rk : nat; lx_zr : nat }.

(** nmod_poly_mat_hermite.c:653-655: index where row rk must be placed *)
Definition lex_place (pivind : nat -> nat) (rk j : nat) : nat :=
  find (fun i => ~~ (pivind i < j)%N) (iota 0 rk).

(** nmod_poly_mat_hermite.c:637-670: the columns j, ..., j+cnt-1 = n-1; the boolean is pivot_found *)
Fixpoint lex_row (cnt : nat) (st : lex_state) (j : nat) : lex_state * bool :=
  if cnt is cnt'.+1 then
    let: LX A T pivind mrp prow rk zr := st in
    if A rk j == 0 then lex_row cnt' st j.+1
    else if 0 <= prow j then
      let '(A', T') := xgcd_collision n cT A T `|prow j|%N rk j in
      lex_row cnt' (LX A' T' pivind mrp prow rk zr) j.+1
    else
      let i := lex_place pivind rk j in
      let '(A', opiv) := rotate_rows_downward A (Some (upd pivind rk j)) i rk in
      let T' := omap (fun B => (rotate_rows_downward (V := nat) B None i rk).1) T in
      let prow1 := upd prow j i%:Z in
      let prow2 := foldl (fun p jj => if 0 <= p jj then upd p jj (p jj + 1) else p) prow1
                     (iota j.+1 (n - j.+1)) in
      (LX A' T' (odflt pivind opiv) (omap (fun r => upd r (rk + zr)%N j%:Z) mrp) prow2 rk.+1 zr, true)
  else (st, false).

(** nmod_poly_mat_hermite.c:634-680: the loop over the rows *)
Fixpoint lex_rows (fuel : nat) (st : lex_state) : option lex_state :=
  if (lx_rk st + lx_zr st < m)%N then
    if fuel is fuel'.+1 then
      let '(st', found) := lex_row n st 0 in
      if found then lex_rows fuel' st'
      else
        let: LX A T pivind mrp prow rk zr := st' in
        let rot (M : fmat P) := (rotate_rows_upward (V := nat) M None rk (m - 1)%N).1 in
        lex_rows fuel' (LX (rot A) (omap rot T) pivind
                           (omap (fun r => upd r (rk + zr)%N (-1)) mrp) prow rk zr.+1)
    else None
  else Some st.

(** nmod_poly_mat_hermite.c:598-691 *)
Definition uref_lex_xgcd (fuel : nat) A T (pivind : nat -> nat) (mrp : option (nat -> int))
  : option ur_result :=
  if (m == 0%N) || (n == 0%N) then Some (URR A T pivind (mrp_fill mrp) 0) else
  match lex_rows fuel (LX A T pivind mrp (fun _ => -1) 0 0) with
  | Some st => Some (URR (lx_mat st) (lx_tsf st) (lx_pivind st) (lx_mrp st) (lx_rk st))
  | None => None
  end.

(** Kannan-Bachem: mat, tsf, pivind, mrp, pivot_row, perm, i, j, ii *)
Record kb_state := KB {
  kb_mat : fmat P; kb_tsf : omat; kb_pivind : nat -> nat; kb_mrp : option (nat -> int);
  kb_prow : nat -> int; kb_perm : nat -> nat; kb_i : nat; kb_j : nat; kb_ii : nat }.

(** nmod_poly_mat_hermite.c:798-809: first row >= ii nonzero on the columns 0..j *)
Definition kb_next_row A (j ii : nat) : nat :=
  (ii + find (fun k => has (fun jj => A k jj != 0%R) (iota 0 j.+1)) (iota ii (m - ii)))%N.

(** nmod_poly_mat_hermite.c:814-828: elimination in row ii of the columns jj, ..., jj+cnt-1 = j-1;
    pivot_row[jj] = -1 leads to an access out of bounds *)
Fixpoint kb_elim (cnt : nat) A T (prow : nat -> int) (ii jj : nat) : aoutcome (fmat P * omat) :=
  if cnt is cnt'.+1 then
    if A ii jj == 0 then kb_elim cnt' A T prow ii jj.+1
    else if prow jj < 0 then AUB
    else
      let pi := `|prow jj|%N in
      let '(A1, T1) := xgcd_collision n cT A T pi ii jj in
      abind (uref_reduce_above n cT A1 T1 pi jj) (fun x => kb_elim cnt' x.1 x.2 prow ii jj.+1)
  else AOk (A, T).

(** one iteration, nmod_poly_mat_hermite.c:796-851 *)
Definition kb_step (st : kb_state) : aoutcome kb_state :=
  let: KB A T pivind mrp prow perm i j ii := st in
  let ii := kb_next_row A j ii in
  if ii == m then AOk (KB A T pivind mrp prow perm i j.+1 i)
  else
    let jj := find (fun jj => A ii jj != 0) (iota 0 j.+1) in
    abind (kb_elim (j - jj) A T prow ii jj) (fun x =>
    let '(A, T) := x in
    if A ii j == 0 then AOk (KB A T pivind mrp prow perm i j ii.+1)
    else
      let '(A1, operm) := rotate_rows_downward A (omap (fun _ => perm) mrp) i ii in
      let perm1 := if operm is Some p then p else perm in
      let T1 := omap (fun B => (rotate_rows_downward (V := nat) B None i ii).1) T in
      abind (uref_normalize_pivot n cT A1 T1 i j) (fun y =>
      abind (uref_reduce_above n cT y.1 y.2 i j) (fun z =>
      AOk (KB z.1 z.2 (upd pivind i j) (omap (fun r => upd r (perm1 i) j%:Z) mrp)
              (upd prow j i%:Z) perm1 i.+1 j.+1 i.+1)))).

Fixpoint kb_loop (fuel : nat) (st : kb_state) : option (aoutcome kb_state) :=
  if (kb_i st < m)%N && (kb_j st < n)%N then
    if fuel is fuel'.+1 then
      match kb_step st with
      | AOk st' => kb_loop fuel' st'
      | AUB => Some AUB
      end
    else None
  else Some (AOk st).

(** nmod_poly_mat_hermite.c:738-866 *)
Definition hnf_revlex_xgcd_delayed_zero (fuel : nat) A T (pivind : nat -> nat)
  (mrp : option (nat -> int)) : option (aoutcome ur_result) :=
  if (m == 0%N) || (n == 0%N) then Some (AOk (URR A T pivind (mrp_fill mrp) 0)) else
  match kb_loop fuel (KB A T pivind (mrp_fill mrp) (fun _ => -1) id 0 0 0) with
  | None => None
  | Some AUB => Some AUB
  | Some (AOk st) =>
    Some (AOk (URR (kb_mat st) (kb_tsf st) (kb_pivind st) (kb_mrp st) (kb_i st)))
  end.

(** echelon form followed by _normalize_uref, nmod_poly_mat_forms.h:648-684 *)
Definition hnf_of (r : ur_result) : aoutcome ur_result :=
  abind (normalize_uref n cT (ur_mat r) (ur_tsf r) (ur_pivind r) (ur_rk r)) (fun x =>
  AOk (URR x.1 x.2 (ur_pivind r) (ur_mrp r) (ur_rk r))).

Definition hnf_maxdeg_atomic fuel A T pivind : option (aoutcome ur_result) :=
  omap (fun o => abind o hnf_of) (uref_maxdeg_atomic fuel A T pivind).
Definition hnf_revlex_xgcd fuel A T pivind mrp : option (aoutcome ur_result) :=
  omap hnf_of (uref_revlex_xgcd fuel A T pivind mrp).
Definition hnf_lex_xgcd fuel A T pivind mrp : option (aoutcome ur_result) :=
  omap hnf_of (uref_lex_xgcd fuel A T pivind mrp).
End Algos.
End Hermite.
