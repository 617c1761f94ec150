(** Model of flint-extras/src/nmod_poly_mat_extra/nmod_poly_mat_weak_popov.c and of
    nmod_poly_mat_weak_popov_iter (flint-extras/src/nmod_poly_mat_forms.h:843-852). *)
From mathcomp Require Import all_ssreflect all_algebra.
From Verif Require Import A_base SpecForms A_forms_model A_rot_model.
Set Implicit Arguments.
Unset Strict Implicit.
Unset Printing Implicit Defensive.
Import GRing.Theory Num.Theory.
Local Open Scope ring_scope.

(** FLINT: nmod_poly_mat_swap_rows (no permutation argument) *)
Definition swap_rows (T : Type) (v : nat -> T) (r s : nat) : nat -> T :=
  if r == s then v else let tmp := v r in upd (upd v r (v s)) s tmp.

Section WPopov.
Variable F : fieldType.
Implicit Types (A : fmat {poly F}).

(** nmod_poly_mat_weak_popov.c:59-70 (and 72-84 for other): row pi1 gets row pi1 plus
    cst x^exp times row pi2, on the c columns *)
Definition addmul_row (c : nat) A (pi1 pi2 : nat) (cst : F) (exp : nat) : fmat {poly F} :=
  foldl (fun M jj => upd M pi1 (upd (M pi1) jj (M pi1 jj + 'X^exp * (cst *: M pi2 jj)))) A (iota 0 c).

(** nmod_poly_mat_weak_popov.c:50-85; c and cT are the numbers of columns of mat and other.
    The leading coefficient of a zero entry is read out of bounds, a negative exp writes before
    the coefficients: both are undefined. *)
Definition atomic_solve_pivot_collision (c cT : nat) A (other : option (fmat {poly F}))
  (pi1 pi2 j : nat) : aoutcome (fmat {poly F} * option (fmat {poly F})) :=
  let l1 := size (A pi1 j) in
  let l2 := size (A pi2 j) in
  if (l1 == 0%N) || (l2 == 0%N) || (l1 < l2)%N then AUB else
  let exp := (l1 - l2)%N in
  let cst := - (lead_coef (A pi1 j) * (lead_coef (A pi2 j))^-1) in
  AOk (addmul_row c A pi1 pi2 cst exp, omap (fun B => addmul_row cT B pi1 pi2 cst exp) other).

(** nmod_poly_mat_weak_popov.c:99-131: the temporaries u, v are left out *)
Definition reduce_against_pivot (c cT : nat) A (other : option (fmat {poly F})) (i j ii : nat)
  : fmat {poly F} * option (fmat {poly F}) :=
  if (size (A i j) <= size (A ii j))%N then
    let u := A ii j %/ A i j in
    let v := A ii j %% A i j in
    let A1 := upd A ii (upd (A ii) j v) in
    let u' := - u in
    let body M jj := upd M ii (upd (M ii) jj (M ii jj + u' * M i jj)) in
    let A2 := foldl body A1 (iota 0 j) in
    (foldl body A2 (iota j.+1 (c - j.+1)), omap (fun B => foldl body B (iota 0 cT)) other)
  else (A, other).

(** nmod_poly_mat_weak_popov.c:145-159; n_invmod of the leading coefficient of a zero entry is
    undefined *)
Definition normalize_pivot (c cT : nat) A (other : option (fmat {poly F})) (i j : nat)
  : aoutcome (fmat {poly F} * option (fmat {poly F}) * F) :=
  if A i j \is monic then AOk (A, other, 1)
  else if A i j == 0 then AUB
  else
    let inv := (lead_coef (A i j))^-1 in
    let body M jj := upd M i (upd (M i) jj (inv *: M i jj)) in
    AOk (foldl body A (iota 0 c), omap (fun B => foldl body B (iota 0 cT)) other, inv).

(** local variables and arguments modified by the row by row loop *)
Record wp_state := WP {
  wp_mat : fmat {poly F}; wp_tsf : option (fmat {poly F}); wp_det : option int;
  wp_pivind : nat -> int; wp_rrp : option (nat -> nat); wp_prow : nat -> int;
  wp_rk : nat; wp_zr : nat }.

Section Loop.
Variables (c cT : nat) (shift : option (nat -> int)) (rstart cstart rdim cdim early : nat).
Variable (o : orientation).

(** nmod_poly_mat_weak_popov.c:209 *)
Definition zpiv : int := if o is ROW_LOWER then -1 else cdim%:Z.

(** one iteration, nmod_poly_mat_weak_popov.c:232-263. Reading pivot_row outside of its cdim
    entries is undefined. The column of the collision (lines 252, 261) is pivind[rk], without
    cstart. *)
Definition wp_step (st : wp_state) : aoutcome wp_state :=
  let: WP A T det pivind rrp prow rk zr := st in
  let '(p, pivdeg, _) :=
    vec_pivot_profile (fun j => A (rstart + rk)%N (cstart + j)%N) shift cdim o in
  let pivind := upd pivind rk p in
  if p == zpiv then
    let rot (M : fmat {poly F}) :=
      (rotate_rows_upward (V := nat) M None (rstart + rk)%N (rstart + rdim - 1)%N).1 in
    AOk (WP (rot A) (omap rot T)
            (omap (fun d => if odd (rdim - 1 - rk) then - d else d) det)
            pivind rrp prow rk zr.+1)
  else if (p < 0) || (cdim%:Z <= p) then AUB
  else
    let j := `|p|%N in
    if prow j == -1 then
      AOk (WP A T det pivind (omap (fun r => upd r rk (rk + zr)%N) rrp) (upd prow j rk%:Z) rk.+1 zr)
    else
      let pi := `|prow j|%N in
      let sw := pivdeg < pdeg (A (rstart + pi)%N j) in
      let swap (M : fmat {poly F}) :=
        if sw then swap_rows M (rstart + pi)%N (rstart + rk)%N else M in
      let det := omap (fun d => if sw && (pi != rk) then - d else d) det in
      match atomic_solve_pivot_collision c cT (swap A) (omap swap T)
              (rstart + rk)%N (rstart + pi)%N j with
      | AOk (A', T') => AOk (WP A' T' det pivind rrp prow rk zr)
      | AUB => AUB
      end.

(** the while loop, nmod_poly_mat_weak_popov.c:231; None when [fuel] iterations do not suffice *)
Fixpoint wp_loop (fuel : nat) (st : wp_state) : option (aoutcome wp_state) :=
  if (wp_rk st + wp_zr st < rdim)%N && (wp_zr st < early)%N then
    if fuel is fuel'.+1 then
      match wp_step st with
      | AOk st' => wp_loop fuel' st'
      | AUB => Some AUB
      end
    else None
  else Some (AOk st).
End Loop.

(** mat, tsf, det, pivind, rrp after the call, and the value returned *)
Record wp_result := WPR {
  wr_mat : fmat {poly F}; wr_tsf : option (fmat {poly F}); wr_det : option int;
  wr_pivind : nat -> int; wr_rrp : option (nat -> nat); wr_ret : int }.

(** nmod_poly_mat_weak_popov.c:193-272; c and cT are mat->c and tsf->c *)
Definition weak_popov_submat (fuel c cT : nat) A shift T det pivind rrp
  (rstart cstart rdim cdim early : nat) o : option (aoutcome wp_result) :=
  if (rdim == 0%N) || (cdim == 0%N) then Some (AOk (WPR A T det pivind rrp 0)) else
  match wp_loop c cT shift rstart cstart rdim cdim early o fuel
          (WP A T det pivind rrp (fun _ => -1) 0 0) with
  | None => None
  | Some AUB => Some AUB
  | Some (AOk st) =>
    let rk : int := (wp_rk st)%:Z in
    Some (AOk (WPR (wp_mat st) (wp_tsf st) (wp_det st) (wp_pivind st) (wp_rrp st)
                   (if (early <= wp_zr st)%N then - rk else rk)))
  end.

(** nmod_poly_mat_forms.h:843-852; mat is m x n *)
Definition weak_popov_iter (fuel m n cT : nat) A shift T pivind rrp o : option (aoutcome wp_result) :=
  weak_popov_submat fuel n cT A shift T None pivind rrp 0 0 m n m o.

(** nmod_poly_mat_weak_popov.c:274-289 *)
Definition ordered_weak_popov_iter (fuel m n cT : nat) A shift T pivind rrp o
  : option (aoutcome wp_result) :=
  match weak_popov_submat fuel n cT A shift T None pivind rrp 0 0 m n m o with
  | None => None
  | Some AUB => Some AUB
  | Some (AOk r) =>
    let '(A', pivind', perm) := permute_rows_by_sorting_vec `|wr_ret r|%N (wr_mat r) (wr_pivind r) in
    Some (AOk (WPR A' (omap (fun B => fperm_rows perm B) (wr_tsf r)) (wr_det r) pivind' (wr_rrp r)
                   (wr_ret r)))
  end.
End WPopov.
