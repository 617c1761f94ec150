(** Model of nmod_poly_mat_uref_matrixgcd_iter
    (flint-extras/src/nmod_poly_mat_extra/nmod_poly_mat_hermite.c:901-1045) and of
    nmod_poly_mat_hnf_ur_matrixgcd_iter (flint-extras/src/nmod_poly_mat_forms.h:696-707).
    mat is m x n, tsf has cT columns. *)
From mathcomp Require Import all_ssreflect all_algebra.
From Verif Require Import A_base SpecForms A_rot_model A_wpopov_model A_hermite_model A_det_model.
Set Implicit Arguments.
Unset Strict Implicit.
Unset Printing Implicit Defensive.
Import GRing.Theory Num.Theory.
Local Open Scope ring_scope.

Section MatGcd.
Variable F : fieldType.
Local Notation P := {poly F}.
Local Notation omat := (option (fmat P)).
Variable xgcd : P -> P -> P * P * P.
Variables m n cT : nat.
Implicit Types (A : fmat P) (T : omat).

(** mat, tsf, pivind, rrp, udet after the call, and the returned value *)
Record mg_result := MGR {
  mg_mat : fmat P; mg_tsf : omat; mg_pivind : nat -> int; mg_rrp : option (nat -> nat);
  mg_udet : option int; mg_ret : int }.

(** nmod_poly_mat_hermite.c:972-974 *)
Definition mg_clear A T (pi j : nat) : fmat P * omat :=
  foldl (fun st ii => if st.1 ii j != 0 then xgcd_collision xgcd n cT st.1 st.2 pi ii j else st)
    (A, T) (iota pi.+1 (m - pi.+1)).

(** the loop on i, nmod_poly_mat_hermite.c:1003-1039; the boolean is false for the exits of lines
    1022-1026 and 1029-1033 *)
Fixpoint mg_loop (fuel i : nat) A T (udet : option int) (pivind : nat -> int)
  : option (aoutcome (fmat P * omat * option int * (nat -> int) * bool)) :=
  if i is i'.+1 then
    match weak_popov_submat fuel n cT A None T udet pivind None 0 0 i i' 2 ROW_UPPER with
    | None => None
    | Some AUB => Some AUB
    | Some (AOk r) =>
      if (wr_ret r < i'%:Z) || (wr_mat r i' i' == 0) then
        Some (AOk (wr_mat r, wr_tsf r, wr_det r, wr_pivind r, false))
      else
        let '(A', pivind', perm) := permute_rows_by_sorting_vec i' (wr_mat r) (wr_pivind r) in
        mg_loop fuel i' A' (omap (fun B => fperm_rows perm B) (wr_tsf r))
          (omap (fun d => if perm_parity i' perm then - d else d) (wr_det r)) pivind'
    end
  else Some (AOk (A, T, udet, pivind, true)).

(** nmod_poly_mat_hermite.c:901-1045. When a pivot is missed by the first weak Popov form, the
    loop of lines 952-959 on rrp has no effect: it stops at once. Line 982 swaps two rows, udet
    is not updated. *)
Definition uref_matrixgcd_iter (fuel : nat) A T (pivind : nat -> int) (rrp : option (nat -> nat))
  (udet : option int) : option (aoutcome mg_result) :=
  if (m == 0%N) || (n == 0%N) then Some (AOk (MGR A T pivind rrp udet 0)) else
  let mdim := minn m n in
  match weak_popov_submat fuel n cT A None T udet pivind rrp 0 0 m (mdim - 1) m ROW_UPPER with
  | None => None
  | Some AUB => Some AUB
  | Some (AOk r) =>
    let rk := `|wr_ret r|%N in
    let pi := first_nz m (wr_mat r) rk rk in
    let '(A, T, rk) :=
      if (pi < m)%N then
        let '(A, T) := mg_clear (wr_mat r) (wr_tsf r) pi rk in
        (swap_rows A rk pi, omap (fun B => swap_rows B rk pi) T, rk.+1)
      else (wr_mat r, wr_tsf r, rk) in
    if ~~ all (fun i => all (fun j => A i j == 0) (iota rk (n - rk))) (iota rk (m - rk)) then
      Some (AOk (MGR A T (wr_pivind r) (wr_rrp r) (wr_det r) (- rk%:Z - 1)))
    else
      match mg_loop fuel rk A T (wr_det r) (wr_pivind r) with
      | None => None
      | Some AUB => Some AUB
      | Some (AOk (A', T', udet', pivind', true)) =>
        Some (AOk (MGR A' T' (foldl (fun p j => upd p j j%:Z) pivind' (iota 0 rk)) (wr_rrp r) udet' rk%:Z))
      | Some (AOk (A', T', udet', pivind', false)) =>
        Some (AOk (MGR A' T' pivind' (wr_rrp r) udet' (- rk%:Z)))
      end
  end.

(** nmod_poly_mat_forms.h:696-707: a negative rank normalises nothing *)
Definition hnf_matrixgcd_iter (fuel : nat) A T (pivind : nat -> int) (rrp : option (nat -> nat))
  (udet : option int) : option (aoutcome mg_result) :=
  match uref_matrixgcd_iter fuel A T pivind rrp udet with
  | None => None
  | Some AUB => Some AUB
  | Some (AOk r) =>
    if mg_ret r < 0 then Some (AOk r) else
    match normalize_uref n cT (mg_mat r) (mg_tsf r) (fun i => `|mg_pivind r i|%N) `|mg_ret r|%N with
    | AUB => Some AUB
    | AOk (A', T') => Some (AOk (MGR A' T' (mg_pivind r) (mg_rrp r) (mg_udet r) (mg_ret r)))
    end
  end.
End MatGcd.
