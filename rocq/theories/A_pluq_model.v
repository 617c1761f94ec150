(** Model of flint-extras/src/nmod_mat_extra/nmod_mat_pluq.c over a field. *)
From mathcomp Require Import all_ssreflect all_algebra.
From Verif Require Import A_base A_rot_model.
Set Implicit Arguments.
Unset Strict Implicit.
Unset Printing Implicit Defensive.
Import GRing.Theory.
Local Open Scope ring_scope.

Section Pluq.
Variable F : fieldType.
Implicit Types (A L U LU : fmat F).

Record pluq_state := PS { ps_A : fmat F; ps_P : nat -> nat; ps_Q : nat -> nat; ps_rank : nat; ps_null : nat }.

(** nmod_mat_pluq.c:126-128: the first column >= rank with a nonzero entry in row rank, or n *)
Definition seek_pivot n A rank : nat :=
  (rank + find (fun j => A rank j != 0%R) (iota rank (n - rank)))%N.

(** nmod_mat_pluq.c:149-154, for one row i; inv is inv_pivot *)
Definition eliminate_row n rank inv (A : fmat F) (i : nat) : fmat F :=
  let A1 := upd A i (upd (A i) rank (A i rank * inv)) in
  let c := - A1 i rank in
  upd A1 i (foldl (fun r j => upd r j (r j + c * A1 rank j)) (A1 i) (iota rank.+1 (n - rank - 1)%N)).

(** nmod_mat_pluq.c:123-158: one iteration *)
Definition pluq_step m n (st : pluq_state) : pluq_state :=
  let '(PS A P Q rank nullity) := st in
  let pivot := seek_pivot n A rank in
  if pivot == n then
    let '(A', P') := rotate_rows_upward A (Some P) rank (m - 1)%N in
    PS A' (odflt P P') Q rank nullity.+1
  else
    let '(A', Q') := rotate_columns_rightward m A (Some Q) rank pivot in
    let inv := (A' rank rank)^-1 in
    PS (foldl (eliminate_row n rank inv) A' (iota rank.+1 (m - nullity - rank.+1)%N))
       P (odflt Q Q') rank.+1 nullity.

(** the while loop of line 123; each iteration increases rank + nullity, so m iterations are
    enough (None is never returned, see C13) *)
Fixpoint pluq_loop fuel m n st : option pluq_state :=
  if (ps_rank st + ps_null st < m)%N then
    if fuel is fuel'.+1 then pluq_loop fuel' m n (pluq_step m n st) else None
  else Some st.

(** nmod_mat_pluq.c:118-160, called with P, Q identity permutations (nmod_mat_extra.h:341-344) *)
Definition pluq m n A : option pluq_state := pluq_loop m m n (PS A id id 0 0).

(** nmod_mat_pluq.c:162-275. The dot products (nmod_vec_dot_product_multi, see C03, and FLINT's
    _nmod_vec_dot) are modelled by their value. *)
Definition crout_step m n (st : pluq_state) : pluq_state :=
  let '(PS A P Q rank nullity) := st in
  (* lines 205-220 *)
  let vecmat j := \sum_(i < rank) A rank i * A i (rank + j)%N in
  let A1 := upd A rank (foldl (fun r j => upd r (rank + j)%N (r (rank + j)%N - vecmat j)) (A rank)
                          (iota 0 (n - rank)%N)) in
  (* lines 223-225 *)
  let pivot := seek_pivot n A1 rank in
  if pivot == n then
    let '(A', P') := rotate_rows_upward A1 (Some P) rank (m - 1)%N in
    PS A' (odflt P P') Q rank nullity.+1
  else
    (* lines 242-261 *)
    let inv := (A1 rank pivot)^-1 in
    let Aipiv i := A1 i pivot in
    let Avec i := \sum_(k < rank) A1 (i + rank + 1)%N k * Aipiv k in
    let A2 := foldl (fun A i =>
        let A' := upd A i (upd (A i) pivot (A i pivot - Avec (i - rank - 1)%N)) in
        upd A' i (upd (A' i) pivot (A' i pivot * inv)))
      A1 (iota rank.+1 (m - nullity - rank.+1)%N) in
    (* lines 264-265 *)
    let '(A', Q') := rotate_columns_rightward m A2 (Some Q) rank pivot in
    PS A' P (odflt Q Q') rank.+1 nullity.

Fixpoint crout_loop fuel m n st : option pluq_state :=
  if (ps_rank st + ps_null st < m)%N then
    if fuel is fuel'.+1 then crout_loop fuel' m n (crout_step m n st) else None
  else Some st.

Definition pluq_crout m n A : option pluq_state := crout_loop m m n (PS A id id 0 0).

(** ** the factors L and U from the compact storage *)

(** _nmod_vec_set(row + j0, src + j0, len), _nmod_vec_zero(row + j0, len) *)
Definition row_set (dst src : nat -> F) (j0 len : nat) : nat -> F :=
  fun j => if (j0 <= j)%N && (j < j0 + len)%N then src j else dst j.
Definition row_zero (dst : nat -> F) (j0 len : nat) : nat -> F := row_set dst (fun=> 0) j0 len.

(** nmod_mat_pluq.c:31-50: L is m x m *)
Definition compact_L m rk L LU : fmat F :=
  let L0 := upd L 0%N (upd (L 0%N) 0%N 1) in
  let L1 := foldl (fun L i => upd L i (upd (row_set (L i) (LU i) 0 i) i 1)) L0 (iota 1 (rk - 1)%N) in
  foldl (fun L i => upd L i (upd (row_set (L i) (LU i) 0 rk) i 1)) L1 (iota rk (m - rk)%N).

(** nmod_mat_pluq.c:53-67: U aliases LU *)
Definition compact_U_alias m rk LU : fmat F :=
  let U1 := foldl (fun U i => upd U i (row_zero (U i) 0 i)) LU (iota 1 (rk - 1)%N) in
  foldl (fun U i => upd U i (row_zero (U i) 0 rk)) U1 (iota rk (m - rk)%N).

(** nmod_mat_pluq.c:70-72 (FLINT < 3.3): U is m x n *)
Definition compact_U_old n rk U LU : fmat F :=
  foldl (fun U i => upd U i (row_set (U i) (LU i) i (n - i)%N)) U (iota 0 rk).

(** nmod_mat_pluq.c:74 (FLINT >= 3.3): the n - i entries of row i of LU from column i are written
    in the m x m matrix L, from entry (i, i) on, contiguously; None when this goes beyond the
    last entry of L (undefined) *)
Definition compact_L_overwrite m n i L LU : option (fmat F) :=
  if (i * m + n <= m * m)%N then
    Some (fun a b => if (b < m)%N then
                       let f := (a * m + b - i * m)%N in
                       if (i * m + i <= a * m + b)%N && (f < n)%N then LU i f else L a b
                     else L a b)
  else None.

(** nmod_mat_pluq.c:22-76; [v33] is FLINT >= 3.3, [alias] is U == LU; result (L, U) *)
Definition l_u_zeroin (v33 alias : bool) m n L U LU rk : aoutcome (fmat F * fmat F) :=
  if m == 0%N then AOk (L, if alias then LU else U)
  else
    let L1 := compact_L m rk L LU in
    if alias then AOk (L1, compact_U_alias m rk LU)
    else if v33 then
      let r := foldl (fun oL i => obind (fun L => compact_L_overwrite m n i L LU) oL)
                 (Some L1) (iota 0 rk) in
      if r is Some L2 then AOk (L2, U) else AUB
    else AOk (L1, compact_U_old n rk U LU).

(** nmod_mat_pluq.c:78-116 *)
Definition l_u_from_compactlu (v33 alias : bool) m n L U LU rk : aoutcome (fmat F * fmat F) :=
  let L1 := foldl (fun L i => upd L i (row_zero (L i) i.+1 (m - i - 1)%N)) L (iota 1 (rk - 1)%N) in
  let L2 := foldl (fun L i => upd L i (row_zero (L i) rk (m - rk)%N)) L1 (iota rk (m - rk)%N) in
  let U2 :=
    if alias then U
    else
      let U1 := foldl (fun U i => upd U i (row_zero (U i) 0 i)) U (iota 1 (rk - 1)%N) in
      foldl (fun U i => upd U i (row_zero (U i) 0 n)) U1 (iota rk (m - rk)%N) in
  l_u_zeroin v33 alias m n L2 U2 LU rk.
End Pluq.
