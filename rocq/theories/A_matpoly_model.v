(** Model of matrix polynomials: flint-extras/src/nmod_mat_poly.h and
    flint-extras/src/nmod_mat_poly_extra/. *)
From mathcomp Require Import all_ssreflect all_algebra zify.
From Verif Require Import A_base.
Set Implicit Arguments.
Unset Strict Implicit.
Unset Printing Implicit Defensive.
Import GRing.Theory Num.Theory.
Local Open Scope ring_scope.

Section MatPoly.
Variable F : fieldType.

(** nmod_mat_poly.h:70-78, nmod_mat_poly_struct: the length and the array of
    coefficient matrices. Coefficients at index >= mp_len are not meaningful.
    Dimensions are passed separately; the allocated size is not modelled. *)
Record mat_poly := MatPoly { mp_len : nat; mp_co : nat -> fmat F }.
Implicit Types A B : mat_poly.

(** the polynomial matrix represented by a matrix polynomial (specification) *)
Definition mp_entry A : fmat {poly F} := fun i j => \poly_(k < mp_len A) mp_co A k i j.
Definition mp_mx m n A : 'M[{poly F}]_(m, n) := mx_of m n (mp_entry A).

(** nmod_mat_is_zero (FLINT) *)
Definition fmat_is_zero m n (M : fmat F) : bool :=
  all (fun i => all (fun j => M i j == 0) (iota 0 n)) (iota 0 m).

(** nmod_mat_poly.h:165-175, _nmod_mat_poly_set_length: nmod_mat_init creates
    zero matrices *)
Definition mp_set_length A (len : nat) : mat_poly :=
  MatPoly len (fun k => if (k < mp_len A)%N then mp_co A k else fzero).

(** nmod_mat_poly.h:180-188, _nmod_mat_poly_normalise *)
Fixpoint norm_len m n (co : nat -> fmat F) (len : nat) : nat :=
  if len is len'.+1 then
    (if fmat_is_zero m n (co len') then norm_len m n co len' else len)
  else 0%N.
Definition mp_normalise m n A : mat_poly := MatPoly (norm_len m n (mp_co A) (mp_len A)) (mp_co A).

(** nmod_mat_poly.h:205-209, 214, 218-224, 228-232, 272-276: zero, is_zero, one,
    is_one, degree *)
Definition mp_zero : mat_poly := MatPoly 0 (fun _ => fzero).
Definition mp_is_zero A : bool := mp_len A == 0%N.
Definition mp_one : mat_poly := MatPoly 1 (fun _ => fone).
Definition mp_is_one m n A : bool :=
  (mp_len A == 1%N) && fmat_is_zero m n (fun i j => mp_co A 0%N i j - fone i j).
Definition mp_degree A : int := (mp_len A)%:Z - 1.

(** nmod_mat_poly.h:291-298, nmod_mat_poly_get_coeff *)
Definition mp_get_coeff A k : fmat F := if (k < mp_len A)%N then mp_co A k else fzero.

(** nmod_mat_poly.h:360-364, nmod_mat_poly_is_constant *)
Definition mp_is_constant A : bool := mp_len A == 0%N.

(** nmod_mat_poly.h:369-379, nmod_mat_poly_truncate *)
Definition mp_truncate m n A (order : nat) : mat_poly :=
  if (order < mp_len A)%N then mp_normalise m n (MatPoly order (mp_co A)) else A.

(** nmod_mat_poly_shift.c:3-22, _nmod_mat_poly_shift_left on coefficient arrays;
    [alias] tells whether smatp and matp are the same pointer *)
Definition swap_co (co : nat -> fmat F) i j := upd (upd co i (co j)) j (co i).
Definition mp_shift_left_raw (alias : bool) (dst src : nat -> fmat F) (len n : nat) :=
  let d1 := if alias
            then foldl (fun d i => swap_co d (n + i)%N i) dst (rev (iota 0 len))
            else foldl (fun d i => upd d (n + i)%N (src i)) dst (iota 0 len) in
  foldl (fun d i => upd d i fzero) d1 (iota 0 n).

(** nmod_mat_poly_shift.c:31-50, nmod_mat_poly_shift_left(smatp, matp, n). When
    smatp and matp are the same object, matp->length at line 49 is the new
    length. A negative matp->length - n makes the copy loop empty, hence the
    natural number subtraction. *)
Definition mp_shift_left (alias : bool) (dst A : mat_poly) (n : nat) : mat_poly :=
  if n == 0%N then A
  else if mp_len A == 0%N then mp_zero
  else
    let newlen := (mp_len A + n)%N in
    let dst1 := mp_set_length (if alias then A else dst) newlen in
    let srclen := if alias then newlen else mp_len A in
    MatPoly newlen (mp_shift_left_raw alias (mp_co dst1) (mp_co A) (srclen - n) n).

(** nmod_mat_poly.h:413-446, nmod_mat_poly_permute_rows(matp, perm_act, NULL) *)
Definition mp_permute_rows A (p : seq nat) : mat_poly :=
  MatPoly (mp_len A) (fun k => fperm_rows (nth 0%N p) (mp_co A k)).

(** nmod_mat_poly_arith.c:5-41, nmod_mat_poly_mul_coeff: coefficient of degree k
    of mat1 * mat2, [q] is the inner dimension *)
Definition mp_mul_coeff q (A B : mat_poly) (k : nat) : fmat F :=
  let ubound := minn k.+1 (mp_len A) in
  let lbound := (k.+1 - mp_len B)%N in
  if (ubound <= lbound)%N then fzero
  else
    foldl (fun c i => fadd c (fmul q (mp_co A i) (mp_co B (k - i))))
      (fmul q (mp_co A lbound) (mp_co B (k - lbound)))
      (iota lbound.+1 (ubound - lbound.+1)).

(** nmod_mat_poly_arith.c:43-68, nmod_mat_poly_evaluate_nmod *)
Definition mp_evaluate A (pt : F) : fmat F :=
  let len := mp_len A in
  if len == 0%N then fzero
  else if (len == 1%N) || (pt == 0) then mp_co A 0%N
  else foldl (fun e k => fun i j => mp_co A k i j + pt * e i j)
         (mp_co A len.-1) (rev (iota 0 len.-1)).

(** nmod_mat_poly_set_from.c:5-29, (init_)set_from_nmod_mat *)
Definition mp_set_from_mat m n (M : fmat F) : mat_poly :=
  if fmat_is_zero m n M then mp_zero else MatPoly 1 (fun _ => M).

(** FLINT's nmod_poly_mat_max_length *)
Definition pm_max_length m n (P : fmat {poly F}) : nat :=
  \max_(i < m) \max_(j < n) size (P i j).

(** nmod_mat_poly_set_from.c:31-52, nmod_mat_poly_set_trunc_from_poly_mat *)
Definition mp_set_trunc_from_poly_mat m n (P : fmat {poly F}) (order : nat) : mat_poly :=
  let len := pm_max_length m n P in
  let order' := if (len < order)%N then len else order in
  let A := MatPoly order' (fun k i j => (P i j)`_k) in
  if (order' < len)%N then mp_normalise m n A else A.

(** nmod_mat_poly.h:572-576, nmod_mat_poly_set_from_poly_mat: order = max length *)
Definition mp_set_from_poly_mat m n (P : fmat {poly F}) : mat_poly :=
  mp_set_trunc_from_poly_mat m n P (pm_max_length m n P).

(** nmod_poly_mat_utils.c:185-210, nmod_poly_mat_set_trunc_from_mat_poly: each
    entry gets [order] coefficients and is normalised; nmod_poly_mat_utils.h:629 *)
Definition pm_set_trunc_from_mat_poly A (order : nat) : fmat {poly F} :=
  let order' := if (mp_len A < order)%N then mp_len A else order in
  fun i j => \poly_(k < order') mp_co A k i j.
Definition pm_set_from_mat_poly A : fmat {poly F} := pm_set_trunc_from_mat_poly A (mp_len A).
End MatPoly.
Arguments mp_zero {F}.
Arguments mp_one {F}.
