(** Model of flint-extras/src/nmod_poly_mat_extra/nmod_poly_mat_det.c and
    flint-extras/src/nmod_poly_mat_extra/nmod_poly_mat_is_unimodular.c. *)
From mathcomp Require Import all_ssreflect all_algebra fingroup perm.
From Verif Require Import A_base SpecForms A_rot_model A_wpopov_model.
Set Implicit Arguments.
Unset Strict Implicit.
Unset Printing Implicit Defensive.
Import GRing.Theory Num.Theory.
Local Open Scope ring_scope.

(** FLINT's _perm_parity(p, n): 1 when p is an odd permutation of 0..n-1, 0 when it is even *)
Definition perm_parity (n : nat) (p : nat -> nat) : bool :=
  if [pick s : 'S_n | [forall i, (s i : nat) == p i]] is Some s then odd_perm s else false.

Section Det.
Variable F : fieldType.
Local Notation P := {poly F}.

(** the loop over i, nmod_poly_mat_det.c:39-68, from i downto 1; Some None is the early exit of
    lines 55-61. In iteration i the view has i+1 columns: what the permutations and rotations of
    its rows do to the entries of mat in the other columns depends on the version of FLINT, here
    these entries move with their row. They are not used any more. *)
Fixpoint det_loop (fuel i : nat) (A : fmat P) (udet : int) (pivind : nat -> int)
  : option (aoutcome (option (fmat P * int))) :=
  if i is i'.+1 then
    match weak_popov_submat fuel i.+1 0 A None None (Some udet) pivind None 0 0 i.+1 i 2 ROW_UPPER with
    | None => None
    | Some AUB => Some AUB
    | Some (AOk r) =>
      if (wr_ret r < i%:Z) || (wr_mat r i i == 0) then Some (AOk None)
      else
        let rk := `|wr_ret r|%N in
        let '(A', pivind', perm) := permute_rows_by_sorting_vec rk (wr_mat r) (wr_pivind r) in
        let udet := odflt 0 (wr_det r) in
        det_loop fuel i' A' (if perm_parity rk perm then - udet else udet) pivind'
    end
  else Some (AOk (Some (A, udet))).

(** nmod_poly_mat_det.c:22-88; mat is r x r. The uninitialised pivind is modelled by zeros. *)
Definition det_iter (fuel r : nat) (A : fmat P) : option (aoutcome P) :=
  if r == 0%N then Some (AOk 1) else
  match det_loop fuel (r - 1) A 1 (fun _ => 0) with
  | None => None
  | Some AUB => Some AUB
  | Some (AOk None) => Some (AOk 0)
  | Some (AOk (Some (A', udet))) =>
    let det := A' 0%N 0%N in
    Some (AOk (if det != 0 then
                 let det := if udet == -1 then - det else det in
                 foldl (fun det i => det * A' i i) det (iota 1 (r - 1))
               else det))
  end.

(** nmod_poly_mat_is_unimodular.c:16-26; mat is m x n. FLINT's nmod_poly_mat_det is the
    determinant, which is only used when m = n. *)
Definition is_unimodular (m n : nat) (A : fmat P) : bool :=
  if m != n then false else size (\det (mx_of m m A)) == 1%N.

(** the loop drawing two points, nmod_poly_mat_is_unimodular.c:37-43; rnd is the sequence of the
    values returned by n_randint, k the number of values used so far; None when [fuel]
    iterations do not suffice *)
Fixpoint draw_points (fuel : nat) (rnd : nat -> F) (k : nat) (pt1 pt2 : F) : option (F * F) :=
  if pt1 == pt2 then
    if fuel is fuel'.+1 then draw_points fuel' rnd k.+2 (rnd k) (rnd k.+1) else None
  else Some (pt1, pt2).

(** FLINT's nmod_poly_mat_evaluate_nmod *)
Definition fevaluate (A : fmat P) (x : F) : fmat F := fun i j => (A i j).[x].

(** nmod_poly_mat_is_unimodular.c:28-62, for a modulus different from 1; FLINT's nmod_mat_det is
    the determinant. Line 56 computes det2 from ev1. *)
Definition is_unimodular_randomized (fuel m n : nat) (A : fmat P) (rnd : nat -> F) : option bool :=
  if m != n then Some false else
  match draw_points fuel rnd 0 0 0 with
  | None => None
  | Some (pt1, pt2) =>
    let ev1 := fevaluate A pt1 in
    let det1 := \det (mx_of m m ev1) in
    let ev2 := fevaluate A pt2 in
    let det2 := \det (mx_of m m ev1) in
    Some ((det1 != 0) && (det1 == det2))
  end.
End Det.
