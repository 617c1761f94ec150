(** Models of flint-extras/src/nmod_poly_mat_extra/degrees_pivots_leadingmatrix.c and
    nmod_poly_mat_is_form.c. A shift is [None] (NULL) or a function; slong values
    are integers (no overflow of degree + shift). *)
From mathcomp Require Import all_ssreflect all_algebra zify.
From Verif Require Import A_base SpecForms.
Set Implicit Arguments.
Unset Strict Implicit.
Unset Printing Implicit Defensive.
Import GRing.Theory Num.Theory.
Local Open Scope ring_scope.

Section Forms.
Variable F : fieldType.
Implicit Types (A : fmat {poly F}) (v : nat -> {poly F}) (shift : option (nat -> int)).

(** degrees_pivots_leadingmatrix.c:46-53, 98-103, 152-157, 210-215 *)
Definition min_shift (s : nat -> int) (len : nat) : int :=
  foldl (fun mn j => if s j < mn then s j else mn) (if (0 < len)%N then s 0%N else 0) (iota 0 len).

(** degrees_pivots_leadingmatrix.c:31-37, 84-90, 131-137, 188-194 *)
Definition vec_max v (len : nat) : int :=
  foldl (fun mx j => let d := pdeg (v j) in if mx < d then d else mx) (-1) (iota 0 len).

(** degrees_pivots_leadingmatrix.c:57-64, 107-114, 161-168, 219-226 *)
Definition vec_max_shifted v (s : nat -> int) (len : nat) : int :=
  foldl (fun mx j => let d := pdeg (v j) + s j in if (s j <= d) && (mx < d) then d else mx)
    (min_shift s len - 1) (iota 0 len).

(** one pass of the loop of row_degree (lines 29-41, 55-68): the degree written,
    and the increment of nnz *)
Definition vec_degree v shift len : int * nat :=
  match shift with
  | None => let mx := vec_max v len in (mx, nat_of_bool (0 <= mx))
  | Some s => let mx := vec_max_shifted v s len in (mx, nat_of_bool (min_shift s len <= mx))
  end.

(** lines 129-145, 159-176: _zero variants *)
Definition vec_degree_zero v shift len : int * nat :=
  match shift with
  | None =>
    let mx := vec_max v len in
    if 0 <= mx then (mx, 1%N) else (0, 0%N)
  | Some s =>
    let mx := vec_max_shifted v s len in
    if min_shift s len <= mx then (mx, 1%N) else (min_shift s len, 0%N)
  end.

Definition fcol A j : nat -> {poly F} := fun i => A i j.

(** degrees_pivots_leadingmatrix.c:23-71 *)
Definition row_degree m n A shift : (nat -> int) * nat :=
  (fun i => (vec_degree (A i) shift n).1, \sum_(i < m) (vec_degree (A i) shift n).2)%N.
(** degrees_pivots_leadingmatrix.c:73-121 *)
Definition column_degree m n A shift : (nat -> int) * nat :=
  (fun j => (vec_degree (fcol A j) shift m).1, \sum_(j < n) (vec_degree (fcol A j) shift m).2)%N.
(** degrees_pivots_leadingmatrix.c:123-179 *)
Definition row_degree_zero m n A shift : (nat -> int) * nat :=
  (fun i => (vec_degree_zero (A i) shift n).1, \sum_(i < m) (vec_degree_zero (A i) shift n).2)%N.
(** degrees_pivots_leadingmatrix.c:181-237 *)
Definition column_degree_zero m n A shift : (nat -> int) * nat :=
  (fun j => (vec_degree_zero (fcol A j) shift m).1,
   \sum_(j < n) (vec_degree_zero (fcol A j) shift m).2)%N.

(** degrees_pivots_leadingmatrix.c:240-267 *)
Definition degree_matrix_shifted A shift (o : orientation) : fmat int :=
  match shift with
  | Some s =>
    match o with
    | ROW_LOWER | ROW_UPPER => fun i j => pdeg (A i j) + s j
    | COL_LOWER | COL_UPPER => fun i j => pdeg (A i j) + s i
    end
  | None => fun i j => pdeg (A i j)
  end.

(** degrees_pivots_leadingmatrix.c:274-367, _nmod_poly_vec_pivot_profile; the loop
    state is (max, piv); the result is (pivind, pivdeg, return value) *)
Definition vec_pivot_profile v shift (len : nat) (o : orientation) : int * int * nat :=
  match o with
  | ROW_LOWER | COL_UPPER =>
    match shift with
    | None =>
      let '(mx, piv) := foldl (fun (st : int * int) j =>
          let d := pdeg (v j) in
          if (0 <= d) && (st.1 <= d) then (d, j%:Z) else st) (-1, -1) (iota 0 len) in
      (piv, mx, nat_of_bool (0 <= piv))
    | Some s =>
      let '(mx, piv) := foldl (fun (st : int * int) j =>
          let d := pdeg (v j) in
          if (0 <= d) && ((st.2 == -1) || (st.1 <= d + s j)) then (d + s j, j%:Z) else st)
        (0, -1) (iota 0 len) in
      (piv, if piv == -1 then -1 else mx - s `|piv|%N, nat_of_bool (0 <= piv))
    end
  | COL_LOWER | ROW_UPPER =>
    match shift with
    | None =>
      let '(mx, piv) := foldl (fun (st : int * int) j =>
          let d := pdeg (v j) in
          if (0 <= d) && (st.1 < d) then (d, j%:Z) else st) (-1, -1) (iota 0 len) in
      (if piv == -1 then len%:Z else piv, mx, nat_of_bool (0 <= piv))
    | Some s =>
      let '(mx, piv) := foldl (fun (st : int * int) j =>
          let d := pdeg (v j) in
          if (0 <= d) && ((st.2 == -1) || (st.1 < d + s j)) then (d + s j, j%:Z) else st)
        (0, -1) (iota 0 len) in
      (piv, if piv == -1 then len%:Z else mx - s `|piv|%N, nat_of_bool (0 <= piv))
    end
  end.

(** the line of index i (row or column), its length, the number of lines *)
Definition row_wise (o : orientation) : bool :=
  match o with ROW_LOWER | ROW_UPPER => true | _ => false end.
Definition line o A (i : nat) : nat -> {poly F} := if row_wise o then A i else fcol A i.
Definition nlines o (m n : nat) : nat := if row_wise o then m else n.
Definition linelen o (m n : nat) : nat := if row_wise o then n else m.

(** degrees_pivots_leadingmatrix.c:369-426, nmod_poly_mat_pivot_index and
    nmod_poly_mat_pivot_profile (pivind, pivdeg, nnz) *)
Definition pivot_profile m n A shift o : (nat -> int) * (nat -> int) * nat :=
  let prof i := vec_pivot_profile (line o A i) shift (linelen o m n) o in
  (fun i => (prof i).1.1, fun i => (prof i).1.2, \sum_(i < nlines o m n) (prof i).2)%N.
Definition pivot_index m n A shift o : (nat -> int) * nat :=
  let '(pivind, _, nnz) := pivot_profile m n A shift o in (pivind, nnz).

(** degrees_pivots_leadingmatrix.c:428-477; while loops scanning from the end
    (lower rows, upper columns) or from the start; [fuel] is the number of entries
    not yet scanned *)
Fixpoint scan_down v (cnt : nat) : int :=
  if cnt is cnt'.+1 then if v cnt' == 0 then scan_down v cnt' else cnt'%:Z else -1.
Fixpoint scan_up v (len cnt : nat) : int :=
  if cnt is cnt'.+1 then if v (len - cnt)%N == 0 then scan_up v len cnt' else (len - cnt)%N%:Z
  else len%:Z.
Definition vec_echelon_pivot v (len : nat) o : int :=
  match o with
  | ROW_LOWER | COL_UPPER => scan_down v len
  | ROW_UPPER | COL_LOWER => scan_up v len len
  end.
Definition echelon_pivot_index m n A o : nat -> int :=
  fun i => vec_echelon_pivot (line o A i) (linelen o m n) o.
(** degrees_pivots_leadingmatrix.c:479-533 *)
Definition echelon_pivot_profile m n A o : (nat -> int) * (nat -> int) :=
  (echelon_pivot_index m n A o,
   fun i =>
     let piv := echelon_pivot_index m n A o i in
     let zero := match o with
                 | ROW_LOWER | COL_UPPER => -1
                 | ROW_UPPER | COL_LOWER => (linelen o m n)%:Z end in
     if piv == zero then -1 else pdeg (line o A i `|piv|%N)).

(** degrees_pivots_leadingmatrix.c:540-607; nmod_poly_get_coeff_ui *)
Definition coef_int (p : {poly F}) (d : int) : F := p`_`|d|%N.
Definition leading_matrix m n A shift o : fmat F :=
  if row_wise o then
    let rdeg := (row_degree m n A shift).1 in
    match shift with
    | None => fun i j => if 0 <= rdeg i then coef_int (A i j) (rdeg i) else 0
    | Some s => fun i j => if s j <= rdeg i then coef_int (A i j) (rdeg i - s j) else 0
    end
  else
    let cdeg := (column_degree m n A shift).1 in
    match shift with
    | None => fun i j => if 0 <= cdeg j then coef_int (A i j) (cdeg j) else 0
    | Some s => fun i j => if s i <= cdeg j then coef_int (A i j) (cdeg j - s i) else 0
    end.

(** nmod_poly_mat_is_form.c:33-46; nmod_mat_rank *)
Definition is_reduced m n A shift o : bool :=
  let rank_lead := \rank (mx_of m n (leading_matrix m n A shift o)) in
  if row_wise o then m == rank_lead else n == rank_lead.

(** nmod_poly_mat_is_form.c:68-79, 102-113: the three tests *)
Definition piv_checks (pivind : seq int) (dim : nat) (zpiv : int) : bool :=
  if (0 < dim)%N && (nth 0%:Z pivind 0 == -1) then false
  else if ~~ all (fun i => ~~ (nth 0%:Z pivind i.+1 <= nth 0%:Z pivind i)) (iota 0 (dim - 1)) then false
  else if (0 < dim)%N && (nth 0%:Z pivind (dim - 1) == zpiv) then false
  else true.

(** nmod_poly_mat_is_form.c:52-83; qsort with the order on slong *)
Definition is_weak_popov m n A shift o : bool :=
  let dim := nlines o m n in
  let zpiv := (linelen o m n)%:Z in
  let pivind := mkseq (pivot_index m n A shift o).1 dim in
  piv_checks (sort (fun a b : int => a <= b) pivind) dim zpiv.

(** nmod_poly_mat_is_form.c:89-117 *)
Definition is_ordered_weak_popov m n A shift o : bool :=
  let dim := nlines o m n in
  let zpiv := (linelen o m n)%:Z in
  piv_checks (mkseq (pivot_index m n A shift o).1 dim) dim zpiv.

(** nmod_poly_mat_is_form.c:157-160: pivots must be monic, reading the entry
    (pivind[j], j), which must be in the matrix *)
Fixpoint col_monic m n A (p : nat -> nat) (js : seq nat) : aoutcome bool :=
  if js is j :: js' then
    if (p j < m)%N && (j < n)%N then
      if A (p j) j \is monic then col_monic m n A p js' else AOk false
    else AUB
  else AOk true.

(** nmod_poly_mat_is_form.c:123-172; ROW_UPPER goes to the column branch because
    of the test "orient == ROW_LOWER || orient == ROW_LOWER" (line 142); entries
    read outside of the matrix are undefined behaviour *)
Definition is_popov m n A shift o : aoutcome bool :=
  let dim := nlines o m n in
  if ~~ is_ordered_weak_popov m n A shift o then AOk false
  else
    let '(pivind, pivdeg, _) := pivot_profile m n A shift o in
    let p i := `|pivind i|%N in
    match o with
    | ROW_LOWER =>
      AOk (all (fun i => A i (p i) \is monic) (iota 0 dim) &&
           all (fun i => all (fun ii =>
             ~~ ((i != ii) && (pivdeg i <= pdeg (A ii (p i))))) (iota 0 dim)) (iota 0 dim))
    | _ =>
      match col_monic m n A p (iota 0 dim) with
      | AOk true =>
        AOk (all (fun j => all (fun jj =>
               ~~ ((j != jj) && (pivdeg j <= pdeg (A (p j) jj)))) (iota 0 dim)) (iota 0 dim))
      | r => r
      end
    end.

(** nmod_poly_mat_is_form.c:178-234 *)
Fixpoint first_from (p : nat -> bool) (i cnt : nat) : nat :=
  if cnt is cnt'.+1 then if p i then first_from p i.+1 cnt' else i else i.
(** scan from the end: the number of lines remaining, i+1 in the code *)
Fixpoint last_until (p : nat -> bool) (cnt : nat) : nat :=
  if cnt is cnt'.+1 then if p cnt' then last_until p cnt' else cnt else 0.
Definition is_echelon m n A o : bool :=
  let dim := nlines o m n in
  let zpiv := (linelen o m n)%:Z in
  let pivind := echelon_pivot_index m n A o in
  match o with
  | ROW_LOWER | COL_UPPER =>
    let i0 := first_from (fun i => pivind i == -1) 0 dim in
    all (fun i => ~~ (pivind i.+1 <= pivind i)) (iota i0 (dim - 1 - i0))
  | ROW_UPPER | COL_LOWER =>
    let i1 := last_until (fun i => pivind i == zpiv) dim in
    all (fun i => ~~ (pivind i.+1 <= pivind i)) (iota 0 (i1 - 1))
  end.

(** nmod_poly_mat_is_form.c:240-314 *)
Definition is_hermite m n A o : bool :=
  let dim := nlines o m n in
  let zpiv := (linelen o m n)%:Z in
  if dim == 0%N then true
  else if ~~ is_echelon m n A o then false
  else
    let '(pivind, pivdeg) := echelon_pivot_profile m n A o in
    if (pivind 0%N == -1) || (pivind (dim - 1)%N == zpiv) then false
    else
      let p i := `|pivind i|%N in
      match o with
      | ROW_LOWER => all (fun i => (A i (p i) \is monic) &&
          all (fun ii => ~~ (pivdeg i < (size (A ii (p i)))%:Z)) (iota i.+1 (dim - i.+1))) (iota 0 dim)
      | ROW_UPPER => all (fun i => (A i (p i) \is monic) &&
          all (fun ii => ~~ (pivdeg i < (size (A ii (p i)))%:Z)) (iota 0 i)) (iota 0 dim)
      | COL_LOWER => all (fun j => (A (p j) j \is monic) &&
          all (fun jj => ~~ (pivdeg j < (size (A (p j) jj))%:Z)) (iota 0 j)) (iota 0 dim)
      | COL_UPPER => all (fun j => (A (p j) j \is monic) &&
          all (fun jj => ~~ (pivdeg j < (size (A (p j) jj))%:Z)) (iota j.+1 (dim - j.+1))) (iota 0 dim)
      end.

(** nmod_poly_mat_forms.h:52-62 and 494-515 *)
Inductive form := NONE | REDUCED | WEAK_POPOV | ORD_WEAK_POPOV | POPOV | ECHELON | HERMITE.
Definition is_form m n A (f : form) shift o : aoutcome bool :=
  match f with
  | NONE => AOk true
  | REDUCED => AOk (is_reduced m n A shift o)
  | WEAK_POPOV => AOk (is_weak_popov m n A shift o)
  | ORD_WEAK_POPOV => AOk (is_ordered_weak_popov m n A shift o)
  | POPOV => is_popov m n A shift o
  | ECHELON => AOk (is_echelon m n A o)
  | HERMITE => AOk (is_echelon m n A o)
  end.
End Forms.
