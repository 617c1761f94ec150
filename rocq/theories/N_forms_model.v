(** ntl-extras/mat_lzz_pX_extra/src/mat_lzz_pX_forms.cpp: shifted degrees, pivots, leading matrices and tests of the forms of polynomial
    matrices. A VecLong is a sequence of integers; the additions of degrees and shifts do not overflow. NTL's gauss (rank of a matrix
    over the field) is the rank of mathcomp. *)
From mathcomp Require Import all_ssreflect all_algebra.
From Verif Require Import A_base N_pmat_model.
Set Implicit Arguments.
Unset Strict Implicit.
Unset Printing Implicit Defensive.
Import Order.TTheory GRing.Theory Num.Theory.
Local Open Scope ring_scope.

(** the function returns, throws std::invalid_argument, or its behaviour is undefined *)
Inductive fout (T : Type) : Type := Ret (x : T) | Throws | Undef.
Arguments Throws {T}.
Arguments Undef {T}.
Definition fmap_out (T U : Type) (f : T -> U) (r : fout T) : fout U :=
  match r with Ret x => Ret (f x) | Throws => Throws | Undef => Undef end.

(** std::min_element and its dereference: None for the end of an empty vector *)
Definition min_element (s : seq int) : option int :=
  if s is x :: s' then Some (foldl (fun m y : int => if y < m then y else m) x s') else None.
(** std::max_element of std::minmax_element (the last maximum; only its value is used) *)
Definition max_element (s : seq int) : option int :=
  if s is x :: s' then Some (foldl (fun m y : int => if y < m then m else y) x s') else None.
(** mat_lzz_pX_forms.h:50-68, amplitude (both signatures) *)
Definition amplitude (s : seq int) : fout int :=
  match min_element s, max_element s with Some a, Some b => Ret (b - a) | _, _ => Undef end.

(** the test of the length of the shift, then the minimum of its entries: 43-51, 98-106, 172-176, 250-254, 322-326, 349-353 *)
Definition with_shift (T : Type) (len : nat) (s : seq int) (k : int -> T) : fout T :=
  if size s != len then Throws else if min_element s is Some m then Ret (k m) else Undef.

Section Forms.
Variable F : fieldType.
Local Notation P := {poly F}.
Local Notation pmat := (pmat F).
Implicit Types (a : pmat) (s : seq int) (v : nat -> P).

(** column j of the matrix *)
Definition pcol a (j : nat) : nat -> P := fun i => ent a i j.

(** *** degrees *)
(** one pass of the outer loops of 25-32 and 80-87 *)
Definition line_degree v (len : nat) : int := foldl (fun r j => if r < pdeg (v j) then pdeg (v j) else r) (-1) (iota 0 len).
(** 15-33, 70-88 *)
Definition row_degree a : seq int := [seq line_degree (ent a i) (nc a) | i <- iota 0 (nr a)].
Definition col_degree a : seq int := [seq line_degree (pcol a j) (nr a) | j <- iota 0 (nc a)].
(** one pass of the outer loops of 54-63 and 109-118; ms is the minimum of the shift *)
Definition line_degree_sh v (len : nat) s (ms : int) : int :=
  foldl (fun r j => let d := pdeg (v j) + s`_j in if (v j != 0) && (r < d) then d else r) (ms - 1) (iota 0 len).
(** 37-64, 92-119 *)
Definition row_degree_sh a s : fout (seq int) :=
  with_shift (nc a) s (fun ms => [seq line_degree_sh (ent a i) (nc a) s ms | i <- iota 0 (nr a)]).
Definition col_degree_sh a s : fout (seq int) :=
  with_shift (nr a) s (fun ms => [seq line_degree_sh (pcol a j) (nr a) s ms | j <- iota 0 (nc a)]).

(** *** pivots; the state of the loops is (pivdeg[i], pivind[i]) *)
(** one pass of the outer loops of 146-159 and 224-237 *)
Definition line_pivot v (len : nat) : int * int :=
  foldl (fun (st : int * int) j => let d := pdeg (v j) in
    if st.1 < d then (d, j%:Z) else if (d == st.1) && (0 <= d) then (st.1, j%:Z) else st) (-1, -1) (iota 0 len).
(** 134-160, 212-238: the pair (pivind, pivdeg) *)
Definition row_pivots a : seq int * seq int :=
  ([seq (line_pivot (ent a i) (nc a)).2 | i <- iota 0 (nr a)], [seq (line_pivot (ent a i) (nc a)).1 | i <- iota 0 (nr a)]).
Definition col_pivots a : seq int * seq int :=
  ([seq (line_pivot (pcol a j) (nr a)).2 | j <- iota 0 (nc a)], [seq (line_pivot (pcol a j) (nr a)).1 | j <- iota 0 (nc a)]).
(** one pass of the outer loops of 185-206 and 263-284 *)
Definition line_pivot_sh v (len : nat) s (ms : int) : int * int :=
  let st := foldl (fun (st : int * int) j => let d := pdeg (v j) + s`_j in
    if s`_j <= d then (if st.1 < d then (d, j%:Z) else if d == st.1 then (st.1, j%:Z) else st) else st) (ms - 1, -1) (iota 0 len) in
  if st.2 == -1 then (-1, st.2) else (st.1 - s`_(`|st.2|), st.2).
(** 165-207, 243-285 *)
Definition row_pivots_sh a s : fout (seq int * seq int) :=
  with_shift (nc a) s (fun ms => let piv i := line_pivot_sh (ent a i) (nc a) s ms in
    ([seq (piv i).2 | i <- iota 0 (nr a)], [seq (piv i).1 | i <- iota 0 (nr a)])).
Definition col_pivots_sh a s : fout (seq int * seq int) :=
  with_shift (nr a) s (fun ms => let piv j := line_pivot_sh (pcol a j) (nr a) s ms in
    ([seq (piv j).2 | j <- iota 0 (nc a)], [seq (piv j).1 | j <- iota 0 (nc a)])).

(** *** degree matrices: 301-311, 316-338, 343-365 *)
Definition degree_matrix a : fmat int := fun i j => pdeg (ent a i j).
Definition degree_matrix_rowshifted a s : fout (fmat int) :=
  with_shift (nc a) s (fun ms i j => if ent a i j == 0 then ms - 1 else pdeg (ent a i j) + s`_j).
Definition degree_matrix_colshifted a s : fout (fmat int) :=
  with_shift (nr a) s (fun ms i j => if ent a i j == 0 then ms - 1 else pdeg (ent a i j) + s`_i).

(** *** leading matrices: 380-395, 400-416, 421-436, 441-457 *)
Definition row_leading_matrix a : fmat F := fun r c =>
  if (ent a r c != 0) && (pdeg (ent a r c) == (row_degree a)`_r) then (ent a r c)`_(`|pdeg (ent a r c)|) else 0.
Definition row_leading_matrix_sh a s : fout (fmat F) :=
  fmap_out (fun (rdeg : seq int) r c =>
    if (ent a r c != 0) && (pdeg (ent a r c) + s`_c == rdeg`_r) then (ent a r c)`_(`|pdeg (ent a r c)|) else 0) (row_degree_sh a s).
Definition col_leading_matrix a : fmat F := fun r c =>
  if (ent a r c != 0) && (pdeg (ent a r c) == (col_degree a)`_c) then (ent a r c)`_(`|pdeg (ent a r c)|) else 0.
Definition col_leading_matrix_sh a s : fout (fmat F) :=
  fmap_out (fun (cdeg : seq int) r c =>
    if (ent a r c != 0) && (pdeg (ent a r c) + s`_r == cdeg`_c) then (ent a r c)`_(`|pdeg (ent a r c)|) else 0) (col_degree_sh a s).

(** *** reduced forms: 471-477, 482-488, 493-499, 504-510 *)
Definition is_row_reduced a : bool := \rank (mx_of (nr a) (nc a) (row_leading_matrix a)) == nr a.
Definition is_row_reduced_sh a s : fout bool :=
  fmap_out (fun l => \rank (mx_of (nr a) (nc a) l) == nr a) (row_leading_matrix_sh a s).
Definition is_col_reduced a : bool := \rank (mx_of (nr a) (nc a) (col_leading_matrix a)) == nc a.
Definition is_col_reduced_sh a s : fout bool :=
  fmap_out (fun l => \rank (mx_of (nr a) (nc a) l) == nc a) (col_leading_matrix_sh a s).

(** *** weak Popov forms *)
(** std::adjacent_find(l, r) != l.end() *)
Definition adjacent (r : rel int) (l : seq int) : bool := has (fun k => r l`_k l`_k.+1) (iota 0 (size l).-1).
(** 530-539, 554-563, 575-584, 599-608 *)
Definition weak_checks (pivind : seq int) : bool :=
  if (-1) \in pivind then false else
  if adjacent (fun x y => x == y) (sort (fun x y : int => x <= y) pivind) then false else true.
(** 620-628, 643-651, 663-671, 686-694 *)
Definition ordered_checks (pivind : seq int) : bool :=
  if (-1) \in pivind then false else if adjacent (fun x y : int => y <= x) pivind then false else true.
(** 524-540, 545-564, 569-585, 590-609 *)
Definition is_row_weak_popov a : bool := weak_checks (row_pivots a).1.
Definition is_row_weak_popov_sh a s : fout bool := fmap_out (fun p => weak_checks p.1) (row_pivots_sh a s).
Definition is_col_weak_popov a : bool := weak_checks (col_pivots a).1.
Definition is_col_weak_popov_sh a s : fout bool := fmap_out (fun p => weak_checks p.1) (col_pivots_sh a s).
(** 614-629, 634-652, 657-672, 677-695 *)
Definition is_row_ordered_weak_popov a : bool := ordered_checks (row_pivots a).1.
Definition is_row_ordered_weak_popov_sh a s : fout bool := fmap_out (fun p => ordered_checks p.1) (row_pivots_sh a s).
Definition is_col_ordered_weak_popov a : bool := ordered_checks (col_pivots a).1.
Definition is_col_ordered_weak_popov_sh a s : fout bool := fmap_out (fun p => ordered_checks p.1) (col_pivots_sh a s).

(** *** Popov forms *)
(** lzz_pX_extra.h:22-23, is_monic *)
Definition is_monic (f : P) : bool := (0 < size f)%N && (f`_(size f).-1 == 1).
(** 714-739, 751-776: the tests after row_pivots *)
Definition row_popov_checks a (p : seq int * seq int) : bool :=
  let pivind i := absz (nth 0 p.1 i) in let pivdeg i := nth 0 p.2 i in
  if ~~ ordered_checks p.1 then false else
  if has (fun i => ~~ is_monic (ent a i (pivind i))) (iota 0 (nr a)) then false else
  if has (fun j => has (fun i => pivdeg j <= pdeg (ent a i (pivind j))) (iota 0 j) ||
                   has (fun i => pivdeg j <= pdeg (ent a i (pivind j))) (iota j.+1 (nr a - j.+1))) (iota 0 (nr a)) then false
  else true.
(** 708-740, 745-777 *)
Definition is_row_popov a : bool := row_popov_checks a (row_pivots a).
Definition is_row_popov_sh a s : fout bool := fmap_out (row_popov_checks a) (row_pivots_sh a s).

(** a sequence of tests `if (...) return false', then `return true'; None: an entry outside of the matrix is read *)
Fixpoint run_tests (l : seq (option bool)) : fout bool :=
  match l with
  | [::] => Ret true
  | Some b :: l' => if b then Ret false else run_tests l'
  | None :: _ => Undef
  end.
(** 801-826, 839-864: the tests after col_pivots; the last loop on j stops at NumRows *)
Definition col_popov_tests a (p : seq int * seq int) : seq (option bool) :=
  let pivind i := absz (nth 0 p.1 i) in let pivdeg i := nth 0 p.2 i in
  let test i j := if (j < nc a)%N then Some (pivdeg i <= pdeg (ent a (pivind i) j)) else None in
  flatten [seq [seq test i j | j <- iota 0 i] ++ [seq test i j | j <- iota i.+1 (nr a - i.+1)] | i <- iota 0 (nc a)].
Definition col_popov_checks a (p : seq int * seq int) : fout bool :=
  let pivind i := absz (nth 0 p.1 i) in
  if ~~ ordered_checks p.1 then Ret false else
  if has (fun j => ~~ is_monic (ent a (pivind j) j)) (iota 0 (nc a)) then Ret false else
  run_tests (col_popov_tests a p).
(** 795-827, 833-865 *)
Definition is_col_popov a : fout bool := col_popov_checks a (col_pivots a).
Definition is_col_popov_sh a s : fout bool :=
  match col_pivots_sh a s with Ret p => col_popov_checks a p | Throws => Throws | Undef => Undef end.

(** *** selection of a form *)
(** mat_lzz_pX_forms.h:34-41; a value out of the enumeration throws *)
Inductive form := NONE | REDUCED | WEAK_POPOV | ORD_WEAK_POPOV | POPOV | UNKNOWN.
Definition form_value (f : form) : nat :=
  match f with NONE => 0 | REDUCED => 1 | WEAK_POPOV => 2 | ORD_WEAK_POPOV => 3 | POPOV => 4 | UNKNOWN => 5 end.
(** 896-913, 915-936, 942-959, 961-982 *)
Definition is_row_polmatform (f : form) a : fout bool :=
  match f with
  | NONE => Ret true | REDUCED => Ret (is_row_reduced a) | WEAK_POPOV => Ret (is_row_weak_popov a)
  | ORD_WEAK_POPOV => Ret (is_row_ordered_weak_popov a) | POPOV => Ret (is_row_popov a) | UNKNOWN => Throws
  end.
Definition is_row_polmatform_sh (f : form) a s : fout bool :=
  match f with
  | NONE => Ret true | REDUCED => is_row_reduced_sh a s | WEAK_POPOV => is_row_weak_popov_sh a s
  | ORD_WEAK_POPOV => is_row_ordered_weak_popov_sh a s | POPOV => is_row_popov_sh a s | UNKNOWN => Throws
  end.
Definition is_col_polmatform (f : form) a : fout bool :=
  match f with
  | NONE => Ret true | REDUCED => Ret (is_col_reduced a) | WEAK_POPOV => Ret (is_col_weak_popov a)
  | ORD_WEAK_POPOV => Ret (is_col_ordered_weak_popov a) | POPOV => is_col_popov a | UNKNOWN => Throws
  end.
Definition is_col_polmatform_sh (f : form) a s : fout bool :=
  match f with
  | NONE => Ret true | REDUCED => is_col_reduced_sh a s | WEAK_POPOV => is_col_weak_popov_sh a s
  | ORD_WEAK_POPOV => is_col_ordered_weak_popov_sh a s | POPOV => is_col_popov_sh a s | UNKNOWN => Throws
  end.

(** if (test) return f; otherwise go on *)
Definition first_form (test : fout bool) (f : form) (rest : fout form) : fout form :=
  match test with Ret b => if b then Ret f else rest | Throws => Throws | Undef => Undef end.
(** 1001-1012, 1014-1028, 1035-1046, 1048-1062 *)
Definition get_row_polmatform a : fout form :=
  first_form (Ret (is_row_popov a)) POPOV (first_form (Ret (is_row_ordered_weak_popov a)) ORD_WEAK_POPOV
  (first_form (Ret (is_row_weak_popov a)) WEAK_POPOV (first_form (Ret (is_row_reduced a)) REDUCED (Ret NONE)))).
Definition get_row_polmatform_sh a s : fout form :=
  first_form (is_row_popov_sh a s) POPOV (first_form (is_row_ordered_weak_popov_sh a s) ORD_WEAK_POPOV
  (first_form (is_row_weak_popov_sh a s) WEAK_POPOV (first_form (is_row_reduced_sh a s) REDUCED (Ret NONE)))).
Definition get_col_polmatform a : fout form :=
  first_form (is_col_popov a) POPOV (first_form (Ret (is_col_ordered_weak_popov a)) ORD_WEAK_POPOV
  (first_form (Ret (is_col_weak_popov a)) WEAK_POPOV (first_form (Ret (is_col_reduced a)) REDUCED (Ret NONE)))).
Definition get_col_polmatform_sh a s : fout form :=
  first_form (is_col_popov_sh a s) POPOV (first_form (is_col_ordered_weak_popov_sh a s) ORD_WEAK_POPOV
  (first_form (is_col_weak_popov_sh a s) WEAK_POPOV (first_form (is_col_reduced_sh a s) REDUCED (Ret NONE)))).
End Forms.
