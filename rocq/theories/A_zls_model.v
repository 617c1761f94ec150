(** Model of nmod_poly_mat_kernel_zls_approx and of its wrapper nmod_poly_mat_kernel,
    flint-extras/src/nmod_poly_mat_extra/kernel.c. Same conventions as A_kernel_model. *)
From mathcomp Require Import all_ssreflect all_algebra zify.
From Verif Require Import A_base SpecForms A_mul_model A_pmbasis_model A_forms_model A_kernel_model.
Set Implicit Arguments.
Unset Strict Implicit.
Unset Printing Implicit Defensive.
Import GRing.Theory Num.Theory.
Local Open Scope ring_scope.

(** C division of signed integers, rounding towards 0 *)
Definition cquot (a : int) (b : nat) : int :=
  if 0 <= a then (absz a %/ b)%N%:Z else - (absz a %/ b)%N%:Z.

Section Zls.
Variable F : fieldType.
Implicit Types (A ker : fmat {poly F}).

(** kernel.c:333-343, the loop computing maxdeg and diff_shift *)
Definition zls_degs m (buf shift : nat -> int) : int * int :=
  foldl (fun (st : int * int) i =>
    let d := buf i in
    let diff := shift i - d in
    (if st.1 < d then d else st.1, if diff < st.2 then diff else st.2))
  (buf 0%N, shift 0%N - buf 0%N) (iota 1 m.-1).

(** kernel.c:351-355 *)
Definition zls_order m n (maxdeg diff : int) (shift : nat -> int) : int :=
  let o := foldl (fun o i => o + shift i) (- m%:Z * diff - 1) (iota 0 m) in
  let o := 1 + cquot o (m - n) in
  1 + (if maxdeg < o then o else maxdeg).

(** kernel.c:362-380: the scan separating the rows known to be in the kernel from the
    others. The array buf of the code is read at i and written at i - nullity <= i:
    it is kept here as two arrays, the degrees (buf) and the indices (sc_rest). *)
Record zscan := ZScan {
  sc_nullity : nat;
  sc_pivind : nat -> nat;
  sc_rest : nat -> nat;
  sc_noconst : bool;
  sc_sumdeg : int }.
Definition zls_scan_step (bound : int) (buf shift : nat -> int) ker (st : zscan) (i : nat) : zscan :=
  if shift i < bound then
    ZScan (sc_nullity st).+1 (upd (sc_pivind st) (sc_nullity st) i) (sc_rest st)
          (sc_noconst st) (sc_sumdeg st)
  else
    ZScan (sc_nullity st) (sc_pivind st) (upd (sc_rest st) (i - sc_nullity st)%N i)
          (if (buf i == 0) && (pdeg (ker i i) <= 0) then false else sc_noconst st)
          (sc_sumdeg st + buf i).
Definition zls_scan m bound buf shift ker pivind : zscan :=
  foldl (zls_scan_step bound buf shift ker) (ZScan 0 pivind id true 0) (iota 0 m).
(** kernel.c:381-382 *)
Definition zls_pivind m (sc : zscan) : nat -> nat :=
  foldl (fun p i => upd p i (sc_rest sc (i - sc_nullity sc)%N)) (sc_pivind sc)
    (iota (sc_nullity sc) (m - sc_nullity sc)).

(** kernel.c:449-463: merging the two increasing lists of pivots; the state is
    (i1, i2, buf) *)
Definition zls_merge_step (n1 n2 : nat) (pivind : nat -> nat) (st : nat * nat * (nat -> nat)) (i : nat) :=
  let: (i1, i2, buf) := st in
  if (i2 == n2) || ((i1 < n1)%N && (pivind i1 < pivind (n1 + i2))%N) then (i1.+1, i2, upd buf i i1)
  else (i1, i2.+1, upd buf i (n1 + i2)%N).
Definition zls_merge n1 n2 pivind buf0 : nat -> nat :=
  (foldl (zls_merge_step n1 n2 pivind) (0%N, 0%N, buf0) (iota 0 (n1 + n2))).2.

(** first n entries (or rows) of an array replaced *)
Definition overwrite (T : Type) (n : nat) (f g : nat -> T) : nat -> T := fun i => if (i < n)%N then f i else g i.

(** kernel.c:230-485, nmod_poly_mat_kernel_zls_approx. The contents of pmat after the
    call (it is used as scratch memory) are not modelled. [fuel] bounds the depth of the
    recursion: running out of it is AUB. *)
Fixpoint zls (fuel : nat) (v36 : bool) (modn m n : nat) ker0 (pivind0 : nat -> nat)
  (shift : nat -> int) A : aoutcome (kerres F) :=
  if fuel is fuel'.+1 then
    if (m == 0%N) || (n == 0%N) || (((m == 1%N) || (n == 1%N)) && (mat_max_length m n A == 0%N)) then
      AOk (KerRes m (@fone _) id shift)
    else if m == 1%N then AOk (KerRes 0 ker0 pivind0 shift)
    else if (m < 2 * n)%N then
      let n2 := (n %/ 2)%N in
      let n1 := (n - n2)%N in
      match zls fuel' v36 modn m n1 ker0 pivind0 shift A with
      | AOk r1 =>
        let k1 := kr_nullity r1 in
        if k1 == 0%N then AOk r1
        else
          let residual := pm_multiply modn k1 m n2 (kr_ker r1) (fun i j => A i (n1 + j)%N) in
          match zls fuel' v36 modn k1 n2 (@fzero _) id (kr_shift r1) residual with
          | AOk r2 =>
            let k2 := kr_nullity r2 in
            let ker3 := pm_multiply modn k2 k1 m (kr_ker r2) (kr_ker r1) in
            AOk (KerRes k2 (overwrite k2 ker3 (kr_ker r1))
                  (foldl (fun p i => upd p i (p (kr_pivind r2 i))) (kr_pivind r1) (iota 0 k2))
                  (overwrite k1 (kr_shift r2) (kr_shift r1)))
          | AUB => AUB
          end
      | AUB => AUB
      end
    else
      let: (buf, nnz) := row_degree_zero m n A None in
      if nnz == 0%N then AOk (KerRes m (@fone _) id shift)
      else
        let: (maxdeg, diff) := zls_degs m buf shift in
        let order := zls_order m n maxdeg diff shift in
        match pmbasis v36 modn m n A (absz order) shift with
        | AOk (app, t) =>
          let sc := zls_scan m (order + diff) buf t app pivind0 in
          let k1 := sc_nullity sc in
          let pivind := zls_pivind m sc in
          let ker := overwrite m (fperm_rows pivind app) app in
          let t := overwrite m (fun i => t (pivind i)) t in
          if (m - n <= k1)%N && sc_noconst sc &&
             (foldl (fun d i => d + pdeg (ker i (pivind i))) 0 (iota 0 k1) == sc_sumdeg sc)
          then AOk (KerRes k1 ker pivind t)
          else
            match mulmid v36 modn (m - k1) m n (fun i => ker (k1 + i)%N) A
                    (absz order) (absz (order + maxdeg + 1)) with
            | AOk residual =>
              match zls fuel' v36 modn (m - k1) n (@fzero _) (sc_rest sc) (fun i => t (k1 + i)%N) residual with
              | AOk r2 =>
                let k2 := kr_nullity r2 in
                let t := overwrite k1 t (fun i => kr_shift r2 (i - k1)%N) in
                if k2 == 0%N then AOk (KerRes k1 ker pivind t)
                else
                  let prod := pm_multiply modn k2 (m - k1) m (kr_ker r2) (fun i => ker (k1 + i)%N) in
                  let ker := overwrite k1 ker (overwrite (k1 + k2) (fun i => prod (i - k1)%N) ker) in
                  let pivind := foldl (fun p i => upd p (k1 + i)%N (p (k1 + kr_pivind r2 i)%N))
                                  pivind (iota 0 k2) in
                  let buf := zls_merge k1 k2 pivind (kr_pivind r2) in
                  AOk (KerRes (k1 + k2) (overwrite (k1 + k2) (fperm_rows buf ker) ker)
                        (overwrite (k1 + k2) (fun i => pivind (buf i)) pivind)
                        (overwrite (k1 + k2) (fun i => t (buf i)) t))
              | AUB => AUB
              end
            | AUB => AUB
            end
        | AUB => AUB
        end
  else AUB.

(** FLINT nmod_poly_mat_invert_rows (and its action on the permutation argument) and
    nmod_poly_mat_invert_columns: entries i and n-1-i exchanged *)
Definition mirror (T : Type) (n : nat) (f : nat -> T) : nat -> T :=
  fun i => if (i < n)%N then f (n - 1 - i)%N else f i.

(** kernel.c:96-103, 123-130: c is ker->c *)
Definition mirror_pivind (c nullity : nat) (pivind : nat -> nat) : nat -> nat :=
  let p := foldl (fun p i =>
      let tmp := (c - 1 - p i)%N in
      upd (upd p i (c - 1 - p (nullity - 1 - i)%N)%N) (nullity - 1 - i)%N tmp)
    pivind (iota 0 (nullity %/ 2)) in
  if odd nullity then upd p (nullity %/ 2)%N (c - 1 - p (nullity %/ 2)%N)%N else p.

(** the orientations ROW_LOWER (up = false), kernel.c:63-69, and ROW_UPPER (up = true),
    kernel.c:85-106, for the m x n matrix A (also used by lines 71-83 and 108-136) *)
Definition kernel_left fuel v36 modn (up : bool) m n ker0 pivind0 (shift : nat -> int) A
  : aoutcome (kerres F) :=
  if up then
    match zls fuel v36 modn m n ker0 pivind0 (mirror m shift) (mirror m A) with
    | AOk r =>
      let k := kr_nullity r in
      let ker := mirror k (kr_ker r) in
      AOk (KerRes k (fun i => if (i < k)%N then mirror m (ker i) else ker i)
            (mirror_pivind m k (kr_pivind r)) (mirror k (kr_shift r)))
    | AUB => AUB
    end
  else zls fuel v36 modn m n ker0 pivind0 shift A.

(** kernel.c:26-144, nmod_poly_mat_kernel; [form] is the number of the form (ORD_WEAK_POPOV
    is 3, nmod_poly_mat_forms.h:57-66); None is flint_throw. pivind = NULL only means that the
    entries of pivind are not returned. ker is m x m (resp. n x n) for a left (resp. right)
    kernel. *)
Definition kernel_main fuel v36 modn (form : nat) (o : orientation) m n ker0 pivind0
  (shift : option (nat -> int)) A : aoutcome (option (kerres F)) :=
  if (3 < form)%N then AOk None
  else
    let s := match shift, o with
             | Some s, _ => s
             | None, (ROW_LOWER | ROW_UPPER) => (row_degree_zero m n A None).1
             | None, _ => (column_degree_zero m n A None).1
             end in
    let res := match o with
      | ROW_LOWER => kernel_left fuel v36 modn false m n ker0 pivind0 s A
      | ROW_UPPER => kernel_left fuel v36 modn true m n ker0 pivind0 s A
      | COL_UPPER => kernel_left fuel v36 modn false n m (@fzero _) pivind0 s (ftr A)
      | COL_LOWER => kernel_left fuel v36 modn true n m (@fzero _) pivind0 s (ftr A)
      end in
    match res, o with
    | AOk r, (ROW_LOWER | ROW_UPPER) => AOk (Some r)
    | AOk r, _ => AOk (Some (KerRes (kr_nullity r) (ftr (kr_ker r)) (kr_pivind r) (kr_shift r)))
    | AUB, _ => AUB
    end.
End Zls.
