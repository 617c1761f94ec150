(** ntl-extras/mat_lzz_pX_extra/src/mat_lzz_pX_approximant.cpp, verification of approximant bases. The point given by random_zz_p is the
    parameter pt; multiply is the parameter mul (see N_mm_model.v). NTL's determinant and gauss over the field are the determinant and the
    rank of mathcomp. *)
From mathcomp Require Import all_ssreflect all_algebra.
From Verif Require Import A_base A_mul_model N_pmat_model N_forms_model.
Set Implicit Arguments.
Unset Strict Implicit.
Unset Printing Implicit Defensive.
Import Order.TTheory GRing.Theory Num.Theory.
Local Open Scope ring_scope.

Section IsApp.
Variable F : fieldType.
Local Notation pmat := (pmat F).
Variable mul : pmat -> pmat -> aoutcome pmat.

(** 96-106: l is the list of the (i, j) still to be visited; order[j] outside of the vector is undefined. The coefficients of cmat are read
    in the residual before it is truncated: they are those of the product (see [cmat] below) *)
Fixpoint scan_residual (res : fmat {poly F}) (order : seq nat) (l : seq (nat * nat)) : fout bool :=
  if l is (i, j) :: l' then
    if (size order <= j)%N then Undef
    else if ptrunc (nth 0%N order j) (res i j) != 0 then Ret false else scan_residual res order l'
  else Ret true.

(** NTL's power(zz_p, long): a negative power of zero is an error *)
Definition zz_power (x : F) (e : int) : fout F :=
  if 0 <= e then Ret (x ^+ `|e|) else if x == 0 then Undef else Ret (x^-1 ^+ `|e|).

(** eval(appbas, x) then determinant *)
Definition det_at (m : nat) (a : pmat) (x : F) : F := \det (\matrix_(i < m, j < m) (ent a i j).[x]).

(** 93-94, 100-101, 123-126: [ cmat  P(0) ] *)
Definition cmat (m n : nat) (a : pmat) (res : fmat {poly F}) (order : seq nat) : 'M[F]_(m, n + m) :=
  row_mx (\matrix_(i < m, j < n) (res i j)`_(nth 0%N order j)) (\matrix_(i < m, j < m) (ent a i j)`_0).

(** 58-132, is_approximant_basis *)
Definition is_approximant_basis (pt : F) (appbas pm : pmat) (order : seq nat) (shift : seq int) (f : form) (randomized : bool) : fout bool :=
  let m := nr pm in let n := nc pm in
  if ~~ randomized then Throws
  else if (nr appbas != nc appbas) || (nc appbas != m) then Ret false
  else match is_row_polmatform_sh f appbas shift with
  | Throws => Throws | Undef => Undef | Ret false => Ret false
  | Ret true =>
    match mul appbas pm with AUB => Undef | AOk res =>
    match scan_residual (ent res) order [seq (i, j) | i <- iota 0 m, j <- iota 0 n] with
    | Throws => Throws | Undef => Undef | Ret false => Ret false
    | Ret true =>
      match row_degree_sh appbas shift with
      | Throws => Throws | Undef => Undef
      | Ret degs =>
        let degdet := foldl +%R 0 degs - foldl +%R 0 shift in
        match zz_power pt degdet with
        | Throws => Throws | Undef => Undef
        | Ret pw =>
          if det_at m appbas pt != det_at m appbas 1 * pw then Ret false
          else Ret (\rank (cmat m n appbas (ent res) order) == m)
        end
      end
    end
    end
  end.
End IsApp.
