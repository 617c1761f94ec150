(** C24, C25: kernel bases. *)
From mathcomp Require Import all_ssreflect all_algebra fraction zify.
From Verif Require Import A_base SpecA A_frac_proof A_kernel_model A_kernel_proof.
Set Implicit Arguments.
Unset Strict Implicit.
Unset Printing Implicit Defensive.
Import GRing.Theory Num.Theory.
Local Open Scope ring_scope.

Section P.
Variable F : fieldType.
Implicit Types (A : fmat {poly F}).
Local Notation prank M := (\rank (map_mx (@FracField.tofrac [idomainType of {poly F}]) M)).

(** the rows returned are in the kernel *)
Theorem C24_kernel_via_approx v36 modn m n ker0 piv0 (s : nat -> int) A : modn \in [char F] ->
  exists2 r, kernel_via_approx v36 modn m n ker0 piv0 s A = AOk r &
    mx_of (kr_nullity r) m (kr_ker r) *m mx_of m n A = 0.
Proof.
move=> Hc; have [r [E [[H _] _ _]]] := via_approx_correct v36 m n ker0 piv0 s A Hc.
by exists r => //; apply/row_matrixP=> i; rewrite row_mul H row0.
Qed.

(** they are a basis of the kernel in s-ordered weak Popov form, with the announced
    pivot indices and s-degrees, and their number is the nullity *)
Theorem C25_kernel_via_approx v36 modn m n ker0 piv0 (s : nat -> int) A : modn \in [char F] ->
  exists r, [/\ kernel_via_approx v36 modn m n ker0 piv0 s A = AOk r,
    minimal_kernel_basis (fun i : 'I_m => s i) (mx_of m n A)
      (mx_of (kr_nullity r) m (kr_ker r)) (kr_pivind r) (kr_shift r) &
    kr_nullity r = (m - prank (mx_of m n A))%N].
Proof.
move=> Hc; have [r [E H]] := via_approx_correct v36 m n ker0 piv0 s A Hc.
by exists r; split=> //; [exact/mkbP|case: H => /kernel_basis_rows].
Qed.

End P.

(** a matrix with a nontrivial kernel: the column (X, 2X) over F_7, shift (0, 5) *)
Example C25_hypotheses_met (v36 : bool) :
  let A : fmat {poly 'F_7} := fun i _ => i.+1%:R *: 'X in
  7%N \in [char 'F_7] /\
  exists2 r, kernel_via_approx v36 7 2 1 (@fzero _) id (fun i => 5 * i%:Z) A = AOk r & kr_nullity r = 1%N.
Proof.
move=> A; have Hc : 7%N \in [char 'F_7] by exact: (@char_Fp 7).
split=> //; have [r [E _ H]] := C25_kernel_via_approx v36 2 1 (@fzero _) id (fun i => 5 * i%:Z) A Hc.
exists r => //; rewrite H.
suff -> : \rank (map_mx (@FracField.tofrac [idomainType of {poly 'F_7}]) (mx_of 2 1 A)) = 1%N by [].
apply/eqP; rewrite eqn_leq rank_leq_col lt0n mxrank_eq0; apply/eqP => /matrixP/(_ 0 0).
by rewrite !mxE => /eqP; rewrite tofrac_eq0 scaler_eq0 polyX_eq0.
Qed.

Print Assumptions C24_kernel_via_approx.
Print Assumptions C25_kernel_via_approx.
