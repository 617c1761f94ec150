(** Algebra layer: matrices as entry functions with explicit dimensions. *)
From mathcomp Require Import all_ssreflect all_algebra zify.
Set Implicit Arguments.
Unset Strict Implicit.
Unset Printing Implicit Defensive.
Import GRing.Theory Num.Theory.
Local Open Scope ring_scope.

(** An nmod_mat_t or nmod_poly_mat_t: entry (i,j) is [M i j]; the dimensions are
    passed separately, entries outside of them are never read. *)
Definition fmat (R : Type) := nat -> nat -> R.

(** in-place write of one array cell, one matrix row *)
Definition upd (T : Type) (f : nat -> T) (i : nat) (x : T) : nat -> T :=
  fun k => if k == i then x else f k.

Section Ops.
Variable R : ringType.
Implicit Types A B : fmat R.

(** FLINT matrix primitives on entry functions: nmod_mat_zero, nmod_mat_one,
    nmod_mat_add, nmod_mat_mul (inner dimension k), nmod_mat_transpose, rows
    permuted as by nmod_mat_permute_rows(mat, perm, NULL). *)
Definition fzero : fmat R := fun _ _ => 0.
Definition fone : fmat R := fun i j => (i == j)%:R.
Definition fadd A B : fmat R := fun i j => A i j + B i j.
Definition fmul (k : nat) A B : fmat R := fun i j => \sum_(l < k) A i l * B l j.
Definition ftr A : fmat R := fun i j => A j i.
Definition fperm_rows (p : nat -> nat) A : fmat R := fun i => A (p i).

(** the mathematical matrix with m rows and n columns *)
Definition mx_of m n A : 'M[R]_(m, n) := \matrix_(i < m, j < n) A i j.

Definition fcol_vec (v : nat -> R) : fmat R := fun i _ => v i.
Definition frow_vec (v : nat -> R) : fmat R := fun _ j => v j.
End Ops.
Arguments fzero {R}.
Arguments fone {R}.
Arguments upd {T}.

(** degree as FLINT's nmod_poly_degree: -1 for the zero polynomial *)
Definition pdeg (R : ringType) (p : {poly R}) : int := (size p)%:Z - 1.

(** equality of two entry functions on the index range m x n *)
Definition feq (R : Type) m n (A B : fmat R) :=
  forall i j, (i < m)%N -> (j < n)%N -> A i j = B i j.

Section Lemmas.
Variable R : ringType.
Implicit Types A B : fmat R.

Lemma mx_ofE m n A (i : 'I_m) (j : 'I_n) : mx_of m n A i j = A i j.
Proof. by rewrite mxE. Qed.

Lemma mx_of_feq m n A B : feq m n A B -> mx_of m n A = mx_of m n B.
Proof. by move=> H; apply/matrixP=> i j; rewrite !mxE H. Qed.

Lemma mx_of_inj m n A B : mx_of m n A = mx_of m n B -> feq m n A B.
Proof.
move=> E i j Hi Hj.
by move/matrixP: E => /(_ (Ordinal Hi) (Ordinal Hj)); rewrite !mxE.
Qed.

Lemma mx_of_mul m k n A B : mx_of m n (fmul k A B) = mx_of m k A *m mx_of k n B.
Proof. by apply/matrixP=> i j; rewrite !mxE; apply: eq_bigr => l _; rewrite !mxE. Qed.

Lemma mx_of_add m n A B : mx_of m n (fadd A B) = mx_of m n A + mx_of m n B.
Proof. by apply/matrixP=> i j; rewrite !mxE. Qed.

Lemma mx_of_tr m n A : mx_of m n (ftr A) = (mx_of n m A)^T.
Proof. by apply/matrixP=> i j; rewrite !mxE. Qed.

Lemma mx_of_one n : mx_of n n (@fone R) = 1%:M.
Proof. by apply/matrixP=> i j; rewrite !mxE. Qed.

Lemma mx_of_zero m n : mx_of m n (@fzero R) = 0.
Proof. by apply/matrixP=> i j; rewrite !mxE. Qed.

Lemma row_mx_of m n A (i : 'I_m) : row i (mx_of m n A) = mx_of 1 n (frow_vec (A i)).
Proof. by apply/matrixP=> a b; rewrite !mxE. Qed.

Lemma mx_of_exists m n (M : 'M[R]_(m, n)) : exists A, mx_of m n A = M.
Proof.
case: m M => [|m] M; first by exists fzero; apply/matrixP=> -[].
case: n M => [|n] M; first by exists fzero; apply/matrixP=> ? [].
exists (fun i j => M (inord i) (inord j)).
by apply/matrixP=> i j; rewrite mxE !inord_val.
Qed.
End Lemmas.

(** Result of a modelled call: a value, or undefined behaviour in the C code. *)
Inductive aoutcome (T : Type) : Type := AOk (x : T) | AUB.
Arguments AOk {T} x.
Arguments AUB {T}.
