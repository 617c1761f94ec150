(** C18, C19: minimal approximant bases by mbasis. *)
From mathcomp Require Import all_ssreflect all_algebra zify.
From Verif Require Import A_base SpecA A_matpoly_model A_matpoly_proof A_mbasis_model
  A_mbasis_abs A_mbasis_proof.
Set Implicit Arguments.
Unset Strict Implicit.
Unset Printing Implicit Defensive.
Import GRing.Theory Num.Theory.
Local Open Scope ring_scope.

Section P.
Variable F : fieldType.

(** what a caller of mbasis/pmbasis on a (m x n) polynomial matrix [A], order [d],
    shift [s] expects from the returned basis [P] and shift [t] *)
Definition approx_basis_result m n (A : 'M[{poly F}]_(m, n)) d (s t : 'I_m -> int) (P : 'M_m) : Prop :=
  [/\ approx_basis d A P,
      (forall i, is_pivot s (row i P) i),
      (forall i, is_rdeg s (row i P) (t i)) &
      ordered_weak_popov s P].

Lemma deg_inv_result m n (A : 'M[{poly F}]_(m, n)) d s t P :
  approx_basis d A P -> deg_inv s t P -> approx_basis_result A d s t P.
Proof.
move=> H1 H2; split=> //.
- by move=> i; apply: deg_inv_pivot H2.
- by move=> i; apply: deg_inv_rdeg H2.
- exact: deg_inv_owp H2.
Qed.

(** nmod_mat_poly_mbasis *)
Theorem C18_C19_mat_poly_mbasis m n (A : mat_poly F) d (s : nat -> int) : (0 < d)%N ->
  exists P t, mbasis m n A d s = AOk (P, t) /\
    approx_basis_result (mp_mx m n A) d (fun i => s i) (fun i => t i) (mp_mx m m P).
Proof.
move=> Hd; have [//|P [t [E [Hb Hdeg]]]] := @mbasis_correct F m n A d s _; first by rewrite Hd.
by exists P, t; split=> //; exact: deg_inv_result.
Qed.

(** nmod_poly_mat_mbasis, every order *)
Theorem C18_mbasis m n (A : fmat {poly F}) d (s : nat -> int) :
  exists P t, pm_mbasis m n A d s = AOk (P, t) /\
    approx_basis d (mx_of m n A) (mx_of m m P).
Proof. by have [P [t [E H _]]] := pm_mbasis_correct m n A d s; exists P, t. Qed.

Theorem C19_mbasis m n (A : fmat {poly F}) d (s : nat -> int) :
  exists P t, [/\ pm_mbasis m n A d s = AOk (P, t),
    (forall i, is_pivot (fun j : 'I_m => s j) (row i (mx_of m m P)) i),
    (forall i : 'I_m, is_rdeg (fun j : 'I_m => s j) (row i (mx_of m m P)) (t i)) &
    ordered_weak_popov (fun j : 'I_m => s j) (mx_of m m P)].
Proof.
have [P [t [E H1 H2]]] := pm_mbasis_correct m n A d s; exists P, t.
by have [_ *] := deg_inv_result H1 H2; split.
Qed.

(** the determinant of the basis is nonzero: the rows are independent, so that P
    is nonsingular (also over the fractions) *)
Theorem C18_mbasis_nonsingular m n (A : fmat {poly F}) d (s : nat -> int) :
  exists P t, pm_mbasis m n A d s = AOk (P, t) /\ \det (mx_of m m P) != 0.
Proof.
have [P [t [E [_ [Hg Hi]] _]]] := pm_mbasis_correct m n A d s; exists P, t; split=> //.
(* X^d I = W P *)
apply/eqP=> D0.
pose W i := 'X^d *: (delta_mx 0 i : 'rV[{poly F}]_m).
have Hap i : approximant d (mx_of m n A) (W i).
  by move=> j; rewrite -scalemxAl mxE; apply: dvdp_mulIl.
have /fin_all_exists[w Hw] : forall i, exists w : 'rV_m, W i = w *m mx_of m m P by move=> i; exact: Hg.
pose U : 'M[{poly F}]_m := \matrix_(i, j) w i 0 j.
have EU : U *m mx_of m m P = ('X^d)%:M.
  apply/row_matrixP=> i; rewrite row_mul.
  have -> : row i U = w i by apply/rowP=> j; rewrite !mxE.
  rewrite -Hw; apply/rowP=> j; rewrite !mxE eqxx /= eq_sym.
  by rewrite mulr_natr.
have := congr1 determinant EU; rewrite det_mulmx D0 mulr0 det_scalar => /esym/eqP.
by rewrite -exprM expf_eq0 polyX_eq0 andbF.
Qed.

(** order 0: the identity basis when the input is zero, undefined behaviour
    otherwise (clearing an uninitialised matrix) *)
Theorem C18_mbasis_order0_refuted :
  exists m n (A : mat_poly F) s, mbasis m n A 0 s = AUB.
Proof. by exists 1%N, 1%N, mp_one, (fun _ => 0). Qed.
End P.

(** A concrete case: A = [[1], [X]] at order 2, shift (0,0). *)
Example C18_example :
  let A : fmat {poly rat} := fun i _ => if i == 0%N then 1 else 'X in
  exists P t, pm_mbasis 2 1 A 2 (fun _ => 0) = AOk (P, t) /\
    ~ (mx_of 2 2 P *m mx_of 2 1 A = 0) /\
    forall i, approximant 2 (mx_of 2 1 A) (row i (mx_of 2 2 P)).
Proof.
move=> A; have [P [t [E [H1 [H2 H3]]]]] := @C18_mbasis [fieldType of rat] 2 1 A 2 (fun _ => 0).
exists P, t; split=> //; split=> // K.
have [w Ew] : exists w : 'rV_2, 'X^2 *: (delta_mx 0 0 : 'rV_2) = w *m mx_of 2 2 P.
  by apply: H2 => j; rewrite -scalemxAl mxE; apply: dvdp_mulIl.
have : ('X^2 *: (delta_mx 0 0 : 'rV[{poly rat}]_2)) *m mx_of 2 1 A = 0.
  by rewrite Ew -mulmxA K mulmx0.
move/matrixP=> /(_ 0 0); rewrite !mxE big_ord_recl big_ord1 !mxE /= !mulr0 mul0r addr0 !mulr1.
by move/eqP; rewrite expf_eq0 polyX_eq0.
Qed.

Print Assumptions C18_C19_mat_poly_mbasis.
Print Assumptions C18_mbasis.
Print Assumptions C19_mbasis.
Print Assumptions C18_mbasis_nonsingular.
Print Assumptions C18_mbasis_order0_refuted.
