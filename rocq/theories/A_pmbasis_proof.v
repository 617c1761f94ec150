(** Divide and conquer approximant bases. *)
From mathcomp Require Import all_ssreflect all_algebra zify.
From Verif Require Import A_base SpecA A_matpoly_model A_matpoly_proof A_mbasis_model
  A_mbasis_abs A_mbasis_proof A_mul_model A_mul_proof A_mul2_proof A_pmbasis_model.
Set Implicit Arguments.
Unset Strict Implicit.
Unset Printing Implicit Defensive.
Import GRing.Theory Num.Theory.
Local Open Scope ring_scope.

Section Abs.
Variable F : fieldType.

(** composition of approximant bases *)
Lemma approx_basis_comp m n d1 d2 (A R : 'M[{poly F}]_(m, n)) (P1 P2 : 'M_m) :
  approx_basis d1 A P1 ->
  (forall i j k, (k < d2)%N -> (R i j)`_k = ((P1 *m A) i j)`_(d1 + k)) ->
  approx_basis d2 R P2 -> approx_basis (d1 + d2) A (P2 *m P1).
Proof.
move=> [H1 [G1 I1]] ER [H2 [G2 I2]].
(* P1 A = X^d1 Q *)
have Hlow i j k : (k < d1)%N -> ((P1 *m A) i j)`_k = 0.
  by move=> Hk; have /approximantP := H1 i => /(_ k j Hk); rewrite -row_mul mxE.
pose Q : 'M[{poly F}]_(m, n) := \matrix_(i, j) pshr d1 ((P1 *m A) i j).
have EQ : P1 *m A = 'X^d1 *: Q.
  apply/matrixP=> i j; rewrite [RHS]mxE [Q i j]mxE mulrC; apply/polyP=> k; rewrite coefMXn.
  by case: ltnP => Hk; [rewrite Hlow | rewrite coef_pshr subnKC].
have RQ i j k : (k < d2)%N -> (R i j)`_k = (Q i j)`_k.
  by move=> Hk; rewrite ER // [Q i j]mxE coef_pshr.
have [K2 [L2 J2]] : approx_basis d2 Q P2 by apply: approx_basis_ext RQ _; split.
(* w P1 approximant at order d1+d2 iff w approximant of Q at d2 *)
have key (w : 'rV_m) : approximant (d1 + d2) A (w *m P1) <-> approximant d2 Q w.
  have E j : (w *m P1 *m A) 0 j = 'X^d1 * (w *m Q) 0 j by rewrite -mulmxA EQ -scalemxAr mxE.
  by split=> H j; move: (H j); rewrite E exprD dvdp_mul2l // -size_poly_eq0 size_polyXn.
split; first by move=> i; rewrite row_mul; apply/key; exact: K2.
split; last first.
  by move=> w; rewrite mulmxA => /I1 /J2.
move=> v Hv.
have [w Ew] : exists w : 'rV_m, v = w *m P1.
  apply: G1; apply/approximantP=> k j Hk; move/approximantP: Hv; apply; lia.
have [u Eu] : exists u : 'rV_m, w = u *m P2 by apply: L2; apply/key; rewrite -Ew.
by exists u; rewrite mulmxA -Eu.
Qed.

Lemma deg_inv_comp m (s t u : 'I_m -> int) (P1 P2 : 'M[{poly F}]_m) :
  deg_inv s t P1 -> deg_inv t u P2 -> deg_inv s u (P2 *m P1).
Proof.
move=> [A1 B1] [A2 B2]; split.
  move=> i j k; rewrite mxE coef_sum => NZ.
  have [l Hl] : exists l, (P2 i l * P1 l j)`_k != 0.
    apply/existsP; apply: contraNT NZ; rewrite negb_exists => /forallP H.
    by rewrite big1 // => l _; apply/eqP; have := H l; rewrite negbK.
  move: Hl; rewrite coefM => Hl.
  have [c Hc] : exists c : 'I_k.+1, (P2 i l)`_c * (P1 l j)`_(k - c) != 0.
    apply/existsP; apply: contraNT Hl; rewrite negb_exists => /forallP H.
    by rewrite big1 // => c _; apply/eqP; have := H c; rewrite negbK.
  have [N1 N2] : (P2 i l)`_c != 0 /\ (P1 l j)`_(k - c) != 0.
    by move: Hc; rewrite mulf_eq0 negb_or => /andP.
  have := A2 _ _ _ N1; have := A1 _ _ _ N2; have := ltn_ord c.
  lia.
move=> i; have [a Ea Na] := B2 i; have [b Eb Nb] := B1 i.
exists (a + b)%N; first by move: Ea Eb; lia.
rewrite mxE coef_sum (bigD1 i) //= big1 ?addr0.
  rewrite coefM (bigD1 (inord a)) //= inordK; last by lia.
  rewrite addKn big1 ?addr0 ?mulf_neq0 // => c NE.
  apply/eqP; rewrite mulf_eq0; apply/orP.
  case: (ltnP c a) => Hc.
    right; apply: contraT => H; have := A1 _ _ _ H; rewrite ltnn; move: Eb (ltn_ord c); lia.
  left; apply: contraT => H; have := A2 _ _ _ H; rewrite ltnn.
  have : (c : nat) != a by apply: contraNneq NE => E; apply/eqP/val_inj; rewrite /= inordK //; lia.
  move: Ea; lia.
move=> l NE; apply/eqP; apply: contraT; rewrite coefM => Hl.
have [c Hc] : exists c : 'I_(a + b).+1, (P2 i l)`_c * (P1 l i)`_(a + b - c) != 0.
  apply/existsP; apply: contraNT Hl; rewrite negb_exists => /forallP H.
  by rewrite big1 // => c _; apply/eqP; have := H c; rewrite negbK.
have [N1 N2] : (P2 i l)`_c != 0 /\ (P1 l i)`_(a + b - c) != 0.
  by move: Hc; rewrite mulf_eq0 negb_or => /andP.
have := A2 _ _ _ N1; have := A1 _ _ _ N2; have := ltn_ord c.
have : (l : nat) != i by [].
move: Ea Eb; lia.
Qed.
End Abs.

Section PM.
Variable F : fieldType.

Lemma pmbasis_rec_correct modn v36 thres m n fuel (A : fmat {poly F}) d (s : nat -> int) :
  modn \in [char F] -> (0 < thres)%N -> (d < fuel)%N ->
  exists P t, [/\ pmbasis_rec fuel thres v36 modn m n A d s = AOk (P, t),
    approx_basis d (mx_of m n A) (mx_of m m P) &
    deg_inv (fun i : 'I_m => s i) (fun i : 'I_m => t i) (mx_of m m P)].
Proof.
move=> Hc Ht; elim: fuel A d s => [//|fuel IH] A d s Hf /=.
have trE i j k : (k < d)%N -> (mx_of m n (pm_trunc d A) i j)`_k = (mx_of m n A i j)`_k.
  by move=> Hk; rewrite !mxE coef_ptrunc Hk.
case: (leqP d thres) => Hd.
  have [P [t [E B D]]] := pm_mbasis_correct m n (pm_trunc d A) d s.
  by exists P, t; split=> //; apply: approx_basis_ext B.
set d1 := (d %/ 2)%N; set d2 := (d - d1)%N.
have [P1 [s1 [-> B1 D1]]] := IH (pm_trunc d A) d1 s ltac:(rewrite /d1; lia).
have [R -> HR] := mulmidP v36 m m n P1 (pm_trunc d A) d1 d Hc.
have [P2 [s2 [-> B2 D2]]] := IH R d2 s1 ltac:(rewrite /d2 /d1; lia).
exists (pm_multiply modn m m m P2 P1), s2.
have -> : mx_of m m (pm_multiply modn m m m P2 P1) = mx_of m m P2 *m mx_of m m P1.
  rewrite -mx_of_mul; apply: mx_of_feq => i j Hi Hj; exact: pm_multiplyP.
split=> //; last exact: deg_inv_comp D1 D2.
have -> : d = (d1 + d2)%N by rewrite /d2 /d1; lia.
apply: (approx_basis_ext (A := mx_of m n (pm_trunc d A))).
  by move=> i j k Hk; apply: trE; move: Hk; rewrite /d2 /d1; lia.
apply: approx_basis_comp B1 _ B2 => i j k Hk.
by rewrite mx_ofE HR // coef_poly -mx_of_mul mx_ofE; case: ltnP => //; move: Hk; rewrite /d2; lia.
Qed.

Lemma pmbasis_correct modn v36 m n (A : fmat {poly F}) d (s : nat -> int) : modn \in [char F] ->
  exists P t, [/\ pmbasis v36 modn m n A d s = AOk (P, t),
    approx_basis d (mx_of m n A) (mx_of m m P) &
    deg_inv (fun i : 'I_m => s i) (fun i : 'I_m => t i) (mx_of m m P)].
Proof. by move=> Hc; apply: pmbasis_rec_correct. Qed.
End PM.
