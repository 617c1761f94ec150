(** Degree of the determinant of a matrix in weak Popov form. *)
From mathcomp Require Import all_ssreflect fingroup perm all_algebra zify.
From Verif Require Import A_base SpecA SpecForms.
Set Implicit Arguments.
Unset Strict Implicit.
Unset Printing Implicit Defensive.
Import Order.TTheory GRing.Theory Num.Theory.
Local Open Scope ring_scope.

Section Coef.
Variable F : fieldType.

Lemma coefM_top (p q : {poly F}) d e : (size p <= d.+1)%N -> (size q <= e.+1)%N ->
  (p * q)`_(d + e) = p`_d * q`_e.
Proof.
move=> Hp Hq; rewrite coefM.
have Hd : (d < (d + e).+1)%N by lia.
rewrite (bigD1 (Ordinal Hd)) //= addKn big1 ?addr0 // => k NE.
have NE' : (k : nat) != d by apply: contraNneq NE => E; apply/eqP/val_inj.
case: (ltnP k d) => Hk.
  by rewrite [q`__]nth_default ?mulr0 //; apply: leq_trans Hq _; move: Hk (ltn_ord k); lia.
by rewrite nth_default ?mul0r //; apply: leq_trans Hp _; move: Hk NE'; lia.
Qed.

Lemma sizeM_top (p q : {poly F}) d e : (size p <= d.+1)%N -> (size q <= e.+1)%N ->
  (size (p * q)%R <= (d + e).+1)%N.
Proof. by move=> Hp Hq; apply: leq_trans (size_mul_leq _ _) _; lia. Qed.

Lemma coef_prod_top (I : finType) (f : I -> {poly F}) (d : I -> nat) :
  (forall i, (size (f i) <= (d i).+1)%N) ->
  (size (\prod_i f i)%R <= (\sum_i d i).+1)%N /\ (\prod_i f i)`_(\sum_i d i) = \prod_i (f i)`_(d i).
Proof.
move=> H; apply: (big_rec3 (fun (p : {poly F}) (k : nat) (c : F) => (size p <= k.+1)%N /\ p`_k = c)).
  by rewrite size_poly1 coef1.
move=> i p k c _ [H1 H2]; split; first exact: sizeM_top.
by rewrite coefM_top // H2.
Qed.

(** determinant and row degrees *)
Lemma det_row_deg m (Q : 'M[{poly F}]_m) (d : 'I_m -> nat) :
  (forall i j, (size (Q i j) <= (d i).+1)%N) ->
  (size (\det Q)%R <= (\sum_i d i).+1)%N /\
  (\det Q)`_(\sum_i d i) = \det (\matrix_(i, j) (Q i j)`_(d i)).
Proof.
move=> H; have K (sg : {perm 'I_m}) := coef_prod_top (fun i => H i (sg i)).
split.
  apply: leq_trans (size_sum _ _ _) _; apply/bigmax_leqP=> sg _.
  by rewrite -signr_odd; case: odd; rewrite /= ?expr0 ?mul1r ?expr1 ?mulN1r ?size_opp; case: (K sg).
rewrite coef_sum; apply: eq_bigr => sg _.
under [in RHS]eq_bigr do rewrite mxE.
have [_ <-] := K sg.
by rewrite -signr_odd -[in RHS]signr_odd; case: odd; rewrite /= ?expr0 ?mul1r ?expr1 ?mulN1r ?coefN.
Qed.

(** determinant and shifted row degrees *)
Lemma det_shifted_deg m (P : 'M[{poly F}]_m) (s : 'I_m -> int) (d : 'I_m -> nat) :
  (forall i j k, (P i j)`_k != 0 -> k%:Z + s j <= (d i)%:Z + s i) ->
  let L := \matrix_(i, j) (if s j <= (d i)%:Z + s i then (P i j)`_(absz ((d i)%:Z + s i - s j)%R) else 0) in
  (\det P)`_(\sum_i d i) = \det L /\ (size (\det P)%R <= (\sum_i d i).+1)%N.
Proof.
move=> H L; pose N : nat := (\sum_i absz (s i))%N.
have HN j : 0 <= N%:Z + s j.
  have : (`|s j| <= N)%N by rewrite /N (bigD1 j) //= leq_addr.
  lia.
pose e j := absz (N%:Z + s j)%R.
have eE j : (e j)%:Z = N%:Z + s j by rewrite /e gez0_abs.
pose Q := P *m diag_mx (\row_j 'X^(e j)).
have QE i j : Q i j = P i j * 'X^(e j) by rewrite /Q mul_mx_diag !mxE.
have Qc i j k : (Q i j)`_k = if (k < e j)%N then 0 else (P i j)`_(k - e j) by rewrite QE coefMXn.
have HQ i j : (size (Q i j) <= (d i + e i).+1)%N.
  apply/leq_sizeP=> k Hk; rewrite Qc; case: ltnP => // Hk'.
  apply/eqP; apply: contraT => /H; rewrite -subzn // eE; have := eE i; lia.
have [H1 H2] := det_row_deg HQ.
have detQ : \det Q = \det P * 'X^(\sum_j e j).
  rewrite det_mulmx det_diag; congr (_ * _).
  rewrite (eq_bigr (fun j => 'X^(e j))); last by move=> j _; rewrite mxE.
  by rewrite prodrXr.
have EL : \matrix_(i, j) (Q i j)`_(d i + e i) = L.
  apply/matrixP=> i j; rewrite [LHS]mxE [RHS]mxE Qc; have := eE i; have := eE j => Ej Ei.
  case: ifP => C; case: ifP => C'; [by lia | by [] | | by lia].
  by congr (_`_ _); lia.
rewrite big_split /= in H1 H2; rewrite EL detQ in H2; rewrite detQ in H1.
rewrite -H2 coefMXn ltnNge leq_addl /= addnK; split=> //.
case: (eqVneq (\det P) 0) => [->|NZ]; first by rewrite size_poly0.
have NX : ('X^(\sum_j e j) : {poly F}) != 0 by rewrite -size_poly_eq0 size_polyXn.
by move: H1; rewrite size_mul // size_polyXn addnS /= -addSn leq_add2r.
Qed.

Lemma det_triangular (up : bool) m (L : 'M[F]_m) :
  (forall i j, before up j i -> L i j = 0) -> \det L = \prod_i L i i.
Proof.
move=> H; case: up H => H.
  rewrite -det_tr det_trig; first by apply: eq_bigr => i _; rewrite mxE.
  by apply/is_trig_mxP=> i j Hij; rewrite mxE H.
by rewrite det_trig //; apply/is_trig_mxP=> i j Hij; rewrite H.
Qed.

Lemma det_pivot_deg up (s : nat -> int) m (P : 'M[{poly F}]_m) :
  (forall i, pivot_at up s (row i P) i) ->
  size (\det P)%R = (\sum_i (size (P i i)).-1).+1.
Proof.
move=> H; pose d i := (size (P i i)).-1.
have NZ i : P i i != 0 by have [] := H i; rewrite mxE.
have dE i : (d i)%:Z = (size (P i i))%:Z - 1.
  by rewrite /d; have := NZ i; rewrite -size_poly_gt0; lia.
have Hb i j k : (P i j)`_k != 0 -> k%:Z + s j <= (d i)%:Z + s i - (before up j i)%:Z.
  move=> Nk; have Nj : P i j != 0 by apply: contraNneq Nk => ->; rewrite coef0.
  have Hk : (k < size (P i j))%N by rewrite ltnNge; apply: contra Nk => C; rewrite nth_default.
  have [_ U V] := H i; have := U j; have := V j; rewrite !mxE /sdeg dE.
  move=> /(_ _ Nj) V' /(_ Nj) U'; case B: (before up j i); last by lia.
  by have := V' B; lia.
have Hb' i j k : (P i j)`_k != 0 -> k%:Z + s j <= (d i)%:Z + s i.
  by move=> /Hb; lia.
have [H1 H2] := det_shifted_deg (s := fun i : 'I_m => s i) Hb'.
set L := (\matrix_(i, j) _) in H1.
have LD : \det L != 0.
  rewrite (@det_triangular up); last first.
    move=> i j B; rewrite mxE; case: ifP => // C.
    by apply/eqP; apply: contraT => /Hb; rewrite B; lia.
  apply/prodf_neq0 => i _; rewrite mxE ifT; last by lia.
  have -> : absz ((d i)%:Z + s i - s i)%R = d i by lia.
  by rewrite /d -/(lead_coef _) lead_coef_eq0.
apply/eqP; rewrite eqn_leq H2 ltnNge; apply: contra LD => C.
by rewrite -H1 nth_default.
Qed.
End Coef.
