(** Verification of approximant bases with one order per column (Giorgi-Neiger, ISSAC 2018, Theorem 1.1), degree of the determinant of
    reduced matrices. *)
From mathcomp Require Import all_ssreflect all_algebra zify.
From Verif Require Import A_base SpecA SpecForms SpecApp A_mul_model A_mul2_proof A_mbasis_abs A_detdeg_proof A_reduced_proof A_dixon_proof
  A_verif_proof N_appbas_proof N_popov_proof.
Set Implicit Arguments.
Unset Strict Implicit.
Unset Printing Implicit Defensive.
Import Order.TTheory GRing.Theory Num.Theory.
Local Open Scope ring_scope.

Section GN.
Variable F : fieldType.
Variables (m n : nat) (o : nat -> nat) (A : 'M[{poly F}]_(m, n)) (P : 'M[{poly F}]_m).
Hypothesis Happ : forall i, approximants o A (row i P).

Definition coefs_at : 'M[F]_(m, n) := \matrix_(i, j) ((P *m A) i j)`_(o j).
Definition full_rank : Prop := forall c : 'rV[F]_m, c *m at0 P = 0 -> c *m coefs_at = 0 -> c = 0.

Lemma PA_zero i (j : 'I_n) k : (k < o j)%N -> ((P *m A) i j)`_k = 0.
Proof. by move=> Hk; have /approximantsP/(_ k j Hk) := Happ i; rewrite -row_mul mxE. Qed.

Lemma comb_at (w : 'rV[{poly F}]_m) (j : 'I_n) : ((w *m (P *m A)) 0 j)`_(o j) = (at0 w *m coefs_at) 0 j.
Proof.
rewrite mxE coef_sum [RHS]mxE; apply: eq_bigr => l _.
rewrite at0E [coefs_at _ _]mxE coefM big_ord_recl /= subn0 [X in _ + X]big1 ?addr0 //.
by move=> a _; rewrite PA_zero ?mulr0 //= /bump /=; have := ltn_ord a; lia.
Qed.

Lemma gen_at k (v w : 'rV[{poly F}]_m) : full_rank -> approximants o A v -> 'X^k *: v = w *m P -> exists w', v = w' *m P.
Proof.
move=> Hr Hv; elim: k w => [|k IH] w E; first by exists w; rewrite -E expr0 scale1r.
have W0 : at0 w = 0.
  apply: Hr.
    apply/rowP=> j; have := congr1 (fun X : 'rV[{poly F}]_m => (X 0 j)`_0) E.
    rewrite [in LHS]mxE exprS -mulrA coefXM eqxx => H0.
    rewrite [RHS]mxE H0 !mxE coef_sum; apply: eq_bigr => l _.
    by rewrite !at0E coefM big_ord_recl big_ord0 addr0 subn0.
  apply/rowP=> j; rewrite -comb_at mulmxA -E -scalemxAl !mxE coefXnM.
  case: ltnP => // Hk; have /approximantsP := Hv => /(_ (o j - k.+1)%N j).
  by rewrite mxE => -> //; lia.
have [w' Ew] := divX W0; apply: (IH w'); apply: scaleX_inj; by rewrite scalerA -exprS E Ew -scalemxAl.
Qed.

Lemma basis_sound (c : F) D : c != 0 -> \det P = c%:P * 'X^D -> full_rank -> basis_of (approximants o A) P.
Proof.
move=> Nc Ed Hr.
have ND : \det P != 0 by rewrite Ed mulf_neq0 ?polyC_eq0 // -size_poly_eq0 size_polyXn.
split=> //; split.
  move=> v Hv; apply: (@gen_at D v (c^-1%:P *: v *m \adj P)) => //.
  rewrite -mulmxA mul_adj_mx mul_mx_scalar Ed scalerA mulrC mulrA -polyCM mulVf //.
  by rewrite polyC1 mul1r.
move=> w E; have := congr1 (mulmx^~ (\adj P)) E; rewrite -mulmxA mul_mx_adj mul0mx mul_mx_scalar.
move=> E'; apply/rowP=> i; have /rowP/(_ i) := E'; rewrite !mxE => /eqP.
by rewrite mulf_eq0 (negbTE ND) /= => /eqP.
Qed.

Lemma basis_complete : basis_of (approximants o A) P -> full_rank.
Proof.
move=> [_ [Hg Hi]] c H0 Hd.
pose cp : 'rV[{poly F}]_m := map_mx polyC c.
have at0c : at0 cp = c by apply/rowP=> i; rewrite at0E mxE coefC.
have cP0 : at0 (cp *m P) = 0 by rewrite /at0 map_mxM -/(at0 cp) at0c.
have [v Ev] := divX cP0.
have Hv : approximants o A v.
  apply/approximantsP=> k j Hk.
  have <- : (('X *: v *m A) 0 j)`_k.+1 = ((v *m A) 0 j)`_k by rewrite -scalemxAl mxE coefXM.
  rewrite -Ev -mulmxA.
  case: (ltngtP k.+1 (o j)) => Hk'; [|by lia|by rewrite Hk' comb_at at0c Hd mxE].
  by rewrite mxE coef_sum big1 // => l _; rewrite mxE coefCM PA_zero ?mulr0.
have [w Ew] := Hg v Hv.
have E : cp = 'X *: w by apply/eqP; rewrite -subr_eq0; apply/eqP/Hi; rewrite mulmxBl -scalemxAl -Ew Ev subrr.
by rewrite -at0c E; apply/rowP=> i; rewrite at0E !mxE coefXM.
Qed.

Lemma dvd_Xn (p : {poly F}) k : p %| 'X^k -> exists2 c : F, c != 0 & exists d, p = c%:P * 'X^d.
Proof.
elim: k p => [|k IH] p.
  by rewrite expr0 dvdp1 => /size_poly1P[c Nc ->]; exists c => //; exists 0%N; rewrite expr0 mulr1.
case: (eqVneq p`_0 0) => [p0|Np].
  have [q ->] : exists q, p = q * 'X.
    have /factor_theorem[q Eq] : root p 0 by rewrite /root horner_coef0 p0.
    by exists q; rewrite Eq subr0.
  rewrite exprSr dvdp_mul2r ?polyX_eq0 // => /IH[c Nc [d ->]]; exists c => //; exists d.+1; by rewrite exprSr mulrA.
move=> H; apply: IH; move: H; rewrite exprSr Gauss_dvdpl //.
have := coprimep_XsubC p 0; rewrite subr0 => ->; by rewrite /root horner_coef0.
Qed.

Lemma basis_det_X : basis_of (approximants o A) P -> exists2 c : F, c != 0 & exists D, \det P = c%:P * 'X^D.
Proof.
move=> B; pose N := (\max_(j < n) o j)%N.
have HN (j : 'I_n) : (o j <= N)%N by rewrite /N (bigD1 j) //= leq_maxl.
have HX i : approximants o A (row i ('X^N)%:M).
  move=> j; rewrite -row_mul mxE mul_scalar_mx mxE; apply: dvdp_mulr.
  by rewrite -(subnK (HN j)) exprD dvdp_mulIr.
have [U /(congr1 determinant)] := basis_gen B HX; rewrite det_scalar det_mulmx => E.
by apply: (@dvd_Xn _ (N * m)%N); rewrite exprM E dvdp_mulIr.
Qed.
End GN.

(** degree of the determinant of a shifted reduced matrix *)
Section Det.
Variable F : fieldType.
Lemma det_int_deg m (P : 'M[{poly F}]_m) (s t : 'I_m -> int) :
  (forall i j k, (P i j)`_k != 0 -> k%:Z + s j <= t i) ->
  let L := \matrix_(i, j) (if s j <= t i then (P i j)`_(absz (t i - s j)%R) else 0) in
  \det L != 0 -> \det P != 0 /\ (size (\det P))%:Z = \sum_i (t i - s i) + 1.
Proof.
move=> H L NL; pose N : nat := (\sum_i absz (s i) + \sum_i absz (t i))%N.
have HN j : 0 <= N%:Z + s j.
  by have : (`|s j| <= N)%N; [rewrite /N (bigD1 j) //= -addnA leq_addr|lia].
have HT j : 0 <= N%:Z + t j.
  by have : (`|t j| <= N)%N; [rewrite /N [X in (_ + X)%N](bigD1 j) //= addnCA leq_addr|lia].
pose e j := absz (N%:Z + s j)%R; pose q j := absz (N%:Z + t j)%R.
have eE j : (e j)%:Z = N%:Z + s j by rewrite /e gez0_abs.
have qE j : (q j)%:Z = N%:Z + t j by rewrite /q gez0_abs.
pose Q := P *m diag_mx (\row_j 'X^(e j)).
have QE i j : Q i j = P i j * 'X^(e j) by rewrite /Q mul_mx_diag !mxE.
have Qc i j k : (Q i j)`_k = if (k < e j)%N then 0 else (P i j)`_(k - e j) by rewrite QE coefMXn.
have HQ i j : (size (Q i j) <= (q i).+1)%N.
  apply/leq_sizeP=> k Hk; rewrite Qc; case: ltnP => // Hk'.
  by apply/eqP; apply: contraT => /H; rewrite -subzn // eE; have := qE i; lia.
have [H1 H2] := det_row_deg HQ.
have detQ : \det Q = \det P * 'X^(\sum_j e j).
  rewrite det_mulmx det_diag; congr (_ * _).
  rewrite (eq_bigr (fun j => 'X^(e j))); last by move=> j _; rewrite mxE.
  by rewrite prodrXr.
have EL : \matrix_(i, j) (Q i j)`_(q i) = L.
  apply/matrixP=> i j; rewrite [LHS]mxE [RHS]mxE Qc; have := qE i; have := eE j => Ej Ei.
  case: ifP => C; case: ifP => C'; [by lia | by [] | | by lia].
  by congr (_`_ _); lia.
rewrite EL in H2.
have SQ : size (\det Q) = (\sum_i q i).+1.
  by apply/eqP; rewrite eqn_leq H1 /= ltnNge; apply/negP=> /leq_sizeP/(_ _ (leqnn _)); rewrite H2 => Z; rewrite Z eqxx in NL.
have NZ : \det P != 0 by apply/eqP=> Z; move: SQ; rewrite detQ Z mul0r size_poly0.
have NX : ('X^(\sum_j e j) : {poly F}) != 0 by rewrite -size_poly_eq0 size_polyXn.
split=> //; have : (size (\det P) + \sum_j e j)%N = (\sum_i q i).+1.
  by move: SQ; rewrite detQ size_mul // size_polyXn addnS.
move/(congr1 Posz); rewrite PoszD -addn1 PoszD !(big_morph Posz PoszD (erefl 0%:Z)).
under eq_bigr do rewrite eE; under [in RHS]eq_bigr do rewrite qE.
rewrite !big_split /= sumrN; move: (\sum_i s i) (\sum_i t i) (\sum_(i < m) N%:Z) => x y z; lia.
Qed.

Lemma det_reduced_deg s m (P : 'M[{poly F}]_m) (t : 'I_m -> int) : reduced_form s P ->
  (forall i, is_rdeg (fun j : 'I_m => s j) (row i P) (t i)) ->
  \det P != 0 /\ (size (\det P))%:Z = \sum_(i < m) (t i - s i) + 1.
Proof.
move=> [L HL RL] Ht; apply: det_int_deg.
  move=> i j k Nk; have [H _] := Ht i.
  have N0 : row i P 0 j != 0 by rewrite mxE; apply: contraNneq Nk => ->; rewrite coef0.
  have := H j N0; rewrite /sdeg mxE; have : (k < size (P i j))%N by rewrite ltnNge; apply/negP=> /leq_sizeP/(_ _ (leqnn _)) Z; rewrite Z eqxx in Nk.
  by lia.
set L' := (X in \det X); have <- : L = L' by apply/matrixP=> i j; have [_ /(_ _ (Ht i) j) ->] := HL i; rewrite mxE.
by move: RL; rewrite row_free_unit unitmxE unitfE.
Qed.

Lemma reduced_nz s m n (P : 'M[{poly F}]_(m, n)) i : reduced_form s P -> row i P != 0.
Proof.
move=> [L HL RL]; apply/eqP=> Z; have [/(_ Z) H _] := HL i.
have : delta_mx (0 : 'I_1) i *m L = 0 by rewrite -rowE.
move/(congr1 (mulmx^~ (pinvmx L))); rewrite mulmxKp // mul0mx => /matrixP/(_ 0 i).
by rewrite !mxE !eqxx /= => /eqP; rewrite oner_eq0.
Qed.
End Det.
