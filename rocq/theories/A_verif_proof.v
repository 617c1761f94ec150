(** Verification of approximant bases (Giorgi-Neiger, ISSAC 2018, Theorem 1.1). *)
From mathcomp Require Import all_ssreflect all_algebra zify.
From Verif Require Import A_base SpecA SpecForms A_mul_model A_mul_proof A_mul2_proof
  A_mbasis_abs A_forms_model A_forms_proof A_forms2_proof A_detdeg_proof A_dixon_proof A_verif_model.
Set Implicit Arguments.
Unset Strict Implicit.
Unset Printing Implicit Defensive.
Import GRing.Theory Num.Theory.
Local Open Scope ring_scope.

Section GN.
Variable F : fieldType.
Variables (m n d : nat) (A : 'M[{poly F}]_(m, n)) (P : 'M[{poly F}]_m).
Hypothesis Happ : forall i, approximant d A (row i P).

Lemma PA_low i j k : (k < d)%N -> ((P *m A) i j)`_k = 0.
Proof. by move=> Hk; have /approximantP/(_ k j Hk) := Happ i; rewrite -row_mul mxE. Qed.

Definition full_row_rank : Prop := forall c : 'rV[F]_m,
  c *m at0 P = 0 -> c *m coefmx d (P *m A) = 0 -> c = 0.

Lemma comb_low (w : 'rV[{poly F}]_m) j : ((w *m (P *m A)) 0 j)`_d = (at0 w *m coefmx d (P *m A)) 0 j.
Proof.
rewrite mxE coef_sum [RHS]mxE; apply: eq_bigr => l _.
rewrite at0E [coefmx _ _ _ _]mxE coefM big_ord_recl /= subn0 [X in _ + X]big1 ?addr0 //.
by move=> a _; rewrite PA_low ?mulr0 //= /bump /=; have := ltn_ord a; lia.
Qed.

Lemma divX (w : 'rV[{poly F}]_m) : at0 w = 0 -> exists w', w = 'X *: w'.
Proof.
move=> H; exists (\row_i pshr 1 (w 0 i)); apply/rowP=> i; rewrite !mxE -[X in X * _]expr1.
rewrite pshr_exact //; apply/dvdXn_coef=> -[|//] _.
by have /rowP/(_ i) := H; rewrite at0E mxE.
Qed.

Lemma scaleX_inj (v w : 'rV[{poly F}]_m) : 'X *: v = 'X *: w -> v = w.
Proof.
move=> E; apply/rowP=> i; have /rowP/(_ i) := E; rewrite !mxE.
by apply: mulfI; rewrite polyX_eq0.
Qed.

Lemma gn_gen k (v w : 'rV[{poly F}]_m) : full_row_rank ->
  approximant d A v -> 'X^k *: v = w *m P -> exists w', v = w' *m P.
Proof.
move=> Hr Hv; elim: k w => [|k IH] w E.
  by exists w; rewrite -E expr0 scale1r.
have W0 : at0 w = 0.
  apply: Hr.
    apply/rowP=> j; have := congr1 (fun X : 'rV[{poly F}]_m => (X 0 j)`_0) E.
    rewrite [in LHS]mxE exprS -mulrA coefXM eqxx => H0.
    rewrite [RHS]mxE H0 !mxE coef_sum; apply: eq_bigr => l _.
    by rewrite !at0E coefM big_ord_recl big_ord0 addr0 subn0.
  apply/rowP=> j; rewrite -comb_low mulmxA -E -scalemxAl !mxE coefXnM.
  case: ltnP => // Hk; have /approximantP := Hv => /(_ (d - k.+1)%N j).
  by rewrite mxE => -> //; lia.
have [w' Ew] := divX W0.
apply: (IH w'); apply: scaleX_inj.
by rewrite scalerA -exprS E Ew -scalemxAl.
Qed.

Lemma gn_sound (c : F) D : c != 0 -> \det P = c%:P * 'X^D -> full_row_rank ->
  approx_basis d A P.
Proof.
move=> Nc Ed Hr.
have ND : \det P != 0.
  by rewrite Ed mulf_neq0 ?polyC_eq0 // -size_poly_eq0 size_polyXn.
split=> //; split.
  move=> v Hv; apply: (@gn_gen D v (c^-1%:P *: v *m \adj P)) => //.
  rewrite -mulmxA mul_adj_mx mul_mx_scalar Ed scalerA mulrC mulrA -polyCM mulVf //.
  by rewrite polyC1 mul1r.
move=> w E; have := congr1 (mulmx^~ (\adj P)) E; rewrite -mulmxA mul_mx_adj mul0mx mul_mx_scalar.
move=> E'; apply/rowP=> i; have /rowP/(_ i) := E'; rewrite !mxE => /eqP.
by rewrite mulf_eq0 (negbTE ND) /= => /eqP.
Qed.

Lemma gn_complete : approx_basis d A P -> full_row_rank.
Proof.
move=> [_ [Hg Hi]] c H0 Hd.
pose cp : 'rV[{poly F}]_m := map_mx polyC c.
have at0c : at0 cp = c by apply/rowP=> i; rewrite at0E mxE coefC.
have cP0 : at0 (cp *m P) = 0.
  by rewrite /at0 map_mxM -/(at0 cp) at0c.
have [v Ev] := divX cP0.
have Hv : approximant d A v.
  apply/approximantP=> k j Hk.
  have <- : (('X *: v *m A) 0 j)`_k.+1 = ((v *m A) 0 j)`_k.
    by rewrite -scalemxAl mxE coefXM.
  rewrite -Ev -mulmxA.
  case: (ltngtP k.+1 d) => Hk'; [|by lia|by rewrite Hk' comb_low at0c Hd mxE].
  rewrite mxE coef_sum big1 // => l _; rewrite mxE coefCM PA_low ?mulr0 //.
have [w Ew] := Hg v Hv.
have E : cp = 'X *: w.
  apply/eqP; rewrite -subr_eq0; apply/eqP/Hi; rewrite mulmxBl -scalemxAl -Ew Ev subrr //.
rewrite -at0c E; apply/rowP=> i; rewrite at0E !mxE coefXM //.
Qed.
End GN.

Section IsApp.
Variable F : fieldType.

Lemma owp_diag up s m (P : 'M[{poly F}]_m) : ordered_weak_popov_form up s P ->
  forall i, pivot_at up s (row i P) i.
Proof.
case=> piv inc H i; suff E : piv i = i by move: (H i); rewrite E.
have [L1 L2] : (forall i : 'I_m, (i <= piv i)%N) /\ (forall i : 'I_m, (piv i <= i)%N).
  split=> -[k Hk].
    elim: k Hk => [//|k IH] Hk; have Hk' : (k < m)%N by lia.
    by have := IH Hk'; have := inc (Ordinal Hk') (Ordinal Hk) (ltnSn k) => /=; lia.
  move: {2}(m - k)%N (leqnn (m - k)%N) => q; elim: q k Hk => [|q IH] k Hk Hq; first by lia.
  case: (ltnP k.+1 m) => Hk1.
    have := IH _ Hk1 ltac:(lia); have := inc (Ordinal Hk) (Ordinal Hk1) (ltnSn k) => /=; lia.
  by have := ltn_ord (piv (Ordinal Hk)) => /=; lia.
by apply/val_inj/eqP; rewrite eqn_leq /= L1 L2.
Qed.

Lemma is_approximant_basisP modn m n (P A : fmat {poly F}) d shift o : modn \in [char F] ->
  exists2 b : bool, is_approximant_basis modn m m m n P A d shift o = AOk b &
    (b <-> is_ordered_weak_popov m m P shift o /\
       [/\ forall i, approximant d (mx_of m n A) (row i (mx_of m m P)),
           pdeg (\det (mx_of m m P)) = \sum_(i < m) pdeg (P i i) &
           full_row_rank d (mx_of m n A) (mx_of m m P)]).
Proof.
move=> Hc; rewrite /is_approximant_basis eqxx /=.
set b := (X in AOk X); exists b => //; rewrite /b.
have RE i j : (i < m)%N -> (j < n)%N -> pm_multiply modn m m n P A i j = fmul m P A i j.
  by move=> Hi Hj; exact: pm_multiplyP.
have H2 : all (fun i => all (fun j => ptrunc d (pm_multiply modn m m n P A i j) == 0) (iota 0 n)) (iota 0 m) <->
    forall i, approximant d (mx_of m n A) (row i (mx_of m m P)).
  split.
    move=> /allP H i j; rewrite -row_mul mxE -mx_of_mul mx_ofE.
    have /allP/(_ _ (iota_ord j))/eqP E := H _ (iota_ord i).
    apply/dvdXn_coef=> k Hk; rewrite -RE //.
    by have := congr1 (fun p : {poly F} => p`_k) E; rewrite coef_ptrunc Hk coef0.
  move=> H; apply/allP=> i; rewrite mem_iota => /andP[_ Hi]; apply/allP=> j.
  rewrite mem_iota => /andP[_ Hj]; apply/eqP/polyP=> k; rewrite coef_ptrunc coef0; case: ifP => // Hk.
  rewrite RE //; have /approximantP/(_ k (Ordinal Hj) Hk) := H (Ordinal Hi).
  by rewrite -row_mul mxE -mx_of_mul mx_ofE.
have H4 : \rank (row_mx (mx_of m m (fun i j => (P i j)`_0))
      (mx_of m n (fun i j => (pm_multiply modn m m n P A i j)`_d))) == m <->
    full_row_rank d (mx_of m n A) (mx_of m m P).
  rewrite -[_ == m]/(row_free _).
  have -> : mx_of m m (fun i j => (P i j)`_0) = at0 (mx_of m m P).
    by apply/matrixP=> i j; rewrite at0E !mxE.
  have -> : mx_of m n (fun i j => (pm_multiply modn m m n P A i j)`_d) =
      coefmx d (mx_of m m P *m mx_of m n A).
    by apply/matrixP=> i j; rewrite mxE [RHS]mxE -mx_of_mul mx_ofE RE.
  rewrite -kermx_eq0; split.
    move/eqP=> K c E1 E2; have : (c <= kermx (row_mx (at0 (mx_of m m P)) (coefmx d (mx_of m m P *m mx_of m n A))))%MS.
      by apply/sub_kermxP; rewrite mul_mx_row E1 E2 row_mx0.
    by rewrite K submx0 => /eqP.
  move=> H; apply/eqP/row_matrixP=> i; rewrite row0.
  have := mulmx_ker (row_mx (at0 (mx_of m m P)) (coefmx d (mx_of m m P *m mx_of m n A))).
  move/(congr1 (row i)); rewrite row_mul mul_mx_row row0 -[in RHS]row_mx0 => /eq_row_mx [E1 E2].
  exact: H.
split.
  by case/and4P=> H1 /H2 ? /eqP H3 /H4 ?.
by case=> -> [/H2 -> -> /H4 ->]; rewrite eqxx.
Qed.
End IsApp.
