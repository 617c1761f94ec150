(** Truncated inverses and x-adic lifting. *)
From mathcomp Require Import all_ssreflect all_algebra zify.
From Verif Require Import A_base SpecA A_matpoly_model A_matpoly_proof A_mbasis_model
  A_mbasis_abs A_mbasis_proof A_mul_model A_mul_proof A_mul2_proof A_pmbasis_model
  A_pmbasis_proof A_dixon_model.
Set Implicit Arguments.
Unset Strict Implicit.
Unset Printing Implicit Defensive.
Import GRing.Theory Num.Theory.
Local Open Scope ring_scope.

Section PM.
Variable F : fieldType.

Lemma size_XnM (d e : nat) (p : {poly F}) : (size p <= e)%N -> (size ('X^d * p)%R <= d + e)%N.
Proof.
case: (eqVneq p 0) => [->|N] H; first by rewrite mulr0 size_poly0.
have NX : ('X^d : {poly F}) != 0 by rewrite -size_poly_eq0 size_polyXn.
by rewrite size_mul ?size_polyXn ?addSn /= ?leq_add2l.
Qed.

Lemma blk_mul m e d1 d2 (P1 P2 : 'M[{poly F}]_m) :
  blk e d1 P1 -> blk e d2 P2 -> blk e (d1 + d2) (P2 *m P1).
Proof.
move=> [A1 A2 A3] [B1 B2 B3]; split=> i j Hi.
- rewrite mxE (bigD1 i) //= big1 ?addr0; last first.
    by move=> l /negbTE NE; rewrite B1 // eq_sym NE mul0r.
  rewrite B1 // eqxx A1 //; case: eqP => _; rewrite ?mulr0 // -exprD addnC //.
- move=> Hj; rewrite mxE (bigD1 i) //= big1 ?addr0; last first.
    move=> l NE; case: (ltnP l e) => Hl.
      rewrite A1 //; case: eqP => [E|_]; rewrite ?mulr0 //.
      by move: Hl Hj; rewrite E; lia.
    by rewrite B2 // eq_sym (negbTE NE) mul0r.
  by rewrite B2 // eqxx A2 // mul1r.
- move=> Hj; rewrite mxE (bigD1 j) //= A1 // eqxx.
  rewrite (bigD1 i) /=; last by apply/eqP=> E; move: Hi Hj; rewrite E; lia.
  rewrite (B2 i i Hi Hi) eqxx mul1r big1 ?addr0.
    apply: leq_trans (size_add _ _) _; rewrite geq_max mulrC size_XnM /=; last exact: B3.
    exact: leq_trans (A3 _ _ Hi Hj) (leq_addr _ _).
  move=> l /andP[Nj Ni]; case: (ltnP l e) => Hl; first by rewrite A1 // (negbTE Nj) mulr0.
  by rewrite B2 // eq_sym (negbTE Ni) mul0r.
Qed.

Lemma pmbasis_rec_blk modn v36 thres m n fuel (A : fmat {poly F}) d (s : nat -> int) a P t :
  modn \in [char F] -> (0 < thres)%N -> (d < fuel)%N -> (n <= m)%N ->
  ((0 < d)%N -> (\matrix_(i < n, j < n) (A i j)`_0) \in unitmx) ->
  (forall i, (i < n)%N -> s i = a) -> (forall i, (n <= i < m)%N -> a + d%:Z <= s i) ->
  pmbasis_rec fuel thres v36 modn m n A d s = AOk (P, t) ->
  [/\ blk n d (mx_of m m P), forall i, (i < n)%N -> t i = a + d%:Z &
      forall i, (n <= i < m)%N -> t i = s i].
Proof.
move=> Hc Ht; elim: fuel A d s a P t => [//|fuel IH] A d s a P t Hf Hn Hu Hs1 Hs2 /=.
have Hu' : (0 < d)%N -> \matrix_(i < n, j < n) (pm_trunc d A i j)`_0 \in unitmx.
  move=> Hd; rewrite (_ : \matrix_(i, j) _ = \matrix_(i < n, j < n) (A i j)`_0); first exact: Hu.
  by apply/matrixP=> i j; rewrite !mxE coef_ptrunc Hd.
case: (leqP d thres) => Hd.
  by apply: pm_mbasis_blk => //; exact: Hu'.
have Hd0 : (0 < d)%N by lia.
set d1 := (d %/ 2)%N; set d2 := (d - d1)%N.
have d12 : (d1 + d2)%N = d by rewrite /d2 /d1; lia.
have [P1 [s1 [E1 B1 D1]]] := pmbasis_rec_correct v36 m n (pm_trunc d A) s Hc Ht (d := d1) (fuel := fuel) ltac:(rewrite /d1; lia).
rewrite E1.
have [K1 T1 T2] : [/\ blk n d1 (mx_of m m P1), forall i, (i < n)%N -> s1 i = a + d1%:Z &
      forall i, (n <= i < m)%N -> s1 i = s i].
  apply: IH E1 => //; [by rewrite /d1; lia | by move=> _; exact: Hu' |].
  by move=> i Hi; have := Hs2 i Hi; lia.
have [R -> HR] := mulmidP v36 m m n P1 (pm_trunc d A) d1 d Hc.
have [P2 [s2 [E2 B2 D2]]] := pmbasis_rec_correct v36 m n R s1 Hc Ht (d := d2) (fuel := fuel) ltac:(rewrite /d2 /d1; lia).
rewrite E2 => -[<- <-].
have [K2 U1 U2] : [/\ blk n d2 (mx_of m m P2), forall i, (i < n)%N -> s2 i = a + d1%:Z + d2%:Z &
      forall i, (n <= i < m)%N -> s2 i = s1 i].
  apply: IH E2 => //; [by rewrite /d2 /d1; lia | | by move=> i Hi; rewrite T2 //; have := Hs2 i Hi; lia].
  move=> _; rewrite (_ : \matrix_(i, j) _ = \matrix_(i < n, j < n) (pm_trunc d A i j)`_0); first exact: Hu'.
  apply/matrixP=> i j; rewrite !mxE HR //; last exact: leq_trans (ltn_ord i) Hn.
  have -> : fmul m P1 (pm_trunc d A) i j = (mx_of m m P1 *m mx_of m n (pm_trunc d A)) (widen_ord Hn i) j.
    by rewrite -mx_of_mul mx_ofE.
  have [H1 _ _] := K1.
  rewrite mxE (bigD1 (widen_ord Hn i)) //= big1 ?addr0; last first.
    by move=> l /negbTE NE; rewrite H1 //= eq_sym NE mul0r.
  rewrite H1 //= eqxx mx_ofE /= coef_poly coefXnM; case: ifP; last by rewrite /d1; lia.
  by rewrite addn0 ltnn subnn.
have -> : mx_of m m (pm_multiply modn m m m P2 P1) = mx_of m m P2 *m mx_of m m P1.
  rewrite -mx_of_mul; apply: mx_of_feq => i j Hi Hj; exact: pm_multiplyP.
split; first by rewrite -d12; exact: blk_mul.
  by move=> i Hi; rewrite U1 //; lia.
by move=> i Hi; rewrite U2 ?T2.
Qed.
End PM.

(** congruence of polynomial matrices modulo X^d *)
Section Cong.
Variable F : fieldType.


Lemma at0E m n (M : 'M[{poly F}]_(m, n)) i j : at0 M i j = (M i j)`_0.
Proof. by rewrite mxE /horner_eval horner_coef0. Qed.

Lemma cong_mul d m n p (M N : 'M[{poly F}]_(m, n)) (M' N' : 'M[{poly F}]_(n, p)) :
  cong d M N -> cong d M' N' -> cong d (M *m M') (N *m N').
Proof.
move=> H H' i j; rewrite !mxE -sumrB.
apply: (big_ind (fun p => 'X^d %| p)) => [|x y|l _]; [exact: dvdp0 | exact: dvdp_add |].
rewrite (_ : _ - _ = (M i l - N i l) * M' l j + N i l * (M' l j - N' l j)); last first.
  by rewrite mulrBl mulrBr addrA subrK.
by apply: dvdp_add; [apply: dvdp_mulr; exact: H | apply: dvdp_mull; exact: H'].

Qed.

Lemma cong_refl d m n (M : 'M[{poly F}]_(m, n)) : cong d M M.
Proof. by move=> i j; rewrite subrr dvdp0. Qed.

Lemma cong_sym d m n (M N : 'M[{poly F}]_(m, n)) : cong d M N -> cong d N M.
Proof. by move=> H i j; rewrite -opprB dvdpNr. Qed.

Lemma cong_trans d m n (M N P : 'M[{poly F}]_(m, n)) : cong d M N -> cong d N P -> cong d M P.
Proof. by move=> H H' i j; rewrite -(subrK (N i j) (M i j)) -addrA dvdp_add. Qed.

Lemma cong_at0 d m n (M N : 'M[{poly F}]_(m, n)) : (0 < d)%N -> cong d M N -> at0 M = at0 N.
Proof.
move=> Hd H; apply/matrixP=> i j; rewrite !at0E; have /dvdXn_coef/(_ 0%N Hd) := H i j.
by rewrite coefB => /eqP; rewrite subr_eq0 => /eqP.
Qed.

Lemma det_at0 n (M : 'M[{poly F}]_n) : \det (at0 M) = (\det M)`_0.
Proof. by rewrite /at0 det_map_mx /= /horner_eval horner_coef0. Qed.

(** a left inverse modulo X^d is a right inverse *)
Lemma cong_inv_comm d n (S A : 'M[{poly F}]_n) : cong d (S *m A) 1%:M -> cong d (A *m S) 1%:M.
Proof.
case: (posnP d) => [-> _ i j|Hd H]; first by rewrite expr0 dvd1p.
have U : at0 A \in unitmx.
  have : at0 S *m at0 A = 1%:M.
    by rewrite /at0 -map_mxM -/(at0 _) (cong_at0 Hd H) /at0 map_mx1.
  by case/mulmx1_unit.
have K : cong d ((A *m S - 1%:M) *m A) 0.
  move=> i j; have := cong_mul (cong_refl d A) H i j; rewrite mulmx1 mulmxBl mul1mx -mulmxA.
  move: (A *m (S *m A)) => Z; by rewrite [(Z - A) i j]mxE [(- A) i j]mxE [(0 : 'M_n) i j]mxE subr0.
have K2 := cong_mul K (cong_refl d (\adj A)).
move=> i j; have := K2 i j; rewrite -mulmxA mul_mx_adj mul0mx [X in _ - X]mxE subr0.
rewrite mul_mx_scalar mxE mxE => H2.
have C : coprimep ('X^d) (\det A).
  rewrite coprimep_expl // coprimep_sym -[in X in coprimep _ X](subr0 'X) coprimep_XsubC /root.
  by move: U; rewrite unitmxE det_at0 unitfE -horner_coef0.
by move: H2; rewrite Gauss_dvdpr // !mxE.
Qed.
End Cong.

Section Inv.
Variable F : fieldType.

Lemma sum2n (R : zmodType) n (f : nat -> R) :
  \sum_(l < 2 * n) f l = \sum_(l < n) f l + \sum_(l < n) f (n + l)%N.
Proof. by rewrite mul2n -addnn big_split_ord. Qed.

Lemma iota_ord n (i : 'I_n) : (i : nat) \in iota 0 n.
Proof. by rewrite mem_iota add0n ltn_ord. Qed.

Lemma inv_truncP v36 modn n S0 (A : fmat {poly F}) d : modn \in [char F] ->
  exists b S, [/\ inv_trunc v36 modn n S0 A d = AOk (b, S),
    (((0 < d)%N -> at0 (mx_of n n A) \in unitmx) -> b),
    (b -> (forall i j, (i < n)%N -> (j < n)%N -> ((0 < d)%N -> at0 (mx_of n n A) \in unitmx) -> (size (S i j) <= d)%N) /\
          cong d (mx_of n n S *m mx_of n n A) 1%:M) &
    (~~ b -> S = S0)].
Proof.
move=> Hc; set H := inv_trunc_H n A; set s := inv_trunc_shift n d.
have [P [t [E B D]]] := pmbasis_correct v36 (2 * n) n H d s Hc.
rewrite /inv_trunc E; set b := all _ _.
have Eu : at0 (mx_of n n A) = \matrix_(i < n, j < n) (H i j)`_0.
  by apply/matrixP=> i j; rewrite at0E !mxE /H /inv_trunc_H ltn_ord.
have Hblk : ((0 < d)%N -> at0 (mx_of n n A) \in unitmx) -> blk n d (mx_of (2 * n) (2 * n) P).
  rewrite Eu => U; have [] := pmbasis_rec_blk (a := 0) Hc (isT : (0 < PMBASIS_THRES)%N) (ltnSn d) _ U _ _ E => //.
  - by lia.
  - by move=> i Hi; rewrite /s /inv_trunc_shift Hi.
  - by move=> i /andP[Hi _]; rewrite /s /inv_trunc_shift ltnNge Hi add0r.
exists b, (if b then fun i j => P (n + i)%N j else S0); split=> //.
- move/Hblk=> [_ H2 _]; apply/allP=> i; rewrite mem_iota add0n => /andP[_ Hi].
  apply/allP=> j; rewrite mem_iota add0n => /andP[_ Hj].
  have Hi' : (n + i < 2 * n)%N by lia.
  have Hj' : (n + j < 2 * n)%N by lia.
  have := H2 (Ordinal Hi') (Ordinal Hj') (leq_addr _ _) (leq_addr _ _); rewrite mx_ofE /= => ->.
  have -> : (Ordinal Hi' == Ordinal Hj') = (i == j) by rewrite -val_eqE /= eqn_add2l.
  by case: (i == j); apply/eqP.
- move=> Hb; rewrite Hb; split.
    move=> i j Hi Hj /Hblk [_ _ H3].
    have Hi' : (n + i < 2 * n)%N by lia.
    have Hj' : (j < 2 * n)%N by lia.
    by have := H3 (Ordinal Hi') (Ordinal Hj') (leq_addr _ _) Hj; rewrite mx_ofE.
  move=> i j; have [B1 _] := B.
  have Hi' : (n + i < 2 * n)%N by have := ltn_ord i; lia.
  have := B1 (Ordinal Hi') j; rewrite -row_mul mxE -mx_of_mul mx_ofE /= /fmul.
  rewrite (sum2n _ (fun l => P (n + i)%N l * H l j)).
  rewrite -mx_of_mul mx_ofE /fmul /= mxE => Hd.
  rewrite (_ : _ - _ = \sum_(l < n) P (n + i)%N l * H l j + \sum_(l < n) P (n + i)%N (n + l)%N * H (n + l)%N j) //.
  congr (_ + _); first by apply: eq_bigr => l _; rewrite /H /inv_trunc_H ltn_ord.
  rewrite (bigD1 i) //= big1 ?addr0.
    have := allP Hb i (iota_ord i) => /allP/(_ _ (iota_ord i)); rewrite eqxx => /eqP ->.
    rewrite mul1r /H /inv_trunc_H ltnNge leq_addr /= addKn.
    by rewrite -val_eqE; case: eqP => _; rewrite ?oppr0 // polyCN.
  move=> l NE; have := allP Hb i (iota_ord i) => /allP/(_ _ (iota_ord l)).
  have -> : (i == l :> nat) = false by apply/negbTE; rewrite eq_sym.
  by move/eqP ->; rewrite mul0r.
- by move/negbTE ->.
Qed.
End Inv.

Section Lift.
Variable F : fieldType.
Variables (modn n m : nat) (A C B : fmat {poly F}) (order : nat).
Hypothesis Hc : modn \in [char F].
Hypothesis Hinv : cong order (mx_of n n A *m mx_of n n C) 1%:M.

Definition dinv (l : nat) (st : fmat {poly F} * fmat {poly F}) : Prop :=
  mx_of n m B = mx_of n n A *m mx_of n m st.1 + 'X^(l * order) *: mx_of n m st.2.

Lemma mx_mulE k1 k2 k3 (M N : fmat {poly F}) :
  mx_of k1 k3 (pm_multiply modn k1 k2 k3 M N) = mx_of k1 k2 M *m mx_of k2 k3 N.
Proof. by rewrite -mx_of_mul; apply: mx_of_feq => i j Hi Hj; exact: pm_multiplyP. Qed.

Lemma pshr_exact d (p : {poly F}) : 'X^d %| p -> 'X^d * pshr d p = p.
Proof.
move/dvdXn_coef=> H; apply/polyP=> k; rewrite coefXnM; case: ltnP => Hk; first by rewrite H.
by rewrite coef_pshr subnKC.
Qed.

Lemma dixon_stepP l st : dinv l st -> dinv l.+1 (dixon_step modn n m A C order l st).
Proof.
case: st => X BB; rewrite /dinv /= => E.
set S := pm_trunc order _; set T : fmat {poly F} := fun i j => BB i j - _.
have HS : cong order (mx_of n m S) (mx_of n n C *m mx_of n m BB).
  move=> i j; rewrite -mx_mulE !mx_ofE; apply/dvdXn_coef=> k Hk.
  by rewrite coefB coef_ptrunc Hk subrr.
have HAS : cong order (mx_of n n A *m mx_of n m S) (mx_of n m BB).
  apply: (cong_trans (cong_mul (cong_refl order (mx_of n n A)) HS)).
  rewrite mulmxA -[X in cong _ _ X]mul1mx; exact: cong_mul Hinv (cong_refl _ _).
have HT : 'X^order *: mx_of n m (pm_shr order T) = mx_of n m BB - mx_of n n A *m mx_of n m S.
  apply/matrixP=> i j; rewrite -mx_mulE mxE [RHS]mxE [X in _ + X]mxE !mx_ofE /pm_shr.
  by apply: pshr_exact; have := cong_sym HAS i j; rewrite -mx_mulE !mx_ofE.
have -> : mx_of n m (fun i j => X i j + 'X^(l * order) * S i j) =
    mx_of n m X + 'X^(l * order) *: mx_of n m S by apply/matrixP=> i j; rewrite !mxE.
rewrite E mulmxDr -addrA; congr (_ + _).
by rewrite -scalemxAr mulSn addnC exprD -scalerA HT -scalerDr addrC subrK.
Qed.

Lemma cong_addX d e k1 k2 (M N : 'M[{poly F}]_(k1, k2)) : (d <= e)%N -> cong d M (M + 'X^e *: N).
Proof.
move=> H i j; rewrite [(M + _) i j]mxE opprD addrA subrr add0r dvdpNr mxE.
by apply: dvdp_mulr; apply: dvdp_exp2l.
Qed.

Lemma dixon_loopP fuel sigma l st : dinv l st -> (0 < order)%N -> (sigma < l * order + fuel)%N ->
  exists2 X, dixon_loop fuel modn n m A C order sigma l st = Some X &
    cong sigma (mx_of n n A *m mx_of n m X) (mx_of n m B).
Proof.
elim: fuel l st => [|fuel IH] l st Hd Ho Hf /=.
  have -> : (l * order < sigma)%N = false by lia.
  by exists st.1 => //; rewrite Hd; apply: cong_addX; lia.
case: ltnP => Hs.
  by apply: IH => //; [exact: dixon_stepP | rewrite mulSn; lia].
by exists st.1 => //; rewrite Hd; exact: cong_addX.
Qed.
End Lift.
