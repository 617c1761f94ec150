(** determinant_generic_knowing_degree (ntl-extras): approximant bases at order one, and a matrix for which the wrong determinant is returned. *)
From Coq Require Import ZArith.
From mathcomp Require Import all_ssreflect all_algebra zify.
From Verif Require Import A_base SpecA SpecForms SpecApp A_mbasis_abs A_kernel_abs N_pmat_model N_trs_proof N_util_model N_util_proof N_forms_model P_ntrs
  N_mb_model N_mb_proof N_mb2_proof P_nmb N_pmb_model N_ker_model N_ker_proof N_zls2_proof N_det_model N_det_proof.
Set Implicit Arguments.
Unset Strict Implicit.
Unset Printing Implicit Defensive.
Import Order.TTheory GRing.Theory Num.Theory.
Local Open Scope ring_scope.

Section D.
Variable F : fieldType.
Implicit Types (pm : pmat F).

Lemma order1_run ker img pm shift : kernel_ok ker -> image_ok img -> (0 < nr pm)%N -> size shift = nr pm -> exists a t,
  [/\ mbasis_rescomp ker img pm 1 shift = Ret (a, t), mb_correct pm 1 shift a t &
      forall i, (i < nr pm)%N -> (forall j, (j < nr pm)%N -> ent a i j = if i == j then 'X else 0) \/ (forall j, (j < nr pm)%N -> (size (ent a i j) <= 1)%N)].
Proof.
move=> KO IO m0 Ss; have [a [t [E C]]] := C82_mbasis_rescomp KO IO Ss (isT : (0 < 1)%N) m0; exists a, t; split=> // i Hi.
move: E; rewrite /mbasis_rescomp /= (gtn_eqF m0); set st := mb_start _ _ _; set R := fun i j => _.
have Rs : rep (nr pm) st = 1%:M.
  apply/matrixP=> i' j; rewrite !mxE; apply/polyP=> e; rewrite coef_poly /= (inj_eq val_inj).
  by case: eqP => _; rewrite ?mulr1n ?mulr0n ?coef1 ?coef0; case: e.
have ME e st' j (Hj : (j < nr pm)%N) : ent (conv_out (nr pm) st' e) i j = ('X^e *: rep (nr pm) st') (Ordinal Hi) (Ordinal Hj).
  by rewrite !mxE /= mulrC.
have := mb_baseP KO IO (nr pm) (nc pm) R st; case: (mb_base _ _ _ _ _ _) => [[|| k K pv st2]|//] B /= [<- _].
- left=> j Hj; rewrite (ME _ _ _ _ Hj) subnn add0n expr1 Rs !mxE -val_eqE /=; by case: eqP => _; rewrite ?mulr1n ?mulr0n ?mulr1 ?mulr0.
- right=> j Hj; rewrite (ME _ _ _ _ Hj) expr0 scale1r Rs !mxE; by case: eqP => _; rewrite ?mulr1n ?mulr0n ?size_poly1 ?size_poly0.
- have So : sorted ltn pv by case: B.
  have [E1 _ _] := mb_updateP (nr pm) k K st st2 So.
  case: (boolP (i \in pv)) => Hp; [right|left] => j Hj; rewrite (ME _ _ _ _ Hj) expr0 scale1r E1 Rs mulmx1 !mxE /=.
    by rewrite Hp size_polyC; case: (_ != 0).
  by rewrite (negbTE Hp) -val_eqE /=; case: eqP.
Qed.

(** the rows (1 0 0 0 0), (0 0 X+1 0 0), (0 1 1 0 0), (0 0 0 1 0), (0 0 0 0 1) *)
Definition cx : pmat F := Pmat 5 5 (fun i j =>
  if (i == 1%N) && (j == 2%N) then 'X + 1
  else if ((i == 0%N) && (j == 0%N)) || ((i == 2%N) && ((j == 1%N) || (j == 2%N))) || ((2 < i)%N && (i == j)) then 1 else 0).

Lemma det_sparse n (e : fmat {poly F}) : (forall k, (0 < k)%N -> e k 0%N = 0) ->
  \det (mx_of n.+1 n.+1 e) = e 0%N 0%N * \det (mx_of n n (fun a b => e a.+1 b.+1)).
Proof.
move=> H; rewrite det_first big_ord_recl big1 ?addr0 => [|k _]; last by rewrite H ?mul0r.
by rewrite expr0 mul1r; congr (_ * \det _); apply/matrixP=> a b; rewrite !mxE.
Qed.
Lemma cx_det : \det (mx_of 5 5 (ent cx)) = - ('X + 1).
Proof.
rewrite det_sparse => [|k]; last by case: k => [|[|[|k]]].
have -> : ent cx 0%N 0%N = 1 by [].
rewrite mul1r (det_4 (fun a b => erefl)).
have e30 : ent cx 4%N 1%N = 0 by []. have e31 : ent cx 4%N 2%N = 0 by []. have e32 : ent cx 4%N 3%N = 0 by []. have e33 : ent cx 4%N 4%N = 1 by [].
have e20 : ent cx 3%N 1%N = 0 by []. have e21 : ent cx 3%N 2%N = 0 by []. have e22 : ent cx 3%N 3%N = 1 by [].
have e00 : ent cx 1%N 1%N = 0 by []. have e01 : ent cx 1%N 2%N = 'X + 1 by []. have e10 : ent cx 2%N 1%N = 1 by [].
by rewrite e30 e31 e32 e33 e20 e21 e22 e00 e01 e10 !mul0r oppr0 !(add0r, subr0, mul1r, mulr1).
Qed.

Lemma cx_generic ker img mid mul fuel x : kernel_ok ker -> image_ok img -> mul_right mul -> exists2 c : F, c != 0 &
  generic_knowing_degree (pmbasis ker img mid mul) mul fuel.+1 x cx 1 = Ret (true, c *: 'X).
Proof.
move=> KO IO MR; cbn [generic_knowing_degree]; rewrite [nr cx]/=.
have -> : (5 <= 4)%N = false by [].
set L := take_cols cx 0 2; set Rr := take_cols cx 5./2 _.
have pL : plen L = 1%N by rewrite /plen /L /= ?(size_poly0, size_poly1) /= ?(size_poly0, size_poly1) /= ?(size_poly0, size_poly1).
have -> : generic_order 5 5./2 (plen L) = 1 by rewrite pL.
rewrite [_ < 0]/=.
have [a [t [E C H]]] := @order1_run ker img L (nseq 5 0) KO IO isT erefl.
have -> : pmbasis ker img mid mul L 1 (nseq 5 0) = Ret (a, t) by rewrite /pmbasis /pmbasis_rec /= /mbasis.
rewrite {E} /=; case: C => [[Q1 Q2 Q3] MB]; have [PB PD] := minimal_dinv MB; rewrite /= in Q1 Q2 Q3 PB PD H.
set A := (\matrix_(i < 5, j < 2) _) in PB; set P := (\matrix_(i < 5, j < 5) _) in PB PD.
have V (i : 'I_5) := deg_inv_pvt i PD.
have s0 (i : 'I_5) : (nseq 5 0 : seq int)`_i = 0 by rewrite nth_nseq if_same.
have ge0 (i : 'I_5) : 0 <= t`_i by have [[z <- _] _] := V i; rewrite s0; lia.
have App (i : 'I_5) j : (j < 2)%N -> 'X %| ent a i (if j == 0%N then 0%N else 2%N).
  move=> Hj; have [/(_ i (Ordinal Hj)) D _] := PB; move: D; rewrite expr1 mxE; congr (_ %| _).
  rewrite !big_ord_recl big_ord0 !mxE /=; case: j Hj => [|[|]] //= _; by rewrite ?(mulr0, mulr1, addr0, add0r).
have low (i : 'I_5) : (2 < i)%N -> t`_i = 0.
  move=> Hi.
  have [w Ew] : exists w : 'rV_5, (delta_mx 0 i : 'rV[{poly F}]_5) = w *m P.
    have [_ [G _]] := PB; apply: (G (delta_mx 0 i)) => j; rewrite -rowE.
    have -> : row i A 0 j = 0; last by rewrite dvdp0.
    rewrite !mxE; case: i Hi => i Hi' /= Hi; case: j => j /= Hj.
    by case: i Hi Hi' => [|[|[|[|[|]]]]] //; case: j Hj => [|[|]].
  have Vd : pvt (fun i : 'I_5 => (nseq 5 0 : seq int)`_i) (delta_mx 0 i : 'rV[{poly F}]_5) i 0.
    split; first by exists 0%N; [rewrite s0|rewrite mxE !eqxx coef1 oner_eq0].
    move=> j z; rewrite mxE eqxx /=; case: (eqVneq j i) => [->|]; last by rewrite coef0 eqxx.
    by rewrite coef1; case: z => [|z]; rewrite ?eqxx // s0 ltnn.
  have w0 : w != 0 by apply: contraNneq (oner_neq0 [ringType of {poly F}]) => w0; move: Ew; rewrite w0 mul0mx => /rowP/(_ i); rewrite !mxE !eqxx /= => E; apply/eqP.
  have [k [e Vw]] := pvt_exists (fun i : 'I_5 => t`_i) w0.
  have := pvt_mul PD Vw; rewrite -Ew => /(pvt_uniq Vd)[Ek Ee]; rewrite -Ek -Ee in Vw.
  by have [[z Ez _] _] := Vw; have := ge0 i; move: Ez; move: (t`_i) => u; lia.
have sz (i : 'I_5) j : (2 < i)%N -> (j < 5)%N -> (size (ent a i j) <= 1)%N.
  move=> Hi Hj; apply/leq_sizeP => z Hz; apply/eqP/negPn/negP => N; have [_ /(_ (Ordinal Hj) z)] := V i.
  by rewrite !mxE low // s0 => /(_ N); case: (_ < _)%N; lia.
have up (i : 'I_5) j : (2 < i)%N -> (j < 5)%N -> (i < j)%N -> ent a i j = 0.
  move=> Hi Hj Hij; apply/polyP=> z; rewrite coef0; apply/eqP/negPn/negP => N; have [_ /(_ (Ordinal Hj) z)] := V i.
  by rewrite !mxE low // s0 Hij => /(_ N); lia.
have dg (i : 'I_5) : ent a i i != 0 by have := pvt_nz (V i); rewrite !mxE.
have zc (q : {poly F}) : 'X %| q -> (size q <= 1)%N -> q = 0.
  move=> /dvdpP[q' ->]; case: (eqVneq q' 0) => [->|N]; first by rewrite mul0r.
  by rewrite size_mulX // => S; exfalso; move: N; rewrite -size_poly_gt0; lia.
have z02 (i : 'I_5) : (2 < i)%N -> ent a i 0%N = 0 /\ ent a i 2%N = 0.
  by move=> Hi; split; apply: zc; [exact: (App i 0%N)|exact: sz|exact: (App i 1%N)|exact: sz].
have r2 j : (j < 5)%N -> ent a 2%N j = if 2%N == j then 'X else 0.
  case: (H 2%N isT) => [|S]; first by apply.
  have := dg (Ordinal (isT : (2 < 5)%N)); rewrite [ent _ _ _]zc ?eqxx //; [exact: (App (Ordinal (isT : (2 < 5)%N)) 1%N)|exact: S].
pose o3 : 'I_5 := Ordinal (isT : (3 < 5)%N); pose o4 : 'I_5 := Ordinal (isT : (4 < 5)%N).
have [a30 a32] := z02 o3 isT; have [a40 a42] := z02 o4 isT; have a34 := up o3 4%N isT isT isT.
have /size1_polyC E3 := sz o3 3%N isT isT; have /size1_polyC E4 := sz o4 4%N isT isT; have N3 := dg o3; have N4 := dg o4.
rewrite /= in a30 a32 a40 a42 a34 E3 E4 N3 N4.
set K := Pmat _ _ _; have [|c -> [c1 c2 cE]] := MR K Rr; first by [].
have {cE} cE i j : (i < 3)%N -> (j < 3)%N -> ent c i j = \sum_(k < 5) ent a (i + 2)%N k * ent cx k (2 + j)%N by move=> Hi Hj; rewrite cE.
have Ec : expansion_by_minors x c = ent a 4%N 4%N * ('X * ent a 3%N 3%N).
  rewrite /expansion_by_minors c1; have -> : nr K = 3%N by [].
  have R0 j : (j < 3)%N -> ent c 0%N j = if j == 0%N then 'X else 0.
    move=> Hj; rewrite cE // !big_ord_recl big_ord0 !r2 // /=; case: j Hj => [|[|[|]]] //= _; by rewrite ?(mulr0, mul0r, mulr1, addr0, add0r).
  have c12 : ent c 1%N 2%N = 0 by rewrite cE // !big_ord_recl big_ord0 /= a30 a32 a34 ?(mulr0, mul0r, mulr1, addr0, add0r).
  have c11 : ent c 1%N 1%N = ent a 3%N 3%N by rewrite cE // !big_ord_recl big_ord0 /= a30 a32 a34 ?(mulr0, mul0r, mulr1, addr0, add0r).
  have c22 : ent c 2%N 2%N = ent a 4%N 4%N by rewrite cE // !big_ord_recl big_ord0 /= a40 a42 ?(mulr0, mul0r, mulr1, addr0, add0r).
  rewrite c12 c11 c22 (R0 0%N) // (R0 1%N) // (R0 2%N) //=.
  by rewrite !(mulr0, mul0r, subr0, add0r, oppr0).
set c0 := (ent a 4%N 4%N)`_0 * (ent a 3%N 3%N)`_0; have c0N : c0 != 0.
  by apply: mulf_neq0; [move: N4; rewrite E4 polyC_eq0 coefC|move: N3; rewrite E3 polyC_eq0 coefC].
have Ex : ent a 4%N 4%N * ('X * ent a 3%N 3%N) = c0 *: 'X.
  by rewrite {1}E4 {1}E3 -mul_polyC /c0 polyCM -!mulrA; congr (_ * _); rewrite mulrC.
have S2 : size (c0 *: 'X) = 2%N by rewrite size_scale // size_polyX.
exists c0 => //; rewrite Ex in Ec.
by rewrite /=; case: fuel => [|f]; cbn [generic_knowing_degree]; rewrite c1 [(_ <= 4)%N]/= Ec S2.
Qed.
End D.
