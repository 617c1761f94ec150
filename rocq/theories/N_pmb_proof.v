(** Divide and conquer approximant bases. *)
From Coq Require Import ZArith.
From mathcomp Require Import all_ssreflect all_algebra zify.
From Verif Require Import A_base SpecA SpecForms SpecApp SpecKer A_mul_model A_mbasis_model A_mbasis_abs A_mbasis_proof A_pmbasis_proof N_pmat_model
  N_util_model N_util_proof N_trs_proof N_forms_model N_appbas_model P_ntrs P_nutil P_nforms P_nappbas N_popov_proof N_mb_model N_mb_proof N_mb2_proof P_nmb
  A_kernel_abs N_pmb_model.
Set Implicit Arguments.
Unset Strict Implicit.
Unset Printing Implicit Defensive.
Import Order.TTheory GRing.Theory Num.Theory.
Local Open Scope ring_scope.

Section Abs.
Variable F : fieldType.
Variables (m n : nat).
Implicit Types (A B : 'M[{poly F}]_(m, n)) (P : 'M[{poly F}]_m).

(** approximant bases at order d depend on the coefficients of degree less than d *)
Lemma approximant_ext d A B (v : 'rV[{poly F}]_m) : (forall i j k, (k < d)%N -> (A i j)`_k = (B i j)`_k) -> approximant d A v -> approximant d B v.
Proof.
move=> E /approximantP H; apply/approximantP=> k j Hk; rewrite -[RHS](H k j Hk) !mxE !coef_sum.
apply: eq_bigr => l _; rewrite !coefM; apply: eq_bigr => e _; rewrite E //.
by apply: leq_ltn_trans Hk; exact: leq_subr.
Qed.

Lemma minv_ext d A B s P sh : (forall i j k, (k < d)%N -> (A i j)`_k = (B i j)`_k) -> minv A s d P sh -> minv B s d P sh.
Proof.
move=> E [Sh [H1 [H2 H3]] D S]; split=> //; split=> [i|]; first exact: approximant_ext (H1 i).
by split=> // v Hv; apply: H2; apply: approximant_ext Hv => i j k Hk; rewrite E.
Qed.

Lemma size_mulmx d1 d2 (P Q : 'M[{poly F}]_m) : (forall i j, (size (P i j) <= d1.+1)%N) -> (forall i j, (size (Q i j) <= d2.+1)%N) ->
  forall i j, (size ((Q *m P) i j) <= (d1 + d2).+1)%N.
Proof.
move=> S1 S2 i j; rewrite mxE; apply: (big_ind (fun q : {poly F} => (size q <= (d1 + d2).+1)%N)) => [|x y Hx Hy|l _]; first by rewrite size_poly0.
  by apply: leq_trans (size_add _ _) _; rewrite geq_max Hx Hy.
by apply: leq_trans (size_mul_leq _ _) _; have := S1 l j; have := S2 i l; move: (size _) (size _) => u v; lia.
Qed.

Lemma minv_comp d1 d2 A (R : 'M[{poly F}]_(m, n)) s (P1 P2 : 'M[{poly F}]_m) sh1 sh2 : minv A s d1 P1 sh1 ->
  (forall i j k, (k < d2)%N -> (R i j)`_k = ((P1 *m A) i j)`_(d1 + k)) ->
  minv R (fun i => nth 0 sh1 i) d2 P2 sh2 -> minv A s (d1 + d2) (P2 *m P1) sh2.
Proof.
move=> [_ B1 D1 S1] E [Sh B2 D2 S2]; split=> //; [exact: approx_basis_comp B1 E B2|exact: deg_inv_comp D1 D2|exact: size_mulmx].
Qed.

Lemma minv_nonzero A s d P sh : (0 < m)%N -> minv A s d P sh -> exists i j, P i j != 0.
Proof.
move=> m0 [_ _ [_ /(_ (Ordinal m0))[k _ Nz]] _]; exists (Ordinal m0), (Ordinal m0).
by apply: contraNneq Nz => ->; rewrite coef0.
Qed.
End Abs.

Section PMB.
Variable F : fieldType.
Local Notation pmat := (pmat F).
Implicit Types (pm a b c : pmat) (shift t : seq int).

(** what pmbasis needs of the products, for m x m bases, m x n matrices and orders at most D *)
Definition mid_contract (m n D : nat) (mid : pmat -> pmat -> nat -> nat -> fout pmat) : Prop := forall a c dA dB,
  nr a = m -> nc a = m -> nr c = m -> nc c = n -> ~ P_ntrs.zero_mat a -> entries_below dA.+1 a -> entries_below (dA + dB).+1 c -> (dA + dB < D)%N ->
  exists2 b, mid a c dA dB = Ret b & [/\ nr b = m, nc b = n &
    forall i j k, (i < m)%N -> (j < n)%N -> (k <= dB)%N -> (ent b i j)`_k = (pprod a c i j)`_(dA + k)].
Definition mul_contract (m D : nat) (mul : pmat -> pmat -> fout pmat) : Prop := forall a b,
  nr a = m -> nc a = m -> nr b = m -> nc b = m -> (plen a + plen b <= D.+2)%N ->
  exists2 c, mul a b = Ret c & is_pmat c m m (pprod a b).

Variables (ker img : nat -> nat -> fmat F -> nat * fmat F) (mid : pmat -> pmat -> nat -> nat -> fout pmat) (mul : pmat -> pmat -> fout pmat).
Hypothesis KO : kernel_ok ker.
Hypothesis IO : image_ok img.

Definition mb_run pm order shift (r : fout (pmat * seq int)) : Prop := exists a t,
  [/\ r = Ret (a, t), nr a = nr pm, nc a = nr pm &
      minv (\matrix_(i < nr pm, j < nc pm) ent pm i j) (fun i : 'I_(nr pm) => nth 0 shift i) order (\matrix_(i < nr pm, j < nr pm) ent a i j) t].

Lemma mbasisP pm order shift : size shift = nr pm -> (0 < order)%N -> (0 < nr pm)%N -> mb_run pm order shift (mbasis ker img pm order shift).
Proof. by move=> Ss Ho Hm; rewrite /mbasis; case: ifP => _; [exact: mbasis_resupdateP|exact: mbasis_rescompP]. Qed.

Lemma truncE x pm d : coefs_are (pm_truncate false x pm d) (nr pm) (nc pm) (fun i j k => if (k < d)%N then (ent pm i j)`_k else 0).
Proof. by have [[]] := C65_entrywise false x pm d Z0 (fun _ => Z0) 0 0. Qed.

Lemma pmbasis_recP D fuel pm order shift : mid_contract (nr pm) (nc pm) D mid -> mul_contract (nr pm) D mul -> size shift = nr pm ->
  (0 < nr pm)%N -> (0 < order <= D)%N -> (order <= fuel)%N -> mb_run pm order shift (pmbasis_rec ker img mid mul fuel pm order shift).
Proof.
move=> MO UO; elim: fuel pm order shift MO UO => [|f IH] pm order shift MO UO Ss m0 Ho Hf; first by lia.
rewrite [pmbasis_rec _ _ _ _ _ _ _ _]/=; case: leqP => H32; first by apply: mbasisP => //; lia.
set o1 := order./2; set o2 := (order - o1)%N.
have O1 : (0 < o1 < order)%N by rewrite /o1; lia.
have O2 : (0 < o2 < order)%N by rewrite /o2; lia.
have O12 : (o1 + o2 = order)%N by rewrite /o2; lia.
have [T1 T2 TC] := truncE (new_pmat F) pm o1.
set tp := pm_truncate false (new_pmat F) pm o1 in T1 T2 TC *.
have [||||||a [t [-> A1 A2 I1]]] := IH tp o1 shift; rewrite ?T1 ?T2 //; try lia.
rewrite /fbind.
have [U1 U2 UC] := truncE tp pm order.
set tq := pm_truncate false tp pm order in U1 U2 UC *.
have {I1} I1 : minv (\matrix_(i < nr pm, j < nc pm) ent pm i j) (fun i : 'I_(nr pm) => nth 0 shift i) o1 (\matrix_(i < nr pm, j < nr pm) ent a i j) t.
  move: I1; rewrite T1 T2; apply: minv_ext => i j k Hk; rewrite !mxE TC // Hk //.
rewrite T1 in A1 A2.
have [S1 _ _ Sz1] := I1.
have [] := MO a tq o1 (o2 - 1)%N A1 A2 U1 U2.
- have [i [j]] := minv_nonzero m0 I1; rewrite mxE => Nz Z; case/negP: Nz; apply/eqP; apply: Z; by rewrite ?A1 ?A2.
- move=> i j; rewrite A1 A2 => Hi Hj; by have := Sz1 (Ordinal Hi) (Ordinal Hj); rewrite mxE.
- move=> i j; rewrite U1 U2 => Hi Hj; apply/leq_sizeP=> k Hk; rewrite UC // ifF //; lia.
- lia.
move=> b -> [B1 B2 HB].
have [||||||a2 [t2 [-> C1 C2 I2]]] := IH b o2 t; rewrite ?B1 ?B2 //; try lia.
rewrite B1 in C1 C2.
have {I2} I2 : minv (\matrix_(i < nr pm, j < nc pm) ent b i j) (fun i : 'I_(nr pm) => nth 0 t i) o2 (\matrix_(i < nr pm, j < nr pm) ent a2 i j) t2.
  by move: I2; rewrite B1 B2.
have [_ _ _ Sz2] := I2.
have P1 : (plen a <= o1.+1)%N by apply/plenP=> i j; rewrite A1 A2 => Hi Hj; have := Sz1 (Ordinal Hi) (Ordinal Hj); rewrite mxE.
have P2 : (plen a2 <= o2.+1)%N by apply/plenP=> i j; rewrite C1 C2 => Hi Hj; have := Sz2 (Ordinal Hi) (Ordinal Hj); rewrite mxE.
have [|c -> [D1 D2 HC]] := UO a2 a C1 C2 A1 A2; first by move: (plen _) (plen _) P1 P2 => u v; lia.
exists c, t2; split=> //.
have I3 : minv (\matrix_(i < nr pm, j < nc pm) ent pm i j) (fun i : 'I_(nr pm) => nth 0 shift i) (o1 + o2)
   (\matrix_(i < nr pm, j < nr pm) ent a2 i j *m \matrix_(i < nr pm, j < nr pm) ent a i j) t2.
  apply: minv_comp I1 _ I2 => i j k Hk; rewrite mxE HB //; last by lia.
  rewrite /pprod A2 mxE !coef_sum; apply: eq_bigr => l _; rewrite !mxE !coefM; apply: eq_bigr => e _.
  by rewrite UC // ifT //; lia.
move: I3; rewrite O12; congr minv; apply/matrixP=> i j; rewrite [RHS]mxE HC // /pprod C2 mxE; apply: eq_bigr => l _; by rewrite !mxE.
Qed.

(** the Popov variants *)
Lemma popov_twiceP (mb : pmat -> nat -> seq int -> fout (pmat * seq int)) pm order shift :
  (forall shift, size shift = nr pm -> mb_run pm order shift (mb pm order shift)) -> size shift = nr pm -> (0 < nr pm)%N ->
  exists a t, [/\ popov_twice mb pm order shift = Ret (a, t), square_out pm a t &
    popov_approx_basis (fun _ => order) (\matrix_(i < nr pm, j < nc pm) ent pm i j) (nth 0 shift) (nth 0 t)
      (\matrix_(i < nr pm, j < nr pm) ent a i j)].
Proof.
move=> MB Ss m0; set m := nr pm in m0 *.
have [a [t [E N1 N2 [N3 B D _]]]] := MB shift Ss.
rewrite /popov_twice E /fbind; set s2 := mkseq _ _.
have Ss2 : size s2 = m by rewrite size_mkseq.
have [a2 [t2 [E2 M1 M2 [M3 B2 D2 _]]]] := MB s2 Ss2.
rewrite E2 -/m in M1 M2 B B2 D D2 *.
have D2' : deg_inv (fun i : 'I_m => nth 0 shift i - nth 0 t i) (fun i : 'I_m => nth 0 t2 i) (mx_of m m (ent a2)).
  by apply: (@deg_inv_ext _ _ (fun i : 'I_m => nth 0 s2 i) _ (fun i : 'I_m => nth 0 t2 i)) D2 => // i; rewrite /= nth_mkseq.
have ok : shift_ok (nc a2) (Some s2) by rewrite /= M2 Ss2.
have [L EL] := C78_row_leading_matrix ok; rewrite /row_leading in EL; rewrite EL => HL.
rewrite M1 M2 eqxx; set LM := mx_of m m L.
have EM : LM = lead2 (nth 0 shift) (nth 0 t) (mx_of m m (ent a2)).
  apply: (lead2E B B2 D D2') => i.
  have {HL} HL : leading_matrix_of (nth 0 s2) (mx_of m m (ent a2)) LM.
    move: HL; rewrite /sh /mat /LM /mx_of; move: (nr a2) (nc a2) M1 M2 => u v -> ->; exact.
  have [H1 H2] := HL i; split=> // d Hd j; have := H2 d.
  have Hd' : is_rdeg (fun j : 'I_m => nth 0 s2 j) (row i (mx_of m m (ent a2))) d.
    case: Hd => Hd [k Nk Ek]; split; last by exists k => //; rewrite nth_mkseq.
    by move=> k' Nk'; rewrite nth_mkseq //; exact: Hd.
  by move=> /(_ Hd' j) ->; rewrite nth_mkseq.
have UL : LM \in unitmx by rewrite EM; exact: (lead2_unit B B2 D D2').
rewrite UL /=; set linv := Cmat _ _ _.
have ci : cc linv = nr a2 by rewrite M1.
have [c [-> [C1 C2 Hc]]] := pm_cmulE true a2 ci.
exists c, t; split=> //; first by split; rewrite // ?C1 ?C2.
have EP : \matrix_(i < m, j < m) ent c i j = popov2 (nth 0 shift) (nth 0 t) (mx_of m m (ent a2)).
  apply/matrixP=> i j; rewrite mxE Hc //=; last by rewrite M2.
  rewrite /fmul /popov2 mxE -EM; apply: eq_bigr => k _; rewrite !mxE !valK //.
rewrite EP; have Ql w : approximants (fun _ => order) (mx_of m (nc pm) (ent pm)) (w *m mx_of m m (ent a2)).
  by apply: approximants_lin; case: B2.
split; [exact: (popov2_basis B B2 D D2' Ql)|exact: (popov2_form B B2 D D2' Ql)|].
by move=> i; apply: pvt_rdeg; exact: (popov2_pvt B B2 D D2' Ql).
Qed.

(** *** pmbasis_2x1 *)
Lemma st21_size (f0 f1 : {poly F}) (order : nat) (s0 s1 : int) (st := appbas_iterative_2x1 f0 f1 order s0 s1) :
  [/\ size (q00 st) <= order.+1, size (q01 st) <= order.+1, size (q10 st) <= order.+1 & size (q11 st) <= order.+1]%N.
Proof.
rewrite /st /appbas_iterative_2x1 {st}; elim: order => [|d IH]; first by rewrite /= !size_poly1 !size_poly0.
rewrite N_shift_proof.foldl_iotaR add0n; move: IH; case: (foldl _ _ _) => p00 p01 p10 p11 r0 r1 z0 z1 [/= S1 S2 S3 S4].
have HX (q : {poly F}) : (size q <= d.+1)%N -> (size (lshift q 1) <= d.+2)%N.
  by move=> S; rewrite /lshift; apply: leq_trans (size_mul_leq _ _) _; rewrite size_polyXn; move: (size _) S => u; lia.
have HC (x : F) (q q' : {poly F}) : (size q <= d.+1)%N -> (size q' <= d.+1)%N -> (size (q + x%:P * q')%R <= d.+2)%N.
  move=> S S'; apply: leqW; apply: leq_trans (size_add _ _) _; rewrite geq_max S mul_polyC; exact: leq_trans (size_scale_leq _ _) S'.
rewrite /step21; case: ifP => _; first by case: ifP => _; split; first [exact: HX|exact: HC].
by case: ifP => _; [|case: ifP => _]; split; first [exact: HX|exact: leqW].
Qed.

Definition run21 (f0 f1 : {poly F}) (order : nat) (s0 s1 : int) (r : fout (pmat * (int * int))) : Prop := exists a (t0 t1 : int),
  [/\ r = Ret (a, (t0, t1)), nr a = 2%N, nc a = 2%N &
      minv (col2 f0 f1) (fun i : 'I_2 => two s0 s1 i) order (\matrix_(i < 2, j < 2) ent a i j) [:: t0; t1]].

Lemma two_nth (x y : int) (i : 'I_2) : nth 0 [:: x; y] i = two x y i.
Proof. by case: (ord2 i) => ->. Qed.

Lemma base21 f0 f1 order s0 s1 (st := appbas_iterative_2x1 f0 f1 order s0 s1) :
  run21 f0 f1 order s0 s1 (Ret (pmat22 (q00 st) (q01 st) (q10 st) (q11 st), (z0 st, z1 st))).
Proof.
have [B D0 _] := st21P f0 f1 order s0 s1; have [S1 S2 S3 S4] := st21_size f0 f1 order s0 s1.
move: B D0 S1 S2 S3 S4; rewrite /st; move: (appbas_iterative_2x1 _ _ _ _ _) => {}st B D0 S1 S2 S3 S4.
exists (pmat22 (q00 st) (q01 st) (q10 st) (q11 st)), (z0 st), (z1 st); split=> //.
have EM : \matrix_(i < 2, j < 2) ent (pmat22 (q00 st) (q01 st) (q10 st) (q11 st)) i j = mat22 (q00 st) (q01 st) (q10 st) (q11 st).
  by apply/matrixP=> i j; case: (ord2 i) => ->; case: (ord2 j) => ->; rewrite !mxE.
rewrite EM; split=> //; first by apply: deg_inv_ext D0 => // i; rewrite two_nth.
by move=> i j; case: (ord2 i) => ->; case: (ord2 j) => ->; rewrite !mxE.
Qed.

Lemma shift_coef (p q q' : {poly F}) (d o k : nat) : (size p <= d.+1)%N -> (d <= o)%N -> (forall e, q'`_e = q`_(e + (o - d))) ->
  (p * q')`_(d + k) = (p * q)`_(o + k).
Proof.
move=> Sp Hd E; rewrite !coefM.
rewrite [RHS](bigID (fun e : 'I_(o + k).+1 => (e < (d + k).+1)%N)) /= [X in _ = _ + X]big1 ?addr0 => [|e He].
  rewrite (big_ord_widen (o + k).+1 (fun e => p`_e * q'`_(d + k - e))); last by rewrite ltnS leq_add2r.
  apply: eq_bigr => e He; rewrite E; congr (_ * q`_ _); move: He; lia.
by rewrite [p`_e]nth_default ?mul0r //; apply: leq_trans Sp _; move: He; lia.
Qed.

Lemma pmbasis_2x1P D fuel f0 f1 order s0 s1 threshold : mid_contract 2 1 D mid -> mul_contract 2 D mul -> (0 < threshold)%N ->
  (order <= D)%N -> (order <= fuel)%N -> run21 f0 f1 order s0 s1 (pmbasis_2x1 mid mul fuel f0 f1 order s0 s1 threshold).
Proof.
move=> MO UO th; elim: fuel f0 f1 order s0 s1 => [|f IH] f0 f1 order s0 s1 Ho Hf.
  rewrite /pmbasis_2x1; have -> : (order <= threshold)%N by lia.
  exact: base21.
rewrite [pmbasis_2x1 _ _ _ _ _ _ _ _ _]/=; case: leqP => Hth; first exact: base21.
set o1 := order./2; set o2 := (order - o1)%N.
have O1 : (0 < o1 < order)%N by rewrite /o1; lia.
have O2 : (0 < o2 < order)%N by rewrite /o2; lia.
have O12 : (o1 + o2 = order)%N by rewrite /o2; lia.
have [||a [t0 [t1 [-> A1 A2 I1]]]] := IH (ptrunc o1 f0) (ptrunc o1 f1) o1 s0 s1; try lia.
rewrite {1 2}/fbind.
have {I1} I1 : minv (col2 f0 f1) (fun i : 'I_2 => two s0 s1 i) o1 (\matrix_(i < 2, j < 2) ent a i j) [:: t0; t1].
  apply: minv_ext I1 => i j k Hk; rewrite !mxE; by case: ifP => _; rewrite ptrunc_coef Hk.
have [S1 _ _ Sz1] := I1.
have Nz : ~ P_ntrs.zero_mat a.
  have [//|i [j]] := minv_nonzero _ I1; rewrite mxE => Nz Z; case/negP: Nz; apply/eqP; apply: Z; by rewrite ?A1 ?A2.
have P1 : (plen a <= o1.+1)%N by apply/plenP=> i j; rewrite A1 A2 => Hi Hj; have := Sz1 (Ordinal Hi) (Ordinal Hj); rewrite mxE.
case Ed: (plen a) P1 => [|d] P1; first by case: Nz; apply/zero_plen.
set tq := pmat21 _ _.
have Ez : Z.sub (Z.of_nat o1) (Z.pred (Z.of_nat d.+1)) = Z.of_nat (o1 - d) by lia.
have [[_ _ [U1 U2 UC] _ _] _] := C65_entrywise true tq tq 0 (Z.of_nat (o1 - d)) (fun _ => Z0) 0 0.
rewrite Ez; move: (pm_rshift _ _ _ _) U1 U2 UC => tr U1 U2 UC.
have {UC} UC i k : (i < 2)%N -> (ent tr i 0%N)`_k = (ent tq i 0%N)`_(k + (o1 - d)).
  move=> Hi; rewrite UC // /zcoef -Nat2Z.inj_add Nat2Z.id.
  by case: (Z.leb_spec0 0 (Z.of_nat (k + (o1 - d)))) => // N; lia.
have TQ i k : (i < 2)%N -> (ent tq i 0%N)`_k = if (k < order)%N then (if i == 0%N then f0 else f1)`_k else 0.
  by move=> Hi /=; case: ifP => _; rewrite ptrunc_coef.
have [] := MO a tr d (o2 - 1)%N A1 A2 U1 U2 Nz.
- by move=> i j; rewrite A1 A2 => Hi Hj; rewrite -Ed; apply: plen_size; rewrite ?A1 ?A2.
- move=> i j; rewrite U1 U2 => Hi; rewrite ltnS leqn0 => /eqP ->; apply/leq_sizeP=> k Hk; rewrite UC // TQ // ifF //; lia.
- lia.
move=> b -> [B1 B2 HB].
have [||a2 [u0 [u1 [-> C1 C2 I2]]]] := IH (ent b 0%N 0%N) (ent b 1%N 0%N) o2 t0 t1; try lia.
rewrite /fbind.
have {I2} I2 : minv (col2 (ent b 0%N 0%N) (ent b 1%N 0%N)) (fun i : 'I_2 => nth 0 [:: t0; t1] i) o2 (\matrix_(i < 2, j < 2) ent a2 i j) [:: u0; u1].
  by case: I2 => ? ? D2 ?; split=> //; apply: deg_inv_ext D2 => // i; rewrite two_nth.
have [_ _ _ Sz2] := I2.
have P2 : (plen a2 <= o2.+1)%N by apply/plenP=> i j; rewrite C1 C2 => Hi Hj; have := Sz2 (Ordinal Hi) (Ordinal Hj); rewrite mxE.
have [|c -> [D1 D2 HC]] := UO a2 a C1 C2 A1 A2; first by rewrite Ed; move: (plen _) P2 => u; lia.
exists c, u0, u1; split=> //.
have I3 : minv (col2 f0 f1) (fun i : 'I_2 => two s0 s1 i) (o1 + o2) (\matrix_(i < 2, j < 2) ent a2 i j *m \matrix_(i < 2, j < 2) ent a i j) [:: u0; u1].
  apply: minv_comp I1 _ I2 => i j k Hk.
  have -> : col2 (ent b 0%N 0%N) (ent b 1%N 0%N) i j = ent b i 0%N by rewrite mxE; case: (ord2 i) => ->.
  rewrite HB //; last by lia.
  rewrite /pprod A2 mxE !coef_sum; apply: eq_bigr => l _; rewrite ![_ _ l]mxE [col2 _ _ l j]mxE.
  rewrite (@shift_coef _ (ent tq l 0%N) _ d o1 k); first 1 last.
  - by rewrite -Ed; apply: plen_size; rewrite ?A1 ?A2.
  - by rewrite -ltnS.
  - by move=> e; rewrite UC.
  rewrite !coefM; apply: eq_bigr => e _; congr (_ * _); rewrite TQ // ifT //; lia.
move: I3; rewrite O12; congr minv; apply/matrixP=> i j; rewrite [RHS]mxE HC // /pprod C2 mxE; apply: eq_bigr => l _; by rewrite !mxE.
Qed.

(** with the threshold 0 the recursion does not end: order 1 is split into 0 and 1 *)
Lemma pmbasis_2x1_loop fuel f0 f1 order s0 s1 r : (0 < order)%N -> pmbasis_2x1 mid mul fuel f0 f1 order s0 s1 0 <> Ret r.
Proof.
elim: fuel f0 f1 order s0 s1 r => [|f IH] f0 f1 order s0 s1 r Ho; rewrite [pmbasis_2x1 _ _ _ _ _ _ _ _ _]/= leqNgt Ho //=.
case: (pmbasis_2x1 _ _ _ _ _ _ _ _ _) => [[a [t0 t1]]|//|//] /=; case: (plen a) => [|d] //.
case: (mid _ _ _ _) => [res|//|//] /=; case E: (pmbasis_2x1 _ _ _ _ _ _ _ _ _) => [x|//|//].
by have := IH (ent res 0%N 0%N) (ent res 1%N 0%N) (order - order./2)%N t0 t1 x; rewrite E; move=> /(_ _)[] //; lia.
Qed.
End PMB.
