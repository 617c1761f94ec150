(** Predictable degrees, and ranks over the field of fractions. *)
From mathcomp Require Import all_ssreflect all_algebra fraction generic_quotient zify.
From Verif Require Import A_base SpecA SpecForms A_detdeg_proof A_reduced_proof.
Set Implicit Arguments.
Unset Strict Implicit.
Unset Printing Implicit Defensive.
Import Order.TTheory GRing.Theory Num.Theory.
Local Open Scope ring_scope.

Section PD.
Variable F : fieldType.

Definition pcoef (p : {poly F}) (z : int) : F := if 0 <= z then p`_(absz z) else 0.

Lemma pdeg_coef (p : {poly F}) a (k : nat) : pdeg p <= a -> a < k%:Z -> p`_k = 0.
Proof. by rewrite /pdeg => H Hk; rewrite nth_default //; move: (size p) H => z; lia. Qed.

Lemma pdeg_le (p : {poly F}) a : p != 0 -> (forall k : nat, a < k%:Z -> p`_k = 0) -> pdeg p <= a.
Proof.
rewrite -size_poly_gt0 /pdeg => N H; rewrite leNgt; apply/negP => C.
have := H (size p).-1; rewrite -/(lead_coef p).
have -> : a < (size p).-1%:Z by move: (size p) C N => z; lia.
move=> /(_ isT)/eqP; rewrite lead_coef_eq0 -size_poly_eq0; move: (size p) N => z; lia.
Qed.

Lemma pcoef0 z : pcoef 0 z = 0. Proof. by rewrite /pcoef coef0 if_same. Qed.

Lemma pcoefM (p q : {poly F}) a b : pdeg p <= a -> pdeg q <= b ->
  pcoef (p * q) (a + b) = pcoef p a * pcoef q b.
Proof.
case: (eqVneq p 0) => [->|Np] Hp; first by rewrite mul0r !pcoef0 mul0r.
case: (eqVneq q 0) => [->|Nq] Hq; first by rewrite mulr0 !pcoef0 mulr0.
have a0 : 0 <= a by move: Np Hp; rewrite -size_poly_gt0 /pdeg; move: (size p) => z; lia.
have b0 : 0 <= b by move: Nq Hq; rewrite -size_poly_gt0 /pdeg; move: (size q) => z; lia.
rewrite /pcoef a0 b0 ifT; last by lia.
have -> : absz (a + b)%R = (absz a + absz b)%N by lia.
rewrite coefM_top //.
  by move: Hp; rewrite /pdeg; move: (size p) => z; lia.
by move: Hq; rewrite /pdeg; move: (size q) => z; lia.
Qed.

Lemma pcoef_sum (I : finType) (f : I -> {poly F}) z : pcoef (\sum_i f i) z = \sum_i pcoef (f i) z.
Proof. by rewrite /pcoef; case: ifP => _; rewrite ?coef_sum // big1. Qed.

(** predictable degree property *)
Lemma predictable_degree (s : nat -> int) k n (P : 'M[{poly F}]_(k, n)) (t : 'I_k -> int) (w : 'rV_k) e :
  reduced_form s P -> (forall i, is_rdeg (fun j : 'I_n => s j) (row i P) (t i)) ->
  is_rdeg t w e -> is_rdeg (fun j : 'I_n => s j) (w *m P) e.
Proof.
case=> L HL RF Ht [He [i0 Ni0 Ei0]].
have Pd i j : pdeg (P i j) <= t i - s j \/ P i j = 0.
  case: (eqVneq (P i j) 0) => [|N]; [by right|left].
  by have [/(_ j)] := Ht i; rewrite !mxE /sdeg /pdeg => /(_ N) H _; lia.
have Wd i : pdeg (w 0 i) <= e - t i \/ w 0 i = 0.
  case: (eqVneq (w 0 i) 0) => [|N]; [by right|left].
  by have := He i N; rewrite /sdeg /pdeg; lia.
have LE i j : L i j = pcoef (P i j) (t i - s j).
  by have [_ /(_ _ (Ht i) j) ->] := HL i; rewrite /pcoef subr_ge0.
pose c : 'rV[F]_k := \row_i pcoef (w 0 i) (e - t i).
have Nc : c != 0.
  apply: contraNneq Ni0 => /rowP/(_ i0); rewrite !mxE -Ei0 /sdeg addrK /pcoef.
  rewrite -size_poly_eq0; case: ifP => C.
    move/eqP; have -> : absz ((size (w 0 i0))%:Z - 1)%R = (size (w 0 i0)).-1.
      by move: (size _) C => z; lia.
    by rewrite -/(lead_coef _) lead_coef_eq0 -size_poly_eq0.
  by move=> _; move: (size _) C => z; lia.
have cL j : (c *m L) 0 j = pcoef ((w *m P) 0 j) (e - s j).
  rewrite mxE [in RHS]mxE pcoef_sum; apply: eq_bigr => i _; rewrite mxE LE.
  case: (Wd i) => [H1|->]; last by rewrite mul0r !pcoef0 mul0r.
  case: (Pd i j) => [H2|->]; last by rewrite mulr0 !pcoef0 mulr0.
  by rewrite -pcoefM //; congr (pcoef _ _); lia.
have U j (N : (w *m P) 0 j != 0) : pdeg ((w *m P) 0 j) <= e - s j.
  apply: pdeg_le => // z Hz; rewrite mxE coef_sum big1 // => i _.
  case: (Wd i) => [H1|->]; last by rewrite mul0r coef0.
  case: (Pd i j) => [H2|->]; last by rewrite mulr0 coef0.
  rewrite coefM big1 // => a _.
  case: (ltrP (e - t i) (a : nat)%:Z) => Ha.
    by rewrite (pdeg_coef H1 Ha) mul0r.
  rewrite (pdeg_coef H2) ?mulr0 //; have := ltn_ord a; lia.
split.
  by move=> j N; have := U j N; rewrite /sdeg /pdeg; move: (size _) => z; lia.
have [j Nj] : exists j, (c *m L) 0 j != 0.
  apply/existsP; apply: contraNT Nc; rewrite negb_exists => /forallP H.
  have E : c *m L = 0.
    by apply/rowP=> j; rewrite [RHS]mxE; apply/eqP; have := H j; rewrite negbK.
  by apply/eqP/(row_free_inj RF); rewrite E mul0mx.
rewrite cL in Nj.
have Nz : (w *m P) 0 j != 0 by apply: contraNneq Nj => ->; rewrite pcoef0.
exists j => //; have := U j Nz; rewrite /sdeg /pdeg => H.
move: Nj; rewrite /pcoef; case: ifP => [C|]; last by rewrite eqxx.
move=> Nj; have : (absz (e - s j)%R < size ((w *m P) 0 j)%R)%N.
  by rewrite ltnNge; apply: contra Nj => Hs; rewrite nth_default.
by move: (size _) H => z; lia.
Qed.

Lemma vec_rdeg k (t : 'I_k -> int) (w : 'rV[{poly F}]_k) : w != 0 -> exists e, is_rdeg t w e.
Proof.
move=> Nw; have [i0 Ni0] : exists i, w 0 i != 0.
  apply/existsP; apply: contraNT Nw; rewrite negb_exists => /forallP H.
  by apply/eqP/rowP=> j; rewrite [RHS]mxE; apply/eqP; have := H j; rewrite negbK.
pose N : nat := (\sum_i absz (t i))%N.
pose key i := absz (sdeg (t i) (w 0 i) + N%:Z + 1)%R.
have HN i : (absz (t i) <= N)%N by rewrite /N (bigD1 i) //= leq_addr.
case: (@arg_maxnP _ i0 (fun i => w 0 i != 0) key Ni0) => i Ni Hmax.
exists (sdeg (t i) (w 0 i)); split; last by exists i.
move=> j Nj; have := Hmax j Nj; have := HN i; have := HN j; rewrite /key /sdeg.
by move: (size _) (size _) => a b; lia.
Qed.

Lemma reduced_nz (s : nat -> int) k n (P : 'M[{poly F}]_(k, n)) i : reduced_form s P -> row i P != 0.
Proof.
case=> L HL RF; apply/negP=> /eqP E; have [/(_ E) E' _] := HL i.
have : delta_mx 0 i = 0 :> 'rV[F]_k by apply: (row_free_inj RF); rewrite mul0mx -rowE.
move/rowP/(_ i); rewrite !mxE !eqxx /= => /eqP; by rewrite oner_eq0.
Qed.

Lemma reduced_rdeg (s : nat -> int) k n (P : 'M[{poly F}]_(k, n)) : reduced_form s P ->
  exists t : 'I_k -> int, forall i, is_rdeg (fun j : 'I_n => s j) (row i P) (t i).
Proof.
move=> R; have H i := vec_rdeg (fun j : 'I_n => s j) (reduced_nz i R).
have [t Ht] := fin_all_exists H.
by exists t.
Qed.

Lemma reduced_indep (s : nat -> int) k n (P : 'M[{poly F}]_(k, n)) (w : 'rV_k) :
  reduced_form s P -> w *m P = 0 -> w = 0.
Proof.
move=> R E; apply/eqP; apply: contraT => Nw.
have [t Ht] := reduced_rdeg R; have [e He] := vec_rdeg t Nw.
have [_ [j]] := predictable_degree R Ht He; by rewrite E mxE eqxx.
Qed.
End PD.

Section Frac.
Variable F : fieldType.
Local Notation R := [idomainType of {poly F}].
Local Notation K := [fieldType of {fraction R}].
Local Notation tf := (@FracField.tofrac R).
Local Notation mf := (map_mx tf).

Lemma frac_exists (x : {fraction R}) : exists a b : R, b != 0 /\ tf b * x = tf a.
Proof.
elim/quotW: x => -[[a b] /= Nb]; exists a, b; split=> //.
rewrite /FracField.tofrac; unlock.
rewrite -[LHS]FracField.pi_mul; apply/eqmodP; rewrite /= FracField.equivfE.
rewrite /FracField.mulf /= !numden_Ratio ?mul1r ?oner_eq0 //.
by rewrite mulr1 mulrC.
Qed.

Lemma mf_inj m n : injective (mf : 'M[R]_(m, n) -> 'M[K]_(m, n)).
Proof.
move=> A B E; apply/matrixP=> i j; have /matrixP/(_ i j) := E; rewrite !mxE => /eqP.
by rewrite tofrac_eq => /eqP.
Qed.

Lemma clear_den k (w : 'rV[K]_k) : exists2 d : R, d != 0 & exists w' : 'rV[R]_k, tf d *: w = mf w'.
Proof.
have H i := frac_exists (w 0 i).
have [a Ha] := fin_all_exists H; have [b Hb] := fin_all_exists Ha.
exists (\prod_i b i).
  by apply/prodf_neq0=> i _; have [] := Hb i.
exists (\row_i (a i * \prod_(l | l != i) b l)); apply/rowP=> i; rewrite !mxE.
have [_ E] := Hb i.
by rewrite (bigD1 i) //= !rmorphM /= -E mulrAC.
Qed.

Lemma indep_row_free k n (P : 'M[R]_(k, n)) :
  (forall w : 'rV_k, w *m P = 0 -> w = 0) <-> row_free (mf P).
Proof.
split=> [H|H w E].
  rewrite -kermx_eq0; apply/eqP/row_matrixP=> i; rewrite row0.
  set w := row i _.
  have E : w *m mf P = 0 by apply/sub_kermxP; exact: row_sub.
  have [d Nd [w' Ew]] := clear_den w.
  have : w' = 0.
    by apply: H; apply: mf_inj; rewrite map_mxM -Ew -scalemxAl E scaler0 map_mx0.
  move=> Z; move: Ew; rewrite Z map_mx0 => /eqP; rewrite scalemx_eq0 tofrac_eq0 (negbTE Nd) /=.
  by move/eqP.
apply: mf_inj; apply: (row_free_inj H); by rewrite -map_mxM E !map_mx0 mul0mx.
Qed.

(** independent vectors of the kernel, as many as the nullity, generate the kernel
    over the fractions *)
Lemma kernel_span k m n (A : 'M[R]_(m, n)) (P : 'M[R]_(k, m)) :
  (forall w : 'rV_k, w *m P = 0 -> w = 0) -> P *m A = 0 -> k = (m - \rank (mf A))%N ->
  forall v : 'rV_m, v *m A = 0 -> exists2 d : R, d != 0 & exists w, d *: v = w *m P.
Proof.
move=> /indep_row_free RF PA Hk v vA.
have S : (mf P <= kermx (mf A))%MS by apply/sub_kermxP; rewrite -map_mxM PA map_mx0.
have E : (kermx (mf A) <= mf P)%MS.
  by rewrite -(mxrank_leqif_sup S) mxrank_ker (eqP RF) -Hk.
have /submxP [w Ew] : (mf v <= mf P)%MS.
  by apply: submx_trans E; apply/sub_kermxP; rewrite -map_mxM vA map_mx0.
have [d Nd [w' Ew']] := clear_den w.
exists d => //; exists w'; apply: mf_inj.
by rewrite map_mxZ Ew scalemxAl Ew' map_mxM.
Qed.

Lemma kernel_basis_rows k m n (A : 'M[R]_(m, n)) (P : 'M[R]_(k, m)) :
  kernel_basis A P -> k = (m - \rank (mf A))%N.
Proof.
case=> Hk [Hg /indep_row_free Hi].
have S : (mf P <= kermx (mf A))%MS.
  apply/sub_kermxP; rewrite -map_mxM; apply/row_matrixP=> i; rewrite row0 -map_row row_mul Hk.
  exact: map_mx0.
rewrite -mxrank_ker -(eqP Hi); apply/eqP; rewrite (mxrank_leqif_sup S).
apply/row_subP=> i; set v := row i _.
have E : v *m mf A = 0 by apply/sub_kermxP; exact: row_sub.
have [d Nd [v' Ev]] := clear_den v.
have [w Ew] : exists w, v' = w *m P.
  by apply: Hg; apply: mf_inj; rewrite map_mxM -Ev -scalemxAl E scaler0 map_mx0.
have : (tf d *: v <= mf P)%MS by rewrite Ev Ew map_mxM submxMl.
by rewrite (eqmx_scale _ _) // tofrac_eq0.
Qed.
End Frac.
