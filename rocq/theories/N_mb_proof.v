(** Approximant bases at order one from a kernel basis with distinct pivots; stable sort and pivots. *)
From Coq Require Import ZArith.
From mathcomp Require Import all_ssreflect all_algebra zify.
From Verif Require Import A_base SpecA SpecKer A_mul_model A_mbasis_model A_mbasis_abs A_mbasis_proof A_kernel_abs A_dixon_proof A_verif_proof A_pmbasis_proof N_pmat_model N_mb_model.
Set Implicit Arguments.
Unset Strict Implicit.
Unset Printing Implicit Defensive.
Import Order.TTheory GRing.Theory Num.Theory.
Local Open Scope ring_scope.

(** *** a kernel basis with distinct pivots P i for the order (s, index) *)
Section Order1.
Variable F : fieldType.
Variables (m n k : nat) (R : 'M[F]_(m, n)) (K : 'M[F]_(k, m)) (P : 'I_k -> 'I_m) (s : 'I_m -> int).
Definition lexle (a b : 'I_m) : bool := (s a < s b) || ((s a == s b) && (a <= b)%N).
Hypothesis KR : K *m R = 0.
Hypothesis Kgen : forall c : 'rV_m, c *m R = 0 -> exists w : 'rV_k, c = w *m K.
Hypothesis Pinj : injective P.
Hypothesis Kpiv : forall i, K i (P i) != 0.
Hypothesis Klex : forall i c, K i c != 0 -> lexle c (P i).

Definition inP (p : 'I_m) : option 'I_k := [pick i | P i == p].
Lemma inPK i : inP (P i) = Some i.
Proof. by rewrite /inP; case: pickP => [i' /eqP/Pinj ->|/(_ i)] //; rewrite eqxx. Qed.
Lemma inP_some p i : inP p = Some i -> p = P i.
Proof. by rewrite /inP; case: pickP => // i' /eqP <- [->]. Qed.

Definition T1 : 'M[{poly F}]_m := \matrix_(p, c) (if inP p is Some i then (K i c)%:P else 'X *+ (p == c)).

(** some pivot is maximal *)
Lemma lex_max (A : pred 'I_k) i0 : A i0 -> exists2 i, A i & forall j, A j -> lexle (P j) (P i).
Proof.
move=> A0; have lt_tr : transitive lexle by move=> b a c; rewrite /lexle; lia.
have lt_tot : total lexle by move=> a b; rewrite /lexle; lia.
pose l := sort (fun i j => lexle (P j) (P i)) [seq i <- enum 'I_k | A i].
have Hl : i0 \in l by rewrite mem_sort mem_filter A0 mem_enum.
case El : l Hl => [|i l'] // _.
have Si : sorted (fun i j => lexle (P j) (P i)) l by apply: sort_sorted => a b; exact: lt_tot.
have Ai : i \in l by rewrite El mem_head.
exists i; first by move: Ai; rewrite mem_sort mem_filter => /andP[].
move=> j Aj; have : j \in l by rewrite mem_sort mem_filter Aj mem_enum.
rewrite El inE => /orP[/eqP ->|Hj]; first by rewrite /lexle; lia.
move: Si; rewrite El /=; move/order_path_min => /(_ _)/allP; apply => //.
by move=> b a c; rewrite /= => H1 H2; exact: lt_tr H2 H1.
Qed.

(** the columns of the pivots are independent *)
Lemma piv_zero (w : 'rV[{poly F}]_k) : (forall i, \sum_l w 0 l * (K l (P i))%:P = 0) -> w = 0.
Proof.
move=> H; apply/rowP=> i0; rewrite mxE; apply/eqP; apply: contraT => N0.
have [i Ni Mi] := @lex_max (fun i => w 0 i != 0) i0 N0.
have := H i; rewrite (bigD1 i) //= big1 => [|l Nl].
  by rewrite addr0 => /eqP; rewrite mulf_eq0 (negbTE Ni) polyC_eq0 (negbTE (Kpiv i)).
case: (eqVneq (w 0 l) 0) => [->|/Mi L1]; first by rewrite mul0r.
case: (eqVneq (K l (P i)) 0) => [->|/Klex L2]; first by rewrite polyC0 mulr0.
case/negP: Nl; apply/eqP/Pinj/val_inj; move: L1 L2; rewrite /lexle /=; lia.
Qed.

Definition V1 : 'M[F]_k := \matrix_(i, j) K i (P j).
Lemma V1_unit : V1 \in unitmx.
Proof.
rewrite -row_free_unit -kermx_eq0; apply/eqP/row_matrixP=> i; rewrite row0.
set c := row i _; have Hc : c *m V1 = 0 by rewrite /c -row_mul mulmx_ker row0.
suff : map_mx polyC c = 0 :> 'rV[{poly F}]_k.
  by move/rowP=> E; apply/rowP=> j; have := E j; rewrite mxE [RHS]mxE => /eqP; rewrite polyC_eq0 [RHS]mxE => /eqP.
apply: piv_zero => j; transitivity (((c *m V1) 0 j)%:P); last by rewrite Hc mxE.
rewrite mxE rmorph_sum; apply: eq_bigr => l _; by rewrite [map_mx _ _ _ _]mxE [V1 _ _]mxE rmorphM.
Qed.

Lemma sumP (f : 'I_m -> {poly F}) : \sum_p f p = \sum_i f (P i) + \sum_(p | inP p == None) f p.
Proof.
rewrite (bigID (fun p => inP p != None)) /=; congr (_ + _); last by apply: eq_bigl => p; rewrite negbK.
rewrite (eq_bigl (mem [set P i | i in 'I_k])); first by rewrite big_imset //= => x y _ _; exact: Pinj.
move=> p; apply/idP/imsetP => [|[i _ ->]]; last by rewrite inPK.
by case E: (inP p) => [i|] // _; exists i => //; exact: inP_some.
Qed.

Lemma mulT1 (u : 'rV[{poly F}]_m) c : (u *m T1) 0 c = \sum_i u 0 (P i) * (K i c)%:P + (if inP c == None then u 0 c * 'X else 0).
Proof.
rewrite mxE sumP; congr (_ + _); first by apply: eq_bigr => i _; rewrite mxE inPK.
case: (inP c =P None) => E.
  rewrite (bigD1 c) ?E //= mxE E eqxx mulr1n big1 ?addr0 // => p /andP[/eqP Ep /negbTE N].
  by rewrite mxE Ep N mulr0n mulr0.
rewrite big1 // => p /eqP Ep; rewrite mxE Ep; case: eqP => [Z|_]; last by rewrite mulr0n mulr0.
by rewrite -Z in E.
Qed.

Definition spanT (v : 'rV[{poly F}]_m) : Prop := exists u : 'rV_m, v = u *m T1.
Lemma spanD v w : spanT v -> spanT w -> spanT (v + w).
Proof. by move=> [u ->] [u' ->]; exists (u + u'); rewrite mulmxDl. Qed.
Lemma spanZ a v : spanT v -> spanT (a *: v).
Proof. by move=> [u ->]; exists (a *: u); rewrite scalemxAl. Qed.
Lemma span_sum (I : finType) (f : I -> 'rV[{poly F}]_m) (Q : pred I) : (forall i, Q i -> spanT (f i)) -> spanT (\sum_(i | Q i) f i).
Proof. by move=> H; apply: big_ind => //; [exists 0; rewrite mul0mx|exact: spanD]. Qed.

Lemma spanK (w : 'rV[{poly F}]_k) : spanT (w *m map_mx polyC K).
Proof.
exists (\row_p (if inP p is Some i then w 0 i else 0)); apply/rowP=> c; rewrite mulT1 [LHS]mxE.
have -> : (if inP c == None then (\row_p (if inP p is Some i then w 0 i else 0)) 0 c * 'X else 0) = 0 :> {poly F}.
  by case: eqP => // E; rewrite mxE E mul0r.
rewrite addr0.
by apply: eq_bigr => i _; rewrite !mxE inPK.
Qed.

Lemma spanX p : spanT ('X *: delta_mx 0 p).
Proof.
have N q : inP q = None -> spanT ('X *: delta_mx 0 q).
  move=> E; exists (delta_mx 0 q); apply/rowP=> c; rewrite mulT1 big1 => [|i _]; last first.
    rewrite mxE eqxx /=; case: eqP => [Z|_]; last by rewrite mul0r.
    by rewrite -Z inPK in E.
  rewrite add0r !mxE /=; case: eqP => [->|_]; first by rewrite E eqxx mulr1 mul1r.
  by rewrite mulr0; case: ifP => //; rewrite mul0r.
case E: (inP p) => [i|]; last exact: N.
have [b [bP bS]] : exists b : 'rV[F]_m, (forall j, b 0 (P j) = (i == j)%:R) /\ spanT (map_mx polyC b).
  exists (row i (invmx V1) *m K); split; last by rewrite map_mxM; exact: spanK.
  move=> j; have := mulVmx V1_unit => /matrixP/(_ i j); rewrite !mxE => <-; apply: eq_bigr => l _; by rewrite !mxE.
have -> : 'X *: delta_mx 0 p = 'X *: map_mx polyC b + \sum_(q | inP q == None) (- (b 0 q)%:P) *: ('X *: delta_mx 0 q) :> 'rV[{poly F}]_m.
  apply/rowP=> c; rewrite !mxE summxE /=.
  case Ec: (inP c) => [j|].
    rewrite big1 ?addr0 => [|q /eqP Eq]; last first.
      rewrite !mxE /=; case: (c =P q) => [Z|_]; last by rewrite !mulr0.
      by rewrite -Z Ec in Eq.
    rewrite (inP_some Ec) (inP_some E) bP (inj_eq Pinj) eq_sym; by case: (i == j).
  rewrite (bigD1 c) ?Ec //= big1 ?addr0 => [|q /andP[_ /negbTE Nq]].
    rewrite !mxE !eqxx /= mulr1 mulNr [X in X - _]mulrC subrr.
    by case: eqP => [Z|_]; [rewrite Z E in Ec|rewrite mulr0].
  by rewrite !mxE [c == q]eq_sym Nq andbF /= mulr0 mulr0.
apply: spanD; last by apply: span_sum => q /eqP Eq; apply: spanZ; exact: N.
exact: spanZ.
Qed.

Lemma T1_basis : approx_basis 1 (map_mx polyC R) T1.
Proof.
have A1 (v : 'rV[{poly F}]_m) : approximant 1 (map_mx polyC R) v <-> at0 v *m R = 0.
  have C j : ((v *m map_mx polyC R) 0 j)`_0 = (at0 v *m R) 0 j.
    by rewrite !mxE coef_sum; apply: eq_bigr => l _; rewrite at0E [map_mx _ _ _ _]mxE coefMC.
  split=> [/approximantP H|H]; first by apply/rowP=> j; rewrite -C [RHS]mxE; exact: H.
  by apply/approximantP=> -[|//] j _; rewrite C H mxE.
split; [|split].
- move=> p; apply/A1; apply/rowP=> j; rewrite [LHS]mxE [RHS]mxE.
  case E: (inP p) => [i|].
    transitivity ((K *m R) i j); last by rewrite KR mxE.
    by rewrite mxE; apply: eq_bigr => l _; rewrite at0E !mxE E coefC.
  by rewrite big1 // => l _; rewrite at0E !mxE E; case: eqP => _; rewrite ?mulr1n ?mulr0n ?coefX ?coef0 mul0r.
- move=> v /A1/Kgen[w Ew].
  have [v' Ev'] : exists v', v - map_mx polyC w *m map_mx polyC K = 'X *: v'.
    apply: divX; apply/rowP=> c; rewrite at0E -map_mxM -Ew [RHS]mxE.
    have E : map_mx polyC (at0 v) 0 c = ((v 0 c)`_0)%:P by rewrite mxE at0E.
    rewrite mxE; set z := (- map_mx polyC (at0 v)) 0 c; have -> : z = - ((v 0 c)`_0)%:P by rewrite /z mxE E.
    by rewrite coefD coefN coefC eqxx subrr.
  have -> : v = map_mx polyC w *m map_mx polyC K + 'X *: v' by rewrite -Ev' addrC subrK.
  apply: spanD; first exact: spanK.
  rewrite [v']matrix_sum_delta big_ord1 scaler_sumr; apply: span_sum => p _.
  by rewrite scalerA mulrC -scalerA; apply: spanZ; exact: spanX.
- move=> u Hu; have Z i : u 0 (P i) = 0.
    have : (\row_i u 0 (P i) : 'rV[{poly F}]_k) = 0.
      apply: piv_zero => j; have /rowP/(_ (P j)) := Hu; rewrite mulT1 inPK /= addr0 [RHS]mxE => HE; rewrite -[RHS]HE.
      by apply: eq_bigr => l _; rewrite mxE.
    by move/rowP/(_ i); rewrite !mxE.
  apply/rowP=> p; rewrite [RHS]mxE; case E: (inP p) => [i|]; first by rewrite (inP_some E) Z.
  have /rowP/(_ p) := Hu; rewrite mulT1 E eqxx big1 ?add0r => [|i _]; last by rewrite Z mul0r.
  by rewrite mxE => /eqP; rewrite mulf_eq0 polyX_eq0 orbF => /eqP.
Qed.

Lemma T1_deg : deg_inv s (fun p => s p + (inP p == None)%:Z) T1.
Proof.
split=> [p c z|p].
  rewrite mxE; case E: (inP p) => [i|] /=.
    rewrite coefC; case: (z =P 0%N) => [-> |_]; last by rewrite eqxx.
    move=> /Klex; rewrite -(inP_some E) /lexle addr0; move: (s c) (s p) => x y; lia.
  case: (p =P c) => [->|_]; last by rewrite mulr0n coef0 eqxx.
  by rewrite mulr1n coefX; case: (z =P 1%N) => [->|_]; rewrite ?eqxx // ltnn; move: (s c) => x _; lia.
case E: (inP p) => [i|] /=.
  exists 0%N; first by rewrite addr0 add0r.
  by rewrite mxE E coefC eqxx (inP_some E).
by exists 1%N; [rewrite addrC|rewrite mxE E eqxx coefX eqxx oner_neq0].
Qed.
End Order1.

(** *** distinct pivots *)
Lemma adjacent_sorted (l : seq nat) : sorted leq l -> ~~ has_adjacent l -> sorted ltn l.
Proof.
case: l => [//|x l]; elim: l x => [//|y l IH] x /= /andP[xy S]; rewrite negb_or => /andP[N H].
by rewrite ltn_neqAle N xy; apply: IH.
Qed.
Lemma adjacent_uniq (a b : seq nat) : ~~ has_adjacent (sort leq (a ++ b)) -> uniq a.
Proof.
move=> H; have : uniq (sort leq (a ++ b)).
  by apply: (sorted_uniq ltn_trans ltnn); apply: adjacent_sorted => //; exact: (sort_sorted leq_total).
by rewrite sort_uniq cat_uniq => /andP[].
Qed.

Section Shape.
Variable F : fieldType.
Implicit Types (K : fmat F).

(** K is a kernel basis of R, with entries and vectors indexed by integers *)
Definition kernel_of (m n : nat) (R : fmat F) (k : nat) K : Prop :=
  [/\ forall i j, (i < k)%N -> (j < n)%N -> \sum_(l < m) K i l * R l j = 0
    , forall c : nat -> F, (forall j, (j < n)%N -> \sum_(l < m) c l * R l j = 0) ->
        exists w : nat -> F, forall l, (l < m)%N -> c l = \sum_(i < k) w i * K i l
    & forall i, (i < k)%N -> exists2 l, (l < m)%N & K i l != 0].
(** pivots at the right ends of the rows, pairwise distinct *)
Definition shaped (m k : nat) K (pp : seq nat) : Prop :=
  [/\ size pp = k, uniq pp
    & forall i, (i < k)%N -> [/\ (nth 0%N pp i < m)%N, K i (nth 0%N pp i) != 0 & forall c, (nth 0%N pp i < c < m)%N -> K i c = 0]].
Lemma scanP (v : nat -> F) m : (exists2 l, (l < m)%N & v l != 0) ->
  let p := (m.-1 - scan v m)%N in [/\ (scan v m < m)%N, (p < m)%N, v p != 0 & forall c, (p < c < m)%N -> v c = 0].
Proof.
move=> [l Hl Nl] p; have L : (scan v m < m)%N.
  rewrite /scan -[X in (_ < X)%N](size_iota 0 m) -has_find; apply/hasP; exists (m.-1 - l)%N; first by rewrite mem_iota; lia.
  by rewrite (_ : m.-1 - (m.-1 - l) = l)%N //; lia.
have Np : v p != 0.
  have H : has (fun d => v (m.-1 - d)%N != 0) (iota 0 m) by rewrite has_find size_iota.
  by have := nth_find 0%N H; rewrite nth_iota.
split=> //; first by rewrite /p; lia.
move=> c Hc; have Hd : (m.-1 - c < scan v m)%N by move: Hc; rewrite /p; lia.
have := before_find 0%N Hd; rewrite nth_iota ?add0n; last by lia.
by rewrite (_ : m.-1 - (m.-1 - c) = c)%N => [/negbFE/eqP //|]; lia.
Qed.

Lemma pivotsP K k m : (forall i, (i < k)%N -> exists2 l, (l < m)%N & K i l != 0) ->
  exists2 pp, pivots K k m = AOk pp & size pp = k /\
    forall i, (i < k)%N -> [/\ (nth 0%N pp i < m)%N, K i (nth 0%N pp i) != 0 & forall c, (nth 0%N pp i < c < m)%N -> K i c = 0].
Proof.
move=> N; rewrite /pivots; case: hasP => [[i]|_].
  by rewrite mem_iota add0n => Hi /eqP E; have [] := scanP (N i Hi); rewrite E ltnn.
eexists; first by []; split=> [|i Hi]; first by rewrite size_map size_iota.
by rewrite (nth_map 0%N) ?size_iota // nth_iota // add0n; have [] := scanP (N i Hi).
Qed.

Lemma kernel_of_mx m n R k K : left_kernel_of m n R k K -> kernel_of m n R k K.
Proof.
move=> [KR RF RK]; split.
- move=> i j Hi Hj; have /matrixP/(_ (Ordinal Hi) (Ordinal Hj)) := KR; rewrite !mxE => E; rewrite -[RHS]E.
  by apply: eq_bigr => l _; rewrite !mxE.
- move=> c Hc; have C0 : (\row_l c l : 'rV[F]_m) *m mx_of m n R = 0.
    apply/rowP=> j; rewrite !mxE -[RHS](Hc j) //; by apply: eq_bigr => l _; rewrite !mxE.
  have S : (\row_(l < m) c l <= mx_of k m K)%MS.
    move/sub_kermxP: C0 => C0; move/sub_kermxP: KR => KR.
    apply: (submx_trans C0); rewrite -(geq_leqif (mxrank_leqif_sup KR)).
    by rewrite mxrank_ker; move: RF; rewrite /row_free => /eqP ->; move: RK; move: (\rank _) => rr; lia.
  have /submxP[w Ew] := S; exists (fun i => if insub i is Some i' then w 0 i' else 0) => l Hl.
  have /rowP/(_ (Ordinal Hl)) := Ew; rewrite !mxE /= => ->; apply: eq_bigr => i _.
  by rewrite mxE valK.
- move=> i Hi; have := RF; rewrite -kermx_eq0 => /eqP KZ.
  case: (pickP (fun l : 'I_m => K i l != 0)) => [l Nl|Z]; first by exists l.
  have : delta_mx (0 : 'I_1) (Ordinal Hi) *m mx_of k m K = 0.
    by rewrite -rowE; apply/rowP=> l; rewrite !mxE /=; apply/eqP; have := Z l => /negbFE.
  move/sub_kermxP; rewrite KZ submx0 => /eqP/rowP/(_ (Ordinal Hi)); rewrite !mxE !eqxx /= => /eqP.
  by rewrite oner_eq0.
Qed.

Lemma echelonP (img : nat -> nat -> fmat F -> nat * fmat F) m n R k K :
  (forall k m A, image_of k m A (img k m A).1 (img k m A).2) -> left_kernel_of m n R k K ->
  exists2 L, echelon img k m K = AOk L & exists lead : nat -> nat, left_kernel_of m n R k L /\
    (forall i, (i < k)%N -> [/\ (lead i < m)%N, L i (lead i) != 0 & forall j, (lead i < j < m)%N -> L i j = 0])
        /\ (forall i j, (i < j < k)%N -> (lead i < lead j)%N).
Proof.
move=> IO LK.
rewrite /echelon; set A := (fun i j => K i (m.-1 - j)%N).
case: (IO k m A); move: (img k m A) => [r B] /= Er EB [lead [Ld Li]].
pose J q : 'M[F]_q := \matrix_(i, j) (i == rev_ord j)%:R.
have JJ q : J q *m J q = 1%:M.
  apply/matrixP=> i j; rewrite !mxE (bigD1 (rev_ord i)) //= big1 ?addr0 => [|l Nl].
    by rewrite !mxE rev_ordK eqxx mul1r (inj_eq rev_ord_inj).
  rewrite mxE; case: eqP => [Z|_]; last by rewrite mul0r.
  by rewrite Z rev_ordK eqxx in Nl.
have JU q : J q \in unitmx by have [] := mulmx1_unit (JJ q).
have mulJ p (X : fmat F) : mx_of p m X *m J m = mx_of p m (fun i j => X i (m.-1 - j)%N).
  apply/matrixP=> i j; rewrite !mxE (bigD1 (rev_ord j)) //= big1 ?addr0 => [|l Nl].
    by rewrite !mxE eqxx mulr1 /=; congr (X _ _); lia.
  by rewrite !mxE (negbTE Nl) mulr0.
have Jmul (X : fmat F) : J k *m mx_of k m X = mx_of k m (fun i j => X (k - i - 1)%N j).
  apply/matrixP=> i j; rewrite !mxE (bigD1 (rev_ord i)) //= big1 ?addr0 => [|l Nl].
    by rewrite !mxE rev_ordK eqxx mul1r /=; congr (X _ _); lia.
  rewrite !mxE; case: eqP => [Z|_]; last by rewrite mul0r.
  by rewrite Z rev_ordK eqxx in Nl.
have SK : mx_of k m A = mx_of k m K *m J m by rewrite mulJ.
have [KR /eqP RF RK] := LK.
have rk : r = k by rewrite Er SK mxrankMfree ?row_free_unit.
move: Er EB Ld Li; rewrite {r}rk => Er EB Ld Li.
rewrite ltnn; eexists; first by []; exists (fun i => m.-1 - lead (k - i - 1)%N)%N; split; last split.
- have EL : mx_of k m (fun i j => B (k - i - 1)%N (m.-1 - j)%N) = J k *m mx_of k m B *m J m by rewrite Jmul mulJ.
  split=> //; rewrite EL.
    have : (mx_of k m B <= mx_of k m K *m J m)%MS by rewrite EB SK.
    by case/submxP=> D ->; rewrite -!mulmxA (mulmxA (J m) (J m)) JJ mul1mx KR !mulmx0.
  by rewrite /row_free mxrankMfree ?row_free_unit // eqmxMfull ?row_full_unit // EB -Er.
- move=> i Hi; have [|L1 L2 L3] := Ld (k - i - 1)%N; first lia.
  split; first by lia.
    by rewrite (_ : m.-1 - (m.-1 - lead (k - i - 1)) = lead (k - i - 1))%N //; lia.
  by move=> j Hj; apply: L3; lia.
- move=> i j Hij; have [|L1 _ _] := Ld (k - i - 1)%N; first lia.
  by have := Li (k - j - 1)%N (k - i - 1)%N; lia.
Qed.

(** echelon form and its pivots *)
Lemma echelon_pivots (img : nat -> nat -> fmat F -> nat * fmat F) m n R k K :
  (forall k m A, image_of k m A (img k m A).1 (img k m A).2) -> left_kernel_of m n R k K ->
  exists2 L, echelon img k m K = AOk L & exists2 pp, pivots L k m = AOk pp & [/\ left_kernel_of m n R k L, shaped m k L pp & sorted ltn pp].
Proof.
move=> IO LK; have [L E [lead [LKL [Ld Li]]]] := echelonP IO LK; exists L => //.
have [|pp' EP [Sp' Pp']] := @pivotsP L k m.
  by move=> i Hi; have [? ? _] := Ld i Hi; exists (lead i).
have El i : (i < k)%N -> nth 0%N pp' i = lead i.
  move=> Hi; have [a1 a2 a3] := Ld i Hi; have [b1 b2 b3] := Pp' i Hi.
  case: (ltngtP (nth 0%N pp' i) (lead i)) => // C; first by rewrite b3 ?eqxx ?C in a2.
  by rewrite a3 ?eqxx ?C in b2.
have So : sorted ltn pp'.
  apply/(sortedP 0%N) => i; rewrite Sp' => Hi; rewrite !El; try lia.
  by apply: Li; lia.
by exists pp' => //; split=> //; split=> //; exact: (sorted_uniq ltn_trans ltnn).
Qed.
Lemma shapeP (img : nat -> nat -> fmat F -> nat * fmat F) stale m n R k K :
  (forall k m A, image_of k m A (img k m A).1 (img k m A).2) -> left_kernel_of m n R k K ->
  exists2 r, kernel_shape img stale k m K = AOk r & left_kernel_of m n R k r.1 /\ shaped m k r.1 r.2.
Proof.
move=> IO LK; have [_ _ NZ] := kernel_of_mx LK; rewrite /kernel_shape.
have [pp -> [Sp Pp]] := pivotsP NZ; case: eqP => [E|_].
  exists (K, pp) => //; split=> //; split=> //=; rewrite E map_inj_in_uniq ?iota_uniq // => a b _ _; lia.
case: ifPn => [A|_]; first by exists (K, pp) => //; split=> //; split=> //; exact: adjacent_uniq A.
have [L -> [pp' -> [? ? _]]] := echelon_pivots IO LK.
by exists (L, pp').
Qed.

(** *** the reduced echelon form, popov_mbasis1 *)
Definition reduced_at (k : nat) K (pp : seq nat) : Prop := forall i j, (i < k)%N -> (j < k)%N -> K i (nth 0%N pp j) = (i == j)%:R.
Lemma popov_shapeP (img : nat -> nat -> fmat F -> nat * fmat F) m n R k K :
  (forall k m A, image_of k m A (img k m A).1 (img k m A).2) -> left_kernel_of m n R k K -> identity_block k m K ->
  exists2 r, popov_shape img k m K = AOk r & [/\ left_kernel_of m n R k r.1, shaped m k r.1 r.2 & reduced_at k r.1 r.2].
Proof.
move=> IO LK KRed; have [_ _ NZ] := kernel_of_mx LK; rewrite /popov_shape.
have [pp -> [Sp Pp]] := pivotsP NZ; case: eqP => [E|_].
  have SH : shaped m k K pp by split=> //; rewrite E map_inj_in_uniq ?iota_uniq // => a b _ _; lia.
  have nE i : (i < k)%N -> nth 0%N pp i = (m - k + i)%N by move=> Hi; rewrite E (nth_map 0%N) ?size_iota // nth_iota.
  exists (K, pp) => //; split=> //= i j Hi Hj; rewrite nE //; apply: KRed => // {}i {}Hi.
  by have [_ ? ?] := Pp i Hi; rewrite -nE.
have [L -> [pp' -> [LKL [Sp' Up' Pp'] So]]] := echelon_pivots IO LK.
set T := \matrix_(i, j) _.
have lt_piv (i j : 'I_k) : (i < j)%N -> (nth 0%N pp' i < nth 0%N pp' j)%N.
  by move=> Hij; apply: (sorted_ltn_nth ltn_trans 0%N So) => //; rewrite inE Sp'.
have Tup (i j : 'I_k) : (i < j)%N -> T i j = 0.
  move=> Hij; rewrite mxE; have [_ _ Z] := Pp' i (ltn_ord i); apply: Z; have [? _ _] := Pp' j (ltn_ord j).
  by rewrite lt_piv.
have TU : T \in unitmx.
  rewrite unitmxE det_trig.
    rewrite unitfE; apply/prodf_neq0 => i _; rewrite mxE; by have [] := Pp' i (ltn_ord i).
  by apply/is_trig_mxP => i j; exact: Tup.
rewrite TU; eexists; first by []; rewrite /=.
set L' := fun i j => _.
have EL : mx_of k m L' = invmx T *m mx_of k m L.
  by apply/matrixP=> i j; rewrite !mxE /L'; apply: eq_bigr => l _; rewrite !mxE valK.
have red (i j : 'I_k) : L' i (nth 0%N pp' j) = (i == j)%:R.
  have [Hj _ _] := Pp' j (ltn_ord j).
  have /matrixP/(_ i (Ordinal Hj)) := EL; rewrite mxE /= => ->.
  have /matrixP/(_ i j) := mulVmx TU; rewrite [RHS]mxE => <-; rewrite !mxE; by apply: eq_bigr => l _; rewrite !mxE.
have high (i : 'I_k) c : (nth 0%N pp' i < c < m)%N -> L' i c = 0.
  move=> Hc; rewrite /L'; apply: big1 => l _; rewrite valK.
  case: (leqP l i) => Hl.
    have [_ _ Z] := Pp' l (ltn_ord l); rewrite Z ?mulr0 //.
    move: Hl; rewrite leq_eqVlt => /orP[/eqP/val_inj -> //|/lt_piv]; move: Hc; lia.
  suff -> : invmx T i l = 0 by rewrite mul0r.
  apply/eqP; apply: contraT => Nl.
  case: (@arg_maxnP _ l (fun q => invmx T i q != 0) (fun q => q : nat) Nl) => q Nq Mq.
  have Hq : (i < q)%N by apply: leq_trans Hl (Mq l Nl).
  have /matrixP/(_ i q) := mulVmx TU; rewrite !mxE (bigD1 q) //= big1 ?addr0 => [|r Nr].
    move=> /eqP; rewrite (_ : (i == q) = false); last by apply/negbTE; rewrite neq_ltn Hq.
    rewrite mulf_eq0 (negbTE Nq) mxE /=; have [_ N _] := Pp' q (ltn_ord q); by rewrite (negbTE N).
  case: (ltnP r q) => Hr; first by rewrite Tup ?mulr0.
  case: (eqVneq (invmx T i r) 0) => [->|/Mq Hr']; first by rewrite mul0r.
  by case/negP: Nr; apply/eqP/val_inj/eqP; rewrite eqn_leq Hr andbT; exact: Hr'.
have [KR RF RK] := LKL; split.
- split=> //; first by rewrite EL -mulmxA KR mulmx0.
  by rewrite EL /row_free eqmxMfull ?row_full_unit ?unitmx_inv.
- split=> // i Hi; have [Hp _ _] := Pp' i Hi; split=> //; first by rewrite (red (Ordinal Hi) (Ordinal Hi)) eqxx oner_neq0.
  by move=> c Hc; exact: (high (Ordinal Hi)).
- by move=> i j Hi Hj; exact: (red (Ordinal Hi) (Ordinal Hj)).
Qed.
End Shape.

(** *** the base case: the kernel permuted back *)
Section Base.
Variable F : fieldType.
Variable img : nat -> nat -> fmat F -> nat * fmat F.
Hypothesis IO : forall k m A, image_of k m A (img k m A).1 (img k m A).2.

(** kerbas, with sorted pivots pv for the order (shift, index) *)
Definition good_base (m n : nat) (R : fmat F) (sh : nat -> int) (k : nat) (K : fmat F) (pv : seq nat) : Prop :=
  [/\ kernel_of m n R k K, sorted ltn pv, size pv = k, all (fun p => (p < m)%N) pv
    & forall i, (i < k)%N -> K i (nth 0%N pv i) != 0 /\
        forall c, (c < m)%N -> K i c != 0 -> shift_le sh c (nth 0%N pv i)].

Lemma perm_rows_sorted (pivind : seq nat) k : size pivind = k ->
  [seq nth 0%N pivind r | r <- perm_rows pivind k] = sort leq pivind.
Proof.
move=> Sk; rewrite -[in RHS](mkseq_nth 0%N pivind) Sk /mkseq sort_map; congr map.
Qed.

Lemma perm_rows_perm (pivind : seq nat) k : perm_eq (perm_rows pivind k) (iota 0 k).
Proof. by rewrite /perm_rows perm_sort. Qed.

Lemma back_good m n (R : fmat F) sh k K pp : let ps := find_shift_permutation m sh in
  left_kernel_of m n (fun i j => R (nth 0%N ps i) j) k K -> shaped m k K pp ->
  let pivind := pivind_of ps pp in
  good_base m n R sh k (permute_back ps (perm_rows pivind k) K) (sort leq pivind).
Proof.
move=> ps LK [Sp Up Pp] pivind.
have PS : perm_eq ps (iota 0 m) := fsp_perm m sh.
have Sk : size pivind = k by rewrite size_map.
set rows := perm_rows pivind k; have PR : perm_eq rows (iota 0 k) := perm_rows_perm pivind k.
have Er i : (i < k)%N -> nth 0%N (sort leq pivind) i = nth 0%N ps (nth 0%N pp (nth 0%N rows i)).
  move=> Hi; rewrite -(perm_rows_sorted Sk) (nth_map 0%N) ?(pv_size PR) //.
  by rewrite (nth_map 0%N) // Sp (pv_lt PR).
have Ui : uniq pivind.
  rewrite map_inj_in_uniq // => a b Ha Hb E.
  have La c : c \in pp -> (c < m)%N by case/(nthP 0%N) => i; rewrite Sp => Hi <-; have [] := Pp i Hi.
  by rewrite -(pv_index_nth PS (La _ Ha)) E (pv_index_nth PS (La _ Hb)).
have [K0 Kg Kn] := kernel_of_mx LK.
split.
- split.
  + move=> i j Hi Hj; rewrite -[RHS](K0 (nth 0%N rows i) j) ?(pv_lt PR) //.
    rewrite (pv_sum PS (fun l => permute_back ps rows K i l * R l j)); apply: eq_bigr => l _.
    by rewrite /permute_back (pv_index_nth PS).
  + move=> c Hc; have [|w Ew] := Kg (fun l => c (nth 0%N ps l)).
      by move=> j Hj; rewrite -[RHS](Hc j Hj) (pv_sum PS (fun l => c l * R l j)).
    exists (fun i => w (nth 0%N rows i)) => l Hl; rewrite -{1}(pv_nth_index PS Hl) Ew ?(pv_index_lt PS) //.
    by rewrite (pv_sum PR (fun i => w i * K i (index l ps))).
  + move=> i Hi; have [l Hl Nl] := Kn (nth 0%N rows i) (pv_lt PR Hi).
    by exists (nth 0%N ps l); rewrite ?(pv_lt PS) // /permute_back (pv_index_nth PS).
- by rewrite ltn_sorted_uniq_leq sort_uniq Ui (sort_sorted leq_total).
- by rewrite size_sort.
- rewrite all_sort; apply/allP=> p /mapP[c /(nthP 0%N)[i]]; rewrite Sp => Hi <- ->.
  by have [? _ _] := Pp i Hi; exact: pv_lt.
- move=> i Hi; have [a1 a2 a3] := Pp _ (pv_lt PR Hi).
  rewrite Er // /permute_back (pv_index_nth PS) //; split=> // c Hc Nc.
  have Ic : (index c ps <= nth 0%N pp (nth 0%N rows i))%N.
    by rewrite leqNgt; apply: contra_neqN Nc => L; apply: a3; rewrite L (pv_index_lt PS).
  rewrite -{1}(pv_nth_index PS Hc); move: Ic; rewrite leq_eqVlt => /orP[/eqP ->|L]; first by rewrite shift_leE eqxx leqnn orbT.
  exact: fsp_lt.
Qed.

(** the columns of the pivots after the permutation *)
Lemma back_reduced m sh k (K : fmat F) pp : let ps := find_shift_permutation m sh in
  shaped m k K pp -> reduced_at k K pp -> let pivind := pivind_of ps pp in
  reduced_at k (permute_back ps (perm_rows pivind k) K) (sort leq pivind).
Proof.
move=> ps [Sp Up Pp] RD pivind i j Hi Hj.
have PS : perm_eq ps (iota 0 m) := fsp_perm m sh.
have Sk : size pivind = k by rewrite size_map.
have PR : perm_eq (perm_rows pivind k) (iota 0 k) := perm_rows_perm pivind k.
rewrite -(perm_rows_sorted Sk) (nth_map 0%N) ?(pv_size PR) // (nth_map 0%N) ?Sp ?(pv_lt PR) //.
have [Hp _ _] := Pp _ (pv_lt PR Hj).
rewrite /permute_back (pv_index_nth PS) // RD ?(pv_lt PR) //.
by rewrite nth_uniq ?(pv_size PR) ?(pv_uniq PR).
Qed.
End Base.

(** *** one step of the iterative algorithms *)
Section Step.
Variable F : fieldType.

Definition Tm (m : nat) (K : fmat F) (pv : seq nat) : 'M[{poly F}]_m :=
  \matrix_(i, c) (if (i : nat) \in pv then (K (index (i : nat) pv) c)%:P else 'X *+ (i == c)).

Lemma good_Tm m n (R : fmat F) sh k K pv : good_base m n R sh k K pv ->
  approx_basis 1 (map_mx polyC (mx_of m n R)) (Tm m K pv) /\
  deg_inv (fun i : 'I_m => sh i) (fun i : 'I_m => sh i + ((i : nat) \notin pv)%:Z) (Tm m K pv).
Proof.
move=> [[K0 Kg Kn] So Sz Al Kp].
have Pl (i : 'I_k) : (nth 0%N pv i < m)%N by apply: (allP Al); rewrite mem_nth ?Sz.
pose P (i : 'I_k) : 'I_m := Ordinal (Pl i).
have Uv : uniq pv := sorted_uniq ltn_trans ltnn So.
have Pinj : injective P by move=> i j /(congr1 val) /= /eqP; rewrite nth_uniq ?Sz // => /eqP/val_inj.
have inPE (p : 'I_m) : inP P p = if (p : nat) \in pv then insub (index (p : nat) pv) else None.
  case: ifPn => Hp.
    have Hi : (index (p : nat) pv < k)%N by rewrite -Sz index_mem.
    rewrite insubT; have {1}-> : p = P (Ordinal Hi) by apply: val_inj; rewrite /= nth_index.
    by rewrite inPK //; congr Some; apply: val_inj.
  case E: (inP P p) => [i|//]; case/negP: Hp; rewrite (inP_some E) /=; by rewrite mem_nth ?Sz.
have ET : Tm m K pv = T1 (mx_of k m K) P.
  apply/matrixP=> p c; rewrite !mxE inPE; case: ifPn => // Hp.
  have Hi : (index (p : nat) pv < k)%N by rewrite -Sz index_mem.
  by rewrite insubT mxE.
have Lx i c : mx_of k m K i c != 0 -> lexle (fun i : 'I_m => sh i) c (P i).
  by rewrite mxE => N; have [_ /(_ c (ltn_ord c) N)] := Kp i (ltn_ord i); rewrite shift_leE.
have Np i : mx_of k m K i (P i) != 0 by rewrite mxE; have [] := Kp i (ltn_ord i).
split; rewrite ET.
  apply: (@T1_basis _ _ _ _ _ _ _ (fun i : 'I_m => sh i)) => //.
    apply/matrixP=> i j; rewrite !mxE -[RHS](K0 i j) //; by apply: eq_bigr => l _; rewrite !mxE.
  move=> c Hc; have [|w Ew] := Kg (fun l => if insub l is Some l' then c 0 l' else 0).
    move=> j Hj; have /rowP/(_ (Ordinal Hj)) := Hc; rewrite !mxE => E; rewrite -[RHS]E.
    by apply: eq_bigr => l _; rewrite valK mxE.
  exists (\row_i w i); apply/rowP=> l; have := Ew l (ltn_ord l); rewrite valK => ->.
  by rewrite mxE; apply: eq_bigr => i _; rewrite !mxE.
have TD := T1_deg Np Lx; apply: (deg_inv_ext _ _ TD) => // p; rewrite inPE; case: ifPn => // Hp.
by rewrite insubT // -Sz index_mem.
Qed.

Variables (m n : nat) (A : 'M[{poly F}]_(m, n)) (s : 'I_m -> int).
Definition minv (d : nat) (P : 'M[{poly F}]_m) (sh : seq int) : Prop :=
  [/\ size sh = m, approx_basis d A P, deg_inv s (fun i => nth 0 sh i) P & forall i j, (size (P i j) <= d.+1)%N].
Definition resid (d : nat) (P : 'M[{poly F}]_m) (R : fmat F) : Prop := forall (i : 'I_m) (j : 'I_n), R i j = ((P *m A) i j)`_d.

Lemma step_usual d P sh R k K pv : minv d P sh -> resid d P R -> good_base m n R (nth 0 sh) k K pv ->
  minv d.+1 (Tm m K pv *m P) [seq (if i \in pv then nth 0 sh i else nth 0 sh i + 1) | i <- iota 0 m].
Proof.
move=> [Sh B D Z] HR /good_Tm[TB TD]; split; first by rewrite size_map size_iota.
- rewrite -addn1; apply: approx_basis_comp B _ TB => i j [|//] _.
  by rewrite mxE mxE coefC HR addn0.
- apply: deg_inv_comp D _; apply: deg_inv_ext TD => // i.
  by rewrite (nth_map 0%N) ?size_iota // nth_iota //; case: (_ \in _); rewrite /= ?addr0.
move=> i j; rewrite mxE; apply: (big_ind (fun q : {poly F} => (size q <= d.+2)%N)) => [|x y Hx Hy|l _]; first by rewrite size_poly0.
  by apply: leq_trans (size_add _ _) _; rewrite geq_max Hx Hy.
apply: leq_trans (size_mul_leq _ _) _; have := Z l j; rewrite mxE; case: (_ \in _).
  by have := size_polyC_leq1 (K (index (i : nat) pv) l); move: (size _) (size _) => u v; lia.
by case: eqP => _; rewrite ?mulr1n ?mulr0n ?size_polyX ?size_poly0; move: (size _) => u; lia.
Qed.

Lemma step_full d P sh R : minv d P sh -> resid d P R -> (forall i j, (i < m)%N -> (j < n)%N -> R i j = 0) -> minv d.+1 P sh.
Proof.
move=> [Sh B D S] HR Z; split=> //; last by move=> i j; exact: leqW.
rewrite -addn1 -[P]mul1mx; apply: (@approx_basis_comp _ _ _ _ _ _ 0) B _ _.
  by move=> i j [|//] _; rewrite mxE coef0 addn0 -HR Z.
split; first by move=> i; rewrite /approximant => j; rewrite mulmx0 mxE dvdp0.
by split=> [v _|w]; [exists v; rewrite mulmx1|rewrite mulmx1].
Qed.

Lemma step_empty d P sh R e : minv d P sh -> resid d P R ->
  (forall c : nat -> F, (forall j, (j < n)%N -> \sum_(l < m) c l * R l j = 0) -> forall l, (l < m)%N -> c l = 0) ->
  minv (d + e) ('X^e *: P) [seq x + e%:Z | x <- sh].
Proof.
move=> [Sh B D S] HR I; split; first by rewrite size_map.
- apply: full_rank_basis => // c Hc p.
  have := I (fun l => if insub l is Some l' then c l' else 0) _ p (ltn_ord p); rewrite valK; apply=> j Hj.
  rewrite -[RHS](Hc (Ordinal Hj)); apply: eq_bigr => l _; rewrite valK [coefmx _ _ _ _]mxE -HR; by [].
- apply: deg_inv_ext (full_rank_deg e D) => // i; by rewrite (nth_map 0) ?Sh.
move=> i j; rewrite mxE; apply: leq_trans (size_mul_leq _ _) _; rewrite size_polyXn; have := S i j; move: (size _) => u; lia.
Qed.
End Step.
