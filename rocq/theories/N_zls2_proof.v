(** The algorithm of Zhou, Labahn and Storjohann (ntl-extras): it returns vectors of the kernel. *)
From Coq Require Import ZArith.
From mathcomp Require Import all_ssreflect all_algebra fraction zify.
From Verif Require Import A_base SpecA SpecForms SpecApp A_mbasis_abs A_kernel_model A_kernel_abs A_kernel_proof A_frac_proof A_zls_abs A_zls2_proof N_pmat_model N_trs_proof N_util_model N_util_proof
  N_forms_model N_forms_proof P_ntrs P_nforms P_nappbas N_popov_proof N_pmb_model P_nmb N_ker_model N_ker_proof N_zls_proof.
Set Implicit Arguments.
Unset Strict Implicit.
Unset Printing Implicit Defensive.
Import Order.TTheory GRing.Theory Num.Theory.
Local Open Scope ring_scope.

Section Z.
Variable F : fieldType.
Implicit Types (pm a : pmat F) (shift t : seq int).

Definition ann (K pm : pmat F) : Prop := forall i j, (i < nr K)%N -> (j < nc pm)%N -> pprod K pm i j = 0.
Definition sound pm (K : pmat F) (t : seq int) : Prop := [/\ nc K = nr pm, size t = nr K & ann K pm].

(** the product, the middle product and the approximant bases *)
Definition mul_right (mul : pmat F -> pmat F -> fout (pmat F)) : Prop := forall a b, nc a = nr b ->
  exists2 c, mul a b = Ret c & [/\ nr c = nr a, nc c = nc b & forall i j, (i < nr a)%N -> (j < nc b)%N -> ent c i j = \sum_(k < nc a) ent a i k * ent b k j].
Definition mid_right (mid : pmat F -> pmat F -> nat -> nat -> fout (pmat F)) : Prop := forall a c dA dB, nc a = nr c ->
  ~ zero_mat a -> entries_below dA.+1 a -> entries_below (dA + dB).+1 c ->
  exists2 b, mid a c dA dB = Ret b & [/\ nr b = nr a, nc b = nc c & forall i j k, (i < nr a)%N -> (j < nc c)%N ->
    (ent b i j)`_k = if (k <= dB)%N then (\sum_(l < nc a) ent a i l * ent c l j)`_(dA + k) else 0].
Definition pmb_good (pmb : pmat F -> nat -> seq int -> fout (pmat F * seq int)) : Prop := forall pm order shift,
  (0 < order)%N -> (0 < nr pm)%N -> size shift = nr pm ->
  exists a t, [/\ pmb pm order shift = Ret (a, t), mb_correct pm order shift a t & entries_below order.+1 a].

Lemma ann_zero K pm : nc K = nr pm -> plen pm = 0%N -> ann K pm.
Proof. by move=> E /zero_plen Z i j Hi Hj; apply: big1 => k _; rewrite Z ?mulr0 // -E. Qed.

Lemma mem_rcons_l (T : eqType) (x y : T) l : y \in l -> y \in rcons l x.
Proof. by rewrite mem_rcons inE => ->; rewrite orbT. Qed.
Lemma orderP n (s : seq int) : (0 < n <= size s)%N -> (forall i, (i < size s)%N -> -1 <= s`_i) -> (exists2 i, (i < size s)%N & 0 <= s`_i) -> 1 <= zls_order n s.
Proof.
case/andP=> n0 ns H1 [i0 Hi0 H0]; rewrite /zls_order; set q := sort _ s; set L := drop _ q.
have Sq : size q = size s by rewrite size_sort.
have So : sorted (fun x y : int => x <= y) q by apply: sort_sorted => x y; exact: le_total.
have q1 x : x \in L -> -1 <= x by move/mem_drop; rewrite mem_sort => /(nthP 0)[i Hi <-]; exact: H1.
have SL : size L = n by rewrite size_drop Sq; lia.
have last0 : 0 <= L`_n.-1.
  rewrite /L nth_drop; apply: (le_trans H0).
  have : s`_i0 \in q by rewrite mem_sort mem_nth.
  move: (s`_i0) => x Mi; rewrite -(nth_index 0 Mi); have Hx : (index x q < size q)%N by rewrite index_mem.
  have tr : transitive (fun x y : int => x <= y) by move=> u v w; exact: le_trans.
  have rf : reflexive (fun x y : int => x <= y) by exact: lexx.
  by apply: (sorted_leq_nth tr rf 0 So); rewrite ?inE ?Sq //; move: Hx; rewrite Sq; lia.
have fold z (l : seq int) : (forall x, x \in l -> -1 <= x) -> z - (size l)%:Z <= foldl +%R z l.
  elim: l z => [|y l IH] z H /=; first by rewrite subr0.
  have := IH (z + y) (fun x Hx => H x (mem_behead (s := y :: l) Hx)); have := H y (mem_head _ _).
  by move: (foldl _ _ _) (size l) => u k; lia.
move: SL last0 q1; move: L => L; case/lastP: L => [|L x] SL last0 q1; first by rewrite -SL in n0.
rewrite size_rcons in SL; rewrite foldl_rcons; rewrite nth_rcons -SL /= ltnn eqxx in last0.
have := fold 0 L (fun y Hy => q1 y (mem_rcons_l x Hy)).
move: (foldl _ _ _) => u Hu; rewrite -SL.
have : divz (- (u + x)) (size L).+1%:Z <= 0.
  by rewrite -ltz_addr1 ltz_divLR // add0r mul1r; move: Hu last0; move: (size L) => k; lia.
by move: (divz _ _) => w; lia.
Qed.

Lemma merge_all (T : Type) (Q : T -> Prop) (l1 l2 : seq (int * T)) d : (forall i, (i < size l1)%N -> Q (nth d l1 i).2) -> (forall i, (i < size l2)%N -> Q (nth d l2 i).2) ->
  forall i, (i < size (merge_rows l1 l2))%N -> Q (nth d.2 (merge_rows l1 l2) i).
Proof.
have mapP (l : seq (int * T)) : (forall i, (i < size l)%N -> Q (nth d l i).2) -> forall i, (i < size [seq x.2 | x <- l])%N -> Q (nth d.2 [seq x.2 | x <- l] i).
  by move=> H i; rewrite size_map => Hi; rewrite (nth_map d) //; exact: H.
elim: l1 l2 => [|x1 l1 IH] l2 H1 H2; first by move=> i Hi; apply: mapP.
elim: l2 H2 => [|x2 l2 IH2] H2; first by move=> i Hi; apply: (mapP (x1 :: l1)).
rewrite [merge_rows _ _]/=; case: ifP => _ [|i] Hi.
- exact: (H1 0%N).
- by apply: IH => // j Hj; exact: (H1 j.+1).
- exact: (H2 0%N).
- by apply: IH2 => // j Hj; exact: (H2 j.+1).
Qed.

Lemma max_m1 pm : max_element (row_degree pm) = Some (-1) -> plen pm = 0%N.
Proof.
move=> E; apply/zero_plen => i j Hi Hj; have [Sr Hr] := rowdegP pm; have [H _] := max_elementP E.
have := H i; rewrite Sr => /(_ Hi); have [_ /(_ j Hj)] := Hr i Hi => h1 h2.
by apply/eqP; rewrite -size_poly_eq0; move: h1 h2; move: (size _) => q; lia.
Qed.

Variables (pmb : pmat F -> nat -> seq int -> fout (pmat F * seq int)) (mul : pmat F -> pmat F -> fout (pmat F)) (mid : pmat F -> pmat F -> nat -> nat -> fout (pmat F)).
Hypotheses (MR : mul_right mul) (DR : mid_right mid) (PR : pmb_good pmb).

(** products *)
Lemma ann_mul (K2 K1 B C : pmat F) : nc K2 = nr K1 -> nr C = nr K1 -> (forall k j, (k < nr K1)%N -> (j < nc C)%N -> ent C k j = pprod K1 B k j) -> ann K2 C ->
  forall D, nr D = nr K2 -> nc D = nc K1 -> (forall i j, (i < nr K2)%N -> (j < nc K1)%N -> ent D i j = pprod K2 K1 i j) ->
  forall i j, (i < nr D)%N -> (j < nc C)%N -> pprod D B i j = 0.
Proof.
move=> E1 E2 HC A D D1 D2 HD i j Hi Hj; rewrite D1 in Hi; rewrite -[RHS](A i j Hi Hj) /pprod D2.
transitivity (\sum_(k < nc K1) \sum_(l < nc K2) ent K2 i l * (ent K1 l k * ent B k j)).
  by apply: eq_bigr => k _; rewrite HD // /pprod big_distrl /=; apply: eq_bigr => l _; rewrite mulrA.
rewrite exchange_big /=; apply: eq_bigr => l _; rewrite HC -?E1 // /pprod big_distrr /=.
by [].
Qed.

Theorem zls_sound fuel pm shift : (nc pm <= fuel)%N -> size shift = nr pm -> exists K t, kernel_zls pmb mul mid fuel pm shift = Ret (K, t) /\ sound pm K t.
Proof.
elim: fuel pm shift => [|fuel IH] pm shift Hf Ss.
all: set m := nr pm; set n := nc pm.
all: have idS : plen pm = 0%N -> sound pm (pm_ident (new_pmat F) m) shift
  by [move=> E0; have [I1 I2 I3] := pm_identE (new_pmat F) m; split; rewrite ?I1 ?I2 //; apply: ann_zero].
all: have noS k : k = m -> sound pm (no_rows F k) [::] by [move=> ->; split].
all: cbn [kernel_zls]; rewrite -/m -/n.
all: case: eqP => [m1|/eqP m1].
1,3: case: eqP => [E0|_]; [by exists (pm_ident (new_pmat F) 1), shift; split=> //; rewrite -m1; exact: idS|by exists (no_rows F 1), [::]; split=> //; apply: noS].
all: case Fr: (full_rank0 pm); first by [exists (no_rows F m), [::]; split=> //; exact: noS].
all: have [Sr Hr] := rowdegP pm.
all: have m2 : (1 < m)%N.
1,3: have m0 : m != 0%N by [apply: contraFneq Fr => E; rewrite /full_rank0 -/m E /=; apply/eqP/eqP; rewrite -leqn0 rank_leq_row].
1,2: by move: m0 m1; case: (m) => [|[|]].
all: case Em: (max_element _) => [mx|]; last by [move: Em; case: (row_degree pm) Sr => [|? ?] //= E; move: m2; rewrite /m -E].
all: case: eqP => [E1|N1]; first by [rewrite E1 in Em; exists (pm_ident (new_pmat F) m), shift; split=> //; apply: idS; exact: max_m1].
all: have n0 : (0 < n)%N by
  [rewrite lt0n; apply: contra_not_neq N1 => En; have [_ [i Hi ->]] := max_elementP Em; rewrite Sr in Hi; rewrite /row_degree (nth_map 0%N) ?size_iota // -/n En].
  by exfalso; move: Hf; rewrite -/n leqNgt n0.
have Np : plen pm != 0%N.
  apply/eqP=> E0; apply: N1; have [_ [i Hi ->]] := max_elementP Em; rewrite Sr in Hi.
  have [l [El] [_ Hl]] := @C78_row_degree _ pm None I; rewrite /= in El; have [_ H] := Hl (Ordinal Hi); rewrite El; apply: H.
  by apply/rowP=> c; rewrite !mxE; have /zero_plen := E0; apply=> //; rewrite ltn_ord.
case: ltnP => mn.
  (* split of the columns *)
  have n2 : (1 < n)%N by lia.
  have f1 : (nc (take_cols pm 0 n./2) <= fuel)%N by rewrite /=; lia.
  have [K1 [t1 [-> [A1 A2 A3]]]] := IH (take_cols pm 0 n./2) shift f1 Ss; cbn [fbind].
  case: eqP => [_|K10]; first by exists (no_rows F m), [::]; split=> //; exact: noS.
  have [C -> [C1 C2 C3]] := MR (a := K1) (b := take_cols pm n./2 (n - n./2)) A1; cbn [fbind].
  have f2 : (nc C <= fuel)%N by rewrite C2 /=; lia.
  have [|K2 [t2 [-> [B1 B2 B3]]]] := IH C t1 f2; first by rewrite C1.
  cbn [fbind]; rewrite C1 in B1; have [D -> [D1 D2 D3]] := MR B1; cbn [fbind].
  exists D, t2; split=> //; split; rewrite ?D1 ?D2 // => i j Hi Hj; rewrite D1 in Hi.
  case: (ltnP j n./2) => Hj2.
    rewrite /pprod D2; transitivity (\sum_(k < nc K1) \sum_(l < nc K2) ent K2 i l * (ent K1 l k * ent pm k j)).
      by apply: eq_bigr => k _; rewrite D3 // big_distrl /=; apply: eq_bigr => l _; rewrite mulrA.
    rewrite exchange_big /=; apply: big1 => l _; rewrite -big_distrr /=.
    by have := A3 l j; rewrite /pprod /= add0n -B1 => ->; rewrite ?mulr0.
  have := @ann_mul K2 K1 (take_cols pm n./2 (n - n./2)) C B1 C1; rewrite C2 => /(_ C3 B3 D D1 D2 D3 i (j - n./2)%N).
  rewrite D1 => /(_ Hi); rewrite /pprod /= subnKC //; apply; rewrite /n; move: Hj; rewrite -/n; lia.
(* approximant basis *)
set diff := diff_shift shift (row_degree pm); set s' := [seq x - diff | x <- shift].
have Ss' : size s' = m by rewrite size_map.
have [D1 _] : (forall i, (i < size shift)%N -> diff <= shift`_i - (row_degree pm)`_i) /\ _ := diffP (row_degree pm) (ltac:(by rewrite Ss; exact: ltnW) : (0 < size shift)%N).
have s'r i : (i < m)%N -> (row_degree pm)`_i <= s'`_i by move=> Hi; have := D1 i; rewrite (nth_map 0) ?Ss // => /(_ Hi); lia.
have o1 : 1 <= zls_order n s'.
  apply: orderP; rewrite ?Ss'; first by lia.
    by move=> i Hi; have [h _] := Hr i Hi; have := s'r i Hi; lia.
  have [_ [i Hi Ei]] := max_elementP Em; rewrite Sr in Hi; exists i => //; have [h _] := Hr i Hi; have := s'r i Hi.
  by rewrite -Ei in h *; lia.
set order := zls_order n s' in o1 *.
have N0 : (0 < `|order|)%N by lia.
have NE : (`|order|%N)%:Z = order by lia.
have [a [t [-> [[Q1 Q2 Q3] MB] Ea]]] := PR N0 (ltnW m2) Ss'; cbn [fbind].
have [PB PD] := minimal_dinv MB; rewrite -/m -/n in PB PD.
set S1 := [seq i <- iota 0 m | t`_i < order]; set S2 := [seq i <- iota 0 m | ~~ (t`_i < order)].
set A := (\matrix_(i < m, j < n) _) in PB; set P := (\matrix_(i < m, j < m) _) in PB PD.
have dA (l : 'I_m) (j : 'I_n) z : (A l j)`_z != 0 -> z%:Z <= s'`_l - 0.
  move=> Nz; have : (z < size (A l j))%N by rewrite ltnNge; apply: contraNN Nz => /(nth_default 0) ->.
  by rewrite mxE; have [_ /(_ j (ltn_ord j))] := Hr l (ltn_ord l); have := s'r l (ltn_ord l); move: (size _) => q; lia.
have ker1 i j : (i < m)%N -> (j < n)%N -> t`_i < order -> \sum_(k < m) ent a i k * ent pm k j = 0.
  move=> Hi Hj Ti; have /rowP/(_ (Ordinal Hj)) := @app_kernel_row F m n _ A P _ _ PB PD 0 (Ordinal Hi) dA (ltac:(by rewrite NE addr0)).
  by rewrite !mxE => E; rewrite -[RHS]E; apply: eq_bigr => k _; rewrite !mxE.
have out1 : sound pm (take_rows a S1) [seq t`_i | i <- S1].
  split; rewrite ?size_map //= => i j Hi Hj; rewrite /pprod /= Q2; apply: ker1 => //.
    by have := mem_nth 0%N Hi; rewrite mem_filter mem_iota => /andP[_ /andP[]].
  by have := mem_nth 0%N Hi; rewrite mem_filter => /andP[].
case: ifP => [_|Ne]; first by exists (take_rows a S1), [seq t`_i | i <- S1].
have [n1 S1m] : n <> 1%N /\ size S1 <> m by move/negbT: Ne; rewrite !negb_or => /andP[/andP[_ /eqP h1] /eqP h2].
have S12 : (size S1 + size S2 = m)%N by rewrite !size_filter count_predC size_iota.
have S2p : (0 < size S2)%N by move: S1m S12; move: (size S1) (size S2) => x y; lia.
have S2lt i : (i < size S2)%N -> (nth 0%N S2 i < m)%N by move=> Hi; have := mem_nth 0%N Hi; rewrite mem_filter mem_iota => /andP[_ /andP[]].
set N := `|order|%N in N0 NE PB Ea *; set approx := take_rows a S2.
pose u i j := \sum_(k < m) ent a i k * ent pm k j.
have udvd i j : (i < m)%N -> (j < n)%N -> 'X^N %| u i j.
  move=> Hi Hj; have [H _] := PB; have := H (Ordinal Hi) (Ordinal Hj); rewrite mxE.
  by rewrite (eq_bigr (fun k : 'I_m => ent a i k * ent pm k j)) // => k _; rewrite !mxE.
have an0 : ~ zero_mat approx.
  move=> /(_ 0%N (nth 0%N S2 0) S2p) /=; rewrite Q2 -/m => /(_ (S2lt _ S2p)) Z.
  by have := pvt_nz (deg_inv_pvt (Ordinal (S2lt _ S2p)) PD); rewrite !mxE /= Z eqxx.
have pa0 : (0 < plen approx)%N by rewrite lt0n; apply/eqP=> /zero_plen.
have pp0 : (0 < plen pm)%N by rewrite lt0n.
have usz i j : (i < size S2)%N -> (j < n)%N -> (size (u (nth 0%N S2 i) j) <= (plen pm).-1 + (plen approx).-1 + 1)%N.
  move=> Hi Hj; apply: (leq_trans (size_sum _ _ _)); apply/bigmax_leqP => k _; apply: (leq_trans (size_mul_leq _ _)).
  have : (size (ent a (nth 0%N S2 i) k) <= plen approx)%N by apply: (plen_size (a := approx)) => //=; rewrite Q2.
  have : (size (ent pm k j) <= plen pm)%N by apply: plen_size.
  by move: (size (ent a _ _)) (size (ent pm _ _)) pa0 pp0; move: (plen _) (plen _) => x y z w; lia.
have cut : (N <= (plen pm).-1 + (plen approx).-1)%N.
  rewrite leqNgt; apply/negP=> Hc.
  have uz i j : (i < m)%N -> (j < n)%N -> u i j = 0.
    move=> Hi Hj; case Ti: (t`_i < order); first exact: ker1.
    have iS : i \in S2 by rewrite mem_filter Ti mem_iota Hi.
    have Hx : (index i S2 < size S2)%N by rewrite index_mem.
    have := usz _ j Hx Hj; rewrite nth_index // => Su; have /dvdpP[q Eq] := udvd i j Hi Hj.
    apply/polyP=> z; rewrite coef0; case: (ltnP z N) => Hz; first by rewrite Eq coefMXn Hz.
    by rewrite nth_default //; apply: leq_trans Su _; move: Hc Hz; move: (plen _) (plen _) => x y; lia.
  have PA : P *m A = 0 by apply/matrixP=> i j; rewrite !mxE -[RHS](uz i j) //; apply: eq_bigr => k _; rewrite !mxE.
  case/eqP: Np; apply/zero_plen => i j Hi Hj; have [_ [G _]] := PB.
  have [|w Ew] := G ('X^N *: delta_mx 0 (Ordinal Hi)); first by move=> c; rewrite -scalemxAl mxE dvdp_mulr.
  have := congr1 (fun M => (M *m A) 0 (Ordinal Hj)) Ew; rewrite -mulmxA PA mulmx0 -scalemxAl -rowE !mxE => /eqP.
  by rewrite mulf_eq0 expf_eq0 polyX_eq0 andbF => /eqP.
have nca : nc approx = nr pm by rewrite /= Q2.
have [||b -> [b1 b2 b3]] := DR (a := approx) (c := pm) (dA := N) (dB := ((plen pm).-1 + (plen approx).-1 - N)%N) nca an0.
- by move=> i j Hi Hj; apply: Ea; rewrite ?Q1 //; exact: S2lt.
- by move=> i j Hi Hj; apply: leq_trans (plen_size Hi Hj) _; rewrite subnKC //; move: pp0; move: (plen _) (plen _) => x y; lia.
cbn [fbind].
have uE i j : (i < size S2)%N -> (j < n)%N -> u (nth 0%N S2 i) j = 'X^N * ent b i j.
  move=> Hi Hj; apply/polyP=> z; rewrite coefXnM; have /dvdpP[q Eq] := udvd _ j (S2lt _ Hi) Hj.
  case: ltnP => Hz; first by rewrite Eq coefMXn Hz.
  rewrite b3 //=; have -> : \sum_(l < nc a) ent a (nth 0%N S2 i) l * ent pm l j = u (nth 0%N S2 i) j by rewrite Q2.
  case: leqP => Hd; first by rewrite subnKC.
  by rewrite nth_default //; apply: leq_trans (usz _ _ Hi Hj) _; move: Hd cut Hz; move: ((plen _).-1) ((plen _).-1) => x y; lia.
have n2 : (1 < n)%N by lia.
have f1 : (nc (take_cols b 0 n./2) <= fuel)%N by rewrite /=; lia.
have [|K1 [t1 [-> [A1 A2 A3]]]] := IH (take_cols b 0 n./2) [seq t`_i | i <- S2] f1; first by rewrite /= size_map b1.
cbn [fbind]; have [C -> [C1 C2 C3]] := MR (a := K1) (b := take_cols b n./2 (n - n./2)) A1; cbn [fbind].
have f2 : (nc C <= fuel)%N by rewrite C2 /=; lia.
have [|K2 [t2 [-> [B1 B2 B3]]]] := IH C t1 f2; first by rewrite C1.
cbn [fbind]; case: eqP => [_|K20]; first by exists (take_rows a S1), [seq t`_i | i <- S1].
rewrite /= b1 /= in A1; rewrite C1 in B1.
have [M -> [M1 M2 M3]] := MR (a := K1) (b := approx) A1; cbn [fbind].
have [|R -> [R1 R2 R3]] := MR (a := K2) (b := M); first by rewrite M1.
cbn [fbind]; rewrite M2 /= Q2 -/m in R2.
have [|pivs Ep _] := @C78_row_pivots _ R (Some s'); first by rewrite /= Ss' R2; split=> //; exact: ltnW.
rewrite /= in Ep; rewrite Ep; cbn [fbind].
have z1 i j : (i < nr K2)%N -> (j < n)%N -> \sum_(l < nc K2) ent K2 i l * (\sum_(q < nc K1) ent K1 l q * ent b q j) = 0.
  move=> Hi Hj; case: (ltnP j n./2) => Hj2.
    apply: big1 => l _; have Hl : (l < nr K1)%N by rewrite -B1.
    by have := A3 l j Hl Hj2; rewrite /pprod /= add0n => ->; rewrite mulr0.
  have Hj3 : (j - n./2 < n - n./2)%N by lia.
  have := B3 i (j - n./2)%N Hi; rewrite C2 => /(_ Hj3); rewrite /pprod => E; rewrite -[RHS]E; apply: eq_bigr => l _.
  by rewrite C3 -?B1 //= subnKC.
have R0 i j : (i < nr K2)%N -> (j < n)%N -> \sum_(k < m) ent R i k * ent pm k j = 0.
  move=> Hi Hj.
  transitivity (\sum_(k < m) \sum_(l < nc K2) \sum_(q < nc K1) ent K2 i l * ent K1 l q * (ent a (nth 0%N S2 q) k * ent pm k j)).
    apply: eq_bigr => k _; rewrite R3 ?M2 //=; last by rewrite Q2.
    rewrite big_distrl /=; apply: eq_bigr => l _; rewrite M3 -?B1 //=; last by rewrite Q2.
    by rewrite big_distrr big_distrl /=; apply: eq_bigr => q _; rewrite !mulrA.
  transitivity ('X^N * \sum_(l < nc K2) ent K2 i l * (\sum_(q < nc K1) ent K1 l q * ent b q j)); last by rewrite z1 // mulr0.
  rewrite exchange_big /= big_distrr /=; apply: eq_bigr => l _.
  rewrite exchange_big /= mulrCA big_distrr /= big_distrr /=; apply: eq_bigr => q _.
  rewrite -big_distrr /= -/(u _ j) uE -?A1 //.
  by rewrite -mulrA; congr (_ * _); rewrite mulrCA.
eexists; eexists; split; first by reflexivity.
split=> //=; first by rewrite size_map.
move=> i j Hi Hj; rewrite /= in Hi; rewrite /pprod /=.
pose Q (f : (nat -> {poly F}) * int) := forall j, (j < n)%N -> \sum_(k < m) f.1 k * ent pm k j = 0.
have := @merge_all _ Q _ _ (0, (fun _ => 0, 0)) _ _ i Hi; apply=> //.
- move=> c; rewrite size_map => Hc c' Hc'; rewrite (nth_map 0%N) //=; apply: ker1 => //.
    by have := mem_nth 0%N Hc; rewrite mem_filter mem_iota => /andP[_ /andP[]].
  by have := mem_nth 0%N Hc; rewrite mem_filter => /andP[].
move=> c; rewrite size_map size_iota => Hc c' Hc'; rewrite (nth_map 0%N) ?size_iota // nth_iota //= add0n; apply: R0 => //.
by rewrite -R1.
Qed.
End Z.
