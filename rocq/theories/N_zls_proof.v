(** The algorithm of Zhou, Labahn and Storjohann (ntl-extras): one column, and a wrong early exit. *)
From Coq Require Import ZArith.
From mathcomp Require Import all_ssreflect all_algebra fraction zify.
From Verif Require Import A_base SpecA SpecForms SpecApp A_mbasis_abs A_kernel_model A_kernel_abs A_kernel_proof A_frac_proof A_zls_abs A_zls2_proof N_pmat_model N_trs_proof N_util_model N_util_proof
  N_forms_model N_forms_proof P_ntrs P_nforms P_nappbas N_popov_proof N_pmb_model P_nmb N_ker_model N_ker_proof.
Set Implicit Arguments.
Unset Strict Implicit.
Unset Printing Implicit Defensive.
Import Order.TTheory GRing.Theory Num.Theory.
Local Open Scope ring_scope.

Section Z.
Variable F : fieldType.
Implicit Types (pm a : pmat F) (shift t : seq int).

Lemma rowdegP pm : size (row_degree pm) = nr pm /\ forall i, (i < nr pm)%N ->
  -1 <= (row_degree pm)`_i /\ (forall j, (j < nc pm)%N -> (size (ent pm i j))%:Z <= (row_degree pm)`_i + 1).
Proof.
have [l [<-] [Sl H]] := @C78_row_degree _ pm None I; split=> // i Hi; have [H1 H2] := H (Ordinal Hi).
case: (eqVneq (row (Ordinal Hi) (mat pm)) 0) => [Z|N].
  have /= -> := H2 Z; split=> // j Hj; have /rowP/(_ (Ordinal Hj)) := Z; rewrite !mxE /= => ->; by rewrite size_poly0.
have [B [j0 N0 E0]] := H1 N; rewrite /= in B E0 *; split.
  by rewrite -E0 /sdeg /=; move: (size _) => q; lia.
move=> j Hj; have := B (Ordinal Hj); rewrite !mxE /sdeg /=; case: (eqVneq (ent pm i j) 0) => [->|Nz /(_ isT)].
  by move=> _; rewrite size_poly0 -E0 /sdeg /=; move: (size _) => q; lia.
by move: (size _) => q; lia.
Qed.

Lemma diffP shift rdeg : (0 < size shift)%N -> (forall i, (i < size shift)%N -> diff_shift shift rdeg <= shift`_i - rdeg`_i) /\
  exists2 i, (i < size shift)%N & diff_shift shift rdeg = shift`_i - rdeg`_i.
Proof.
case: shift => // x sh _; rewrite /diff_shift; set s := x :: sh; rewrite [(size s).-1]/=.
suff H l : (forall i, (i <= l)%N -> foldl (fun d i => if s`_i - rdeg`_i < d then s`_i - rdeg`_i else d) (s`_0 - rdeg`_0) (iota 1 l) <= s`_i - rdeg`_i) /\
    exists2 i, (i <= l)%N & foldl (fun d i => if s`_i - rdeg`_i < d then s`_i - rdeg`_i else d) (s`_0 - rdeg`_0) (iota 1 l) = s`_i - rdeg`_i.
  by have [H1 H2] := H (size sh).
elim: l => [|l [IH1 [i0 Hi0 E0]]]; first by split=> [i|]; [rewrite leqn0 => /eqP ->|exists 0%N].
rewrite -[X in iota 1 X]addn1 iotaD foldl_cat [foldl _ (foldl _ _ _) _]/= add1n; split=> [i|].
  by rewrite leq_eqVlt ltnS => /orP[/eqP ->|/IH1]; case: ltP => // h1 h2; [exact: le_trans (ltW h1) h2].
by case: ltP => _; [exists l.+1|exists i0 => //; exact: leqW].
Qed.

Lemma order1P s : (0 < size s)%N -> exists2 mx, zls_order 1 s = 2 * mx + 1 & (forall i, (i < size s)%N -> s`_i <= mx) /\ mx \in s.
Proof.
move=> s0; rewrite /zls_order; set q := sort _ s.
have Sq : size q = size s by rewrite size_sort.
have q0 : (0 < size q)%N by rewrite Sq.
have dq : drop (size s - 1) q = [:: q`_(size s).-1].
  by rewrite subn1 (drop_nth 0) ?Sq ?prednK // drop_oversize // Sq.
rewrite dq; exists q`_(size s).-1; first by rewrite /= add0r divz1 opprK.
have So : sorted (fun x y : int => x <= y) q by apply: sort_sorted => x y; exact: le_total.
split; last by rewrite -(mem_sort (fun x y : int => x <= y)) mem_nth // Sq prednK.
move=> i Hi; have : s`_i \in q by rewrite mem_sort mem_nth.
move: (s`_i) => x Mi; rewrite -(nth_index 0 Mi); have Hx : (index x q < size q)%N by rewrite index_mem.
have tr : transitive (fun x y : int => x <= y) by move=> u v w; exact: le_trans.
have rf : reflexive (fun x y : int => x <= y) by exact: lexx.
by apply: (sorted_leq_nth tr rf 0 So); rewrite ?inE ?Sq ?prednK //; move: Hx; rewrite Sq; lia.
Qed.

(** the iterative algorithm gives minimal approximant bases *)
Definition iterative_pmb pm (o : nat) (s : seq int) : fout (pmat F * seq int) :=
  if N_appbas_model.appbas_iterative (new_pmat F) pm (nseq (nc pm) o) s false is AOk r then Ret r else Undef.
Lemma iterative_at pm o shift : (0 < o)%N -> size shift = nr pm -> pmb_at iterative_pmb pm o shift.
Proof.
move=> o0 Ss.
have [|a [t [E S [B W R]]]] := @C79_appbas_iterative F (new_pmat F) pm (nseq (nc pm) o) shift false.
  by split; rewrite ?size_nseq // => j Hj; rewrite nth_nseq Hj.
exists a, t; rewrite /iterative_pmb E; split=> //; split=> //; split=> //.
have Q v : approximants (nth 0%N (nseq (nc pm) o)) (\matrix_(i < nr pm, j < nc pm) ent pm i j) v <->
   approximants (fun _ => o) (\matrix_(i < nr pm, j < nc pm) ent pm i j) v.
  by split=> H j; have := H j; rewrite nth_nseq ltn_ord.
case: B => B1 [B2 B3]; split=> [i|]; first exact/Q.
by split=> // v /Q; exact: B2.
Qed.

(** every matrix has a kernel basis *)
Lemma kb_exists pm shift : size shift = nr pm -> exists k (K : 'M[{poly F}]_(k, nr pm)) pi tK,
  kb (fun i : 'I_(nr pm) => shift`_i) (mx_of (nr pm) (nc pm) (ent pm)) K pi tK.
Proof.
move=> Ss.
have [|K [piv [t [_ _ _ _ /mkb_kb[pi _ KB]]]]] := @via_approximationP F iterative_pmb (new_pmat F) pm shift Ss; last by exists (nr K), (mx_of (nr K) (nr pm) (ent K)), pi, (fun i => t`_i).
by move=> amp Ea; apply: iterative_at => //; rewrite /kernel_via_order addn1.
Qed.

Lemma pvt_addc m (s : 'I_m -> int) c (v : 'rV[{poly F}]_m) k e : pvt (fun i => s i - c) v k e -> pvt s v k (e + c).
Proof.
move=> [[z E N] H]; split; first by exists z => //; lia.
by move=> j y /H; lia.
Qed.
Lemma kb_addc m n k (s : 'I_m -> int) c (A : 'M[{poly F}]_(m, n)) (K : 'M[{poly F}]_(k, m)) pi (t : 'I_k -> int) :
  kb (fun i => s i - c) A K pi t -> kb s A K pi (fun i => t i + c).
Proof. by case=> h1 h2 h3; split=> // i; exact: pvt_addc. Qed.

Lemma one_columnP pmb mul mid fuel pm shift : nc pm = 1%N -> (1 < nr pm)%N -> plen pm != 0%N -> size shift = nr pm ->
  let diff := diff_shift shift (row_degree pm) in let s' := [seq x - diff | x <- shift] in
  pmb_at pmb pm `|zls_order 1 s'| s' -> exists kerbas piv t,
  [/\ kernel_zls pmb mul mid fuel pm shift = Ret (kerbas, t), nc kerbas = nr pm, size piv = nr kerbas, size t = nr kerbas &
    mkb (fun i : 'I_(nr pm) => nth 0 s' i) (mx_of (nr pm) (nc pm) (ent pm)) (mx_of (nr kerbas) (nr pm) (ent kerbas)) (nth 0%N piv) (nth 0 t)].
Proof.
move=> n1 m2 Np Ss diff s' [a [t [Epmb [[Q1 Q2 Q3] MB]]]].
set m := nr pm in m2 Ss *; set A := mx_of m (nc pm) (ent pm).
have Ss' : size s' = m by rewrite size_map.
have s'E i : (i < m)%N -> s'`_i = shift`_i - diff by move=> Hi; rewrite (nth_map 0) ?Ss.
have [Sr Hr] := rowdegP pm.
have s0 : (0 < size shift)%N by rewrite Ss; exact: ltnW.
have [D1 _] := diffP (row_degree pm) s0; rewrite -/diff in D1.
have s'r i : (i < m)%N -> (row_degree pm)`_i <= s'`_i by move=> Hi; have := D1 i; rewrite s'E // Ss => /(_ Hi); lia.
have s0' : (0 < size s')%N by rewrite Ss' -Ss.
have [mx Eo [Hmx _]] := order1P s0'; rewrite Ss' in Hmx.
have [i0 [Hi0 Ri0]] : exists i, (i < m)%N /\ 0 <= (row_degree pm)`_i.
  have [i [j [Hi [Hj Nz]]]] : exists i j, (i < m)%N /\ (j < nc pm)%N /\ ent pm i j != 0.
    case/boolP: [exists i : 'I_m, [exists j : 'I_(nc pm), ent pm i j != 0]] => [/existsP[i /existsP[j Nz]]|/existsPn H].
      by exists i, j.
    case/eqP: Np; apply/zero_plen => i j Hi Hj; have /existsPn/(_ (Ordinal Hj)) := H (Ordinal Hi).
    by rewrite negbK => /eqP.
  exists i; split=> //; have [_ /(_ j Hj)] := Hr i Hi; move: Nz; rewrite -size_poly_gt0; move: (size _) => q; lia.
have mx0 : 0 <= mx by have := s'r _ Hi0; have := Hmx _ Hi0; lia.
set order := zls_order 1 s' in Epmb MB Eo.
have NE : (absz order)%:Z = order by rewrite Eo; lia.
have [PB PD] := minimal_dinv MB; rewrite -/m in PB PD.
pose p i := t`_i < order; pose S1 := [seq i <- iota 0 m | p i].
have SmemE i : (i \in S1) = p i && (i < m)%N by rewrite mem_filter mem_iota.
exists (take_rows a S1), S1, [seq t`_i | i <- S1]; split.
- have [mr Em Hm] : exists2 mr, max_element (row_degree pm) = Some mr & 0 <= mr.
    case Em: (max_element _) => [mr|]; last by move: Em; case: (row_degree pm) Sr => [|? ?] //= E; move: m2; rewrite /m -E.
    by exists mr => //; have [H _] := max_elementP Em; have := H i0; rewrite Sr => /(_ Hi0); lia.
  have mr1 : (mr == -1) = false by apply/eqP; lia.
  case: fuel => [|fuel]; cbn [kernel_zls]; rewrite -/m n1 gtn_eqF // /full_rank0 -/m n1 leqNgt m2 [~~ _ && _]/= Em mr1 muln1 ltnNge m2 [~~ _]/=;
    rewrite -/diff -/s' -/order Epmb [fbind _ _]/= -/p -/S1 eqxx orbT; by [].
- by rewrite /= Q2.
- by [].
- by rewrite size_map.
pose sI (i : 'I_m) := s'`_i.
rewrite /=; have := @sel_mkb F m (nc pm) (ent a) (nth 0 s') (nth 0 t) PD S1 p erefl A; apply.
pose g1 := sel_idx (erefl S1 : S1 = [seq i <- iota 0 m | p i]).
have gI1 : incr g1 by move=> b c bc; exact: (sel_incr (erefl S1) bc).
have dd (i : 'I_m) (j : 'I_(nc pm)) : (size (A i j) <= (absz mx).+1)%N.
  by rewrite mxE; have [_ /(_ j (ltn_ord j))] := Hr i (ltn_ord i); have := s'r i (ltn_ord i); have := Hmx i (ltn_ord i); move: (size _) => q; lia.
have dA l j z : (A l j)`_z != 0 -> z%:Z <= sI l - 0.
  move=> Nz; have : (z < size (A l j))%N by rewrite ltnNge; apply: contraNN Nz => /(nth_default 0) ->.
  by rewrite mxE /sI; have [_ /(_ j (ltn_ord j))] := Hr l (ltn_ord l); have := s'r l (ltn_ord l); move: (size _) => q; lia.
have PA1 : rowsub g1 (mx_of m m (ent a)) *m A = 0.
  apply/row_matrixP=> b; rewrite row_mul row0.
  have -> : row b (rowsub g1 (mx_of m m (ent a))) = row (g1 b) (mx_of m m (ent a)) by apply/rowP=> j; rewrite !mxE.
  apply: (app_kernel_row PB PD dA); rewrite NE addr0.
  by have : p (g1 b) by apply/(sel_idxP (erefl S1)); exists b.
have [k [K [pi [tK KB]]]] := kb_exists Ss'; rewrite -/m -/A in K pi KB.
have cov (v : 'rV_m) j e : v *m A = 0 -> pvt sI v j e -> exists b, g1 b = j.
  move=> vA V; apply/(sel_idxP (erefl S1)); have [c Ec _] := kb_pivot KB vA V.
  have := app_le PB PD KB c; rewrite Ec => T1; apply: (le_lt_trans T1); rewrite Eo.
  have [KBb _ KI] := KB; have J := incr_inj KI.
  have := kb_degsum KB (d := fun _ => absz mx) dd; rewrite (bigD1 c) //= Ec.
  set S := \sum_(i < k | _) _; have S0 : 0 <= S by apply: sumr_ge0 => b _; rewrite (kb_delta b KB); lia.
  rewrite sum_nat_const; have -> : #|[pred i | i \notin codom pi]| = (m - k)%N.
    have := cardC (mem (codom pi)); rewrite (card_codom J) !card_ord => cE; rewrite -[X in _ = (X - _)%N]cE addKn.
    by apply: eq_card => i; rewrite !inE.
  have := kernel_basis_rows KBb => kE.
  have rk : (m - k <= 1)%N by have := rank_leq_col (map_mx (@FracField.tofrac [idomainType of {poly F}]) A); move: (\rank _) kE => r; rewrite n1; lia.
  have := Hmx j (ltn_ord j); have : ((m - k) * absz mx <= absz mx)%N by case: (m - k)%N rk => [|[|]] //= _; rewrite ?mul0n ?mul1n.
  by move: S S0 (s'`_j) ((m - k) * _)%N => S S0 u w; lia.
have [w1 w2 w3] : kb sI A (rowsub g1 (mx_of m m (ent a))) g1 (fun b => t`_(g1 b)); last by [].
pose S2 := [seq i <- iota 0 m | ~~ p i].
pose g2 := sel_idx (erefl S2 : S2 = [seq i <- iota 0 m | (predC p) i]).
have gI2 : incr g2 by move=> b c bc; exact: (@sel_incr m S2 (predC p) erefl _ _ bc).
apply: (app_done PB PD gI1 gI2 _ _ PA1 cov).
  move=> i; case Pi: (p i); [left; exact/(sel_idxP (erefl S1))|right].
  by apply/(@sel_idxP m S2 (predC p) erefl); rewrite /= Pi.
move=> b c; have Pb : p (g1 b) by apply/(sel_idxP (erefl S1)); exists b.
have : predC p (g2 c) by apply/(@sel_idxP m S2 (predC p) erefl); exists c.
by apply: contraNneq => <-.
Qed.

(** the exit at lines 473-486 is taken too early on this matrix, with the shift (0,0,0,0,0,100) *)
Definition exit_mat : pmat F := Pmat 6 3 (fun i j => if (i == j) || ((i == 5%N) && (j == 0%N)) then 1 else 0).
Definition exit_shift : seq int := [:: 0; 0; 0; 0; 0; 100].

Lemma exit_rdeg : row_degree exit_mat = [:: 0; 0; 0; -1; -1; 0].
Proof. by rewrite /row_degree /= /line_degree /= /pdeg ?size_poly1 ?size_poly0 ?eqxx ?oner_eq0 /=. Qed.
Lemma exit_order : zls_order 3 exit_shift = 69. Proof. by vm_compute. Qed.

Lemma exit_zls pmb mul mid fuel : pmb_at pmb exit_mat 69 exit_shift -> exists kerbas t,
  [/\ kernel_zls pmb mul mid fuel exit_mat exit_shift = Ret (kerbas, t), nr kerbas = 2%N &
      forall i, (i < 2)%N -> ent kerbas i 5%N = 0].
Proof.
move=> [a [t [Epmb [[Q1 Q2 Q3] MB]]]].
have [PB PD] := minimal_dinv MB; rewrite /= in Q1 Q2 Q3 PB PD.
set A := (\matrix_(i < 6, j < 3) _) in PB; set P := (\matrix_(i < 6, j < 6) _) in PB PD.
have V (i : 'I_6) := deg_inv_pvt i PD.
have ge0 (i : 'I_6) : exit_shift`_i <= t`_i by have [[z <- _] _] := V i; move: (exit_shift`_i) => u; lia.
have col5 (i : 'I_6) : t`_i < 100 -> ent a i 5%N = 0.
  move=> Ti; apply/polyP=> z; rewrite coef0; apply/eqP/negPn/negP => Nz.
  have [_ /(_ (Ordinal (isT : (5 < 6)%N)) z)] := V i; rewrite !mxE => /(_ Nz); rewrite [exit_shift`_ _]/=.
  by move: (t`_i) (i < _)%N Ti => u b; case: b; lia.
have zrow (i : 'I_6) : (2 < i < 5)%N -> t`_i = 0.
  move=> Hi; have Z : exit_shift`_i = 0 by case/andP: Hi; case: (i : nat) => [|[|[|[|[|]]]]].
  have [w Ew] : exists w : 'rV_6, (delta_mx 0 i : 'rV[{poly F}]_6) = w *m P.
    have [_ [G _]] := PB; apply: (G (delta_mx 0 i)) => j; rewrite -rowE !mxE /=.
    by rewrite (_ : (_ || _) = false) ?dvdp0 //; case/andP: Hi; have := ltn_ord j; case: (i : nat) (j : nat) => [|[|[|[|[|]]]]] // [|[|[|]]].
  have Vd : pvt (fun i : 'I_6 => exit_shift`_i) (delta_mx 0 i : 'rV[{poly F}]_6) i 0.
    split; first by exists 0%N; [rewrite Z|rewrite mxE !eqxx coef1 oner_eq0].
    move=> j z; rewrite mxE eqxx /=; case: (eqVneq j i) => [->|]; last by rewrite coef0 eqxx.
    by rewrite coef1; case: z => [|z]; rewrite ?eqxx // Z ltnn.
  have w0 : w != 0 by apply: contraNneq (oner_neq0 [ringType of {poly F}]) => w0; move: Ew; rewrite w0 mul0mx => /rowP/(_ i); rewrite !mxE !eqxx /= => E; apply/eqP.
  have [k [e Vw]] := pvt_exists (fun i : 'I_6 => t`_i) w0.
  have id6 : incr (id : 'I_6 -> 'I_6) by [].
  have Vp : pvts (fun i : 'I_6 => exit_shift`_i) P id (fun i => t`_i) by [].
  have := pvt_mulr id6 Vp Vw; rewrite -Ew => /(pvt_uniq Vd)[Ek Ee]; rewrite /= in Ek; rewrite -Ek -Ee in Vw.
  by have [[z Ez _] _] := Vw; have := ge0 i; rewrite Z; move: Ez; move: (t`_i) => u; lia.
have big3 (i : 'I_6) : (i < 3)%N -> ~~ (t`_i < 69).
  move=> Hi; apply/negP => Ti; have [App _] := PB.
  have := App i (Ordinal Hi); rewrite mxE.
  have -> : \sum_j row i P 0 j * A j (Ordinal Hi) = ent a i i.
    rewrite (bigD1 i) //= big1 ?addr0 => [|j Nj]; first by rewrite !mxE /= eqxx mulr1.
    rewrite !mxE /=; case: ifP => [/orP[E|/andP[/eqP E _]]|]; rewrite ?mulr0 //.
      by case/eqP: Nj; apply/val_inj/eqP.
    by rewrite E col5 ?mul0r //; move: Ti; move: (t`_i) => u; lia.
  have [[z Ez Nz] _] := V i; rewrite !mxE in Nz; move: Ez; have -> : exit_shift`_i = 0 by case: (i : nat) Hi => [|[|[|]]].
  move=> Ez /dvdpP[q Eq]; case/eqP: Nz; rewrite Eq coefMXn ifT //; move: Ti; move: (t`_i) Ez => u; lia.
have t5 : ~~ (t`_5 < 69) by have := ge0 (Ordinal (isT : (5 < 6)%N)); rewrite /=; move: (t`_5) => u; lia.
have S1E : [seq i <- iota 0 6 | t`_i < 69] = [:: 3; 4]%N.
  rewrite /= (negbTE (big3 (Ordinal (isT : (0 < 6)%N)) isT)) (negbTE (big3 (Ordinal (isT : (1 < 6)%N)) isT)) (negbTE (big3 (Ordinal (isT : (2 < 6)%N)) isT)).
  by rewrite (zrow (Ordinal (isT : (3 < 6)%N)) isT) (zrow (Ordinal (isT : (4 < 6)%N)) isT) (negbTE t5).
have S2E : [seq i <- iota 0 6 | ~~ (t`_i < 69)] = [:: 0; 1; 2; 5]%N.
  rewrite /= (big3 (Ordinal (isT : (0 < 6)%N)) isT) (big3 (Ordinal (isT : (1 < 6)%N)) isT) (big3 (Ordinal (isT : (2 < 6)%N)) isT).
  by rewrite (zrow (Ordinal (isT : (3 < 6)%N)) isT) (zrow (Ordinal (isT : (4 < 6)%N)) isT) t5.
have pd i (Hi : (i < 6)%N) : (2 < i < 5)%N -> pdeg (ent a i i) = 0.
  move=> H; have := pvt_size (V (Ordinal Hi)); rewrite !mxE /= (zrow (Ordinal Hi) H) /pdeg => ->.
  by case/andP: H; case: (i) Hi => [|[|[|[|[|]]]]].
exists (take_rows a [:: 3; 4]%N), [seq t`_i | i <- [:: 3; 4]%N]; split=> //; last first.
  have c5 i (Hi : (i < 6)%N) : (2 < i < 5)%N -> ent a i 5%N = 0 by move=> H; apply: (col5 (Ordinal Hi)); rewrite (zrow (Ordinal Hi) H).
  by case=> [|[|i]] // _; exact: c5.
have mE : max_element [:: 0; 0; 0; -1; -1; 0] = Some 0 by [].
have m1 : (0 == -1 :> int) = false by [].
have dE : diff_shift exit_shift [:: 0; 0; 0; -1; -1; 0] = 0 by [].
have sE : [seq x - 0 | x <- exit_shift] = exit_shift by [].
case: fuel => [|fuel]; cbn [kernel_zls]; rewrite [nr exit_mat]/= [nc exit_mat]/= /full_rank0 [(nr _ <= nc _)%N]/= [6%N == 1%N]/= andFb exit_rdeg mE m1 [(6 < _)%N]/= dE sE exit_order;
  rewrite [absz 69]/= Epmb; cbn [fbind]; by rewrite S1E S2E /= !pd.
Qed.
End Z.
