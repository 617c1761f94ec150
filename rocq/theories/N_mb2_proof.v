(** The loops of mbasis_plain, mbasis_rescomp and mbasis_resupdate. *)
From Coq Require Import ZArith.
From mathcomp Require Import all_ssreflect all_algebra zify.
From Verif Require Import A_base SpecA SpecKer A_mul_model A_mbasis_model A_mbasis_abs A_mbasis_proof N_pmat_model N_util_model N_util_proof N_trs_proof
  N_mid_proof N_forms_model N_mb_model N_mb_proof.
Set Implicit Arguments.
Unset Strict Implicit.
Unset Printing Implicit Defensive.
Import Order.TTheory GRing.Theory Num.Theory.
Local Open Scope ring_scope.

Section Loops.
Variable F : fieldType.
Variables ker img : nat -> nat -> fmat F -> nat * fmat F.
Hypothesis KO : forall m n A, left_kernel_of m n A (ker m n A).1 (ker m n A).2.
Hypothesis IO : forall k m A, image_of k m A (img k m A).1 (img k m A).2.

(** the two exceptional cases *)
Definition inj_rows m n (R : fmat F) : Prop :=
  forall c : nat -> F, (forall j, (j < n)%N -> \sum_(l < m) c l * R l j = 0) -> forall l, (l < m)%N -> c l = 0.
Definition zero_mat m n (R : fmat F) : Prop := forall i j, (i < m)%N -> (j < n)%N -> R i j = 0.

Lemma kernel0 m n R K sh : let ps := find_shift_permutation m sh in
  left_kernel_of m n (fun i j => R (nth 0%N ps i) j) 0 K -> inj_rows m n R.
Proof.
move=> ps /kernel_of_mx[_ G _] c Hc l Hl; have PS : perm_eq ps (iota 0 m) := fsp_perm m sh.
have [|w Ew] := G (fun l => c (nth 0%N ps l)).
  by move=> j Hj; rewrite -[RHS](Hc j Hj) (pv_sum PS (fun l => c l * R l j)).
by rewrite -(pv_nth_index PS Hl) Ew ?(pv_index_lt PS) // big_ord0.
Qed.

Lemma kernelm m n R K sh : let ps := find_shift_permutation m sh in
  left_kernel_of m n (fun i j => R (nth 0%N ps i) j) m K -> zero_mat m n R.
Proof.
move=> ps [_ _ /eqP]; rewrite -[X in _ == X]addn0 eqn_add2l mxrank_eq0 => /eqP Z i j Hi Hj.
have PS : perm_eq ps (iota 0 m) := fsp_perm m sh.
have /matrixP/(_ (Ordinal (pv_index_lt PS Hi)) (Ordinal Hj)) := Z.
by rewrite !mxE /= (pv_nth_index PS Hi).
Qed.

(** the outcome of the base case: number of rows of the kernel, kernel, sorted pivots *)
Definition base_outcome m n (R : fmat F) (sh : nat -> int) (k : nat) (K : fmat F) (pv : seq nat) : Prop :=
  [\/ k = 0%N /\ inj_rows m n R, k = m /\ zero_mat m n R | (0 < k < m)%N /\ good_base m n R sh k K pv].

Lemma mb_baseP m n R st : match mb_base ker img m n R st with
  | AOk Empty => inj_rows m n R
  | AOk Full => zero_mat m n R
  | AOk (Usual k K pv _) => good_base m n R (nth 0 (csh st)) k K pv
  | AUB => False
  end.
Proof.
rewrite /mb_base; set ps := find_shift_permutation _ _; set R' := fun i j => R (nth 0%N ps i) j.
have := KO m n R'; move: (ker m n R') => [k pk] /= LK.
case: eqP => [E|_]; first by move: LK; rewrite E; exact: kernel0.
case: eqP => [E|_]; first by move: LK; rewrite E; exact: kernelm.
have [[K' pp] -> /= [LK' SH]] := shapeP (cpiv st) IO LK.
rewrite perm_rows_sorted; first exact: back_good LK' SH.
by rewrite size_map; case: SH.
Qed.

Lemma mbasis1P m n R shift : exists k K pd, mbasis1 ker img m n R shift = AOk (k, K, pd) /\
  [\/ [/\ k = 0%N, inj_rows m n R & pd = nseq m 1%N], [/\ (0 < k)%N, k = m, zero_mat m n R, pd = nseq m 0%N & left_kernel_of m n (fun i j => R (nth 0%N (find_shift_permutation m (nth 0 shift)) i) j) k K /\ K = (ker m n (fun i j => R (nth 0%N (find_shift_permutation m (nth 0 shift)) i) j)).2] |
      exists2 pv, (0 < k < m)%N /\ good_base m n R (nth 0 shift) k K pv & pd = pivdeg_of m pv].
Proof.
rewrite /mbasis1; set ps := find_shift_permutation _ _; set R' := fun i j => R (nth 0%N ps i) j.
have := KO m n R'; case EK: (ker m n R') => [k pk] /= LK.
case: eqP => [E|/eqP N0].
  by exists k, pk, (nseq m 1%N); split=> //; constructor 1; split=> //; move: LK; rewrite E; exact: kernel0.
case: eqP => [E|/eqP Nm].
  exists k, pk, (nseq m 0%N); split=> //; constructor 2; split=> //; first by rewrite lt0n.
  by move: LK; rewrite E; exact: kernelm.
have [[K' pp] -> /= [LK' SH]] := shapeP [::] IO LK.
do 3 eexists; split; first by []; constructor 3; exists (sort leq (pivind_of ps pp)).
  split; last exact: back_good LK' SH.
  case: LK => _ _ HH; move: HH N0 Nm; move: (\rank _) => rr; lia.
by apply: eq_map => i; rewrite mem_sort.
Qed.

(** sorted pivots: the row of i is the number of pivots before i *)
Lemma count_index (pv : seq nat) i : sorted ltn pv -> i \in pv -> count (mem pv) (iota 0 i) = index i pv.
Proof.
move=> So Hi; have Uv := sorted_uniq ltn_trans ltnn So.
rewrite -size_filter -[in RHS](size_takel (index_size i pv)); apply: perm_size; apply: uniq_perm.
- by rewrite filter_uniq ?iota_uniq.
- exact: take_uniq.
have mono x y : x \in pv -> y \in pv -> (index x pv < index y pv)%N -> (x < y)%N.
  move=> Hx Hy L; rewrite -(nth_index 0%N Hx) -(nth_index 0%N Hy).
  by apply: (sorted_ltn_nth ltn_trans 0%N So) => //; rewrite inE index_mem.
move=> x; rewrite mem_filter mem_iota add0n /= in_take_leq ?index_size //; apply/andP/idP => [[Hx Lx]|Lx].
  case: (ltngtP (index x pv) (index i pv)) => // C; first by have := mono _ _ Hi Hx C; lia.
  by move: Lx; rewrite -(nth_index 0%N Hx) -(nth_index 0%N Hi) C ltnn.
have Hx : x \in pv by rewrite -index_mem (ltn_trans Lx) // index_mem.
by split=> //; exact: mono.
Qed.

Lemma sum_window (R : zmodType) (f : nat -> R) lo len N : (forall e, (lo <= e < lo + len)%N -> (N <= e)%N -> f e = 0) ->
  (forall e, (e < N)%N -> ~~ (lo <= e < lo + len)%N -> f e = 0) -> \sum_(e <- iota lo len) f e = \sum_(e < N) f e.
Proof.
move=> H1 H2; pose B := (N + (lo + len))%N.
have E1 : \sum_(e <- iota lo len) f e = \sum_(lo <= e < lo + len) f e by rewrite /index_iota addKn.
rewrite E1 -(big_mkord xpredT f) (@big_nat_widen _ _ _ lo (lo + len) B) ?(@big_nat_widen _ _ _ 0 N B) /B; try lia.
rewrite (@big_nat_widenl _ _ _ lo 0) // big_mkcond [RHS]big_mkcond; apply: eq_big_nat => e _ /=.
case: ifPn => [/andP[a b]|a]; case: ifPn => // b'; first by apply: H1; lia.
by rewrite H2 //; move: a; lia.
Qed.

Lemma coef_mulmx m n (P : 'M[{poly F}]_m) (A : 'M[{poly F}]_(m, n)) i j d :
  ((P *m A) i j)`_d = \sum_(e < d.+1) \sum_l (P i l)`_e * (A l j)`_(d - e).
Proof.
rewrite mxE coef_sum exchange_big /=; apply: eq_bigr => l _; by rewrite coefM.
Qed.

(** *** mbasis_plain *)
Section Plain.
Variables (pm : pmat F) (shift : seq int) (order : nat).
Let m := nr pm.
Let n := nc pm.
Let A := \matrix_(i < m, j < n) ent pm i j.
Let s := fun i : 'I_m => nth 0 shift i.
Let Mx (a : pmat F) : 'M[{poly F}]_m := \matrix_(i, j) ent a i j.

Lemma plain_updateE app k K pv : nr app = m -> nc app = m -> sorted ltn pv ->
  Mx (plain_update app k K (pivdeg_of m pv)) = Tm m K pv *m Mx app.
Proof.
move=> E1 E2 So.
have pdE i : (i < m)%N -> (nth 0%N (pivdeg_of m pv) i == 0%N) = (i \in pv).
  by move=> Hi; rewrite (nth_map 0%N) ?size_iota // nth_iota // add0n; case: (i \in pv).
apply/matrixP=> i j; rewrite !mxE /= pdE //; case: ifPn => Hi.
  rewrite E1; apply: eq_bigr => l _; rewrite !mxE Hi -(count_index So Hi); congr ((K _ _)%:P * _).
  apply: eq_in_count => q; rewrite mem_iota add0n => Hq; apply: pdE; exact: ltn_trans Hq (ltn_ord i).
rewrite (bigD1 i) //= big1 ?addr0 => [|l Nl]; first by rewrite !mxE (negbTE Hi) eqxx mulr1n mulrC.
by rewrite !mxE (negbTE Hi) eq_sym (negbTE Nl) mulr0n mul0r.
Qed.

Lemma plain_residualP app d : nr app = m -> nc app = m -> resid A d (Mx app) (plain_residual app pm d).
Proof.
move=> E1 E2 i j; rewrite /plain_residual E2.
rewrite foldl_addE add0r coef_mulmx.
rewrite (@sum_window _ _ _ _ d.+1).
- apply: eq_bigr => e _; apply: eq_bigr => l _; by rewrite !mxE -ltnS ltn_ord.
- by move=> e _ He; rewrite big1 // => l _; rewrite leqNgt He mulr0.
move=> e He N; rewrite big1 // => l _; rewrite -ltnS He; case: (leqP (plen app) e) => L.
  by rewrite [_`_e]nth_default ?mul0r //; apply: leq_trans (plen_size _ _) L; rewrite ?E1 ?E2.
rewrite [_`_(d - e)]nth_default ?mulr0 //; apply: leq_trans (plen_size _ _) _; rewrite ?ltn_ord //.
by move: N He L; move: (plen pm) (plen app) => u v; lia.
Qed.

Lemma plain_loopP f d app sh R : nr app = m -> nc app = m -> minv A s d (Mx app) sh -> (f + d)%N = order ->
  ((0 < f)%N -> resid A d (Mx app) R) ->
  exists a t, [/\ plain_loop ker img pm order f d.+1 app sh R = AOk (a, t), nr a = m, nc a = m & minv A s order (Mx a) t].
Proof.
elim: f d app sh R => [|f IH] d app sh R E1 E2 I Ef HR; first by exists app, sh; split=> //; rewrite -Ef.
rewrite /plain_loop -/(plain_loop _ _).
have [k [K [pd [-> C]]]] := mbasis1P m n R sh.
have HR0 := HR isT; case: C => [[-> IR _]|[k0 Ek ZR _ _]|[pv [Hk G] Ep]].
- rewrite eqxx; do 2 eexists; split; [by []|by []|by []|].
  have -> : (order - d.+1 + 1 = f.+1)%N by lia.
  have := step_empty f.+1 I HR0 IR; have -> : (d + f.+1 = order)%N by lia.
  by congr minv; apply/matrixP=> i j; rewrite !mxE mulrC.
- have -> : (k == 0%N) = false by lia.
  have -> : (k < nr pm)%N = false by rewrite -/m; lia.
  apply: IH; [by []|by []|exact: step_full I HR0 ZR|by lia|].
  by move=> f0; rewrite ifT; [exact: plain_residualP|lia].
- have -> : (k == 0%N) = false by lia.
  have -> : (k < nr pm)%N by rewrite -/m; lia.
  have So : sorted ltn pv by case: G.
  have EM := @plain_updateE app k K pv E1 E2 So.
  apply: IH; [by []|by []| |by lia|].
    rewrite Ep EM; have := step_usual I HR0 G; congr minv.
    have [Sh _ _ _] := I; have Spd : size (pivdeg_of m pv) = m by rewrite size_map size_iota.
    apply: (@eq_from_nth _ 0); first by rewrite !size_map size_iota size_zip Sh Spd minnn.
    move=> i; rewrite size_map size_iota => Hi; rewrite (nth_map 0%N) ?size_iota // nth_iota // add0n.
    rewrite (nth_map (0, 0%N)) ?size_zip ?Sh ?Spd ?minnn // nth_zip ?Sh ?Spd // (nth_map 0%N) ?size_iota // nth_iota // add0n.
    by case: (i \in pv); rewrite /= ?addr0.
  by move=> f0; rewrite ifT ?Ep; [exact: plain_residualP|lia].
Qed.

Lemma mbasis_plainP x : size shift = m -> exists a t,
  [/\ mbasis_plain ker img x pm order shift = AOk (a, t), nr a = m, nc a = m & minv A s order (Mx a) t].
Proof.
move=> Ss; have [E1 E2 E3] := pm_identE x m; apply: plain_loopP => //; last first.
- move=> _ i j; rewrite mxE coef_sum (bigD1 i) //= big1 ?addr0 => [|l Nl].
    by rewrite !mxE E3 // eqxx mul1r.
  by rewrite !mxE E3 // (inj_eq val_inj) eq_sym (negbTE Nl) mul0r coef0.
- by rewrite addn0.
- have -> : Mx (pm_ident x m) = 1%:M.
    by apply/matrixP=> i j; rewrite !mxE E3 // (inj_eq val_inj); case: eqP.
  by split=> //; [exact: approx_basis0|exact: deg_inv_one|move=> i j; rewrite mxE; case: eqP => _; rewrite ?size_poly1 ?size_poly0].
Qed.
End Plain.

(** *** coefficients of the basis *)
Lemma shift_upE (pv : seq nat) lo len (v : nat -> fmat F) e i :
  shift_up pv lo len v e i = if i \in pv then v e i else if (lo < e <= lo + len)%N then v e.-1 i
    else if e == lo then v (lo + len)%N i else v e i.
Proof.
rewrite /shift_up; elim: len v => [|len IH] v.
  rewrite addn0 /=; case: (i \in pv) => //; case: ifPn => [|_]; first by lia.
  by case: eqP => [->|].
have -> : iota lo len.+1 = rcons (iota lo len) (lo + len)%N by rewrite -addn1 iotaD cats1.
rewrite rev_rcons [foldl _ _ _]/= IH; case: (i \in pv) => //.
case: (ltnP lo e) => Hl /=.
  case: (leqP e (lo + len)%N) => He.
    have -> : (e <= lo + len.+1)%N by lia.
    have -> : (e.-1 == (lo + len).+1) = false by lia.
    by have -> : (e.-1 == (lo + len)%N) = false by lia.
  have -> : (e == lo) = false by lia.
  case: (eqVneq e (lo + len).+1) => [->|N]; first by rewrite addnS leqnn.
  have -> : (e <= lo + len.+1)%N = false by lia.
  by have -> : (e == (lo + len)%N) = false by lia.
case: (eqVneq e lo) => [_|N].
  have -> : ((lo + len)%N == (lo + len).+1) = false by lia.
  by rewrite eqxx addnS.
have -> : (e == (lo + len).+1) = false by lia.
by have -> : (e == (lo + len)%N) = false by lia.
Qed.

Definition rep m (st : mbst F) : 'M[{poly F}]_m := \matrix_(i, j) \poly_(d < (cdeg st).+1) cf st d i j.

Lemma mb_updateP m k K (pv : seq nat) st stale : sorted ltn pv -> let st' := mb_update m k K pv st stale in
  [/\ rep m st' = Tm m K pv *m rep m st, (cdeg st' <= (cdeg st).+1)%N &
      csh st' = [seq (if i \in pv then nth 0 (csh st) i else nth 0 (csh st) i + 1) | i <- iota 0 m]].
Proof.
move=> So; cbv zeta; split=> //; last first.
  by rewrite /mb_update /=; case: ifP.
rewrite /mb_update; set up := has _ _; set dg := if up then _ else _; set c := if up then _ else _.
have Hdg : (cdeg st <= dg <= (cdeg st).+1)%N by rewrite /dg; case: (boolP up) => _; lia.
have c_low d i j : (d <= dg)%N -> c d i j = if (d <= cdeg st)%N then cf st d i j else 0.
  rewrite /c /dg; case: (boolP up) => _ Hd; last by rewrite Hd.
  by case: (eqVneq d (cdeg st).+1) => [->|N]; [rewrite ltnn|rewrite (_ : (d <= cdeg st)%N)] => //; lia.
have c_top i j : (i < m)%N -> (j < m)%N -> i \notin pv -> c dg i j = 0.
  move=> Hi Hj Ni; rewrite c_low // /dg; case: (boolP up) => U; first by rewrite ltnn.
  rewrite leqnn; apply/eqP; apply: contraNT U => N; apply/hasP; exists i; first by rewrite mem_iota.
  by rewrite Ni; apply/hasP; exists j; rewrite ?mem_iota.
apply/matrixP=> i j; rewrite !mxE; apply/polyP=> e; rewrite coef_poly /=.
rewrite (_ : shift_up _ _ _ _ e i j = if (i : nat) \in pv then (if (e <= dg)%N then \sum_(l < m) K (index (i : nat) pv) l * c e l j else c e i j)
   else if (0 < e <= dg)%N then c e.-1 i j else if e == 0%N then c dg i j else c e i j); last first.
  rewrite /= shift_upE add0n /replace_rows /=; case: ifPn => Ip; rewrite ?Ip //= ?add0n ?ltnS //.
  by rewrite !(negbTE Ip) /=; case: ifP => // _; case: ifP.
rewrite coef_sum; case: (boolP ((i : nat) \in pv)) => Ip.
  rewrite ltnS; case: leqP => He.
    apply: eq_bigr => l _; rewrite !mxE Ip coefCM coef_poly ltnS c_low //.
  by rewrite big1 // => l _; rewrite !mxE Ip coefCM coef_poly ltnS leqNgt (_ : (cdeg st < e)%N) ?mulr0 //; lia.
rewrite (bigD1 i) //= big1 ?addr0 => [|l Nl]; last by rewrite !mxE (negbTE Ip) eq_sym (negbTE Nl) mulr0n mul0r coef0.
rewrite !mxE (negbTE Ip) eqxx mulr1n coefXM coef_poly ltnS.
case: e => [|e] /=; first by rewrite c_top.
rewrite !ltnS; case: (ltnP e dg) => He; first by rewrite c_low //; lia.
case: leqP => // He'; have Ee : e = cdeg st by lia.
have Ed : dg = cdeg st by lia.
by have := c_top i j (ltn_ord i) (ltn_ord j) Ip; rewrite c_low // Ed leqnn Ee.
Qed.

Section Fast.
Variables (pm : pmat F) (shift : seq int) (order : nat).
Let m := nr pm.
Let n := nc pm.
Let A := \matrix_(i < m, j < n) ent pm i j.
Let s := fun i : 'I_m => nth 0 shift i.
Let Mx (a : pmat F) : 'M[{poly F}]_m := \matrix_(i, j) ent a i j.

Lemma conv_outE st e : Mx (conv_out m st e) = 'X^e *: rep m st.
Proof. by apply/matrixP=> i j; rewrite !mxE mulrC. Qed.
Lemma conv_out0E st : Mx (conv_out m st 0) = rep m st.
Proof. by rewrite conv_outE expr0 scale1r. Qed.

Lemma startP : size shift = m -> minv A s 0 (rep m (mb_start F m shift)) shift.
Proof.
move=> Ss; have -> : rep m (mb_start F m shift) = 1%:M.
  apply/matrixP=> i j; rewrite !mxE; apply/polyP=> e; rewrite coef_poly /= (inj_eq val_inj).
  by case: eqP => _; rewrite ?mulr1n ?mulr0n ?coef1 ?coef0; case: e.
by split=> //; [exact: approx_basis0|exact: deg_inv_one|move=> i j; rewrite mxE; case: eqP => _; rewrite ?size_poly1 ?size_poly0].
Qed.

Lemma rep_coef st i j d : (rep m st i j)`_d = if (d <= cdeg st)%N then cf st d i j else 0.
Proof. by rewrite mxE coef_poly ltnS. Qed.

Lemma comp_residualP d st : (cdeg st <= d)%N -> (d < order)%N ->
  exists2 R, comp_residual m pm order d st = AOk R & resid A d (rep m st) R.
Proof.
move=> Hc Hd; rewrite /comp_residual ltnNge Hc /=; eexists; first by []; move=> i j /=.
have -> : (d.+1 - order = 0)%N by lia.
rewrite subn0 foldl_addE add0r coef_mulmx (@sum_window _ _ _ _ (cdeg st).+1); [|by lia..].
rewrite (big_ord_widen _ (fun e => \sum_(l < m) cf st e i l * (ent pm l j)`_(d - e)) (Hc : (cdeg st).+1 <= d.+1)%N) big_mkcond /=.
apply: eq_bigr => e _; rewrite ltnS; case: leqP => He.
  by apply: eq_bigr => l _; rewrite rep_coef He !mxE.
by rewrite big1 // => l _; rewrite rep_coef leqNgt He mul0r.
Qed.

Lemma rescomp_loopP f d st R : minv A s d (rep m st) (csh st) -> (cdeg st <= d)%N -> (f + d)%N = order ->
  ((0 < f)%N -> resid A d (rep m st) R) ->
  exists a t, [/\ rescomp_loop ker img pm order f d.+1 st R = AOk (a, t), nr a = m, nc a = m & minv A s order (Mx a) t].
Proof.
elim: f d st R => [|f IH] d st R I Hc Ef HR.
  by exists (conv_out m st 0), (csh st); split=> //; rewrite conv_out0E -Ef.
have HR0 := HR isT; have := mb_baseP m n R st; rewrite /rescomp_loop -/(rescomp_loop _ _) -/m -/n.
case: (mb_base ker img m n R st) => [[|| k K pv st2]|//] B.
- do 2 eexists; split; [by []|by []|by []|].
  have -> : (order - d.+1 + 1 = f.+1)%N by lia.
  rewrite conv_outE; have := step_empty f.+1 I HR0 B.
  by have -> : (d + f.+1 = order)%N by lia.
- have I' := step_full I HR0 B; case: (ltnP d.+1 order) => Hd.
    by have [|R' -> HR'] := @comp_residualP d.+1 st _ Hd; [lia|apply: IH => //; lia].
  by apply: IH => //; lia.
- have So : sorted ltn pv by case: B.
  have [E1 E2 E3] := mb_updateP m k K st st2 So.
  have I' := step_usual I HR0 B; rewrite -E1 -E3 in I'.
  case: (ltnP d.+1 order) => Hd.
    by have [|R' -> HR'] := @comp_residualP d.+1 (mb_update m k K pv st st2) _ Hd; [lia|apply: IH => //; lia].
  by apply: IH => //; lia.
Qed.

Lemma start_resid : resid A 0 (rep m (mb_start F m shift)) (fun i j => (ent pm i j)`_0).
Proof.
move=> i j; rewrite coef_mulmx big_ord1 (bigD1 i) //= big1 ?addr0 => [|l Nl].
  by rewrite rep_coef /= eqxx mul1r mxE.
by rewrite rep_coef /= (inj_eq val_inj) eq_sym (negbTE Nl) mul0r.
Qed.

Lemma mbasis_rescompP : size shift = m -> (0 < order)%N -> (0 < m)%N -> exists a t,
  [/\ mbasis_rescomp ker img pm order shift = Ret (a, t), nr a = m, nc a = m & minv A s order (Mx a) t].
Proof.
move=> Ss Ho Hm; rewrite /mbasis_rescomp -/m !gtn_eqF //.
have [|//|//||a [t [-> ? ? ?]]] := @rescomp_loopP order 0 (mb_start F m shift) (fun i j => (ent pm i j)`_0).
- exact: startP.
- by rewrite addn0.
- by move=> _; exact: start_resid.
by exists a, t.
Qed.

Lemma resupdate_loopP f d st rs : minv A s d (rep m st) (csh st) -> (f + d)%N = order ->
  (forall e, (d <= e < order)%N -> resid A e (rep m st) (rs e)) ->
  exists a t, [/\ resupdate_loop ker img pm order f d.+1 st rs = AOk (a, t), nr a = m, nc a = m & minv A s order (Mx a) t].
Proof.
elim: f d st rs => [|f IH] d st rs I Ef HR.
  by exists (conv_out m st 0), (csh st); split=> //; rewrite conv_out0E -Ef.
have HR0 : resid A d (rep m st) (rs d) by apply: HR; lia.
have := mb_baseP m n (rs d) st; rewrite /resupdate_loop -/(resupdate_loop _ _) -/m -/n [d.+1.-1]/=.
case: (mb_base ker img m n (rs d) st) => [[|| k K pv st2]|//] B.
- do 2 eexists; split; [by []|by []|by []|].
  have -> : (order - d.+1 + 1 = f.+1)%N by lia.
  rewrite conv_outE; have := step_empty f.+1 I HR0 B.
  by have -> : (d + f.+1 = order)%N by lia.
- by have I' := step_full I HR0 B; apply: IH => //; [lia|move=> e He; apply: HR; lia].
- have So : sorted ltn pv by case: B.
  have [E1 E2 E3] := mb_updateP m k K st st2 So.
  have I' := step_usual I HR0 B; rewrite -E1 -E3 in I'.
  apply: IH => //; first by lia.
  move=> e He i j; rewrite E1 -mulmxA shift_upE /replace_rows.
  have HRe (q : nat) (l : 'I_m) : (d <= q < order)%N -> rs q l j = ((rep m st *m A) l j)`_q by move=> Hq; exact: HR.
  rewrite mxE coef_sum; case: ifPn => Ip.
    rewrite ifT; last by lia.
    by apply: eq_bigr => l _; rewrite [Tm _ _ _ _ _]mxE Ip coefCM HRe //; lia.
  have -> : (d < e <= d + (order - d.+1))%N by lia.
  rewrite (negbTE Ip) [RHS](bigD1 i) //= [X in _ = _ + X]big1 ?addr0 => [|l Nl]; last by rewrite [Tm _ _ _ _ _]mxE (negbTE Ip) eq_sym (negbTE Nl) mulr0n mul0r coef0.
  by rewrite [Tm _ _ _ _ _]mxE (negbTE Ip) eqxx mulr1n coefXM gtn_eqF ?HRe //; lia.
Qed.

Lemma mbasis_resupdateP : size shift = m -> (0 < m)%N -> exists a t,
  [/\ mbasis_resupdate ker img pm order shift = Ret (a, t), nr a = m, nc a = m & minv A s order (Mx a) t].
Proof.
move=> Ss Hm; rewrite /mbasis_resupdate -/m gtn_eqF //.
have [|||a [t [-> ? ? ?]]] := @resupdate_loopP order 0 (mb_start F m shift) (fun d i j => (ent pm i j)`_d).
- exact: startP.
- by rewrite addn0.
- move=> e _ i j; rewrite coef_mulmx big_ord_recl [X in _ + X]big1 ?addr0 => [|l _].
    rewrite (bigD1 i) //= big1 ?addr0 => [|l Nl]; first by rewrite rep_coef /= eqxx mul1r mxE subn0.
    by rewrite rep_coef /= (inj_eq val_inj) eq_sym (negbTE Nl) mul0r.
  by rewrite big1 // => l' _; rewrite rep_coef /= mul0r.
by exists a, t.
Qed.
End Fast.
End Loops.
