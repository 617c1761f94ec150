(** Iterative approximant bases of ntl-extras. *)
From Coq Require Import ZArith.
From mathcomp Require Import all_ssreflect all_algebra zify.
From Verif Require Import A_base SpecA SpecForms SpecApp A_mul_model A_mul_proof A_mul2_proof A_forms_proof A_forms2_proof A_mbasis_abs A_kernel_abs A_detdeg_proof
  N_shift_proof N_multi_model N_pmat_model N_util_model N_util_proof N_forms_model N_appbas_model.
Set Implicit Arguments.
Unset Strict Implicit.
Unset Printing Implicit Defensive.
Import Order.TTheory GRing.Theory Num.Theory.
Local Open Scope ring_scope.

(** *** one linear condition more on a module *)
Section Lin.
Variable F : fieldType.
Variables m : nat.
Variables (Q Q' : 'rV[{poly F}]_m -> Prop) (M : 'M[{poly F}]_m) (r : 'I_m -> F) (p : 'I_m).
Hypothesis HB : basis_of Q M.
Hypothesis HQ : forall v, Q' v -> Q v.
Hypothesis HQ' : forall w : 'rV[{poly F}]_m, Q' (w *m M) <-> \sum_q (w 0 q)`_0 * r q = 0.
Hypothesis Np : r p != 0.

Definition Cp : 'M[F]_m := \matrix_(i, j) (if (j == p) && (i != p) then - r i / r p else 0).

Lemma Cp_D i j : Cp i j != 0 -> (i \notin pred1 p) && (j \in pred1 p).
Proof. by rewrite mxE !inE; case: (j == p); case: (i == p); rewrite ?eqxx. Qed.

Lemma lin_step : basis_of Q' (Tmx (pred1 p) Cp *m M).
Proof.
have [Hap [Hgen Hinj]] := HB.
have C0 i j : (i == p) || (j != p) -> Cp i j = 0 by rewrite mxE; case: (j == p); case: (i == p).
split; [|split].
- move=> i; rewrite row_mul; apply/HQ'; case: (eqVneq i p) => [->|Ni].
    rewrite big1 // => q _; rewrite !mxE inE eqxx andbF polyC0 addr0.
    by case: (p == q); rewrite ?coefX ?coef0 mul0r.
  rewrite (bigD1 i) //= (bigD1 p) 1?eq_sym //= big1 => [|q /andP[N1 N2]]; last first.
    by rewrite !mxE eq_sym (negbTE N1) (negbTE N2) polyC0 addr0 coef0 mul0r.
  rewrite !mxE !inE eqxx (negbTE Ni) polyC0 addr0 coefC /= !add0r addr0.
  by rewrite eqxx coefC /= mul1r mulrAC -mulrA mulfV // mulr1 subrr.
- move=> v Hv; have [w Ew] := Hgen v (HQ Hv); move: Hv; rewrite Ew => /HQ' E0.
  pose u := w 0 p - \sum_i w 0 i * (Cp i p)%:P.
  have Hu : 'X %| u.
    rewrite -['X]expr1; apply/dvdXn_coef=> -[|//] _.
    rewrite /u coefB coef_sum; under eq_bigr do rewrite coefMC.
    rewrite (bigD1 p) //= C0 ?eqxx // mulr0 add0r.
    apply: (mulIf Np); rewrite mul0r mulrBl -[RHS]E0 [in RHS](bigD1 p) //=; congr (_ + _).
    rewrite mulr_suml -sumrN; apply: eq_bigr => i Ni.
    by rewrite mxE eqxx Ni /= mulNr mulrN mulNr opprK -mulrA mulfVK.
  exists (\row_q (if q == p then u %/ 'X else w 0 q)); rewrite mulmxA; congr (_ *m M).
  apply/rowP=> q; rewrite mulTE !mxE inE.
  have Es : \sum_i (\row_q (if q == p then u %/ 'X else w 0 q)) 0 i * (Cp i q)%:P = \sum_i w 0 i * (Cp i q)%:P.
    by apply: eq_bigr => i _; rewrite mxE; case: ifP => // Hi; rewrite C0 ?Hi // !mulr0.
  rewrite Es; case: (eqVneq q p) => [->|Nq]; first by rewrite divpK // /u subrK.
  by rewrite mulr1 big1 ?addr0 // => i _; rewrite C0 ?Nq ?orbT // mulr0.
move=> w; rewrite mulmxA => /Hinj Ew.
have H0 q : q != p -> w 0 q = 0.
  move=> Nq; have := congr1 (fun X : 'rV_m => X 0 q) Ew; rewrite mulTE mxE inE (negbTE Nq).
  by rewrite mulr1 big1 ?addr0 // => i _; rewrite C0 ?Nq ?orbT // mulr0.
apply/rowP=> q; rewrite [RHS]mxE; case: (eqVneq q p) => [->|]; last exact: H0.
have := congr1 (fun X : 'rV_m => X 0 p) Ew; rewrite mulTE mxE inE eqxx big1 ?addr0.
  by move/eqP; rewrite mulf_eq0 polyX_eq0 orbF => /eqP.
move=> i _; case: (eqVneq i p) => [->|Ni]; first by rewrite C0 ?eqxx // mulr0.
by rewrite H0 // mul0r.
Qed.
End Lin.

Lemma lin_zero (F : fieldType) m (Q Q' : 'rV[{poly F}]_m -> Prop) (M : 'M[{poly F}]_m) (r : 'I_m -> F) :
  basis_of Q M -> (forall v, Q' v -> Q v) ->
  (forall w : 'rV[{poly F}]_m, Q' (w *m M) <-> \sum_q (w 0 q)`_0 * r q = 0) ->
  (forall q, r q = 0) -> basis_of Q' M.
Proof.
move=> [Hap [Hgen Hinj]] HQ HQ' r0; split; last by split=> // v /HQ/Hgen.
by move=> i; rewrite -[M]mul1mx row_mul; apply/HQ'; rewrite big1 // => q _; rewrite r0 mulr0.
Qed.

(** *** lists *)
Lemma nth_erase (l : seq nat) j k : (j < size l)%N -> nth 0%N (erase l j) k = nth 0%N l (if (k < j)%N then k else k.+1).
Proof.
move=> Hj; rewrite /erase nth_cat size_take Hj; case: ifP => C; first by rewrite nth_take.
by rewrite nth_drop; congr nth; lia.
Qed.

Lemma size_erase l j : (j < size l)%N -> size (erase l j) = (size l).-1.
Proof. by move=> Hj; rewrite /erase size_cat size_take Hj size_drop; lia. Qed.

Lemma erase_uniq l j : uniq l -> uniq (erase l j).
Proof.
move=> U; apply: subseq_uniq U; rewrite /erase -[X in subseq _ X](cat_take_drop j l); apply: cat_subseq => //.
by rewrite -add1n -drop_drop; move: (drop j l) => [|x l'] //=; rewrite drop0; exact: subseq_cons.
Qed.

Lemma mem_erase (l : seq nat) j x : (j < size l)%N -> x \in l -> (x \in erase l j) || (x == nth 0%N l j).
Proof.
move=> Hj; rewrite -[in X in X -> _](cat_take_drop j l) (drop_nth 0%N) // /erase !mem_cat in_cons.
by case: (x \in take j l); case: (x == _); case: (x \in _).
Qed.

Lemma erase_mem (l : seq nat) j x : x \in erase l j -> x \in l.
Proof. by rewrite /erase mem_cat => /orP[/mem_take|/mem_drop]. Qed.

Lemma erase_notin (l : seq nat) j : uniq l -> (j < size l)%N -> nth 0%N l j \notin erase l j.
Proof.
move=> U Hj; apply/negP=> /(nthP 0%N)[k]; rewrite size_erase // => Hk; rewrite nth_erase // => /eqP.
case: ifP => C; rewrite nth_uniq //.
- by lia.
- exact: ltn_trans C Hj.
- by move/eqP=> E; rewrite -E ltnSn in C.
by rewrite ltn_predRL in Hk.
Qed.

Lemma sumn_erase l j : (j < size l)%N -> (sumn (erase l j) + nth 0 l j)%N = sumn l.
Proof.
move=> Hj; rewrite -[in RHS](cat_take_drop j l) (drop_nth 0%N) // /erase !sumn_cat /=; lia.
Qed.

Lemma sumn_set_nth (l : seq nat) j x : (j < size l)%N -> (sumn (set_nth 0 l j x) + nth 0 l j)%N = (sumn l + x)%N.
Proof. by elim: l j => [|y l IH] [|j] //= Hj; [lia|have := IH _ Hj; lia]. Qed.

Lemma first_maxP l : (0 < size l)%N -> (first_max l < size l)%N.
Proof.
move=> l0; rewrite /first_max; move: (size l) l0 => n.
suff : forall b a k, (b < n)%N -> (a + k <= n)%N ->
  (foldl (fun b k => if (nth 0 l b < nth 0 l k)%N then k else b) b (iota a k) < n)%N by move=> H n0; apply: H => //; lia.
move=> b a k; elim: k a b => // k IH a b Hb Hk /=; apply: IH; last by lia.
by case: ifP; lia.
Qed.

Section Step.
Variable F : fieldType.
Local Notation P := {poly F}.

Lemma row_fold (h : nat -> P -> P -> P) r p (M : fmat P) n i k :
  foldl (fun M k => upd2 M r k (h k (M r k) (M p k))) M (iota 0 n) i k =
  if (i == r) && (k < n)%N then h k (M r k) (M p k) else M i k.
Proof.
elim: n i k => [|n IH] i k; first by rewrite ltn0 andbF.
rewrite foldl_iotaR add0n upd2E !IH ltnn !andbF; case: (i =P r) => [->|] //=.
case: (k =P n) => [->|N]; first by rewrite ltnSn.
by congr (if _ then _ else _); lia.
Qed.

Lemma scan_nonzeroP (c : nat -> F) shift m : let st := scan_nonzero c shift m in
  st.1 = [seq i <- iota 0 m | c i != 0] /\
  if st.2 is Some p then [/\ (p < m)%N, c p != 0 & forall i, (i < m)%N -> c i != 0 ->
      (shift`_p < shift`_i) || ((shift`_p == shift`_i) && (p <= i)%N)]
  else forall i, (i < m)%N -> c i = 0.
Proof.
rewrite /= /scan_nonzero; elim: m => [|m IH] //; rewrite -addn1 iotaD filter_cat foldl_cat /= add0n.
move: IH; set st := foldl _ _ (iota 0 m); case: st => nz op /= [-> H]; case: (eqVneq (c m) 0) => Cm /=.
  rewrite cats0; split=> //; case: op H => [p [Hp Np Hm]|H] /=; last first.
    by move=> i Hi; case: (ltnP i m) => C; [exact: H|have -> : i = m by lia].
  split; [lia|by []|move=> i Hi Ni; case: (ltnP i m) => C; first exact: Hm].
  by move: Ni; have -> : i = m by [lia]; rewrite Cm eqxx.
rewrite -cats1; split=> //; case: op H => [p [Hp Np Hm]|H] /=.
  case: ifP => C.
    split; [lia|exact: Cm|move=> i Hi Ni].
    case: (ltnP i m) => D; last by have -> : i = m by [lia]; rewrite eqxx ?leqnn orbT.
    have := Hm i D Ni; move: (shift`_p) (shift`_i) (shift`_m) C => x y z; lia.
  split; [lia|by []|move=> i Hi Ni; case: (ltnP i m) => D; first exact: Hm].
  have -> : i = m by lia.
  by move: (shift`_p) (shift`_m) C => x y; lia.
split; [lia|by []|move=> i Hi Ni; case: (ltnP i m) => D; first by rewrite H ?eqxx in Ni].
by have -> : i = m by [lia]; rewrite eqxx ?leqnn orbT.
Qed.

Lemma clear_rowsE rdim ncols (cst : nat -> F) p nz A R : uniq nz -> let st := clear_rows rdim ncols cst p nz (A, R) in
  (forall i k, st.1 i k = if [&& i \in nz, i != p & (k < rdim)%N] then A i k + (- cst i / cst p)%:P * A p k else A i k) /\
  (forall i k, st.2 i k = if [&& i \in nz, i != p & (k < ncols)%N] then R i k + (- cst i / cst p)%:P * R p k else R i k).
Proof.
rewrite /= /clear_rows; elim: nz A R => [|r nz IH] A R //= /andP[Nr U].
case: (eqVneq r p) => [E|N] /=.
  have [H1 H2] := IH A R U; split=> i k; rewrite ?H1 ?H2 in_cons E; case: (i =P p) => //= _; by rewrite andbF.
have [H1 H2] := IH (add_row rdim r p (- cst r / cst p) A) (add_row ncols r p (- cst r / cst p) R) U.
have AE n M i k : add_row n r p (- cst r / cst p) M i k = if (i == r) && (k < n)%N then M r k + (- cst r / cst p)%:P * M p k else M i k.
  by rewrite /add_row (row_fold (fun _ x y => x + (- cst r / cst p)%:P * y)).
have Npr : (p == r) = false by rewrite eq_sym (negbTE N).
split=> i k; rewrite ?H1 ?H2 !AE in_cons Npr /=; case: (i =P r) => [->|] //=; rewrite (negbTE Nr) /= N //=.
Qed.
End Step.

Section Appr.
Variable F : fieldType.
Variables (m n : nat) (A : 'M[{poly F}]_(m, n)).
Implicit Types (o : nat -> nat).

Definition incr o (j0 j : nat) : nat := (o j + (j == j0))%N.

Lemma approximantsP o v : approximants o A v <-> forall k (j : 'I_n), (k < o j)%N -> ((v *m A) 0 j)`_k = 0.
Proof.
split=> [H k j Hk|H j]; first by have /dvdXn_coef := H j; apply.
by apply/dvdXn_coef=> k Hk; apply: H.
Qed.

Lemma approximants_ext o o' v : (forall j : 'I_n, o j = o' j) -> approximants o A v -> approximants o' A v.
Proof. by move=> E H j; rewrite -E; exact: H. Qed.

Lemma basis_ext (Q Q' : 'rV[{poly F}]_m -> Prop) k (M : 'M_(k, m)) : (forall v, Q v <-> Q' v) -> basis_of Q M -> basis_of Q' M.
Proof. by move=> E [H1 [H2 H3]]; split=> [i|]; [apply/E|split=> // v /E]; auto. Qed.

Lemma incr_sub o j0 v : approximants (incr o j0) A v -> approximants o A v.
Proof. by move/approximantsP=> H; apply/approximantsP=> k j Hk; apply: H; rewrite /incr; lia. Qed.

Lemma appr_step o (j0 : 'I_n) (M : 'M[{poly F}]_m) : (forall i, approximants o A (row i M)) ->
  forall w : 'rV[{poly F}]_m, approximants (incr o j0) A (w *m M) <-> \sum_q (w 0 q)`_0 * ((M *m A) q j0)`_(o j0) = 0.
Proof.
move=> HM w.
have low q l (j : 'I_n) : (l < o j)%N -> ((M *m A) q j)`_l = 0.
  by move=> Hl; have /approximantsP := HM q => /(_ l j Hl); rewrite -row_mul mxE.
have top : ((w *m M *m A) 0 j0)`_(o j0) = \sum_q (w 0 q)`_0 * ((M *m A) q j0)`_(o j0).
  rewrite -mulmxA mxE coef_sum; apply: eq_bigr => q _; rewrite coefM big_ord_recl subn0 big1 ?addr0 // => i _.
  by rewrite low ?mulr0 //= /bump /=; have := ltn_ord i; lia.
split.
  by move/approximantsP/(_ (o j0) j0); rewrite /incr eqxx top; apply; lia.
move=> E; apply/approximantsP=> k j; rewrite /incr => Hk.
case: (ltnP k (o j)) => Hk'.
  rewrite -mulmxA mxE coef_sum big1 // => q _; rewrite coefM big1 // => i _.
  by rewrite low ?mulr0 //; have := ltn_ord i; lia.
move: Hk; case: (eqVneq (j : nat) j0) => /= [/val_inj Ej|_] Hk; last by lia.
by rewrite Ej in Hk' Hk *; rewrite (_ : k = o j0) ?top //; lia.
Qed.
End Appr.

Section Loop.
Variable F : fieldType.
Local Notation P := {poly F}.
Variables (pm : pmat F) (order : seq nat) (s : nat -> int).
Local Notation m := (nr pm).
Local Notation n := (nc pm).
Local Notation A := (mx_of m n (ent pm)).
Local Notation N0 := (nth 0%N).

Record abinv (ro : nat -> nat) (st : abst F) : Prop := AbInv {
  i_nr : nr (ab_mat st) = m;
  i_nc : nc (ab_mat st) = m;
  i_bas : basis_of (approximants ro A) (mx_of m m (ent (ab_mat st)));
  i_deg : deg_inv (fun i : 'I_m => s i) (fun i : 'I_m => (ab_sh st)`_i) (mx_of m m (ent (ab_mat st)));
  i_sh : size (ab_sh st) = m;
  i_sz : size (ab_ord st) = size (ab_ind st);
  i_un : uniq (ab_ind st);
  i_lt : forall j, j \in ab_ind st -> (j < n)%N;
  i_pos : forall k, (k < size (ab_ord st))%N -> (0 < N0 (ab_ord st) k)%N;
  i_ro : forall k, (k < size (ab_ind st))%N -> (ro (N0 (ab_ind st) k) + N0 (ab_ord st) k)%N = N0 order (N0 (ab_ind st) k);
  i_done : forall j, (j < n)%N -> j \notin ab_ind st -> ro j = N0 order j;
  i_rnc : (0 < size (ab_ind st))%N -> nc (ab_res st) = size (ab_ind st);
  i_res : forall i k l, (i < m)%N -> (k < size (ab_ind st))%N -> (l < N0 order (N0 (ab_ind st) k))%N ->
    (ent (ab_res st) i k)`_l = (fmul m (ent (ab_mat st)) (ent pm) i (N0 (ab_ind st) k))`_l }.

(** the update of the basis and of the residual *)
Definition upd_of (st : abst F) (j : nat) : aoutcome (pmat F * pmat F * seq int) :=
  let: Abst appbas residual rem_order rem_index shift := st in
  let deg := (N0 order (N0 rem_index j) - N0 rem_order j)%N in
  let cst i := (ent residual i j)`_deg in
  let: (nz, opiv) := scan_nonzero cst shift m in
    if opiv is Some piv then
      let: (Ma, Mr) := clear_rows m (nc residual) cst piv nz (ent appbas, ent residual) in
      let appbas := Pmat (nr appbas) (nc appbas) Ma in
      let shift := set_nth 0 shift piv (shift`_piv + 1) in
      match shift_row (fun p => lshift p 1) true appbas appbas piv with
      | AOk appbas =>
        let Mr := foldl (fun M k => upd2 M piv k (ptrunc (N0 order (N0 rem_index k)) (lshift (M piv k) 1))) Mr
                    (iota 0 (nc residual)) in
        AOk (appbas, Pmat (nr residual) (nc residual) Mr, shift)
      | AUB => AUB
      end
    else AOk (appbas, residual, shift).

Lemma upd_ofP ro st j : abinv ro st -> (j < size (ab_ord st))%N ->
  exists a r t, [/\ upd_of st j = AOk (a, r, t), nr a = m /\ nc a = m,
    basis_of (approximants (incr ro (N0 (ab_ind st) j)) A) (mx_of m m (ent a)) /\
      deg_inv (fun i : 'I_m => s i) (fun i : 'I_m => t`_i) (mx_of m m (ent a)),
    size t = m /\ nc r = nc (ab_res st) &
    forall i k l, (i < m)%N -> (k < size (ab_ind st))%N -> (l < N0 order (N0 (ab_ind st) k))%N ->
      (ent r i k)`_l = (fmul m (ent a) (ent pm) i (N0 (ab_ind st) k))`_l].
Proof.
case: st => a r ord ind t I Hj; have Hj' : (j < size ind)%N by rewrite -(i_sz I).
have j0n : (N0 ind j < n)%N by apply: (i_lt I); rewrite mem_nth.
pose j0 : 'I_n := Ordinal j0n.
have pos := i_pos I Hj; have Ero := i_ro I Hj'; rewrite /= in pos Ero.
rewrite /upd_of; have -> : (N0 order (N0 ind j) - N0 ord j)%N = ro j0 by rewrite /=; lia.
set cst := fun i => _`_(ro j0).
pose MP := mx_of m m (ent a).
have cstE (q : 'I_m) : cst q = ((MP *m A) q j0)`_(ro j0).
  by rewrite /cst (i_res I) //=; [rewrite -mx_of_mul mx_ofE|lia].
have := scan_nonzeroP cst t m; case: (scan_nonzero cst t m) => nz [p|] /= [Enz H]; last first.
  exists a, r, t; split=> //.
  - by split; [exact: (i_nr I)|exact: (i_nc I)].
  - split; last exact: (i_deg I).
    apply: lin_zero (i_bas I) _ (appr_step j0 _) _; first by move=> v; exact: incr_sub.
      by have [] := i_bas I.
    by move=> q; rewrite -cstE H.
  - by split=> //; exact: (i_sh I).
  - exact: (i_res I).
case: H => pm_ Np Hp.
have U : uniq nz by rewrite Enz filter_uniq // iota_uniq.
have [] := clear_rowsE m (nc r) cst p (ent a) (ent r) U.
case: (clear_rows _ _ _ _ _ _) => Ma Mr /= HMa HMr.
have pa : (p < nr (Pmat (nr a) (nc a) Ma))%N by rewrite /= (i_nr I).
have [a' [-> [na' ca' Ha']]] := shift_rowE (fun q => lshift q 1) true (Pmat (nr a) (nc a) Ma) pa.
rewrite -[nr (Pmat _ _ _)]/(nr a) -[nc (Pmat _ _ _)]/(nc a) -[ent (Pmat _ _ _)]/Ma (i_nr I) (i_nc I) in na' ca' Ha'.
set Mr' := foldl _ Mr _.
have sE (q : P) : lshift q 1 = 'X * q by rewrite /lshift expr1 mulrC.
have nzE i : (i < m)%N -> (i \in nz) = (cst i != 0) by move=> Hi; rewrite Enz mem_filter mem_iota /= Hi andbT.
pose po := Ordinal pm_.
pose rr (q : 'I_m) := cst q.
have Na : mx_of m m (ent a') = Tmx (pred1 po) (Cp rr po) *m MP.
  apply/matrixP=> i k; rewrite mxE Ha' // sE rowTE inE -val_eqE /= !HMa.
  case: (eqVneq (i : nat) p) => [E|N] /=.
    rewrite andbF mxE big1 ?addr0 // => q _; rewrite mxE; have -> : i = po by exact: val_inj.
    by rewrite eqxx andbF polyC0 mul0r.
  rewrite mul1r (bigD1 po) //= big1 ?addr0 => [|q Nq]; last by rewrite mxE (negbTE Nq) /= polyC0 mul0r.
  rewrite !mxE /rr eqxx -val_eqE /= N /= ltn_ord andbT nzE //; case: eqP => //= ->.
  by rewrite oppr0 mul0r polyC0 mul0r addr0.
exists a', (Pmat (nr r) (nc r) Mr'), (set_nth 0 t p (t`_p + 1)); split=> //.
- rewrite Na; split.
    apply: lin_step (i_bas I) _ _ _; first by move=> v; exact: incr_sub.
      move=> w; have := @appr_step _ _ _ A ro j0 MP _ w; have [B _] := i_bas I => /(_ B).
      by under eq_bigr do rewrite -cstE.
    exact: Np.
  have := @deg_inv_step _ _ _ _ _ (pred1 po) (Cp rr po) (@Cp_D _ _ _ _) _ (i_deg I).
  move=> D; apply: deg_inv_ext (D _) => //= [i|].
    rewrite nth_set_nth /= inE -val_eqE /=; case: (eqVneq (i : nat) p) => [->|] //=; by rewrite addr0.
  move=> i k; rewrite mxE; case: (k =P po) => [->|] //=; last by rewrite eqxx.
  case: (eqVneq i po) => //= Ni; first by rewrite eqxx.
  rewrite mulf_eq0 oppr_eq0 invr_eq0 negb_or => /andP[Ci _].
  have := Hp i (ltn_ord i) Ci; have : (i : nat) != p by [].
  by move: (t`_p) (t`_i) => x y; lia.
- by split=> //; rewrite size_set_nth (i_sh I); lia.
move=> i k l Hi Hk Hl; rewrite /=.
have Rk : (k < nc r)%N by rewrite (i_rnc I) //=; lia.
rewrite /Mr' (row_fold (fun k x _ => ptrunc (N0 order (N0 ind k)) (lshift x 1)) p p) sE.
have kn : (N0 ind k < n)%N by apply: (i_lt I); rewrite mem_nth.
pose k0 : 'I_n := Ordinal kn.
have Rr (q : 'I_m) z : (z < N0 order (N0 ind k))%N -> (ent r q k)`_z = ((MP *m A) q k0)`_z.
  by move=> Hz; rewrite (i_res I) //= -mx_of_mul mx_ofE.
have -> : fmul m (ent a') (ent pm) i (N0 ind k) = (Tmx (pred1 po) (Cp rr po) *m (MP *m A)) (Ordinal Hi) k0.
  by rewrite mulmxA -Na -mx_of_mul mx_ofE.
rewrite rowTE inE -val_eqE /= Rk andbT; case: (eqVneq i p) => [E|N] /=.
  rewrite big1 ?addr0 => [|q _]; last first.
    by rewrite mxE (_ : Ordinal Hi = po) ?eqxx ?andbF ?polyC0 ?mul0r //; exact: val_inj.
  rewrite coef_ptrunc Hl !coefXM; case: l Hl => //= l Hl.
  by rewrite HMr eqxx andbF (Rr po) 1?(_ : Ordinal Hi = po) //; [exact: val_inj|lia].
rewrite mul1r (bigD1 po) //= big1 ?addr0 => [|q Nq]; last by rewrite mxE (negbTE Nq) /= polyC0 mul0r.
rewrite HMr N Rk !andbT [Cp _ _ _ _]mxE eqxx -val_eqE /= N /= nzE // coefD coefCM -(Rr (Ordinal Hi)) // -(Rr po) //=.
case: ifP => [_|/negbFE/eqP C]; first by rewrite coefD coefCM.
by rewrite /rr /= C oppr0 !mul0r addr0.
Qed.

Lemma ab_stepE ow st : ab_step m order ow st =
  let j := if ow then first_max (ab_ord st) else 0%N in
  match upd_of st j with
  | AOk (appbas, residual, shift) =>
    if (1 < N0 (ab_ord st) j)%N then
      AOk (Abst appbas residual (set_nth 0%N (ab_ord st) j (N0 (ab_ord st) j).-1) (ab_ind st) shift)
    else
      AOk (Abst appbas (if erase (ab_ord st) j is [::] then residual else
        Pmat m (size (erase (ab_ord st) j)) (fun i k => if (k < j)%N then ent residual i k else ent residual i k.+1))
        (erase (ab_ord st) j) (erase (ab_ind st) j) shift)
  | AUB => AUB
  end.
Proof. by case: st => a r o i t; rewrite /ab_step /upd_of /=; case: (scan_nonzero _ _ _). Qed.

Lemma ab_stepP ow ro st : abinv ro st -> ab_ord st <> [::] -> exists st', [/\ ab_step m order ow st = AOk st',
  (sumn (ab_ord st')).+1 = sumn (ab_ord st) & exists ro', abinv ro' st'].
Proof.
move=> I NE; rewrite ab_stepE; cbv zeta; set j := if ow then _ else _.
have Hj : (j < size (ab_ord st))%N.
  have l0 : (0 < size (ab_ord st))%N by case: (ab_ord st) NE.
  by rewrite /j; case: (ow) => //; exact: first_maxP.
have Hj' : (j < size (ab_ind st))%N by rewrite -(i_sz I).
have [a [r [t [-> [Ena Eca] [HB HD] [Et Er] HR]]]] := upd_ofP I Hj; cbv zeta beta iota.
have pos := i_pos I Hj.
case: ifP => C.
  eexists; split; first by [].
    by rewrite /=; have := sumn_set_nth (N0 (ab_ord st) j).-1 Hj; lia.
  exists (incr ro (N0 (ab_ind st) j)); split=> //=.
  - by rewrite size_set_nth -(i_sz I); lia.
  - exact: (i_un I).
  - exact: (i_lt I).
  - move=> k; rewrite size_set_nth nth_set_nth /= => Hk; case: eqP => [_|_]; first by lia.
    by apply: (i_pos I); lia.
  - move=> k Hk; rewrite nth_set_nth /= /incr nth_uniq ?(i_un I) //.
    have := i_ro I Hk; case: (k =P j) => [->|_] /=; lia.
  - move=> x Hx N; rewrite /incr (_ : (x == _) = false) ?addn0; first exact: (i_done I).
    by apply: contraNF N => /eqP->; rewrite mem_nth.
  - by rewrite Er; exact: (i_rnc I).
have E1 : N0 (ab_ord st) j = 1%N by lia.
eexists; split; first by [].
  by rewrite /=; have := sumn_erase Hj; lia.
exists (incr ro (N0 (ab_ind st) j)); split=> //=.
- by rewrite !size_erase // (i_sz I).
- by apply: erase_uniq; exact: (i_un I).
- by move=> x /erase_mem; exact: (i_lt I).
- by move=> k; rewrite size_erase // => Hk; rewrite nth_erase //; apply: (i_pos I); case: ifP; lia.
- move=> k; rewrite size_erase // => Hk; rewrite !nth_erase // /incr.
  set k' := if _ then _ else _; have Hk' : (k' < size (ab_ind st))%N by rewrite /k'; case: ifP; lia.
  rewrite nth_uniq ?(i_un I) // (_ : (k' == j) = false) ?addn0; first exact: (i_ro I).
  by rewrite /k'; case: ifP => D; lia.
- move=> x Hx N; rewrite /incr; case: (eqVneq x (N0 (ab_ind st) j)) => [E|Nx].
    by have := i_ro I Hj'; rewrite -E E1 /=; lia.
  rewrite addn0; apply: (i_done I) => //; apply: contra N => M.
  by have := mem_erase Hj' M; rewrite (negbTE Nx) orbF.
- rewrite size_erase // => H0; have : size (erase (ab_ord st) j) != 0%N by rewrite size_erase // (i_sz I); lia.
  by case E : (erase _ _) => [|x l] //= _; rewrite -[(size l).+1]/(size (x :: l)) -E size_erase // (i_sz I).
move=> i k l Hi; rewrite size_erase // => Hk; rewrite nth_erase // => Hl.
have : size (erase (ab_ord st) j) != 0%N by rewrite size_erase // (i_sz I); lia.
case E : (erase (ab_ord st) j) => [|x y] //= _; rewrite -HR //; first by case: ifP.
by case: ifP; lia.
Qed.

Lemma ab_loopP ow fuel ro st : abinv ro st -> (sumn (ab_ord st) < fuel)%N ->
  exists st', [/\ ab_loop fuel m order ow st = AOk st', ab_ord st' = [::] & exists ro', abinv ro' st'].
Proof.
elim: fuel ro st => // fuel IH ro st I Hf /=.
case E : (ab_ord st) => [|x l]; first by exists st; split=> //; exists ro.
have [|st1 [-> S1 [ro1 I1]]] := ab_stepP ow I; first by rewrite E.
by apply: IH I1 _; lia.
Qed.

Lemma mx_ident (x : pmat F) : mx_of m m (ent (pm_ident x m)) = 1%:M.
Proof.
have [_ _ H] := @pm_identE F x m; apply/matrixP=> i j; rewrite mxE H // mxE -val_eqE /=.
by case: eqP.
Qed.

Lemma appbas_iterativeP x shift ow : size order = n -> size shift = m -> all (leq 1) order -> s =1 nth 0 shift ->
  exists a t, appbas_iterative x pm order shift ow = AOk (a, t) /\
   [/\ nr a = m, nc a = m, size t = m, basis_of (approximants (N0 order) A) (mx_of m m (ent a)) &
     deg_inv (fun i : 'I_m => s i) (fun i : 'I_m => t`_i) (mx_of m m (ent a))].
Proof.
move=> So Ss Pos Es; rewrite /appbas_iterative So Ss !eqxx; rewrite [_ || _]/=; cbv iota zeta.
have I : abinv (fun _ => 0%N) (Abst (pm_ident x m) pm order (iota 0 n) shift).
  split=> //=; rewrite ?size_iota //.
  - rewrite mx_ident; split; [|split].
    + by move=> i j; rewrite expr0 dvd1p.
    + by move=> v _; exists v; rewrite mulmx1.
    + by move=> w; rewrite mulmx1.
  - rewrite mx_ident; apply: (@deg_inv_ext _ _ (fun i : 'I_m => s i) _ (fun i : 'I_m => s i)); [by []|by move=> i; rewrite Es|exact: deg_inv_one].
  - exact: iota_uniq.
  - by move=> j; rewrite mem_iota.
  - by move=> k Hk; move/(all_nthP 0%N): Pos; apply.
  - by move=> k Hk; rewrite nth_iota.
  - by move=> j Hj; rewrite mem_iota Hj.
  - move=> i k l Hi Hk Hl; rewrite nth_iota // add0n; congr (_`_l).
    have := mx_of_mul m m n (ent (pm_ident x m)) (ent pm); rewrite mx_ident mul1mx => /mx_of_inj/(_ i k Hi Hk) ->.
    by [].
have [|st [-> E0 [ro I']]] := @ab_loopP ow (sumn order + n).+1 _ _ I; first by rewrite /=; lia.
exists (ab_mat st), (ab_sh st); split=> //; split; [exact: (i_nr I')|exact: (i_nc I')|exact: (i_sh I')| |exact: (i_deg I')].
apply: basis_ext (i_bas I') => v.
have E (j : 'I_n) : ro j = N0 order j.
  by apply: (i_done I') => //; have := i_sz I'; rewrite E0; case: (ab_ind st).
by split; apply: approximants_ext => j; rewrite E.
Qed.
End Loop.
