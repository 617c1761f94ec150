(** Row rank profile, uniqueness of coordinates, shape of the left nullspace. *)
From mathcomp Require Import all_ssreflect all_algebra zify.
From Verif Require Import A_base A_nullspace_model.
Set Implicit Arguments.
Unset Strict Implicit.
Unset Printing Implicit Defensive.
Import GRing.Theory Num.Theory.
Local Open Scope ring_scope.

Section RRP.
Variable F : fieldType.
Variable n : nat.
Variable A : fmat F.

Definition rowv k : 'rV[F]_n := mx_of 1 n (frow_vec (A k)).
Definition dep k : bool := (rowv k <= mx_of k n A)%MS.
Definition rrp k := [seq i <- iota 0 k | ~~ dep i].
Definition nrp k := [seq i <- iota 0 k | dep i].
Definition rowsel (ps : seq nat) : 'M[F]_(size ps, n) :=
  mx_of (size ps) n (fun t => A (nth 0%N ps t)).

Lemma depcolE k : depcol n (ftr A) k = dep k.
Proof.
rewrite /depcol /dep /col_vec.
have -> : (mx_of n k (ftr A))^T = mx_of k n A by rewrite mx_of_tr trmxK.
by have -> : (mx_of n 1 (fun i _ => ftr A i k))^T = rowv k
  by apply/matrixP=> i j; rewrite !mxE.
Qed.

Lemma pivcolsE m : pivcols n m (ftr A) = rrp m.
Proof. by apply: eq_filter => k; rewrite depcolE. Qed.

Lemma npivcolsE m : npivcols n m (ftr A) = nrp m.
Proof. by apply: eq_filter => k; rewrite depcolE. Qed.

Lemma row_rowsel ps (t : 'I_(size ps)) : row t (rowsel ps) = rowv (nth 0%N ps t).
Proof. exact: row_mx_of. Qed.

Lemma mx_of_S k : (mx_of k.+1 n A :=: mx_of k n A + rowv k)%MS.
Proof.
apply/eqmxP/andP; split.
  apply/row_subP=> i; rewrite row_mx_of.
  case: (ltnP i k) => Hi.
    apply: submx_trans (addsmxSl _ _).
    by have := row_sub (Ordinal Hi) (mx_of k n A); rewrite row_mx_of.
  have -> : nat_of_ord i = k by have := ltn_ord i; lia.
  exact: addsmxSr.
rewrite addsmx_sub; apply/andP; split.
  apply/row_subP=> i; rewrite row_mx_of.
  have Hi : (i < k.+1)%N by have := ltn_ord i; lia.
  by have := row_sub (Ordinal Hi) (mx_of k.+1 n A); rewrite row_mx_of.
by have := row_sub (@ord_max k) (mx_of k.+1 n A); rewrite row_mx_of.
Qed.

Lemma rowsel_rcons ps k : (rowsel (rcons ps k) :=: rowsel ps + rowv k)%MS.
Proof.
apply/eqmxP/andP; split.
  apply/row_subP=> i; rewrite row_rowsel nth_rcons.
  case: (ltnP i (size ps)) => Hi.
    apply: submx_trans (addsmxSl _ _).
    by have := row_sub (Ordinal Hi) (rowsel ps); rewrite row_rowsel.
  have -> : (nat_of_ord i == size ps) by have := ltn_ord i; rewrite {2}size_rcons; lia.
  exact: addsmxSr.
rewrite addsmx_sub; apply/andP; split.
  apply/row_subP=> i; rewrite row_rowsel.
  have Hi : (i < size (rcons ps k))%N by have := ltn_ord i; rewrite size_rcons; lia.
  have := row_sub (Ordinal Hi) (rowsel (rcons ps k)); rewrite row_rowsel nth_rcons /=.
  by rewrite ltn_ord.
have Hi : (size ps < size (rcons ps k))%N by rewrite size_rcons.
have := row_sub (Ordinal Hi) (rowsel (rcons ps k)); rewrite row_rowsel nth_rcons /=.
by rewrite ltnn eqxx.
Qed.

Lemma rrpS k : rrp k.+1 = if dep k then rrp k else rcons (rrp k) k.
Proof.
rewrite /rrp -(addn1 k) iotaD filter_cat /= add0n.
by case: (dep k) => /=; rewrite ?cats0 ?cats1.
Qed.

Lemma nrpS k : nrp k.+1 = if dep k then rcons (nrp k) k else nrp k.
Proof.
rewrite /nrp -(addn1 k) iotaD filter_cat /= add0n.
by case: (dep k) => /=; rewrite ?cats0 ?cats1.
Qed.

Lemma rowsel_rrp k : (rowsel (rrp k) :=: mx_of k n A)%MS.
Proof.
elim: k => [|k IH].
  by apply/eqmxP/andP; split; apply/row_subP=> -[].
rewrite rrpS; case: ifP => D.
  apply: (eqmx_trans IH); apply: eqmx_sym; apply: (eqmx_trans (mx_of_S k)).
  by apply/addsmx_idPl.
apply: (eqmx_trans (rowsel_rcons _ _)); apply: eqmx_sym.
apply: (eqmx_trans (mx_of_S k)).
by apply: adds_eqmx => //; apply: eqmx_sym.
Qed.

Lemma rank_dep k : dep k -> \rank (mx_of k.+1 n A) = \rank (mx_of k n A).
Proof. by move=> D; rewrite mx_of_S; apply: eqmx_rank; apply/eqmxP; apply/addsmx_idPl. Qed.

Lemma rank_indep k : ~~ dep k -> \rank (mx_of k.+1 n A) = (\rank (mx_of k n A)).+1.
Proof.
move=> D; apply/eqP; rewrite eqn_leq mx_of_S; apply/andP; split.
  apply: leq_trans (mxrank_adds_leqif _ _).1 _.
  by have := rank_leq_row (rowv k); lia.
apply: rank_ltmx; rewrite ltmxE addsmxSl /= addsmx_sub submx_refl /=.
exact: D.
Qed.

Lemma rank_rrp k : \rank (mx_of k n A) = size (rrp k).
Proof.
elim: k => [|k IH].
  by apply/eqP; rewrite mxrank_eq0; apply/eqP/matrixP=> -[].
rewrite rrpS; case: (boolP (dep k)) => D; first by rewrite rank_dep.
by rewrite rank_indep // IH size_rcons.
Qed.

Lemma rowsel_free k : row_free (rowsel (rrp k)).
Proof. by rewrite /row_free rowsel_rrp rank_rrp. Qed.

Lemma size_rrp_nrp k : (size (rrp k) + size (nrp k) = k)%N.
Proof.
elim: k => [//|k IH]; rewrite rrpS nrpS; case: (dep k); rewrite size_rcons; lia.
Qed.

Lemma mem_rrp m k : (k \in rrp m) = (k < m)%N && ~~ dep k.
Proof. by rewrite mem_filter mem_iota add0n andbC. Qed.

Lemma mem_nrp m k : (k \in nrp m) = (k < m)%N && dep k.
Proof. by rewrite mem_filter mem_iota add0n andbC. Qed.

Lemma rrp_sorted m : sorted ltn (rrp m).
Proof. exact: (sorted_filter ltn_trans _ (iota_ltn_sorted 0 m)). Qed.

Lemma nrp_sorted m : sorted ltn (nrp m).
Proof. exact: (sorted_filter ltn_trans _ (iota_ltn_sorted 0 m)). Qed.

Lemma rrp_uniq m : uniq (rrp m).
Proof. by rewrite filter_uniq ?iota_uniq. Qed.

Lemma nrp_uniq m : uniq (nrp m).
Proof. by rewrite filter_uniq ?iota_uniq. Qed.

Lemma perm_rrp_nrp m : perm_eq (rrp m ++ nrp m) (iota 0 m).
Proof. by rewrite perm_catC; apply/permPl/perm_filterC. Qed.

Lemma rrp_cat k m : (k <= m)%N ->
  rrp m = rrp k ++ [seq i <- iota k (m - k) | ~~ dep i].
Proof. by move=> H; rewrite /rrp -filter_cat -{1}(subnKC H) iotaD add0n. Qed.

(** coordinates on the row rank profile *)
Section Coords.
Variable m : nat.
Let ps := rrp m.

Definition cf (k t : nat) : F := coord_at n m (ftr A) k t.

Lemma coordsE k (t : 'I_(size ps)) :
  cf k t = (rowv k *m pinvmx (rowsel ps)) 0 t.
Proof.
rewrite /cf /coord_at /coords.
have E : pivcols n m (ftr A) = ps := pivcolsE m.
move: (E); case: _ / (esym E) => _.
rewrite insubT //= => H.
congr ((_ *m pinvmx _) _ _).
- by apply/matrixP=> i j; rewrite !mxE.
- by rewrite /rowsel; apply/matrixP=> i j; rewrite !mxE.
- exact: val_inj.
Qed.

Lemma coords_sum k : (k < m)%N -> forall j, (j < n)%N ->
  A k j = \sum_(t < size ps) cf k t * A (nth 0%N ps t) j.
Proof.
move=> Hk j Hj.
have S : (rowv k <= rowsel ps)%MS.
  rewrite rowsel_rrp.
  by have := row_sub (Ordinal Hk) (mx_of m n A); rewrite row_mx_of.
have := mulmxKpV S => /matrixP /(_ 0 (Ordinal Hj)).
rewrite [RHS]mxE /frow_vec /= => <-.
rewrite mxE; apply: eq_bigr => t _; rewrite -coordsE; congr (_ * _).
by rewrite mxE.
Qed.

Lemma rowsel_indep (c : 'I_(size ps) -> F) :
  (forall j, (j < n)%N -> \sum_(t < size ps) c t * A (nth 0%N ps t) j = 0) ->
  forall t, c t = 0.
Proof.
move=> H t.
have E : \row_t c t *m rowsel ps = 0.
  apply/matrixP=> i j; rewrite !mxE.
  rewrite -[RHS](H j (ltn_ord j)); apply: eq_bigr => u _; by rewrite !mxE.
have := row_free_inj (rowsel_free m) (etrans E (esym (mul0mx _ _))).
by move/matrixP=> /(_ 0 t); rewrite !mxE.
Qed.

(** a dependent row only uses the pivots before it *)
Lemma coords_above k : (k < m)%N -> dep k ->
  forall t, (t < size ps)%N -> cf k t != 0 -> (nth 0%N ps t < k)%N.
Proof.
move=> Hk D t Ht; apply: contraNT; rewrite -leqNgt => Hle.
have Ecat := rrp_cat (ltnW Hk).
have Hs : (size (rrp k) <= t)%N.
  rewrite leqNgt; apply/negP=> Hlt.
  have : nth 0%N ps t \in rrp k by rewrite /ps Ecat nth_cat Hlt mem_nth.
  by rewrite mem_rrp; move: Hle; lia.
have S : (rowv k <= rowsel (rrp k))%MS by rewrite rowsel_rrp.
pose g (u : nat) : F :=
  if insub u is Some u' then (rowv k *m pinvmx (rowsel (rrp k))) 0 u' else 0.
have szle : (size (rrp k) <= size ps)%N by rewrite /ps Ecat size_cat leq_addr.
have Z : forall u : 'I_(size ps), cf k u - g u = 0.
  apply: (rowsel_indep (c := fun u : 'I_(size ps) => cf k u - g u)) => j Hj.
  under eq_bigr do rewrite mulrBl.
  rewrite sumrB -coords_sum //.
  have := mulmxKpV S => /matrixP /(_ 0 (Ordinal Hj)).
  rewrite [RHS]mxE /frow_vec /= => <-.
  rewrite mxE; apply/eqP; rewrite subr_eq0; apply/eqP.
  transitivity (\sum_(u < size (rrp k)) g u * A (nth 0%N ps u) j).
    apply: eq_bigr => u _; congr (_ * _); last by rewrite mxE /ps Ecat nth_cat ltn_ord.
    by rewrite /g insubT //= => H; congr (_ 0 _); apply: val_inj.
  rewrite (big_ord_widen _ (fun u => g u * A (nth 0%N ps u) j) szle).
  rewrite big_mkcond; apply: eq_bigr => u _; case: ifP => // Hu.
  by rewrite /g insubN ?Hu // mul0r.
have := Z (Ordinal Ht) => /= /eqP; rewrite subr_eq0 => /eqP ->.
by rewrite /g insubN // -leqNgt.
Qed.
End Coords.
End RRP.

(** ** The FLINT nullspace and the scans of left_nullspace_compact *)
Lemma scan_lastP (F : fieldType) r k (f : nat -> F) p :
  (p < k)%N -> f p != 0 -> (forall q, (p < q)%N -> (q < k)%N -> f q = 0) ->
  scan_last r k f = p.
Proof.
elim: k => [//|k IH] Hp Hf Hz /=.
case: (ltngtP p k) => [Hlt|Hgt|E].
- by rewrite Hz ?eqxx //; apply: IH => // q H1 H2; apply: Hz => //; lia.
- by lia.
- by rewrite -E (negbTE Hf).
Qed.

(** gaps: the increasing list of the elements of [0,m) not in ps *)
Lemma gaps_cons2 m p q ps : gaps m (p :: q :: ps) =
  iota 0 p ++ iota p.+1 (q - p.+1) ++ drop q (gaps m (q :: ps)).
Proof.
rewrite /gaps /= drop_cat size_iota ltnn subnn drop0 -catA; congr (_ ++ (_ ++ _)).
rewrite (iotaDl 1 0) -map_comp; by congr (flatten _ ++ _).
Qed.

Lemma drop_gaps m q ps : drop q (gaps m (q :: ps)) =
  flatten [seq iota (nth 0%N (q :: ps) j).+1 (nth 0%N (q :: ps) j.+1 - (nth 0%N (q :: ps) j).+1)
             | j <- iota 0 (size ps)]
  ++ iota (last q ps).+1 (m - (last q ps).+1).
Proof. by rewrite /gaps /= drop_cat size_iota ltnn subnn drop0. Qed.

Lemma gaps_tail m q ps : path ltn q ps -> (last q ps < m)%N ->
  drop q (gaps m (q :: ps)) = [seq i <- iota q (m - q) | i \notin q :: ps].
Proof.
elim: ps q => [|p ps IH] q /= Hs Hm.
  rewrite drop_gaps /=.
  have -> : (m - q = (m - q.+1).+1)%N by lia.
  rewrite /= inE eqxx /=; apply/esym/all_filterP/allP=> i.
  by rewrite mem_iota inE; lia.
have /andP[Hqp Hs'] := Hs.
have Hpm : (p < m)%N.
  apply: leq_ltn_trans Hm.
  have := order_path_min ltn_trans Hs' => /allP Hall.
  case: (ps) Hall => [//|x l] Hall /=.
  exact: ltnW (Hall _ (mem_last _ _)).
rewrite gaps_cons2 drop_cat size_iota ltnn subnn drop0.
rewrite (IH p Hs' Hm).
have -> : (m - q = (1 + (p - q.+1)) + (m - p))%N by lia.
rewrite !iotaD !filter_cat /= inE eqxx /=.
have -> : (q + 1 = q.+1)%N by lia.
have -> : (q + (1 + (p - q.+1)) = p)%N by lia.
have Hall : forall x, x \in ps -> (p < x)%N.
  by have := order_path_min ltn_trans Hs' => /allP.
congr (_ ++ _).
  apply/esym/all_filterP/allP=> i; rewrite mem_iota !inE !negb_or => Hi.
  apply/and3P; split; try lia.
  by apply/negP=> /Hall; lia.
apply: eq_in_filter => i; rewrite mem_iota !inE => Hi.
by have -> : (i == q) = false by lia.
Qed.

Lemma gapsE m ps : ps != [::] -> sorted ltn ps -> (last 0%N ps < m)%N ->
  gaps m ps = [seq i <- iota 0 m | i \notin ps].
Proof.
case: ps => [//|q ps] _ /= Hs Hm.
have Hall : forall x, x \in ps -> (q < x)%N.
  by have := order_path_min ltn_trans Hs => /allP.
have Hqm : (q < m)%N.
  apply: leq_ltn_trans Hm.
  case: (ps) Hall => [//|x l] Hall /=.
  exact: ltnW (Hall _ (mem_last _ _)).
rewrite -(cat_take_drop q (gaps m (q :: ps))) (gaps_tail Hs Hm).
have -> : take q (gaps m (q :: ps)) = iota 0 q.
  by rewrite /gaps /= take_cat size_iota ltnn subnn take0 cats0.
rewrite -{2}(subnKC (ltnW Hqm)) iotaD filter_cat add0n; congr (_ ++ _).
apply/esym/all_filterP/allP=> i; rewrite mem_iota !inE negb_or => Hi.
apply/andP; split; first by lia.
by apply/negP=> /Hall; lia.
Qed.

Section Compact.
Variable F : fieldType.
Variables m n : nat.
Variable A : fmat F.
Let rr := rrp n A m.
Let nr := nrp n A m.
Let Xt := (nmod_mat_nullspace n m (ftr A)).2.

Lemma nullspace_nullity : (nmod_mat_nullspace n m (ftr A)).1 = size nr.
Proof. by rewrite /nmod_mat_nullspace /= npivcolsE. Qed.

Lemma XtE i j : Xt i j =
  if i == nth 0%N nr j then 1
  else if i \in rr then - cf n A m (nth 0%N nr j) (index i rr) else 0.
Proof. by rewrite /Xt /nmod_mat_nullspace /= npivcolsE pivcolsE. Qed.

Lemma nr_prop j : (j < size nr)%N -> (nth 0%N nr j < m)%N /\ dep n A (nth 0%N nr j).
Proof. by move=> H; have := mem_nth 0%N H; rewrite mem_nrp => /andP. Qed.

Lemma rr_prop j : (j < size rr)%N -> (nth 0%N rr j < m)%N /\ ~~ dep n A (nth 0%N rr j).
Proof. by move=> H; have := mem_nth 0%N H; rewrite mem_rrp => /andP. Qed.

Lemma rr_nr_neq i j : (i < size rr)%N -> (j < size nr)%N -> nth 0%N rr i != nth 0%N nr j.
Proof.
move=> /rr_prop[_ Hi] /nr_prop[_ Hj]; apply/eqP=> E.
by rewrite E Hj in Hi.
Qed.

Lemma scanE j : (j < size nr)%N -> scan_last m m (fun i => Xt i j) = nth 0%N nr j.
Proof.
move=> Hj; have [Hm D] := nr_prop Hj.
apply: scan_lastP => //; first by rewrite XtE eqxx oner_neq0.
move=> q Hpq Hq; rewrite XtE; case: eqP => [E|_]; first by lia.
case: ifP => // Hin.
apply/eqP; rewrite oppr_eq0; apply/negPn/negP => Hc.
have Hidx : (index q rr < size rr)%N by rewrite index_mem.
have := coords_above Hm D Hidx Hc.
rewrite nth_index //; lia.
Qed.

Lemma pivotsE : [seq scan_last m m (fun i => Xt i j) | j <- iota 0 (size nr)] = nr.
Proof.
apply: (@eq_from_nth _ 0%N); first by rewrite size_map size_iota.
move=> i; rewrite size_map size_iota => Hi.
by rewrite (nth_map 0%N) ?size_iota // nth_iota // add0n scanE.
Qed.

Lemma gaps_rr : nr != [::] -> gaps m nr = rr.
Proof.
move=> Hne; rewrite gapsE //; last 2 first.
- exact: nrp_sorted.
- have Hl : last 0%N nr \in nr by case: (nr) Hne => // x l _; rewrite /= mem_last.
  by move: Hl; rewrite mem_nrp => /andP[].
apply: eq_in_filter => i; rewrite mem_iota mem_nrp add0n => /= ->.
by [].
Qed.

(** everything used downstream about the compact nullspace *)
Lemma left_nullspace_compactE :
  exists K, left_nullspace_compact m n A = (size nr, K, rr ++ nr) /\
   forall i j, (i < size nr)%N -> (j < size rr)%N ->
     K i j = - cf n A m (nth 0%N nr i) j.
Proof.
rewrite /left_nullspace_compact.
have := nullspace_nullity; rewrite -/Xt.
case E : (nmod_mat_nullspace _ _ _) => [nu X] /= Enu.
have EX : X = Xt by rewrite /Xt E.
case: eqP => [Z|NZ].
  have nr0 : nr = [::] by apply: size0nil; rewrite -Enu.
  exists fzero; split; last by rewrite nr0.
  rewrite nr0 cats0 /=; congr (_, _).
  rewrite /rr /rrp; apply/esym/all_filterP/allP=> i Hi.
  apply/negP=> D.
  have : i \in nr by rewrite mem_nrp D andbT; move: Hi; rewrite mem_iota.
  by rewrite nr0.
have nrN : nr != [::] by apply/eqP=> H; apply: NZ; rewrite Enu H.
rewrite EX Enu pivotsE gaps_rr //.
eexists; split; first by [].
move=> i j Hi Hj /=; rewrite nth_cat Hj XtE (negbTE (rr_nr_neq _ _)) //.
by rewrite mem_nth // index_uniq // rrp_uniq.
Qed.
End Compact.
