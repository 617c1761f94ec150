(** Correctness of nmod_poly_mat_kernel_zls_approx. *)
From mathcomp Require Import all_ssreflect all_algebra fraction zify.
From Verif Require Import A_base SpecA A_mbasis_abs A_mul_model A_mul2_proof A_pmbasis_model A_pmbasis_proof
  A_pmbasis_deg_proof A_frac_proof A_forms_model A_forms_proof A_kernel_model A_kernel_abs A_kernel_proof
  A_zls_abs A_zls_model A_zls_proof.
Set Implicit Arguments.
Unset Strict Implicit.
Unset Printing Implicit Defensive.
Import Order.TTheory GRing.Theory Num.Theory.
Local Open Scope ring_scope.

Section Z.
Variable F : fieldType.
Local Notation R := {poly F}.
Local Notation mf := (map_mx (@FracField.tofrac [idomainType of {poly F}])).
Implicit Types (A ker : fmat R).

Lemma mkb_kb m n k s (A : 'M[R]_(m, n)) (K : 'M[R]_(k, m)) piv t :
  mkb s A K piv t <-> exists2 pi : 'I_k -> 'I_m, (forall i : 'I_k, piv i = pi i) & kb s A K pi (fun i => t i).
Proof.
split=> [[H1 H2 H3]|[pi Ep [H1 H2 H3]]].
  have /fin_all_exists[pi Hp] : forall i : 'I_k, exists j : 'I_m, piv i = j /\ pvt s (row i K) j (t i).
    by move=> i; have [j E V] := H2 i; exists j.
  exists pi => [i|]; first by case: (Hp i).
  split=> //; first by move=> i; case: (Hp i).
  by move=> i i' /H3; case: (Hp i) => -> _; case: (Hp i') => -> _.
split=> //; first by move=> i; exists (pi i); rewrite ?Ep.
by move=> i i' /H3; rewrite !Ep.
Qed.

Lemma mkb_empty0 m n k s (A : 'M[R]_(m, n)) (K : 'M[R]_(k, m)) piv t : k = 0%N ->
  (forall v : 'rV_m, v *m A = 0 -> v = 0) -> mkb s A K piv t.
Proof. by move=> E; subst k; exact: mkb_empty. Qed.

Lemma incr_leq k m (pi : 'I_k -> 'I_m) : incr pi -> (k <= m)%N.
Proof. by move=> /incr_inj/leq_card; rewrite !card_ord. Qed.

Lemma kb_cast m n n' (E : n' = n) k s (M : 'M[R]_(m, n')) (K : 'M[R]_(k, m)) pi t :
  kb s M K pi t -> kb s (castmx (erefl m, E) M) K pi t.
Proof. by subst n; rewrite castmx_id. Qed.

Lemma mul_cast0 m n n' (E : n' = n) (M : 'M[R]_(m, n')) (v : 'rV_m) :
  v *m castmx (erefl m, E) M = 0 -> v *m M = 0.
Proof. by subst n; rewrite castmx_id. Qed.

Lemma kb_merge m n k k1 k2 (s : 'I_m -> int) (A : 'M[R]_(m, n)) (K1 : 'M[R]_(k1, m)) pi1 t1
  (K2 : 'M[R]_(k2, m)) pi2 t2 (M : 'M[R]_(k, m)) pi t :
  K1 *m A = 0 -> K2 *m A = 0 -> pvts s K1 pi1 t1 -> pvts s K2 pi2 t2 ->
  (forall v : 'rV[R]_m, v *m A = 0 -> exists w1 w2, v = w1 *m K1 + w2 *m K2) ->
  (forall i, (exists a, [/\ row i M = row a K1, pi i = pi1 a & t i = t1 a]) \/
             (exists a, [/\ row i M = row a K2, pi i = pi2 a & t i = t2 a])) ->
  (forall a, exists i, row i M = row a K1) -> (forall a, exists i, row i M = row a K2) ->
  incr pi -> kb s A M pi t.
Proof.
move=> A1 A2 V1 V2 G C S1 S2 I.
have sp k' (K' : 'M[R]_(k', m)) : (forall a, exists i, row i M = row a K') -> exists Z, K' = Z *m M.
  move=> /fin_all_exists[f Ef]; exists (\matrix_a delta_mx 0 (f a)).
  by apply/row_matrixP=> a; rewrite row_mul rowK -rowE Ef.
have [Z1 E1] := sp _ _ S1; have [Z2 E2] := sp _ _ S2.
apply: kb_intro => //.
- by apply/row_matrixP=> i; rewrite row_mul row0; case: (C i) => -[a [-> _ _]];
    rewrite -row_mul ?A1 ?A2 row0.
- by move=> v /G[w1 [w2 ->]]; exists (w1 *m Z1 + w2 *m Z2); rewrite mulmxDl -!mulmxA -E1 -E2.
by move=> i; case: (C i) => -[a [-> -> ->]].
Qed.

Variables (v36 : bool) (modn : nat).
Hypothesis Hc : modn \in [char F].

Definition zres m n (s : nat -> int) A (r : kerres F) :=
  mkb (fun i : 'I_m => s i) (mx_of m n A) (mx_of (kr_nullity r) m (kr_ker r)) (kr_pivind r) (kr_shift r).
Definition zok m n (s : nat -> int) A := forall ker0 piv0, exists r f0,
  (forall fuel, (f0 <= fuel)%N -> zls fuel v36 modn m n ker0 piv0 s A = AOk r) /\ zres m n s A r.

Lemma mx_of_multiply m n p A B : mx_of m p (pm_multiply modn m n p A B) = mx_of m n A *m mx_of n p B.
Proof. by rewrite -mx_of_mul; apply: mx_of_feq => i j Hi Hj; exact: pm_multiplyP. Qed.

Definition base_case m n A :=
  (m == 0%N) || (n == 0%N) || (((m == 1%N) || (n == 1%N)) && (mat_max_length m n A == 0%N)).

Lemma zok_base m n s A : base_case m n A -> zok m n s A.
Proof.
move=> B ker0 piv0; exists (KerRes m (@fone _) id s), 1%N; split.
  by case=> // fuel _ /=; rewrite -/(base_case m n A) B.
apply: mkb_identity => //.
case/orP: B => [/orP[/eqP E|/eqP E]|/andP[_ /eqP E]]; last exact: max_length0.
  by apply/matrixP=> -[i Hi]; exfalso; rewrite E in Hi.
by apply/matrixP=> i [j Hj]; exfalso; rewrite E in Hj.
Qed.

Lemma zok_row1 n s A : ~~ base_case 1%N n A -> zok 1%N n s A.
Proof.
move=> B ker0 piv0; exists (KerRes 0 ker0 piv0 s), 1%N; split.
  by case=> // fuel _ /=; rewrite -/(base_case 1%N n A) (negbTE B).
apply: mkb_empty; apply: row1_kernel.
by apply: contraNneq B => /max_length0P E; rewrite /base_case E /= orbT.
Qed.

Lemma zok_split m n s A : ~~ base_case m n A -> m != 1%N -> (m < 2 * n)%N ->
  (forall m' s' A', zok m' (n - n %/ 2) s' A') -> (forall m' s' A', zok m' (n %/ 2) s' A') ->
  zok m n s A.
Proof.
move=> B m1 mn H1 H2 ker0 piv0.
set n2 := (n %/ 2)%N in H2; set n1 := (n - n2)%N in H1.
have En : (n1 + n2 = n)%N by rewrite /n1 /n2; lia.
have [r1 [f1 [Z1 R1]]] := H1 m s A ker0 piv0.
pose k1 := kr_nullity r1.
pose A2 : fmat R := fun i j => A i (n1 + j)%N.
pose res := pm_multiply modn k1 m n2 (kr_ker r1) A2.
have [r2 [f2 [Z2 R2]]] := H2 k1 (kr_shift r1) res fzero id.
have EA : mx_of m n A = castmx (erefl m, En) (row_mx (mx_of m n1 A) (mx_of m n2 A2)).
  apply/matrixP=> i j; rewrite castmxE !mxE /= cast_ord_id.
  case: splitP => j' /= Ej; rewrite !mxE ?Ej //; by rewrite /A2 -Ej.
have [pi1 Ep1 K1] := (mkb_kb _ _ _ _ _).1 R1.
have kbE k (K : 'M[R]_(k, m)) pi t s' : kb s' (row_mx (mx_of m n1 A) (mx_of m n2 A2)) K pi t ->
    kb s' (mx_of m n A) K pi t.
  by rewrite EA; exact: kb_cast.
case: (k1 =P 0%N) => [k0|/eqP k0].
  exists r1, f1.+1; split.
    case=> // fuel Hf /=; rewrite -/(base_case m n A) (negbTE B) (negbTE m1) mn -/n2 -/n1 Z1; last by lia.
    by rewrite -/k1 k0 eqxx.
  apply: mkb_empty0 => // v; have [[_ [G _]] _ _] := K1.
  rewrite EA => /mul_cast0; rewrite mul_mx_row -[0]row_mx0 => /eq_row_mx[/G[w ->] _].
  by apply/rowP=> j; rewrite !mxE big1 // => -[l Hl]; exfalso; rewrite -/k1 k0 in Hl.
have [pi2 Ep2 K2] := (mkb_kb _ _ _ _ _).1 R2.
pose k2 := kr_nullity r2; have k21 : (k2 <= k1)%N by case: K2 => _ _ /incr_leq.
exists (KerRes k2 (overwrite k2 (pm_multiply modn k2 k1 m (kr_ker r2) (kr_ker r1)) (kr_ker r1))
         (foldl (fun p i => upd p i (p (kr_pivind r2 i))) (kr_pivind r1) (iota 0 k2))
         (overwrite k1 (kr_shift r2) (kr_shift r1))), (maxn f1 f2).+1; split.
  case=> // fuel Hf /=; rewrite -/(base_case m n A) (negbTE B) (negbTE m1) mn -/n2 -/n1 Z1; last by lia.
  by rewrite -/k1 (negbTE k0) -/A2 -/res Z2 //; lia.
apply/mkb_kb; exists (pi1 \o pi2) => /= [i|].
  have := @inplace_fold _ (kr_pivind r1) 0 k2 (kr_pivind r2) i; rewrite /=.
  rewrite (ltn_ord i) subn0 Ep2 Ep1 => -> //.
  apply: inplace_incr => a b /andP[ab bk]; have ak := ltn_trans ab bk.
  have [_ _ I2] := K2; rewrite (Ep2 (Ordinal ak)) (Ep2 (Ordinal bk)).
  exact: (I2 (Ordinal ak) (Ordinal bk)).
apply: kbE.
have -> : mx_of k2 m (overwrite k2 (pm_multiply modn k2 k1 m (kr_ker r2) (kr_ker r1)) (kr_ker r1)) =
          mx_of k2 k1 (kr_ker r2) *m mx_of k1 m (kr_ker r1).
  by rewrite -mx_of_multiply; apply/matrixP=> i j; rewrite !mxE /overwrite ltn_ord.
have tE (i : 'I_k2) : overwrite k1 (kr_shift r2) (kr_shift r1) i = kr_shift r2 i.
  by rewrite /overwrite (leq_trans (ltn_ord i) k21).
have K2' : kb (fun i : 'I_k1 => kr_shift r1 i) (mx_of k1 m (kr_ker r1) *m mx_of m n2 A2)
    (mx_of k2 k1 (kr_ker r2)) pi2 (fun i : 'I_k2 => overwrite k1 (kr_shift r2) (kr_shift r1) i).
  rewrite -mx_of_multiply; case: K2 => h1 h2 h3; split=> // i; rewrite tE; exact: h2.
exact: kb_split K1 K2'.
Qed.

Lemma incr_lo k m (g : 'I_k -> 'I_m) : incr g -> forall i : 'I_k, (i <= g i)%N.
Proof.
move=> I; case=> i; elim: i => [//|i IH] Hi; have Hi' : (i < k)%N by lia.
exact: leq_ltn_trans (IH Hi') (I (Ordinal Hi') (Ordinal Hi) (ltnSn i)).
Qed.

Lemma incr_id m (g : 'I_m -> 'I_m) : incr g -> forall i, g i = i.
Proof.
move=> I i; have [f fg gf] := injF_bij (incr_inj I).
have If : incr f.
  move=> a b ab; case: (ltngtP (f a) (f b)) => // [/I|/val_inj E]; first by rewrite !gf; lia.
  by move: ab; rewrite -(gf a) -(gf b) E ltnn.
by apply/val_inj/eqP; rewrite eqn_leq (incr_lo I) andbT -{2}(fg i); exact: incr_lo.
Qed.

Lemma app_transport_sub m n N (A : 'M[R]_(m, n)) P (s t : 'I_m -> int) k (K : 'M[R]_(k, m)) pi tK
  m' (g : 'I_m' -> 'I_m) (Q : 'M[R]_(m', n)) :
  approx_basis N A P -> deg_inv s t P -> kb s A K pi tK -> m' = m -> incr g ->
  rowsub g P *m A = 'X^N *: Q ->
  exists (W : 'M[R]_(k, m')) pi', kb (fun b => t (g b)) Q W pi' tK /\ forall a, g (pi' a) = pi a.
Proof.
move=> PB PD KB E; subst m' => /incr_id gI.
have -> : rowsub g P = P by apply/matrixP=> i j; rewrite !mxE gI.
move=> PA; have [W [h1 h2 h3]] := app_transport PB PD KB PA; exists W, pi; split=> //; split=> //.
move=> a; have [V1 V2] := h2 a; split; first by case: V1 => z E Nz; exists z; rewrite ?gI.
by move=> j z; rewrite gI; exact: V2.
Qed.

Lemma kb_ext m n k s s' (A : 'M[R]_(m, n)) (K : 'M[R]_(k, m)) pi t t' :
  (forall i, s i = s' i) -> (forall a, t a = t' a) -> kb s A K pi t -> kb s' A K pi t'.
Proof.
move=> Es Et [h1 h2 h3]; split=> // a; have [[z E Nz] H] := h2 a.
by split; [exists z => //; rewrite -Es -Et|move=> j y; rewrite -Es -Et; exact: H].
Qed.

(** *** the branch using approximation *)
Section AppBranch.
Variables (m n : nat) (s : nat -> int) (A : fmat R).
Hypothesis B : ~~ base_case m n A.
Hypothesis m1 : m != 1%N.
Hypothesis mn : (2 * n <= m)%N.
Variables (k : nat) (K : 'M[R]_(k, m)) (pi : 'I_k -> 'I_m) (tK : 'I_k -> int).
Hypothesis KB : kb (fun i : 'I_m => s i) (mx_of m n A) K pi tK.
Hypothesis IHm : forall m' s' A', (m' < m)%N -> zok m' n s' A'.
Hypothesis IHD : forall m' (s' : nat -> int) A' (K' : 'M[R]_(k, m')) pi', m' = m ->
  kb (fun i : 'I_m' => s' i) (mx_of m' n A') K' pi' tK ->
  \sum_a (tK a - s' (pi' a)) < \sum_a (tK a - s (pi a)) -> zok m' n s' A'.

Lemma zok_app : zok m n s A.
Proof.
move=> ker0 piv0.
have m0 : (0 < m)%N by move: B; rewrite /base_case; case: (m).
have n0 : (0 < n)%N by move: B; rewrite /base_case; case: (n) => //; rewrite orbT.
pose buf := (row_degree_zero m n A None).1.
have [b0 bA nz] := zls_bufP m n A; rewrite -/buf in b0 bA.
have rdE : row_degree_zero m n A None = (buf, (row_degree_zero m n A None).2) by [].
case: ((row_degree_zero m n A None).2 =P 0%N) => [E0|/eqP E0].
  exists (KerRes m (@fone _) id s), 1%N; split; last by apply: mkb_identity => //; exact: nz.
  case=> // fuel _; cbn [zls]; rewrite -/(base_case m n A) (negbTE B) (negbTE m1) ltnNge mn rdE E0 eqxx.
  by [].
pose maxdeg := (zls_degs m buf s).1; pose diff := (zls_degs m buf s).2.
have dgE : zls_degs m buf s = (maxdeg, diff) by rewrite /maxdeg /diff; case: (zls_degs _ _ _).
have bmax i : (i < m)%N -> buf i <= maxdeg by move=> Hi; have [] := zls_degsP buf s Hi.
have bdiff i : (i < m)%N -> diff <= s i - buf i by move=> Hi; have [] := zls_degsP buf s Hi.
pose order := zls_order m n maxdeg diff s.
have [] := @zls_orderP m n maxdeg diff s; [by lia|by have := bmax _ m0; have := b0 0%N; lia| |].
  by move=> i; have := bdiff _ (ltn_ord i); have := b0 i; lia.
rewrite -/order => Omax Osum.
have max0 : 0 <= maxdeg by have := bmax _ m0; have := b0 0%N; lia.
pose N := absz order; have NE : N%:Z = order by rewrite /N; lia.
have [P [t [EP PB PD]]] := pmbasis_correct v36 m n A N s Hc.
have Psz i j : (i < m)%N -> (j < m)%N -> (size (P i j) <= N.+1)%N by apply: pmbasis_size EP.
pose sc := zls_scan m (order + diff) buf t P piv0.
pose p i := t i < order + diff.
pose S1 := selrows p m; pose S2 := selrows (predC p) m.
have [k1E S12 _ restE [flagE sumE]] := zls_scanP m (order + diff) buf t P piv0.
rewrite -/sc -/p -/S1 -/S2 in k1E S12 restE flagE sumE.
pose k1 := sc_nullity sc; rewrite -/k1 in k1E.
pose pv := zls_pivind m sc.
have pvE i : (i < m)%N -> pv i = nth 0%N (S1 ++ S2) i by exact: zls_pivindP.
have k1m : (k1 <= m)%N by rewrite k1E; lia.
have pvlt i : (i < m)%N -> (pv i < m)%N.
  move=> Hi; rewrite pvE //.
  have : nth 0%N (S1 ++ S2) i \in S1 ++ S2 by apply: mem_nth; rewrite size_cat S12.
  by rewrite mem_cat !mem_selrows => /orP[/andP[]|/andP[]].
have g1lt (a : 'I_k1) : (pv a < m)%N by apply: pvlt; exact: leq_trans (ltn_ord a) k1m.
have g2lt (b : 'I_(m - k1)) : (pv (k1 + b) < m)%N by apply: pvlt; have := ltn_ord b; lia.
pose g1 a := Ordinal (g1lt a); pose g2 b := Ordinal (g2lt b).
have pv1 (a : nat) : (a < k1)%N -> pv a = nth 0%N S1 a.
  by move=> Ha; rewrite pvE ?nth_cat -?k1E ?Ha //; lia.
have pv2 (b : nat) : (b < m - k1)%N -> pv (k1 + b)%N = nth 0%N S2 b.
  by move=> Hb; rewrite pvE ?nth_cat -?k1E; [rewrite ifN; [congr nth|]; lia|lia].
have sz2 : size S2 = (m - k1)%N by rewrite k1E; lia.
have gI1 : incr g1.
  move=> a b ab; rewrite /= !pv1 //.
  have := @sorted_ltn_nth _ ltn ltn_trans 0%N S1 (selrows_sorted p m) a b.
  by rewrite !inE -k1E => /(_ (ltn_ord a) (ltn_ord b) ab).
have gI2 : incr g2.
  move=> a b ab; rewrite /= !pv2 //.
  have := @sorted_ltn_nth _ ltn ltn_trans 0%N S2 (selrows_sorted _ m) a b.
  by rewrite !inE sz2 => /(_ (ltn_ord a) (ltn_ord b) ab).
have g1P a : p (g1 a).
  rewrite /= pv1 //; have : nth 0%N S1 a \in S1 by apply: mem_nth; rewrite -k1E.
  by rewrite mem_selrows => /andP[].
have g2P b : ~~ p (g2 b).
  rewrite /= pv2 //; have : nth 0%N S2 b \in S2 by apply: mem_nth; rewrite sz2.
  by rewrite mem_selrows => /andP[].
have gD (i : 'I_m) : (exists a, g1 a = i) \/ (exists b, g2 b = i).
  case Pi: (p i).
    have iS : (i : nat) \in S1 by rewrite mem_selrows Pi ltn_ord.
    have h : (index (i : nat) S1 < k1)%N by rewrite k1E index_mem.
    by left; exists (Ordinal h); apply/val_inj; rewrite /= pv1 // nth_index.
  have iS : (i : nat) \in S2 by rewrite mem_selrows /= Pi ltn_ord.
  have h : (index (i : nat) S2 < m - k1)%N by rewrite -sz2 index_mem.
  by right; exists (Ordinal h); apply/val_inj; rewrite /= pv2 // nth_index.
have gN a b : g1 a != g2 b by apply: contraNneq (g2P b) => <-; exact: g1P.
have dA (i : 'I_m) (j : 'I_n) : (size (mx_of m n A i j) <= (absz (buf i)).+1)%N by rewrite mxE; exact: bA.
have PA1 : rowsub g1 (mx_of m m P) *m mx_of m n A = 0.
  apply/row_matrixP=> a; rewrite row_mul row0.
  have -> : row a (rowsub g1 (mx_of m m P)) = row (g1 a) (mx_of m m P) by apply/rowP=> j; rewrite !mxE.
  apply: (app_kernel_row PB PD (diff := diff)); last by rewrite NE; exact: g1P.
  move=> l j z Nz; have := bdiff _ (ltn_ord l); have := dA l j; have := b0 l.
  have : (z < size (mx_of m n A l j))%N by rewrite ltnNge; apply: contraNN Nz => /(nth_default 0) ->.
  by move: (size _) => q; lia.
pose ker := overwrite m (fperm_rows pv P) P.
pose t' := overwrite m (fun i => t (pv i)) t.
have kerE i : (i < m)%N -> ker i = P (pv i) by move=> Hi; rewrite /ker /overwrite Hi.
have tE i : (i < m)%N -> t' i = t (pv i) by move=> Hi; rewrite /t' /overwrite Hi.
pose ker2 : fmat R := fun i => ker (k1 + i)%N.
have k1lt (a : 'I_k1) : (a < m)%N by exact: leq_trans (ltn_ord a) k1m.
have k2lt (b : 'I_(m - k1)) : (k1 + b < m)%N by have := ltn_ord b; lia.
have ker1E : mx_of k1 m ker = rowsub g1 (mx_of m m P).
  by apply/matrixP=> a j; rewrite !mxE kerE.
have ker2E : mx_of (m - k1) m ker2 = rowsub g2 (mx_of m m P).
  by apply/matrixP=> a j; rewrite !mxE /ker2 kerE.
have pdE (i : 'I_m) : pdeg (P i i) = t i - s i.
  by have := pvt_size (deg_inv_pvt i PD); rewrite /= !mxE /pdeg => ->; lia.
have V1 := app_pvts PD g1; rewrite -ker1E /= in V1.
pose early := (m - n <= k1)%N && sc_noconst sc &&
   (foldl (fun d i => d + pdeg (ker i (pv i))) 0 (iota 0 k1) == sc_sumdeg sc).
case Ee: early.
  exists (KerRes k1 ker pv t'), 1%N; split.
    case=> // fuel _; cbn [zls]; rewrite -/(base_case m n A) (negbTE B) (negbTE m1) ltnNge mn rdE (negbTE E0).
    by rewrite dgE -/order -/N EP -/sc -/k1 -/pv -/ker -/t' -/early Ee.
  apply/mkb_kb; exists g1 => //=.
  rewrite ker1E.
  have h : kb (fun i : 'I_m => s i) (mx_of m n A) (rowsub g1 (mx_of m m P)) g1 (fun a => t (g1 a)).
    apply: (app_done PB PD gI1 gI2 gD gN PA1) => v j e.
    case/andP: Ee => /andP[_ Ef] /eqP Es.
    apply: (@app_early _ m n N _ _ _ _ PB PD k K pi tK KB k1 (m - k1) g1 g2 gI1 gI2 gD gN PA1 (fun i => absz (buf i)) dA).
      move=> b; move: Ef; rewrite flagE => /allP/(_ (g2 b)).
      rewrite pdE absz_eq0; apply; rewrite mem_selrows /= g2lt andbT; exact: g2P.
    move: Es; rewrite (sum_shift (fun i => pdeg (ker i (pv i)))) add0r sumE => Es.
    rewrite (eq_bigr (fun a : 'I_k1 => pdeg (ker a (pv a)))); last first.
      by move=> a _; rewrite kerE // -(pdE (g1 a)).
    rewrite Es (big_nth 0%N) big_mkord sz2 (big_morph Posz PoszD (erefl 0%:Z)).
    by apply: eq_bigr => b _; rewrite -pv2 //= gez0_abs //; exact: b0.
  by case: h => h1 h2 h3; split=> // a; rewrite tE //; exact: h2.
have [res Eres HR] := mulmidP v36 (m - k1) m n ker2 A N (absz (order + maxdeg + 1)) Hc.
have QE : rowsub g2 (mx_of m m P) *m mx_of m n A = 'X^N *: mx_of (m - k1) n res.
  rewrite -ker2E -mx_of_mul; apply/matrixP=> b j; rewrite !mxE HR //.
  set u := fmul _ _ _ _ _.
  have uE : u = (row (g2 b) (mx_of m m P) *m mx_of m n A) 0 j.
    rewrite /u !mxE; apply: eq_bigr => l _; rewrite !mxE /ker2 kerE //.
  have [H _] := PB; have /approximantP D := H (g2 b).
  have Su : (size u <= N + absz maxdeg + 1)%N.
    apply: leq_trans (size_sum _ _ _) _; apply/bigmax_leqP=> l _; apply: leq_trans (size_mul_leq _ _) _.
    have := Psz (pv (k1 + b)%N) l (g2lt b) (ltn_ord l); have := bA l j (ltn_ord l) (ltn_ord j).
    have := bmax l (ltn_ord l); have := b0 l; rewrite /ker2 kerE //.
    by move: (size (P _ _)) (size (A _ _)) => x y; lia.
  apply/polyP=> z; rewrite coefXnM; case: ltnP => Hz.
    by rewrite uE D.
  rewrite coef_poly; case: ltnP => Hz2; first by congr (_`_ _); lia.
  by rewrite nth_default //; apply: leq_trans Su _; lia.
have zR : zok (m - k1) n (fun i => t' (k1 + i)%N) res.
  case: (posnP k1) => [E|h]; last by apply: IHm; lia.
  have mk : (m - k1)%N = m by lia.
  have [W [pi' [KW Epi]]] := app_transport_sub PB PD KB mk gI2 QE.
  apply: (IHD (K' := W) (pi' := pi') mk).
    by apply: kb_ext KW => // b; rewrite tE.
  have -> : \sum_a (tK a - t' (k1 + pi' a)%N) = \sum_a (tK a - t (pi a)).
    by apply: eq_bigr => a _; rewrite tE // -Epi.
  have [KBb _ KI] := KB; have J := incr_inj KI.
  suff H : \sum_a (s (pi a) - diff) < \sum_a (t (pi a) - diff).
    move: H; rewrite !sumrB; move: (\sum_a s _) (\sum_a t _) (\sum_a tK _) (\sum_a diff) => x y z w; lia.
  apply: (@le_lt_trans _ _ (\sum_(i < m) (s i - diff))).
    rewrite (sum_codom (fun i : 'I_m => s i - diff) J) [X in _ <= X](bigID (mem (codom pi))) /= ler_addl.
    by apply: sumr_ge0 => i _; have := bdiff _ (ltn_ord i); have := b0 i; lia.
  apply: (lt_le_trans Osum).
  have kmn : (m - n <= k)%N.
    by have := kernel_basis_rows KBb; have := rank_leq_col (mf (mx_of m n A)); lia.
  apply: (@le_trans _ _ (\sum_(a < k) order)).
    by rewrite sumr_const card_ord -mulr_natl natz; apply: ler_wpmul2r; lia.
  apply: ler_sum => a _; have [[[q Hq] _]|[b Eb]] := gD (pi a); first by exfalso; lia.
  by have := g2P b; rewrite Eb /p; lia.
have [r2 [f2 [Z2 R2]]] := zR fzero (sc_rest sc).
have [pi2 Ep2 KB2] := (mkb_kb _ _ _ _ _).1 R2.
pose k2 := kr_nullity r2.
have KB2' : kb (fun b => t (g2 b)) (mx_of (m - k1) n res) (mx_of k2 (m - k1) (kr_ker r2)) pi2 (fun a => kr_shift r2 a).
  by apply: kb_ext KB2 => // b; rewrite tE.
have [C1 C2 C3] := app_compose PB PD gI1 gI2 gD gN PA1 QE KB2'.
rewrite -ker1E in PA1 C3; rewrite -ker2E -mx_of_multiply in C1 C2 C3.
have [_ _ I2] := KB2; have k21 := incr_leq I2; rewrite -/k2 in k21.
pose t2 := overwrite k1 t' (fun i => kr_shift r2 (i - k1)%N).
have t2E (a : 'I_k1) : t2 a = t (g1 a) by rewrite /t2 /overwrite ltn_ord tE.
case: (k2 =P 0%N) => [k20|/eqP k20].
  exists (KerRes k1 ker pv t2), f2.+1; split.
    case=> // fuel Hf; cbn [zls]; rewrite -/(base_case m n A) (negbTE B) (negbTE m1) ltnNge mn rdE (negbTE E0).
    rewrite dgE -/order -/N EP -/sc -/k1 -/pv -/ker -/t' -/early Ee -/ker2 Eres Z2; last by lia.
    by rewrite -/k2 k20 eqxx.
  apply/mkb_kb; exists g1 => //=.
  apply: (kb_merge PA1 C1 V1 C2 C3) => //.
  - by move=> a; left; exists a; rewrite t2E.
  - by move=> a; exists a.
  - by move=> -[a Ha]; exfalso; rewrite -/k2 k20 in Ha.
pose prod := pm_multiply modn k2 (m - k1) m (kr_ker r2) ker2.
pose ker3 := overwrite k1 ker (overwrite (k1 + k2) (fun i => prod (i - k1)%N) ker).
pose piv3 := foldl (fun p i => upd p (k1 + i)%N (p (k1 + kr_pivind r2 i)%N)) pv (iota 0 k2).
pose buf3 := zls_merge k1 k2 piv3 (kr_pivind r2).
have incr2 a b : (a < b < k2)%N -> (kr_pivind r2 a < kr_pivind r2 b)%N.
  case/andP=> ab bk; have ak := ltn_trans ab bk.
  by rewrite (Ep2 (Ordinal ak)) (Ep2 (Ordinal bk)); exact: (I2 (Ordinal ak) (Ordinal bk)).
have p3E j : piv3 j = if (k1 <= j < k1 + k2)%N then pv (k1 + kr_pivind r2 (j - k1))%N else pv j.
  by apply: inplace_fold; exact: inplace_incr.
have p31 (a : 'I_k1) : piv3 a = g1 a.
  by rewrite p3E ifN // leqNgt ltn_ord.
have p32 (b : 'I_k2) : piv3 (k1 + b)%N = g2 (pi2 b).
  rewrite p3E ifT; last by have := ltn_ord b; lia.
  by have -> : (k1 + b - k1 = b)%N by [lia]; rewrite Ep2.
have [] := @zls_mergeP k1 k2 piv3 (kr_pivind r2).
- move=> a b /andP[ab bk]; have ak := ltn_trans ab bk.
  by rewrite (p31 (Ordinal ak)) (p31 (Ordinal bk)); exact: (gI1 (Ordinal ak) (Ordinal bk)).
- move=> a b /andP[ka ab] bk.
  have Ha : (a - k1 < k2)%N by lia.
  have Hb : (b - k1 < k2)%N by lia.
  have -> : a = (k1 + (a - k1))%N by lia.
  have -> : b = (k1 + (b - k1))%N by lia.
  by rewrite (p32 (Ordinal Ha)) (p32 (Ordinal Hb)); apply/gI2/I2; rewrite /=; lia.
- move=> a b Ha /andP[kb bk].
  have Hb : (b - k1 < k2)%N by lia.
  have -> : b = (k1 + (b - k1))%N by lia.
  by rewrite (p31 (Ordinal Ha)) (p32 (Ordinal Hb)); exact: gN.
rewrite -/buf3 => bl bs bi.
exists (KerRes (k1 + k2) (overwrite (k1 + k2) (fperm_rows buf3 ker3) ker3)
          (overwrite (k1 + k2) (fun i => piv3 (buf3 i)) piv3)
          (overwrite (k1 + k2) (fun i => t2 (buf3 i)) t2)), f2.+1; split.
  case=> // fuel Hf; cbn [zls]; rewrite -/(base_case m n A) (negbTE B) (negbTE m1) ltnNge mn rdE (negbTE E0).
  rewrite dgE -/order -/N EP -/sc -/k1 -/pv -/ker -/t' -/early Ee -/ker2 Eres Z2; last by lia.
  by rewrite -/k2 (negbTE k20).
have blt (i : 'I_(k1 + k2)) : (buf3 i < k1 + k2)%N by exact: bl.
have cs (j : nat) : (j < k1 + k2)%N -> {a : 'I_k1 | j = a} + {b : 'I_k2 | j = (k1 + b)%N}.
  move=> Hj; case: (ltnP j k1) => h; first by left; exists (Ordinal h).
  have h2 : (j - k1 < k2)%N by lia.
  by right; exists (Ordinal h2); rewrite /=; lia.
have plt (i : 'I_(k1 + k2)) : (piv3 (buf3 i) < m)%N.
  by case: (cs _ (blt i)) => -[a ->]; rewrite ?p31 ?p32.
apply/mkb_kb; exists (fun i => Ordinal (plt i)) => /= [i|]; first by rewrite /overwrite ltn_ord.
have r1E (i : 'I_(k1 + k2)) (a : 'I_k1) : buf3 i = a ->
    row i (mx_of (k1 + k2) m (overwrite (k1 + k2) (fperm_rows buf3 ker3) ker3)) = row a (mx_of k1 m ker).
  by move=> E; apply/rowP=> j; rewrite !mxE /overwrite ltn_ord /fperm_rows E /ker3 /overwrite ltn_ord.
have r2E (i : 'I_(k1 + k2)) (b : 'I_k2) : buf3 i = (k1 + b)%N ->
    row i (mx_of (k1 + k2) m (overwrite (k1 + k2) (fperm_rows buf3 ker3) ker3)) = row b (mx_of k2 m prod).
  move=> E; apply/rowP=> j; rewrite !mxE /overwrite ltn_ord /fperm_rows E /ker3 /overwrite.
  by rewrite ltnNge leq_addr /= ltn_add2l ltn_ord addKn.
apply: (kb_merge PA1 C1 V1 C2 C3).
- move=> i; case: (cs _ (blt i)) => -[a E]; [left|right]; exists a; split.
  + exact: r1E.
  + by apply/val_inj; rewrite /= E p31.
  + by rewrite /overwrite ltn_ord E t2E.
  + exact: r2E.
  + by apply/val_inj; rewrite /= E p32.
  + by rewrite /overwrite ltn_ord E /t2 /overwrite ltnNge leq_addr addKn.
- move=> a; have [|i Hi E] := bs a; first by have := ltn_ord a; lia.
  by exists (Ordinal Hi); exact: r1E.
- move=> b; have [|i Hi E] := bs (k1 + b)%N; first by rewrite ltn_add2l.
  by exists (Ordinal Hi); exact: r2E.
by move=> i i' ii'; rewrite /=; apply: bi; rewrite ii' ltn_ord.
Qed.
End AppBranch.

Lemma zok_meas n m D : (forall n' m' s' A', (n' < n)%N -> zok m' n' s' A') ->
  (forall m' s' A', (m' < m)%N -> zok m' n s' A') ->
  forall k m' (s : nat -> int) A (K : 'M[R]_(k, m')) pi tK, m' = m ->
  kb (fun i : 'I_m' => s i) (mx_of m' n A) K pi tK -> \sum_a (tK a - s (pi a)) <= D%:Z -> zok m' n s A.
Proof.
move=> IHn IHm; elim/ltn_ind: D => D IH k m' s A K pi tK E KB HD; subst m'.
case: (boolP (base_case m n A)) => [B|B]; first exact: zok_base.
case: (m =P 1%N) => [E|/eqP m1]; first by move: B; rewrite E; exact: zok_row1.
have m0 : (m != 0)%N by apply: contraNneq B => E0; rewrite /base_case E0.
case: (ltnP m (2 * n)) => mn.
  by apply: zok_split => // m' s' A'; apply: IHn; lia.
apply: (zok_app B m1 mn KB IHm) => m' s' A' K' pi' E KB' Hlt.
have ge0 : 0 <= \sum_a (tK a - s' (pi' a)).
  by apply: sumr_ge0 => a _; have h := kb_delta a KB'; rewrite h.
apply: (IH (absz (\sum_a (tK a - s' (pi' a)))) _ _ _ _ _ _ _ _ E KB'); last by lia.
by move: Hlt HD ge0; move: (\sum_a _) (\sum_a _) => x y; lia.
Qed.

Theorem zls_correct m n s A : zok m n s A.
Proof.
elim/ltn_ind: n m s A => n IHn m; elim/ltn_ind: m => m IHm s A.
have [r [_ R0]] := via_approx_correct v36 m n fzero id s A Hc.
have [pi _ KB] := (mkb_kb _ _ _ _ _).1 R0.
apply: (zok_meas (D := absz (\sum_a (kr_shift r (a : 'I_(kr_nullity r)) - s (pi a)))) _ _ (erefl m) KB).
- by move=> n' m' s' A' H; exact: IHn.
- by move=> m' s' A' h; exact: IHm.
- by lia.
Qed.
End Z.
