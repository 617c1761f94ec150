(** Proofs about the echelon form algorithm in the style of Mulders and Storjohann. *)
From mathcomp Require Import all_ssreflect all_algebra fingroup perm fraction zify.
From Verif Require Import A_base SpecA SpecForms SpecLU SpecWP SpecHermite A_rot_model A_wpopov_model.
From Verif Require Import A_rowops_proof A_wpopov_proof A_hermite_model A_hermite_ops_proof A_uref_proof A_kb_key.
From Verif Require Import P_pluq A_det_model A_det_proof A_matgcd_model.
Set Implicit Arguments.
Unset Strict Implicit.
Unset Printing Implicit Defensive.
Import Order.TTheory GRing.Theory Num.Theory.
Local Open Scope ring_scope.

Section Embed.
Variable F : fieldType.
Local Notation P := {poly F}.
Implicit Types (A : fmat P) (T : option (fmat P)).

(** a left multiplication of the i first rows *)
Lemma embed i p (U : 'M[P]_i) : exists2 V : 'M[P]_(i + p), \det V = \det U &
  forall c A A', left_multiplied 0 c U A A' -> lmul c V A A'.
Proof.
exists (block_mx U 0 0 1%:M); first by rewrite det_ublock det1 mulr1.
move=> c A A' [H1 H2]; rewrite /lmul.
have E (B : fmat P) : mx_of (i + p) c B = col_mx (mx_of i c B) (mx_of p c (fun k => B (i + k)%N)).
  by apply/matrixP=> a b; rewrite !mxE; case: splitP => k Ek; rewrite mxE Ek.
rewrite !E mul_block_col !mul0mx addr0 add0r mul1mx; congr col_mx; first exact: H1.
by apply/matrixP=> a b; rewrite !mxE H2 // leq_addr orbT.
Qed.

Lemma embed_trans m n cT i (U : 'M[P]_i) A T A' T' : (i <= m)%N ->
  left_multiplied 0 n U A A' -> opt_rel (left_multiplied 0 cT U) T T' ->
  trans m n cT (\det U) A T A' T'.
Proof.
move=> Hi H1 H2; have [p Em] : exists p, m = (i + p)%N by exists (m - i)%N; rewrite subnKC.
subst m; have [V dV HV] := embed p U; exists V => //; split; first exact: HV.
by move: H2; case: T T' => [B|] [B'|] //=; exact: HV.
Qed.

Lemma perm_trans m n cT i (p : nat -> nat) A T : (i <= m)%N -> is_perm i p ->
  (forall k, (i <= k)%N -> p k = k) ->
  trans m n cT ((-1) ^+ perm_parity i p) A T (fun k => A (p k)) (omap (fun B => fperm_rows p B) T).
Proof.
move=> Hi Hp Hid; have [s Hs] : exists s : 'S_i, forall a, (s a : nat) = p a.
  case: Hp => H1 H2; pose pm (a : 'I_i) : 'I_i := Ordinal (H1 a (ltn_ord a)).
  have pI : injective pm by move=> a b /(congr1 val) /= /H2 E; apply: val_inj; exact: E.
  by exists (perm pI) => a; rewrite permE.
have Ep : perm_parity i p = s.
  rewrite /perm_parity; case: pickP => [s' /forallP Hs'|N].
    by congr odd_perm; apply/permP=> a; apply: val_inj; rewrite /= Hs (eqP (Hs' a)).
  by case/negP: (N s); apply/forallP=> a; rewrite Hs.
have L c B : left_multiplied 0 c (perm_mx s) B (fun k => B (p k)).
  split; last by move=> a b; rewrite ltn0 add0n /= => Ha; rewrite Hid.
  by rewrite -row_permE; apply/matrixP=> a b; rewrite !mxE /= !add0n Hs.
rewrite Ep -det_perm; apply: embed_trans => //; first exact: L.
by case: T => //= B; exact: L.
Qed.

(** ** Ranks of leading columns *)
Variables (m n : nat).
Local Notation zrows := (zrows m).

Local Notation tf := (@FracField.tofrac [idomainType of P]).

Lemma topE p c A i j : top p c A i j = tf (A i j).
Proof. by rewrite !mxE. Qed.

Lemma top_rows A k p : (k <= m)%N -> zrows A k p -> (\rank (top m p A) <= \rank (top k p A))%N.
Proof.
move=> Hk Z.
have -> : top m p A = (pid_mx k : 'M_(m, k)) *m top k p A.
  apply/matrixP=> i j; rewrite topE mxE; case: (ltnP i k) => C.
    rewrite (bigD1 (Ordinal C)) //= big1 ?addr0 => [|a Na]; first by rewrite mxE topE /= eqxx C mul1r.
    rewrite mxE (_ : (i == a :> nat) = false) ?mul0r //.
    by apply/negbTE; rewrite eq_sym; move: Na; rewrite -val_eqE.
  rewrite big1 => [|a _]; first by rewrite Z ?rmorph0 // C ltn_ord.
  by rewrite mxE (ltnNge i k) C andbF mul0r.
exact: mxrankM_maxr.
Qed.

Lemma zrows_rank A k p : zrows A k p -> (\rank (top m p A) <= k)%N.
Proof.
move=> Z; case: (leqP m k) => C; first by apply: leq_trans (rank_leq_row _) C.
by apply: leq_trans (top_rows (ltnW C) Z) (rank_leq_row _).
Qed.

Lemma det0_rank A k : (k <= m)%N -> zrows A k k -> \det (mx_of k k A) = 0 -> (\rank (top m k A) < k)%N.
Proof.
move=> Hk Z D; apply: leq_ltn_trans (top_rows Hk Z) _.
rewrite ltn_neqAle rank_leq_row andbT; apply/negP=> /eqP H.
have : top k k A \in unitmx by rewrite -row_full_unit /row_full H eqxx.
by rewrite unitmxE /top det_map_mx D rmorph0 unitr0.
Qed.

Lemma rank_cols A p q : (p <= q)%N -> (\rank (top m q A) <= \rank (top m p A) + (q - p))%N.
Proof.
move=> H; have [d ->] : exists d, q = (p + d)%N by exists (q - p)%N; rewrite subnKC.
have -> : top m (p + d) A = row_mx (top m p A) (\matrix_(i < m, j < d) tf (A i (p + j)%N)).
  by apply/matrixP=> i j; rewrite topE mxE; case: splitP => k ->; rewrite mxE ?mxE.
rewrite -mxrank_tr tr_row_mx -addsmxE addKn -[\rank (top m p A)]mxrank_tr.
apply: leq_trans (mxrank_adds_leqif _ _) _; rewrite leq_add2l; exact: rank_leq_row.
Qed.

Lemma top_colsE A p q : (p <= q)%N -> top m p A = top m q A *m (pid_mx p : 'M_(q, p)).
Proof.
move=> H; apply/matrixP=> i j; rewrite topE mxE (bigD1 (widen_ord H j)) //= big1 ?addr0.
  by rewrite topE mxE eqxx /= ltn_ord mulr1.
by move=> a Na; rewrite [X in _ * X]mxE (_ : (a == j :> nat) = false) ?mulr0 //; apply/negbTE; move: Na; rewrite -val_eqE.
Qed.

Lemma rank_sub A p q : (p <= q)%N -> (\rank (top m p A) <= \rank (top m q A))%N.
Proof. by move=> H; rewrite (top_colsE A H) mxrankM_maxl. Qed.

(** a nonzero entry outside of the rows that span the first columns *)
Lemma rank_extra A c k i j : (c <= n)%N -> \rank (top m c A) = k -> zrows A k c ->
  (k <= i < m)%N -> (j < n)%N -> A i j != 0 -> (k < \rank (top m n A))%N.
Proof.
move=> Hc R Z Hi Hj N; rewrite ltn_neqAle -{2}R rank_sub // andbT; apply/negP=> /eqP E.
have S : ((top m c A)^T <= (top m n A)^T)%MS by rewrite (top_colsE A Hc) trmx_mul submxMl.
have : ((top m n A)^T <= (top m c A)^T)%MS.
  by rewrite -(geq_leqif (mxrank_leqif_sup S)) !mxrank_tr R E.
case/submxP=> X EX; case/andP: Hi => Hk Hm.
have : (top m n A)^T (Ordinal Hj) (Ordinal Hm) = 0.
  by rewrite EX mxE big1 // => a _; rewrite [X in _ * X]mxE topE Z ?rmorph0 ?mulr0 // Hk.
by rewrite mxE topE /= => /eqP; rewrite tofrac_eq0 (negPf N).
Qed.
End Embed.

Section Algo.
Local Arguments permute_rows_by_sorting_vec : simpl never.
Local Arguments perm_parity : simpl never.
Variable F : fieldType.
Local Notation P := {poly F}.
Variable xgcd : P -> P -> P * P * P.
Hypothesis XS : xgcd_spec xgcd.
Variables m n cT : nat.
Implicit Types (A : fmat P) (T : option (fmat P)).
Local Notation trans := (trans m n cT).
Local Notation zrows := (zrows m).

Lemma trans_sg (a b : bool) A T A1 T1 A2 T2 : trans ((-1) ^+ a) A T A1 T1 -> trans ((-1) ^+ b) A1 T1 A2 T2 ->
  trans ((-1) ^+ (b (+) a)) A T A2 T2.
Proof. by move=> H1 H2; rewrite -sgMP; apply: trans_comp H1 H2. Qed.

Lemma clearP A T pi j : (pi < m)%N -> (j < n)%N -> A pi j != 0 -> zrows A pi j ->
  let '(A', T') := mg_clear xgcd m n cT A T pi j in
  [/\ trans 1 A T A' T', A' pi j != 0, zrows A' pi j, (forall i, (pi < i < m)%N -> A' i j = 0) &
      forall i k, (i < pi)%N -> (k < n)%N -> A' i k = A i k].
Proof.
move=> Hpi Hj N Z; rewrite /mg_clear.
suff Q c : (pi.+1 + c <= m)%N ->
    let '(A', T') := foldl (fun st ii => if st.1 ii j != 0 then xgcd_collision xgcd n cT st.1 st.2 pi ii j else st)
      (A, T) (iota pi.+1 c) in
    [/\ trans 1 A T A' T', A' pi j != 0, zrows A' pi j, (forall i, (pi < i < pi.+1 + c)%N -> A' i j = 0) &
      forall i k, (i < pi)%N -> (k < n)%N -> A' i k = A i k].
  have := Q (m - pi.+1)%N; rewrite subnKC //; exact.
elim: c => [|c IH] Hc.
  by split=> //; [exact: trans_refl|move=> i Hi; lia].
rewrite -[in iota _ _](addn1 c) iotaD foldl_cat.
have : (pi.+1 + c <= m)%N by lia.
move/IH; case: (foldl _ _ _) => A1 T1 [Tr1 N1 Z1 Zj Fr] /=.
case: (A1 (pi.+1 + c)%N j =P 0) => [E0|/eqP Ni] /=.
  split=> // i Hi; case: (i =P (pi.+1 + c)%N) => [->//|Ne]; apply: Zj; lia.
have Npi : pi != (pi.+1 + c)%N by lia.
have [||||||||u [v [a [b]]]] := @xgcd_collisionP F m n cT xgcd A1 T1 pi (pi.+1 + c)%N j XS => //; try lia.
- by move=> k Hk; apply: Z1 => //; lia.
- by move=> k Hk; apply: Z1 => //; lia.
case: (xgcd_collision xgcd n cT A1 T1 pi _ j) => A2 T2 [[_ Na Eg] Tr2 EA Ep Mg].
split.
- by rewrite -[1](mulr1 1); apply: trans_comp Tr1 Tr2.
- exact: monic_neq0.
- move=> i k Hi Hk; rewrite EA; last by lia.
  by rewrite !Z1 ?mulr0 ?addr0 ?subr0 ?if_same //; lia.
- move=> i Hi; case: (i =P (pi.+1 + c)%N) => [->//|/eqP/negbTE Ne].
  by rewrite EA // Ne (_ : (i == pi) = false) ?Zj //; lia.
move=> i k Hi Hk; rewrite EA // (_ : (i == pi) = false); last by lia.
by rewrite (_ : (i == (pi.+1 + c)%N) = false) ?Fr //; lia.
Qed.

Lemma mg_loopS fuel i A A' T udet pivind r pv perm :
  weak_popov_submat fuel n cT A None T udet pivind None 0 0 i.+1 i 2 ROW_UPPER = Some (AOk r) ->
  (wr_ret r < i%:Z) || (wr_mat r i i == 0) = false ->
  permute_rows_by_sorting_vec i (wr_mat r) (wr_pivind r) = (A', pv, perm) ->
  mg_loop n cT fuel i.+1 A T udet pivind =
  mg_loop n cT fuel i A' (omap (fun B => fperm_rows perm B) (wr_tsf r))
    (omap (fun d => if perm_parity i perm then - d else d) (wr_det r)) pv.
Proof. by move=> E C Ep; rewrite [LHS]/mg_loop -/(@mg_loop F) E C Ep. Qed.

Lemma mg_loopP i A T udet pivind : (i <= m)%N -> (i <= n)%N ->
  exists N A' T' udet' pv' ok,
  [/\ forall fuel, (N <= fuel)%N -> mg_loop n cT fuel i A T udet pivind = Some (AOk (A', T', udet', pv', ok)),
    (exists sg : bool, trans ((-1) ^+ sg) A T A' T' /\ udet' = omap (fun d => (-1) ^+ sg * d) udet),
    if ok then forall a, (a < i)%N -> A' a a != 0 /\ forall b, (b < a)%N -> A' a b = 0
    else \det (mx_of i i A) = 0,
    (forall a b, (i <= a)%N -> A' a b = A a b) &
    forall a, (i <= a)%N -> pv' a = pivind a].
Proof.
elim: i A T udet pivind => [|i IH] A T udet pivind Him Hin.
  exists 0%N, A, T, udet, pivind, true; split=> //; exists false; split; first exact: trans_refl.
  by case: udet => //= d; rewrite mul1r.
have [r [k [zr [N [E [L1 L2 L3] [U [sg [dU U1 UT E2]]] [W Z] [R Fp]]]]]] :=
  @submat_all F A T udet pivind None i.+1 i n cT 2 (ltnW Hin).
have Tr1 : trans ((-1) ^+ sg) A T (wr_mat r) (wr_tsf r) by rewrite -dU; apply: embed_trans.
have EV : \det (mx_of i.+1 i.+1 A) = (-1) ^+ sg * \det (mx_of i.+1 i.+1 (wr_mat r)).
  have -> : mx_of i.+1 i.+1 (wr_mat r) = U *m mx_of i.+1 i.+1 A.
    case: U1 => /matrixP U1 _; apply/matrixP=> a b.
    have Hb : (b < n)%N by apply: leq_trans (ltn_ord b) Hin.
    have := U1 a (Ordinal Hb); rewrite !mxE /= => ->.
    by apply: eq_bigr => c _; rewrite !mxE.
  by rewrite det_mulmx dU mulrA -expr2 sqrr_sign mul1r.
have Zz : (0 < zr)%N.
  by have := rank_leq_col (map_mx (@FracField.tofrac [idomainType of P]) (block 0 (k + zr) i A)); rewrite -/(prank _) R; lia.
have DL : \det (mx_of i.+1 i.+1 (wr_mat r)) = wr_mat r i i * \det (mx_of i i (wr_mat r)).
  by apply: det_last => j Hj; apply: Z => //; lia.
case C: ((wr_ret r < i%:Z) || (wr_mat r i i == 0)).
  exists N, (wr_mat r), (wr_tsf r), (wr_det r), (wr_pivind r), false; split=> //.
  - by move=> fuel Hf /=; rewrite E // C.
  - by exists sg.
  - rewrite EV; case/orP: C => [C|/eqP C]; last by rewrite DL C mul0r mulr0.
    case: i {IH} Him Hin U U1 UT dU E L1 L2 L3 Z R DL EV W C Fp => [|i] Him Hin U U1 UT dU E L1 L2 L3 Z R DL EV W C Fp.
      by move: C; rewrite L3; case: ifP => C'; lia.
    have Z2 : (2 <= zr)%N by move: C; rewrite L3; case: ifP => C'; lia.
    rewrite DL; suff -> : \det (mx_of i.+1 i.+1 (wr_mat r)) = 0 by rewrite !mulr0.
    rewrite (expand_det_row _ ord_max) big1 // => j _.
    by rewrite mxE /= Z ?mul0r //; lia.
  - by move=> a b Ha; case: U1 => _ ->; rewrite ?add0n ?Ha ?orbT.
have Ok : i = k /\ zr = 1%N by move: C; rewrite L3 => /norP[]; case: ifP => C'; lia.
have [Ek Ez] := Ok; subst k.
case Ep: (permute_rows_by_sorting_vec i (wr_mat r) (wr_pivind r))
  (C50_permute_rows_by_sorting_vec (wr_mat r) (wr_pivind r) (leqnn i)) => [[A' pv] perm] [[Pm _] PA Pv Pid _].
have [|N' [A2 [T2 [u2 [pv2 [ok [E' [s2 [Tr2 Eu]] H' Fr Fp2]]]]]]] :=
  IH A' (omap (fun B => fperm_rows perm B) (wr_tsf r))
    (omap (fun d => if perm_parity i perm then - d else d) (wr_det r)) pv _ (ltnW Hin); first exact: ltnW.
have Tr12 : trans ((-1) ^+ perm_parity i perm) (wr_mat r) (wr_tsf r) A' (omap (fun B => fperm_rows perm B) (wr_tsf r)).
  apply: trans_ext (perm_trans _ _ _ _ (ltnW Him) Pm Pid) _ => a b _ _; by rewrite PA.
have D' : \det (mx_of i i A') = (-1) ^+ perm_parity i perm * \det (mx_of i i (wr_mat r)).
  by rewrite -parity_det //; congr (\det _); apply/matrixP=> a b; rewrite !mxE PA.
have Ds : \det (mx_of i i (wr_mat r)) = (-1) ^+ perm_parity i perm * \det (mx_of i i A').
  by rewrite D' mulrA -expr2 sqrr_sign mul1r.
exists (maxn N N'), A2, T2, u2, pv2, ok; split.
- move=> fuel; rewrite geq_max => /andP[Hf Hf'].
  by rewrite (mg_loopS (E _ Hf) C Ep) E'.
- exists (s2 (+) (perm_parity i perm (+) sg)); split; first exact: trans_sg (trans_sg Tr1 Tr12) Tr2.
  rewrite Eu E2; case: (udet) => //= d; congr Some; rewrite -!sgM.
  by case: perm_parity; rewrite /= ?expr1 ?expr0; lia.
- case: ok {E'} H' => H'; last by rewrite EV DL Ds H' !mulr0.
  move=> a Ha; case: (ltnP a i) => Ca; first exact: H'.
  have -> : a = i by lia.
  rewrite Fr // PA Pid //; split; first by move/norP: (negbT C) => [].
  by move=> b Hb; rewrite Fr // PA Pid // Z //; lia.
- move=> a b Ha; rewrite Fr; last by lia.
  rewrite PA Pid; last by lia.
  by case: U1 => _ ->; rewrite ?add0n ?Ha ?orbT.
move=> a Ha; rewrite Fp2; last by lia.
rewrite -Fp //; move: Ep; rewrite /permute_rows_by_sorting_vec; case: vec_sort_permutation => p0 sv [_ <- _].
by rewrite ltnNge (ltnW Ha).
Qed.

Lemma fill_ids (p : nat -> int) k i : foldl (fun p j => upd p j j%:Z) p (iota 0 k) i = if (i < k)%N then i%:Z else p i.
Proof.
elim: k => [|k IH] //; rewrite -(addn1 k) iotaD foldl_cat /= /upd IH add0n.
case: (i =P k) => [->|N]; first by rewrite addn1 ltnSn.
by have -> : (i < k + 1)%N = (i < k)%N by lia.
Qed.

Lemma trans_sub k A T A' T' p : k != 0 -> (p <= n)%N -> trans k A T A' T' ->
  \rank (top m p A') = \rank (top m p A).
Proof. exact: trans_top. Qed.

Lemma sg0 (b : bool) : (-1) ^+ b != 0 :> P.
Proof. by rewrite signr_eq0. Qed.

(** once the rows from rk on vanish *)
Lemma mg_final A T udet pivind rrp A3 T3 udet3 pv3 rk (sg : bool) :
  (rk <= m)%N -> (rk <= n)%N ->
  trans ((-1) ^+ sg) A T A3 T3 -> zrows A3 rk n -> \rank (top m n A) = rk ->
  (forall i, (m <= i)%N -> pv3 i = pivind i) ->
  ((m <= n)%N -> udet3 = omap (fun d => (-1) ^+ sg * d) udet) ->
  exists N r,
  [/\ forall fuel, (N <= fuel)%N ->
        match mg_loop n cT fuel rk A3 T3 udet3 pv3 with
        | None => None
        | Some AUB => Some AUB
        | Some (AOk (A', T', udet', pivind', true)) =>
          Some (AOk (MGR A' T' (foldl (fun p j => upd p j j%:Z) pivind' (iota 0 rk)) rrp udet' rk%:Z))
        | Some (AOk (A', T', udet', pivind', false)) =>
          Some (AOk (MGR A' T' pivind' rrp udet' (- rk%:Z)))
        end = Some (AOk r),
    (exists sg : bool, trans ((-1) ^+ sg) A T (mg_mat r) (mg_tsf r) /\
       ((m <= n)%N -> mg_udet r = omap (fun d => (-1) ^+ sg * d) udet)),
    (0 <= mg_ret r -> [/\ pivs n (mg_mat r) rk id, zrows (mg_mat r) rk n, mg_ret r = rk%:Z &
        forall i, (i < rk)%N -> mg_pivind r i = i%:Z]),
    (mg_ret r < 0 <-> (\rank (top m rk A) < rk)%N) &
    forall i, (m <= i)%N -> mg_pivind r i = pivind i].
Proof.
move=> Hkm Hkn Tr Z R Fp Hu.
have [N [A' [T' [u' [pv' [ok [E [s2 [Tr2 Eu]] H Fr Fp']]]]]]] := mg_loopP A3 T3 udet3 pv3 Hkm Hkn.
have Trr : trans ((-1) ^+ (s2 (+) sg)) A T A' T' := trans_sg Tr Tr2.
have Uu : (m <= n)%N -> u' = omap (fun d => (-1) ^+ (s2 (+) sg) * d) udet.
  by move=> Hmn; rewrite Eu Hu //; case: (udet) => //= d; rewrite -sgM mulrA.
have Z' : zrows A' rk n by move=> a b Ha Hb; rewrite Fr; [apply: Z|lia].
case: ok E H => E H.
  exists N, (MGR A' T' (foldl (fun p j => upd p j j%:Z) pv' (iota 0 rk)) rrp u' rk%:Z); split=> /=.
  - by move=> fuel Hf; rewrite E.
  - by exists (s2 (+) sg).
  - move=> _; split=> //.
      split=> [i Hi|i i' /andP[]//]; have [h1 h2] := H i Hi; split=> //; lia.
    by move=> i Hi; rewrite fill_ids Hi.
  - split=> [|L]; first by lia.
    exfalso; move: L.
    have Pv : pivs n A' rk id by split=> [i Hi|i i' /andP[]//]; have [h1 h2] := H i Hi; split=> //; lia.
    rewrite -(trans_top (sg0 (s2 (+) sg)) Hkn Trr) (pivs_rank Hkm Hkn Pv Z').
    have -> : [set i : 'I_rk | (i < rk)%N] = setT by apply/setP=> i; rewrite !inE ltn_ord.
    by rewrite cardsT card_ord ltnn.
  - by move=> i Hi; rewrite fill_ids ifF ?Fp' ?Fp //; lia.
have Hk : (0 < rk)%N.
  case: (posnP rk) => // k0; move: H; rewrite k0 det_mx00 => /eqP; by rewrite oner_eq0.
exists N, (MGR A' T' pv' rrp u' (- rk%:Z)); split=> /=.
- by move=> fuel Hf; rewrite E.
- by exists (s2 (+) sg).
- by move=> C; exfalso; lia.
- split=> [_|]; last by lia.
  rewrite -(trans_top (sg0 sg) Hkn Tr); apply: det0_rank => // a b Ha Hb; apply: Z => //; lia.
- by move=> i Hi; rewrite Fp' ?Fp //; lia.
Qed.

Lemma mg_allP A T pivind rrp udet : let R := \rank (top m n A) in
  exists N r,
  [/\ forall fuel, (N <= fuel)%N -> uref_matrixgcd_iter xgcd m n cT fuel A T pivind rrp udet = Some (AOk r),
    (exists sg : bool, trans ((-1) ^+ sg) A T (mg_mat r) (mg_tsf r) /\
       ((m <= n)%N -> mg_udet r = omap (fun d => (-1) ^+ sg * d) udet)),
    (0 <= mg_ret r -> [/\ pivs n (mg_mat r) R id, zrows (mg_mat r) R n, mg_ret r = R%:Z &
        forall i, (i < R)%N -> mg_pivind r i = i%:Z]),
    (mg_ret r < 0 <-> (\rank (top m R A) < R)%N) &
    forall i, (m <= i)%N -> mg_pivind r i = pivind i].
Proof.
move=> R; rewrite /uref_matrixgcd_iter; case C0: ((m == 0%N) || (n == 0%N)).
  have R0 : R = 0%N.
    apply/eqP; rewrite -leqn0 /R; case/orP: C0 => /eqP C0.
      by have := rank_leq_row (top m n A); lia.
    by have := rank_leq_col (top m n A); lia.
  exists 0%N, (MGR A T pivind rrp udet 0); split=> //=.
  - by exists false; split; [exact: trans_refl|case: (udet) => //= d; rewrite mul1r].
  - move=> _; rewrite R0; split=> //; first by split=> // i i'; rewrite ltn0 andbF.
    by move=> i k Hi Hk; case/orP: C0 => /eqP; lia.
  - by rewrite R0 ltn0; split; lia.
set c := (minn m n - 1)%N.
have Hc : (c <= n)%N by rewrite /c; lia.
have [r [k [zr [N [E [L1 L2 L3] [U [sg [dU U1 UT E2]]] [W Z] [Rk Fp]]]]]] :=
  @submat_all F A T udet pivind rrp m c n cT m Hc.
have {L2} Ek : (k + zr = m)%N by lia.
have Er : `|wr_ret r|%N = k by rewrite L3; case: ifP; lia.
rewrite Ek in Rk.
have Tr1 : trans ((-1) ^+ sg) A T (wr_mat r) (wr_tsf r) by rewrite -dU; apply: embed_trans.
have Z1 : zrows (wr_mat r) k c by move=> i j Hi Hj; apply: Z => //; lia.
have R1 : \rank (top m c (wr_mat r)) = k.
  rewrite (trans_top (sg0 sg) Hc Tr1) -[RHS]Rk /prank.
  by have -> : block 0 m c A = mx_of m c A by apply/matrixP=> a b; rewrite !mxE.
have Rn : \rank (top m n (wr_mat r)) = R by rewrite (trans_top (sg0 sg) (leqnn n) Tr1).
have Lkc : (k <= c)%N by rewrite -R1 rank_leq_col.
have Hkm : (k < m)%N by move: Lkc; rewrite /c; lia.
have Hkn : (k < n)%N by move: Lkc; rewrite /c; lia.
have LR : (k <= R)%N by rewrite -Rn -R1; apply: rank_sub.
have [B1 B2 B3] := first_nzP (wr_mat r) k (ltnW Hkm); set pi := first_nz m (wr_mat r) k k in B1 B2 B3.
case Cpi: (pi < m)%N.
  have Hpi : (pi < m)%N := Cpi.
  (* a missed pivot *)
  have Ekc : k = c.
    apply/eqP; rewrite eqn_leq Lkc leqNgt; apply/negP=> L; move: (B3 Cpi); rewrite Z1 ?eqxx //; lia.
  have Zp : zrows (wr_mat r) pi k by move=> a b Ha Hb; apply: Z1; lia.
  have RR : R = k.+1.
    apply/eqP; rewrite eqn_leq; apply/andP; split.
      by have := rank_leq_row (top m n A); have := rank_leq_col (top m n A); rewrite -/R; move: Ekc; rewrite /c; lia.
    by rewrite -Rn; apply: (rank_extra Hc R1 Z1 (i := pi) (j := k)) => //; [lia|exact: B3].
  case Ec: (mg_clear xgcd m n cT (wr_mat r) (wr_tsf r) pi k) (clearP (wr_tsf r) Hpi Hkn (B3 Cpi) Zp) => [A2 T2].
  move=> [Tr2 N2 Z2 Zc Fr2].
  set A3 := swap_rows A2 k pi.
  have Tr3 : trans ((-1) ^+ (k != pi)) A2 T2 A3 (omap (fun B => swap_rows B k pi) T2) by apply: trans_swap.
  have Tr : trans ((-1) ^+ ((k != pi) (+) sg)) A T A3 (omap (fun B => swap_rows B k pi) T2).
    by apply: trans_sg Tr3; have := trans_comp Tr1 Tr2; rewrite mul1r.
  have Z3' : forall a b, (k.+1 <= a < m)%N -> (b < k.+1)%N -> A3 a b = 0.
    move=> a b Ha Hb; rewrite /A3 swap_rowsE.
    case: (a =P pi) => [Ea|Na].
      rewrite (_ : (a == k) = false); last by lia.
      rewrite Fr2; [|lia|lia].
      case: (b =P k) => [->|Nb]; first by apply: B2; lia.
      by apply: Z1; lia.
    rewrite (_ : (a == k) = false); last by lia.
    case: (ltnP a pi) => La.
      rewrite Fr2; [|lia|lia].
      case: (b =P k) => [->|Nb]; first by apply: B2; lia.
      by apply: Z1; lia.
    case: (b =P k) => [->|Nb]; first by apply: Zc; lia.
    by apply: Z2; lia.
  have Z3 : zrows A3 k.+1 n.
    move=> a b Ha Hb; apply: Z3' => //; move: Ekc; rewrite /c; lia.
  have All : all (fun i => all (fun j => A3 i j == 0) (iota k.+1 (n - k.+1))) (iota k.+1 (m - k.+1)).
    apply/allP=> i; rewrite mem_iota => Hi; apply/allP=> j; rewrite mem_iota => Hj.
    by rewrite Z3 ?eqxx //; lia.
  have Uu : (m <= n)%N -> wr_det r = omap (fun d => (-1) ^+ ((k != pi) (+) sg) * d) udet.
    move=> Hmn; rewrite E2 (_ : (k != pi) = false) //; move: Ekc; rewrite /c; lia.
  have [N' [r' [E' H1 H2 H3 H4]]] := mg_final (wr_rrp r) Hkm Hkn Tr Z3 RR Fp Uu.
  exists (maxn N N'), r'; rewrite RR; split=> // fuel; rewrite geq_max => /andP[Hf Hf'].
  by rewrite E // Er -/pi Cpi Ec -/A3 All /= E'.
have Z1' : zrows (wr_mat r) k k.+1.
  move=> a b Ha Hb; case: (b =P k) => [->|Nb]; first by apply: B2; lia.
  by apply: Z1; lia.
case Ca: (all (fun i => all (fun j => wr_mat r i j == 0) (iota k (n - k))) (iota k (m - k))).
  have Z3 : zrows (wr_mat r) k n.
    move=> a b Ha Hb; case: (ltnP b k) => Cb; first by apply: Z1'; lia.
    by move/allP: Ca => /(_ a); rewrite mem_iota => /(_ _)/allP-/(_ _ b); rewrite mem_iota => H; apply/eqP; apply: H; lia.
  have RR : R = k by apply/eqP; rewrite eqn_leq LR andbT -Rn; apply: zrows_rank.
  have Uu : (m <= n)%N -> wr_det r = omap (fun d => (-1) ^+ sg * d) udet by rewrite E2.
  have [N' [r' [E' H1 H2 H3 H4]]] := mg_final (wr_rrp r) (ltnW Hkm) (ltnW Hkn) Tr1 Z3 RR Fp Uu.
  exists (maxn N N'), r'; rewrite RR; split=> // fuel; rewrite geq_max => /andP[Hf Hf'].
  by rewrite E // Er -/pi Cpi Ca /= E'.
exists N, (MGR (wr_mat r) (wr_tsf r) (wr_pivind r) (wr_rrp r) (wr_det r) (- k%:Z - 1)); split=> //=.
- by move=> fuel Hf; rewrite E // Er -/pi Cpi Ca.
- by exists sg.
- by move=> H; exfalso; lia.
split=> [_|]; last by lia.
have LR' : (k < R)%N.
  move/negbT: Ca => /allPn[a]; rewrite mem_iota => Ha /allPn[b]; rewrite mem_iota => Hb Nab.
  by rewrite -Rn; apply: (rank_extra Hc R1 Z1 _ _ Nab); lia.
have := rank_cols m (wr_mat r) LR'; have := zrows_rank Z1'.
have Rm : (R <= n)%N by rewrite /R rank_leq_col.
rewrite -(trans_top (sg0 sg) Rm Tr1).
move: (\rank (top m k.+1 _)) (\rank (top m R _)) => x y; lia.
Qed.
End Algo.
