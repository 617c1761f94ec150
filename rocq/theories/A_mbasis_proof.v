(** The model of mbasis refines the abstract step. *)
From mathcomp Require Import all_ssreflect all_algebra zify.
From Verif Require Import A_base SpecA A_nullspace_model A_nullspace_proof A_nullspace2_proof.
From Verif Require Import A_matpoly_model A_matpoly_proof A_mbasis_model A_mbasis_abs.
Set Implicit Arguments.
Unset Strict Implicit.
Unset Printing Implicit Defensive.
Import Order.TTheory GRing.Theory Num.Theory.
Local Open Scope ring_scope.

(** ** The shift permutation *)
Lemma shift_leE s i j : shift_le s i j = (s i < s j)%R || ((s i == s j) && (i <= j)%N).
Proof. by rewrite /shift_le; case: eqP => [->|_]; rewrite ?ltxx ?orbF /=. Qed.

Lemma shift_le_total s : total (shift_le s).
Proof. by move=> i j; rewrite !shift_leE; lia. Qed.

Lemma shift_le_trans s : transitive (shift_le s).
Proof. by move=> j i k; rewrite !shift_leE; lia. Qed.

Lemma fsp_perm m s : perm_eq (find_shift_permutation m s) (iota 0 m).
Proof. by rewrite /find_shift_permutation perm_sort. Qed.

Lemma fsp_size m s : size (find_shift_permutation m s) = m.
Proof. by rewrite (perm_size (fsp_perm m s)) size_iota. Qed.

Lemma fsp_lt m s i j : (i < j)%N -> (j < m)%N ->
  shift_le s (nth 0%N (find_shift_permutation m s) i) (nth 0%N (find_shift_permutation m s) j).
Proof.
move=> Hij Hj.
apply: (sorted_ltn_nth (@shift_le_trans s) 0%N (sort_sorted (@shift_le_total s) _)) => //;
  rewrite inE fsp_size; lia.
Qed.

(** ** Permutations given as sequences *)
Section Perm.
Variables (m : nat) (pv : seq nat).
Hypothesis Hp : perm_eq pv (iota 0 m).

Lemma pv_size : size pv = m.
Proof. by rewrite (perm_size Hp) size_iota. Qed.

Lemma pv_uniq : uniq pv.
Proof. by rewrite (perm_uniq Hp) iota_uniq. Qed.

Lemma pv_mem i : (i \in pv) = (i < m)%N.
Proof. by rewrite (perm_mem Hp) mem_iota add0n. Qed.

Lemma pv_lt i : (i < m)%N -> (nth 0%N pv i < m)%N.
Proof. by move=> H; rewrite -pv_mem mem_nth // pv_size. Qed.

Lemma pv_index_lt i : (i < m)%N -> (index i pv < m)%N.
Proof. by move=> H; rewrite -[X in (_ < X)%N]pv_size index_mem pv_mem. Qed.

Lemma pv_nth_index i : (i < m)%N -> nth 0%N pv (index i pv) = i.
Proof. by move=> H; rewrite nth_index // pv_mem. Qed.

Lemma pv_index_nth i : (i < m)%N -> index (nth 0%N pv i) pv = i.
Proof. by move=> H; rewrite index_uniq ?pv_size // pv_uniq. Qed.

Lemma pv_sum (R : zmodType) (f : nat -> R) : \sum_(q < m) f q = \sum_(l < m) f (nth 0%N pv l).
Proof.
rewrite -(big_mkord xpredT f) /index_iota subn0 -(perm_big _ Hp) /= (big_nth 0%N) pv_size.
by rewrite big_mkord.
Qed.

Lemma pv_split_sum (R : zmodType) (f : nat -> R) rk : (rk <= m)%N ->
  (forall l, (rk <= l < m)%N -> f (nth 0%N pv l) = 0) ->
  \sum_(q < m) f q = \sum_(l < rk) f (nth 0%N pv l).
Proof.
move=> Hrk Hz; rewrite pv_sum -(big_mkord xpredT (fun l => f (nth 0%N pv l))).
rewrite (@big_cat_nat _ _ _ rk 0) //= big_mkord.
rewrite [X in _ + X = _]big_nat_cond [X in _ + X = _]big1 ?addr0 //.
by move=> l /andP[Hl _]; apply: Hz.
Qed.

Lemma perm_inv_nth i : (i < m)%N -> nth 0%N (perm_inv m pv) i = index i pv.
Proof. by move=> H; rewrite (nth_map 0%N) ?size_iota // nth_iota. Qed.
End Perm.

(** ** Entries of the updated basis *)
Section Entries.
Variable F : fieldType.
Implicit Type A : mat_poly F.

Lemma permute_entry A p i j : mp_entry (mp_permute_rows A p) i j = mp_entry A (nth 0%N p i) j.
Proof. by []. Qed.

Lemma const_update_entry m rk K A i j :
  mp_entry (const_update m rk K A) i j =
  if (rk <= i < m)%N then mp_entry A i j + \sum_(l < rk) (K (i - rk)%N l)%:P * mp_entry A l j
  else mp_entry A i j.
Proof.
apply/polyP=> k; case: ifP => H; rewrite ?coefD ?coef_sum !mp_entryE /= H //.
case: ifP => Hk.
  by congr (_ + _); apply: eq_bigr => l _; rewrite coefCM mp_entryE Hk.
by rewrite add0r big1 // => l _; rewrite coefCM mp_entryE Hk mulr0.
Qed.

Lemma set_length_entry A len i j : (mp_len A <= len)%N ->
  mp_entry (mp_set_length A len) i j = mp_entry A i j.
Proof.
move=> H; apply/polyP=> k; rewrite !mp_entryE /=.
case: (ltnP k (mp_len A)) => Hk; last by case: ifP.
by rewrite (leq_trans Hk H).
Qed.

Lemma grow_entry m rk A i j : mp_entry (grow_length m rk A) i j = mp_entry A i j.
Proof. by rewrite /grow_length; case: ifP => // _; rewrite set_length_entry. Qed.

Lemma grow_len m rk A : (0 < mp_len A)%N -> (0 < mp_len (grow_length m rk A))%N.
Proof. by rewrite /grow_length; case: ifP. Qed.

Lemma grow_top m rk A i j : (0 < mp_len A)%N -> (i < rk)%N -> (j < m)%N ->
  mp_co (grow_length m rk A) (mp_len (grow_length m rk A)).-1 i j = 0.
Proof.
move=> HA Hi Hj; rewrite /grow_length; case: ifP => [_ /=|/negbT/hasPn H]; first by rewrite ltnn.
have := H i; rewrite mem_iota add0n => /(_ Hi); rewrite negbK => /allP Ha.
by apply/eqP/Ha; rewrite mem_iota.
Qed.

Lemma shift_rows_fold rk (co : nat -> fmat F) L d :
  foldl (fun co d => upd co d (fun i j => if (i < rk)%N then co d.-1 i j else co d i j))
    co (rev (iota 1 L)) d =
  if (0 < d <= L)%N then (fun i j => if (i < rk)%N then co d.-1 i j else co d i j) else co d.
Proof.
elim: L co => [|L IH] co; first by rewrite /=; case: ifP => //; lia.
rewrite iota_rcons rev_rcons [foldl _ _ _]/= IH add1n.
case: (boolP (0 < d <= L)%N) => Hd.
  have -> : (0 < d <= L.+1)%N by lia.
  by rewrite /upd !ifN_eq //; lia.
rewrite /upd; case: eqP => [->|NE]; first by rewrite leqnn.
by have -> // : (0 < d <= L.+1)%N = false by lia.
Qed.

Lemma shift_rows_entry m rk A i j : (0 < mp_len A)%N ->
  (forall i j, (i < rk)%N -> (j < m)%N -> mp_co A (mp_len A).-1 i j = 0) -> (j < m)%N ->
  mp_entry (shift_rows rk A) i j = if (i < rk)%N then 'X * mp_entry A i j else mp_entry A i j.
Proof.
move=> HA Htop Hj; apply/polyP=> k.
rewrite mp_entryE /= /upd shift_rows_fold.
case: (boolP (i < rk)%N) => Hi.
  rewrite coefXM; case: (altP (k =P 0%N)) => [->|K0]; first by rewrite Hi; case: ifP.
  rewrite mp_entryE shift_rows_fold; case: (ltnP k (mp_len A)) => Hk.
    have -> : (0 < k <= (mp_len A).-1)%N by lia.
    by rewrite Hi; have -> : (k.-1 < mp_len A)%N by lia.
  case: ltnP => // Hk1.
  have -> : k.-1 = (mp_len A).-1 by lia.
  by rewrite Htop.
rewrite mp_entryE; case: ifP => // _.
case: (altP (k =P 0%N)) => [->|K0]; first by rewrite (negbTE Hi).
by rewrite shift_rows_fold; case: ifP => //; rewrite (negbTE Hi).
Qed.

Lemma shift_update_fold m pv (s : nat -> int) rk q : perm_eq pv (iota 0 m) -> (rk <= m)%N ->
  (q < m)%N ->
  foldl (fun s i => upd s (nth 0%N pv i) (s (nth 0%N pv i) + 1)) s (iota 0 rk) q =
  s q + (index q pv < rk)%N%:Z.
Proof.
move=> Hp; elim: rk => [|rk IH] Hrk Hq; first by rewrite ltn0 addr0.
rewrite iota_rcons foldl_rcons add0n {1}/upd.
case: eqP => [E|NE].
  rewrite -E IH //; last by lia.
  have -> : index q pv = rk by rewrite E (pv_index_nth Hp).
  by rewrite ltnn ltnSn addr0.
rewrite IH //; last by lia.
have : index q pv <> rk by move=> H; apply: NE; rewrite -H (pv_nth_index Hp).
by move=> H; congr (_ + _%:Z); lia.
Qed.

Lemma shift_add_fold m (s : nat -> int) k q : (q < m)%N ->
  foldl (fun s i => upd s i (s i + k%:Z)) s (iota 0 m) q = s q + k%:Z.
Proof.
have H : forall q, foldl (fun s i => upd s i (s i + k%:Z)) s (iota 0 m) q =
   if (q < m)%N then s q + k%:Z else s q.
  elim: m => [//|m IH] q'; rewrite iota_rcons foldl_rcons add0n {1}/upd !IH ltnn.
  case: eqP => [->|NE]; first by rewrite ltnSn.
  by have -> : (q' < m.+1)%N = (q' < m)%N by lia.
by move=> Hq; rewrite H Hq.
Qed.
End Entries.

(** ** The case of a residual of full row rank *)
Section FullRank.
Variable F : fieldType.
Variables m n : nat.
Variable A : 'M[{poly F}]_(m, n).

Lemma Tmx_full (P : 'M[{poly F}]_m) : Tmx predT 0 *m P = 'X *: P.
Proof.
apply/matrixP=> i j; rewrite rowTE inE mxE big1 ?addr0 // => q _.
by rewrite mxE mul0r.
Qed.

Lemma full_rank_basis d k P :
  approx_basis d A P ->
  (forall c : 'I_m -> F, (forall j, \sum_p c p * coefmx d (P *m A) p j = 0) -> forall p, c p = 0) ->
  approx_basis (d + k) A ('X^k *: P).
Proof.
move=> Hb Hi; elim: k => [|k IH]; first by rewrite addn0 expr0 scale1r.
rewrite addnS exprS -scalerA -Tmx_full.
have E : coefmx (d + k) (('X^k *: P) *m A) = coefmx d (P *m A).
  apply/matrixP=> i j; rewrite mxE [RHS]mxE -scalemxAl mxE coefXnM.
  by rewrite ltnNge leq_addl /= addnK.
apply: step_basis => //.
- by move=> p q; rewrite mxE eqxx.
- by move=> c _; rewrite E; exact: Hi.
Qed.

Lemma full_rank_deg k (s t : 'I_m -> int) (P : 'M[{poly F}]_m) :
  deg_inv s t P -> deg_inv s (fun i => t i + k%:Z) ('X^k *: P).
Proof.
move=> H; elim: k => [|k IH].
  by rewrite expr0 scale1r; apply: deg_inv_ext H => // i; rewrite addr0.
rewrite exprS -scalerA -Tmx_full.
have z p q : (0 : 'M[F]_m) p q != 0 -> false by rewrite mxE eqxx.
have := @deg_inv_step _ _ _ _ _ predT 0 (fun p q H => False_ind _ (notF (z p q H)))
  (fun p q H => False_ind _ (notF (z p q H))) IH.
by apply: deg_inv_ext => // i; rewrite inE /=; lia.
Qed.
End FullRank.

(** P = [X^k I, 0; S, I] with deg S < k, blocks of sizes e and m-e *)
Definition blk (F : fieldType) (m e k : nat) (P : 'M[{poly F}]_m) : Prop :=
  [/\ forall i j : 'I_m, (i < e)%N -> P i j = if i == j then 'X^k else 0,
      forall i j : 'I_m, (e <= i)%N -> (e <= j)%N -> P i j = (i == j)%:R &
      forall i j : 'I_m, (e <= i)%N -> (j < e)%N -> (size (P i j) <= k)%N].

(** ** One iteration *)
Section Iter.
Variable F : fieldType.
Variables m n : nat.
Variable matp : mat_poly F.
Hypothesis Hmatp : (0 < mp_len matp)%N.
Variable s : nat -> int.
Let A := mp_mx m n matp.

Definition minv (ord : nat) (st : mat_poly F * (nat -> int)) : Prop :=
  [/\ (0 < mp_len st.1)%N,
      ord = 0%N -> st.1 = mp_one,
      approx_basis ord A (mp_mx m m st.1) &
      deg_inv (fun i : 'I_m => s i) (fun i : 'I_m => st.2 i) (mp_mx m m st.1)].

Lemma mp_one_mx : mp_mx m m (@mp_one F) = 1%:M.
Proof.
apply/matrixP=> i j; rewrite !mxE; apply/polyP=> k; rewrite mp_entryE /= /fone.
by case: k => [|k] /=; rewrite -val_eqE /=; case: eqP => _; rewrite ?coef1 ?coef0.
Qed.

Lemma minv0 : minv 0 (mp_one, s).
Proof.
split=> //=; rewrite mp_one_mx; first exact: approx_basis0.
exact: deg_inv_one.
Qed.

Section One.
Variable ord : nat.
Variables (P : mat_poly F) (t : nat -> int).
Hypothesis Hinv : minv ord (P, t).
Let perm := find_shift_permutation m t.
Let res0 : fmat F := if ord == 0%N then mp_co matp 0%N else mp_mul_coeff m P matp ord.
Let res := fperm_rows (nth 0%N perm) res0.
Let rr := rrp n res m.
Let nr := nrp n res m.
Let pv := [seq nth 0%N perm i | i <- rr ++ nr].
Let rk := size rr.
Let MP := mp_mx m m P.
Let R := coefmx ord (MP *m A).

Lemma rkE : (m - size nr = rk)%N.
Proof. by rewrite -{1}(size_rrp_nrp n res m) addnK. Qed.

Lemma rk_le : (rk <= m)%N.
Proof. by have := size_rrp_nrp n res m; rewrite -/rr -/rk => E; rewrite -[X in (_ <= X)%N]E leq_addr. Qed.

Lemma res0E i j : (i < m)%N -> (j < n)%N ->
  res0 i j = (\sum_(l < m) mp_entry P i l * mp_entry matp l j)`_ord.
Proof.
move=> Hi Hj; rewrite /res0; case: eqP => [E|_]; last exact: mp_mul_coeffP.
have [_ /= H1 _ _] := Hinv.
rewrite (H1 E) E coef_sum (bigD1 (Ordinal Hi)) //= big1 ?addr0.
  rewrite coefM big_ord_recl big_ord0 addr0 /= subnn !mp_entryE /= Hmatp /fone eqxx.
  by rewrite mul1r.
move=> l Hl; rewrite coefM big_ord_recl big_ord0 addr0 /= mp_entryE /= /fone.
have -> : (i == l) = false by apply/negbTE; rewrite eq_sym.
by rewrite mul0r.
Qed.

Lemma RE (i : 'I_m) (j : 'I_n) : R i j = res0 i j.
Proof.
rewrite res0E // /R mxE [in LHS]mxE; congr (_`_ord).
rewrite (eq_bigr (fun l : 'I_m => mp_entry P i l * mp_entry matp l j)) //= => l _.
by rewrite !mxE.
Qed.

Lemma pv_perm : perm_eq pv (iota 0 m).
Proof.
apply: perm_trans (fsp_perm m t); rewrite -/perm.
rewrite -[X in perm_eq _ X](mkseq_nth 0%N) fsp_size /mkseq.
exact/perm_map/perm_rrp_nrp.
Qed.

Lemma pv1 l : (l < rk)%N -> nth 0%N pv l = nth 0%N perm (nth 0%N rr l).
Proof. by move=> H; rewrite (nth_map 0%N) ?size_cat ?nth_cat ?H // ltn_addr. Qed.

Lemma pv2 c : (c < size nr)%N -> nth 0%N pv (rk + c) = nth 0%N perm (nth 0%N nr c).
Proof.
move=> H; rewrite (nth_map 0%N) ?size_cat ?ltn_add2l // nth_cat ltnNge leq_addr /=.
by rewrite addKn.
Qed.

Variable K : fmat F.
Hypothesis HK : forall i j, (i < size nr)%N -> (j < size rr)%N ->
     K i j = - cf n res m (nth 0%N nr i) j.

Definition Dn (q : nat) : bool := (index q pv < rk)%N.
Definition Cn (p q : nat) : F :=
  if ~~ Dn p && Dn q then K (index p pv - rk)%N (index q pv) else 0.
Definition Dp : pred 'I_m := fun q => Dn q.
Definition Cm : 'M[F]_m := \matrix_(p, q) Cn p q.

Lemma Cm_D p q : Cm p q != 0 -> (p \notin Dp) && (q \in Dp).
Proof.
rewrite mxE /Cn; case: ifP => [H _|_]; last by rewrite eqxx.
by [].
Qed.

Lemma idx_nr p : (p < m)%N -> ~~ Dn p ->
  [/\ (index p pv - rk < size nr)%N, (rk + (index p pv - rk) = index p pv)%N &
      p = nth 0%N perm (nth 0%N nr (index p pv - rk))].
Proof.
move=> Hp; rewrite /Dn -leqNgt => Hi.
have Hlt := pv_index_lt pv_perm Hp.
have Es := size_rrp_nrp n res m.
have H1 : (index p pv - rk < size nr)%N by rewrite ltn_subLR // /rk /rr /nr Es.
have H2 : (rk + (index p pv - rk) = index p pv)%N by rewrite subnKC.
by split=> //; rewrite -pv2 // H2 (pv_nth_index pv_perm).
Qed.

Lemma Cm_lex p q : Cm p q != 0 -> (t q < t p)%R || ((t q == t p) && (q < p)%N).
Proof.
rewrite mxE /Cn; case: ifP => [/andP[Hp Hq]|_]; last by rewrite eqxx.
have [H1 H2 E] := idx_nr (ltn_ord p) Hp.
rewrite HK // oppr_eq0 => NZ.
have [Hm D] := nr_prop H1.
have Hlt := coords_above Hm D Hq NZ.
have := fsp_lt t Hlt Hm; rewrite -/perm -/nr -E.
rewrite -/rr -pv1 // (pv_nth_index pv_perm) // shift_leE.
have Hne : val q != val p.
  apply/eqP=> Eqp; move: Hp Hq; rewrite Eqp => /negbTE ->; by [].
by move: Hne; rewrite /=; lia.
Qed.

Lemma Cm_ker p : p \notin Dp -> forall j, R p j + \sum_q Cm p q * R q j = 0.
Proof.
move=> Hp j; rewrite RE.
have [H1 H2 E] := idx_nr (ltn_ord p) Hp.
have [Hm D] := nr_prop H1.
rewrite (eq_bigr (fun q : 'I_m => Cn p q * res0 q j)); last by move=> q _; rewrite RE mxE.
rewrite (pv_split_sum pv_perm (f := fun q => Cn p q * res0 q j) rk_le); last first.
  move=> l Hl; rewrite /Cn /Dn (pv_index_nth pv_perm); last by lia.
  have -> : (l < rk)%N = false by lia.
  by rewrite andbF mul0r.
have Ep : res0 p j = res (nth 0%N nr (index (val p) pv - rk)) j by rewrite /res /fperm_rows -E.
rewrite Ep (coords_sum res Hm (ltn_ord j)) -big_split big1 // => l _ /=.
have Hl : (l < rk)%N := ltn_ord l.
rewrite pv1 // -/rr /Cn.
have -> : index (nth 0%N perm (nth 0%N rr l)) pv = l.
  rewrite -pv1 // (pv_index_nth pv_perm) //; exact: leq_trans Hl rk_le.
have -> : Dn (nth 0%N perm (nth 0%N rr l)).
  rewrite /Dn -pv1 // (pv_index_nth pv_perm) //; exact: leq_trans Hl rk_le.
rewrite (_ : ~~ Dn p) // HK // mulNr.
by rewrite subrr.
Qed.

Lemma rows_indep (c : 'I_m -> F) : (forall p, p \notin Dp -> c p = 0) ->
  (forall j, \sum_p c p * R p j = 0) -> forall p, c p = 0.
Proof.
move=> Hc Hs p.
case: (boolP (p \in Dp)) => [Hp|]; last exact: Hc.
pose cn (q : nat) : F := if insub q is Some q' then c q' else 0.
have cnE (q : 'I_m) : cn q = c q by rewrite /cn valK.
have Hz : forall l : 'I_(size rr), cn (nth 0%N pv l) = 0.
  apply: rowsel_indep => j Hj.
  rewrite -[RHS](Hs (Ordinal Hj)).
  rewrite [RHS](eq_bigr (fun q : 'I_m => cn q * res0 q j)); last first.
    by move=> q _; rewrite RE cnE.
  rewrite (pv_split_sum pv_perm (f := fun q => cn q * res0 q j) rk_le); last first.
    move=> l Hl.
    have Hlm : (nth 0%N pv l < m)%N by apply: (pv_lt pv_perm); lia.
    rewrite -[nth 0%N pv l]/(val (Ordinal Hlm)) cnE Hc ?mul0r //.
    rewrite /Dp unfold_in /Dn /= (pv_index_nth pv_perm) -?leqNgt; lia.
  by apply: eq_bigr => l _; rewrite /res /fperm_rows -pv1.
have := Hz (Ordinal Hp) => /=.
by rewrite (pv_nth_index pv_perm) // cnE.
Qed.

Let Pn := mp_permute_rows (shift_rows rk (grow_length m rk (const_update m rk K (mp_permute_rows P pv))))
            (perm_inv m pv).
Let tn := foldl (fun s i => upd s (nth 0%N pv i) (s (nth 0%N pv i) + 1)) t (iota 0 rk).

Lemma new_mx : mp_mx m m Pn = Tmx Dp Cm *m MP.
Proof.
have [HP _ _ _] := Hinv.
apply/matrixP=> p j; rewrite mxE rowTE permute_entry (perm_inv_nth _ (ltn_ord p)).
rewrite (@shift_rows_entry _ m) //; last 2 first.
- exact: grow_len.
- by move=> i' j' Hi' Hj'; exact: grow_top.
rewrite grow_entry const_update_entry !permute_entry (pv_nth_index pv_perm) //.
have -> : (p \in Dp) = (index (val p) pv < rk)%N by [].
have Hlt := pv_index_lt pv_perm (ltn_ord p).
have -> : MP p j = mp_entry P p j by rewrite /MP mxE.
case: ltnP => Hi; rewrite /=.
  rewrite big1 ?addr0 // => q _; rewrite (_ : Cm p q = 0) ?mul0r //.
  by rewrite mxE /Cn {1}/Dn Hi.
rewrite Hlt mul1r; congr (_ + _).
rewrite [RHS](eq_bigr (fun q : 'I_m => (Cn p q)%:P * mp_entry P q j)); last first.
  by move=> q _; rewrite !mxE.
rewrite (pv_split_sum pv_perm (f := fun q => (Cn p q)%:P * mp_entry P q j) rk_le); last first.
  move=> l Hl; rewrite /Cn /Dn (pv_index_nth pv_perm); last by lia.
  have -> : (l < rk)%N = false by lia.
  by rewrite andbF mul0r.
apply: eq_bigr => l _.
have Hl : (l < rk)%N := ltn_ord l.
have El : index (nth 0%N pv l) pv = l by rewrite (pv_index_nth pv_perm) //; exact: leq_trans Hl rk_le.
by rewrite permute_entry /Cn /Dn El Hl -leqNgt Hi.
Qed.

Lemma step_minv : minv ord.+1 (Pn, tn).
Proof.
have [HP _ Hb Hd] := Hinv.
split=> //=.
- by have := grow_len m rk (A := const_update m rk K (mp_permute_rows P pv)); apply.
- rewrite new_mx; apply: step_basis => //; first exact: Cm_D.
    exact: Cm_ker.
  exact: rows_indep.
- rewrite new_mx.
  have := deg_inv_step Cm_D Cm_lex Hd.
  apply: deg_inv_ext => // i /=.
  by rewrite /tn (shift_update_fold _ pv_perm rk_le).
Qed.

(** *** Block structure, when the n first rows of A(0) are invertible *)
Section Blk.
Hypothesis Hn : (n <= m)%N.
Hypothesis Hu : (\matrix_(i < n, j < n) (A (widen_ord Hn i) j)`_0) \in unitmx.
Hypothesis Hblk : blk n ord MP.
Variable a : int.
Hypothesis Htop : forall i, (i < n)%N -> t i = a.
Hypothesis Hbot : forall i, (n <= i < m)%N -> a < t i.

Lemma R_top (p : 'I_m) j : (p < n)%N -> R p j = (A p j)`_0.
Proof.
move=> Hp; have [H1 _ _] := Hblk.
rewrite /R mxE [in LHS]mxE (bigD1 p) //= big1 ?addr0 => [|l /negbTE NE].
  by rewrite H1 // eqxx coefXnM ltnn subnn.
by rewrite H1 // eq_sym NE mul0r.
Qed.

Lemma top_comb (b : 'rV[F]_n) : exists2 c : 'I_m -> F, (forall p : 'I_m, (n <= p)%N -> c p = 0) &
  forall j, \sum_p c p * R p j = b 0 j.
Proof.
pose A0 := \matrix_(i < n, j < n) (A (widen_ord Hn i) j)`_0.
pose c' := b *m invmx A0.
exists (fun p : 'I_m => if insub (val p) is Some p' then c' 0 p' else 0).
  by move=> p Hp; rewrite insubF //; apply/negbTE; rewrite -leqNgt.
move=> j; rewrite (bigID (fun p : 'I_m => (p < n)%N)) /= [X in _ + X]big1 ?addr0; last first.
  by move=> p Hp; rewrite insubF ?mul0r //; apply/negbTE.
rewrite (big_ord_narrow Hn) /= -[b in RHS](mulmxKV Hu) [RHS]mxE; apply: eq_bigr => p _.
rewrite valK (R_top (p := widen_ord Hn p)) //; last exact: (ltn_ord p).
by rewrite -/A0 -/c' [A0 p j]mxE.
Qed.

Lemma top_indep (c : 'I_m -> F) : (forall p : 'I_m, (n <= p)%N -> c p = 0) ->
  (forall j, \sum_p c p * R p j = 0) -> forall p, c p = 0.
Proof.
move=> Hc Hs p; case: (leqP n p) => Hp; first exact: Hc.
pose A0 := \matrix_(i < n, j < n) (A (widen_ord Hn i) j)`_0.
pose c' : 'rV[F]_n := \row_i c (widen_ord Hn i).
have : c' *m A0 = 0.
  apply/rowP=> j; rewrite [RHS]mxE -[RHS](Hs j) mxE.
  rewrite [RHS](bigID (fun p : 'I_m => (p < n)%N)) /= [X in _ = _ + X]big1 ?addr0; last first.
    by move=> q; rewrite -leqNgt => /Hc ->; rewrite mul0r.
  rewrite (big_ord_narrow Hn); apply: eq_bigr => q _.
  rewrite (R_top (p := widen_ord Hn q)) //; last exact: (ltn_ord q).
  by rewrite [c' 0 q]mxE [A0 q j]mxE.
move/(congr1 (mulmx^~ (invmx A0))); rewrite mulmxK // mul0mx => /rowP/(_ (Ordinal Hp)).
by rewrite !mxE => <-; congr (c _); apply: val_inj.
Qed.

Lemma top_Dp (q : 'I_m) : (q < n)%N -> q \in Dp.
Proof.
move=> Hq; apply: contraT => Nq.
have Nqq : Cm q q = 0 by apply/eqP/negPn/negP=> /Cm_D; rewrite (negbTE Nq) andbF.
have /eqP : (q == q)%:R + Cm q q = 0; last by rewrite eqxx Nqq addr0 oner_eq0.
apply: (@top_indep (fun l => (l == q)%:R + Cm q l)) => [l Hl|j].
  have -> : (l == q) = false by apply/negP=> /eqP E; move: Hl; rewrite E; lia.
  rewrite add0r; apply/eqP/negPn/negP=> /Cm_lex.
  by rewrite (Htop Hq); have := @Hbot l; rewrite Hl ltn_ord => /(_ isT); lia.
rewrite -[RHS](Cm_ker Nq j).
under eq_bigr do rewrite mulrDl.
rewrite big_split /= (bigD1 q) //= eqxx mul1r big1 ?addr0 // => l /negbTE ->.
by rewrite mul0r.
Qed.

Lemma Dp_top (p : 'I_m) : (p \in Dp) = (p < n)%N.
Proof.
apply/idP/idP => H; last exact: top_Dp.
rewrite ltnNge; apply/negP=> Hp.
have [c Hc Ec] := top_comb (\row_j R p j).
have /eqP : (p == p)%:R - c p = 0; last by rewrite eqxx Hc // subr0 oner_eq0.
apply: (@rows_indep (fun l => (l == p)%:R - c l)) => [l Nl|j].
  have -> : (l == p) = false by apply/negP=> /eqP El; rewrite El H in Nl.
  by rewrite Hc ?subr0 // leqNgt; apply: contra Nl; exact: top_Dp.
under eq_bigr do rewrite mulrBl.
rewrite sumrB Ec mxE (bigD1 p) //= eqxx mul1r big1 ?addr0 ?subrr // => l /negbTE ->.
by rewrite mul0r.
Qed.

Lemma step_blk : blk n ord.+1 (mp_mx m m Pn) /\
  forall i, (i < m)%N -> tn i = t i + (i < n)%N%:Z.
Proof.
have [B1 B2 B3] := Hblk.
split; last first.
  move=> i Hi; rewrite /tn (shift_update_fold _ pv_perm rk_le) //.
  by rewrite -(Dp_top (Ordinal Hi)).
rewrite new_mx; split=> [i j Hi|i j Hi Hj|i j Hi Hj].
- rewrite rowTE Dp_top Hi B1 // big1 ?addr0; last first.
    move=> q _; rewrite (_ : Cm i q = 0) ?mul0r //.
    by apply/eqP/negPn/negP=> /Cm_D; rewrite Dp_top Hi.
  by case: eqP => _; rewrite ?mulr0 // -exprS.
- rewrite rowTE Dp_top ltnNge Hi /= mul1r B2 // big1 ?addr0 // => q _.
  case: (ltnP q n) => Hq.
    by rewrite B1 //; case: eqP => [E|_]; rewrite ?mulr0 //; move: Hj; rewrite -E; lia.
  rewrite (_ : Cm i q = 0) ?mul0r //.
  by apply/eqP/negPn/negP=> /Cm_D; rewrite !Dp_top; lia.
- rewrite rowTE Dp_top ltnNge Hi /= mul1r.
  apply: leq_trans (size_add _ _) _; rewrite geq_max (leqW (B3 _ _ Hi Hj)) /=.
  apply: leq_trans (size_sum _ _ _) _; apply/bigmax_leqP=> q _.
  case: (ltnP q n) => Hq.
    rewrite B1 // mul_polyC; case: eqP => _; last by rewrite scaler0 size_poly0.
    by apply: leq_trans (size_scale_leq _ _) _; rewrite size_polyXn.
  rewrite (_ : Cm i q = 0) ?mul0r ?size_poly0 //.
  by apply/eqP/negPn/negP=> /Cm_D; rewrite !Dp_top; lia.
Qed.

Lemma full_blk k : rk = m -> m = n /\ blk n (ord + k) ('X^k *: MP).
Proof.
move=> E; have D p : p \in Dp by rewrite unfold_in /Dp /Dn E (pv_index_lt pv_perm).
have Enm : m = n.
  apply/eqP; rewrite eqn_leq Hn andbT leqNgt; apply/negP=> H.
  by have := D (Ordinal H); rewrite Dp_top ltnn.
split=> //; have [B1 _ _] := Hblk; split=> i j Hi.
- by rewrite mxE B1 //; case: eqP => _; rewrite ?mulr0 // -exprD addnC.
- by have := ltn_ord i; rewrite [X in (_ < X)%N]Enm ltnNge Hi.
- by have := ltn_ord i; rewrite [X in (_ < X)%N]Enm ltnNge Hi.
Qed.

Lemma zero_blk : rk = 0%N -> n = 0%N.
Proof.
move=> E; case: (posnP n) => // Hp.
have := Dp_top (Ordinal (leq_trans Hp Hn)).
by rewrite /= Hp unfold_in /Dp /Dn E.
Qed.
End Blk.

Lemma zero_minv : rk = 0%N -> minv ord.+1 (P, t).
Proof.
move=> E0; have [HP _ Hb Hd] := Hinv.
have D0 q : Dn q = false by rewrite /Dn E0.
have C0 : Cm = 0 by apply/matrixP=> p q; rewrite !mxE /Cn !D0 andbF.
have T1 : Tmx Dp Cm *m MP = MP.
  apply/matrixP=> p q; rewrite rowTE.
  have -> : (p \in Dp) = false by rewrite unfold_in /Dp D0.
  by rewrite mul1r big1 ?addr0 // => l _; rewrite C0 mxE mul0r.
split=> //=.
by rewrite -/MP -T1; apply: step_basis => //; [exact: Cm_D | exact: Cm_ker | exact: rows_indep].
Qed.

Lemma full_final k : rk = m ->
  approx_basis (ord + k) A ('X^k *: MP).
Proof.
move=> Em; have [HP _ Hb Hd] := Hinv.
apply: full_rank_basis => // c Hc; apply: rows_indep => // p.
by rewrite unfold_in /Dp /Dn Em (pv_index_lt pv_perm).
Qed.
End One.

Lemma mbasis_stepP ord st : minv ord st ->
  match mbasis_step m n matp ord st with
  | Some st' => minv ord.+1 st'
  | None => forall k, approx_basis (ord + k) A ('X^k *: mp_mx m m st.1)
  end.
Proof.
case: st => P t Hinv; rewrite /mbasis_step.
set res := fperm_rows _ _.
have [K [-> HK]] := left_nullspace_compactE m n res.
have szE := size_rrp_nrp n res m.
case: eqP => [N0|NN0].
  move=> k; apply: full_final Hinv _ _.
  by rewrite -[RHS]szE N0 addn0.
have EE : (m - size (nrp n res m) = size (rrp n res m))%N by rewrite -{1}szE addnK.
case: ltnP => Hlt.
  rewrite EE.
  exact: (step_minv Hinv HK).
have := zero_minv Hinv HK; apply.
by rewrite -/res -EE; apply/eqP; rewrite subn_eq0.
Qed.

Lemma mbasis_loopP k ord st : minv ord st ->
  let st' := mbasis_loop m n matp k ord st in
  approx_basis (ord + k) A (mp_mx m m st'.1) /\
  deg_inv (fun i : 'I_m => s i) (fun i : 'I_m => st'.2 i) (mp_mx m m st'.1).
Proof.
elim: k ord st => [|k IH] ord st Hinv.
  by case: (Hinv) => *; rewrite addn0.
have := mbasis_stepP Hinv; rewrite [mbasis_loop _ _ _ _ _ _]/=.
case: (mbasis_step _ _ _ _ _) => [st'|] Hst.
  by rewrite addnS -addSn; exact: IH.
have [HP _ Hb Hd] := Hinv.
have E : mp_mx m m (mp_shift_left true st.1 st.1 k.+1) = 'X^k.+1 *: mp_mx m m st.1.
  by apply/matrixP=> i j; rewrite !mxE mp_shift_left_alias mulrC.
cbv zeta; rewrite [fst _]/= E; split; first exact: Hst.
apply: deg_inv_ext (full_rank_deg k.+1 Hd) => // i /=.
by rewrite shift_add_fold.
Qed.

(** *** block structure *)
Hypothesis Hn : (n <= m)%N.
Hypothesis Hu : (\matrix_(i < n, j < n) (A (widen_ord Hn i) j)`_0) \in unitmx.
Variable a : int.

Definition binv (ord : nat) (st : mat_poly F * (nat -> int)) : Prop :=
  [/\ blk n ord (mp_mx m m st.1),
      forall i, (i < n)%N -> st.2 i = a + ord%:Z &
      forall i, (n <= i < m)%N -> st.2 i = s i].

Lemma mbasis_step_blk ord st : minv ord st -> binv ord st ->
  (forall i, (n <= i < m)%N -> a + ord%:Z < s i) ->
  match mbasis_step m n matp ord st with
  | Some st' => binv ord.+1 st'
  | None => m = n /\ forall k, blk n (ord + k) ('X^k *: mp_mx m m st.1)
  end.
Proof.
case: st => P t Hinv [/= HB Ht1 Ht2] Hs; rewrite /mbasis_step.
set res := fperm_rows _ _.
have [K [-> HK]] := left_nullspace_compactE m n res.
have szE := size_rrp_nrp n res m.
have Hb i : (n <= i < m)%N -> a + ord%:Z < t i by move=> Hi; rewrite Ht2 ?Hs.
case: eqP => [N0|NN0].
  have E : size (rrp n res m) = m by rewrite -[RHS]szE N0 addn0.
  have H := full_blk Hinv HK Hu HB Ht1 Hb _ E.
  by split=> [|k]; [case: (H 0%N) | case: (H k)].
have EE : (m - size (nrp n res m) = size (rrp n res m))%N by rewrite -{1}szE addnK.
case: ltnP => Hlt.
  rewrite EE; have [H1 H2] := step_blk Hinv HK Hu HB Ht1 Hb.
  split=> //= i Hi; rewrite H2.
  - by rewrite Ht1 // Hi; lia.
  - exact: leq_trans Hi Hn.
  - by rewrite Ht2 //; lia.
  - lia.
have E0 : n = 0%N.
  by apply: (zero_blk Hinv HK Hu HB Ht1 Hb); rewrite -/res -EE; apply/eqP; rewrite subn_eq0.
have [B1 B2 B3] := HB.
split=> //=; last by move=> i; rewrite E0.
by split=> // i j; rewrite [X in (_ < X)%N]E0.
Qed.

Lemma mbasis_loop_blk k ord st : minv ord st -> binv ord st ->
  (forall i, (n <= i < m)%N -> a + ord%:Z + k%:Z <= s i) ->
  binv (ord + k) (mbasis_loop m n matp k ord st).
Proof.
elim: k ord st => [|k IH] ord st Hinv HB Hs; first by rewrite addn0.
have Hst := mbasis_stepP Hinv.
have Hs' i : (n <= i < m)%N -> a + ord%:Z < s i by move=> Hi; have := Hs i Hi; lia.
have Hbl := mbasis_step_blk Hinv HB Hs'.
rewrite [mbasis_loop _ _ _ _ _ _]/=.
move: Hst Hbl; case: (mbasis_step _ _ _ _ _) => [st'|] Hst Hbl.
  rewrite addnS -addSn; apply: IH => // i Hi; have := Hs i Hi; lia.
have [Em Hk] := Hbl; have [_ Ht1 _] := HB.
have E : mp_mx m m (mp_shift_left true st.1 st.1 k.+1) = 'X^k.+1 *: mp_mx m m st.1.
  by apply/matrixP=> i j; rewrite !mxE mp_shift_left_alias mulrC.
split; rewrite [fst _]/= ?[snd _]/=; first by rewrite E.
  move=> i Hi; rewrite shift_add_fold; first by rewrite Ht1 //; lia.
  exact: leq_trans Hi Hn.
by move=> i; rewrite [X in (_ < X)%N]Em; lia.
Qed.
End Iter.

Theorem mbasis_correct (F : fieldType) m n (matp : mat_poly F) order (s : nat -> int) :
  (0 < order)%N || (mp_len matp == 0%N) ->
  exists P t, mbasis m n matp order s = AOk (P, t) /\
    approx_basis order (mp_mx m n matp) (mp_mx m m P) /\
    deg_inv (fun i : 'I_m => s i) (fun i : 'I_m => t i) (mp_mx m m P).
Proof.
move=> Ho; rewrite /mbasis /mp_is_zero.
case: eqP => [L0|/eqP L0].
  exists mp_one, s; split=> //; rewrite mp_one_mx; split; last exact: deg_inv_one.
  have -> : mp_mx m n matp = 0.
    apply/matrixP=> i j; rewrite !mxE; apply/polyP=> k; rewrite mp_entryE L0 coef0.
    by [].
  split; first by move=> i j; rewrite mulmx0 mxE dvdp0.
  split; first by move=> v _; exists v; rewrite mulmx1.
  by move=> w; rewrite mulmx1.
have L : (0 < mp_len matp)%N by lia.
have -> : (order == 0%N) = false by lia.
have := mbasis_loopP L order (minv0 m n matp s).
case: (mbasis_loop _ _ _ _ _ _) => P t H; exists P, t; split=> //.
Qed.

Section Poly.
Variable F : fieldType.

(** The matrix A and its order-d truncation have the same approximants. *)
Lemma approximant_ext m n d (A B : 'M[{poly F}]_(m, n)) v :
  (forall i j k, (k < d)%N -> (A i j)`_k = (B i j)`_k) ->
  approximant d A v -> approximant d B v.
Proof.
move=> E /approximantP H; apply/approximantP=> k j Hk; rewrite -[RHS](H k j Hk) !mxE !coef_sum.
apply: eq_bigr => l _; rewrite !coefM; apply: eq_bigr => a _; rewrite E //.
exact: leq_ltn_trans (leq_subr _ _) Hk.
Qed.

Lemma approx_basis_ext m n d (A B : 'M[{poly F}]_(m, n)) P :
  (forall i j k, (k < d)%N -> (A i j)`_k = (B i j)`_k) ->
  approx_basis d A P -> approx_basis d B P.
Proof.
move=> E [H1 [H2 H3]]; split; first by move=> i; exact: approximant_ext E (H1 i).
split=> // v Hv; apply: H2; apply: approximant_ext Hv => i j k Hk; exact/esym/E.
Qed.

(** nmod_poly_mat_mbasis, for every order *)
Lemma pm_mbasis_correct m n (A : fmat {poly F}) d (s : nat -> int) :
  exists P t, [/\ pm_mbasis m n A d s = AOk (P, t),
    approx_basis d (mx_of m n A) (mx_of m m P) &
    deg_inv (fun i : 'I_m => s i) (fun i : 'I_m => t i) (mx_of m m P)].
Proof.
have [|P [t [E [Hb Hdeg]]]] :=
  @mbasis_correct F m n (mp_set_trunc_from_poly_mat m n A d) d s.
  case: (posnP d) => //= ->; rewrite /mp_set_trunc_from_poly_mat ltn0; case: ifP => //.
exists (pm_set_from_mat_poly P), t; rewrite /pm_mbasis E.
have -> : mx_of m m (pm_set_from_mat_poly P) = mp_mx m m P.
  by apply/matrixP=> i j; rewrite !mxE pm_set_from_mat_polyE.
split=> //; apply: approx_basis_ext Hb => i j k Hk.
by rewrite !mxE mp_set_truncE // Hk.
Qed.

(** block structure of the output, when the n first rows of A(0) are invertible *)
Lemma pm_mbasis_blk m n (A : fmat {poly F}) d (s : nat -> int) (a : int) P t :
  (n <= m)%N -> ((0 < d)%N -> (\matrix_(i < n, j < n) (A i j)`_0) \in unitmx) ->
  (forall i, (i < n)%N -> s i = a) -> (forall i, (n <= i < m)%N -> a + d%:Z <= s i) ->
  pm_mbasis m n A d s = AOk (P, t) ->
  [/\ blk n d (mx_of m m P), forall i, (i < n)%N -> t i = a + d%:Z &
      forall i, (n <= i < m)%N -> t i = s i].
Proof.
move=> Hn Hu Hs1 Hs2; rewrite /pm_mbasis /mbasis /mp_is_zero.
set matp := mp_set_trunc_from_poly_mat m n A d.
have E0 (i : 'I_n) (j : 'I_n) : (0 < d)%N ->
    (mp_mx m n matp (widen_ord Hn i) j)`_0 = (A i j)`_0.
  by move=> Hd; rewrite mxE mp_set_truncE ?Hd //=; exact: leq_trans (ltn_ord i) Hn.
have one_blk : blk n 0 (mx_of m m (pm_set_from_mat_poly (@mp_one F))).
  have -> : mx_of m m (pm_set_from_mat_poly (@mp_one F)) = 1%:M.
    by rewrite -mp_one_mx; apply/matrixP=> i j; rewrite !mxE pm_set_from_mat_polyE.
  split=> i j Hi; first by rewrite mxE; case: eqP.
    by rewrite mxE.
  move=> Hj; rewrite mxE; case: eqP => [E|_]; last by rewrite size_poly0.
  by move: Hi Hj; rewrite E; lia.
case: eqP => [L0|/eqP L0].
  case=> <- <-; case: (posnP d) => [->|Hd]; first by split=> // i Hi; rewrite ?addr0 ?Hs1.
  suff Zn : n = 0%N by subst n; split=> //; case: one_blk => *; split=> //.
  case: (posnP n) => // Hp; move: (Hu Hd); rewrite (_ : \matrix_(i, j) _ = 0).
    by move/mulmxV; rewrite mul0mx => /matrixP/(_ (Ordinal Hp) (Ordinal Hp)) /eqP; rewrite !mxE eqxx eq_sym oner_eq0.
  apply/matrixP=> i j; rewrite !mxE -E0 // mxE.
  by rewrite mp_entryE L0.
case: eqP => // Hd [].
have L : (0 < mp_len matp)%N by lia.
move=> E; have Hu' : (\matrix_(i < n, j < n) (mp_mx m n matp (widen_ord Hn i) j)`_0) \in unitmx.
  rewrite (_ : \matrix_(i, j) _ = \matrix_(i < n, j < n) (A i j)`_0); first by apply: Hu; lia.
  by apply/matrixP=> i j; rewrite !mxE -E0 ?mxE //; lia.
have H := mbasis_loop_blk L Hu' (k := d) (minv0 m n matp s) (a := a).
have {}H : binv m n s a (0 + d) (mbasis_loop m n matp d 0 (mp_one, s)).
  apply: H => //; last by move=> i Hi; rewrite addr0; exact: Hs2.
  by split=> //= i Hi; rewrite addr0 Hs1.
move: H E; case: (mbasis_loop _ _ _ _ _ _) => P' t' [/= H1 H2 H3] [<- <-].
rewrite add0n in H1 H2; split=> //.
have -> : mx_of m m (pm_set_from_mat_poly P') = mp_mx m m P' => //.
by apply/matrixP=> i j; rewrite !mxE pm_set_from_mat_polyE.
Qed.
End Poly.
