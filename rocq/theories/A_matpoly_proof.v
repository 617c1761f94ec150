(** Lemmas on the matrix polynomial operations. *)
From mathcomp Require Import all_ssreflect all_algebra zify.
From Verif Require Import A_base A_matpoly_model A_nullspace2_proof.
Set Implicit Arguments.
Unset Strict Implicit.
Unset Printing Implicit Defensive.
Import GRing.Theory Num.Theory.
Local Open Scope ring_scope.

Section MP.
Variable F : fieldType.
Implicit Types A B : mat_poly F.

Lemma mp_entryE A i j k : (mp_entry A i j)`_k = if (k < mp_len A)%N then mp_co A k i j else 0.
Proof. by rewrite coef_poly. Qed.

Lemma fmat_is_zeroP m n (M : fmat F) :
  reflect (forall i j, (i < m)%N -> (j < n)%N -> M i j = 0) (fmat_is_zero m n M).
Proof.
apply: (iffP allP) => [H i j Hi Hj|H i].
  have /allP Ha : all (fun j => M i j == 0) (iota 0 n) by apply: H; rewrite mem_iota.
  by apply/eqP/Ha; rewrite mem_iota.
rewrite mem_iota add0n => /= Hi; apply/allP=> j; rewrite mem_iota add0n => /= Hj.
by rewrite H.
Qed.

Lemma fmat_is_zeroPn m n (M : fmat F) :
  ~~ fmat_is_zero m n M -> exists i j, [/\ (i < m)%N, (j < n)%N & M i j != 0].
Proof.
case/allPn=> i; rewrite mem_iota add0n => /= Hi /allPn[j]; rewrite mem_iota add0n => /= Hj NZ.
by exists i, j.
Qed.

Lemma norm_len_le m n (co : nat -> fmat F) len : (norm_len m n co len <= len)%N.
Proof. by elim: len => //= len IH; case: ifP => //; lia. Qed.

Lemma norm_len_zero m n (co : nat -> fmat F) len k i j :
  (norm_len m n co len <= k < len)%N -> (i < m)%N -> (j < n)%N -> co k i j = 0.
Proof.
elim: len => [|len IH] /=; first by lia.
case: ifP => [/fmat_is_zeroP Hz|_]; last by lia.
move=> Hk Hi Hj; case: (eqVneq k len) => [->|NE]; first exact: Hz.
by apply: IH => //; lia.
Qed.

Lemma norm_len_top m n (co : nat -> fmat F) len :
  norm_len m n co len = 0%N \/
  exists i j, [/\ (i < m)%N, (j < n)%N & co (norm_len m n co len).-1 i j != 0].
Proof.
elim: len => [|len IH] /=; first by left.
case: ifP => [_|/negbT NZ]; first exact: IH.
by right; exact: fmat_is_zeroPn NZ.
Qed.

Lemma mp_normalise_entry m n A i j : (i < m)%N -> (j < n)%N ->
  mp_entry (mp_normalise m n A) i j = mp_entry A i j.
Proof.
move=> Hi Hj; apply/polyP=> k; rewrite !mp_entryE /=.
case: ltnP => H1; case: ltnP => H2 //.
- by have := norm_len_le m n (mp_co A) (mp_len A); lia.
- by rewrite (norm_len_zero (m := m) (n := n) (len := mp_len A)) // H1.
Qed.

(** sums *)
Lemma foldl_fadd (f : nat -> fmat F) c l i j :
  foldl (fun c a => fadd c (f a)) c l i j = c i j + \sum_(a <- l) f a i j.
Proof.
elim: l c => [|a l IH] c /=; first by rewrite big_nil addr0.
by rewrite IH big_cons /fadd addrA.
Qed.

Lemma mp_mul_coeffP q A B k i j :
  mp_mul_coeff q A B k i j = (\sum_(l < q) mp_entry A i l * mp_entry B l j)`_k.
Proof.
rewrite coef_sum.
under eq_bigr do rewrite coefM.
rewrite exchange_big /=.
pose f a := fmul q (mp_co A a) (mp_co B (k - a)).
pose g a := if (a < mp_len A)%N && (k - a < mp_len B)%N then f a i j else 0.
rewrite (eq_bigr (fun a : 'I_k.+1 => g a)); last first.
  move=> a _; rewrite /g /f /fmul; case: ifP => H.
    by apply: eq_bigr => l _; rewrite !mp_entryE; case/andP: H => -> ->.
  rewrite big1 // => l _; rewrite !mp_entryE.
  by move: H; case: (a < mp_len A)%N => //= H; rewrite ?mul0r // H mulr0.
rewrite -(big_mkord xpredT g).
set lb := (k.+1 - mp_len B)%N; set ub := minn k.+1 (mp_len A).
have zero a b : (forall c, (a <= c < b)%N -> ~~ ((c < mp_len A)%N && (k - c < mp_len B)%N)) ->
   \sum_(a <= c < b) g c = 0.
  by move=> H; rewrite big_nat_cond big1 // => c /andP[Hc _]; rewrite /g (negbTE (H c Hc)).
rewrite /mp_mul_coeff -/lb -/ub; case: leqP => Hlu.
  by rewrite zero // => c Hc; rewrite /lb /ub in Hlu; lia.
rewrite foldl_fadd.
have Hlk : (lb <= k.+1)%N by rewrite /lb leq_subr.
have Huk : (ub <= k.+1)%N by rewrite /ub geq_minl.
rewrite (@big_cat_nat _ _ _ lb 0) //= (@big_cat_nat _ _ _ ub lb) //=; last exact: ltnW.
rewrite zero ?add0r => [|c]; last by rewrite /lb; lia.
rewrite [X in _ = _ + X]zero ?addr0 => [|c]; last by rewrite /ub; lia.
rewrite big_ltn //; congr (_ + _).
  by rewrite /g; case: ifP => // /negP[]; rewrite /lb /ub in Hlu *; lia.
rewrite /index_iota [RHS]big_seq_cond [LHS]big_seq_cond; apply: eq_bigr => a.
rewrite mem_iota => Ha; rewrite /g; case: ifP => // /negP[].
by rewrite /lb /ub in Hlu Ha; lia.
Qed.

(** Horner evaluation *)
Lemma mp_evaluateP A pt i j : mp_evaluate A pt i j = (mp_entry A i j).[pt].
Proof.
rewrite /mp_evaluate /mp_entry horner_poly.
case: A => len co /=.
case: eqP => [->|/eqP L0]; first by rewrite big_ord0.
case: (altP (len =P 1%N)) => [->|L1] /=.
  by rewrite big_ord_recl big_ord0 expr0 mulr1 addr0.
case: (altP (pt =P 0)) => [->|P0].
  case: len L0 L1 => // len _ _; rewrite big_ord_recl expr0 mulr1 big1 ?addr0 // => a _.
  by rewrite expr0n mulr0.
case: len L0 L1 => // len _ _ /=.
have H k (e : fmat F) : foldl (fun (e : fmat F) a => fun i j => co a i j + pt * e i j) e
    (rev (iota 0 k)) i j = \sum_(a < k) co a i j * pt ^+ a + e i j * pt ^+ k.
  elim: k e => [|k IH] e; first by rewrite big_ord0 add0r expr0 mulr1.
  rewrite iota_rcons rev_rcons /= IH big_ord_recr /= -addrA; congr (_ + _).
  by rewrite mulrDl exprS mulrA [e i j * pt]mulrC.
by rewrite H big_ord_recr /=.
Qed.

(** aliased left shift *)
Lemma foldl_swap (n : nat) len (dst : nat -> fmat F) : (0 < n)%N ->
  let r := foldl (fun d i => swap_co d (n + i)%N i) dst (rev (iota 0 len)) in
  (forall i, (i < len)%N -> r (n + i)%N = dst i) /\
  (forall k, (n + len <= k)%N -> r k = dst k).
Proof.
move=> Hn; elim: len dst => [|len IH] dst; first by [].
rewrite iota_rcons rev_rcons add0n [foldl _ _ _]/=.
set dst' := swap_co _ _ _.
have [H1 H2] := IH dst'; split.
- move=> i Hi; case: (ltnP i len) => Hil.
    rewrite H1 // /dst' /swap_co /upd.
    by rewrite !ifN_eq //; lia.
  have -> : i = len by lia.
  rewrite H2 // /dst' /swap_co /upd.
  by rewrite eqxx ifN_eq //; lia.
- move=> k Hk; rewrite H2; last by lia.
  rewrite /dst' /swap_co /upd.
  by rewrite !ifN_eq //; lia.
Qed.

Lemma foldl_zero n (d : nat -> fmat F) k :
  foldl (fun d i => upd d i fzero) d (iota 0 n) k = if (k < n)%N then fzero else d k.
Proof.
elim: n => [//|n IH]; rewrite iota_rcons foldl_rcons /= add0n {1}/upd IH.
case: eqP => [->|NE]; first by rewrite ltnSn.
by have -> : (k < n.+1)%N = (k < n)%N by lia.
Qed.

Lemma mp_shift_left_alias A n i j :
  mp_entry (mp_shift_left true A A n) i j = mp_entry A i j * 'X^n.
Proof.
rewrite /mp_shift_left; case: eqP => [->|/eqP N0]; first by rewrite expr0 mulr1.
case: eqP => [L0|/eqP L0].
  rewrite /mp_entry L0 /= !poly_def !big_ord0 mul0r; exact: erefl.
apply/polyP=> k; rewrite coefMXn !mp_entryE /=.
rewrite /mp_shift_left_raw foldl_zero addnK.
have Hn : (0 < n)%N by lia.
have [H1 H2] := foldl_swap (mp_len A) (mp_co (mp_set_length A (mp_len A + n))) Hn.
case: (ltnP k n) => Hk; first by case: ifP.
have -> : (k < mp_len A + n)%N = (k - n < mp_len A)%N by lia.
case: ltnP => // Hkn.
have -> : k = (n + (k - n))%N by lia.
by rewrite H1 // /= Hkn addKn.
Qed.

(** conversions *)
Lemma pm_max_lengthP m n (P : fmat {poly F}) i j : (i < m)%N -> (j < n)%N ->
  (size (P i j) <= pm_max_length m n P)%N.
Proof.
move=> Hi Hj; rewrite /pm_max_length.
apply: leq_trans (leq_bigmax (F := fun i : 'I_m => \max_(j < n) size (P i j)) (Ordinal Hi)).
exact: (leq_bigmax (F := fun j : 'I_n => size (P i j)) (Ordinal Hj)).
Qed.

Lemma mp_set_truncE m n (P : fmat {poly F}) order i j k : (i < m)%N -> (j < n)%N ->
  (mp_entry (mp_set_trunc_from_poly_mat m n P order) i j)`_k =
  if (k < order)%N then (P i j)`_k else 0.
Proof.
move=> Hi Hj; rewrite /mp_set_trunc_from_poly_mat.
have Hs := pm_max_lengthP P Hi Hj; set len := pm_max_length m n P in Hs *.
case: (ltnP len order) => Ho.
  rewrite ltnn mp_entryE /=; case: ltnP => H1; case: ltnP => H2 //; first by lia.
  by rewrite nth_default //; apply: leq_trans Hs H1.
by case: ifP => _; rewrite ?mp_normalise_entry // mp_entryE.
Qed.

Lemma pm_of_mp_trunc A order i j k :
  (pm_set_trunc_from_mat_poly A order i j)`_k =
  if (k < order)%N then (mp_entry A i j)`_k else 0.
Proof.
rewrite /pm_set_trunc_from_mat_poly mp_entryE coef_poly.
case: (ltnP (mp_len A) order) => Ho; case: (ltnP k order) => H1; case: (ltnP k (mp_len A)) => H2 //.
- by have := leq_trans (leq_ltn_trans H1 H2) (ltnW Ho); rewrite ltnn.
- by have := leq_trans (leq_trans H1 Ho) H2; rewrite ltnn.
Qed.

Lemma pm_set_from_mat_polyE A i j : pm_set_from_mat_poly A i j = mp_entry A i j.
Proof. by rewrite /pm_set_from_mat_poly /pm_set_trunc_from_mat_poly ltnn. Qed.

End MP.
