(** Determinants of polynomial matrices (ntl-extras): expansions, degrees. *)
From Coq Require Import ZArith.
From mathcomp Require Import all_ssreflect all_fingroup all_algebra zify.
From Verif Require Import A_base N_pmat_model N_util_model N_trs_proof N_util_proof N_forms_model N_pmb_model N_ker_model N_det_model.
Set Implicit Arguments.
Unset Strict Implicit.
Unset Printing Implicit Defensive.
Import Order.TTheory GRing.Theory Num.Theory.
Local Open Scope ring_scope.

Section Ring.
Variable R : comRingType.
Implicit Types e : fmat R.

(** along the last row and along the first column *)
Lemma det_last n e : \det (mx_of n.+1 n.+1 e) =
  \sum_(j < n.+1) e n j * ((-1) ^+ (n + j) * \det (mx_of n n (fun a b => e a (bump j b)))).
Proof.
rewrite (expand_det_row _ ord_max); apply: eq_bigr => j _; rewrite mxE /=; congr (_ * (_ * _)).
by congr (\det _); apply/matrixP=> a b; rewrite !mxE /= /bump leqNgt ltn_ord.
Qed.
Lemma det_first n e : \det (mx_of n.+1 n.+1 e) =
  \sum_(k < n.+1) e k 0%N * ((-1) ^+ k * \det (mx_of n n (fun a b => e (bump k a) b.+1))).
Proof.
rewrite (expand_det_col _ ord0); apply: eq_bigr => k _; rewrite mxE /cofactor /= addn0; congr (_ * (_ * _)).
by congr (\det _); apply/matrixP=> a b; rewrite !mxE.
Qed.
Lemma det_0 e : \det (mx_of 0 0 e) = 1. Proof. exact: det_mx00. Qed.
Lemma det_1 e : \det (mx_of 1 1 e) = e 0%N 0%N. Proof. by rewrite det_mx11 mxE. Qed.
Lemma det_2 e : \det (mx_of 2 2 e) = e 0%N 0%N * e 1%N 1%N - e 0%N 1%N * e 1%N 0%N.
Proof.
rewrite det_last !big_ord_recl big_ord0 !det_1 /= addr0 addn0 addn1 expr1 expr2 !mulN1r opprK !mulrN !mul1r.
by rewrite addrC mulrC [e 1%N 0%N * _]mulrC.
Qed.
Lemma det_3 e : \det (mx_of 3 3 e) = e 2%N 0%N * (e 0%N 1%N * e 1%N 2%N - e 0%N 2%N * e 1%N 1%N)
  - e 2%N 1%N * (e 0%N 0%N * e 1%N 2%N - e 0%N 2%N * e 1%N 0%N) + e 2%N 2%N * (e 0%N 0%N * e 1%N 1%N - e 0%N 1%N * e 1%N 0%N).
Proof.
rewrite det_last !big_ord_recl big_ord0 !det_2 addr0 /= !exprS expr0 ?mulN1r ?opprK ?mulr1 ?mulN1r ?opprK ?mul1r.
by rewrite addrA; congr (_ + _ + _); rewrite mulrN.
Qed.
Lemma det_4 e (d : nat -> nat -> R) : (forall a b, d a b = e 0%N a * e 1%N b - e 0%N b * e 1%N a) ->
  \det (mx_of 4 4 e) =
  - (e 3%N 0%N * (e 2%N 1%N * d 2%N 3%N - e 2%N 2%N * d 1%N 3%N + e 2%N 3%N * d 1%N 2%N))
  + e 3%N 1%N * (e 2%N 0%N * d 2%N 3%N - e 2%N 2%N * d 0%N 3%N + e 2%N 3%N * d 0%N 2%N)
  - e 3%N 2%N * (e 2%N 0%N * d 1%N 3%N - e 2%N 1%N * d 0%N 3%N + e 2%N 3%N * d 0%N 1%N)
  + e 3%N 3%N * (e 2%N 0%N * d 1%N 2%N - e 2%N 1%N * d 0%N 2%N + e 2%N 2%N * d 0%N 1%N).
Proof.
move=> D; rewrite det_last !big_ord_recl big_ord0 !det_3 addr0 /= !exprS expr0 ?mulN1r ?opprK ?mulr1 ?mulN1r ?opprK ?mul1r.
by rewrite !D !addrA; congr (_ + _ + _ + _); rewrite mulrN.
Qed.
End Ring.

Section P.
Variable F : fieldType.
Implicit Types (pm : pmat F).

Lemma expansionP x pm : (0 < nr pm <= 4)%N -> expansion_by_minors x pm = \det (mx_of (nr pm) (nr pm) (ent pm)).
Proof.
rewrite /expansion_by_minors; case: (nr pm) => [|[|[|[|[|?]]]]] // _; rewrite ?det_1 ?det_2 ?det_3 //.
  by rewrite -[X in _ = _ + X + _]mulrN opprB.
by rewrite (det_4 (fun a b => erefl)).
Qed.

Lemma foldl_ret (A B : Type) (f : A -> B -> fout A) (g : A -> B -> A) l a : (forall x b, f x b = Ret (g x b)) ->
  foldl (fun r b => fbind r (fun x => f x b)) (Ret a) l = Ret (foldl g a l).
Proof. by move=> H; elim: l a => //= b l IH a; rewrite H IH. Qed.

Lemma recP fuel pm : (0 < nr pm <= fuel.+1)%N -> expansion_rec fuel pm = Ret (\det (mx_of (nr pm) (nr pm) (ent pm))).
Proof.
elim: fuel pm => [|fuel IH] pm Hf; cbn [expansion_rec].
  have E : nr pm = 1%N by lia.
  by rewrite E eqxx det_1.
case: eqP => [->|/eqP N1]; first by rewrite det_1.
rewrite (_ : (nr pm == 0%N) = false); last by lia.
case En : (nr pm) => [|n]; first by lia.
have Eb k : expansion_rec fuel (minor_buf pm k) = Ret (\det (mx_of n n (fun a b => ent pm (bump k a) b.+1))).
  rewrite IH /= En /=; last by lia.
  congr (Ret (\det _)); apply/matrixP=> a b; rewrite !mxE /bump; case: ltnP => H; by rewrite ?add0n ?add1n.
rewrite (@foldl_ret _ _ _ (fun x k => x + ent pm k 0%N * ((-1) ^+ k * \det (mx_of n n (fun a b => ent pm (bump k a) b.+1))))) => [|x k]; last first.
  rewrite Eb /= -signr_odd; case: (odd k) => /=; by rewrite ?expr0 ?expr1 ?mul1r ?mulN1r ?mulrN.
congr Ret; rewrite det_first; under eq_bigr do rewrite [_ ^+ _ * _]mulrC mulrA mulrC.
have H (g : nat -> {poly F}) l x : foldl (fun x k => x + g k) x l = x + \sum_(k <- l) g k.
  by elim: l x => [|k l Hl] x; rewrite ?big_nil ?addr0 //= Hl big_cons addrA.
rewrite (H (fun k => ent pm k 0%N * ((-1) ^+ k * \det (mx_of n n (fun a b => ent pm (bump k a) b.+1))))) add0r.
rewrite -/(index_iota 0 n.+1) -[n.+1]subn0 -/(index_iota 0 n.+1) big_mkord; apply: eq_bigr => k _.
by rewrite [RHS]mulrC -mulrA [_ * (-1) ^+ _]mulrC.
Qed.

Lemma det_size m (A : 'M[{poly F}]_m) d : (forall i j, (size (A i j) <= d.+1)%N) -> (size (\det A) <= (m * d).+1)%N.
Proof.
move=> H; apply: (leq_trans (size_sum _ _ _)); apply/bigmax_leqP => s _.
have -> : (-1) ^+ s * \prod_(i < m) A i (s i) = ((-1) ^+ s : F) *: \prod_(i < m) A i (s i).
  by case: (odd_perm s); rewrite ?expr0 ?expr1 ?scale1r ?scaleN1r ?mul1r ?mulN1r.
apply: (leq_trans (size_scale_leq _ _)).
have Hp n (g : 'I_n -> {poly F}) : (forall i, (size (g i) <= d.+1)%N) -> (size (\prod_(i < n) g i)%R <= (n * d).+1)%N.
  elim: n g => [|n IH] g Hg; first by rewrite big_ord0 size_poly1.
  rewrite big_ord_recl; apply: (leq_trans (size_mul_leq _ _)).
  have := Hg ord0; have := IH (fun i => g (lift ord0 i)) (fun i => Hg _); rewrite mulSn; lia.
exact: Hp.
Qed.
Lemma det_plen pm d : nr pm = nc pm -> plen pm = d.+1 -> (size (\det (mx_of (nr pm) (nr pm) (ent pm))) <= (nr pm * d).+1)%N.
Proof. by move=> E Ep; apply: det_size => i j; rewrite mxE -Ep; apply: plen_size; rewrite -?E ltn_ord. Qed.
Lemma det_horner m (e : fmat {poly F}) x : (\det (mx_of m m e)).[x] = \det (mx_of m m (fun i j => (e i j).[x])).
Proof.
have := det_map_mx [rmorphism of horner_eval x] (mx_of m m e); rewrite /= {2}/horner_eval => <-; congr (\det _).
by apply/matrixP=> i j; rewrite !mxE.
Qed.
End P.
