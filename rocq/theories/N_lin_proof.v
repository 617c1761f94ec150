(** Proofs about N_lin_model.v: the expansions of the columns. *)
From Coq Require Import ZArith.
From mathcomp Require Import all_ssreflect all_algebra zify.
From Verif Require Import A_base N_pmat_model N_util_model N_forms_model N_pmb_model N_zls_proof N_lin_model.
Set Implicit Arguments.
Unset Strict Implicit.
Unset Printing Implicit Defensive.
Import Order.TTheory GRing.Theory Num.Theory.
Local Open Scope ring_scope.

Lemma lin_countE (t pd : nat) : lin_count t%:Z pd = (t %/ pd.+1).+1.
Proof.
rewrite /lin_count; have E := divz_eq (- (t%:Z + 1)) pd.+1%:Z; have r0 := modz_ge0 (- (t%:Z + 1)) (isT : pd.+1%:Z != 0).
have r1 := ltz_pmod (- (t%:Z + 1)) (isT : 0 < pd.+1%:Z).
have E2 := divn_eq t pd.+1; have r2 := ltn_pmod t (isT : (0 < pd.+1)%N).
move: E r0 r1 E2 r2; move: (_ %/ _)%Z (_ %% _)%Z (_ %/ _)%N (_ %% _)%N => q r q' r'; nia.
Qed.

Section Blocks.
Variable cnt : nat -> nat.
Lemma lin_colsS j : lin_cols cnt j.+1 = (lin_cols cnt j + cnt j)%N.
Proof. by rewrite /lin_cols big_ord_recr. Qed.
Lemma lin_blockP n j k : (j < n)%N -> (k < cnt j)%N -> lin_block cnt n (lin_cols cnt j + k) 0 = (j, k).
Proof.
suff H m i j0 : (i < m)%N -> (k < cnt (j0 + i))%N -> lin_block cnt m (\sum_(l < i) cnt (j0 + l) + k) j0 = ((j0 + i)%N, k) by move=> H1 H2; exact: (H n j 0%N).
elim: m i j0 => // m IH [|i] j0 Hi Hk; cbn [lin_block].
  by rewrite big_ord0 add0n; move: Hk; rewrite addn0 => ->.
rewrite big_ord_recl addn0 -addnA ltnNge leq_addr /= addKn.
have := IH i j0.+1; rewrite addSnnS => <- //; congr (lin_block _ _ (_ + _) _).
by apply: eq_bigr => l _; rewrite /bump /= add1n addSnnS.
Qed.
Lemma lin_cols_lt n j k : (j < n)%N -> (k < cnt j)%N -> (lin_cols cnt j + k < lin_cols cnt n)%N.
Proof.
elim: n => // n IH; rewrite ltnS leq_eqVlt lin_colsS => /orP[/eqP->|Hj] Hk; first by rewrite ltn_add2l.
exact: leq_trans (IH Hj Hk) (leq_addr _ _).
Qed.
End Blocks.

Section P.
Variable F : fieldType.
Implicit Types (p : {poly F}) (pm a b : pmat F).

Lemma poly_split (g : nat -> F) m n : \poly_(i < m + n) g i = \poly_(i < m) g i + 'X^m * \poly_(i < n) g (m + i)%N.
Proof.
apply/polyP=> i; rewrite coefD coefXnM !coef_poly; case: (ltnP i m) => H; first by rewrite ltn_addr // addr0.
by rewrite add0r subnKC // ltn_subLR.
Qed.
Lemma poly_blocks (f : nat -> nat -> F) e m :
  \poly_(i < e * m) f (i %/ e)%N (i %% e)%N = \sum_(k < m) 'X^(k * e) * \poly_(i < e) f k i.
Proof.
elim: m => [|m IH]; first by rewrite muln0 big_ord0; apply/polyP=> i; rewrite coef_poly coef0.
rewrite big_ord_recr /= -IH mulnS addnC poly_split; congr (_ + _); rewrite [(m * e)%N]mulnC; congr (_ * _).
apply/polyP=> i; rewrite !coef_poly; case: ltnP => // Hi; have e0 : (0 < e)%N by exact: leq_ltn_trans Hi.
by rewrite mulnC divnMDl // divn_small // addn0 modnMDl modn_small.
Qed.
Lemma lin_sum p o e m : (o + m * e <= size p)%N ->
  (\sum_(k < m) 'X^(k * e) * \poly_(i < e) p`_(o + k * e + i)) + 'X^(m * e) * \poly_(i < size p - (o + m * e)) p`_(o + m * e + i) =
  \poly_(i < size p - o) p`_(o + i).
Proof.
move=> H; have -> : (size p - o = e * m + (size p - (o + m * e)))%N by rewrite [(e * m)%N]mulnC; lia.
rewrite poly_split mulnC; congr (_ + _); last by congr (_ * _); apply/polyP=> i; rewrite !coef_poly addnA.
rewrite -(poly_blocks (fun k i => p`_(o + k * e + i))); apply/polyP=> i; rewrite !coef_poly.
by rewrite -addnA -divn_eq.
Qed.

Section Fill.
Variables (cnt pd : nat -> nat) (o : nat) (pm : pmat F).
Hypothesis c0 : forall j, (j < nc pm)%N -> (0 < cnt j)%N.
Hypothesis big : forall i j, (i < nr pm)%N -> (j < nc pm)%N -> (lin_reached cnt pd o j <= size (ent pm i j))%N.
Lemma lin_fillP : exists2 l, lin_fill cnt pd o pm = Ret l & [/\ nr l = nr pm, nc l = lin_cols cnt (nc pm) & forall i j, (i < nr pm)%N -> (j < nc pm)%N ->
  [/\ \sum_(k < cnt j) 'X^(k * (pd j).+1) * ent l i (lin_cols cnt j + k)%N = \poly_(n < size (ent pm i j) - o) (ent pm i j)`_(o + n),
      forall k, (k < cnt j)%N -> ent l i (lin_cols cnt j + k)%N != 0 -> (o + k * (pd j).+1 + size (ent l i (lin_cols cnt j + k)%N) <= size (ent pm i j))%N
    & forall k, (k < cnt j)%N -> (k.+1 < cnt j)%N || (size (ent pm i j) <= o + cnt j * (pd j).+1)%N -> (size (ent l i (lin_cols cnt j + k)%N) <= (pd j).+1)%N]].
Proof.
rewrite /lin_fill ifF; last first.
  apply/negbTE/hasPn=> j; rewrite mem_iota /= add0n => Hj; apply/hasPn=> i; rewrite mem_iota /= add0n => Hi.
  rewrite negb_or -!leqNgt -ltnNge (big Hi Hj) /=; have := lin_cols_lt Hj (c0 Hj); by rewrite addn0.
eexists; first by []; split=> // i j Hi Hj.
have E k : (k < cnt j)%N -> lin_block cnt (nc pm) (lin_cols cnt j + k) 0 = (j, k) by exact: lin_blockP.
cbn [ent]; have B := big Hi Hj; have C := c0 Hj; split.
- case Ec: (cnt j) C E => [//|m] _ E; rewrite big_ord_recr /= E // Ec ltnn.
  rewrite /lin_reached Ec /= in B *; rewrite -(lin_sum B); congr (_ + _).
  by apply: eq_bigr => k _; rewrite E ?Ec ?ltn_ord // ltnS ltnW.
- move=> k Hk; rewrite E //; case: ifP => Hk2 Nz.
    set q := \poly_(_ < _) _ in Nz *; have := lead_coef_eq0 q; rewrite (negbTE Nz) lead_coefE => /negbT L.
    have s0 : (0 < size q)%N by rewrite size_poly_gt0.
    move: L; rewrite {1}/q coef_poly; case: ltnP => [_|]; last by rewrite eqxx.
    apply: contraR; rewrite -ltnNge => H; rewrite nth_default ?eqxx //; move: H s0; move: (_ * _)%N (size q) (size _); lia.
  have -> : k = (cnt j).-1 by lia.
  rewrite -/(lin_reached cnt pd o j); have := size_poly (size (ent pm i j) - lin_reached cnt pd o j) (fun dd => (ent pm i j)`_(lin_reached cnt pd o j + dd)); lia.
move=> k Hk H; rewrite E //; case: ifP => Hk2; first exact: size_poly.
apply: leq_trans (size_poly _ _) _; rewrite /lin_reached; case/orP: H => H; first lia.
by case: (cnt j) C H => // m _; rewrite mulSn /=; lia.
Qed.
End Fill.

Lemma line_deg_bound (v : nat -> {poly F}) n : exists2 D : nat, line_degree v n = D%:Z - 1 & forall l, (l < n)%N -> (size (v l) <= D)%N.
Proof.
have [_ H] := rowdegP (Pmat 1 n (fun _ => v)); have [H1 H2] := H 0%N isT.
exists (absz (line_degree v n + 1)) => [|l Hl]; first by move: H1; rewrite /row_degree /=; lia.
by have := H2 l Hl; move: H1; rewrite /row_degree /=; lia.
Qed.
End P.
