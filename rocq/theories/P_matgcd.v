(** C54: echelon and Hermite forms in the style of Mulders and Storjohann. *)
From mathcomp Require Import all_ssreflect all_algebra fingroup perm fraction zify.
From Verif Require Import A_base SpecA SpecForms SpecWP SpecHermite A_rot_model A_wpopov_model A_wpopov_proof.
From Verif Require Import A_hermite_model A_hermite_ops_proof A_uref_proof A_det_model A_matgcd_model A_matgcd_proof P_hermite.
Set Implicit Arguments.
Unset Strict Implicit.
Unset Printing Implicit Defensive.
Import Order.TTheory GRing.Theory Num.Theory.
Local Open Scope ring_scope.

Section MatGcd.
Variable F : fieldType.
Local Notation P := {poly F}.
Implicit Types (A : fmat P) (T : option (fmat P)).

(** the column rank profile is 0, 1, ..., rank - 1 *)
Definition generic_profile m n A : Prop :=
  prank (leading_block m (prank (leading_block m n A)) A) = prank (leading_block m n A).

Lemma generic_lt m n A : let R := \rank (top m n A) in
  ((\rank (top m R A) < R)%N <-> ~ generic_profile m n A).
Proof.
move=> R; rewrite /generic_profile !leading_top -/R.
have L : (\rank (top m R A) <= R)%N by exact: rank_leq_col.
split=> [H E|H]; first by move: H; rewrite E ltnn.
by rewrite ltn_neqAle L andbT; apply/eqP.
Qed.

Section Xgcd.
Variable xgcd : P -> P -> P * P * P.
Hypothesis XS : xgcd_spec xgcd.

(** C54: a negative value is returned exactly when the column rank profile is not generic;
    otherwise the rank is returned, with an echelon form and its pivots. The transformation has
    determinant 1 or -1, by which udet is multiplied when m <= n. *)
Theorem C54_uref_matrixgcd_iter_partial m n cT A T (pivind : nat -> int) rrp udet :
  exists r, (exists N, forall fuel, (N <= fuel)%N ->
      uref_matrixgcd_iter xgcd m n cT fuel A T pivind rrp udet = Some (AOk r)) /\
  [/\ exists sg : bool, transformed m n cT (eq^~ ((-1) ^+ sg)) A T (mg_mat r) (mg_tsf r) /\
        ((m <= n)%N -> mg_udet r = omap (fun d => (-1) ^+ sg * d) udet),
      0 <= mg_ret r ->
        [/\ mg_ret r = (prank (leading_block m n A))%:Z,
            uref_with (leading_block m n (mg_mat r)) (prank (leading_block m n A)) id &
            forall i, (i < prank (leading_block m n A))%N -> mg_pivind r i = i%:Z],
      mg_ret r < 0 <-> ~ generic_profile m n A &
      forall i, (m <= i)%N -> mg_pivind r i = pivind i].
Proof.
have [N [r [E [sg [Tr Eu]] H1 H2 H3]]] := mg_allP XS m n cT A T pivind rrp udet.
exists r; split; first by exists N.
split=> //.
- by exists sg; split=> //; apply: trans_transformed Tr.
- move=> /H1[P1 Z E1 E2]; rewrite leading_top; split=> //.
  by rewrite leadingE; apply: pivs_uref => //; exact: rank_leq_row.
- by rewrite H2 generic_lt.
Qed.

Lemma parity0 p : perm_parity 0 p = false.
Proof.
rewrite /perm_parity; case: pickP => // s _.
have -> : s = 1%g by apply/permP=> -[].
exact: odd_perm1.
Qed.

(** what is missing is false: with more rows than columns, the swap of a missed pivot row is not
    taken into account in udet. On the matrix [0; 1] the transformation, stored in tsf, has
    determinant -1 while udet remains 1. *)
Theorem C54_udet_refuted (pivind : nat -> int) :
  let A : fmat P := fun i j => (i == 1%N)%:R in
  let I : fmat P := fun i j => (i == j)%:R in
  exists r, (forall fuel, uref_matrixgcd_iter xgcd 2 1 2 fuel A (Some I) pivind None (Some 1) = Some (AOk r)) /\
    exists T' : fmat P, [/\ mg_tsf r = Some T', mg_ret r = 1,
      leading_block 2 1 (mg_mat r) = leading_block 2 2 T' *m leading_block 2 1 A,
      \det (leading_block 2 2 T') = -1 & mg_udet r = Some 1].
Proof.
move=> A I; pose T' : fmat P := swap_rows I 0 1.
exists (MGR (swap_rows A 0 1) (Some T') (upd pivind 0 0) None (Some 1) 1).
split.
  move=> fuel; rewrite /uref_matrixgcd_iter /= /first_nz /= /A oner_eq0 !(eqxx (0 : P)) /= /mg_clear /=.
  rewrite /weak_popov_submat /= (_ : swap_rows _ _ _ 0%N 0%N = 1) // oner_eq0 /=.
  by rewrite (_ : perm_parity 0 id = false) //; exact: parity0.
exists T'; split=> //.
- apply/matrixP=> i j; rewrite !mxE !big_ord_recl big_ord0 !mxE /T' /swap_rows /= /upd /A /I.
  by case: i => -[|[|]] //= _; rewrite ?mul1r ?mulr1 ?mulr0 ?mul0r ?addr0 ?add0r.
- rewrite (expand_det_row _ 0) !big_ord_recl big_ord0 /cofactor !det_mx11 !mxE /T' /swap_rows /= /upd /I /=.
  by rewrite mul0r add0r addr0 mul1r addn1 expr1 mulr1.
Qed.

(** the Hermite form *)
Theorem C54_hnf_matrixgcd_iter m n cT A T (pivind : nat -> int) rrp udet :
  exists r, (exists N, forall fuel, (N <= fuel)%N ->
      hnf_matrixgcd_iter xgcd m n cT fuel A T pivind rrp udet = Some (AOk r)) /\
  [/\ transformed m n cT (@const_det F) A T (mg_mat r) (mg_tsf r),
      0 <= mg_ret r ->
        [/\ mg_ret r = (prank (leading_block m n A))%:Z,
            hermite_with (leading_block m n (mg_mat r)) (prank (leading_block m n A)) id &
            forall i, (i < prank (leading_block m n A))%N -> mg_pivind r i = i%:Z] &
      mg_ret r < 0 <-> ~ generic_profile m n A].
Proof.
have [r [[N E] [[sg [Tr _]] H1 H2 _]]] := C54_uref_matrixgcd_iter_partial m n cT A T pivind rrp udet.
have Tr1 : transformed m n cT (@sign_det F) A T (mg_mat r) (mg_tsf r).
  case: Tr => U [U1 U2 U3]; exists U; split=> //; rewrite U1; case: (sg); [by right|by left].
have Tr2 : transformed m n cT (@const_det F) A T (mg_mat r) (mg_tsf r).
  by case: Tr1 => U [U1 U2 U3]; exists U; split=> //; apply: const_sign.
case C: (mg_ret r < 0).
  exists r; split; first by exists N => fuel Hf; rewrite /hnf_matrixgcd_iter E // C.
  by split=> // H; exfalso; lia.
have C' : 0 <= mg_ret r by lia.
have [h1 h2 h3] := H1 C'.
set R := prank _ in h1 h2 h3 *.
have [|A' [T' [E' Tr3 H]]] := @C36_normalize_uref F m n cT (mg_mat r) (mg_tsf r) (fun i => `|mg_pivind r i|%N) R.
  rewrite leadingE; have [L Pv Z] := uref_pivs (eq_rect _ (fun M => uref_with M R id) h2 _ (leadingE m n (mg_mat r))).
  apply: pivs_uref => //; apply: pivs_pv Pv => i Hi; by rewrite h3.
exists (MGR A' T' (mg_pivind r) (mg_rrp r) (mg_udet r) (mg_ret r)); split.
  by exists N => fuel Hf; rewrite /hnf_matrixgcd_iter E // C h1 absz_nat E'.
split=> //=; first exact: transformed_comp Tr1 Tr3.
move=> _; split=> //; case: H => U1 U2; split=> //.
- case: U1 => a1 a2 a3 a4; split=> //.
    by move=> i Hi; have [j Ej Hj] := a2 i Hi; exists j => //; rewrite -Ej h3.
- by move=> i i' /andP[].
- by move=> i j Hi Ej; apply: U2 => //; rewrite h3 //=.
Qed.
End Xgcd.
End MatGcd.

(** the hypotheses are met, in both cases *)
Example C54_generic : generic_profile 2 2 (fun i j => (i == j)%:R : {poly rat}).
Proof.
rewrite /generic_profile; set R := prank (leading_block 2 2 _).
have E : R = 2%N by rewrite /R /prank (_ : leading_block _ _ _ = 1%:M) ?map_mx1 ?mxrank1 //; apply/matrixP=> i j; rewrite !mxE.
by rewrite E; exact: E.
Qed.
Example C54_not_generic : ~ generic_profile 1 2 (fun i j => (j == 1%N)%:R : {poly rat}).
Proof.
rewrite /generic_profile; set R := prank (leading_block 1 2 _).
have R1 : R = 1%N.
  apply/eqP; rewrite eqn_leq rank_leq_row lt0n mxrank_eq0 /=; apply/eqP=> /matrixP/(_ 0 1).
  by rewrite !mxE /= rmorph1 => /eqP; rewrite oner_eq0.
rewrite R1 /prank (_ : leading_block _ _ _ = 0) ?map_mx0 ?mxrank0 //.
by apply/matrixP=> i j; rewrite !mxE (ord1 j).
Qed.

Print Assumptions C54_uref_matrixgcd_iter_partial.
Print Assumptions C54_udet_refuted.
Print Assumptions C54_hnf_matrixgcd_iter.
