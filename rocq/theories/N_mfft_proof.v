(** Evaluation at roots of unity: bit reversal, the order of the table, the operations. *)
From mathcomp Require Import all_ssreflect all_algebra zify.
From Verif Require Import A_base A_mul_model N_poly_model N_series_proof N_shift_proof N_geo2_proof N_mfft_model.
Set Implicit Arguments.
Unset Strict Implicit.
Unset Printing Implicit Defensive.
Import GRing.Theory.
Local Open Scope ring_scope.

(** ** bit reversal *)
Fixpoint brev (k i : nat) : nat := if k is k'.+1 then (odd i * 2 ^ k' + brev k' i./2)%N else 0%N.

Lemma brev_lt k i : (brev k i < 2 ^ k)%N.
Proof.
elim: k i => //= k IH i; have := IH i./2; rewrite expnS; case: (odd i); lia.
Qed.

Lemma rev_inc_brev k i : rev_inc k (brev k i) = brev k i.+1.
Proof.
elim: k i => //= k IH i; have L := brev_lt k i./2.
have P2 : (0 < 2 ^ k)%N by rewrite expn_gt0.
case: (boolP (odd i)) => O /=.
  rewrite mul1n divnDl ?dvdnn // divnn P2 divn_small // addn0 /= addKn IH mul0n add0n.
  by rewrite uphalf_half O.
rewrite mul0n add0n divn_small //= mul1n addnC; congr (_ + brev k _)%N.
by rewrite uphalf_half (negbTE O).
Qed.

Lemma brev_right k i : (i < 2 ^ k.+1)%N -> brev k.+1 i = (2 * brev k (i %% 2 ^ k) + i %/ 2 ^ k)%N.
Proof.
elim: k i => [|k IH] i Hi.
  by case: i Hi => [|[|i]] //.
have P2 : (0 < 2 ^ k)%N by rewrite expn_gt0.
have Hh : (i./2 < 2 ^ k.+1)%N by move: Hi; rewrite [(2 ^ k.+2)%N]expnS -{1}[i]odd_double_half -muln2; lia.
rewrite [LHS]/= -/(brev k.+1 i./2) IH // [brev k.+1 (i %% _)]/=.
have O : odd (i %% 2 ^ k.+1) = odd i.
  by rewrite {2}(divn_eq i (2 ^ k.+1)) oddD oddM oddX andbF.
have H2 : ((i %% 2 ^ k.+1)./2 = i./2 %% 2 ^ k)%N.
  rewrite -!divn2 expnS; have := divn_eq i (2 * 2 ^ k); set q := (i %/ _)%N; set r := (i %% _)%N => E.
  have Lr : (r < 2 * 2 ^ k)%N by rewrite ltn_pmod //; lia.
  rewrite E (_ : q * (2 * 2 ^ k) + r = q * 2 ^ k * 2 + r)%N; last by lia.
  rewrite divnMDl // modnMDl modn_small //.
  by rewrite ltn_divLR // mulnC.
have H3 : (i./2 %/ 2 ^ k = i %/ 2 ^ k.+1)%N by rewrite -divn2 -divnMA -expnS.
rewrite O H2 H3 expnS; lia.
Qed.

Lemma brevK k i : (i < 2 ^ k)%N -> brev k (brev k i) = i.
Proof.
elim: k i => [|k IH] i Hi; first by case: i Hi.
rewrite brev_right; last exact: brev_lt.
have L := brev_lt k i./2; have P2 : (0 < 2 ^ k)%N by rewrite expn_gt0.
have Hh : (i./2 < 2 ^ k)%N by move: Hi; rewrite expnS -{1}[i]odd_double_half -muln2; lia.
rewrite [brev k.+1 i]/= modnMDl divnMDl // modn_small // divn_small // IH //.
by rewrite addn0 mul2n addnC odd_double_half.
Qed.

Lemma brev0 k : brev k 0 = 0%N. Proof. by elim: k. Qed.
Lemma brev1 k : brev k.+1 1 = (2 ^ k)%N. Proof. by rewrite /= mul1n brev0 addn0. Qed.

Lemma bit_reverse_initE k : (0 < k)%N -> exists idx, bit_reverse_init k = AOk idx /\
  forall i, (i < 2 ^ k)%N -> idx i = brev k i.
Proof.
case: k => // k _; rewrite /bit_reverse_init /=.
eexists; split; first by [].
set g := (X in foldl X); move=> i Hi.
have : (foldl g (fun _ => 0%N, 0%N) (iota 0 (2 ^ k.+1))).2 = brev k.+1 (2 ^ k.+1) /\
   forall i, (i < 2 ^ k.+1)%N -> (foldl g (fun _ => 0%N, 0%N) (iota 0 (2 ^ k.+1))).1 i = brev k.+1 i.
  move: (2 ^ k.+1)%N => m; elim: m => [|m [H1 H2]]; first by rewrite brev0.
  rewrite foldl_iotaR add0n; move: (foldl g _ _) H1 H2 => [rv j] /= -> H2.
  split; first exact: (rev_inc_brev k.+1 m).
  by move=> i' Hi'; rewrite /upd; case: (i' =P m) => [->//|N]; apply: H2; lia.
by case=> _; apply.
Qed.

(** ** the order of the table *)
Section Table.
Variable F : fieldType.
Local Notation P := {poly F}.
Variables (k : nat) (x : nat -> F).
Let n := (2 ^ k.+1)%N.

(** TofftRep evaluates at n distinct n-th roots of unity *)
Definition roots_table : Prop :=
  (forall i, (i < n)%N -> x i ^+ n = 1) /\
  (forall i j, (i < n)%N -> (j < n)%N -> x i = x j -> i = j).
Definition direct : Prop := forall i, (i < n)%N -> x i = x 1%N ^+ i.
Definition reversed : Prop := forall i, (i < n)%N -> x (brev k.+1 i) = x (2 ^ k)%N ^+ i.

Hypothesis T : roots_table.
Let n2 : (1 < n)%N. Proof. by rewrite /n -{1}(expn0 2) ltn_exp2l. Qed.
Let Hroot i : (i < n)%N -> x i ^+ n = 1. Proof. by case: T => H _; exact: H. Qed.
Let Hinj i j : (i < n)%N -> (j < n)%N -> x i = x j -> i = j. Proof. by case: T => _ H; exact: H. Qed.
Lemma x_neq0 i : (i < n)%N -> x i != 0.
Proof.
move=> Hi; apply/eqP=> E; have := Hroot Hi; rewrite E expr0n.
by rewrite (_ : (n == 0)%N = false); [move/eqP; rewrite eq_sym oner_eq0|move: n2; lia].
Qed.

Lemma two_neq0 : (2%:R : F) != 0.
Proof.
apply/eqP=> E2.
have G m (y : F) : y ^+ (2 ^ m) = 1 -> y = 1.
  elim: m y => [|m IH] y; first by rewrite expr1.
  rewrite expnS exprM => /IH E; apply/eqP; rewrite -subr_eq0 -[_ == 0]/((0 < 2)%N && _) -expf_eq0 sqrrB1 E.
  by rewrite -mulr_natl E2 mul0r subr0 -mulr2n E2.
have n0 : (0 < n)%N by move: n2; lia.
have := Hinj n0 n2; rewrite (G _ _ (Hroot n0)) (G _ _ (Hroot n2)).
by move/(_ erefl).
Qed.
Lemma n_neq0 : (n%:R : F) != 0.
Proof. by rewrite /n natrX expf_neq0 // two_neq0. Qed.

(** sums of powers of the quotient of two roots *)
Lemma root_sum i j : (i < n)%N -> (j < n)%N ->
  \sum_(l < n) ((x j)^-1 * x i) ^+ l = if i == j then n%:R else 0.
Proof.
move=> Hi Hj; case: eqP => [->|N].
  rewrite mulVf ?x_neq0 //; under eq_bigr do rewrite expr1n.
  by rewrite sumr_const card_ord.
have U : (x j)^-1 * x i != 1.
  apply/eqP=> E; apply: N; apply: Hinj => //.
  by rewrite -[x i](mulKf (x_neq0 Hj)) mulrCA E mulr1.
apply: (mulfI (_ : (x j)^-1 * x i - 1 != 0)); first by rewrite subr_eq0.
by rewrite mulr0 -subrX1 exprMn exprVn !Hroot // invr1 mulr1 subrr.
Qed.

Lemma from_repP v i : (i < n)%N -> (from_rep n x v).[x i] = v i.
Proof.
move=> Hi; rewrite (horner_coef_wide _ (size_poly _ _)).
transitivity (\sum_(j < n) n%:R^-1 * v j * \sum_(l < n) ((x j)^-1 * x i) ^+ l).
  under eq_bigr => l _ do rewrite coef_poly ltn_ord mulr_sumr mulr_suml.
  rewrite exchange_big /=; apply: eq_bigr => j _; rewrite mulr_sumr; apply: eq_bigr => l _.
  by rewrite exprMn !mulrA.
rewrite (bigD1 (Ordinal Hi)) //= root_sum // eqxx big1 ?addr0.
  by rewrite mulrAC mulVf ?mul1r // n_neq0.
move=> j Nj; rewrite root_sum // (_ : (i == j) = false) ?mulr0 //.
by apply/eqP=> E; move/eqP: Nj; apply; apply: val_inj.
Qed.

(** the values of the tests of the constructor *)
Lemma testsE idx : (forall i, (i < n)%N -> idx i = brev k.+1 i) ->
  let st := foldl (fun (st : bool * bool * F * F) i => let: (ok, dr, pow1, pow2) := st in
        let ok := ok && ((x i == pow1) || (x (idx i) == pow2)) in
        let dr := if x (idx i) == pow2 then dr else false in
        (ok, dr, pow1 * x 1%N, pow2 * x (2 ^ k)%N)) (true, true, 1, 1) (iota 0 n) in
  [/\ st.1.1.1 <-> (forall i, (i < n)%N -> x i = x 1%N ^+ i \/ x (brev k.+1 i) = x (2 ^ k)%N ^+ i)
    & st.1.1.2 <-> reversed].
Proof.
move=> Hidx /=; set g := (X in foldl X).
suff H m : (m <= n)%N -> let st := foldl g (true, true, 1, 1) (iota 0 m) in
  [/\ st.1.1.1 <-> (forall i, (i < m)%N -> x i = x 1%N ^+ i \/ x (brev k.+1 i) = x (2 ^ k)%N ^+ i),
      st.1.1.2 <-> (forall i, (i < m)%N -> x (brev k.+1 i) = x (2 ^ k)%N ^+ i),
      st.1.2 = x 1%N ^+ m & st.2 = x (2 ^ k)%N ^+ m].
  by have [] := H n (leqnn n).
elim: m => [|m IH] Hm; first by split.
have /IH{IH} : (m <= n)%N by lia.
rewrite foldl_iotaR add0n; move: (foldl g _ _) => [[[ok dr] p1] p2] /= [H1 H2 -> ->].
rewrite Hidx //; split; [| |by rewrite exprSr|by rewrite exprSr].
- split=> [/andP[/H1 A B] i Hi|A].
    have [->|N] := eqVneq i m; first by case/orP: B => /eqP; [left|right].
    by apply: A; lia.
  apply/andP; split; first by apply/H1 => i Hi; apply: A; lia.
  by case: (A m (leqnn _)) => ->; rewrite eqxx ?orbT.
- case: eqP => B.
    split=> [/H2 A i Hi|A]; last by apply/H2=> i Hi; apply: A; lia.
    have [->|N] := eqVneq i m; first exact: B.
    by apply: A; lia.
  by split=> // A; case: B; apply: A.
Qed.

(** an accepted table is in direct or in bit-reversed order *)
Lemma accepted : (forall i, (i < n)%N -> x i = x 1%N ^+ i \/ x (brev k.+1 i) = x (2 ^ k)%N ^+ i) ->
  direct \/ reversed.
Proof.
have P0 : (0 < 2 ^ k)%N by rewrite expn_gt0.
have En : n = (2 * 2 ^ k)%N by rewrite /n expnS.
have n0 : (0 < n)%N by lia.
have Hh : (2 ^ k < n)%N by lia.
move=> A.
have x0 : x 0%N = 1 by have := A _ n0; rewrite brev0 !expr0; case.
have Bk : brev k.+1 (2 ^ k) = 1%N by rewrite -brev1 brevK.
have Sq (y : F) : y ^+ 2 = 1 -> y != 1 -> y = -1.
  by move=> /eqP; rewrite sqrf_eq1 => /orP[->//|/eqP].
have X1 i : (i < n)%N -> i != 0%N -> x i != 1.
  by move=> Hi N; apply/eqP; rewrite -x0 => /(Hinj Hi n0)/eqP; rewrite (negbTE N).
have := A _ Hh; rewrite Bk; case=> E; [left|right] => i Hi.
- (* x (2^k) = x 1 ^ (2^k) = -1 *)
  have M1 : x (2 ^ k)%N = -1.
    apply: Sq; last by apply: X1 => //; lia.
    by rewrite E -exprM mulnC -En Hroot.
  case: (A i Hi) => // E2.
  have [->|N0] := eqVneq i 0%N; first by rewrite x0.
  have [->//|N1] := eqVneq i 1%N.
  have Hb : (brev k.+1 i < n)%N by apply: brev_lt.
  have Nb0 : brev k.+1 i != 0%N.
    by apply/eqP=> E0; move/eqP: N0; apply; rewrite -[i](@brevK k.+1) // E0 brev0.
  have Nbh : brev k.+1 i != (2 ^ k)%N.
    by apply/eqP=> E0; move/eqP: N1; apply; rewrite -[i](@brevK k.+1) // E0 Bk.
  move: E2; rewrite M1 -signr_odd; case: (odd i); rewrite ?expr0 ?expr1 => E2.
    by rewrite -M1 in E2; rewrite (Hinj Hb Hh E2) eqxx in Nbh.
  by rewrite -x0 in E2; rewrite (Hinj Hb n0 E2) eqxx in Nb0.
- have M1 : x 1%N = -1.
    apply: Sq; last by apply: X1.
    by rewrite E -exprM mulnC -En Hroot.
  case: (A i Hi) => // E2.
  have [->|N0] := eqVneq i 0%N; first by rewrite brev0 x0.
  have [->|N1] := eqVneq i 1%N; first by rewrite brev1.
  move: E2; rewrite M1 -signr_odd; case: (odd i); rewrite ?expr0 ?expr1 => E2.
    by rewrite -M1 in E2; rewrite (Hinj Hi n2 E2) eqxx in N1.
  by rewrite -x0 in E2; rewrite (Hinj Hi n0 E2) eqxx in N0.
Qed.
End Table.
