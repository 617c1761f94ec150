(** Correctness of the Taylor shift and of add_LeftShift. *)
From mathcomp Require Import all_ssreflect all_algebra zify.
From Verif Require Import A_base A_mul_model N_poly_model N_ring.
Set Implicit Arguments.
Unset Strict Implicit.
Unset Printing Implicit Defensive.
Import GRing.Theory.
Local Open Scope ring_scope.

Lemma foldl_iotaR (T : Type) (f : T -> nat -> T) x a n :
  foldl f x (iota a n.+1) = f (foldl f x (iota a n)) (a + n)%N.
Proof. by rewrite -addn1 iotaD foldl_cat /= . Qed.

Lemma foldl_upd_rng (T : Type) (f : nat -> T) (p : nat -> T) a k i :
  foldl (fun p i => upd p i (f i)) p (iota a k) i = if (a <= i < a + k)%N then f i else p i.
Proof.
elim: k => [|k IH]; first by rewrite addn0; case: ifP => //; lia.
rewrite foldl_iotaR /upd; case: eqP => [->|NE].
  by have -> : (a <= a + k < a + k.+1)%N by lia.
rewrite IH; congr (if _ then _ else _); lia.
Qed.

Section DAC.
Variable F : fieldType.
Local Notation P := {poly F}.
Implicit Types (f p : P) (c : F).

Lemma Poly4 (a b c d : F) : Poly [:: a; b; c; d] = a%:P + 'X * (b%:P + 'X * (c%:P + 'X * d%:P)).
Proof.
rewrite /= !cons_poly_def mul0r add0r.
by rewrite ![_ * 'X]mulrC ![_ + _%:P]addrC.
Qed.

(** the polynomial with the four coefficients of f from i *)
Definition blk f (i : nat) : P := Poly [:: f`_i; f`_i.+1; f`_i.+2; f`_i.+3].

Lemma comp_blk c f i : blk f i \Po ('X + c%:P) =
  (f`_i)%:P + ('X + c%:P) * ((f`_i.+1)%:P + ('X + c%:P) * ((f`_i.+2)%:P + ('X + c%:P) * (f`_i.+3)%:P)).
Proof.
by rewrite /blk Poly4 !(comp_polyD, comp_polyM, comp_polyC, comp_polyX).
Qed.

Lemma dac_blockE c f i : dac_block c f i = blk f i \Po ('X + c%:P).
Proof.
rewrite comp_blk /dac_block Poly4 expr2 !(polyCD, polyCM) polyC1 [1 + (1 + 1)]addrA; exact: block_id.
Qed.
Lemma dac_last_blockE c f i : dac_last_block c f i = blk f i \Po ('X + c%:P).
Proof.
rewrite comp_blk /dac_last_block Poly4 expr2 !(polyCD, polyCM) polyC1 [1 + (1 + 1)]addrA.
exact: last_block_id.
Qed.

Lemma dac_initE c f j : dac_init c f j = blk f (4 * j) \Po ('X + c%:P).
Proof.
rewrite /dac_init.
have Z : (size f <= 4 * j)%N -> blk f (4 * j) = 0.
  move=> H; have Z l : (4 * j <= l)%N -> f`_l = 0 by move=> Hl; rewrite nth_default // (leq_trans H).
  by rewrite /blk Poly4 !Z ?polyC0 ?(mulr0, addr0) //; lia.
case: ifP => [C|/negbT C].
  rewrite /upd; case: eqP => [->|NE]; first by rewrite dac_last_blockE.
  rewrite foldl_upd_rng /= add0n; case: ifP => C2; first exact: dac_blockE.
  by rewrite Z ?comp_poly0 //; move: (size f) C NE C2 => sz; lia.
rewrite foldl_upd_rng /= add0n; case: ifP => C2; first exact: dac_blockE.
by rewrite Z ?comp_poly0 //; move: (size f) C C2 => sz; lia.
Qed.

Lemma blk_sum f n : (size f <= 4 * n)%N -> f = \sum_(j < n) blk f (4 * j) * 'X^(4 * j).
Proof.
move=> H; apply/polyP=> i; rewrite coef_sum.
have bE j l : (blk f j)`_l = if (l < 4)%N then f`_(j + l) else 0.
  rewrite /blk coef_Poly; case: l => [|[|[|[|l]]]] /=; rewrite ?addn0 ?addn1 ?addn2 ?addn3 //.
  by rewrite nth_nil.
case: (ltnP (i %/ 4) n) => Hi.
  rewrite (bigD1 (Ordinal Hi)) //= coefMXn.
  rewrite ltnNge (_ : (4 * (i %/ 4) <= i)%N) /=; last by lia.
  rewrite bE ifT; last by lia.
  rewrite subnKC; last by lia.
  rewrite big1 ?addr0 // => j; rewrite -val_eqE /= => Nj.
  by rewrite coefMXn bE; case: ltnP => // C; case: ltnP => // C2; lia.
rewrite nth_default; last by apply: leq_trans H _; lia.
rewrite big1 // => j _; have Hj := ltn_ord j; rewrite coefMXn bE.
by case: ltnP => // C; case: ltnP => // C2; lia.
Qed.

(** one pass of the loop *)
Lemma dac_passE p (v : nat -> P) len i : (1 < len)%N -> (i < uphalf len)%N ->
  dac_pass p v len i = if ((2 * i).+1 < len)%N then v (2 * i)%N + p * v (2 * i).+1 else v (2 * i)%N.
Proof.
move=> Hl Hi; rewrite /dac_pass.
set v1 := upd (upd v _ _) 0%N _; set step := (fun (v : nat -> P) i => _).
have v1o j : (1 < j)%N -> v1 j = v j.
  by move=> Hj; rewrite /v1 /upd; do 2 (case: eqP => [|_]; first by lia).
have v10 : v1 0%N = v 0%N + p * v 1%N by rewrite /v1 /upd /= mulrC.
have INV n : (n <= len %/ 2 - 1)%N -> forall j, foldl step v1 (iota 1 n) j =
    if (0 < j <= n)%N then v (2 * j)%N + p * v (2 * j).+1 else v1 j.
  elim: n => [|n IH] Hn j; first by case: ifP => //; lia.
  rewrite foldl_iotaR; set w := foldl _ _ _ in IH *.
  have [w1 w2] : w (2 * (1 + n))%N = v (2 * (1 + n))%N /\ w (2 * (1 + n)).+1 = v (2 * (1 + n)).+1.
    have Hn' := ltnW Hn.
    by split; rewrite IH // ifF ?v1o //; lia.
  rewrite /step /upd; case: (j =P (1 + n)%N) => [->|NE].
    by rewrite eqxx ifF ?w1 ?w2 ?ifT // ?[p * _ + _]addrC //; lia.
  by rewrite IH; [congr (if _ then _ else _); lia|lia].
set w := foldl step v1 _.
have wE j : w j = if (0 < j <= len %/ 2 - 1)%N then v (2 * j)%N + p * v (2 * j).+1 else v1 j by exact: INV.
case: ifP => Ho.
  rewrite /upd; case: eqP => [Ei|NE].
    rewrite ifF; last by lia.
    rewrite wE ifF; last by lia.
    by rewrite v1o -?Ei //; lia.
  rewrite ifT; last by lia.
  rewrite wE; case: (posnP i) => [->|Hi0]; first by rewrite muln0 v10.
  by rewrite ifT //; lia.
rewrite ifT; last by lia.
rewrite wE; case: (posnP i) => [->|Hi0]; first by rewrite muln0 v10.
by rewrite ifT //; lia.
Qed.

Lemma sum_pairs2 (g : nat -> P) k : \sum_(j < k.*2) g j = \sum_(i < k) (g (2 * i)%N + g (2 * i).+1).
Proof.
elim: k => [|k IH]; first by rewrite !big_ord0.
by rewrite doubleS !big_ord_recr /= IH addrA mul2n.
Qed.

Lemma sum_pairs (g : nat -> P) len : \sum_(j < len) g j =
  \sum_(i < uphalf len) (if ((2 * i).+1 < len)%N then g (2 * i)%N + g (2 * i).+1 else g (2 * i)%N).
Proof.
have [b [k ->]] : exists b k, len = (nat_of_bool b + k.*2)%N by exists (odd len), len./2; rewrite odd_double_half.
have -> : uphalf (b + k.*2) = (b + k)%N by case: b; lia.
case: b => /=.
  rewrite !add1n !big_ord_recr /= sum_pairs2 ifF; last by lia.
  congr (_ + _); last by rewrite mul2n.
  by apply: eq_bigr => i _; rewrite ifT //; have := ltn_ord i; lia.
rewrite !add0n sum_pairs2; apply: eq_bigr => i _; rewrite ifT //; have := ltn_ord i; lia.
Qed.

Lemma dac_pass_sum p (v : nat -> P) len : (1 < len)%N ->
  \sum_(i < uphalf len) dac_pass p v len i * (p ^+ 2) ^+ i = \sum_(j < len) v j * p ^+ j.
Proof.
move=> Hl; rewrite (sum_pairs (fun j => v j * p ^+ j)); apply: eq_bigr => i _.
rewrite dac_passE // -exprM; case: ifP => // _.
by rewrite mulrDl exprS mulrA [v _ * p]mulrC.
Qed.

Definition sqrs := fix sqrs (n : nat) (p : P) : seq P := if n is n'.+1 then p :: sqrs n' (p ^+ 2) else [::].

Lemma dac_loopP n p (v : nat -> P) len : (0 < len <= 2 ^ n)%N ->
  dac_loop (sqrs n p) v len = AOk (\sum_(j < len) v j * p ^+ j).
Proof.
elim: n p v len => [|n IH] p v len /=.
  rewrite expn0 => H; have -> : len = 1%N by lia.
  by rewrite big_ord1 mulr1.
move=> H; case: ifP => C; last first.
  have -> : len = 1%N by lia.
  by rewrite big_ord1 mulr1.
by rewrite IH ?dac_pass_sum //; rewrite expnS in H; lia.
Qed.

Lemma dac_len d : let len := (if (d.+1 %% 4)%N != 0%N then (1 + d.+1 %/ 4)%N else (d.+1 %/ 4)%N) in
  [/\ (0 < len)%N, (d.+1 <= 4 * len)%N & (len <= 2 ^ maxn 1 (num_bits d - 2))%N].
Proof.
move=> len; have Hl : (4 * len <= d + 4)%N /\ (d < 4 * len)%N by rewrite /len; case: ifP; lia.
split; try lia.
rewrite /num_bits; case: (leqP d 1) => [D|D].
  apply: (@leq_trans (2 ^ 1)); [by lia|by rewrite leq_exp2l // leq_maxl].
have : (d.+1 <= 2 ^ up_log 2 d.+1)%N by apply: up_logP.
set u := up_log 2 d.+1 => Hu.
have [U|U] := leqP u 3.
  have : (2 ^ u <= 2 ^ 3)%N by rewrite leq_exp2l.
  by move=> U8; apply: (@leq_trans (2 ^ 1)); [lia|rewrite leq_exp2l // leq_maxl].
apply: (@leq_trans (2 ^ (u - 2))); last by rewrite leq_exp2l // leq_maxr.
have E : (2 ^ u = 4 * 2 ^ (u - 2))%N by rewrite -[4%N]/(2 ^ 2)%N -expnD; congr (2 ^ _)%N; lia.
lia.
Qed.

Lemma dac_shiftP d1 c f : (0 < d1)%N -> (size f <= d1)%N -> dac_shift d1 c f = AOk (f \Po ('X + c%:P)).
Proof.
case: d1 => // d _ Sf; rewrite /dac_shift /= ltnNge Sf /=.
have [L0 L1 L2] := dac_len d.
rewrite -/sqrs [dac_precomp _ _]/(sqrs (maxn 1 (num_bits d - 2)) ((('X + c%:P) ^+ 2) ^+ 2)) dac_loopP; last by rewrite L0.
move: L0 L1 L2; set len := (if _ then _ else _) => L0 L1 L2.
congr AOk; rewrite {2}(@blk_sum f len (leq_trans Sf L1)) rmorph_sum /=.
apply: eq_bigr => j _; rewrite dac_initE rmorphM /= rmorphX /= comp_polyX -exprM -exprM.
by congr (_ * _ ^+ _); lia.
Qed.
End DAC.

Section LC.
Variable F : fieldType.
Local Notation P := {poly F}.
Implicit Types (f p : P) (c : F).

Lemma coef_XaddC c n l : (('X + c%:P) ^+ n)`_l = c ^+ (n - l) *+ 'C(n, l).
Proof.
rewrite exprDn coef_sum; case: (leqP l n) => Hl; last first.
  rewrite bin_small // mulr0n big1 // => i _.
  rewrite coefMn -polyC_exp coefMC coefXn (_ : (l == _) = false) ?mul0r ?mul0rn //; lia.
have Hi : (n - l < n.+1)%N by lia.
rewrite (bigD1 (Ordinal Hi)) //= big1 ?addr0 => [|i]; last first.
  rewrite -val_eqE /= => Ni; have := ltn_ord i => Li.
  by rewrite coefMn -polyC_exp coefMC coefXn (_ : (l == _) = false) ?mul0r ?mul0rn //; lia.
by rewrite coefMn -polyC_exp coefMC coefXn subKn // eqxx mul1r bin_sub.
Qed.

Lemma coef_shift c f l n : (size f <= n)%N ->
  (f \Po ('X + c%:P))`_l = \sum_(i < n) f`_i * (c ^+ (i - l) *+ 'C(i, l)).
Proof.
move=> Hn; rewrite comp_polyE coef_sum.
rewrite (big_ord_widen n (fun i => (f`_i *: ('X + c%:P) ^+ i)`_l)) // [RHS](bigID (fun i : 'I_n => (i < size f)%N)) /=.
rewrite [X in _ = _ + X]big1 ?addr0 => [|i]; last by rewrite -leqNgt => Hi; rewrite nth_default ?mul0r.
by apply: eq_bigr => i _; rewrite coefZ coef_XaddC.
Qed.

Definition facts d1 : nat -> F :=
  foldl (fun t i => upd t i (i%:R * t i.-1)) (upd (fun _ => 0) 0%N 1) (iota 1 d1.-1).
Lemma facts_E d1 i : (0 < d1)%N -> (i < d1)%N -> facts d1 i = (i`!)%:R.
Proof.
case: d1 => // d _; rewrite ltnS /facts /=.
elim: d i => [|d IH] i Hi; first by have -> : i = 0%N by [lia]; rewrite /upd.
rewrite foldl_iotaR add1n {1}/upd; case: eqP => [->|NE]; last by apply: IH; lia.
by rewrite /= IH // factS natrM.
Qed.
Definition pows c d1 : nat -> F :=
  foldl (fun v i => upd v i (c * v i.-1)) (upd (fun _ => 0) 0%N 1) (iota 1 d1.-1).
Lemma pows_E c d1 i : (0 < d1)%N -> (i < d1)%N -> pows c d1 i = c ^+ i.
Proof.
case: d1 => // d _; rewrite ltnS /pows /=.
elim: d i => [|d IH] i Hi; first by have -> : i = 0%N by [lia]; rewrite /upd.
rewrite foldl_iotaR add1n {1}/upd; case: eqP => [->|NE]; last by apply: IH; lia.
by rewrite /= IH // exprS.
Qed.

Lemma fact_neq0 d i : (d`!%:R : F) != 0 -> (i <= d)%N -> (i`!%:R : F) != 0.
Proof.
move=> H Hi; apply: contraNneq H => E.
by rewrite -(bin_fact Hi) natrM natrM E mul0r mulr0.
Qed.

Lemma foldl_rev (g : nat -> F) (u : nat -> F) d a k j : (a + k <= d.+1)%N -> (j <= d)%N ->
  foldl (fun u i => upd u (d - i)%N (g i)) u (iota a k) j = if (a <= d - j < a + k)%N then g (d - j)%N else u j.
Proof.
elim: k => [|k IH] Hk Hj; first by rewrite addn0; case: ifP => //; lia.
rewrite foldl_iotaR {1}/upd; case: eqP => [E|NE].
  have -> : (d - j = a + k)%N by lia.
  by rewrite ifT //; lia.
rewrite IH //; last by lia.
congr (if _ then _ else _); lia.
Qed.

Lemma lc_shiftP d c f : (d`!%:R : F) != 0 -> (size f <= d.+1)%N ->
  exists fact ifact v, lc_init d.+1 c = AOk (fact, ifact, v) /\
    lc_shift d.+1 fact ifact v f = AOk (f \Po ('X + c%:P)).
Proof.
move=> Hd Sf; rewrite /lc_init /= -/(facts d.+1) -/(pows c d.+1).
have fE i : (i <= d)%N -> facts d.+1 i = i`!%:R by move=> Hi; rewrite facts_E.
have pE i : (i <= d)%N -> pows c d.+1 i = c ^+ i by move=> Hi; rewrite pows_E.
have fn0 i : (i <= d)%N -> (i`!%:R : F) != 0 by exact: fact_neq0.
rewrite ifF; last first.
  have : ~~ has (fun i => facts d.+1 i == 0) (iota 0 d.+1).
    by apply/hasPn=> i; rewrite mem_iota add0n => /= Hi; rewrite fE ?fn0.
  by move/negbTE.
do 3 eexists; split; first by [].
rewrite /lc_shift /= ltnNge Sf /=.
set u := foldl _ _ (iota 0 (size f)).
have uE j : (j <= d)%N -> u j = f`_(d - j) * ((d - j)`!)%:R.
  move=> Hj; rewrite /u (@foldl_rev (fun i => f`_i * facts d.+1 i)) // add0n leq0n /=.
  case: ltnP => C; first by rewrite fE //; lia.
  by rewrite nth_default ?mul0r.
set w := ptrunc _ _.
have Sw : (size w <= d.+1)%N by exact: size_poly.
congr AOk; apply/polyP=> l; rewrite coef_poly; case: ltnP => Hl; last first.
  rewrite (coef_shift c l Sf) big1 // => i _.
  by rewrite bin_small ?mulr0n ?mulr0 //; have := ltn_ord i; lia.
have -> : foldl (fun g i => upd g (d - i)%N 0)
    (foldl (fun g i => upd g (d - i)%N (w`_i * (facts d.+1 (d - i))^-1)) (fun _ => 0) (iota 0 (size w)))
      (iota (size w) (d.+1 - size w)) l = w`_(d - l) * (l`!%:R)^-1.
  rewrite (@foldl_rev (fun _ => 0)) //; last by move: (size w) Sw => sw; lia.
  case: ifP => C; first by rewrite nth_default ?mul0r //; case/andP: C.
  rewrite (@foldl_rev (fun i => w`_i * (facts d.+1 (d - i))^-1)) ?add0n // subKn // fE // leq0n /= ifT //.
  by move: (size w) Sw C => sw; lia.
rewrite (coef_shift c l Sf) /w coef_poly ifT; last by lia.
rewrite mulrC coefM mulr_sumr.
rewrite [RHS](bigID (fun i : 'I_d.+1 => (i < l)%N)) /= [X in _ = X + _]big1 ?add0r => [|i Hi]; last first.
  by rewrite bin_small ?mulr0n ?mulr0.
have T (j : nat) : (j < (d - l).+1)%N ->
  (l`!%:R)^-1 * ((\poly_(i < d.+1) u i)`_j * (\poly_(i < d.+1) (pows c d.+1 i * (facts d.+1 i)^-1))`_(d - l - j)) =
  f`_(d - j) * (c ^+ (d - j - l) *+ 'C(d - j, l)).
  move=> Hj; rewrite !coef_poly !ifT; try lia.
  rewrite uE ?pE ?fE; try lia.
  have L : (l <= d - j)%N by lia.
  rewrite -(bin_fact L) !natrM ?mul1r -[c ^+ _ *+ _]mulr_natr (_ : (d - l - j = d - j - l)%N); last by lia.
  set A := f`__; set B := 'C(_, _)%:R; set G := c ^+ _; set H := ((d - j - l)`!)%:R; set K := (l`!)%:R.
  have K0 : K != 0 by apply: fn0; lia.
  have H0 : H != 0 by apply: fn0; lia.
  rewrite (_ : K^-1 * (A * (B * (K * H)) * (G * H^-1)) = A * (G * B) * (K^-1 * K) * (H * H^-1)).
    by rewrite mulVf // mulfV // !mulr1.
  move: (K^-1) (H^-1) => K' H'; exact: lc_id.
rewrite (eq_bigr (fun j : 'I_(d - l).+1 => f`_(d - j) * (c ^+ (d - j - l) *+ 'C(d - j, l)))); last by move=> j _; apply: T.
rewrite -(big_mkord (fun i => ~~ (i < l)%N) (fun i => f`_i * (c ^+ (i - l) *+ 'C(i, l)))).
rewrite -(big_mkord xpredT (fun j => f`_(d - j) * (c ^+ (d - j - l) *+ 'C(d - j, l)))).
rewrite (@big_cat_nat _ _ _ l 0 d.+1) //=; last by lia.
rewrite [X in _ = X + _]big_nat_cond [X in _ = X + _]big_pred0 ?add0r => [|i]; last by lia.
rewrite [RHS]big_nat_cond [RHS](eq_bigl (fun i => (l <= i < d.+1)%N)); last by move=> i; lia.
rewrite -big_nat -[l in RHS]add0n [RHS]big_addn [RHS]big_nat_rev subSn //=.
rewrite big_nat [RHS]big_nat; apply: eq_bigr => i Hi.
by congr (f`__ * (c ^+ _ *+ 'C(_, _))); lia.
Qed.

Lemma prod_from3 n : foldl (fun (p : F) i => p * i%:R) 2%:R (iota 3 n) = ((n + 2)`!)%:R.
Proof.
elim: n => [|n IH]; first by rewrite add0n.
have E1 : (3 + n = (n + 2).+1)%N by lia.
have E2 : (n.+1 + 2 = (n + 2).+1)%N by lia.
by rewrite foldl_iotaR IH -natrM E1 E2 factS [in RHS]mulnC.
Qed.

Lemma get_shiftP d1 c : (0 < d1)%N ->
  exists s, get_shift d1 c = AOk s /\
    forall f, (size f <= d1)%N -> s f = AOk (f \Po ('X + c%:P)).
Proof.
case: d1 => // d _; rewrite /get_shift prod_from3.
case: ifP => [H|_]; last by exists (dac_shift d.+1 c); split=> // f; apply: dac_shiftP.
have Hd : (d`!%:R : F) != 0 by apply: fact_neq0 H _; lia.
have [fact [ifact [v [E _]]]] := @lc_shiftP d c 0 Hd ltac:(by rewrite size_poly0).
rewrite E; eexists; split; first by [].
move=> f Sf; have [fact' [ifact' [v' [E' <-]]]] := lc_shiftP c Hd Sf.
by move: E'; rewrite E => -[-> -> ->].
Qed.
End LC.

Section AddLeftShift.
Variable F : fieldType.
Local Notation P := {poly F}.

Lemma foldl_cells (h : nat -> F -> F) (c : nat -> F) a k i :
  foldl (fun (c : nat -> F) i => upd c i (h i (c i))) c (iota a k) i = if (a <= i < a + k)%N then h i (c i) else c i.
Proof.
elim: k i => [|k IH] i; first by rewrite addn0; case: ifP => //; lia.
rewrite foldl_iotaR /upd; case: eqP => [->|NE].
  by rewrite IH ifF ?ifT //; lia.
rewrite IH; congr (if _ then _ else _); lia.
Qed.

Lemma als_seq (s : seq F) (p : P) : (forall i, nth 0 s i = p`_i) -> (size s = 0%N \/ nth 0 s (size s).-1 != 0) -> s = p :> seq F.
Proof.
move=> H L; have E : Poly s = p by apply/polyP=> i; rewrite coef_Poly.
rewrite -E (PolyK (c := 1)) //; case: L => [/size0nil->|]; first by rewrite /= oner_eq0.
by rewrite nth_last; case: s {H E} => [|x s]; rewrite /= ?eqxx.
Qed.

Lemma add_left_shiftP al garb (a b : P) k : al <> AliasB -> b != 0 \/ (k <= size a)%N ->
  add_left_shift al garb a b k = (a + 'X^k * b)%R :> seq F.
Proof.
move=> NB Hb; rewrite /add_left_shift.
set sa := size a; set sb := (size b + k)%N.
have aZ i : (sa <= i)%N -> a`_i = 0 by move=> H; rewrite nth_default.
have bZ i : (sb <= i)%N -> b`_(i - k) = 0 by rewrite /sb => H; rewrite nth_default //; move: (size b) H => u; lia.
have pE i : (a + 'X^k * b)`_i = a`_i + (if (i < k)%N then 0 else b`_(i - k)) by rewrite coefD coefXnM.
have mxc (c : nat -> F) i : (forall i, (i < maxn sa sb)%N -> c i = (a + 'X^k * b)`_i) -> nth 0 (mkseq c (maxn sa sb)) i = (a + 'X^k * b)`_i.
  move=> H; case: (ltnP i (maxn sa sb)) => Hi; first by rewrite nth_mkseq ?H.
  rewrite nth_default ?size_mkseq // pE aZ ?bZ ?if_same ?addr0 //; lia.
have top : sa != sb -> (0 < maxn sa sb)%N /\ (a + 'X^k * b)`_(maxn sa sb).-1 != 0.
  move=> N; split; first by lia.
  case: (ltnP sa sb) => C.
    have b0 : b != 0 by case: Hb => // Hk; apply/eqP=> b0; move: C; rewrite /sb b0 size_poly0 /sa; move: (size a) Hk => u; lia.
    have sb0 : (0 < size b)%N by rewrite size_poly_gt0.
    rewrite pE aZ; last by lia.
    rewrite add0r ifF; last by rewrite /sb; move: (size b) sb0 => u; lia.
    rewrite (_ : (sb.-1 - k)%N = (size b).-1); last by rewrite /sb; move: (size b) sb0 => u; lia.
    by rewrite -lead_coefE lead_coef_eq0.
  have C' : (sb < sa)%N by lia.
  rewrite pE bZ ?if_same ?addr0; last by lia.
  by rewrite -lead_coefE lead_coef_eq0 -size_poly_gt0; lia.
have fin (c : nat -> F) : sa != sb -> (forall i, (i < maxn sa sb)%N -> c i = (a + 'X^k * b)`_i) -> mkseq c (maxn sa sb) = (a + 'X^k * b) :> seq F.
  move=> N H; apply: als_seq => [i|]; first exact: mxc.
  have [T0 T1] := top N; right; rewrite size_mkseq mxc //.
have finP (c : nat -> F) : (forall i, (i < maxn sa sb)%N -> c i = (a + 'X^k * b)`_i) -> Poly (mkseq c (maxn sa sb)) = (a + 'X^k * b) :> seq F.
  by move=> H; congr polyseq; apply/polyP=> i; rewrite coef_Poly mxc.
have sbk : (k <= sb)%N by rewrite /sb; exact: leq_addl.
case: al NB => [_|_|//].
- set c2 := foldl _ _ (iota (minn sa k) _).
  have c2E i : (i < k)%N -> c2 i = a`_i.
    move=> Hi; rewrite /c2 foldl_upd_rng; case: ifP => C; first by rewrite aZ //; lia.
    by rewrite foldl_upd_rng ifT //; lia.
  set c3 := foldl _ c2 _.
  have c3E i : (i < maxn k (minn sa sb))%N -> c3 i = (a + 'X^k * b)`_i.
    move=> Hi; rewrite /c3 foldl_upd_rng pE; case: ifP => C; first by rewrite ifF //; lia.
    rewrite ifT ?addr0; last by lia.
    by apply: c2E; lia.
  rewrite andbT; case: ifP => C.
    apply: fin => [|i Hi]; first by lia.
    rewrite foldl_upd_rng; case: ifP => C2; last by apply: c3E; lia.
    by rewrite pE bZ ?if_same ?addr0 //; lia.
  case: ifP => C2.
    apply: fin => [|i Hi]; first by lia.
    rewrite foldl_upd_rng; case: ifP => C3; last by apply: c3E; lia.
    by rewrite pE aZ ?add0r ?ifF //; lia.
  by apply: finP => i Hi; apply: c3E; lia.
rewrite andbF.
set c1 : nat -> F := fun i => if (i < sa)%N then a`_i else garb i.
set c2 := foldl _ _ (iota (minn sa k) _).
have c2E i : (i < maxn k sa)%N -> c2 i = a`_i.
  move=> Hi; rewrite /c2 foldl_upd_rng; case: ifP => C; first by rewrite aZ //; lia.
  by rewrite /c1 ifT //; lia.
set c3 := foldl _ c2 _.
have c3E i : (i < maxn k sa)%N -> c3 i = (a + 'X^k * b)`_i.
  move=> Hi; rewrite /c3 (foldl_cells (fun i x => x + b`_(i - k))) pE.
  case: ifP => C; first by rewrite c2E // ifF //; lia.
  rewrite c2E //; case: ltnP => C2; first by rewrite addr0.
  by rewrite bZ ?addr0 //; lia.
case: ifP => C2.
  apply: fin => [|i Hi]; first by lia.
  rewrite foldl_upd_rng; case: ifP => C3; last by apply: c3E; lia.
  by rewrite pE aZ ?add0r ?ifF //; lia.
by apply: finP => i Hi; apply: c3E; lia.
Qed.
End AddLeftShift.
