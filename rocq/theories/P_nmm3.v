(** Property C70: products of matrices of polynomials modulo any p by at most three FFT primes (ntl-extras). *)
From mathcomp Require Import all_ssreflect all_fingroup all_algebra all_field zify.
From Verif Require Import A_base N_poly_model N_pmat_model N_trs_proof N_mmfft_model P_ntrs P_nmmfft N_mm3_model N_mm3_proof N_mm3_crt.
Set Implicit Arguments.
Unset Strict Implicit.
Unset Printing Implicit Defensive.
Import GRing.Theory.

Implicit Types a b c : zmat.

(** The vector of coefficients of a polynomial modulo p: reduced coefficients, and the last one is not zero *)
Definition is_zzpX (p : nat) (s : seq nat) : Prop := (forall k, nth 0 s k < p) /\ last 1 s <> 0.
Definition is_zzpX_mat (p : nat) a : Prop := forall i j, i < znr a -> j < znc a -> is_zzpX p (zent a i j).
(** The coefficient of X^k of the entry (i, j) of the product, over the integers *)
Definition int_prod a b (i j k : nat) : nat :=
  \sum_(l < znc a) \sum_(e < k.+1) nth 0 (zent a i l) e * nth 0 (zent b l j) (k - e).
(** The result is the product modulo p *)
Definition zproduct_of (p : nat) a b (res : option (aoutcome zmat)) : Prop :=
  exists c, [/\ res = Some (AOk c), znr c = znr a, znc c = znc b & forall i j, i < znr a -> j < znc b ->
    is_zzpX p (zent c i j) /\ forall k, nth 0 (zent c i j) k = int_prod a b i j k %% p].
Definition nonzero a : Prop := exists i j, [/\ i < znr a, j < znc a & zent a i j <> [::]].

Section C70.
Variables (wbits spbits : nat) (ru : nat -> nat -> nat).
Variables (q : nat -> nat) (nbits maxroot : nat -> nat) (x : forall i, nat -> nat -> 'F_(q i)).
Hypothesis Hru : round_up_ok ru.
Hypothesis Hw : spbits < wbits.
Hypothesis Hq : forall i, i < 3 -> prime (q i) /\ q i < 2 ^ spbits.

Local Notation mul_p p a b i := (@multiply_modulo_fft_prime wbits spbits ru q nbits maxroot x p a b i).
Local Notation mul3 p a b := (@multiply_3_primes wbits spbits ru q nbits maxroot x p a b).

(** a is zero modulo q exactly when it is zero: this is used for primes of less than 25 bits only *)
Lemma nonzero_field (p r : nat) a : prime r -> p <= r -> is_zzpX_mat p a -> nonzero a -> ~ zero_mat (to_field r a).
Proof.
move=> pr Hle Ha [i [j [Hi Hj N]]] /(_ i j Hi Hj) /polyP /(_ (size (zent a i j)).-1).
rewrite to_field_coef coef0; have [H1 H2] := Ha i j Hi Hj; move: N H2 (H1 (size (zent a i j)).-1).
case: (zent a i j) => // c s _; rewrite (last_nth 0) -[nth _ _ _ = 0]/(nth 0 (c :: s) (size s) = 0) [size _]/= [X in nth _ _ X < _]/=.
move: (nth 0 (c :: s) (size s)) => z Hz Hp /(congr1 val) E; apply: Hz.
have V := val_Fp_nat pr z; rewrite modn_small ?(leq_trans Hp) // in V; exact: etrans (esym V) E.
Qed.

Definition fft_ready (idx k : nat) : Prop := forall k', k' <= k -> fft_available true (maxroot idx) (@x idx) k'.

(** one prime, for reduced operands *)
Lemma eval_fftE idx a b : idx < 3 -> znc a = znr b -> 0 < znr a -> 0 < znc a -> 0 < znc b ->
  fft_ready idx (next_pow2 (zlen a + zlen b - 1)) ->
  24 < nbits idx \/ (~ zero_mat (to_field (q idx) a) /\ ~ zero_mat (to_field (q idx) b)) ->
  (znr a == 1) || (1 < znc a) || (znc b == 1) || (16 < znc b) ->
  exists c, [/\ eval_fft wbits spbits ru nbits maxroot x idx a b = AOk c, znr c = znr a, znc c = znc b &
    forall i j, i < znr a -> j < znc b -> forall k, nth 0 (zent c i j) k = int_prod a b i j k %% q idx].
Proof.
move=> Hi E m0 n0 p0 Hr Hz H3; have [pq bq] := Hq Hi.
have [|||c [Ec [R1 R2 He]]] := @C69_fft _ wbits spbits (q idx) (fun z : 'F_(q idx) => val z) (nbits idx) true (maxroot idx) (@x idx) ru Hru
  (to_field (q idx) a) (to_field (q idx) b) Hw bq _ _ E m0 n0 p0 _ Hz H3.
- exact: char_Fp.
- move=> z; split; last by rewrite natr_Zp.
  by apply: leq_trans (ltn_ord z) _; rewrite (Fp_cast pq).
- apply: Hr; apply: leq_up_log; apply: leq_sub2r; apply: leq_add; exact: to_field_plen.
rewrite /eval_fft Ec; eexists; split=> // i j Hi' Hj k.
rewrite from_field_coef He // coef_sum.
have -> : (\sum_(l < nc (to_field (q idx) a)) (ent (to_field (q idx) a) i l * ent (to_field (q idx) b) l j)`_k)%R = ((int_prod a b i j k)%:R : 'F_(q idx))%R.
  rewrite /int_prod natr_sum; apply: eq_bigr => l _; rewrite coefM natr_sum; apply: eq_bigr => e _.
  by rewrite !to_field_coef natrM.
exact: val_Fp_nat.
Qed.

Lemma count_below n m : \sum_(e < n) (e < m) <= m.
Proof.
suff -> : \sum_(e < n) (e < m) = minn n m by exact: geq_minr.
elim: n => [|n IH]; first by rewrite big_ord0 min0n.
by rewrite big_ord_recr IH /=; lia.
Qed.

Lemma conv_bound p la (s t : seq nat) k : (forall k, nth 0 s k < p) -> (forall k, nth 0 t k < p) -> size s <= la ->
  \sum_(e < k.+1) nth 0 s e * nth 0 t (k - e) <= la * (p - 1) * (p - 1).
Proof.
move=> Hs Ht Hl; apply: (@leq_trans (\sum_(e < k.+1) (e < la) * ((p - 1) * (p - 1)))).
  apply: leq_sum => e _; case: ltnP => C; last by rewrite nth_default //; apply: leq_trans C.
  by rewrite mul1n; apply: leq_mul; [have := Hs e|have := Ht (k - e)]; lia.
by rewrite -big_distrl /= -mulnA leq_mul2r count_below orbT.
Qed.

Lemma int_prod_bound p a b i j k : is_zzpX_mat p a -> is_zzpX_mat p b -> znc a = znr b -> i < znr a -> j < znc b ->
  int_prod a b i j k <= znc a * minn (zlen a) (zlen b) * (p - 1) * (p - 1).
Proof.
move=> Ha Hb E Hi Hj; rewrite /int_prod.
apply: (@leq_trans (\sum_(l < znc a) minn (zlen a) (zlen b) * (p - 1) * (p - 1))); last first.
  by rewrite big_const_ord iter_addn_0 mulnC !mulnA.
apply: leq_sum => l _; have Hl := ltn_ord l; have Hl' : l < znr b by rewrite -E.
have [A1 _] := Ha i l Hi Hl; have [B1 _] := Hb l j Hl' Hj.
rewrite minnE; case: (leqP (zlen a) (zlen b)) => C.
  by rewrite (eqP C) subn0; apply: conv_bound => //; apply: zlen_size.
rewrite subKn; last exact: ltnW.
rewrite (reindex_inj rev_ord_inj) /=.
apply: leq_trans (_ : \sum_(e < k.+1) nth 0 (zent b l j) e * nth 0 (zent a i l) (k - e) <= _).
  by apply: eq_leq; apply: eq_bigr => e _; rewrite subSS subKn; [rewrite mulnC|rewrite -ltnS].
by apply: conv_bound => //; apply: zlen_size.
Qed.

Lemma reduce_zlen p a : zlen (reduce_mod_p p a) <= zlen a.
Proof.
apply/zlenP=> i j Hi Hj; apply: leq_trans (@zlen_size a i j Hi Hj); rewrite /= /reduce_entry.
set t := foldl _ _ _; apply: (@leq_trans (size t)).
  by elim: (t) => //= c u IH; case: ifP => //= _; rewrite ltnS.
by have [|_ ->] := @set_loop (fun k => nth 0 (zent a i j) k %% p) (nseq (size (zent a i j)) 0) 0 (size (zent a i j)) 0; rewrite size_nseq.
Qed.

Section Mult.
Variables (p : nat) (a b : zmat).
Hypothesis pp : 1 < p.
Hypothesis E : znc a = znr b.
Hypothesis dims : [/\ 0 < znr a, 0 < znc a & 0 < znc b].
Hypothesis Ha : is_zzpX_mat p a.
Hypothesis Hb : is_zzpX_mat p b.
Hypothesis Hfft : forall idx, idx < 3 -> fft_ready idx (next_pow2 (zlen a + zlen b - 1)).
Hypothesis Hbits : forall idx, idx < 3 -> 24 < nbits idx \/ [/\ p <= q idx, nonzero a & nonzero b].
Hypothesis H3 : (znr a == 1) || (1 < znc a) || (znc b == 1) || (16 < znc b).

Lemma mul_pE idx : idx < 3 -> exists c, [/\ mul_p p a b idx = AOk c, znr c = znr a, znc c = znc b &
  forall i j, i < znr a -> j < znc b -> forall k, nth 0 (zent c i j) k = int_prod a b i j k %% q idx].
Proof.
case: dims => m0 n0 p0 Hi; have [pq _] := Hq Hi; rewrite /multiply_modulo_fft_prime; case: ltnP => C; last first.
  apply: eval_fftE => //; first exact: Hfft.
  by case: (Hbits Hi) => [|[Hle Na Nb]]; [left|right; split; apply: nonzero_field Hle _ _].
have [||c [Ec R1 R2 He]] := @eval_fftE idx (reduce_mod_p (q idx) a) (reduce_mod_p (q idx) b) Hi E m0 n0 p0 _ _ H3.
- move=> k' Hk; apply: Hfft => //; apply: leq_trans Hk _; apply: leq_up_log; apply: leq_sub2r.
  by apply: leq_add; apply: reduce_zlen.
- by case: (Hbits Hi) => [|[]]; [left|rewrite leqNgt C].
exists c; split=> // i j Hi' Hj k; rewrite He //.
rewrite /int_prod -[LHS]modn_summ -[RHS]modn_summ; congr (_ %% _); apply: eq_bigr => l _.
rewrite -[LHS]modn_summ -[RHS]modn_summ; congr (_ %% _); apply: eq_bigr => e _.
by rewrite !reduceE modnMm.
Qed.

Theorem C70_multiply_3_primes : uniq [:: q 0; q 1; q 2] ->
  2 * (znc a * minn (zlen a) (zlen b) * (p - 1) * (p - 1)) < q 0 * q 1 * q 2 -> zproduct_of p a b (mul3 p a b).
Proof.
move=> U Hm; rewrite /multiply_3_primes.
have [nb Enb] : exists nb, nb_primes p (znc a) (zlen a) (zlen b) (q 0) (q 1) (q 2) = Some nb.
  by rewrite /nb_primes Hm; do 2! [case: ifP => _; first by eexists]; eexists.
have [n3 Hnb] := nb_primesE pp Enb; rewrite Enb.
have Hq' i : i < 3 -> prime (q i) by case/Hq.
have [|c [Ec R1 R2 H]] := three_primesE pp Hq' U mul_pE n3.
  move=> i j k Hi Hj; apply: (leq_ltn_trans (int_prod_bound k Ha Hb E Hi Hj)); apply: leq_trans Hnb _.
  by apply: eq_leq; apply: eq_bigr => l _; case: l => -[|[|[|l]]] //= Hl; move: n3; lia.
exists c; split=> // i j Hi Hj; have [N He] := H i j Hi Hj; split=> //; split; last exact/eqP.
by move=> k; rewrite He ltn_mod (ltnW pp).
Qed.
End Mult.

(** the other sizes are rejected *)
Theorem C70_too_large p a b :
  q 0 <= znc a * minn (zlen a) (zlen b) * (p - 1) * (p - 1) ->
  q 0 * q 1 <= 2 * (znc a * minn (zlen a) (zlen b) * (p - 1) * (p - 1)) ->
  q 0 * q 1 * q 2 <= 2 * (znc a * minn (zlen a) (zlen b) * (p - 1) * (p - 1)) -> mul3 p a b = Some AUB.
Proof. by move=> H0 H1 H2; rewrite /multiply_3_primes /nb_primes !ltnNge H0 H1 H2. Qed.
End C70.

(** the hypotheses are met: 3 primes are used *)
Example C70_met : let q i := nth 2 [:: 5; 13; 17] i in
  let x (i k j : nat) : 'F_(q i) := ((if k is k'.+1 then if k' is _.+1 then nth 1 [:: 2; 5; 4] i else q i - 1 else 1)%N%:R ^+ j)%R in
  let a := ZMat 2 5 (fun i j => [:: (i + j) %% 3; 1]) in let b := ZMat 5 2 (fun _ _ => [:: 1; 2]) in
  [/\ round_up_ok (fun _ k => 2 ^ k), (forall i, i < 3 -> prime (q i) /\ q i < 2 ^ 5), znc a = znr b, is_zzpX_mat 3 a & is_zzpX_mat 3 b] /\
  [/\ (forall idx, idx < 3 -> fft_ready (fun _ => 2) x idx (next_pow2 (zlen a + zlen b - 1))),
      (forall idx, idx < 3 -> [/\ 3 <= q idx, nonzero a & nonzero b]), uniq [:: q 0; q 1; q 2],
      2 * (znc a * minn (zlen a) (zlen b) * (3 - 1) * (3 - 1)) < q 0 * q 1 * q 2 &
      nb_primes 3 (znc a) (zlen a) (zlen b) (q 0) (q 1) (q 2) = Some 3].
Proof.
move=> q x a b; split; split=> //.
- by move=> l k H; rewrite H leqnn.
- by move=> [|[|[|i]]].
- move=> i j Hi Hj; split=> // k; case: k => [|[|[|k]]] //=; by rewrite ltn_mod.
- by move=> i j Hi Hj; split=> // -[|[|[|k]]].
- move=> idx Hidx k Hk; have pq : prime (q idx) by case: idx Hidx {Hk} => [|[|[|i]]].
  have V (n j : nat) : val (n%:R ^+ j : 'F_(q idx))%R = n ^ j %% q idx by rewrite -natrX; exact: val_Fp_nat.
  split=> //.
    move=> i j Hi Hj /(congr1 val); rewrite /x !V; case: idx Hidx Hk {V x pq} => [|[|[|idx]]] // _ Hk.
      by case: k Hk Hi Hj => [|[|[|k]]] // _; move: i j => [|[|[|[|i]]]] [|[|[|[|j]]]].
    by case: k Hk Hi Hj => [|[|[|k]]] // _; move: i j => [|[|[|[|i]]]] [|[|[|[|j]]]].
    by case: k Hk Hi Hj => [|[|[|k]]] // _; move: i j => [|[|[|[|i]]]] [|[|[|[|j]]]].
  move=> i Hi; rewrite /x exprAC.
  set r := (_ ^+ (2 ^ k))%R; suff -> : r = 1%R by rewrite expr1n.
  apply: val_inj; rewrite /r V {V r}; case: idx Hidx Hk {x pq} => [|[|[|idx]]] // _; case: k {Hi} => [|[|[|k]]] //.
- by move=> [|[|[|i]]] //; split=> //; exists 0, 0.
Qed.

Print Assumptions C70_multiply_3_primes.
Print Assumptions C70_too_large.
