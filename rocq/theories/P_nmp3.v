(** Property C73: the middle product of matrices of polynomials, by FFT primes and with the choice of the algorithm (ntl-extras). *)
From Coq Require Import ZArith.
From mathcomp Require Import all_ssreflect all_fingroup all_algebra all_field zify.
From Verif Require Import A_base A_mul_model A_mul_proof N_poly_model N_pmat_model N_trs_proof N_util_model N_mmfft_model P_ntrs P_nutil P_nmmfft.
From Verif Require Import N_mm3_model N_mm3_proof N_mm3_crt P_nmm3 N_mp_model P_nmp N_mmfft_core N_series_proof N_mmfft_proof N_mp3_model.
Set Implicit Arguments.
Unset Strict Implicit.
Unset Printing Implicit Defensive.
Import GRing.Theory.

(** The coefficient of X^k of the entry (i, j) of the middle product, over the integers *)
Definition int_mid (a c : zmat) (dA dB i j k : nat) : nat :=
  if k <= dB then \sum_(l < znc a) \sum_(e < dA.+1) nth 0 (zent a i l) e * nth 0 (zent c l j) (dA + k - e) else 0.
(** The result is the middle product modulo p *)
Definition zmiddle_of (p : nat) (a c : zmat) (dA dB : nat) (res : option (aoutcome zmat)) : Prop :=
  exists b, [/\ res = Some (AOk b), znr b = znr a, znc b = znc c & forall i j, i < znr a -> j < znc c ->
    is_zzpX p (zent b i j) /\ forall k, nth 0 (zent b i j) k = int_mid a c dA dB i j k %% p].

Section Primes.
Variables (q : nat -> nat) (nbits maxroot : nat -> nat) (x : forall i, nat -> nat -> 'F_(q i)).
Hypothesis Hq : forall i, i < 3 -> prime (q i).
Implicit Types a c : zmat.

Local Notation mp3 p a c dA dB := (@middle_product_3_primes q nbits maxroot x p a c dA dB).

Lemma eval_mpE idx a c dA dB : idx < 3 -> znc a = znr c -> 0 < znc a -> zlen a <= dA.+1 -> zlen c <= (dA + dB).+1 ->
  fft_available true (maxroot idx) (@x idx) (next_pow2 (dA + dB + 1)) ->
  exists b, [/\ eval_mp nbits maxroot x idx a c dA dB = AOk b, znr b = znr a, znc b = znc c &
    forall i j, i < znr a -> j < znc c -> forall k, nth 0 (zent b i j) k = int_mid a c dA dB i j k %% q idx].
Proof.
move=> Hi E n0 La Lc Hf; have pq := Hq Hi.
have [||b [Eb [R1 R2 He]]] := @C72_evaluate_fft _ (nbits idx) true (maxroot idx) (@x idx) (to_field (q idx) a) (to_field (q idx) c) dA dB E n0 _ _ Hf.
- by move=> i j H1 H2; apply: leq_trans La; apply: leq_trans (size_poly _ _) _; apply: zlen_size.
- by move=> i j H1 H2; apply: leq_trans Lc; apply: leq_trans (size_poly _ _) _; apply: zlen_size.
rewrite /eval_mp Eb; eexists; split=> // i j H1 H2 k.
rewrite from_field_coef He // mid_entryE coef_poly /int_mid ltnS.
case: leqP => Hk; last by rewrite mod0n.
rewrite coef_sum; set S := (\sum_(l < znc a) _)%N.
suff -> : ((\sum_(l < nc (to_field (q idx) a)) (ptrunc dA.+1 (ent (to_field (q idx) a) i l) * ent (to_field (q idx) c) l j)`_(dA + k))%R = S%:R :> 'F_(q idx))%R by exact: val_Fp_nat.
rewrite /S natr_sum; apply: eq_bigr => l _; rewrite coefM natr_sum.
rewrite (big_ord_widen (dA + k).+1 (fun e => ((nth 0 (zent a i l) e * nth 0 (zent c l j) (dA + k - e))%N%:R)%R)); last by rewrite ltnS leq_addr.
rewrite [in RHS]big_mkcond; apply: eq_bigr => e _; rewrite ptrunc_coef; case: ifP => _; last by rewrite mul0r.
by rewrite !to_field_coef natrM.
Qed.

Section Mult.
Variables (p : nat) (a c : zmat) (dA dB : nat).
Hypothesis pp : 1 < p.
Hypothesis E : znc a = znr c.
Hypothesis n0 : 0 < znc a.
Hypothesis Ha : is_zzpX_mat p a.
Hypothesis Hc : is_zzpX_mat p c.
Hypothesis La : zlen a <= dA.+1.
Hypothesis Lc : zlen c <= (dA + dB).+1.
Hypothesis Hfft : forall idx, idx < 3 -> fft_available true (maxroot idx) (@x idx) (next_pow2 (dA + dB + 1)).

Lemma mp_modE idx : idx < 3 -> exists b, [/\ mp_modulo_fft_prime nbits maxroot x p a c dA dB idx = AOk b, znr b = znr a, znc b = znc c &
  forall i j, i < znr a -> j < znc c -> forall k, nth 0 (zent b i j) k = int_mid a c dA dB i j k %% q idx].
Proof.
move=> Hi; rewrite /mp_modulo_fft_prime; case: ltnP => C; last by apply: eval_mpE => //; apply: Hfft.
have [||b [Eb R1 R2 He]] := @eval_mpE idx (reduce_mod_p (q idx) a) (reduce_mod_p (q idx) c) dA dB Hi E n0 _ _ (Hfft Hi).
- exact: leq_trans (reduce_zlen _ _) La.
- exact: leq_trans (reduce_zlen _ _) Lc.
exists b; split=> // i j Hi' Hj k; rewrite He // /int_mid; case: ifP => // _.
rewrite -[LHS]modn_summ -[RHS]modn_summ; congr (_ %% _); apply: eq_bigr => l _.
rewrite -[LHS]modn_summ -[RHS]modn_summ; congr (_ %% _); apply: eq_bigr => e _.
by rewrite !reduceE modnMm.
Qed.

Lemma int_mid_bound i j k : i < znr a -> j < znc c -> int_mid a c dA dB i j k <= znc a * dA.+1 * (p - 1) * (p - 1).
Proof.
move=> Hi Hj; rewrite /int_mid; case: ifP => // _.
apply: (@leq_trans (\sum_(l < znc a) \sum_(e < dA.+1) (p - 1) * (p - 1))); last first.
  by rewrite !big_const_ord !iter_addn_0 [in X in X <= _]mulnC !mulnA [_ * dA.+1]mulnC -!mulnA mulnCA.
apply: leq_sum => l _; apply: leq_sum => e _.
have [A1 _] := Ha Hi (ltn_ord l); have Hl : l < znr c by rewrite -E.
have [B1 _] := Hc Hl Hj; by apply: leq_mul; [have := A1 e|have := B1 (dA + k - e)]; lia.
Qed.

(** the bound on the coefficients, for the number of primes that the code chooses *)
Theorem C73_3_primes nb : uniq [:: q 0; q 1; q 2] ->
  nb_primes p (znc a) dA.+1 dB.+1 (q 0) (q 1) (q 2) = Some nb ->
  znc a * dA.+1 * (p - 1) * (p - 1) < \prod_(l < nb) q l -> zmiddle_of p a c dA dB (mp3 p a c dA dB).
Proof.
move=> U Enb Hm; rewrite /middle_product_3_primes; have [n3 _] := nb_primesE pp Enb; rewrite Enb.
have [|b [Eb R1 R2 H]] := three_primesE pp Hq U mp_modE n3.
  by move=> i j k Hi Hj; apply: (leq_ltn_trans (int_mid_bound k Hi Hj)).
exists b; split=> // i j Hi Hj; have [N He] := H i j Hi Hj; split=> //; split; last exact/eqP.
by move=> k; rewrite He ltn_mod (ltnW pp).
Qed.

(** this bound holds when dA <= dB *)
Theorem C73_3_primes_low : uniq [:: q 0; q 1; q 2] -> dA <= dB ->
  2 * (znc a * dA.+1 * (p - 1) * (p - 1)) < q 0 * q 1 * q 2 -> zmiddle_of p a c dA dB (mp3 p a c dA dB).
Proof.
move=> U Hd Hm; have Em : minn dA.+1 dB.+1 = dA.+1 by apply/minn_idPl.
have [nb Enb] : exists nb, nb_primes p (znc a) dA.+1 dB.+1 (q 0) (q 1) (q 2) = Some nb.
  by rewrite /nb_primes Em Hm; do 2! [case: ifP => _; first by eexists]; eexists.
have [n3 Hnb] := nb_primesE pp Enb; rewrite Em in Hnb.
apply: (C73_3_primes U Enb); apply: leq_trans Hnb _.
by apply: eq_leq; apply: eq_bigr => l _; case: l => -[|[|[|l]]] //= Hl; move: n3; lia.
Qed.
End Mult.

(** The bound is not always right: the number of primes is chosen for at most dB + 1 terms but there are dA + 1 terms.
    Here all coefficients are p - 1 and dB = 0; one prime is used and it is too small *)
Theorem C73_3_primes_refuted p dA a c : 1 < p -> ~~ (p %| q 0) ->
  fft_available true (maxroot 0) (@x 0) (next_pow2 (dA + 0 + 1)) ->
  [/\ znr a = 1, znc a = 1 & zent a 0 0 = nseq dA.+1 (p - 1)] -> [/\ znr c = 1, znc c = 1 & zent c 0 0 = nseq dA.+1 (p - 1)] ->
  (p - 1) * (p - 1) < q 0 -> q 0 <= dA.+1 * (p - 1) * (p - 1) -> dA.+1 * (p - 1) * (p - 1) < 2 * q 0 ->
  [/\ is_zzpX_mat p a, is_zzpX_mat p c, zlen a <= dA.+1, zlen c <= dA.+1 &
   exists b, mp3 p a c dA 0 = Some (AOk b) /\ nth 0 (zent b 0 0) 0 < p /\ nth 0 (zent b 0 0) 0 <> int_mid a c dA 0 0 0 0 %% p].
Proof.
move=> pp Hpq Hf [m1 n1 Ea] [m2 n2 Ec] H1 H2 H3.
have La : zlen a <= dA.+1.
  by apply/zlenP=> i j; rewrite m1 n1 !ltnS !leqn0 => /eqP-> /eqP->; rewrite Ea size_nseq.
have Lc : zlen c <= dA.+1.
  by apply/zlenP=> i j; rewrite m2 n2 !ltnS !leqn0 => /eqP-> /eqP->; rewrite Ec size_nseq.
have Z : is_zzpX p (nseq dA.+1 (p - 1)).
  split; first by move=> k; rewrite nth_nseq; case: ifP => _; lia.
  have L n (v : nat) : last v (nseq n v) = v by elim: n.
  by rewrite /= L; lia.
split=> //.
- by move=> i j; rewrite m1 n1 !ltnS !leqn0 => /eqP-> /eqP->; rewrite Ea.
- by move=> i j; rewrite m2 n2 !ltnS !leqn0 => /eqP-> /eqP->; rewrite Ec.
have Hp : p <= q 0.
  case: (ltnP (q 0) p) => // C; have : (p - 1) * 1 <= (p - 1) * (p - 1) by rewrite leq_mul2l; apply/orP; right; lia.
  by rewrite muln1 => C1; have : q 0 <= p - 1; [lia|move=> C2; lia].
have S0 : int_mid a c dA 0 0 0 0 = dA.+1 * (p - 1) * (p - 1).
  transitivity (\sum_(e < dA.+1) nth 0 (nseq dA.+1 (p - 1)) e * nth 0 (nseq dA.+1 (p - 1)) (dA + 0 - e)).
    by rewrite /int_mid leq0n n1 big_ord1; apply: eq_bigr => e _; rewrite Ea Ec.
  rewrite (eq_bigr (fun=> (p - 1) * (p - 1))) ?big_const_ord ?iter_addn_0 1?mulnC ?mulnA // => e _.
  by rewrite addn0 !nth_nseq ltn_ord ltnS leq_subr.
rewrite /middle_product_3_primes /nb_primes minnSS minn0 n1 !mul1n H1 /=.
rewrite /three_primes /= /mp_modulo_fft_prime ltnNge Hp /=.
have [|b' [-> R1 R2 He]] := @eval_mpE 0 a c dA 0 isT (etrans n1 (esym m2)) ltac:(by rewrite n1) La _ Hf; first by rewrite addn0.
eexists; split; first by []; rewrite /= reduceE He ?m1 ?n2 // S0; split; first by rewrite ltn_mod; lia.
move: (dA.+1 * (p - 1) * (p - 1)) H2 H3 => S H2 H3 G; case/negP: Hpq.
have -> : q 0 = S - (S - q 0) by lia.
rewrite -eqn_mod_dvd; last by lia.
rewrite -G; have -> // : S %% q 0 = S - q 0 by rewrite -[in LHS](subnK H2) modnDr modn_small //; move: H2 H3; clear; lia.
Qed.
End Primes.

Section C73.
Variables (p : nat) (fftp : bool) (maxroot_p : nat) (xp : nat -> nat -> 'F_p) (nbits_p : nat).
Variables (q : nat -> nat) (nbits maxroot : nat -> nat) (x3 : forall i, nat -> nat -> 'F_(q i)).
Variables (nv ev : nat -> nat) (cbrt : nat -> nat).
Variables (fuel MX KARX : nat) (ul : bool) (garb : nat -> nat -> nat -> nat -> 'F_p).
Local Notation P := {poly 'F_p}.
Implicit Types a b c : pmat [fieldType of 'F_p].

(** the modulus is a prime; the FFT primes and the points of NTL are as expected; KARX is a constant of NTL *)
Definition setting : Prop :=
  [/\ prime p, 1 < KARX, uniq [:: q 0; q 1; q 2], (forall i, i < 3 -> prime (q i)) &
      (fftp -> forall k, k <= maxroot_p -> fft_available fftp maxroot_p xp k)].
(** the result is the middle product of a and c *)
Definition is_middle a c (dA dB : nat) (res : option (aoutcome (pmat [fieldType of 'F_p]))) : Prop :=
  exists o, res = Some o /\ middle_of a c dA dB o.
(** there is an FFT modulo p, or the sizes are not too large for three FFT primes and the degree of a is at most dB *)
Definition fft_mod (n : nat) : bool := fftp && (next_pow2 n <= maxroot_p).
Definition three_ok a (dB : nat) : Prop :=
  [/\ plen a <= dB.+1, 2 * (nc a * plen a * (p - 1) * (p - 1)) < q 0 * q 1 * q 2 &
      forall i, i < 3 -> fft_available true (maxroot i) (@x3 i) (next_pow2 (plen a + dB))].

Hypothesis Hs : setting.
Local Notation mid := (@middle_mat p fftp maxroot_p xp nbits_p q nbits maxroot x3 nv ev cbrt fuel MX KARX ul garb).
Local Notation choice := (@middle_choice p fftp maxroot_p xp nbits_p q nbits maxroot x3 nv ev cbrt fuel MX KARX ul garb).

Lemma from_zzpX a : is_zzpX_mat p (from_field a).
Proof.
have [pp _ _ _ _] := Hs; move=> i j _ _; split; last by apply/eqP; apply: from_field_normal.
by move=> k; rewrite from_field_coef; apply: leq_trans (ltn_ord _) _; rewrite (Fp_cast pp).
Qed.
Lemma from_zlen a : zlen (from_field a) = plen a.
Proof.
apply/eqP; rewrite eqn_leq; apply/andP; split.
  by apply/zlenP=> i j Hi Hj; rewrite /= size_map; apply: plen_size.
by apply/plenP=> i j Hi Hj; have := @zlen_size (from_field a) i j Hi Hj; rewrite /= size_map.
Qed.

(** the coefficients of the middle product modulo p *)
Lemma mid_entry_int a c dA dB i j k : ((mid_entry a c dA dB i j)`_k = (int_mid (from_field a) (from_field c) dA dB i j k)%:R)%R.
Proof.
rewrite mid_entryE coef_poly /int_mid ltnS; case: leqP => // Hk.
rewrite coef_sum natr_sum; apply: eq_bigr => l _; rewrite coefM natr_sum.
rewrite (big_ord_widen (dA + k).+1 (fun e => ((nth 0 (zent (from_field a) i l) e * nth 0 (zent (from_field c) l j) (dA + k - e))%N%:R)%R)); last by rewrite ltnS leq_addr.
rewrite [in RHS]big_mkcond; apply: eq_bigr => e _; rewrite ptrunc_coef; case: ifP => _; last by rewrite mul0r.
by rewrite natrM !from_field_coef !natr_Zp.
Qed.

Lemma natr_modp n : ((n %% p)%:R = n%:R :> 'F_p)%R.
Proof. by have [pp _ _ _ _] := Hs; rewrite [in RHS](divn_eq n p) natrD natrM (charf0 (char_Fp pp)) mulr0 add0r. Qed.

(** no reduction: the degree of a is at least dA *)
Lemma choiceE a c dA dB : nc a = nr c -> 0 < nc a -> entries_below dA.+1 a -> entries_below (dA + dB).+1 c ->
  dA < fuel -> dB < fuel -> fft_mod (dA + dB + 1) \/ (dA < plen a /\ three_ok a dB) -> is_middle a c dA dB (choice a c dA dB true).
Proof.
move=> E n0 Da Dc FA FB H3; have [pp HK U Hq Hx] := Hs; rewrite /middle_choice.
case: ifP => _; first exact: C72_naive.
rewrite -/(fft_mod (dA + dB + 1)); case: ifP => [/andP[Hf Hk]|N].
  by eexists; split; first by []; apply: C72_evaluate_fft => //; apply: Hx.
case: ifP => [/andP[_ H2]|_].
  by eexists; split; first by []; apply: (C72_dense (char_Fp pp)) => //; move: H2; lia.
case: H3 => [|[A1 [H1 H2 H4]]]; first by rewrite N.
have Ea : plen a = dA.+1 by apply/eqP; rewrite eqn_leq A1 andbT; apply/plenP.
rewrite Ea in H1 H2 H4.
have [|||b [Eb R1 R2 He]] := @C73_3_primes_low q nbits maxroot x3 Hq p (from_field a) (from_field c) dA dB (prime_gt1 pp) E n0 (@from_zzpX a) (@from_zzpX c) _ _ _ U H1 H2.
- by rewrite from_zlen Ea.
- by rewrite from_zlen; apply/plenP.
- by move=> i Hi; have := H4 i Hi; rewrite addSn -addn1.
rewrite /middle_3p Eb; eexists; split; first by []; eexists; split; first by []; split=> // i j Hi Hj.
by have [_ Hk] := He i j Hi Hj; apply/polyP=> k; rewrite to_field_coef Hk mid_entry_int natr_modp.
Qed.

(** the reduction when the degree of a is less than dA *)
Lemma shiftE c n (cc := pm_rshift false (new_pmat _) c (Z.of_nat n)) :
  [/\ nr cc = nr c, nc cc = nc c & forall i j, i < nr c -> j < nc c -> forall k, ((ent cc i j)`_k = (ent c i j)`_(k + n))%R].
Proof.
have [[_ _ [R1 R2 H] _ _] _] := C65_entrywise false (new_pmat _) c 0 (Z.of_nat n) (fun _ => Z0) 0%R 0%R.
split=> // i j Hi Hj k; rewrite H // /zcoef -Nat2Z.inj_add Nat2Z.id.
by case: (Z.leb_spec0 0 (Z.of_nat (k + n))) => // N; lia.
Qed.

Lemma mid_shift a c dA dB d i j (cc := pm_rshift false (new_pmat _) c (Z.of_nat (dA - d))) : nc a = nr c -> d <= dA -> plen a <= d.+1 ->
  i < nr a -> j < nc c -> mid_entry a cc d dB i j = mid_entry a c dA dB i j.
Proof.
move=> E Hd La Hi Hj; have [R1 R2 Hc] := shiftE c (dA - d).
rewrite !mid_entryE; apply/polyP=> t; rewrite !coef_poly; case: ifP => // _; rewrite !coef_sum; apply: eq_bigr => l _.
have Sa : size (ent a i l) <= d.+1 by apply: leq_trans La; apply: plen_size.
rewrite !ptrunc_id //; last by apply: leq_trans Sa _.
rewrite !coefM (big_ord_widen (dA + t).+1 (fun e => ((ent a i l)`_e * (ent cc l j)`_(d + t - e))%R)); last by lia.
rewrite big_mkcond; apply: eq_bigr => e _; rewrite Hc -?E //; case: ltnP => C; last by rewrite nth_default ?mul0r //; apply: leq_trans Sa _; lia.
case: (leqP e d) => C2; first by congr (_ * _)%R; congr (nth _ _ _); lia.
by rewrite [((ent a i l)`_e)%R]nth_default ?mul0r //; apply: leq_trans Sa C2.
Qed.

Lemma reduced a c dA dB ip (cc := pm_rshift false (new_pmat _) c (Z.of_nat (dA.+1 - plen a))) : nc a = nr c -> 0 < plen a <= dA ->
  is_middle a cc (plen a).-1 dB (choice a cc (plen a).-1 dB ip) -> is_middle a c dA dB (mid a c dA dB ip).
Proof.
move=> E /andP[a0 Ha]; rewrite /middle_mat ltnS Ha -/cc.
have Ecc : cc = pm_rshift false (new_pmat _) c (Z.of_nat (dA - (plen a).-1)) by rewrite /cc; congr (pm_rshift _ _ _ (Z.of_nat _)); lia.
have [R1 R2 _] := shiftE c (dA.+1 - plen a).
have H i j : i < nr a -> j < nc c -> mid_entry a cc (plen a).-1 dB i j = mid_entry a c dA dB i j.
  by move=> Hi Hj; rewrite Ecc; apply: mid_shift => //; rewrite ?prednK //; lia.
move: a0 H; case: (plen a) => // d _ H [o [Eo [b [Eb [Q1 Q2 He]]]]]; rewrite Eo; exists o; split=> //; exists b; split=> //.
by split=> // i j Hi Hj; rewrite He // H.
Qed.

Theorem C73_middle_product a c dA dB : nc a = nr c -> ~ zero_mat a ->
  entries_below dA.+1 a -> entries_below (dA + dB).+1 c -> dA < fuel -> dB < fuel ->
  fft_mod (dA + dB + 1) \/ three_ok a dB -> is_middle a c dA dB (mid a c dA dB true).
Proof.
move=> E Za Da Dc FA FB H3.
have a0 : 0 < plen a by rewrite lt0n; apply/eqP=> /zero_plen.
have n0 : 0 < nc a by rewrite lt0n; apply/eqP=> Z; apply: Za => i j _; rewrite Z.
case: (leqP (plen a) dA) => Ha; last first.
  rewrite /middle_mat ltnS leqNgt Ha; apply: choiceE => //.
  by case: H3 => ?; [left|right].
have [R1 R2 Hcc] := shiftE c (dA.+1 - plen a).
apply: reduced => //; first by rewrite a0.
apply: choiceE => //.
- by rewrite prednK //; apply/plenP.
- move=> i j Hi Hj; apply/leq_sizeP=> k Hk; rewrite Hcc -?R1 -?R2 //.
  by apply: nth_default; apply: leq_trans (Dc i j _ _) _; rewrite -?R1 -?R2 //; lia.
- by lia.
- case: H3 => [/andP[Hf Hk]|H3]; [left|right; by rewrite prednK].
  by rewrite /fft_mod Hf; apply: leq_trans Hk; apply: leq_up_log; lia.
Qed.

(** the naive algorithm has no condition on the degrees; a may be zero *)
Theorem C73_naive_any_degree a c dA dB ip : nc a = nr c -> 0 < nc a -> dA < fuel -> dB < fuel ->
  maxn dA dB < nv (cbrt (nr a * nc a * nc c)) -> is_middle a c dA dB (mid a c dA dB ip).
Proof.
move=> E n0 FA FB Hn; have [pp HK U Hq Hx] := Hs.
have [R1 R2 Hcc] := shiftE c (dA.+1 - plen a).
case: (leqP (plen a) dA) => Ha; last first.
  by rewrite /middle_mat ltnS leqNgt Ha /middle_choice Hn; apply: C72_naive.
case: (posnP (plen a)) => [a0|a0]; last first.
  apply: reduced; rewrite ?a0 // /middle_choice R2 ifT; first by apply: C72_naive => //; lia.
  by apply: leq_ltn_trans Hn; rewrite geq_max leq_maxr andbT; apply: leq_trans (leq_maxl dA dB); lia.
rewrite /middle_mat ltnS Ha a0 subn0 /middle_zero; rewrite a0 subn0 in R1 R2 Hcc; rewrite R2 ifT; last first.
  exact: leq_ltn_trans (leq_maxr dA dB) Hn.
have [||||o [-> [b [Eb [Q1 Q2 He]]]]] := @C72_naive _ fuel MX KARX ul garb HK a (pm_rshift false (new_pmat _) c (Z.of_nat dA.+1)) 0 dB => //.
  exact: leq_ltn_trans FA.
exists o; split=> //; exists b; split=> //; split=> //.
have Z := (zero_plen a).2 a0; move=> i j Hi Hj; rewrite He // ?R2 // !mid_entryE.
by apply/polyP=> t; rewrite !coef_poly; case: ifP => // _; rewrite !coef_sum !big1 // => l _; rewrite Z // ptrunc_id ?size_poly0 // mul0r coef0.
Qed.

(** a zero matrix a, when the naive algorithm is not chosen: the recursive call has dA = -1 *)
Theorem C73_zero_refuted a c dA dB ip : zero_mat a -> 0 < nr a -> 0 < nc c -> nv (cbrt (nr a * nc a * nc c)) <= dB ->
  mid a c dA dB ip = Some AUB.
Proof.
move=> /zero_plen Z m0 p0 Hn; have [R1 R2 _] := shiftE c (dA.+1 - plen a).
rewrite /middle_mat Z /=; rewrite Z subn0 in R1 R2; rewrite /middle_zero R2 ltnNge Hn m0 p0 /=.
by do 2! case: ifP => // _.
Qed.

(** operands of larger degrees: the FFT computes modulo x^(2^k) - 1, the definition truncates *)
Theorem C73_degree_refuted dA dB (K := next_pow2 (dA + dB + 1)) ip (one := fun f : P => Pmat 1 1 (fun _ _ => f)) (f g : P) :
  fft_mod (dA + dB + 1) -> nv (cbrt 1) <= maxn dA dB ->
  (f = 'X^dA /\ g = 'X^(2 ^ K))%R \/ (f = 'X^(2 ^ K + dA) /\ g = 1)%R ->
  ~ is_middle (one f) (one g) dA dB (mid (one f) (one g) dA dB ip).
Proof.
move=> Hfm Hn Hfg; have [pp HK U Hq Hx] := Hs; have /andP[Hf Hk] := Hfm.
have [Ff Fk Fd Fr] := Hx Hf _ Hk.
have L1 : dA + dB + 1 <= 2 ^ K := @up_logP 2 _ isT.
have Sf : dA < size f by case: Hfg => -[-> _]; rewrite size_polyXn // ltnS leq_addl.
have Pf : dA < plen (one f) by apply: leq_trans Sf (@plen_size _ (one f) 0 0 isT isT).
have Efg : (f * g = 'X^(2 ^ K + dA))%R by case: Hfg => -[-> ->]; rewrite ?mulr1 // -exprD addnC.
have Etrue : mid_entry (one f) (one g) dA dB 0 0 = 0%R.
  rewrite mid_entryE; apply/polyP=> t; rewrite coef_poly coef0; case: ifP => // Ht; rewrite big_ord1 /=.
  case: Hfg => -[-> ->]; rewrite /ptrunc ?mulr1.
    rewrite -/(ptrunc dA.+1 'X^dA) ptrunc_id ?size_polyXn // -exprD coefXn; case: eqP => // Et; lia.
  by rewrite coef_poly coefXn; case: ifP => // H; case: eqP => // Et; lia.
rewrite /middle_mat ltnS leqNgt Pf /= /middle_choice /= ltnNge Hn /= -/(fft_mod (dA + dB + 1)) Hfm.
case=> o [[<-] [b [Eb [_ _ /(_ 0 0 isT isT)]]]]; rewrite Etrue => Zb.
have := Eb; rewrite /mp_evaluate_fft /=.
have Hsmall : (1 * 1 * 1 < (if nbits_p < 30 then 20 * 20 * 20 else 45 * 45 * 45)) by case: (nbits_p < 30).
rewrite Hsmall /mp_fft_direct /run_mp /mp_bad Hf ltnNge Hk /=.
have [i k v|//|b' [-> [_ _ Hb]] [E']] := @core_directE _ (mp_len dA dB) (xp (mp_idx dA dB)) (fun v => from_range (mp_len dA dB) (xp (mp_idx dA dB)) v dA (dA + dB))
    (one f) (one g) (fun _ _ => fromfft (cyc K (f * g)) dA (dA + dB)).
  rewrite !ltnS !leqn0 => /eqP Ei /eqP Ek Hv; rewrite /from_range (@interp_poly _ _ _ (cyc K (f * g))); first last.
  - by move=> r Hr; rewrite Hv // big_ord1 horner_cyc //; apply: Fr.
  - exact: size_cyc.
  - by move=> r r' Hr1 Hr2; apply: Fd.
  by congr fromfft; rewrite /mp_len -/K; move: (2 ^ K) L1 => z; lia.
move: Zb; rewrite -E' Hb // => /(congr1 (fun p : P => p`_0))%R; rewrite /fromfft coef_poly coef0 ifT; last by lia.
rewrite addn0 Efg cyc_coef ?size_polyXn; [|move: (2 ^ K) L1 => z; lia|move: (2 ^ K) L1 => z; lia].
rewrite !coefXn addnC eqxx; case: eqP => [H|_]; last by rewrite add0r => /eqP; rewrite oner_eq0.
by have := L1; rewrite -[2 ^ K]addn0; lia.
Qed.

(** the bound of the number of FFT primes, see C73_3_primes_refuted: all coefficients of a and c are -1, dB = 0 *)
Theorem C73_bound_refuted dA ip (one := Pmat 1 1 (fun _ _ => \poly_(k < dA.+1) - 1 : P)%R) :
  ~~ fft_mod (dA + 0 + 1) -> nv (cbrt 1) <= dA -> ev (cbrt 1) <= dA -> ~~ (p %| q 0) ->
  fft_available true (maxroot 0) (@x3 0) (next_pow2 (dA + 0 + 1)) ->
  (p - 1) * (p - 1) < q 0 -> q 0 <= dA.+1 * (p - 1) * (p - 1) -> dA.+1 * (p - 1) * (p - 1) < 2 * q 0 ->
  ~ is_middle one one dA 0 (mid one one dA 0 ip).
Proof.
move=> Nf Hn He Hpq Hf H1 H2 H3; have [pp HK U Hq Hx] := Hs; have p1 := prime_gt1 pp.
have N1 : (- 1 != 0 :> 'F_p)%R by rewrite oppr_eq0 oner_eq0.
have Sz : size (\poly_(k < dA.+1) - 1 : P)%R = dA.+1 by apply: size_poly_eq.
have V n : val (n%:R : 'F_p)%R = n %% p by exact: val_Fp_nat.
have V1 : val (- 1 : 'F_p)%R = (p - 1)%N.
  have -> : (- 1 = (p - 1)%:R :> 'F_p)%R by rewrite natrB ?prime_gt0 // (charf0 (char_Fp pp)) sub0r.
  by rewrite V modn_small //; lia.
have Pl : dA < plen one by have := @plen_size _ one 0 0 isT isT; rewrite /= Sz.
have Ez : zent (from_field one) 0 0 = nseq dA.+1 (p - 1).
  apply: (@eq_from_nth _ 0); first by rewrite /= size_map Sz size_nseq.
  move=> k; rewrite [in X in X -> _]/= size_map Sz => Hk; rewrite from_field_coef nth_nseq Hk.
  by rewrite coef_poly Hk V1.
have E1 : [/\ znr (from_field one) = 1, znc (from_field one) = 1 & zent (from_field one) 0 0 = nseq dA.+1 (p - 1)] by [].
have [_ _ _ _ [b [Eb [Lb Nb]]]] := C73_3_primes_refuted nbits Hq p1 Hpq Hf E1 E1 H1 H2 H3.
rewrite /middle_mat ltnS leqNgt Pl /= /middle_choice /= maxn0 !ltnNge Hn He /= -/(fft_mod (dA + 0 + 1)) (negbTE Nf) andbF /= /middle_3p Eb.
case=> o [[<-] [b' [[<-] [_ _ /(_ 0 0 isT isT)]]]] => /(congr1 (fun f : P => val f`_0))%R.
rewrite to_field_coef mid_entry_int !V => G; case: Nb; rewrite -G modn_small //.
Qed.
End C73.

Example C73_met : let q i := nth 2 [:: 5; 13; 17] i in
  let x (i k j : nat) : 'F_(q i) := ((if k is k'.+1 then if k' is _.+1 then nth 1 [:: 2; 5; 4] i else q i - 1 else 1)%N%:R ^+ j)%R in
  let a := Pmat 2 3 (fun i j => 'X + (i + j)%:R : {poly 'F_3})%R in let c := Pmat 3 2 (fun i j => 'X^3 - (i * j)%:R : {poly 'F_3})%R in
  [/\ setting false 0 (fun _ _ => 0 : 'F_3)%R q 2, nc a = nr c, ~ zero_mat a, entries_below 2 a & entries_below 4 c] /\
  three_ok (fun _ => 2) x a 2.
Proof.
move=> q x a c.
have E (n : nat) : (n%:R : {poly 'F_3})%R = (n%:R)%:P%R by rewrite polyCMn.
have Sa i j : size (ent a i j) = 2 by rewrite /= E size_XaddC.
have La : plen a = 2.
  apply/eqP; rewrite eqn_leq; apply/andP; split; first by apply/plenP=> i j _ _; rewrite Sa.
  by have := @plen_size _ a 0 0 isT isT; rewrite Sa.
have [[H1 H2 _ _ _] [H3 H4 U _ _]] := C70_met.
split; split=> //.
- by split=> // i Hi; have [] := H2 i Hi.
- by move=> /(_ 0 0 isT isT) Z; have := Sa 0 0; rewrite Z size_poly0.
- by move=> i j _ _; rewrite Sa.
- move=> i j _ _; rewrite /= E; apply: leq_trans (size_add _ _) _; rewrite size_opp geq_max size_polyXn leqnn; exact: leq_trans (size_polyC_leq1 _) _.
- by rewrite La.
- by rewrite La.
- by move=> i Hi; rewrite La; apply: H3.
Qed.

(** the hypotheses of C73_bound_refuted: the first FFT prime is 17 and there are 5 terms *)
Example C73_bound_met : let x (k j : nat) : 'F_17 := ((nth 0 [:: 1; 16; 4; 2] k ^ j)%N%:R)%R in
  [/\ ~~ (3 %| 17), fft_available true 3 x (next_pow2 (4 + 0 + 1)), (3 - 1) * (3 - 1) < 17, 17 <= 4.+1 * (3 - 1) * (3 - 1) &
      4.+1 * (3 - 1) * (3 - 1) < 2 * 17].
Proof.
move=> x; split=> //; have -> : next_pow2 (4 + 0 + 1) = 3 by [].
have V n : val (n%:R : 'F_17)%R = n %% 17 by exact: val_Fp_nat.
split=> //.
  by move=> i j Hi Hj /(congr1 val); rewrite /x !V; move: i j Hi Hj => [|[|[|[|[|[|[|[|i]]]]]]]] [|[|[|[|[|[|[|[|j]]]]]]]].
move=> i Hi; apply: val_inj; rewrite /x -natrX V -expnM mulnC expnM -modnXm.
by have -> : 2 ^ (2 ^ 3) %% 17 = 1 by []; rewrite exp1n.
Qed.

Print Assumptions C73_3_primes.
Print Assumptions C73_3_primes_low.
Print Assumptions C73_3_primes_refuted.
Print Assumptions C73_middle_product.
Print Assumptions C73_naive_any_degree.
Print Assumptions C73_zero_refuted.
Print Assumptions C73_degree_refuted.
Print Assumptions C73_bound_refuted.
