(** Property C71: the product of matrices of polynomials modulo a prime, and the products by vectors (ntl-extras). *)
From mathcomp Require Import all_ssreflect all_fingroup all_algebra all_field zify.
From Verif Require Import A_base N_shift_proof N_multi_model N_util_model N_util_proof N_poly_model N_pmat_model N_trs_proof N_mmfft_model.
From Verif Require Import P_ntrs P_nutil P_nwak P_neval N_mmfft_core P_nmmfft N_mm3_model N_mm3_proof P_nmm3 N_mm_model.
Set Implicit Arguments.
Unset Strict Implicit.
Unset Printing Implicit Defensive.
Import GRing.Theory.
Local Open Scope ring_scope.

Section C71.
Variables (p : nat) (fftp : bool) (maxroot_p : nat) (xp : nat -> nat -> 'F_p) (nbits_p : nat).
Variables (wbits spbits : nat) (ru : nat -> nat -> nat).
Variables (q : nat -> nat) (nbits maxroot : nat -> nat) (x3 : forall i, nat -> nat -> 'F_(q i)).
Variables (trs : nat) (wak ev : nat -> nat) (cbrt : nat -> nat).
Local Notation P := {poly 'F_p}.
Implicit Types a b c x : pmat [fieldType of 'F_p].

(** the modulus is a prime; the constants and the FFT primes of NTL are as expected *)
Definition setting : Prop :=
  [/\ prime p, (p < 2 ^ spbits)%N, (spbits < wbits)%N, round_up_ok ru & uniq [:: q 0; q 1; q 2]] /\
  [/\ (forall i, (i < 3)%N -> prime (q i) /\ (q i < 2 ^ spbits)%N),
      (forall i, (i < 3)%N -> (24 < nbits i)%N \/ (p <= q i)%N) &
      (fftp -> forall k, (k <= maxroot_p)%N -> fft_available fftp maxroot_p xp k)].
(** the sizes are not too large for the three primes of NTL *)
Definition not_too_large a b : Prop :=
  (forall i, (i < 3)%N -> fft_ready maxroot x3 i (next_pow2 (plen a + plen b - 1))) /\
  (2 * (nc a * minn (plen a) (plen b) * (p - 1) * (p - 1)) < q 0 * q 1 * q 2)%N.
(** the result is the product of a and b *)
Definition is_product a b (res : option (aoutcome (pmat [fieldType of 'F_p]))) : Prop :=
  exists c, res = Some (AOk c) /\ is_pmat c (nr a) (nc b) (fun i j => \sum_(k < nc a) ent a i k * ent b k j).

Hypothesis Hs : setting.
Local Notation mul := (@multiply p fftp maxroot_p xp nbits_p wbits spbits ru q nbits maxroot x3 trs wak ev cbrt).
Local Notation mul_na := (@multiply_noalias p fftp maxroot_p xp nbits_p wbits spbits ru q nbits maxroot x3 trs wak ev cbrt).
Local Notation mul3p := (@multiply_3p p wbits spbits ru q nbits maxroot x3).

Lemma from_field_zzpX a : is_zzpX_mat p (from_field a).
Proof.
have [[pp _ _ _ _] _] := Hs; move=> i j _ _; split; last by apply/eqP; apply: from_field_normal.
by move=> k; rewrite from_field_coef; apply: leq_trans (ltn_ord _) _; rewrite (Fp_cast pp).
Qed.

Lemma from_field_zlen a : zlen (from_field a) = plen a.
Proof.
apply/eqP; rewrite eqn_leq; apply/andP; split.
  by apply/zlenP=> i j Hi Hj; rewrite /= size_map; apply: plen_size.
by apply/plenP=> i j Hi Hj; have := @zlen_size (from_field a) i j Hi Hj; rewrite /= size_map.
Qed.

Lemma from_field_nonzero a : (0 < plen a)%N -> nonzero (from_field a).
Proof.
move=> H; case: (boolP (all (fun i => all (fun j => ent a i j == 0) (iota 0 (nc a))) (iota 0 (nr a)))) => [/allP Z|].
  have : (plen a <= 0)%N.
    apply/plenP=> i j Hi Hj; have /Z/allP G : i \in iota 0 (nr a) by rewrite mem_iota.
    have /G/eqP-> : j \in iota 0 (nc a) by rewrite mem_iota.
    by rewrite size_poly0.
  by rewrite leqNgt H.
case/allPn=> i; rewrite mem_iota => /= Hi /allPn [j]; rewrite mem_iota => /= Hj N; exists i, j; split=> // E.
by case/negP: N; rewrite -size_poly_eq0; move: E => /(congr1 size); rewrite /= size_map => ->.
Qed.

Lemma product_Some a b r : product_of a b r -> is_product a b (Some r).
Proof. by case=> c [-> H]; exists c. Qed.

Lemma three_primes a b : nc a = nr b -> (0 < plen a)%N -> (0 < plen b)%N -> [/\ (0 < nr a)%N, (0 < nc a)%N & (0 < nc b)%N] ->
  (1 < nc a)%N -> not_too_large a b -> is_product a b (mul3p a b).
Proof.
move=> E a0 b0 D n1 [Hf Hm]; have [[pp Hp Hw Hr U] [Hq Hb Hx]] := Hs.
have [||||c [Ec R1 R2 He]] := @C70_multiply_3_primes wbits spbits ru q nbits maxroot x3 Hr Hw Hq p (from_field a) (from_field b)
  (prime_gt1 pp) E D (@from_field_zzpX a) (@from_field_zzpX b) _ _ _ U _.
- by move=> i Hi; rewrite !from_field_zlen; apply: Hf.
- move=> i Hi; case: (Hb i Hi) => ?; [by left|right]; split=> //; exact: from_field_nonzero.
- by rewrite n1 orbT.
- by rewrite !from_field_zlen.
rewrite /multiply_3p Ec; eexists; split; first by []; split=> // i j Hi Hj.
have [_ Hk] := He i j Hi Hj; apply/polyP=> k; rewrite to_field_coef Hk coef_sum.
have -> : ((int_prod (from_field a) (from_field b) i j k %% p)%:R : 'F_p) = (int_prod (from_field a) (from_field b) i j k)%:R.
  by rewrite [in RHS](divn_eq (int_prod _ _ _ _ _) p) natrD natrM (charf0 (char_Fp pp)) mulr0 add0r.
rewrite /int_prod natr_sum; apply: eq_bigr => l _; rewrite coefM natr_sum; apply: eq_bigr => e _.
by rewrite natrM !from_field_coef !natr_Zp.
Qed.

Lemma constant_left x a b : nc a = nr b -> plen a = 1%N -> product_of a b (pm_cmul false x (get_coeff a 0) b).
Proof.
move=> E L; have [[G1 G2 G3] _] := C65_coefficients a 0 (Cmat 0 0 (fun _ _ => 0)).
have [|c [-> [R1 R2 He]]] := @pm_cmulE _ false x (get_coeff a 0) b; first by rewrite G2.
exists c; split=> //; split=> [||i j Hi Hj]; rewrite ?R1 ?G1 // He // G2; apply: eq_bigr => k _.
by rewrite G3 // [in RHS](size1_polyC (_ : size (ent a i k) <= 1)%N) // -L plen_size.
Qed.
Lemma constant_right x a b : nc a = nr b -> plen b = 1%N -> product_of a b (pm_mulc false x a (get_coeff b 0)).
Proof.
move=> E L; have [[G1 G2 G3] _] := C65_coefficients b 0 (Cmat 0 0 (fun _ _ => 0)).
have [|c [-> [R1 R2 He]]] := @pm_mulcE _ false x a (get_coeff b 0); first by rewrite G1.
exists c; split=> //; split=> [||i j Hi Hj]; rewrite ?R2 ?G2 // He ?G2 //; apply: eq_bigr => k _.
by rewrite G3 -?E // [in RHS](size1_polyC (_ : size (ent b k j) <= 1)%N) // -L plen_size // -E.
Qed.

Lemma zero_plenE a b : nc a = nr b -> (plen a == 0)%N || (plen b == 0)%N -> forall i j, (i < nr a)%N -> (j < nc b)%N ->
  \sum_(k < nc a) ent a i k * ent b k j = 0.
Proof.
move=> E /orP[/eqP/zero_plen Z|/eqP/zero_plen Z] i j Hi Hj; apply: big1 => k _.
  by rewrite Z ?mul0r.
by rewrite [ent b k j]Z ?mulr0 // -E.
Qed.

Lemma pos_dims a : (0 < plen a)%N -> (0 < nr a)%N /\ (0 < nc a)%N.
Proof. by move=> H; apply: nonzero_dims => /zero_plen Z; rewrite Z in H. Qed.

Lemma noalias x a b : nc a = nr b -> not_too_large a b -> is_product a b (mul_na x a b true).
Proof.
move=> E Hl; have [[pp Hp Hw Hr U] [Hq Hb Hx]] := Hs; rewrite /multiply_noalias.
case: ifP => Z.
  eexists; split; first by []; split=> // i j Hi Hj; rewrite (zero_plenE E) //=.
  by rewrite winE // !add0n Hi Hj.
move/norP: Z => [a0 b0]; rewrite -!lt0n in a0 b0.
have [m0 n0] := pos_dims a0; have [_ p0] := pos_dims b0.
have Za : ~ zero_mat a by move/zero_plen => Z; rewrite Z in a0.
have Zb : ~ zero_mat b by move/zero_plen => Z; rewrite Z in b0.
have La : ((plen a).-1 + (plen b).-1 + 1 = plen a + plen b - 1)%N by move: a0 b0; clear; move: (plen a) (plen b); lia.
rewrite La.
case: eqP => A1; first by apply: product_Some; apply: constant_left => //; rewrite -(prednK a0) A1.
case: eqP => B1; first by apply: product_Some; apply: constant_right => //; rewrite -(prednK b0) B1.
case: eqP => n1; first by apply: product_Some; apply: C67_naive.
have n2 : (1 < nc a)%N by move: n0 n1; clear; case: (nc a) => [|[|n]].
case: ifP => _.
  apply: product_Some; apply: C64_multiply_transform => // [i j Hi Hj|i j Hi Hj|[/Za//]].
    by apply: leq_trans (plen_size Hi Hj) _; rewrite -(prednK a0) ltnS leq_maxl.
  by apply: leq_trans (plen_size Hi Hj) _; rewrite -(prednK b0) ltnS leq_maxr.
case: ifP => _; first by apply: product_Some; apply: C67_waksman.
case: ifP => [/andP[Hf Hk]|_].
  apply: product_Some; apply: C69_fft => //.
  - exact: char_Fp.
  - move=> z; split; last by rewrite natr_Zp.
    by apply: leq_trans (ltn_ord z) _; rewrite (Fp_cast pp).
  - exact: Hx.
  - by right.
  - by rewrite n2 orbT.
case: ifP => [/andP[H1 _]|_]; last exact: three_primes.
apply: product_Some; apply: (C68_dense (char_Fp pp)) => //.
by move: H1; clear; move: (plen a) (plen b); lia.
Qed.

Theorem C71_multiply al x a b : nc a = nr b -> not_too_large a b -> is_product a b (mul al x a b true).
Proof.
move=> E Hl; rewrite /multiply; case: ifP => Z; last by case: ifP => _; apply: noalias.
have := @noalias x a b E Hl; by rewrite /multiply_noalias Z.
Qed.

(** is_prime = 0 is ignored when the result is one of the operands: the algorithm chosen is the one for primes *)
Theorem C71_alias_ignores_is_prime x a b : mul true x a b false = mul true x a b true.
Proof. by rewrite /multiply; case: ifP. Qed.

Lemma col_loop (T : Type) (v : nat -> T) M n i : (i < n)%N -> foldl (fun M i => upd2 M i 0%N (v i)) M (iota 0 n) i 0%N = v i.
Proof.
elim: n => // n IH Hi; rewrite foldl_iotaR upd2E add0n eqxx andbT; case: eqP => [->//|N].
by apply: IH; move: Hi N; clear; lia.
Qed.

(** when the numbers of columns and entries agree *)
Theorem C71_multiply_column a n (v : nat -> P) : nc a = n ->
  not_too_large a (Pmat n 1 (fun i _ => v i)) ->
  exists w, @multiply_col p fftp maxroot_p xp nbits_p wbits spbits ru q nbits maxroot x3 trs wak ev cbrt a n v true = Some (AOk (nr a, w)) /\
    forall i, (i < nr a)%N -> w i = \sum_(k < nc a) ent a i k * v k.
Proof.
move=> E Hl; rewrite /multiply_col; set B := Pmat n 1 _.
have EB i : (i < n)%N -> ent B i 0%N = v i.
  by move=> Hi; rewrite /B /= col_loop.
have HB : not_too_large a B.
  suff LB : plen B = plen (Pmat n 1 (fun i _ => v i)) by case: Hl => H1 H2; split; rewrite LB.
  have G (c d : pmat [fieldType of 'F_p]) : nr c = nr d -> nc c = nc d -> (forall i j, (i < nr c)%N -> (j < nc c)%N -> ent c i j = ent d i j) -> (plen c <= plen d)%N.
    by move=> R1 R2 H; apply/plenP=> i j Hi Hj; rewrite H //; apply: plen_size; rewrite -?R1 -?R2.
  by apply/eqP; rewrite eqn_leq !G //= => i j Hi; rewrite ltnS leqn0 => /eqP ->; rewrite [LHS]EB || rewrite [RHS]EB.
have [c [-> [R1 R2 He]]] := C71_multiply false (new_pmat _) (E : nc a = nr B) HB.
rewrite R1; eexists; split; first by [].
move=> i Hi; rewrite upd_loop Hi He //; apply: eq_bigr => k _; by rewrite EB // -E.
Qed.

Theorem C71_multiply_row n (v : nat -> P) b : n = nr b -> not_too_large (Pmat 1 n (fun _ j => v j)) b ->
  exists w, @multiply_row p fftp maxroot_p xp nbits_p wbits spbits ru q nbits maxroot x3 trs wak ev cbrt n v b true = Some (AOk (nc b, w)) /\
    forall j, (j < nc b)%N -> w j = \sum_(k < n) v k * ent b k j.
Proof.
move=> E Hl; rewrite /multiply_row.
have [c [-> [R1 R2 He]]] := C71_multiply false (new_pmat _) (E : nc (Pmat 1 n (fun _ j => v j)) = nr b) Hl.
rewrite R1 R2; eexists; split; first by []; by move=> j Hj; rewrite He.
Qed.
End C71.

(** the hypotheses are met, with the primes of C70_met *)
Example C71_met : let q i := nth 2%N [:: 5; 13; 17]%N i in
  let x (i k j : nat) : 'F_(q i) := (if k is k'.+1 then if k' is _.+1 then nth 1%N [:: 2; 5; 4]%N i else (q i - 1)%N else 1%N)%:R ^+ j in
  let a := Pmat 2 3 (fun i j => 'X + (i + j)%:R : {poly 'F_3}) in let b := Pmat 3 2 (fun i j => 'X - (i * j)%:R : {poly 'F_3}) in
  [/\ setting false 0 (fun _ _ => 0 : 'F_3) 6 5 (fun _ k => (2 ^ k)%N) q (fun _ => 5%N), nc a = nr b & not_too_large (fun _ => 2%N) x a b].
Proof.
move=> q x a b.
have E (n : nat) : (n%:R : {poly 'F_3}) = (n%:R)%:P by rewrite polyCMn.
have Sa i j : size (ent a i j) = 2%N by rewrite /= E size_XaddC.
have Sb i j : size (ent b i j) = 2%N by rewrite /= E size_XsubC.
have La : plen a = 2%N.
  apply/eqP; rewrite eqn_leq; apply/andP; split; first by apply/plenP=> i j _ _; rewrite Sa.
  by have := @plen_size _ a 0 0 isT isT; rewrite Sa.
have Lb : plen b = 2%N.
  apply/eqP; rewrite eqn_leq; apply/andP; split; first by apply/plenP=> i j _ _; rewrite Sb.
  by have := @plen_size _ b 0 0 isT isT; rewrite Sb.
have [[H1 H2 _ _ _] [H3 H4 U _ _]] := C70_met.
split; [split; split=> //|by []|split].
- by move=> i Hi; right; have [] := H4 i Hi.
- by move=> i Hi; rewrite La Lb; apply: H3.
- by rewrite La Lb.
Qed.

Print Assumptions C71_multiply.
Print Assumptions C71_alias_ignores_is_prime.
Print Assumptions C71_multiply_column.
Print Assumptions C71_multiply_row.
