(** Property C69: products of matrices of polynomials by evaluation at roots of unity (ntl-extras). *)
From mathcomp Require Import all_ssreflect all_fingroup all_algebra all_field zify.
From Verif Require Import A_base A_mul_model A_mul_proof N_shift_proof N_multi_model N_multi_proof N_pmat_model N_poly_model.
From Verif Require Import N_trs_proof N_util_model N_util_proof N_geo2_proof N_mfft_model N_eval_model N_eval_proof N_mmfft_model.
From Verif Require Import N_mmfft_proof N_mmfft_core P_ntrs P_neval.
Set Implicit Arguments.
Unset Strict Implicit.
Unset Printing Implicit Defensive.
Import GRing.Theory.
Local Open Scope ring_scope.

Section C69.
Variable F : fieldType.
Local Notation P := {poly F}.
Local Notation arr := (nat -> F).
Implicit Types a b : pmat F.
Variables (wbits spbits pr : nat) (rep : F -> nat) (nbits : nat) (fftp : bool) (maxroot : nat) (x : nat -> arr) (ru : nat -> nat -> nat).

(** The modulus was set by FFTInit, and NTL has an FFT of length 2^k: its points are 2^k distinct roots of unity *)
Definition fft_available (k : nat) : Prop :=
  [/\ fftp, (k <= maxroot)%N, (forall i j, (i < 2 ^ k)%N -> (j < 2 ^ k)%N -> x k i = x k j -> i = j)
    & forall i, (i < 2 ^ k)%N -> x k i ^+ (2 ^ k) = 1].
(** FFTRoundUp gives a number of points that is large enough, and at most the length *)
Definition round_up_ok : Prop := forall l k, (l <= 2 ^ k)%N -> (l <= ru l k <= 2 ^ k)%N.
Hypothesis Hru : round_up_ok.

Local Notation bad := (fft_bad fftp maxroot ru).
Local Notation Ka a b := (fft_idx a b).

Lemma setup a b : nc a = nr b -> fft_available (Ka a b) ->
  [/\ bad a b = false, distinct (fft_len ru a b) (x (Ka a b)) & (len_actual a b <= fft_len ru a b)%N].
Proof.
move=> E [Hf Hk Hd Hr].
have := @Hru (len_actual a b) (Ka a b) (@up_logP 2 _ isT) => /andP[L1 L2].
split=> //.
- by rewrite /fft_bad Hf !ltnNge Hk L1 L2 E leqnn.
- by move=> i j Hi Hj; apply: Hd; [apply: leq_trans Hi L2|apply: leq_trans Hj L2].
Qed.

Lemma result a b (v : arr) i j : nc a = nr b -> (i < nr a)%N -> (j < nc b)%N ->
  distinct (fft_len ru a b) (x (Ka a b)) -> (len_actual a b <= fft_len ru a b)%N ->
  (forall r, (r < fft_len ru a b)%N -> v r = (\sum_(k < nc a) ent a i k * ent b k j).[x (Ka a b) r]) ->
  from_trunc (fft_len ru a b) (x (Ka a b)) v (len_actual a b) = \sum_(k < nc a) ent a i k * ent b k j.
Proof. by move=> E Hi Hj D L Hv; apply: from_truncE => //; rewrite L andbT prod_size // E. Qed.

Lemma run_fftE (core : nat -> arr -> (arr -> P) -> pmat F -> pmat F -> aoutcome (pmat F)) a b : nc a = nr b -> fft_available (Ka a b) ->
  ((forall i k (v : arr), (i < nr a)%N -> (k < nc b)%N ->
     (forall r, (r < fft_len ru a b)%N -> v r = (\sum_(l < nc a) ent a i l * ent b l k).[x (Ka a b) r]) ->
     from_trunc (fft_len ru a b) (x (Ka a b)) v (len_actual a b) = \sum_(l < nc a) ent a i l * ent b l k) ->
   gives a b (fun i k => \sum_(l < nc a) ent a i l * ent b l k)
     (core (fft_len ru a b) (x (Ka a b)) (fun v => from_trunc (fft_len ru a b) (x (Ka a b)) v (len_actual a b)) a b)) ->
  product_of a b (run_fft fftp maxroot x ru core a b).
Proof.
move=> E Hf H; have [B D L] := setup E Hf; rewrite /run_fft B.
have [i k v Hi Hk Hv|c [-> [? ? Hc]]] := H; first exact: result.
by exists c.
Qed.

Theorem C69_direct a b : nc a = nr b -> (0 < nc a)%N -> fft_available (fft_idx a b) ->
  product_of a b (multiply_fft_direct fftp maxroot x ru a b).
Proof. by move=> E n0 Hf; apply: run_fftE => // H; apply: core_directE H _. Qed.

Theorem C69_direct_ll a b : (spbits < wbits)%N -> (pr < 2 ^ spbits)%N -> pr \in [char F] ->
  (forall z, (rep z < pr)%N /\ (rep z)%:R = z) ->
  nc a = nr b -> (0 < nr a)%N -> (0 < nc a)%N -> fft_available (fft_idx a b) ->
  product_of a b (multiply_fft_ll wbits spbits pr rep fftp maxroot x ru a b).
Proof. by move=> Hw Hp Hc Hrep E m0 n0 Hf; apply: run_fftE => // H; apply: (core_llE H). Qed.

Theorem C69_matmul1 a b : nc a = nr b -> fft_available (fft_idx a b) ->
  product_of a b (multiply_fft_matmul1 fftp maxroot x ru a b).
Proof. by move=> E Hf; apply: run_fftE => // H; apply: core_matmul1E H. Qed.

Theorem C69_matmul2 a b : nc a = nr b -> fft_available (fft_idx a b) ->
  product_of a b (multiply_fft_matmul2 fftp maxroot x ru a b).
Proof. by move=> E Hf; apply: run_fftE => // H; apply: core_matmul2E H. Qed.

Theorem C69_matmul3 a b : nc a = nr b -> (0 < nr a)%N -> (0 < nc a)%N -> (0 < nc b)%N -> fft_available (fft_idx a b) ->
  (nr a == 1%N) || (1 < nc a)%N || (nc b == 1%N) || (16 < nc b)%N ->
  product_of a b (multiply_fft_matmul3 fftp maxroot x ru a b).
Proof. by move=> E m0 n0 p0 Hf Hc; apply: run_fftE => // H; apply: core_matmul3E H _ _ _ _. Qed.

(** The last buffer is a null pointer when a has one column, and it is used for the second row. *)
Theorem C69_matmul3_refuted a b : nc a = nr b -> fft_available (fft_idx a b) ->
  ~ zero_mat a -> ~ zero_mat b -> nc a = 1%N -> (1 < nc b <= 16)%N -> (1 < nr a)%N ->
  multiply_fft_matmul3 fftp maxroot x ru a b = AUB.
Proof.
move=> E Hf Za Zb n1 Hu Hm; have [B D L] := setup E Hf.
have l0 : (0 < len_actual a b)%N.
  have a0 : (0 < plen a)%N by rewrite lt0n; apply/eqP=> /zero_plen.
  have b0 : (0 < plen b)%N by rewrite lt0n; apply/eqP=> /zero_plen.
  by rewrite /len_actual; lia.
have [m0 n0] := nonzero_dims Za; have [_ p0] := nonzero_dims Zb.
rewrite /multiply_fft_matmul3 /run_fft B.
apply: (@core_matmul3_null _ _ _ _ a b (fun i k => \sum_(l < nc a) ent a i l * ent b l k)) => //; last exact: leq_trans l0 L.
by move=> i k v Hi Hk Hv; apply: result.
Qed.

(** The field has more elements than the FFT has points *)
Lemma enough_points k : pr \in [char F] -> (forall z, (rep z < pr)%N /\ (rep z)%:R = z) -> fft_available k -> (2 ^ k < pr)%N.
Proof.
move=> Hc Hrep [_ _ Hd Hr]; have pp := prime_gt0 (charf_prime Hc).
have : (size [seq rep (x k i) | i <- iota 0 (2 ^ k)] <= size (iota 1 pr.-1))%N.
  apply: uniq_leq_size => [|n /mapP[i]].
    rewrite map_inj_in_uniq ?iota_uniq // => i j; rewrite !mem_iota !add0n => Hi Hj Eij.
    by apply: Hd => //; rewrite -[LHS](Hrep _).2 -[RHS](Hrep _).2 Eij.
  rewrite mem_iota add0n => Hi ->; rewrite mem_iota add1n prednK // (Hrep _).1 andbT lt0n.
  apply/eqP=> Z; have := Hr _ Hi; rewrite -(Hrep (x k i)).2 Z expr0n.
  by rewrite (gtn_eqF (expn_gt0 2 k)) => /eqP; rewrite eq_sym oner_eq0.
by rewrite size_map !size_iota; lia.
Qed.

Theorem C69_fft a b : (spbits < wbits)%N -> (pr < 2 ^ spbits)%N -> pr \in [char F] ->
  (forall z, (rep z < pr)%N /\ (rep z)%:R = z) ->
  nc a = nr b -> (0 < nr a)%N -> (0 < nc a)%N -> (0 < nc b)%N -> fft_available (fft_idx a b) ->
  (24 < nbits)%N \/ (~ zero_mat a /\ ~ zero_mat b) ->
  (nr a == 1%N) || (1 < nc a)%N || (nc b == 1%N) || (16 < nc b)%N ->
  product_of a b (multiply_evaluate_fft wbits spbits pr rep nbits fftp maxroot x ru a b).
Proof.
move=> Hw Hp Hc Hrep E m0 n0 p0 Hf Hz H3; have Hpr := enough_points Hc Hrep Hf.
rewrite /multiply_evaluate_fft; set d := (_ %/ 2)%N; case: ltnP => Hb; last first.
  case: ifP => _; first exact: C69_direct.
  case: ifP => _; first exact: C69_direct_ll.
  by case: ifP => _; [apply: C69_matmul1|apply: C69_matmul3].
have {Hz} [Za Zb] : ~ zero_mat a /\ ~ zero_mat b by case: Hz => //; rewrite ltnNge -ltnS Hb.
have L1 : (len_actual a b <= 2 ^ fft_idx a b)%N := @up_logP 2 _ isT.
have L2 : (plen a + plen b <= pr)%N by move: Hpr L1; rewrite /len_actual; move: (2 ^ _)%N (plen a) (plen b); clear; lia.
have Hd : product_of a b (multiply_evaluate_dense a b).
  by apply: (C68_dense Hc) => //; move: L2; move: (plen a) (plen b); clear; lia.
have Hd2 : (31 < d)%N -> product_of a b (multiply_evaluate_dense2 a b).
  by rewrite /d => H; apply: (C68_dense2 Hc) => //; move: H L2; move: (plen a) (plen b); clear; lia.
case: ifP => _; first exact: C69_direct.
case: ifP => _; first exact: C69_direct_ll.
case: (ltnP d 32) => Hd3 //.
case: ifP => _; first by case: ifP => _; [apply: C69_matmul2|apply: Hd2].
by case: ifP => _; [apply: C69_matmul1|apply: Hd2].
Qed.

(** the null pointer is reached for a tall column times a short row *)
Theorem C69_fft_refuted a b : nc a = nr b -> ~ zero_mat a -> ~ zero_mat b -> fft_available (fft_idx a b) ->
  nc a = 1%N -> (1 < nc b <= 16)%N -> (128 * 128 * 128 <= nr a)%N -> (plen a + plen b <= 66)%N -> (25 <= nbits)%N ->
  multiply_evaluate_fft wbits spbits pr rep nbits fftp maxroot x ru a b = AUB.
Proof.
move=> E Za Zb Hf n1 Hu Hm Hd Hn.
rewrite /multiply_evaluate_fft n1 muln1 ltnNge Hn /=.
have Hcube : (128 * 128 * 128 <= nr a * nc b)%N.
  by apply: (leq_trans Hm); apply: leq_pmulr; case/andP: Hu => /ltnW.
have Hd2 : ((plen a + plen b - 2) %/ 2 <= 32)%N by move: Hd; move: (plen a) (plen b); clear; lia.
move: ((_ - 2) %/ 2)%N Hd2 => d Hd2.
move: (nr a * nc b)%N Hcube => cube Hcube.
have -> : ((cube < 4 * 4 * 4)%N || ((cube == 4 * 4 * 4)%N && (90 <= d)%N) || ((cube <= 8 * 8 * 8)%N && (65 <= d)%N)) = false.
  by move: Hcube; clear; lia.
have -> : ((cube < 20 * 20 * 20)%N || ((cube < 25 * 25 * 25)%N && (1300 <= d)%N)) = false.
  by move: Hcube; clear; lia.
have -> : [|| (cube < 25 * 25 * 25)%N, (512 < d)%N, (cube < 48 * 48 * 48)%N && (32 < d)%N
              | (cube < 128 * 128 * 128)%N && (256 < d)%N] = false by move: Hcube Hd2; clear; lia.
have [? ?] := nonzero_dims Za; have [? ?] := nonzero_dims Zb.
apply: C69_matmul3_refuted => //; move: Hm; clear; move: (nr a); lia.
Qed.

(** a zero operand, for a small prime and matrices that are not too small: the function calls the one of C68 that fails *)
Theorem C69_fft_zero_refuted a b : zero_mat a \/ zero_mat b -> (plen a + plen b < 66)%N -> (nbits < 25)%N ->
  (8 * 8 * 8 < nr a * nc a * nc b)%N ->
  multiply_evaluate_fft wbits spbits pr rep nbits fftp maxroot x ru a b = AUB.
Proof.
move=> Hz Hd Hn Hc; rewrite /multiply_evaluate_fft Hn.
have Hd2 : ((plen a + plen b - 2) %/ 2 < 32)%N by move: Hd; move: (plen a) (plen b); clear; lia.
move: (_ %/ 2)%N Hd2 => d Hd2; move: (nr a * nc a * nc b)%N Hc => cube Hc.
have -> : (cube < 4 * 4 * 4)%N || ((cube <= 6 * 6 * 6)%N && (100 < d)%N) = false by move: Hc; clear; lia.
have -> : (cube <= 8 * 8 * 8)%N = false by move: Hc; clear; lia.
by rewrite Hd2; apply: C68_dense_zero_refuted.
Qed.

End C69.

Example C69_met : let x (k i : nat) : 'F_17 := 4%:R ^+ i in
  let a := Pmat 2 3 (fun i j => 'X + (i + j)%:R : {poly 'F_17}) in let b := Pmat 3 2 (fun i j => 'X - (i * j)%:R : {poly 'F_17}) in
  [/\ nc a = nr b, ~ zero_mat a, ~ zero_mat b, round_up_ok (fun _ k => (2 ^ k)%N) &
   [/\ fft_available true 4 x (fft_idx a b), (17 < 2 ^ 60)%N, 17%N \in [char 'F_17], (forall z : 'F_17, (val z < 17)%N /\ (val z)%:R = z)
     & (nr a == 1%N) || (1 < nc a)%N || (nc b == 1%N) || (16 < nc b)%N]].
Proof.
move=> x a b.
have E (n : nat) : (n%:R : {poly 'F_17}) = (n%:R)%:P by rewrite polyCMn.
have Sa i j : size (ent a i j) = 2%N by rewrite /= E size_XaddC.
have Sb i j : size (ent b i j) = 2%N by rewrite /= E size_XsubC.
have Na : ~ zero_mat a by move=> /(_ 0%N 0%N isT isT) Z; have := Sa 0%N 0%N; rewrite Z size_poly0.
have Nb : ~ zero_mat b by move=> /(_ 0%N 0%N isT isT) Z; have := Sb 0%N 0%N; rewrite Z size_poly0.
have La : plen a = 2%N.
  apply/eqP; rewrite eqn_leq; apply/andP; split; first by apply/plenP=> i j _ _; rewrite Sa.
  by have := @plen_size _ a 0 0 isT isT; rewrite Sa.
have Lb : plen b = 2%N.
  apply/eqP; rewrite eqn_leq; apply/andP; split; first by apply/plenP=> i j _ _; rewrite Sb.
  by have := @plen_size _ b 0 0 isT isT; rewrite Sb.
split=> //; first by move=> l k H; rewrite H leqnn.
split=> //.
- rewrite /fft_idx /len_actual La Lb; split=> //.
  + have V (i : nat) : val (x 2%N i) = (4 ^ i %% 17)%N by rewrite /x -natrX; exact: val_Fp_nat.
    by move=> i j Hi Hj /(congr1 val); rewrite !V; move: i j Hi Hj => [|[|[|[|i]]]] [|[|[|[|j]]]].
  + move=> i _; rewrite /x exprAC.
    have -> : (4%:R : 'F_17) ^+ (2 ^ up_log 2 (2 + 2 - 1)) = 1 by apply/val_inj; rewrite -natrX; apply: etrans (val_Fp_nat _ _) _.
    by rewrite expr1n.
- by move=> z; split; [exact: (ltn_ord z)|rewrite natr_Zp].
Qed.

Print Assumptions C69_direct.
Print Assumptions C69_direct_ll.
Print Assumptions C69_matmul1.
Print Assumptions C69_matmul2.
Print Assumptions C69_matmul3.
Print Assumptions C69_matmul3_refuted.
Print Assumptions C69_fft.
Print Assumptions C69_fft_refuted.
Print Assumptions C69_fft_zero_refuted.
