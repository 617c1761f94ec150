(** C83: divide and conquer approximant bases (ntl-extras). *)
From Coq Require Import ZArith.
From mathcomp Require Import all_ssreflect all_fingroup all_algebra all_solvable all_field zify.
From Verif Require Import A_base SpecA SpecForms SpecApp SpecKer A_mul_model A_mul_proof N_shift_proof N_multi_model N_multi_proof N_pmat_model N_trs_model N_trs_proof
  N_util_model N_util_proof N_poly_model N_geo_model N_mfft_model N_eval_model N_mp_model P_ntrs P_nutil P_nmmfft P_nmp N_mm3_model P_nmm3 N_mm_model P_nmm
  N_mp3_model P_nmp3 P_ndiv N_forms_model N_appbas_model P_nappbas N_mb_model P_nmb N_pmb_model N_pmb_proof.
Set Implicit Arguments.
Unset Strict Implicit.
Unset Printing Implicit Defensive.
Import Order.TTheory GRing.Theory Num.Theory.
Local Open Scope ring_scope.

Section P.
Variable F : fieldType.
Implicit Types (ker img : nat -> nat -> fmat F -> nat * fmat F) (mid : pmat F -> pmat F -> nat -> nat -> fout (pmat F)).
Implicit Types (mul : pmat F -> pmat F -> fout (pmat F)) (pm : pmat F) (shift : seq int).

(** a is the Popov basis and t the shifted degrees of its rows *)
Definition popov_correct pm order shift (a : pmat F) (t : seq int) : Prop :=
  square_out pm a t /\
  popov_approx_basis (fun _ => order) (\matrix_(i < nr pm, j < nc pm) ent pm i j) (nth 0 shift) (nth 0 t)
    (\matrix_(i < nr pm, j < nr pm) ent a i j).

Theorem C83_popov_mbasis ker img pm order shift : kernel_ok ker -> image_ok img -> size shift = nr pm -> (0 < order)%N -> (0 < nr pm)%N ->
  exists a t, popov_mbasis ker img pm order shift = Ret (a, t) /\ popov_correct pm order shift a t.
Proof.
move=> KO IO Ss Ho Hm; have [|a [t [E S H]]] := @popov_twiceP F (mbasis ker img) pm order shift _ Ss Hm.
  by move=> sh Sh; exact: mbasisP.
by exists a, t.
Qed.

(** *** pmbasis, for a middle product and a product which are right for the sizes and degrees that occur *)
Theorem C83_pmbasis ker img mid mul pm order shift : kernel_ok ker -> image_ok img ->
  mid_contract (nr pm) (nc pm) order mid -> mul_contract (nr pm) order mul -> size shift = nr pm -> (0 < order)%N -> (0 < nr pm)%N ->
  exists a t, pmbasis ker img mid mul pm order shift = Ret (a, t) /\ mb_correct pm order shift a t.
Proof.
move=> KO IO MO UO Ss Ho Hm.
have [|a [t [E E1 E2 I]]] := pmbasis_recP KO IO MO UO Ss Hm _ (leqnn order); first by rewrite Ho leqnn.
by exists a, t; split=> //; split; [case: I; split|exact: minv_minimal].
Qed.

(** the degrees of the basis are at most the order *)
Theorem C83_degree ker img mid mul pm order shift : kernel_ok ker -> image_ok img ->
  mid_contract (nr pm) (nc pm) order mid -> mul_contract (nr pm) order mul -> size shift = nr pm -> (0 < order)%N -> (0 < nr pm)%N ->
  forall a t, pmbasis ker img mid mul pm order shift = Ret (a, t) -> entries_below order.+1 a.
Proof.
move=> KO IO MO UO Ss Ho Hm a t; rewrite /pmbasis.
have [|a' [t' [-> E1 E2 [_ _ _ I]]]] := pmbasis_recP KO IO MO UO Ss Hm _ (leqnn order); first by rewrite Ho leqnn.
move=> [<- _] i j; rewrite E1 E2 => Hi Hj; by have := I (Ordinal Hi) (Ordinal Hj); rewrite mxE.
Qed.

Theorem C83_popov_pmbasis ker img mid mul pm order shift : kernel_ok ker -> image_ok img ->
  mid_contract (nr pm) (nc pm) order mid -> mul_contract (nr pm) order mul -> size shift = nr pm -> (0 < order)%N -> (0 < nr pm)%N ->
  exists a t, popov_pmbasis ker img mid mul pm order shift = Ret (a, t) /\ popov_correct pm order shift a t.
Proof.
move=> KO IO MO UO Ss Ho Hm; have [|a [t [E S H]]] := @popov_twiceP F (pmbasis ker img mid mul) pm order shift _ Ss Hm.
  by move=> sh Sh; apply: (pmbasis_recP KO IO MO UO Sh Hm _ (leqnn order)); rewrite Ho leqnn.
by exists a, t.
Qed.

(** at order 0, when there are few columns, or without rows the functions do not return *)
Theorem C83_refuted ker img mid mul pm order shift :
  ((nc pm <= (nr pm)./2 + 1)%N /\ order = 0%N -> pmbasis ker img mid mul pm order shift = Undef /\ popov_mbasis ker img pm order shift = Undef) /\
  (nr pm = 0%N -> (0 < order)%N -> pmbasis ker img mid mul pm order shift = Throws /\ popov_mbasis ker img pm order shift = Throws).
Proof.
split=> [[H ->]|E Ho]; first by rewrite /pmbasis /popov_mbasis /popov_twice [pmbasis_rec _ _ _ _ _ _ _ _]/= C82_order0_refuted.
rewrite /popov_mbasis /popov_twice C82_no_rows_refuted //; split=> //; rewrite /pmbasis.
have G f pm' o sh : nr pm' = 0%N -> (0 < o)%N -> (o <= f)%N -> pmbasis_rec ker img mid mul f pm' o sh = Throws; last exact: G.
elim: f pm' o sh => [|f IH] pm' o sh E' Ho' Hf; first by exfalso; lia.
rewrite [pmbasis_rec _ _ _ _ _ _ _ _]/=; case: leqP => H32; first exact: C82_no_rows_refuted.
by have [T1 _ _] := truncE (new_pmat F) pm' o./2; rewrite IH ?T1 //; lia.
Qed.

(** *** pmbasis_2x1 *)
Theorem C83_pmbasis_2x1 mid mul (f0 f1 : {poly F}) order s0 s1 threshold : mid_contract 2 1 order mid -> mul_contract 2 order mul ->
  (0 < threshold)%N -> exists a t0 t1, [/\ pmbasis_2x1 mid mul order f0 f1 order s0 s1 threshold = Ret (a, (t0, t1)), nr a = 2%N, nc a = 2%N &
    minimal_approx_basis (fun _ => order) (col2 f0 f1) (two s0 s1) (two t0 t1) (\matrix_(i < 2, j < 2) ent a i j)].
Proof.
move=> MO UO th; have [a [t0 [t1 [E E1 E2 [_ B D _]]]]] := pmbasis_2x1P f0 f1 s0 s1 MO UO th (leqnn order) (leqnn order).
exists a, t0, t1; split=> //; apply: dinv_minimal B _; apply: A_mbasis_abs.deg_inv_ext D => // i; by rewrite two_nth.
Qed.

(** with the threshold 0 it never returns, whatever the depth of the recursion *)
Theorem C83_threshold0_refuted mid mul fuel (f0 f1 : {poly F}) order s0 s1 r : (0 < order)%N ->
  pmbasis_2x1 mid mul fuel f0 f1 order s0 s1 0 <> Ret r.
Proof. exact: pmbasis_2x1_loop. Qed.
End P.

(** *** the products of the code *)
Section Prime.
Variables (p : nat) (fftp : bool) (maxroot_p : nat) (xp : nat -> nat -> 'F_p) (nbits_p : nat).
Variables (wbits spbits : nat) (ru : nat -> nat -> nat).
Variables (q : nat -> nat) (nbits maxroot : nat -> nat) (x3 : forall i, nat -> nat -> 'F_(q i)).
Variables (trs : nat) (wak ev nv evm : nat -> nat) (cbrt : nat -> nat).
Variables (mfuel MX KARX : nat) (ul : bool) (garb : nat -> nat -> nat -> nat -> 'F_p) (x0 : pmat [fieldType of 'F_p]).
Hypotheses (Hmm : P_nmm.setting fftp maxroot_p xp wbits spbits ru q nbits) (Hmp : P_nmp3.setting fftp maxroot_p xp q KARX).
Local Notation pmat := (pmat [fieldType of 'F_p]).

(** middle_product (C73), middle_product_evaluate_FFT_new (C72) and multiply (C71) *)
Definition code_mid (a c : pmat) (dA dB : nat) : fout pmat :=
  fout_of (@middle_mat p fftp maxroot_p xp nbits_p q nbits maxroot x3 nv evm cbrt mfuel MX KARX ul garb a c dA dB true).
Definition code_mid_new (a c : pmat) (dA dB : nat) : fout pmat :=
  fout_of (Some (mp_evaluate_fft_new wbits spbits p (fun z : 'F_p => val z) nbits_p fftp maxroot_p xp a c dA dB)).
Definition code_mul (a b : pmat) : fout pmat :=
  fout_of (@multiply p fftp maxroot_p xp nbits_p wbits spbits ru q nbits maxroot x3 trs wak ev cbrt true x0 a b true).

(** there are FFT points modulo p for D coefficients; the FFT primes are enough for products of m x m matrices with D + 2 coefficients *)
Definition enough_roots (m D : nat) : Prop :=
  [/\ fftp, (next_pow2 D <= maxroot_p)%N, (D < mfuel)%N, (forall i, (i < 3)%N -> fft_ready maxroot x3 i (next_pow2 D.+1)) &
      (2 * (m * D.+2./2 * (p - 1) * (p - 1)) < q 0 * q 1 * q 2)%N].

Lemma middle_coef (a c : pmat) dA dB m n o : middle_of a c dA dB o -> nr a = m -> nc c = n -> entries_below dA.+1 a ->
  exists2 b, fout_of (Some o) = Ret b & [/\ nr b = m, nc b = n &
    forall i j k, (i < m)%N -> (j < n)%N -> (k <= dB)%N -> (ent b i j)`_k = (pprod a c i j)`_(dA + k)].
Proof.
move=> [b [-> [B1 B2 HB]]] Em En Ha; exists b => //; split; [by rewrite B1|by rewrite B2|] => i j k Hi Hj Hk.
rewrite HB ?Em ?En // mid_entryE coef_poly ltnS Hk /pprod !coef_sum; apply: eq_bigr => l _; rewrite ptrunc_id //.
by apply: Ha; rewrite ?Em.
Qed.

Lemma code_mid_ok m n D : enough_roots m D -> mid_contract m n D code_mid.
Proof.
move=> [Hf Hk Hfu _ _] a c dA dB A1 A2 C1 C2 Nz Sa Sc HD.
have [||||o [Eo Mo]] := @C73_middle_product p fftp maxroot_p xp nbits_p q nbits maxroot x3 nv evm cbrt mfuel MX KARX ul garb Hmp a c dA dB _ Nz Sa Sc.
- by rewrite A2 C1.
- by lia.
- by lia.
- by left; rewrite /fft_mod Hf; apply: leq_trans Hk; apply: leq_up_log; lia.
by rewrite /code_mid Eo; exact: middle_coef Mo A1 C2 Sa.
Qed.

Lemma code_mul_ok m D : enough_roots m D -> mul_contract m D code_mul.
Proof.
move=> [_ _ _ Hr Hb] a b A1 A2 B1 B2 HD.
have [||c [Ec [C1 C2 HC]]] := @C71_multiply p fftp maxroot_p xp nbits_p wbits spbits ru q nbits maxroot x3 trs wak ev cbrt Hmm true x0 a b.
- by rewrite A2 B1.
- split.
    move=> i Hi k Hk; apply: (Hr i Hi); apply: leq_trans Hk _; apply: leq_up_log; move: HD; move: (plen a) (plen b) => u v; lia.
  apply: leq_ltn_trans Hb; rewrite A2 leq_mul2l /= !leq_mul //; move: HD; move: (plen a) (plen b) => u v; lia.
rewrite /code_mul Ec; exists c => //; split; [by rewrite C1|by rewrite C2|] => i j Hi Hj; rewrite HC ?A1 ?B2 //.
Qed.

Lemma code_mid_new_ok D : (0 < D)%N -> enough_roots 2 D -> mid_contract 2 1 D code_mid_new.
Proof.
have [[pp Hp Hw _ _] [_ _ Hx]] := Hmm.
move=> D0 [Hf Hk _ _ _] a c dA dB A1 A2 C1 C2 Nz Sa Sc HD; apply: (middle_coef _ A1 C2 Sa).
apply: C72_evaluate_fft_new => //; rewrite ?A1 ?A2 ?C1 ?C2 ?orbT //.
- exact: char_Fp.
- move=> z; split; first by have := ltn_ord z; rewrite [X in (_ < X)%N](Fp_cast pp).
  by rewrite natr_Zp.
- by apply: Hx => //; apply: leq_trans Hk; apply: leq_up_log; lia.
Qed.

(** pmbasis and pmbasis_2x1 with the products of the code, modulo an FFT prime *)
Theorem C83_pmbasis_code ker img (pm : pmat) order shift : kernel_ok ker -> image_ok img -> enough_roots (nr pm) order ->
  size shift = nr pm -> (0 < order)%N -> (0 < nr pm)%N ->
  (exists a t, pmbasis ker img code_mid code_mul pm order shift = Ret (a, t) /\ mb_correct pm order shift a t) /\
  (exists a t, popov_pmbasis ker img code_mid code_mul pm order shift = Ret (a, t) /\ popov_correct pm order shift a t).
Proof.
move=> KO IO H Ss Ho Hm; split; [apply: C83_pmbasis|apply: C83_popov_pmbasis] => //; first [exact: code_mid_ok|exact: code_mul_ok].
Qed.
Theorem C83_pmbasis_2x1_code (f0 f1 : {poly 'F_p}) order s0 s1 threshold : enough_roots 2 order -> (0 < order)%N -> (0 < threshold)%N ->
  exists a t0 t1, [/\ pmbasis_2x1 code_mid_new code_mul order f0 f1 order s0 s1 threshold = Ret (a, (t0, t1)), nr a = 2%N, nc a = 2%N &
    minimal_approx_basis (fun _ => order) (col2 f0 f1) (two s0 s1) (two t0 t1) (\matrix_(i < 2, j < 2) ent a i j)].
Proof. by move=> H Ho th; apply: C83_pmbasis_2x1 => //; [exact: code_mid_new_ok|exact: code_mul_ok]. Qed.
End Prime.

(** the hypotheses are met: order 64 modulo 193, where pmbasis calls itself, for 3 x 2 matrices *)
Example C83_met : let q i := nth 2%N [:: 257; 769; 3329]%N i in
  let pm := Pmat 3 2 (fun i j => if i == 2%N then 'X else (i + j)%:R : {poly 'F_193}) in
  exists (xp : nat -> nat -> 'F_193) (x3 : forall i, nat -> nat -> 'F_(q i)),
  [/\ P_nmm.setting true 6 xp 14 13 (fun _ k => (2 ^ k)%N) q (fun _ => 25%N), P_nmp3.setting true 6 xp q 2,
      @enough_roots 193 true 6 q (fun _ => 8%N) x3 65 (nr pm) 64 & (32 < 64)%N].
Proof.
move=> q pm.
have pq i : (i < 3)%N -> prime (q i) by case: i => [|[|[|i]]].
have dq i : (i < 3)%N -> (2 ^ 8 %| (q i).-1)%N by case: i => [|[|[|i]]].
have [x3 H3] := fft_tables3 pq dq.
have [xp Hp] := @fft_tables 6 193 (isT : prime 193) (isT : (2 ^ 6 %| 192)%N); exists xp, x3.
have Rd i : (i < 3)%N -> fft_ready (fun _ => 8%N) x3 i (next_pow2 65).
  move=> Hi k Hk; apply: (H3 i k Hi); apply: (leq_trans Hk); exact (isT : (up_log 2 65 <= 8)%N).
split; last by [].
- split; first split.
  + by [].
  + exact (isT : (193 < 2 ^ 13)%N).
  + by [].
  + by move=> l k Hl; rewrite Hl leqnn.
  + by [].
  split.
  + by move=> i Hi; split; [exact: pq|case: i Hi => [|[|[|i]]]].
  + by left.
  + by move=> _.
- by split.
- split; [by []|exact (isT : (up_log 2 64 <= 6)%N)|by []|exact: Rd|].
  have G (u v w : nat) : (2 * (u * v * w * w) = w * (2 * (u * v)) * w)%N by ring.
  rewrite G -[(193 - 1)%N]/192%N.
  apply: ltn_mul; last exact (isT : (192 < 3329)%N).
  by apply: ltn_mul; [exact (isT : (192 < 257)%N)|exact (isT : (2 * (3 * 33) < 769)%N)].
Qed.
Print Assumptions C83_popov_mbasis.
Print Assumptions C83_pmbasis.
Print Assumptions C83_degree.
Print Assumptions C83_popov_pmbasis.
Print Assumptions C83_refuted.
Print Assumptions C83_pmbasis_2x1.
Print Assumptions C83_threshold0_refuted.
Print Assumptions C83_pmbasis_code.
Print Assumptions C83_pmbasis_2x1_code.
