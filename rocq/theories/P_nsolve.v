(** Property C76: the solution of linear systems of power series (ntl-extras). *)
From Coq Require Import ZArith.
From mathcomp Require Import all_ssreflect all_fingroup all_algebra all_field zify.
From Verif Require Import A_base A_mul_model A_mul_proof N_shift_proof N_multi_model N_multi_proof N_pmat_model N_trs_model N_trs_proof N_util_model N_util_proof.
From Verif Require Import N_poly_model N_series_proof N_geo_model N_geo_proof N_mfft_model N_eval_model N_mp_model P_ntrs P_nutil P_ngeo P_nord P_neval P_nmmfft P_nmp.
From Verif Require Import N_mm3_model P_nmm3 N_mm_model P_nmm N_mp3_model P_nmp3.
From Verif Require Import N_inv_model N_inv_proof P_ninv P_ninv2 N_lmul_model P_nlmul N_solve_model N_solve_proof.
Set Implicit Arguments.
Unset Strict Implicit.
Unset Printing Implicit Defensive.
Import GRing.Theory.
Local Open Scope ring_scope.

Section Generic.
Variable F : fieldType.
Local Notation P := {poly F}.
Implicit Types (A b a c : pmat F) (u U : fmat P) (s : smat F).

(** u is the solution of A u = b modulo X^prec *)
Definition solution A b u (prec : nat) : Prop :=
  (forall i j, (i < nr A)%N -> (j < nc b)%N -> (size (u i j) <= prec)%N) /\
  (forall i j l, (i < nr A)%N -> (j < nc b)%N -> (l < prec)%N -> (\sum_(k < nr A) ent A i k * u k j)`_l = (ent b i j)`_l).
(** A modulo X^prec *)
Definition low_part A (prec : nat) : pmat F := Pmat (nr A) (nc A) (fun i j => ptrunc prec (ent A i j)).

Lemma low_unit A prec : invertible_at_0 A -> (0 < prec)%N -> invertible_at_0 (low_part A prec).
Proof.
case=> n0 E U p0; split=> //; rewrite (_ : \matrix_(i, j) _ = \matrix_(i < nr A, j < nr A) (ent A i j)`_0) //.
by apply/matrixP=> i j; rewrite !mxE ptrunc_coef p0.
Qed.

(** the inverse, to any precision *)
Lemma inverse_exists A m : invertible_at_0 A -> exists e, inverse_mod (nr A) m e (ent A) /\ inverse_mod (nr A) m (ent A) e.
Proof.
move=> H; case: m => [|m]; first by exists (fun _ _ => 0); split.
have [x' [_ [_ _ _ Hi _]]] := plain_ok (new_raw F) H (ltn0Sn m).
by exists (ent (value x')); split=> //; apply: inverse_mod_sym.
Qed.

(** the solution exists and is unique *)
Theorem C76_solution_exists A b prec : invertible_at_0 A -> exists u, solution A b u prec.
Proof.
move=> H; have [e [_ He]] := inverse_exists prec H.
exists (fun i j => ptrunc prec (\sum_(k < nr A) e i k * ent b k j)); split=> [i j _ _|]; first exact: size_ptrunc.
change (solves (nr A) (nc b) prec (ent A) (fun i j => ptrunc prec (\sum_(k < nr A) e i k * ent b k j)) (ent b)).
apply: (solves_eq (leqnn prec) _ _ _ (@solves_exists F (nr A) (nc b) prec e (ent A) (ent b) He)) => // i j l H1 H2 H3.
by rewrite ptrunc_coef H3.
Qed.
Theorem C76_solution_unique A b u v prec : invertible_at_0 A -> solution A b u prec -> solution A b v prec ->
  forall i j, (i < nr A)%N -> (j < nc b)%N -> u i j = v i j.
Proof.
move=> H [Su Hu] [Sv Hv] i j Hi Hj; have [e [He _]] := inverse_exists prec H.
apply/polyP=> l; case: (ltnP l prec) => C; first exact: (solves_unique He Hu Hv).
by rewrite !nth_default //; [apply: leq_trans (Sv i j Hi Hj) C|apply: leq_trans (Su i j Hi Hj) C].
Qed.

Lemma is_pmat_below a m p e k : is_pmat a m p e -> (forall i j, (i < m)%N -> (j < p)%N -> size (e i j) <= k)%N -> entries_below k a.
Proof. by case=> R1 R2 H S i j; rewrite R1 R2 => Hi Hj; rewrite H // S. Qed.
Lemma plen_eq a c : nr a = nr c -> nc a = nc c -> (forall i j, (i < nr a)%N -> (j < nc a)%N -> ent a i j = ent c i j) -> plen a = plen c.
Proof.
move=> R1 R2 H; apply/eqP; rewrite eqn_leq; apply/andP; split; apply/plenP => i j.
  by move=> Hi Hj; rewrite H //; apply: plen_size; rewrite -?R1 -?R2.
by rewrite -R1 -R2 => Hi Hj; rewrite -H //; apply: plen_size.
Qed.

Lemma truncatedP A b prec (Ab := truncated A b prec) :
  is_pmat Ab.1 (nr A) (nc A) (fun i j => ptrunc prec (ent A i j)) /\ is_pmat Ab.2 (nr b) (nc b) (fun i j => ptrunc prec (ent b i j)).
Proof.
rewrite {}/Ab /truncated; case: ifP => C /=; first by split; apply: truncE.
move/norP: C; rewrite -!leqNgt => -[CA CB].
by split; split=> // i j Hi Hj; rewrite ptrunc_id //; apply: leq_trans (plen_size Hi Hj) _.
Qed.

Lemma inverse_nonzero a c m : invertible_at_0 a -> (0 < m)%N -> truncated_inverse a c m -> ~ zero_mat c.
Proof.
case=> n0 E _ m0 [R1 R2 _ H] Z; have [+ _] := H 0%N 0%N 0%N n0 n0 m0.
rewrite big1 => [|k _]; first by move/eqP; rewrite coef0 eq_sym oner_eq0.
by rewrite Z ?mulr0 ?R1 ?R2.
Qed.
Lemma invertible_nonzero a : invertible_at_0 a -> ~ zero_mat a.
Proof.
case=> n0 E U Z; move: U; rewrite (_ : \matrix_(i, j) _ = 0); first by case: (nr a) n0 => // n _; rewrite unitmxE det0 unitr0.
by apply/matrixP=> i j; rewrite !mxE Z ?coef0 // -E.
Qed.

Variables (garb : nat -> nat -> nat -> F) (mp : pmat F -> pmat F -> nat -> nat -> option (aoutcome (pmat F))).
Variables (mp_raw : smat F -> pmat F -> nat -> nat -> option (aoutcome (pmat F))).
Variables (inv : pmat F -> nat -> option (aoutcome (pmat F))).
Variables (get : pmat F -> nat -> option (aoutcome (pmat F -> option (aoutcome (pmat F))))).

(** what is needed of inv_trunc and get_lmultiplier *)
Definition inv_right (n m : nat) : Prop := forall a, invertible_at_0 a -> nr a = n ->
  exists c, inv a m = Some (AOk c) /\ truncated_inverse a c m.
Definition get_right (n m : nat) : Prop := forall a, nr a = n -> nc a = n -> ~ zero_mat a -> entries_below m a ->
  exists f, get a m.-1 = Some (AOk f) /\ multiplies_by n (ent a) f m.

(** The hypotheses on the solution: u has no zero block, see gapless *)
Lemma lowE fuel fftp small A b prec thresh u (T := odflt (default_thresh fftp small) thresh) :
  invertible_at_0 A -> nr b = nr A -> (0 < nc b)%N -> (0 < T)%N -> (0 < prec <= fuel)%N ->
  inv_right (nr A) T -> get_right (nr A) T -> mp_ok mp (nr A) (nc b) prec -> solution A b u prec ->
  (prec <= T)%N \/ gapless (nr A) (nc b) (uphalf T) prec u ->
  exists s, solve_series_low_precision garb mp mp_raw inv get fuel fftp small A b prec thresh = Some (AOk s) /\ is_smat s (nr A) (nc b) u.
Proof.
move=> HA Rb t0 T0 /andP[p0 Hf] Hinv Hget Hmp [Su Hu] Hg; have [n0 En _] := HA.
rewrite /solve_series_low_precision -/T; have [[A1 A2 HA'] [B1 B2 HB']] := truncatedP A b prec.
set Ab := truncated A b prec in A1 A2 HA' B1 B2 HB' *.
have IA : invertible_at_0 Ab.1.
  have := low_unit HA p0; case=> _ _ X; split; rewrite ?A1 ?A2 //.
  rewrite (_ : \matrix_(i, j) _ = \matrix_(i < nr A, j < nr A) (ptrunc prec (ent A i j))`_0) //.
  by apply/matrixP=> i j; rewrite !mxE HA' // -En.
have [iA [-> Hi]] := Hinv _ IA A1.
have [I1 I2 I3 I4] := Hi; rewrite A1 in I1 I2 I4.
have [//|//||//|f [Ef Hm]] := Hget iA; first exact: inverse_nonzero IA T0 Hi.
rewrite {1}/bindm Ef {1}/bindm.
apply: (@solve_DACE F garb mp mp_raw (nr A) (nc b) T prec (ent iA) f fuel Ab.1 Ab.2 prec u) => //; rewrite ?A2 ?B1 ?B2 //.
- by rewrite p0.
- by move=> i j; rewrite A1 A2 => X1 X2; rewrite HA' // size_ptrunc.
- by move=> i j; rewrite B1 B2 => X1 X2; rewrite HB' // size_ptrunc.
- apply: (solves_eq (leqnn prec) _ _ _ Hu) => // i j l X1 X2 X3; first by rewrite HA' // -?En // ptrunc_coef X3.
  by rewrite HB' ?Rb // ptrunc_coef X3.
- apply: inverse_mod_le (geq_minl _ _) _ => i j l X1 X2 X3; by case: (I4 i j l X1 X2 X3).
Qed.

(** the precision of the blocks, the number of blocks minus one *)
Definition block_len A (prec : nat) : nat := plen (low_part A prec).
Definition last_block A (prec : nat) : nat := prec.-1 %/ block_len A prec.

Lemma highE A b prec U (L := block_len A prec) (nb := last_block A prec) :
  invertible_at_0 A -> nr b = nr A -> (0 < prec)%N -> inv_right (nr A) L -> get_right (nr A) L ->
  solves (nr A) (nc b) (nb.+1 * L) (ent (low_part A prec)) U (ent (low_part b prec)) ->
  [/\ (0 < L)%N, (nb * L < prec <= nb.+1 * L)%N &
  exists s, solve_series_high_precision garb inv get A b prec = Some (AOk s) /\
   [/\ sr s = nr A, sc s = nc b & forall i j, (i < nr A)%N -> (j < nc b)%N ->
     sent s i j = if (prec < size (ptrunc (nb.+1 * L) (U i j)))%N then polyseq (ptrunc prec (U i j)) else pad (nb * L) (ptrunc (nb.+1 * L) (U i j))]].
Proof.
move=> HA Rb p0 Hinv Hget Hs; have [n0 En _] := HA.
have IL := low_unit HA p0.
have L0 : (0 < L)%N by rewrite lt0n; apply/eqP=> /zero_plen; apply: invertible_nonzero.
have Hnb : (nb * L < prec <= nb.+1 * L)%N.
  by have := divn_eq prec.-1 L; have := ltn_pmod prec.-1 L0; rewrite -/nb mulSn; move: (_ %% _)%N (nb * L)%N p0; clear; lia.
split=> //; rewrite /solve_series_high_precision; have [[A1 A2 HA'] [B1 B2 HB']] := truncatedP A b prec.
set Ab := truncated A b prec in A1 A2 HA' B1 B2 HB' *.
have EL : plen Ab.1 = L by apply: plen_eq => //; rewrite A1 A2.
rewrite EL (gtn_eqF L0).
have IA : invertible_at_0 Ab.1.
  case: (IL) => _ _ X; split; rewrite ?A1 ?A2 //.
  rewrite (_ : \matrix_(i, j) _ = \matrix_(i < nr A, j < nr A) (ptrunc prec (ent A i j))`_0) //.
  by apply/matrixP=> i j; rewrite !mxE HA' // -En.
have [iA [-> Hi]] := Hinv _ IA A1.
have [I1 I2 I3 I4] := Hi; rewrite A1 in I1 I2 I4.
have [//|//||//|fI [EfI HmI]] := Hget iA; first exact: inverse_nonzero IA L0 Hi.
have SA : entries_below L Ab.1 by apply/plenP; rewrite EL.
have [//|||//|fA [EfA HmA]] := Hget Ab.1; [by rewrite A2|exact: invertible_nonzero|].
rewrite {1}/bindm EfI {1}/bindm EfA {1}/bindm -/nb.
have Hi' : inverse_mod (nr A) L (ent iA) (ent Ab.1) by move=> i j l X1 X2 X3; case: (I4 i j l X1 X2 X3).
have Hs' : solves (nr A) (nc b) (nb.+1 * L) (ent Ab.1) U (ent Ab.2).
  apply: (solves_eq (leqnn _) _ _ _ Hs) => // i j l X1 X2 X3; first by rewrite HA' // -En.
  by rewrite HB' ?Rb.
have B1' : nr Ab.2 = nr A by rewrite B1.
have A2' : nc Ab.1 = nr A by rewrite A2.
have [|c [-> Hst]] := high_startE B1' B2 HmI Hi' Hs'; first by rewrite mulSn leq_addr.
rewrite {1}/bindm add1n [nb.+1.-1]/=.
have [st [-> [S1 S2 HS _ _]]] := @high_loop F garb (nr A) (nc b) L (nb.+1 * L) (ent iA) fA fI Ab.1 Ab.2 U L0 A1 A2' B1' B2 SA HmI HmA Hi' Hs' nb _ (leqnn _) Hst.
rewrite /bindm; eexists; split; first by [].
split=> // i j X1 X2; rewrite [LHS]/= HS // trunc_pad; last by case/andP: Hnb => /ltnW.
case: ifP => // C; congr polyseq; apply/polyP=> l; rewrite !ptrunc_coef; case: ifP => // Cl; rewrite ifT //.
by apply: leq_trans Cl _; case/andP: Hnb.
Qed.

(** the solution to the precision of the blocks *)
Lemma extended A b prec m : invertible_at_0 A -> nr b = nr A -> (0 < prec <= m)%N -> exists U,
  solves (nr A) (nc b) m (ent (low_part A prec)) U (ent (low_part b prec)) /\
  forall u, solution A b u prec -> forall i j, (i < nr A)%N -> (j < nc b)%N -> ptrunc prec (U i j) = u i j.
Proof.
move=> HA Rb /andP[p0 Hm]; have [U [SU HU]] := C76_solution_exists (low_part b prec) m (low_unit HA p0).
exists U; split; first by [].
move=> u Hu; apply: (C76_solution_unique HA _ Hu); split=> [i j _ _|]; first exact: size_ptrunc.
change (solves (nr A) (nc b) prec (ent A) (fun i j => ptrunc prec (U i j)) (ent b)).
have [_ En _] := HA.
by apply: (@solves_eq F (nr A) (nc b) m prec _ _ _ _ _ _ Hm _ _ _ HU) => i j l X1 X2 X3; rewrite /= !ptrunc_coef X3.
Qed.

(** the coefficients are those of the solution; there are leading zeros in some entries of small degree *)
Lemma high_solution A b prec u (L := block_len A prec) (nb := last_block A prec) :
  invertible_at_0 A -> nr b = nr A -> (0 < prec)%N -> inv_right (nr A) L -> get_right (nr A) L -> solution A b u prec ->
  exists s, solve_series_high_precision garb inv get A b prec = Some (AOk s) /\
   [/\ sr s = nr A, sc s = nc b & forall i j, (i < nr A)%N -> (j < nc b)%N ->
     (forall l, (sent s i j)`_l = (u i j)`_l) /\ ((nb * L <= size (u i j))%N -> sent s i j = u i j :> seq F)].
Proof.
move=> HA Rb p0 Hinv Hget Hu.
have L0 : (0 < L)%N by rewrite lt0n; apply/eqP=> /zero_plen; apply: invertible_nonzero; apply: low_unit.
have Hnb : (0 < prec <= nb.+1 * L)%N.
  by have := divn_eq prec.-1 L; have := ltn_pmod prec.-1 L0; rewrite -/nb mulSn; move: (_ %% _)%N (nb * L)%N p0; clear; lia.
have [U [HU1 HU2]] := extended HA Rb Hnb.
have [_ Hnb2 [s [Es [S1 S2 HS]]]] := highE HA Rb p0 Hinv Hget HU1.
exists s; split=> //; split=> // i j Hi Hj; rewrite HS // -/nb -/L.
have E := HU2 u Hu i j Hi Hj.
case: ltnP => C; first by rewrite E.
have -> : ptrunc (nb.+1 * L) (U i j) = u i j.
  rewrite -E; apply/polyP=> l; rewrite !ptrunc_coef; case: (ltnP l prec) => Cl.
    by rewrite ifT //; apply: leq_trans Cl _; case/andP: Hnb.
  case: ifP => // Cm; have : (ptrunc (nb.+1 * L) (U i j))`_l = 0 by apply: nth_default; apply: leq_trans C Cl.
  by rewrite ptrunc_coef Cm.
by split=> [l|H]; [rewrite pad_coef|rewrite pad_id].
Qed.

(** a polynomial solution of small degree: leading zeros *)
Lemma high_unnormalized A b prec U i j (L := block_len A prec) (nb := last_block A prec) :
  invertible_at_0 A -> nr b = nr A -> (0 < prec)%N -> inv_right (nr A) L -> get_right (nr A) L ->
  solves (nr A) (nc b) (nb.+1 * L) (ent (low_part A prec)) U (ent (low_part b prec)) ->
  (i < nr A)%N -> (j < nc b)%N -> (size (U i j) < nb * L)%N ->
  exists s, solve_series_high_precision garb inv get A b prec = Some (AOk s) /\
    size (sent s i j) = (nb * L)%N /\ last 1 (sent s i j) = 0.
Proof.
move=> HA Rb p0 Hinv Hget HU Hi Hj Hsz.
have [L0 /andP[H1 H2] [s [Es [S1 S2 HS]]]] := highE HA Rb p0 Hinv Hget HU.
exists s; split=> //; rewrite HS // -/nb -/L.
have Sz : (size (U i j) <= nb.+1 * L)%N by apply: ltnW; apply: leq_trans Hsz _; rewrite leq_mul2r leqnSn orbT.
rewrite (ptrunc_id Sz) ltnNge (ltnW (leq_trans Hsz (ltnW H1))) /=; split; last exact: pad_bad.
by rewrite pad_size; apply/maxn_idPr/ltnW.
Qed.

(** in the divide and conquer algorithm, a first half that is zero *)
Lemma low_zero_half fuel fftp small A b prec thresh (T := odflt (default_thresh fftp small) thresh) :
  invertible_at_0 A -> nr b = nr A -> (0 < T)%N -> (T < prec <= 2 * T)%N -> (prec <= fuel)%N ->
  inv_right (nr A) T -> get_right (nr A) T -> (forall i j l, (i < nr b)%N -> (j < nc b)%N -> (l < prec./2)%N -> (ent b i j)`_l = 0) ->
  (forall x c, zero_mat x -> nr x = nc b -> nc x = nr A -> nr c = nr A -> nc c = nr A -> mp x c prec./2 (prec - prec./2).-1 = Some AUB) ->
  solve_series_low_precision garb mp mp_raw inv get fuel fftp small A b prec thresh = Some AUB.
Proof.
move=> HA Rb T0 HT Hf Hinv Hget Hz Hmp; have [n0 En _] := HA; have p0 : (0 < prec)%N by move: HT; clear; lia.
rewrite /solve_series_low_precision -/T; have [[A1 A2 HA'] [B1 B2 HB']] := truncatedP A b prec.
set Ab := truncated A b prec in A1 A2 HA' B1 B2 HB' *.
have IA : invertible_at_0 Ab.1.
  have := low_unit HA p0; case=> _ _ X; split; rewrite ?A1 ?A2 //.
  rewrite (_ : \matrix_(i, j) _ = \matrix_(i < nr A, j < nr A) (ptrunc prec (ent A i j))`_0) //.
  by apply/matrixP=> i j; rewrite !mxE HA' // -En.
have [iA [-> Hi]] := Hinv _ IA A1.
have [I1 I2 I3 I4] := Hi; rewrite A1 in I1 I2 I4.
have [//|//||//|f [Ef Hm]] := Hget iA; first exact: inverse_nonzero IA T0 Hi.
rewrite {1}/bindm Ef {1}/bindm.
case: fuel Hf => [|fuel] Hf; first by move: p0 Hf; clear; lia.
rewrite /= leqNgt; case/andP: (HT) => -> _ /=.
have Hh : (prec./2 <= T)%N by move: HT; clear; lia.
set tA := pm_truncate _ _ Ab.1 prec./2; set tb := pm_truncate _ _ Ab.2 prec./2.
have Ed : forall (a1 b1 : pmat F) m, (m <= T)%N -> solve_DAC garb mp mp_raw fuel a1 b1 m f T =
   bindm (f b1) (fun sol => Some (AOk (stored (pm_truncate true sol sol m)))) by move=> a1 b1 m Hm'; case: (fuel) => [|z] /=; rewrite Hm'.
rewrite Ed //.
have [W1 W2 HW] := truncE false (new_pmat F) Ab.2 prec./2; rewrite -/tb B1 B2 in W1 W2 HW.
have [||c [-> [C1 C2 HC]]] := Hm tb; first by rewrite W1.
  by move=> i j; rewrite W1 W2 => X1 X2; rewrite HW //; apply: leq_trans (size_ptrunc _ _) Hh.
rewrite /bindm; have [V1 V2 HV] := truncE true c c prec./2; rewrite C1 C2 W2 in V1 V2 HV.
set sol := pm_truncate true c c prec./2; rewrite -/sol in V1 V2 HV.
have Ztb k j : (k < nr b)%N -> (j < nc b)%N -> ent tb k j = 0.
  move=> X1 X2; rewrite HW // HB' //; apply/polyP=> l; rewrite coef0 ptrunc_coef; case: ifP => // Cl; rewrite ptrunc_coef.
  by case: ifP => // _; rewrite Hz.
have Hsol : is_smat (stored sol) (nr A) (nc b) (fun _ _ => 0).
  apply: storedE; split=> // i j X1 X2; rewrite HV // HC ?W2 // big1; last by move=> k _; rewrite Ztb ?mulr0 // Rb.
  by apply/polyP=> l; rewrite ptrunc_coef !coef0; case: ifP.
have [NS [Z1 Z2 HZ]] := normal_strans Hsol.
rewrite /mp_stored NS Hmp //.
- by move=> i j; rewrite Z1 Z2 => X1 X2; rewrite HZ.
- by have [-> _ _] := transposeE tA Ab.1; rewrite A2.
Qed.
End Generic.

Section Prime.
Variables (p : nat) (fftp : bool) (maxroot_p : nat) (xp : nat -> nat -> 'F_p) (nbits_p : nat).
Variables (wbits spbits : nat) (ru : nat -> nat -> nat).
Variables (q : nat -> nat) (nbits maxroot : nat -> nat) (x3 : forall i, nat -> nat -> 'F_(q i)).
Variables (trs : nat) (wak ev nv evm : nat -> nat) (cbrt : nat -> nat).
Variables (mfuel MX KARX : nat) (ul : bool) (garb : nat -> nat -> nat -> nat -> 'F_p) (garb1 : nat -> 'F_p) (garb3 : nat -> nat -> nat -> 'F_p).
Variables (rnd : seq 'F_p) (feas fft : bool).
Variable mp_raw : smat [fieldType of 'F_p] -> pmat [fieldType of 'F_p] -> nat -> nat -> option (aoutcome (pmat [fieldType of 'F_p])).
Implicit Types (A b c : pmat [fieldType of 'F_p]) (u : fmat {poly 'F_p}).
(** the modulus is a prime, the constants and the FFT primes of NTL are as expected (see C71 and C73), FFTRoundUp is increasing *)
Hypotheses (Hmm : P_nmm.setting fftp maxroot_p xp wbits spbits ru q nbits) (Hmp : P_nmp3.setting fftp maxroot_p xp q KARX).
Hypothesis Hmono : forall l l' k, (l <= l')%N -> (ru l k <= ru l' k)%N.

Let mul b c := @multiply p fftp maxroot_p xp nbits_p wbits spbits ru q nbits maxroot x3 trs wak ev cbrt true b b c true.
Let mp b c dA dB := @middle_mat p fftp maxroot_p xp nbits_p q nbits maxroot x3 nv evm cbrt mfuel MX KARX ul garb b c dA dB true.
Let inv A m := inv_trunc mfuel fftp maxroot_p xp mp mul false (new_raw _) A m.
Let get := @get_lmultiplier p fftp maxroot_p xp nbits_p wbits spbits ru q nbits maxroot x3 mfuel MX KARX ul garb1 rnd feas fft.
Let small := (nbits_p <= 25)%N.
Local Notation fits := (@fits p q maxroot x3).
(** the functions of mat_lzz_pX_linsolve.cpp, with the functions of C73, C74 and C75 *)
Definition low A b prec thresh := solve_series_low_precision garb3 mp mp_raw inv get mfuel fftp small A b prec thresh.
Definition high A b prec := solve_series_high_precision garb3 inv get A b prec.
Definition series A b prec := solve_series garb3 mp mp_raw inv get mfuel fftp small A b prec.
Definition series_vec A n (b : nat -> {poly 'F_p}) prec := solve_series_vec garb3 mp mp_raw inv get mfuel fftp small A n b prec.

(** the field has enough elements, or the FFT primes are large enough, for multipliers of n x n matrices with m coefficients *)
Definition enough (n m : nat) : Prop := (m <= mfuel)%N /\ fits n m /\
  if fftp then is_true (next_pow2 (2 * m - 1) <= maxroot_p)%N
  else (2 * m - 1 <= p)%N /\ ((m <= 151)%N \/ (if (n <= 200)%N || (nbits_p <= 25)%N then True else points_found rnd (2 * m - 1) /\ (2 * m - 1 <= mfuel)%N)).

Lemma inv_rightE n m : (0 < m)%N -> enough n m -> inv_right inv n m.
Proof.
move=> m0 [Hf [Hfit _]] a Ha Rn.
apply: (C74_inv_trunc nbits_p trs wak ev nv evm cbrt MX ul garb Hmm Hmp) => //; first by rewrite Rn.
by constructor 2; right.
Qed.

Lemma get_rightE n m : (0 < m)%N -> enough n m -> get_right get n m.
Proof.
move=> m0 [Hf [[H1 H2] He]] a R1 R2 Za Sa; have HK : (1 < KARX)%N by case: Hmp.
have Pa : (plen a <= m)%N by apply/plenP.
have Pm : (plen a + m.-1 <= 2 * m - 1)%N by move: Pa m0; clear; lia.
have Hx : @multiplier_exists p fftp maxroot_p nbits_p q maxroot x3 mfuel rnd a m.-1.
  rewrite /multiplier_exists; move: He; case: ifP => Ef.
    by apply: leq_trans; apply: leq_up_log.
  case=> Hp Hm; case: ifP => C1; first exact: leq_trans Pm Hp.
  case: Hm => [Hm|]; first by move: (leq_trans Pa Hm); rewrite C1.
  rewrite R1; case: ifP => C2.
    move=> _; split.
      by move=> i Hi k' Hk'; apply: (H1 i Hi); apply: leq_trans Hk' _; apply: leq_up_log; move: Pm; clear; lia.
    by apply: leq_ltn_trans H2; rewrite R2 leq_mul2l /= !leq_mul // geq_min Pa.
  case=> [[Hp1 [x Hx1 Hx2]] Hp2]; split; last exact: leq_trans Pm Hp2.
  split; first by apply: leq_trans Hp1; rewrite leq_mul2l Pm orbT.
  exists x => //; case: Hx2 => X0 X1; split=> // i Hi; apply: X1; move: Hi Pm; clear; lia.
have n0 : (0 < nc a)%N by rewrite lt0n; apply/eqP=> n0; apply: Za => i j _; rewrite n0.
have [f [Ef Hf']] := @C75_get_lmultiplier p fftp maxroot_p xp nbits_p wbits spbits ru q nbits maxroot x3 mfuel MX KARX ul garb1 rnd feas fft HK Hmm Hmono a m.-1 n0 (or_intror Za) Hx.
exists f; split=> // b Rb Sb; have [||c [Ec [C1 C2 Hc]]] := Hf' b; rewrite ?R2 ?Rb //; first by rewrite prednK.
by exists c; split=> //; split; rewrite ?C1 ?C2 ?R1 // => i j Hi Hj; rewrite Hc ?R1 // R2.
Qed.

Lemma mp_okE n t m : (m <= mfuel)%N -> fits n m -> mp_ok mp n t m.
Proof.
move=> Hf [H1 H2] x c h k /andP[h0 Hk] Hm R1 R2 R3 R4 NZ Sx Sc.
have Hp := plen_below Sx; have k0 : (0 < k)%N := leq_trans h0 Hk.
apply: (@C73_middle_product p fftp maxroot_p xp nbits_p q nbits maxroot x3 nv evm cbrt mfuel MX KARX ul garb Hmp x c h k.-1); rewrite ?R2 ?R3 //.
- by move=> i j Hi Hj; apply: leqW; apply: Sx.
- by move=> i j Hi Hj; apply: leq_trans (Sc i j Hi Hj) _; move: k0; clear; lia.
- by move: Hm Hf k0; clear; lia.
- by move: Hm Hf h0; clear; lia.
- right; split; first by move: Hp Hk k0; clear; lia.
    by apply: leq_ltn_trans H2; rewrite R2 leq_mul2l /= !leq_mul //; apply: leq_trans Hp _; move: Hm; clear; lia.
  by move=> i Hi; apply: (H1 i Hi); apply: leq_up_log; move: Hp Hm; clear; lia.
Qed.

(** *** solve_series_low_precision, with the threshold T. The entries of the solution have no zero block of T / 2 coefficients. *)
Theorem C76_low_precision A b prec thresh u (T := odflt (default_thresh fftp small) thresh) :
  invertible_at_0 A -> nr b = nr A -> (0 < nc b)%N -> (0 < T)%N -> (0 < prec <= mfuel)%N -> enough (nr A) T -> fits (nr A) prec ->
  solution A b u prec -> (prec <= T)%N \/ gapless (nr A) (nc b) (uphalf T) prec u ->
  exists s, low A b prec thresh = Some (AOk s) /\ is_smat s (nr A) (nc b) u.
Proof.
move=> HA Rb t0 T0 Hp He Hfit; apply: lowE => //; [exact: inv_rightE|exact: get_rightE|].
by apply: mp_okE => //; case/andP: Hp.
Qed.

(** *** solve_series_high_precision: the coefficients are those of the solution; the vector of coefficients is normalized for the
    entries whose degree is large enough *)
Theorem C76_high_precision A b prec u (L := block_len A prec) :
  invertible_at_0 A -> nr b = nr A -> (0 < prec)%N -> enough (nr A) L -> solution A b u prec ->
  exists s, high A b prec = Some (AOk s) /\
   [/\ sr s = nr A, sc s = nc b & forall i j, (i < nr A)%N -> (j < nc b)%N ->
     (forall l, (sent s i j)`_l = (u i j)`_l) /\ ((last_block A prec * L <= size (u i j))%N -> sent s i j = u i j :> seq 'F_p)].
Proof.
move=> HA Rb p0 He Hu.
have L0 : (0 < L)%N by rewrite lt0n; apply/eqP=> /zero_plen; apply: invertible_nonzero; apply: low_unit.
by apply: high_solution => //; [exact: inv_rightE|exact: get_rightE].
Qed.

(** *** solve_series *)
Theorem C76_solve_series A b prec u (T := default_thresh fftp small) (L := block_len A prec) :
  invertible_at_0 A -> nr b = nr A -> (0 < nc b)%N -> (0 < prec <= mfuel)%N -> solution A b u prec ->
  (if (prec <= 4 * (plen A).-1)%N then [/\ enough (nr A) T, fits (nr A) prec & (prec <= T)%N \/ gapless (nr A) (nc b) (uphalf T) prec u]
   else enough (nr A) L /\ forall i j, (i < nr A)%N -> (j < nc b)%N -> (last_block A prec * L <= size (u i j))%N) ->
  exists s, series A b prec = Some (AOk s) /\ is_smat s (nr A) (nc b) u.
Proof.
move=> HA Rb t0 Hp Hu; rewrite /series /solve_series; case: ifP => C.
  by case=> He Hfit Hg; apply: (@C76_low_precision A b prec None u) => //; rewrite /= /default_thresh; case: (fftp); case: small.
case=> He Hd; case/andP: Hp => p0 _; have [s [Es [S1 S2 HS]]] := C76_high_precision HA Rb p0 He Hu.
exists s; split=> //; split=> // i j Hi Hj; have [_] := HS i j Hi Hj; apply; exact: Hd.
Qed.

(** for vectors *)
Theorem C76_solve_series_vector A (b : nat -> {poly 'F_p}) prec (u : nat -> {poly 'F_p}) (n := nr A) (T := default_thresh fftp small) (L := block_len A prec) :
  invertible_at_0 A -> (0 < prec <= mfuel)%N -> (forall i, (i < n)%N -> (size (u i) <= prec)%N) ->
  (forall i l, (i < n)%N -> (l < prec)%N -> (\sum_(k < n) ent A i k * u k)`_l = (b i)`_l) ->
  (if (prec <= 4 * (plen A).-1)%N then [/\ enough n T, fits n prec & (prec <= T)%N \/ gapless n 1 (uphalf T) prec (fun i _ => u i)]
   else enough n L /\ forall i, (i < n)%N -> (last_block A prec * L <= size (u i))%N) ->
  exists v, series_vec A n b prec = Some (AOk v) /\ forall i, (i < n)%N -> v i = u i :> seq 'F_p.
Proof.
move=> HA Hp Su Hu Hc.
have [||s [Es [S1 S2 HS]]] := @C76_solve_series A (Pmat n 1 (fun i _ => b i)) prec (fun i _ => u i) HA erefl isT Hp.
- by split=> [i j Hi _|i j l Hi _ Hl]; [exact: Su|exact: Hu].
- by move: Hc; case: ifP => // _ [He Hd]; split=> // i j Hi _; exact: Hd.
rewrite /series_vec /solve_series_vec -/(series A _ prec) Es /bindm S1 ltnn; eexists; split; first by [].
by move=> i Hi; exact: (HS i 0%N Hi isT).
Qed.

(** *** What is false. A polynomial solution of small degree is returned with leading zeros: its degree is wrong, and it is different
    from itself for NTL. U is the solution for the precision of the blocks. *)
Theorem C76_not_normalized_refuted A b prec U i j (L := block_len A prec) (nb := last_block A prec) :
  invertible_at_0 A -> nr b = nr A -> (4 * (plen A).-1 < prec)%N -> enough (nr A) L ->
  solution (low_part A prec) (low_part b prec) U (nb.+1 * L) -> (i < nr A)%N -> (j < nc b)%N -> (size (U i j) < nb * L)%N ->
  exists s, series A b prec = Some (AOk s) /\ size (sent s i j) = (nb * L)%N /\ last 1 (sent s i j) = 0.
Proof.
move=> HA Rb Hp He [_ HU] Hi Hj Hs; have p0 : (0 < prec)%N by move: Hp; clear; lia.
have L0 : (0 < L)%N by rewrite lt0n; apply/eqP=> /zero_plen; apply: invertible_nonzero; apply: low_unit.
rewrite /series /solve_series leqNgt Hp /=; apply: (high_unnormalized _ HA Rb p0 _ _ HU) => //; [exact: inv_rightE|exact: get_rightE].
Qed.

(** A right-hand side whose first coefficients are zero: middle_product is called with a zero matrix and dA = -1, see C73_zero_refuted *)
Theorem C76_zero_half_refuted A b prec thresh (T := odflt (default_thresh fftp small) thresh) :
  invertible_at_0 A -> nr b = nr A -> (0 < nc b)%N -> (0 < T)%N -> (T < prec <= 2 * T)%N -> (prec <= mfuel)%N -> enough (nr A) T ->
  (forall i j l, (i < nr b)%N -> (j < nc b)%N -> (l < prec./2)%N -> (ent b i j)`_l = 0) ->
  (nv (cbrt (nc b * nr A * nr A)) <= (prec - prec./2).-1)%N ->
  low A b prec thresh = Some AUB /\ (thresh = None -> (prec <= 4 * (plen A).-1)%N -> series A b prec = Some AUB).
Proof.
move=> HA Rb t0 T0 Hp Hf He Hz Hn; have [n0 _ _] := HA.
suff E : low A b prec thresh = Some AUB.
  by split=> // Et Hd; rewrite /series /solve_series Hd -{}Et.
apply: low_zero_half => //; [exact: inv_rightE|exact: get_rightE|].
move=> x c Zx R1 R2 R3 R4; apply: C73_zero_refuted; rewrite ?R1 ?R2 ?R4 //.
Qed.
End Prime.

(** the hypotheses are met, modulo 3, with A = (1 + X) I and all the entries of b equal to 1 (the solution is dense), or to 1 + X (the
    solution is 1, with 7 leading zeros) *)
Example C76_met : let q i := nth 2%N [:: 5; 13; 17]%N i in
  let x (i k j : nat) : 'F_(q i) := (if k is k'.+1 then if k' is _.+1 then nth 1%N [:: 2; 5; 4]%N i else (q i - 1)%N else 1%N)%:R ^+ j in
  let A := Pmat 2 2 (fun i j => if i == j then 1 + 'X else 0 : {poly 'F_3}) in
  let b c := Pmat 2 3 (fun i j => c : {poly 'F_3}) in
  let u m := (fun i j : nat => \poly_(l < m) (-1) ^+ l : {poly 'F_3}) in
  let ok := @enough 3 false 0 2 q (fun _ => 2%N) x 9 [::] in
  [/\ P_nmm.setting false 0 (fun _ _ => 0 : 'F_3) 6 5 (fun _ k => (2 ^ k)%N) q (fun _ => 5%N),
      P_nmp3.setting false 0 (fun _ _ => 0 : 'F_3) q 2 & invertible_at_0 A] /\
  [/\ ok 2%N 1%N, fits 3 (fun _ => 2%N) x 2 2, solution A (b 1) (u 2%N) 2, gapless 2 3 1 2 (u 2%N) &
      forall i j l, (l < 2./2)%N -> (ent (b 'X) i j)`_l = 0] /\
  [/\ block_len A 9 = 2%N, last_block A 9 = 4%N, (4 * (plen A).-1 < 9)%N, ok 2%N 2%N & solution A (b 1) (u 9%N) 9] /\
  (forall i j, size (u 9%N i j) = 9%N) /\
  solution (low_part A 9) (low_part (b (1 + 'X)) 9) (fun _ _ => 1) 10.
Proof.
move=> q x A b u ok; have [H1 H2 H3] := C74_primes_met.
have Fit : fits 3 (fun _ => 2%N) x 2 2 by case: H3 => F1 F2; split.
have S2 : size (1 + 'X : {poly 'F_3}) = 2%N by rewrite addrC -[1]/(1%:P) size_XaddC.
have tr i j : ptrunc 9 (ent A i j) = ent A i j by apply: ptrunc_id; rewrite /=; case: eqP => _; rewrite ?S2 ?size_poly0.
have LA : plen A = 2%N.
  apply/eqP; rewrite eqn_leq; apply/andP; split; first by apply/plenP=> i j _ _ /=; case: eqP => _; rewrite ?S2 ?size_poly0.
  by have := @plen_size _ A 0 0 isT isT; rewrite /= S2.
have BL : block_len A 9 = 2%N by apply: etrans LA; apply: plen_eq => // i j _ _; exact: tr.
have sumA (i : nat) (v : nat -> {poly 'F_3}) : (i < 2)%N -> \sum_(k < 2) ent A i k * v k = (1 + 'X) * v i.
  by move=> Hi; rewrite !big_ord_recr big_ord0 /= add0r; case: i Hi => [|[|i]] //= _; rewrite mul0r ?addr0 ?add0r.
have sol m : solution A (b 1) (u m) m.
  split=> [i j _ _|i j l Hi _ Hl]; first exact: size_poly.
  rewrite (sumA _ (fun k => u m k j)) // mulrDl mul1r coefD coefXM coef_poly Hl coef1; case: l Hl => [|l] Hl /=; first by rewrite addr0.
  by rewrite coef_poly (ltnW Hl) exprS mulN1r addNr.
split; first split=> //.
  split=> //=; rewrite (_ : \matrix_(i, j) _ = 1%:M) ?unitmx1 //.
  apply/matrixP=> i j; rewrite !mxE -val_eqE /=; case: eqP => _; last by rewrite coef0.
  by rewrite coefD coef1 coefX addr0.
split.
  split=> //.
  - split=> //; split; last by split=> //; left.
    case: H3 => F1 F2; split=> // i Hi k Hk; apply: (F1 i Hi); exact: leq_trans Hk _.
  - move=> i j o _ _ Ho; exists o; first by rewrite leqnn addn1 ltnSn.
    by rewrite coef_poly ifT; [rewrite signr_eq0|move: Ho; clear; lia].
  - by move=> i j [|l] // _; rewrite coefX.
split; first split=> //; first by rewrite /last_block BL.
- by rewrite LA.
- by split=> //; split=> //; split=> //; left.
split; first by move=> i j; rewrite size_poly_eq // signr_eq0.
split=> [i j _ _|i j l Hi _ _]; first by rewrite size_poly1.
rewrite (eq_bigr (fun k : 'I_2 => ent A i k * 1)) => [|k _]; last by rewrite -tr.
rewrite (sumA i (fun _ => 1)) // mulr1; congr (polyseq _)`_l; by apply: esym; apply: ptrunc_id; rewrite S2.
Qed.

Print Assumptions C76_solution_exists.
Print Assumptions C76_solution_unique.
Print Assumptions C76_low_precision.
Print Assumptions C76_high_precision.
Print Assumptions C76_solve_series.
Print Assumptions C76_solve_series_vector.
Print Assumptions C76_not_normalized_refuted.
Print Assumptions C76_zero_half_refuted.
