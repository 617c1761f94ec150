(** Proofs for N_mm3_model: the result of [three_primes] from its images modulo the primes. Used by P_nmm3 and P_nmp3. *)
From mathcomp Require Import all_ssreflect all_fingroup all_algebra all_field zify.
From Verif Require Import A_base N_pmat_model N_trs_proof N_mmfft_model N_mm3_model N_mm3_proof.
Set Implicit Arguments.
Unset Strict Implicit.
Unset Printing Implicit Defensive.
Import GRing.Theory.

Lemma sub00 n : sub_mod 0 0 n = 0. Proof. by []. Qed.
Lemma mul00 v n : mul_mod 0 v n = 0. Proof. exact: mod0n. Qed.
Lemma add00 n : add_mod 0 0 n = 0. Proof. by rewrite /add_mod if_same. Qed.

Section Crt.
Variables (p m w : nat) (S : nat -> nat -> nat -> nat).
Hypothesis pp : 1 < p.
(** the m x w matrix whose entries have the coefficients S i j k modulo p *)
Definition zgives (res : option (aoutcome zmat)) : Prop :=
  exists c, [/\ res = Some (AOk c), znr c = m, znc c = w & forall i j, i < m -> j < w ->
    normal (zent c i j) /\ forall k, nth 0 (zent c i j) k = S i j k %% p].

Lemma crt2 c0 p0 c1 p1 : prime p0 -> prime p1 -> p0 <> p1 -> znr c0 = m -> znc c0 = w -> znr c1 = m -> znc c1 = w ->
  (forall i j, i < m -> j < w -> forall k, nth 0 (zent c0 i j) k = S i j k %% p0) ->
  (forall i j, i < m -> j < w -> forall k, nth 0 (zent c1 i j) k = S i j k %% p1) ->
  (forall i j k, i < m -> j < w -> S i j k < p0 * p1) ->
  zgives (Some (reconstruct_2crt p c0 p0 c1 p1)).
Proof.
move=> P0 P1 N R1 R2 R3 R4 H0 H1 HS; rewrite /reconstruct_2crt.
wlog: c0 p0 c1 p1 P0 P1 N R1 R2 R3 R4 H0 H1 HS / p0 < p1 => [W|].
  case: (ltngtP p1 p0) => C //.
  - have F : (p0 < p1) = false by lia.
    move: (@W c1 p1 c0 p0); rewrite F => W'; apply: W' => //; first by apply: nesym.
    by move=> i j k Hi Hj; rewrite mulnC; apply: HS.
  - have F : (p1 < p0) = false by lia.
    by move: (@W c0 p0 c1 p1); rewrite F => W'; apply: W'.
  - by case: N.
move=> C; have -> : (p1 < p0) = false by lia.
rewrite /crt2_sorted.
have Cp : coprime p0 p1 by rewrite prime_coprime // dvdn_prime2 //; apply/eqP.
have [v Ev] := inv_mod_some Cp; have Hv := inv_modP (prime_gt1 P1) Ev; rewrite Ev.
eexists; split=> // i j Hi Hj /=; split; first exact: normalize_normal.
move=> k; rewrite combineE; last by rewrite geq_min leq_max leqnn.
have CR := crt2E (ltnW pp) (prime_gt0 P0) (ltnW C) Hv (HS i j k Hi Hj).
case: ifP => Hk; first by rewrite H0 // H1.
have [Z0 Z1] : S i j k %% p0 = 0 /\ S i j k %% p1 = 0.
  by rewrite -H0 // -H1 //; split; apply: nth_default; rewrite leqNgt; apply: contraFN Hk; rewrite leq_max => ->; rewrite ?orbT.
by rewrite -CR Z0 Z1 sub00 mul00 !mod0n mul00 add00.
Qed.

Lemma crt3_sortedE c0 p0 c1 p1 c2 p2 : prime p0 -> prime p1 -> prime p2 -> p0 < p1 -> p1 < p2 -> znr c0 = m -> znc c0 = w ->
  (forall i j, i < m -> j < w -> forall k, nth 0 (zent c0 i j) k = S i j k %% p0) ->
  (forall i j, i < m -> j < w -> forall k, nth 0 (zent c1 i j) k = S i j k %% p1) ->
  (forall i j, i < m -> j < w -> forall k, nth 0 (zent c2 i j) k = S i j k %% p2) ->
  (forall i j k, i < m -> j < w -> S i j k < p0 * p1 * p2) ->
  zgives (Some (crt3_sorted p c0 p0 c1 p1 c2 p2)).
Proof.
move=> P0 P1 P2 C01 C12 R1 R2 H0 H1 H2 HS; rewrite /crt3_sorted.
have [v Ev] : exists v, inv_mod p0 p1 = Some v.
  by apply: inv_mod_some; rewrite prime_coprime // dvdn_prime2 //; apply/eqP; lia.
have [iw Ew] : exists iw, inv_mod (mul_mod p0 p1 p2) p2 = Some iw.
  apply: inv_mod_some; rewrite /mul_mod coprime_modl coprimeMl !prime_coprime // !dvdn_prime2 //.
  by apply/andP; split; apply/eqP; lia.
rewrite Ev Ew; eexists; split=> // i j Hi Hj /=; split; first exact: normalize_normal.
move=> k; rewrite combineE; last by rewrite geq_min leq_max leqnn.
have CR := crt3E (ltnW pp) (prime_gt0 P0) (ltnW C01) (ltnW C12) (inv_modP (prime_gt1 P1) Ev) (inv_modP (prime_gt1 P2) Ew) (HS i j k Hi Hj).
case: ifP => Hk; first by rewrite H0 // H1 // H2.
have [Z0 Z1 Z2] : [/\ S i j k %% p0 = 0, S i j k %% p1 = 0 & S i j k %% p2 = 0].
  rewrite -H0 // -H1 // -H2 //; split; apply: nth_default; rewrite leqNgt; apply: contraFN Hk; rewrite !leq_max => ->; by rewrite ?orbT.
by rewrite -CR Z0 Z1 Z2 sub00 !mul00 add00 sub00 !mul00 !mod0n !mul00 !add00.
Qed.

Lemma crt3 fuel c0 p0 c1 p1 c2 p2 : 3 < fuel -> prime p0 -> prime p1 -> prime p2 -> uniq [:: p0; p1; p2] ->
  (znr c0 = m /\ znc c0 = w) -> (znr c1 = m /\ znc c1 = w) -> (znr c2 = m /\ znc c2 = w) ->
  (forall i j, i < m -> j < w -> forall k, nth 0 (zent c0 i j) k = S i j k %% p0) ->
  (forall i j, i < m -> j < w -> forall k, nth 0 (zent c1 i j) k = S i j k %% p1) ->
  (forall i j, i < m -> j < w -> forall k, nth 0 (zent c2 i j) k = S i j k %% p2) ->
  (forall i j k, i < m -> j < w -> S i j k < p0 * p1 * p2) ->
  zgives (reconstruct_3crt fuel p c0 p0 c1 p1 c2 p2).
Proof.
move=> Hf P0 P1 P2 U D0 D1 D2 H0 H1 H2 HS.
have [N01 N02 N12] : [/\ p0 <> p1, p0 <> p2 & p1 <> p2].
  by move: U; rewrite /= !inE negb_or !andbT => /andP[/andP[/eqP ? /eqP ?] /eqP ?].
have L u v u3 : u * v * u3 = p0 * p1 * p2 -> forall i j k, i < m -> j < w -> S i j k < u * v * u3.
  by move=> ->.
do 4! [case: fuel Hf => // fuel Hf]; rewrite /=.
case: (ltngtP p1 p0) => C1 //; last by case: N01.
- case: (ltngtP p2 p0) => C2 //; last by case: N02.
  + case: (ltngtP p2 p1) => C3 //; last by case: N12.
    * by case: D2 => ? ?; apply: crt3_sortedE => //; apply: L; lia.
    * by case: D1 => ? ?; apply: crt3_sortedE => //; apply: L; lia.
  + by case: D1 => ? ?; apply: crt3_sortedE => //; apply: L; lia.
- case: (ltngtP p2 p1) => C2 //; last by case: N12.
  + case: (ltngtP p2 p0) => C3 //; last by case: N02.
    * by case: D2 => ? ?; apply: crt3_sortedE => //; apply: L; lia.
    * by case: D0 => ? ?; apply: crt3_sortedE => //; apply: L; lia.
  + by case: D0 => ? ?; apply: crt3_sortedE.
Qed.


Section Three.
Variables (q : nat -> nat) (f : nat -> aoutcome zmat).
Hypothesis Hq : forall i, i < 3 -> prime (q i).
Hypothesis U : uniq [:: q 0; q 1; q 2].
(** f gives the images modulo the primes *)
Hypothesis Hf : forall idx, idx < 3 -> exists c, [/\ f idx = AOk c, znr c = m, znc c = w &
  forall i j, i < m -> j < w -> forall k, nth 0 (zent c i j) k = S i j k %% q idx].

Lemma three_primesE nb : 0 < nb <= 3 -> (forall i j k, i < m -> j < w -> S i j k < \prod_(l < nb) q l) -> zgives (three_primes q p (Some nb) f).
Proof.
have [c0 [E0 R0 S0 V0]] := @Hf 0 isT; have [c1 [E1 R1 S1 V1]] := @Hf 1 isT; have [c2 [E2 R2 S2 V2]] := @Hf 2 isT.
have [N01 N02 N12] : [/\ q 0 <> q 1, q 0 <> q 2 & q 1 <> q 2].
  by move: U; rewrite /= !inE negb_or !andbT => /andP[/andP[/eqP ? /eqP ?] /eqP ?].
rewrite /three_primes; case: nb => [|[|[|[|nb]]]] // _ HB.
- rewrite eqxx E0; eexists; split=> // i j Hi Hj /=; split; first exact: reduce_normal.
  move=> k; rewrite reduceE V0 // [X in X %% p]modn_small //.
  by have := HB i j k Hi Hj; rewrite big_ord1.
- rewrite /= E0 E1 /=; apply: crt2 => //; [exact: Hq|exact: Hq|].
  by move=> i j k Hi Hj; have := HB i j k Hi Hj; rewrite !big_ord_recl big_ord0 muln1.
- move: (@crt3 4 c0 (q 0) c1 (q 1) c2 (q 2)); rewrite /= E0 E1 E2 /= => H; apply: H => //; [exact: Hq|exact: Hq|exact: Hq|].
  by move=> i j k Hi Hj; have := HB i j k Hi Hj; rewrite !big_ord_recl big_ord0 muln1 mulnA.
Qed.
End Three.

(** the number of primes that is chosen is large enough for the coefficients up to the bound *)
Lemma nb_primesE ncols lA lB p0 p1 p2 nb (q := fun i => nth 0 [:: p0; p1; p2] i) : nb_primes p ncols lA lB p0 p1 p2 = Some nb ->
  0 < nb <= 3 /\ ncols * minn lA lB * (p - 1) * (p - 1) < \prod_(l < nb) q l.
Proof.
rewrite /nb_primes; move: (_ * _ * (p - 1) * (p - 1)) => B.
case: (ltnP B p0) => C1; first by move=> [<-]; rewrite big_ord1.
case: (ltnP (2 * B) (p0 * p1)) => C2.
  move=> [<-]; have -> : \prod_(l < 2) q l = p0 * p1 by rewrite !big_ord_recl big_ord0 muln1.
  by split=> //; lia.
case: (ltnP (2 * B) (p0 * p1 * p2)) => C3 // [<-]; have -> : \prod_(l < 3) q l = p0 * p1 * p2 by rewrite !big_ord_recl big_ord0 muln1 mulnA.
by split=> //; lia.
Qed.
End Crt.
