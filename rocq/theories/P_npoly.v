(** Properties C55, C56, C57: power series division, Taylor shift and shifted addition of
    ntl-extras/lzz_pX_extra. *)
From mathcomp Require Import all_ssreflect all_algebra zify.
From Verif Require Import A_base A_mul_model N_poly_model N_series_proof N_shift_proof.
Set Implicit Arguments.
Unset Strict Implicit.
Unset Printing Implicit Defensive.
Import GRing.Theory.
Local Open Scope ring_scope.

(** ** C55 *)
Section C55.
Variable F : fieldType.
Implicit Types a b : {poly F}.

(** For every crossover value CR of at least 5 (NTL's values are 45 and 90), InvTruncMul ends and returns the
    quotient: a polynomial f of degree < m with a f = b modulo X^m. *)
Theorem C55_power_series_division (fuel CR m : nat) a b : (4 < CR)%N -> (m <= fuel)%N -> a`_0 != 0 ->
  exists f : {poly F}, [/\ inv_trunc_mul fuel CR b a m = Some (AOk f), (size f <= m)%N & 'X^m %| a * f - b].
Proof.
move=> H1 H2 H3; have [f [E S H]] := inv_trunc_mulP b H1 H2 H3.
by exists f; split=> //; apply/eqmP.
Qed.

(** There is only one such polynomial. *)
Theorem C55_quotient_unique (m : nat) a b (f g : {poly F}) : a`_0 != 0 ->
  (size f <= m)%N -> 'X^m %| a * f - b -> (size g <= m)%N -> 'X^m %| a * g - b -> f = g.
Proof.
move=> a0 Sf Hf Sg Hg; apply/eqP; rewrite -subr_eq0.
have D : 'X^m %| a * (f - g).
  have -> : a * (f - g) = (a * f - b) - (a * g - b) by rewrite opprB addrA subrK mulrBr.
  by apply: dvdp_sub.
have C : coprimep ('X^m) a.
  apply: coprimep_expl; rewrite coprimep_sym -['X]subr0 -polyC0 coprimep_XsubC.
  by rewrite rootE horner_coef0.
move: D; rewrite Gauss_dvdpr // => D; apply: contraLR D => N.
apply: contraL (isT) => D; have := dvdp_leq N D.
rewrite size_polyXn ltnNge (leq_trans (size_add _ _)) // size_opp geq_max Sf Sg //.
Qed.

(** A divisor whose constant coefficient is not invertible is reported. *)
Theorem C55_not_invertible (fuel CR m : nat) a b : (0 < m)%N -> a`_0 = 0 -> inv_trunc_mul fuel CR b a m = Some AUB.
Proof. exact: inv_trunc_mul_err. Qed.
End C55.

(** the hypotheses are met by 1 + X over the field with 7 elements, with Newton's iteration *)
Example C55_met : exists f : {poly 'F_7}, [/\ inv_trunc_mul 200 45 1 (1 + 'X) 200 = Some (AOk f),
  (size f <= 200)%N & 'X^200 %| (1 + 'X) * f - 1].
Proof. by apply: C55_power_series_division => //; rewrite coefD coef1 coefX. Qed.

(** ** C56 *)
Section C56.
Variable F : fieldType.

(** The shift object built for degrees at most d shifts every polynomial of degree at most d, in
    every characteristic. *)
Theorem C56_shift_object (d : nat) (c : F) :
  exists s, get_shift d.+1 c = AOk s /\
    forall f : {poly F}, (size f <= d.+1)%N -> s f = AOk (f \Po ('X + c%:P)).
Proof. exact: get_shiftP. Qed.

Theorem C56_taylor_shift_partial (f : {poly F}) (c : F) : f != 0 \/ 2%:R = 0 :> F ->
  taylor_shift f c = AOk (f \Po ('X + c%:P)).
Proof.
case: (eqVneq f 0) => [->|f0] H.
  have c2 : (2%:R : F) = 0 by case: H => //; rewrite eqxx.
  by rewrite /taylor_shift size_poly0 /get_shift /= c2 eqxx /= /dac_shift comp_poly0.
rewrite /taylor_shift; have [s [-> Hs]] := @get_shiftP F (size f) c ltac:(by rewrite size_poly_gt0).
exact: Hs.
Qed.

(** The zero polynomial, in every characteristic but 2, makes shift write out of an empty
    array. *)
Theorem C56_taylor_shift_zero_refuted (c : F) : 2%:R != 0 :> F -> taylor_shift 0 c = AUB.
Proof. by move=> H; rewrite /taylor_shift size_poly0 /get_shift /= H. Qed.
End C56.

Example C56_met2 : taylor_shift ('X^5 + 'X : {poly 'F_2}) 1 = AOk (('X^5 + 'X) \Po ('X + 1%:P)).
Proof. by apply: C56_taylor_shift_partial; right; apply/eqP. Qed.
Example C56_met7 : taylor_shift ('X^5 : {poly 'F_7}) 3%:R = AOk (('X + 3%:R%:P) ^+ 5).
Proof.
rewrite C56_taylor_shift_partial ?rmorphX /= ?comp_polyX //; left.
by rewrite -size_poly_gt0 size_polyXn.
Qed.
Example C56_refuted_met : (2%:R : 'F_7) != 0. Proof. by []. Qed.

(** ** C57 *)
Section C57.
Variable F : fieldType.
Implicit Types a b : {poly F}.

(** The vector stored in c is the normalised vector of the coefficients of a + X^k b, whatever c
    held before, when c is a third object or is a itself. *)
Theorem C57_add_left_shift_partial al (garb : nat -> F) a b (k : nat) :
  al = NoAlias \/ al = AliasA -> b != 0 \/ (k <= size a)%N ->
  add_left_shift al garb a b k = (a + 'X^k * b)%R :> seq F.
Proof. by move=> Ha; apply: add_left_shiftP; case: Ha => ->. Qed.

(** With b = 0 and k larger than the number of coefficients of a, c is not normalised. *)
Theorem C57_zero_not_normalised_refuted (garb : nat -> F) a (k : nat) : (size a < k)%N ->
  let c := add_left_shift NoAlias garb a 0 k in last 1 c = 0 /\ c <> (a + 'X^k * 0)%R :> seq F.
Proof.
move=> H c; have L : last 1 c = 0.
  rewrite /c /add_left_shift size_poly0 add0n (minn_idPl (ltnW H)) (maxn_idPr (ltnW H)) ltnn /= H.
  rewrite (maxn_idPl (ltnW H)) subnn /= (_ : (size a - k)%N = 0%N) /=; last by apply/eqP; rewrite subn_eq0 ltnW.
  have k0 : (0 < k)%N by apply: leq_ltn_trans H.
  rewrite -nth_last size_mkseq nth_mkseq ?prednK // foldl_upd_rng ifT //.
  by move: (size a) H => u; lia.
by split=> // E; move: L; rewrite E => /eqP; apply/negP; case: (a + _).
Qed.

(** With c the same object as b, which the documentation in the header allows, c is wrong. *)
Theorem C57_alias_b_refuted (garb : nat -> F) :
  add_left_shift AliasB garb 1 'X 1 <> (1 + 'X^1 * 'X)%R :> seq F.
Proof.
rewrite /add_left_shift size_poly1 size_polyX /= /mkseq /= /upd /= => E.
have : (1 + 'X^1 * 'X : {poly F})`_1 = 1 by rewrite -E /= coef1.
rewrite expr1 coefD coef1 coefXM coefX add0r => /eqP; apply/negP; by rewrite eq_sym oner_eq0.
Qed.
End C57.

Example C57_met (garb : nat -> 'F_7) :
  add_left_shift AliasA garb (1 + 'X)%R 'X%R 2 = (1 + 'X + 'X^2 * 'X)%R :> seq 'F_7.
Proof. by apply: C57_add_left_shift_partial; [right|left; rewrite polyX_eq0]. Qed.
Example C57_refuted_met : (size (1%R : {poly 'F_7}) < 2)%N. Proof. by rewrite size_poly1. Qed.

Print Assumptions C55_power_series_division.
Print Assumptions C55_quotient_unique.
Print Assumptions C55_not_invertible.
Print Assumptions C56_shift_object.
Print Assumptions C56_taylor_shift_partial.
Print Assumptions C56_taylor_shift_zero_refuted.
Print Assumptions C57_add_left_shift_partial.
Print Assumptions C57_zero_not_normalised_refuted.
Print Assumptions C57_alias_b_refuted.
