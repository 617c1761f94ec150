(** Over a finite field, square-free polynomials are separable. *)
From mathcomp Require Import all_ssreflect all_fingroup all_algebra all_field zify.
Set Implicit Arguments.
Unset Strict Implicit.
Unset Printing Implicit Defensive.
Import GRing.Theory.
Local Open Scope ring_scope.

(** square-free: no square of a non-constant polynomial divides q *)
Definition squarefree (F : fieldType) (q : {poly F}) :=
  forall d : {poly F}, d ^+ 2 %| q -> (size d <= 1)%N.

Section Sq.
Variable F : finFieldType.
Local Notation P := {poly F}.
Implicit Types (q g f : P).

Lemma frob_surj p : p \in [char F] -> exists r : F -> F, forall x : F, r x ^+ p = x.
Proof.
move=> Hp; have I : injective (fun y : F => y ^+ p).
  move=> y z E; apply/eqP; rewrite -subr_eq0; apply/eqP.
  have : Frobenius_aut Hp (y - z) = 0 by rewrite rmorphB /= !Frobenius_autE E subrr.
  by rewrite Frobenius_autE => /eqP; rewrite expf_eq0 => /andP [_ /eqP].
have [g _ K] := injF_bij I.
by exists g.
Qed.

Lemma deriv0_pow p f : p \in [char F] -> f^`() = 0 -> exists h : P, f = h ^+ p.
Proof.
move=> Hp D; have [r Hr] := frob_surj Hp.
have p0 : (0 < p)%N by apply: prime_gt0; apply: charf_prime Hp.
have HP : p \in [char P] by apply: (rmorph_char (polyC_rmorphism F)).
exists (\poly_(k < size f) r f`_(p * k)).
rewrite poly_def -(Frobenius_autE HP) rmorph_sum /=.
under eq_bigr do rewrite Frobenius_autE exprZn Hr -exprM mulnC.
apply/polyP=> i; rewrite coef_sum.
under eq_bigr do rewrite coefZ coefXn.
case: (boolP (p %| i)%N) => [/dvdnP [k ->]|Nd].
  case: (ltnP k (size f)) => Hk.
    rewrite (bigD1 (Ordinal Hk)) //= eqxx mulr1 big1 ?addr0 // => j Nj.
    rewrite eqn_pmul2r // (_ : (k == j) = false) ?mulr0 //.
    by apply/negbTE; rewrite eq_sym; exact: Nj.
  rewrite nth_default; last by apply: leq_trans Hk _; rewrite leq_pmulr.
  by rewrite big1 // => j _; rewrite eqn_pmul2r // gtn_eqF ?mulr0 // (leq_trans (ltn_ord j)).
rewrite big1 => [|j _]; last first.
  by case: eqP Nd => [->|_ _]; rewrite ?dvdn_mull ?mulr0.
case: i Nd => [|i] Nd; first by rewrite dvdn0 in Nd.
have := congr1 (fun g : P => g`_i) D; rewrite coef_deriv coef0 => /eqP.
by rewrite -mulr_natr mulf_eq0 -(dvdn_charf Hp) (negbTE Nd) orbF => /eqP.
Qed.

Lemma squarefree_separable q : q != 0 -> squarefree q -> coprimep q q^`().
Proof.
move=> q0 S; set d := gcdp q q^`().
have [e Ee] : exists e, q = d * e.
  by have /dvdpP [e ->] := dvdp_gcdl q q^`(); exists e; rewrite mulrC.
have d0 : d != 0 by apply: contraNneq q0 => Z; rewrite Ee Z mul0r.
have C : coprimep d e.
  have G : gcdp d e ^+ 2 %| q by rewrite expr2 [X in _ %| X]Ee dvdp_mul ?dvdp_gcdl ?dvdp_gcdr.
  by rewrite /coprimep eqn_leq (S _ G) size_poly_gt0 gcdp_eq0 (negbTE d0).
have Dd : d %| d^`().
  have : d %| q^`() by exact: dvdp_gcdr.
  by rewrite Ee derivM dvdp_addl ?dvdp_mulIl // Gauss_dvdpl.
have D0 : d^`() = 0.
  apply/eqP; apply: contraTT Dd => N; apply/negP=> /(dvdp_leq N).
  by rewrite leqNgt lt_size_deriv.
have [p _ Hp] := finCharP F.
have [h Eh] := deriv0_pow Hp D0.
have Sh : (size h <= 1)%N.
  apply: S; rewrite Ee Eh; apply: dvdp_mulr; apply: dvdp_exp2l.
  by apply: prime_gt1; apply: charf_prime Hp.
have h0 : h != 0.
  by apply: contraNneq d0 => Z; rewrite Eh Z expr0n; case: (p) Hp => //; rewrite inE.
rewrite /coprimep -/d Eh; move: Sh h0; rewrite -size_poly_gt0 => S1 S2.
have /size_poly1P [c c0 ->] : size h == 1%N by rewrite eqn_leq S1.
by rewrite -polyC_exp size_polyC expf_neq0.
Qed.
End Sq.
