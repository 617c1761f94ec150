(** Points in geometric progression: q-factorials and the Newton basis. *)
From Coq Require Import Field.
From mathcomp Require Import all_ssreflect all_algebra zify.
From Verif Require Import A_base A_mul_model N_poly_model N_series_proof N_shift_proof.
Set Implicit Arguments.
Unset Strict Implicit.
Unset Printing Implicit Defensive.
Import GRing.Theory.
Local Open Scope ring_scope.

Section Newton.
Variable F : fieldType.
Local Notation P := {poly F}.
Let T : Type := GRing.Field.sort F.
Let r0 : T := 0.
Let r1 : T := 1.
Let ra (x y : T) : T := x + y.
Let rm (x y : T) : T := x * y.
Let ro (x : T) : T := - x.
Let rs (x y : T) : T := x - y.
Let ri (x : T) : T := x^-1.
Let rd (x y : T) : T := x / y.
Lemma gfield_ft : @field_theory T r0 r1 ra rm rs ro rd ri eq.
Proof.
rewrite /r0 /r1 /ra /rm /rs /ro /rd /ri; split=> //.
- split=> // *; rewrite ?add0r ?mul1r ?mulrDl ?addrN //;
  first [exact: addrC | exact: addrA | exact: mulrC | exact: mulrA].
- by apply/eqP; exact: oner_neq0.
- by move=> p /eqP Hp; rewrite mulVf.
Qed.
Add Field gfield : gfield_ft.

Ltac mconv :=
  match goal with |- @eq _ ?x ?y => change (@eq T x y) end;
  repeat (first
    [ progress change (@GRing.inv ?z ?x) with (ri x)
    | progress change (@GRing.opp ?z ?x) with (ro x)
    | progress change (@GRing.add ?z ?x ?y) with (ra x y)
    | progress change (@GRing.mul ?z ?x ?y) with (rm x y)
    | progress change (GRing.zero ?z) with r0
    | progress change (GRing.one ?z) with r1 ]).
Ltac mring := mconv; ring.
Ltac mfield := mconv; field; repeat split; try (apply/eqP; rewrite /r0 /r1 /ra /rm /ro /rs /ri).

Lemma gterm (A B u v c : F) : A != 0 -> B != 0 -> A^-1 * (B^-1 * v * c * (A * B * u)) = c * (v * u).
Proof. by move=> N1 N2; mfield. Qed.

Lemma gterm_t (A B u v c : F) : A != 0 -> B != 0 -> A^-1 * v * (B^-1 * c * (A * B * u)) = c * (v * u).
Proof. by move=> N1 N2; mfield. Qed.

Variables (q : F) (n : nat).
Hypothesis q0 : q != 0.
Hypothesis qn : forall i, (0 < i < n)%N -> q ^+ i != 1.

(** (q - 1) (q^2 - 1) .. (q^j - 1) *)
Definition qf (j : nat) : F := \prod_(k < j) (q ^+ k.+1 - 1).
Lemma qf0 : qf 0 = 1. Proof. by rewrite /qf big_ord0. Qed.
Lemma qfS j : qf j.+1 = qf j * (q ^+ j.+1 - 1). Proof. by rewrite /qf big_ord_recr. Qed.
Lemma qf_neq0 j : (j < n)%N -> qf j != 0.
Proof.
clear q0; move=> Hj; apply/prodf_neq0=> i _; rewrite subr_eq0; apply: qn.
by have := ltn_ord i; lia.
Qed.

Definition newton (m : nat) : P := \prod_(l < m) ('X - (q ^+ l)%:P).
Lemma newtonS m : newton m.+1 = newton m * ('X - (q ^+ m)%:P).
Proof. by rewrite /newton big_ord_recr. Qed.
Lemma size_newton m : size (newton m) = m.+1.
Proof. by rewrite /newton size_prod_XsubC /index_enum -enumT size_enum_ord. Qed.

Definition tri (m : nat) : F := q ^+ 'C(m, 2).
Lemma triS m : tri m.+1 = tri m * q ^+ m.
Proof. by rewrite /tri binS bin1 addnC -exprD addnC. Qed.
Lemma tri_neq0 m : tri m != 0. Proof. by rewrite expf_neq0. Qed.

Definition cn (b i : nat) : F := (-1) ^+ b * tri b * qf (b + i) / (qf i * qf b).

Lemma newton_coef m i : (m < n)%N -> (i <= m)%N -> (newton m)`_i = cn (m - i) i.
Proof.
elim: m i => [|m IH] i Hm Hi.
  have -> : i = 0%N by lia.
  by rewrite /newton big_ord0 coef1 /cn /tri !qf0 !expr0 !mulr1 divr1.
rewrite newtonS mulrBr coefB coefMX coefMC.
case: i Hi => [|i] Hi /=.
  rewrite sub0r IH ?subn0 //; last by lia.
  rewrite /cn !addn0 qf0 !mul1r !mulfK ?qf_neq0 //; last by lia.
  by rewrite triS exprS; mring.
rewrite IH ?subSS; [|by lia|by lia].
case: (ltnP i m) => C; last first.
  have -> : i = m by lia.
  rewrite subnn nth_default ?size_newton // mul0r subr0 /cn /tri !expr0 !add0n qf0 !mul1r !mulr1.
  by rewrite !divff ?qf_neq0 //; lia.
rewrite IH; [|by lia|by lia].
have [b Hb] : exists b, (m - i = b.+1)%N by exists (m - i).-1; lia.
have -> : (m - i.+1 = b)%N by lia.
rewrite Hb; rewrite /cn triS exprS.
have -> : (b + i.+1 = b.+1 + i)%N by lia.
have -> : (b.+1 + i.+1 = (b.+1 + i).+1)%N by lia.
have Em : m = (b.+1 + i)%N by lia.
rewrite [qf (b.+1 + i).+1]qfS [qf b.+1]qfS [qf i.+1]qfS.
have E1 : qf i != 0 by apply: qf_neq0; lia.
have E2 : qf b != 0 by apply: qf_neq0; lia.
have E3 : q ^+ b.+1 - 1 != 0 by rewrite subr_eq0; apply: qn; lia.
have E4 : q ^+ i.+1 - 1 != 0 by rewrite subr_eq0; apply: qn; lia.
rewrite Em; move: (qf (b.+1 + i)) (qf i) (qf b) E1 E2 => A B C' E1 E2.
have -> : q ^+ (b.+1 + i).+1 = q ^+ b.+1 * q ^+ i.+1 by rewrite -exprD; congr (_ ^+ _); lia.
have -> : q ^+ (b.+1 + i) = q ^+ b * q ^+ i.+1 by rewrite -exprD; congr (_ ^+ _); lia.
rewrite [q ^+ b.+1]exprS in E3 *.
move: (q ^+ b) (q ^+ i.+1) (tri b) ((-1) ^+ b) E3 E4 => u v T' S E3 E4.
by mfield.
Qed.

Lemma newton_horner m j : (j < n)%N -> (m <= j)%N -> (newton m).[q ^+ j] = tri m * (qf j / qf (j - m)).
Proof.
move=> Hj; elim: m => [|m IH] Hm.
  by rewrite /newton big_ord0 hornerC /tri expr0 mul1r subn0 divff // qf_neq0.
rewrite newtonS hornerM IH; last by lia.
rewrite hornerD hornerX hornerN hornerC triS.
have -> : (j - m = (j - m.+1).+1)%N by lia.
rewrite qfS.
have -> : q ^+ j = q ^+ (j - m.+1) * q * q ^+ m by rewrite -exprSr -exprD; congr (_ ^+ _); lia.
have -> : (q ^+ (j - m.+1).+1 = q ^+ (j - m.+1) * q) by rewrite exprSr.
have N1 : qf (j - m.+1) != 0 by apply: qf_neq0; lia.
have N2 : q ^+ (j - m.+1) * q - 1 != 0 by rewrite -exprSr subr_eq0; apply: qn; lia.
move: (qf _) (qf j) (q ^+ (j - _)) (q ^+ m) (tri m) N1 N2 => A B u v w N1 N2.
by mfield.
Qed.
Lemma newton_horner0 m j : (j < m)%N -> (newton m).[q ^+ j] = 0.
Proof.
by move=> H; rewrite /newton horner_prod (bigD1 (Ordinal H)) //= hornerXsubC subrr mul0r.
Qed.

(** G1 = sum (-1)^i q^(i choose 2) / [i]! X^i is the inverse of E = sum X^i / [i]! *)
Definition pE : P := \poly_(i < n) (qf i)^-1.
Definition pG2 : P := \poly_(i < n) (tri i / qf i).
Definition pG1 : P := \poly_(i < n) ((-1) ^+ i * (tri i / qf i)).

Lemma G1E : eqm n (pG1 * pE) 1.
Proof.
move=> m Hm; rewrite coefM coef1.
transitivity ((newton m).[q ^+ 0] / qf m).
  rewrite horner_coef size_newton mulr_suml; rewrite (reindex_inj rev_ord_inj) /=.
  apply: eq_bigr => i _; have Li := ltn_ord i.
  rewrite !coef_poly subSS expr1n mulr1 newton_coef //.
  have -> : (m - i < n)%N by lia.
  have -> : (m - (m - i) < n)%N by lia.
  have -> : (m - (m - i) = i)%N by lia.
  rewrite /cn subnK; last by rewrite -ltnS.
  have N1 : qf m != 0 by apply: qf_neq0.
  have N2 : qf i != 0 by apply: qf_neq0; lia.
  have N3 : qf (m - i) != 0 by apply: qf_neq0; lia.
  move: (qf m) (qf i) (qf (m - i)) (tri _) (_ ^+ _) N1 N2 N3 => A B C u v N1 N2 N3.
  by mfield.
case: m Hm => [|m] Hm; first by rewrite newton_horner // subnn /tri qf0 !divr1 expr0 mulr1.
by rewrite newton_horner0 // mul0r.
Qed.

(** the core of interpolation: values v_j at q^j *)
Definition icoef (v : nat -> F) (i : nat) : F :=
  let h := (\poly_(j < n) (v j / qf j)) * pG1 in
  ((-1) ^+ i / qf i) * \sum_(m < n | (i <= m)%N) h`_m * ((-1) ^+ m * qf m / tri m) * (tri (m - i) / qf (m - i)).

Lemma icoefP v j : (j < n)%N -> \sum_(i < n) icoef v i * (q ^+ j) ^+ i = v j.
Proof.
move=> Hj; rewrite /icoef; set h := _ * pG1.
transitivity (\sum_(m < n) h`_m / tri m * (newton m).[q ^+ j]).
  under eq_bigr => i _ do rewrite mulr_sumr mulr_suml big_mkcond /=.
  rewrite exchange_big /=; apply: eq_bigr => m _; have Lm := ltn_ord m.
  rewrite horner_coef size_newton mulr_sumr -(big_mkcond (fun i : 'I_n => (i <= m)%N)).
  rewrite (big_ord_widen_cond n predT (fun i => h`_m / tri m * ((newton m)`_i * (q ^+ j) ^+ i))) //=.
  apply: eq_big => [i|i Hi]; first by rewrite ltnS.
  rewrite newton_coef // /cn subnK //.
  have N1 : qf m != 0 by apply: qf_neq0.
  have N2 : qf i != 0 by apply: qf_neq0; lia.
  have N3 : qf (m - i) != 0 by apply: qf_neq0; lia.
  have N4 := tri_neq0 m.
  have -> : (-1) ^+ m = (-1) ^+ (m - i) * (-1) ^+ i :> F by rewrite -exprD subnK.
  have S1 : (-1) ^+ i * (-1) ^+ i = 1 :> F by rewrite -expr2 -exprM mulnC exprM sqrrN expr1n expr1n.
  move: (qf m) (qf i) (qf (m - i)) (tri m) (tri (m - i)) (h`_m) ((q ^+ j) ^+ i) ((-1) ^+ (m - i)) ((-1) ^+ i : F) S1 N1 N2 N3 N4
    => A B C t u v' w x y S1 N1 N2 N3 N4.
  transitivity (y * y * (v' / t * (x * u * A / (B * C) * w))); last by rewrite S1 mul1r.
  by mfield.
transitivity (qf j * (h * pE)`_j).
  rewrite coefM mulr_sumr (big_ord_widen_cond n predT (fun i => qf j * (h`_i * pE`_(j - i)))) //=.
  rewrite [RHS]big_mkcond /=; apply: eq_bigr => m _; rewrite ltnS; case: ifP => C; last first.
    by rewrite newton_horner0 ?mulr0 //; lia.
  rewrite newton_horner // coef_poly (_ : (j - m < n)%N); last by lia.
  have N3 : qf (j - m) != 0 by apply: qf_neq0; lia.
  have N4 := tri_neq0 m.
  by move: (qf j) (qf _) (tri m) (h`_m) N3 N4 => A B C1 D N3 N4; mfield.
rewrite /h -mulrA (eqm_mul (@eqm_refl _ n _) G1E) // mulr1 coef_poly Hj.
by rewrite mulrC divfK // qf_neq0.
Qed.
End Newton.
