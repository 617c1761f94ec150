(** Property C62: multiplicative orders (ntl-extras/lzz_p_extra). *)
From mathcomp Require Import all_ssreflect all_fingroup all_solvable all_algebra all_field zify.
From Verif Require Import A_base A_mul_model N_poly_model N_geo_model N_geo3_proof N_ord_model P_ngeo.
Set Implicit Arguments.
Unset Strict Implicit.
Unset Printing Implicit Defensive.
Import GRing.Theory.
Local Open Scope ring_scope.

Section C62.
Variable F : finFieldType.

Lemma elt_scanP (a ap prod : F) n k : ap = a ^+ k ->
  match elt_scan a ap prod n with
  | Some p => (forall i, (k <= i < k + n)%N -> a ^+ i != 1) /\ (p == 0) = (prod == 0)
  | None => exists2 i, (k <= i < k + n)%N & a ^+ i = 1
  end.
Proof.
elim: n ap prod k => [|n IH] ap prod k E /=; first by split=> // i; lia.
case: eqP => [A|A]; first by exists k; [lia|rewrite -E].
have E' : ap * a = a ^+ k.+1 by rewrite E exprSr.
have := IH _ (prod * (1 - ap)) _ E'; case: elt_scan => [p [H1 H2]|[i Hi Ei]]; last by exists i => //; lia.
split; last first.
  by rewrite H2 mulf_eq0 subr_eq0 (eq_sym 1) (_ : (ap == 1) = false) ?orbF //; apply/eqP.
move=> i Hi; have [Ei|Ni] := eqVneq i k; first by rewrite Ei -E; apply/eqP.
by apply: H1; lia.
Qed.

(** of order at least ord *)
Definition high_order (ord : nat) (a : F) : Prop := a != 0 /\ forall i, (0 < i < ord)%N -> a ^+ i != 1.

Lemma elt_tryP (rnd : seq F) (ord : nat) :
  let a := elt_try rnd ord in
  if a == 0 then forall b, b \in rnd -> ~ high_order ord b else a \in rnd /\ high_order ord a.
Proof.
elim: rnd => [|b rnd IH] /=; first by rewrite eqxx.
have E0 : b = b ^+ 1 by rewrite expr1.
have Rec : ~ high_order ord b -> if elt_try rnd ord == 0 then forall c, c \in b :: rnd -> ~ high_order ord c
   else elt_try rnd ord \in b :: rnd /\ high_order ord (elt_try rnd ord).
  move=> N; move: IH => /=; case: ifP => _ H; last by rewrite inE; case: H => -> H; rewrite orbT.
  by move=> c; rewrite inE => /orP[/eqP->|/H].
have := elt_scanP b (ord - 1) E0; case: elt_scan => [p [H1 H2]|[i Hi Ei]]; last first.
  apply: Rec => -[_ H]; have L : (0 < i < ord)%N by lia.
  by have := H i L; rewrite Ei eqxx.
rewrite H2; case: (b =P 0) => [Eb|/eqP b0] /=; first by apply: Rec => -[]; rewrite Eb eqxx.
rewrite (negbTE b0) mem_head; split=> //; split=> // i Hi; apply: H1; lia.
Qed.

(** element_of_order raises an error when ord is more than the order of the group; otherwise, whatever the
    random values, it returns one of them of order at least ord, or 0 when there is none *)
Theorem C62_element_of_order (rnd : seq F) (ord : nat) :
  if (#|F|.-1 < ord)%N then element_of_order #|F| rnd ord = AUB
  else exists a, element_of_order #|F| rnd ord = AOk a /\
    if a == 0 then forall b, b \in rnd -> ~ high_order ord b else a \in rnd /\ high_order ord a.
Proof.
rewrite /element_of_order subn1; case: (_ < _)%N => //.
by eexists; split; first by []; exact: elt_tryP.
Qed.

(** get_geometric_points builds an object for the points 1, r^2, .., r^(2(n-1)) if a value of sufficient
    order is drawn, and raises an error otherwise *)
Theorem C62_geometric_points (rnd : seq F) (feas fft : bool) (n : nat) : (0 < n)%N -> (2 * n <= #|F|.-1)%N ->
  (exists2 b, b \in rnd & high_order (2 * n) b) ->
  exists r o, [/\ r \in rnd, get_geometric_points #|F| rnd feas fft n = AOk o & at_points r 1 n o].
Proof.
move=> n0 Hn [b Hb Ob]; have := C62_element_of_order rnd (2 * n).
rewrite ltnNge Hn /= => -[a [E]]; case: ifP => [_ /(_ b Hb) //|/negbT a0 [Ha [_ Oa]]].
rewrite /get_geometric_points E.
have [[o Eo Ho]|[Eo]] := geo_initP feas fft a 1 n.
  exists a, o; split=> //.
  by exists feas, fft, o, [::].
case=> [E0|E0|/eqP|[i Hi Ei]].
- by rewrite E0 in n0.
- by rewrite E0 eqxx in a0.
- by rewrite oner_eq0.
- have L : (0 < 2 * i < 2 * n)%N by lia.
  by have := Oa _ L; rewrite exprM Ei eqxx.
Qed.
End C62.
Print Assumptions C62_element_of_order.
Print Assumptions C62_geometric_points.

(** order(a) modulo any m > 1 ends within m iterations and returns the multiplicative order of a, or -1 (None) if a
    is not a unit *)
Theorem C62_order (fuel m a : nat) : (1 < m)%N -> (a < m)%N -> (m <= fuel)%N ->
  exists res, order fuel m a = Some res /\
    match res with
    | Some k => coprime a m /\ [/\ (0 < k)%N, (a ^ k = 1 %[mod m])%N & forall i, (0 < i < k)%N -> (a ^ i <> 1 %[mod m])%N]
    | None => ~~ coprime a m
    end.
Proof.
move=> m1 Ha Hf; rewrite /order; case: (a =P 0%N) => [->|a0].
  exists None; split=> //; rewrite /coprime gcd0n; lia.
have E1 : (1 %% m = 1)%N by rewrite modn_small.
have G k ap f : (0 < k <= m)%N -> (m < k + f)%N -> ap = (a ^ k %% m)%N ->
  (forall i, (0 < i < k)%N -> (a ^ i <> 1 %[mod m])%N) ->
  exists res, order_loop f m a k ap = Some res /\
    match res with
    | Some k => coprime a m /\ [/\ (0 < k)%N, (a ^ k = 1 %[mod m])%N & forall i, (0 < i < k)%N -> (a ^ i <> 1 %[mod m])%N]
    | None => ~~ coprime a m
    end.
  elim: f k ap => [|f IH] k ap Hk Hkf Eap Hi /=; first by lia.
  case: (ap =P 1%N) => [Ea|Na].
    exists (Some k); split=> //; split.
      case: k Eap Hi Hk {Hkf IH} => [|k] Eap Hi Hk; first by lia.
      rewrite -(@coprime_pexpl k.+1) // -coprime_modl -Eap Ea; exact: coprime1n.
    by split=> //; [lia|rewrite -Eap Ea E1].
  case: (k =P m) => [Ek|Nk].
    exists None; split=> //; apply/negP=> C.
    have Ht := Euler_exp_totient C.
    have t0 : (0 < totient m)%N by rewrite totient_gt0; lia.
    have t1 : (totient m <= m)%N.
      rewrite totient_count_coprime; apply: leq_trans (_ : \sum_(0 <= d < m) 1 <= _)%N.
        by apply: leq_sum => i _; apply: leq_b1.
      by rewrite sum_nat_const_nat subn0 muln1.
    move: t1; rewrite leq_eqVlt => /orP[/eqP Et|Lt].
      by apply: Na; rewrite Eap Ek -{1}Et Ht E1.
    by apply: (Hi (totient m)) => //; lia.
  apply: IH; [by lia|by lia|by rewrite Eap modnMml -expnSr|].
  move=> i Li; have [->|Ni] := eqVneq i k; first by rewrite -Eap E1.
  by apply: Hi; lia.
apply: G; [by lia|by lia|by rewrite expn1 modn_small|by move=> i; lia].
Qed.
Print Assumptions C62_order.

Example C62_met : high_order 6 (3%:R : 'F_7) /\ order 12 12 7 = Some (Some 2%N) /\ order 12 12 4 = Some None.
Proof.
split=> //; split=> //.
by case=> [|[|[|[|[|[|i]]]]]].
Qed.
