(** Property C64: bilinear transforms and the products of polynomial matrices based on them (ntl-extras). *)
From mathcomp Require Import all_ssreflect all_algebra zify.
From Verif Require Import A_base A_mul_model N_multi_model N_pmat_model N_trs_model N_trs_proof.
Set Implicit Arguments.
Unset Strict Implicit.
Unset Printing Implicit Defensive.
Import GRing.Theory.
Local Open Scope ring_scope.

Section C64.
Variable F : fieldType.
Local Notation P := {poly F}.
Implicit Types (f g : P) (a b c : pmat F).

(** the entries of a are polynomials with at most d coefficients *)
Definition entries_below (d : nat) a : Prop :=
  forall i j, (i < nr a)%N -> (j < nc a)%N -> (size (ent a i j) <= d)%N.
Definition zero_mat a : Prop := forall i j, (i < nr a)%N -> (j < nc a)%N -> ent a i j = 0.

(** c holds the product of a by b *)
Definition product_of a b (c : aoutcome (pmat F)) : Prop :=
  exists c', c = AOk c' /\ is_pmat c' (nr a) (nc b) (fun i j => \sum_(k < nc a) ent a i k * ent b k j).

Lemma zero_plen a : zero_mat a <-> plen a = 0%N.
Proof.
have H0 := plenP a 0; rewrite leqn0 in H0; split=> [H|/eqP/H0 H i j Hi Hj].
  by apply/eqP/H0 => i j Hi Hj; rewrite H // size_poly0.
by apply/eqP; rewrite -size_poly_leq0; apply: H.
Qed.

(** the four transforms: for operands with at most input_length coefficients, the pointwise product of the forward
    transforms is mapped to the product *)
Theorem C64_transforms (T : trs F) f g :
  (exists2 d, (0 < d)%N & T = trs_naive F d) \/ T = trs_kara F \/ T = trs_mont F \/ T = trs_kara4 F ->
  (size f <= t_m T)%N -> (size g <= t_m T)%N ->
  t_back T (fun j => t_left T f j * t_right T g j) = f * g.
Proof.
move=> HT Sf Sg; have [_ _ ->] : trs_ok T.
  case: HT => [[d d0 ->]|[->|[->|->]]]; [exact: trs_naive_ok|exact: trs_kara_ok|exact: trs_mont_ok|exact: trs_kara4_ok].
by rewrite !ptrunc_id.
Qed.

(** the naive transform writes exactly transform_length values *)
Theorem C64_naive_length d f : (0 < d)%N ->
  size (naive_left_seq d f) = t_n (trs_naive F d) /\ size (naive_right_seq d f) = t_n (trs_naive F d).
Proof. by move=> d0; rewrite /=; apply: naive_size. Qed.

Lemma mul_trs_ok (T : trs F) a b : trs_ok T -> (0 < t_n T)%N -> nc a = nr b ->
  entries_below (t_m T) a -> entries_below (t_m T) b -> product_of a b (mul_trs T a b).
Proof.
move=> HT n0 E Ha Hb; have [c [-> [Hr Hc He]]] := mul_trsE HT n0 E.
exists c; split=> //; split=> // i j Hi Hj; rewrite He //; apply: eq_bigr => k _.
have Hk : (k < nr b)%N by rewrite -E.
by rewrite !ptrunc_id //; [apply: Hb|apply: Ha].
Qed.

(** the products of matrices: with a length given by the caller, ... *)
Theorem C64_multiply_transform a b len : nc a = nr b -> entries_below len a -> entries_below len b ->
  ~ (zero_mat a /\ zero_mat b) -> product_of a b (multiply_transform a b len).
Proof.
move=> E Ha Hb Nz.
have Na : product_of a b (multiply_transform_naive a b).
  rewrite /multiply_transform_naive.
  have n0 : (0 < maxn (plen a) (plen b))%N.
    rewrite lt0n; apply/eqP=> /eqP; rewrite -leqn0 geq_max !leqn0 => /andP[/eqP/zero_plen A /eqP/zero_plen B].
    exact: Nz.
  apply: mul_trs_ok => //; first exact: trs_naive_ok.
  - by rewrite /= muln_gt0 n0.
  - by move=> i j Hi Hj; rewrite leq_max plen_size.
  - by move=> i j Hi Hj; rewrite leq_max plen_size // orbT.
case: len Ha Hb => [|[|[|[|[|len]]]]] Ha Hb //=; apply: mul_trs_ok => //.
- exact: trs_kara_ok.
- exact: trs_mont_ok.
- exact: trs_kara4_ok.
Qed.

(** ... or without *)
Theorem C64_multiply_transform_auto a b : nc a = nr b -> ~ (zero_mat a /\ zero_mat b) ->
  product_of a b (multiply_transform_auto a b).
Proof.
by move=> E Nz; apply: C64_multiply_transform => //; move=> i j Hi Hj; rewrite leq_max plen_size // orbT.
Qed.

(** matrices whose dimensions do not agree are rejected, unless both are zero *)
Theorem C64_bad_dimensions a b len : nc a != nr b -> ~ (zero_mat a /\ zero_mat b) -> multiply_transform a b len = AUB.
Proof.
move=> E Nz.
have n0 : (0 < maxn (plen a) (plen b))%N.
  rewrite lt0n; apply/eqP=> /eqP; rewrite -leqn0 geq_max !leqn0 => /andP[/eqP/zero_plen A /eqP/zero_plen B].
  exact: Nz.
have Na : multiply_transform_naive a b = AUB.
  by rewrite /multiply_transform_naive /mul_trs /= E muln_eq0 orbb (_ : (_ == 0)%N = false) //; lia.
by case: len => [|[|[|[|[|len]]]]] //=; rewrite /mul_trs /= E.
Qed.

(** the product of two zero matrices has dimensions 0 x 0 instead of those of the product *)
Theorem C64_zero_refuted a b : zero_mat a -> zero_mat b ->
  exists c, [/\ multiply_transform_auto a b = AOk c, nr c = 0%N & nc c = 0%N].
Proof.
move=> /zero_plen A /zero_plen B.
by rewrite /multiply_transform_auto /multiply_transform_naive /multiply_transform A B /= /multiply_transform_naive A B; eexists; split.
Qed.

(** with a fixed transform, coefficients beyond its input length are ignored and the result is not the product *)
Theorem C64_too_long_refuted : exists a b, nc a = nr b /\ ~ product_of a b (mul_trs (trs_kara F) a b).
Proof.
exists (Pmat 1 1 (fun _ _ => 'X^2)), (Pmat 1 1 (fun _ _ => 1)); split=> // -[c [E [_ _ He]]].
have [c' [E' [_ _ He']]] := @mul_trsE F _ (trs_kara_ok F) (Pmat 1 1 (fun _ _ => 'X^2)) (Pmat 1 1 (fun _ _ => 1)) isT erefl.
move: E; rewrite E' => -[Ec]; have := He 0%N 0%N isT isT; rewrite -Ec He' //= !big_ord_recl !big_ord0 !addr0 mulr1.
have -> : ptrunc 2 ('X^2 : P) = 0.
  by apply/polyP=> i; rewrite ptrunc_coef coefXn coef0; case: i => [|[|i]].
by move/polyP/(_ 2%N)/eqP; rewrite mul0r coef0 coefXn eqxx eq_sym oner_eq0.
Qed.
End C64.

(** two matrices of degrees 4 and 1 *)
Example C64_met (F : fieldType) :
  let a := Pmat 2 3 (fun i j => 'X^(i + j + 1) : {poly F}) in let b := Pmat 3 1 (fun i j => 'X + 1 : {poly F}) in
  [/\ nc a = nr b, ~ (zero_mat a /\ zero_mat b) & product_of a b (multiply_transform_auto a b)].
Proof.
move=> a b; have N : ~ (zero_mat a /\ zero_mat b).
  by case=> /(_ 0%N 0%N isT isT)/eqP; rewrite /= -size_poly_eq0 size_polyXn.
by split=> //; apply: C64_multiply_transform_auto.
Qed.

Print Assumptions C64_transforms.
Print Assumptions C64_naive_length.
Print Assumptions C64_multiply_transform.
Print Assumptions C64_multiply_transform_auto.
Print Assumptions C64_bad_dimensions.
Print Assumptions C64_zero_refuted.
Print Assumptions C64_too_long_refuted.
