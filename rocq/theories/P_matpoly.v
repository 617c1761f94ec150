(** C16, C17, C45, C46: matrix polynomials. *)
From mathcomp Require Import all_ssreflect all_algebra zify.
From Verif Require Import A_base SpecA A_matpoly_model A_nullspace2_proof A_matpoly_proof.
Set Implicit Arguments.
Unset Strict Implicit.
Unset Printing Implicit Defensive.
Import GRing.Theory Num.Theory.
Local Open Scope ring_scope.

Section P.
Variable F : fieldType.

(** Specification: a matrix polynomial is normalised when its leading
    coefficient (if any) is nonzero. *)
Definition normalised m n (A : mat_poly F) : Prop :=
  mp_len A = 0%N \/
  exists i j, [/\ (i < m)%N, (j < n)%N & mp_co A (mp_len A).-1 i j != 0].

Lemma mp_get_coeffE (A : mat_poly F) k i j : mp_get_coeff A k i j = (mp_entry A i j)`_k.
Proof. by rewrite mp_entryE /mp_get_coeff; case: ifP. Qed.

Lemma pm_max_length_attained m n (P : fmat {poly F}) :
  pm_max_length m n P = 0%N \/
  exists i j, [/\ (i < m)%N, (j < n)%N & size (P i j) = pm_max_length m n P].
Proof.
case: (posnP (pm_max_length m n P)) => [->|Hpos]; first by left.
right; rewrite /pm_max_length in Hpos *.
case: m Hpos => [|m] Hpos; first by rewrite big_ord0 in Hpos.
have [i _ Ei] := eq_bigmax_cond (fun i : 'I_m.+1 => \max_(j < n) size (P i j))
  (A := predT) (ltac:(by rewrite card_ord)).
rewrite Ei in Hpos *; clear Ei.
case: n Hpos => [|n] Hpos; first by rewrite big_ord0 in Hpos.
have [j _ Ej] := eq_bigmax_cond (fun j : 'I_n.+1 => size (P i j))
  (A := predT) (ltac:(by rewrite card_ord)).
by rewrite Ej; exists i, j.
Qed.

(** C16, first direction: the coefficients of degree < order, in normalised
    form; C16_order: with order at least the maximal length nothing is lost. *)
Theorem C16_poly_mat_to_mat_poly m n (P : fmat {poly F}) order :
  let A := mp_set_trunc_from_poly_mat m n P order in
  normalised m n A /\
  forall k i j, (i < m)%N -> (j < n)%N ->
    mp_get_coeff A k i j = if (k < order)%N then (P i j)`_k else 0.
Proof.
split; last by move=> k i j Hi Hj; rewrite mp_get_coeffE mp_set_truncE.
rewrite /mp_set_trunc_from_poly_mat; set len := pm_max_length m n P.
case: (ltnP len order) => Ho; last first.
  case: ltnP => H; first exact: norm_len_top.
  have -> : order = len by lia.
  have [E|[i [j [Hi Hj E]]]] := pm_max_length_attained m n P; first by left.
  case: (posnP len) => [->|Hl]; first by left.
  right; exists i, j; split=> //=; rewrite /len -E -/(lead_coef _) lead_coef_eq0 -size_poly_gt0.
  by rewrite E.
rewrite ltnn.
have [E|[i [j [Hi Hj E]]]] := pm_max_length_attained m n P; first by left.
case: (posnP len) => [->|Hl]; first by left.
right; exists i, j; split=> //=; rewrite /len -E -/(lead_coef _) lead_coef_eq0 -size_poly_gt0.
by rewrite E.
Qed.

(** C16, second direction *)
Theorem C16_mat_poly_to_poly_mat (A : mat_poly F) order i j k :
  (pm_set_trunc_from_mat_poly A order i j)`_k =
  if (k < order)%N then mp_get_coeff A k i j else 0.
Proof. by rewrite pm_of_mp_trunc mp_get_coeffE. Qed.

(** C16, round trips *)
Theorem C16_roundtrip_poly_mat m n (P : fmat {poly F}) i j : (i < m)%N -> (j < n)%N ->
  pm_set_from_mat_poly (mp_set_from_poly_mat m n P) i j = P i j.
Proof.
move=> Hi Hj; rewrite pm_set_from_mat_polyE; apply/polyP=> k; rewrite mp_set_truncE //.
case: ltnP => // Hk; rewrite nth_default //.
exact: leq_trans (pm_max_lengthP P Hi Hj) Hk.
Qed.

Theorem C16_roundtrip_mat_poly m n (A : mat_poly F) : normalised m n A ->
  let B := mp_set_from_poly_mat m n (pm_set_from_mat_poly A) in
  mp_len B = mp_len A /\
  forall k i j, (k < mp_len A)%N -> (i < m)%N -> (j < n)%N -> mp_co B k i j = mp_co A k i j.
Proof.
move=> HA; cbv zeta; rewrite /mp_set_from_poly_mat.
set P := pm_set_from_mat_poly A; set len := pm_max_length m n P.
have EP i j : P i j = mp_entry A i j by rewrite /P pm_set_from_mat_polyE.
have Elen : len = mp_len A.
  apply/eqP; rewrite eqn_leq; apply/andP; split.
    apply/bigmax_leqP=> i _; apply/bigmax_leqP=> j _; rewrite EP; exact: size_poly.
  case: HA => [->//|[i [j [Hi Hj NZ]]]].
  apply: leq_trans (pm_max_lengthP P Hi Hj); rewrite EP leqNgt.
  apply/negP=> Hs; have : (mp_entry A i j)`_(mp_len A).-1 = 0 by apply: nth_default; rewrite -ltnS (ltn_predK Hs).
  by rewrite mp_entryE (ltn_predK Hs) leqnn => E; rewrite E eqxx in NZ.
rewrite /mp_set_trunc_from_poly_mat -/len ltnn ltnn /=; split=> // k i j Hk Hi Hj.
by rewrite EP mp_entryE Hk.
Qed.

(** C17: in-place left shift multiplies by X^n; truncation keeps the
    coefficients of degree < order; it is normalised if the input is. *)
Theorem C17_shift_left_aliased m p (A : mat_poly F) n :
  mp_mx m p (mp_shift_left true A A n) = 'X^n *: mp_mx m p A.
Proof. by apply/matrixP=> i j; rewrite !mxE mp_shift_left_alias mulrC. Qed.

Theorem C17_truncate m n (A : mat_poly F) order : normalised m n A ->
  normalised m n (mp_truncate m n A order) /\
  forall k i j, (i < m)%N -> (j < n)%N ->
    mp_get_coeff (mp_truncate m n A order) k i j
    = if (k < order)%N then mp_get_coeff A k i j else 0.
Proof.
move=> HA; rewrite /mp_truncate; case: (ltnP order (mp_len A)) => Ho.
  split; first exact: norm_len_top.
  move=> k i j Hi Hj; rewrite !mp_get_coeffE mp_normalise_entry // !mp_entryE /=.
  by case: ltnP => // Hk; rewrite (ltn_trans Hk Ho).
split=> // k i j Hi Hj; case: ltnP => // Hk.
by rewrite /mp_get_coeff ltnNge (leq_trans Ho Hk).
Qed.

(** C45: one coefficient of a product of matrix polynomials *)
Theorem C45_mul_coeff m q n (A B : mat_poly F) k (i : 'I_m) (j : 'I_n) :
  mp_mul_coeff q A B k i j = ((mp_mx m q A *m mp_mx q n B) i j)`_k.
Proof. 
rewrite mp_mul_coeffP mxE; apply: (congr1 (fun p : {poly F} => p`_k)).
by apply: eq_bigr => l _; rewrite !mxE.
 Qed.

(** C46: evaluation at a point *)
Theorem C46_evaluate m n (A : mat_poly F) pt (i : 'I_m) (j : 'I_n) :
  mp_evaluate A pt i j = (mp_mx m n A i j).[pt].
Proof. by rewrite mp_evaluateP !mxE. Qed.

(** C17, without aliasing: the shift loses coefficients. *)
Theorem C17_shift_left_refuted :
  exists (dst A : mat_poly F) n, normalised 1 1 A /\
    mp_mx 1 1 (mp_shift_left false dst A n) != 'X^n *: mp_mx 1 1 A.
Proof.
exists mp_zero, (MatPoly 1 (fun _ => fone)), 1%N; split.
  by right; exists 0%N, 0%N; rewrite /= oner_neq0.
apply/eqP=> /matrixP /(_ 0 0) /polyP /(_ 1%N).
rewrite !mxE coefXM !mp_entryE /= => E.
by move: (oner_neq0 F); rewrite -[X in X != _]E /= /upd /= eqxx.
Qed.

(** the constant test answers false on a nonzero constant *)
Theorem C17_is_constant_refuted :
  exists A : mat_poly F, [/\ normalised 1 1 A,
    (forall k, (0 < k)%N -> feq 1 1 (mp_get_coeff A k) fzero) & ~~ mp_is_constant A].
Proof.
exists mp_one; split=> //; first by right; exists 0%N, 0%N; rewrite /= oner_neq0.
by move=> [|k].
Qed.
End P.

(** concrete cases: the hypothesis [normalised] is met by X^2 + 3 (1 x 1), which is
    shifted, truncated and converted *)
Definition ex_mp : mat_poly [fieldType of rat] :=
  MatPoly 3 (fun k _ _ => nth 0 [:: 3%:R; 0; 1] k).
Example C16_C17_hyp : normalised 1 1 ex_mp.
Proof. by right; exists 0%N, 0%N. Qed.
Example C17_truncate_ex : mp_len (mp_truncate 1 1 ex_mp 2) = 1%N.
Proof. by []. Qed.
Example C46_ex : mp_evaluate ex_mp (2%:R) 0%N 0%N = 7%:R.
Proof. by apply/eqP. Qed.

Print Assumptions C16_poly_mat_to_mat_poly.
Print Assumptions C16_mat_poly_to_poly_mat.
Print Assumptions C16_roundtrip_poly_mat.
Print Assumptions C16_roundtrip_mat_poly.
Print Assumptions C17_shift_left_aliased.
Print Assumptions C17_truncate.
Print Assumptions C17_shift_left_refuted.
Print Assumptions C17_is_constant_refuted.
Print Assumptions C45_mul_coeff.
Print Assumptions C46_evaluate.
