(** C41-C44: products and middle products of polynomial matrices. *)
From mathcomp Require Import all_ssreflect all_algebra zify.
From Verif Require Import A_base A_matpoly_model A_matpoly_proof A_mul_model A_mul_proof A_mul2_proof.
Set Implicit Arguments.
Unset Strict Implicit.
Unset Printing Implicit Defensive.
Import GRing.Theory Num.Theory.
Local Open Scope ring_scope.

(** [C] is the product of the m x n matrix A by the n x p matrix B *)
Definition is_product (R : ringType) m n p (A B C : fmat {poly R}) : Prop :=
  mx_of m p C = mx_of m n A *m mx_of n p B.

(** [C] is the middle product: its entries have degree < nhi - nlo, and the
    coefficient of degree k of C is the one of degree nlo + k of A B *)
Definition is_middle_product (R : ringType) m n p (A B : fmat {poly R}) nlo nhi (C : fmat {poly R}) : Prop :=
  forall (i : 'I_m) (j : 'I_p) k,
    (mx_of m p C i j)`_k =
    if (nlo + k < nhi)%N then ((mx_of m n A *m mx_of n p B) i j)`_(nlo + k) else 0.

Section Ring.
Variable R : comRingType.
Implicit Types A B : fmat {poly R}.

(** the modulus is odd: half = (modn+1)/2 is the inverse of 2 *)
Theorem C41_mul_waksman modn m n p A B : (modn%:R : R) = 0 -> odd modn ->
  is_product m n p A B (mul_waksman modn m n p A B).
Proof.
move=> H0 O; rewrite /is_product -mx_of_mul; apply: mx_of_feq => i j Hi Hj.
exact: mul_waksman_ringP.
Qed.

(** output aliased to an input: the temporary has too few columns when n < p *)
Theorem C41_mul_waksman_alias_refuted modn :
  exists m n p, forall A B, mul_waksman_alias modn m n p A B = AUB.
Proof. by exists 1%N, 1%N, 2%N. Qed.
End Ring.

(** the guard NMOD_POLY_CAN_USE_WAKSMAN (modulus different from 2) does not
    exclude even moduli, for which the result is wrong *)
Theorem C41_mul_waksman_even_refuted :
  exists A B : fmat {poly 'Z_4}, can_use_waksman 4 /\
    ~ is_product 1 2 1 A B (mul_waksman 4 1 2 1 A B).
Proof.
exists (fun _ _ => 1), fzero; split=> // /matrixP/(_ 0 0).
rewrite mx_of_zero mulmx0 mxE [RHS]mxE.
have -> : mul_waksman 4 1 2 1 (fun _ _ => 1) fzero 0%N 0%N = 1 :> {poly 'Z_4}.
  rewrite /mul_waksman /= /wak_step /= /fzero !addr0 !subr0 !add0r !mulr1.
  rewrite -mulr2n -scaler_nat scalerA -natrM.
  have -> : (((4 + 1) %/ 2 * 2)%N%:R : 'Z_4) = 0 by apply/eqP.
  by rewrite scale0r subr0.
by move/eqP; rewrite oner_eq0.
Qed.

Section P.
Variable F : fieldType.
Implicit Types A B : fmat {poly F}.

Theorem C44_mul_geometric modn m n p A B : modn \in [char F] ->
  can_use_geometric modn (pm_max_length m n A + pm_max_length n p B - 1) ->
  is_product m n p A B (mul_geometric modn m n p A B).
Proof.
move=> Hc G; rewrite /is_product -mx_of_mul; apply: mx_of_feq => i j Hi Hj.
exact: mul_geometricP.
Qed.

(** precomputed progression: any ratio whose powers are distinct *)
Theorem C44_mul_geometric_precomp m n p A B q :
  let len1 := pm_max_length m n A in
  let len2 := pm_max_length n p B in
  (forall a b, (a < len1 + len2 - 1)%N -> (b < len1 + len2 - 1)%N -> q ^+ a = q ^+ b -> a = b) ->
  is_product m n p A B (mul_geometric_precomp n A len1 B len2 q).
Proof.
move=> len1 len2 D; rewrite /is_product -mx_of_mul; apply: mx_of_feq => i j Hi Hj.
exact: mul_geometric_precompP.
Qed.

Theorem C44_mul_vandermonde1 modn m n p A B : modn \in [char F] ->
  (pm_max_length m n A + pm_max_length n p B - 1 <= modn)%N ->
  is_product m n p A B (mul_vandermonde1 m n p A B).
Proof.
move=> Hc G; rewrite /is_product -mx_of_mul; apply: mx_of_feq => i j Hi Hj.
exact: mul_vandermonde1P Hc Hi Hj G.
Qed.

Theorem C44_mul_vandermonde2 modn m n p A B : modn \in [char F] -> modn != 2%N ->
  (2 * (pm_max_length m n A + pm_max_length n p B - 1) <= modn)%N ->
  is_product m n p A B (mul_vandermonde2 m n p A B).
Proof.
move=> Hc N2 G; rewrite /is_product -mx_of_mul; apply: mx_of_feq => i j Hi Hj.
apply: (mul_vandermonde2P Hc _ Hi Hj G); have := prime_gt1 (charf_prime Hc); lia.
Qed.

(** nmod_poly_mat_multiply, whatever algorithm is selected *)
Theorem C44_multiply modn m n p A B : modn \in [char F] ->
  is_product m n p A B (pm_multiply modn m n p A B).
Proof.
move=> Hc; rewrite /is_product -mx_of_mul; apply: mx_of_feq => i j Hi Hj.
exact: pm_multiplyP.
Qed.

(** output aliased to an input: out of bounds accesses when n < p; otherwise the
    entries of the output get the number of columns as modulus *)
Theorem C44_mul_vandermonde1_alias_refuted modn :
  (exists m n p A B, mul_vandermonde1_alias modn m n p A B = AUB) /\
  (modn != 1%N -> exists m n p A B q C,
     mul_vandermonde1_alias modn m n p A B = AOk (q, C) /\ q != modn).
Proof.
have H n p : (0 < n)%N -> (0 < p)%N ->
    (pm_max_length n p (fun _ _ => 1 : {poly F}) == 0%N) = false.
  move=> Hn Hp; apply/negbTE; rewrite -lt0n.
  by apply: leq_trans (pm_max_lengthP (fun _ _ => 1 : {poly F}) Hn Hp); rewrite size_poly1.
split.
  by exists 1%N, 1%N, 2%N, (fun _ _ => 1), (fun _ _ => 1); rewrite /mul_vandermonde1_alias !H.
move=> N1; exists 1%N, 1%N, 1%N, (fun _ _ => 1), (fun _ _ => 1), 1%N; eexists.
by rewrite /mul_vandermonde1_alias !H //= eq_sym.
Qed.

(** nmod_poly_mat_mulmid *)
Theorem C42_mulmid v36 modn m n p A B nlo nhi : modn \in [char F] ->
  exists2 C, mulmid v36 modn m n p A B nlo nhi = AOk C & is_middle_product m n p A B nlo nhi C.
Proof.
move=> Hc; have [C E H] := mulmidP v36 m n p A B nlo nhi Hc; exists C => // i j k.
by rewrite mx_ofE H // coef_poly -mx_of_mul mx_ofE -ltn_subRL.
Qed.

Theorem C42_mulmid_naive modn m n p A B nlo nhi : modn \in [char F] ->
  is_middle_product m n p A B nlo nhi
    (mulmid_naive modn m n p A (pm_max_length m n A) B (pm_max_length n p B) nlo nhi).
Proof.
move=> Hc i j k; rewrite mx_ofE mulmid_naiveP //; try by move=> *; exact: pm_max_lengthP.
by rewrite coef_poly -mx_of_mul mx_ofE -ltn_subRL.
Qed.

(** transposed evaluation/interpolation *)
Theorem C43_mulmid_geometric1 m n p A B nlo nhi q :
  (forall a b, (a < nhi)%N -> (b < nhi)%N -> q ^+ a = q ^+ b -> a = b) ->
  (pm_max_length m n A <= nlo.+1)%N ->
  is_middle_product m n p A B nlo nhi (mulmid_geometric1 n A B nlo nhi q).
Proof.
move=> D L i j k; rewrite mx_ofE mulmid_geometric1P //.
  by rewrite coef_poly -mx_of_mul mx_ofE -ltn_subRL.
by move=> l Hl; apply: leq_trans L; exact: pm_max_lengthP.
Qed.

Theorem C43_mulmid_geometric2 m n p A B nlo nhi q :
  (forall a b, (a < nhi)%N -> (b < nhi)%N -> q ^+ a = q ^+ b -> a = b) ->
  (pm_max_length n p B <= nlo.+1)%N ->
  is_middle_product m n p A B nlo nhi (mulmid_geometric2 n A B nlo nhi q).
Proof.
move=> D L i j k; rewrite mx_ofE mulmid_geometric2P //.
  by rewrite coef_poly -mx_of_mul mx_ofE -ltn_subRL.
by move=> l Hl; apply: leq_trans L; exact: pm_max_lengthP.
Qed.

(** with the progression that the library chooses *)
Theorem C43_mulmid_geometric modn m n p A B nlo nhi : modn \in [char F] ->
  can_use_geometric modn nhi -> (nlo < nhi)%N ->
  (pm_max_length m n A <= nlo.+1)%N || (pm_max_length n p B <= nlo.+1)%N ->
  is_middle_product m n p A B nlo nhi
    (mulmid_geometric modn n A (pm_max_length m n A) B (pm_max_length n p B) nlo nhi).
Proof.
move=> Hc G Hn HL i j k; rewrite mx_ofE (mulmid_geometricP (m := m) (p := p)) //;
  try by move=> *; exact: pm_max_lengthP.
by rewrite coef_poly -mx_of_mul mx_ofE -ltn_subRL.
Qed.
End P.

(** The hypotheses are met: 2 x 2 matrices of length 2 over F_31 *)
Section Ex.
Let F := [fieldType of 'F_31].
Let A : fmat {poly F} := fun i j => (i + 2 * j).+1%:R%:P + 'X.
Let lenA : pm_max_length 2 2 A = 2%N.
Proof.
apply/eqP; rewrite eqn_leq; apply/andP; split.
  rewrite /pm_max_length; apply/bigmax_leqP => i _; apply/bigmax_leqP => j _.
  by rewrite /A addrC size_XaddC.
have := pm_max_lengthP A (i := 0%N) (j := 0%N) (m := 2) (n := 2) isT isT.
by rewrite /A addrC size_XaddC.
Qed.
Example C44_example :
  is_product 2 2 2 A A (mul_geometric 31 2 2 2 A A) /\
  is_product 2 2 2 A A (mul_vandermonde1 2 2 2 A A) /\
  is_product 2 2 2 A A (mul_vandermonde2 2 2 2 A A) /\
  is_product 2 2 2 A A (mul_waksman 31 2 2 2 A A).
Proof.
have C : 31%N \in [char F] by exact: (@char_Fp 31).
split; [|split; [|split]].
- by apply: (C44_mul_geometric C); rewrite lenA.
- by apply: (C44_mul_vandermonde1 C); rewrite lenA.
- by apply: (C44_mul_vandermonde2 C); rewrite ?lenA.
- exact: (C41_mul_waksman _ _ _ _ _ (charf0 C) isT).
Qed.
Example C43_example :
  is_middle_product 2 2 2 A A 1 2 (mulmid_geometric 31 2 A (pm_max_length 2 2 A) A (pm_max_length 2 2 A) 1 2).
Proof.
have C : 31%N \in [char F] by exact: (@char_Fp 31).
by apply: (C43_mulmid_geometric C); rewrite ?lenA.
Qed.
End Ex.

Print Assumptions C41_mul_waksman.
Print Assumptions C41_mul_waksman_alias_refuted.
Print Assumptions C41_mul_waksman_even_refuted.
Print Assumptions C42_mulmid.
Print Assumptions C43_mulmid_geometric1.
Print Assumptions C43_mulmid_geometric2.
Print Assumptions C43_mulmid_geometric.
Print Assumptions C44_mul_geometric.
Print Assumptions C44_mul_vandermonde1.
Print Assumptions C44_mul_vandermonde2.
Print Assumptions C44_multiply.
Print Assumptions C44_mul_vandermonde1_alias_refuted.
