(** Row operations of the Hermite form algorithms. *)
From mathcomp Require Import all_ssreflect all_algebra perm zify.
From Verif Require Import A_base SpecA SpecWP SpecHermite A_rot_model A_rot_proof A_wpopov_model A_rowops_proof.
From Verif Require Import A_wpopov2_proof A_hermite_model.
Set Implicit Arguments.
Unset Strict Implicit.
Unset Printing Implicit Defensive.
Import GRing.Theory.
Local Open Scope ring_scope.

Section Mix.
Variable R : comRingType.
(** identity with rows i1 and i2 replaced by a e1 + b e2 and c e1 + d e2 *)
Definition mixU m (i1 i2 : 'I_m) (a b c d : R) : 'M[R]_m :=
  \matrix_(i, j) if i == i1 then a * (j == i1)%:R + b * (j == i2)%:R
                 else if i == i2 then c * (j == i1)%:R + d * (j == i2)%:R
                 else (i == j)%:R.

Lemma det_mixU m (i1 i2 : 'I_m) a b c d : i1 != i2 -> \det (mixU i1 i2 a b c d) = a * d - b * c.
Proof.
move=> N; have N' : (i2 == i1) = false by rewrite eq_sym (negbTE N).
have E1 : \det (mixU i1 i2 1 0 0 1) = 1.
  rewrite -[RHS](det1 R m); congr (\det _); apply/matrixP=> i j; rewrite !mxE !mul1r !mul0r addr0 add0r.
  by case: (i =P i1) => [->|_]; [rewrite eq_sym|case: (i =P i2) => [->|] //; rewrite eq_sym].
have E2 : \det (mixU i1 i2 0 1 1 0) = -1.
  rewrite -[RHS](det_swap R N); congr (\det _); apply/matrixP=> i j; rewrite !mxE !mul1r !mul0r addr0 add0r.
  case: tpermP => [->|->|/eqP Na /eqP Nb].
  - by rewrite eqxx eq_sym.
  - by rewrite N' eqxx eq_sym.
  - by rewrite (negbTE Na) (negbTE Nb).
have E3 x y : \det (mixU i1 i2 x y x y) = 0.
  by apply: (determinant_alternate N) => j; rewrite !mxE eqxx N' eqxx.
have Q (a0 : 'I_m) i : (lift a0 i == a0) = false by rewrite eq_sym (negbTE (neq_lift _ _)).
have L2 x y : \det (mixU i1 i2 x y c d) = c * \det (mixU i1 i2 x y 1 0) + d * \det (mixU i1 i2 x y 0 1).
  apply: (@determinant_multilinear _ _ _ _ _ i2).
  - by apply/rowP=> j; rewrite !mxE N' eqxx !mul1r !mul0r addr0 add0r.
  - by apply/matrixP=> i j; rewrite !mxE Q.
  - by apply/matrixP=> i j; rewrite !mxE Q.
have L1 x y : \det (mixU i1 i2 a b x y) = a * \det (mixU i1 i2 1 0 x y) + b * \det (mixU i1 i2 0 1 x y).
  apply: (@determinant_multilinear _ _ _ _ _ i1).
  - by apply/rowP=> j; rewrite !mxE eqxx !mul1r !mul0r addr0 add0r.
  - by apply/matrixP=> i j; rewrite !mxE Q.
  - by apply/matrixP=> i j; rewrite !mxE Q.
rewrite L2 !L1 !E3 E1 E2 !mulr0 addr0 add0r mulrN1 mulr1 mulrN addrC.
by rewrite [c * b]mulrC [d * a]mulrC.
Qed.

Lemma lmul_mix m n (i1 i2 : 'I_m) a b c d (A A' : fmat R) : i1 != i2 ->
  (forall j, (j < n)%N -> A' i1 j = a * A i1 j + b * A i2 j) ->
  (forall j, (j < n)%N -> A' i2 j = c * A i1 j + d * A i2 j) ->
  (forall i j, (i < m)%N -> (j < n)%N -> i != i1 -> i != i2 -> A' i j = A i j) ->
  lmul n (mixU i1 i2 a b c d) A A'.
Proof.
move=> N H1 H2 H3; have N' : (i2 == i1) = false by rewrite eq_sym (negbTE N).
apply/matrixP=> i j; rewrite !mxE.
have K x y : \sum_k (x * (k == i1)%:R + y * (k == i2)%:R) * mx_of m n A k j = x * A i1 j + y * A i2 j.
  rewrite (bigD1 i1) //= (bigD1 i2) /=; last by rewrite eq_sym.
  rewrite big1 => [|k /andP[Na Nb]]; last by rewrite (negbTE Na) (negbTE Nb) !mulr0 addr0 mul0r.
  by rewrite !mxE !eqxx (negbTE N) N' !mulr1 !mulr0 addr0 add0r addr0.
case: (i =P i1) => [->|/eqP Na].
  by rewrite H1 // -(K a b); apply: eq_bigr => k _; rewrite !mxE eqxx.
case: (i =P i2) => [->|/eqP Nb].
  by rewrite H2 // -(K c d); apply: eq_bigr => k _; rewrite !mxE N' eqxx.
rewrite H3 // (bigD1 i) //= big1 => [|k Nk]; last by rewrite !mxE (negbTE Na) (negbTE Nb) [i == k]eq_sym (negbTE Nk) mul0r.
by rewrite !mxE (negbTE Na) (negbTE Nb) eqxx mul1r addr0.
Qed.

(** row i1 multiplied by c *)
Lemma lmul_scale m n (i1 : 'I_m) c (A A' : fmat R) :
  (forall j, (j < n)%N -> A' i1 j = c * A i1 j) ->
  (forall i j, (i < m)%N -> (j < n)%N -> i != i1 -> A' i j = A i j) ->
  lmul n (diag_mx (\row_j (if j == i1 then c else 1))) A A'.
Proof.
move=> H1 H2; rewrite /lmul mul_diag_mx; apply/matrixP=> i j; rewrite !mxE.
case: (i =P i1) => [->|/eqP Na]; first by rewrite H1.
by rewrite H2 // mul1r.
Qed.

Lemma det_scaleU m (i1 : 'I_m) (c : R) : \det (diag_mx (\row_j (if j == i1 then c else 1))) = c.
Proof.
rewrite det_diag (bigD1 i1) //= mxE eqxx big1 ?mulr1 // => k Nk.
by rewrite mxE (negbTE Nk).
Qed.
End Mix.

Section Trans.
Variable F : fieldType.
Local Notation P := {poly F}.
Variables m n cT : nat.
Implicit Types (A : fmat P) (T : option (fmat P)).

(** (A', T') is obtained from (A, T) by a left multiplication of determinant k *)
Definition trans (k : P) A T A' T' : Prop :=
  exists2 U : 'M[P]_m, \det U = k & lmul n U A A' /\ opt_rel (lmul cT U) T T'.

Lemma trans_refl A T : trans 1 A T A T.
Proof.
exists 1%:M; first by rewrite det1.
by split; [apply: lmul1|case: T => //= B; apply: lmul1].
Qed.

Lemma trans_comp k k' A T A1 T1 A2 T2 :
  trans k A T A1 T1 -> trans k' A1 T1 A2 T2 -> trans (k' * k) A T A2 T2.
Proof.
case=> U dU [H1 H2] [V dV [H3 H4]]; exists (V *m U); first by rewrite det_mulmx dU dV.
split; first exact: lmul_comp H1 H3.
by move: H2 H4; case: T => [B|]; case: T1 => [B1|]; case: T2 => [B2|] //=; exact: lmul_comp.
Qed.

Lemma trans_map k A T A' (f : fmat P -> fmat P) (U : 'M[P]_m) :
  \det U = k -> lmul n U A A' -> (forall B, lmul cT U B (f B)) -> trans k A T A' (omap f T).
Proof. by move=> dU H1 H2; exists U => //; split=> //; case: T => //= B. Qed.

Lemma trans_ext k A T A' A2 T' :
  trans k A T A' T' -> feq m n A' A2 -> trans k A T A2 T'.
Proof. by case=> U dU [H1 H2] E; exists U => //; split=> //; rewrite /lmul -(mx_of_feq E). Qed.

(** rotations *)
Lemma trans_down A T i d : (i + d < m)%N ->
  trans ((-1) ^+ odd d) A T (rotate_rows_downward (V := nat) A None i (i + d)%N).1
    (omap (fun B => (rotate_rows_downward (V := nat) B None i (i + d)%N).1) T).
Proof.
move=> H; have [U dU HU] := lmul_rot [comRingType of P] H.
have Uu : U \in unitmx.
  by rewrite unitmxE dU; case: (odd d); rewrite ?expr1 ?expr0 ?unitrN unitr1.
have K c B : lmul c (invmx U) B (rotate_rows_downward (V := nat) B None i (i + d)%N).1.
  have: lmul c U (rotate_rows_downward (V := nat) B None i (i + d)%N).1 B.
    apply: HU => k j Hk Hj; rewrite rot_upE; last by lia.
    rewrite /rotate_rows_downward; case: (i =P i + d)%N => [<-|_] /=.
      have -> : (i <= k < i)%N = false by lia.
      by case: eqP => [->|].
    rewrite !rot_downE; try lia.
    case: (k =P i + d)%N => [->|N1]; first by rewrite eqxx.
    case: ifP => [L|L].
      have -> : (k.+1 == i)%N = false by lia.
      by have -> : (i < k.+1 <= i + d)%N by lia.
    have -> : (k == i) = false by lia.
    by have -> : (i < k <= i + d)%N = false by lia.
  by rewrite /lmul => ->; rewrite mulKmx.
apply: (trans_map _ (U := invmx U)) => //.
rewrite det_inv dU; case: (odd d); rewrite ?expr1 ?expr0 ?invr1 //.
by rewrite invrN invr1.
Qed.

Lemma trans_up A T i d : (i + d < m)%N ->
  trans ((-1) ^+ odd d) A T (rotate_rows_upward (V := nat) A None i (i + d)%N).1
    (omap (fun B => (rotate_rows_upward (V := nat) B None i (i + d)%N).1) T).
Proof.
move=> H; have [U dU HU] := lmul_rot [comRingType of P] H.
apply: (trans_map _ (U := U)) => //; first by apply: HU => k j Hk Hj; rewrite rotate_rot //; lia.
by move=> B; apply: HU => k j Hk Hj; rewrite rotate_rot //; lia.
Qed.

Lemma trans_swap A T i1 i2 : (i1 < m)%N -> (i2 < m)%N ->
  trans ((-1) ^+ (i1 != i2)) A T (swap_rows A i1 i2) (omap (fun B => swap_rows B i1 i2) T).
Proof.
move=> H1 H2; case: (i1 =P i2) => [->|N] /=.
  apply: (trans_map _ (U := 1%:M)); rewrite ?det1 ?expr0 //.
    by apply: lmul1 => k j _ _; rewrite swap_rowsE; case: eqP => // ->.
  by move=> B; apply: lmul1 => k j _ _; rewrite swap_rowsE; case: eqP => // ->.
have K : Ordinal H1 != Ordinal H2 by rewrite -val_eqE /=; apply/eqP.
apply: (trans_map _ (U := perm_mx (tperm (Ordinal H1) (Ordinal H2)))); first by rewrite det_swap.
  by apply: lmul_swap => [j _|j _|k j _ _ /= /negbTE N1 /negbTE N2]; rewrite swap_rowsE /= ?eqxx ?N1 ?N2 //;
    case: eqP => // ->.
by move=> B; apply: lmul_swap => [j _|j _|k j _ _ /= /negbTE N1 /negbTE N2]; rewrite swap_rowsE /= ?eqxx ?N1 ?N2 //;
    case: eqP => // ->.
Qed.
End Trans.

Section Ops.
Variable F : fieldType.
Local Notation P := {poly F}.
Variables m n cT : nat.
Implicit Types (A : fmat P) (T : option (fmat P)).
Local Notation trans := (trans m n cT).

(** a row addition seen on the entries *)
Lemma trans_add A T A' (f : fmat P -> fmat P) i1 i2 u : (i1 < m)%N -> (i2 < m)%N -> i1 != i2 ->
  (forall i k, (k < n)%N -> A' i k = if i == i1 then A i1 k + u * A i2 k else A i k) ->
  (forall B i k, (k < cT)%N -> f B i k = if i == i1 then B i1 k + u * B i2 k else B i k) ->
  trans 1 A T A' (omap f T).
Proof.
move=> H1 H2 N HA Hf; apply: (trans_map _ (U := addU (Ordinal H1) (Ordinal H2) u)).
- by rewrite det_addU // -val_eqE.
- by apply: lmul_add => [j Hj|i j Hi Hj /= /negbTE Ni]; rewrite HA //= ?eqxx ?Ni.
- by move=> B; apply: lmul_add => [j Hj|i j Hi Hj /= /negbTE Ni]; rewrite Hf //= ?eqxx ?Ni.
Qed.

(** nmod_poly_mat_hermite.c:58-96 *)
Lemma uref_atomicP A T pi1 pi2 j : (pi1 < m)%N -> (pi2 < m)%N -> pi1 != pi2 -> (j < n)%N ->
  A pi2 j != 0 -> (size (A pi2 j) <= size (A pi1 j))%N -> (forall k, (k < j)%N -> A pi2 k = 0) ->
  exists A' T' q, [/\ uref_atomic n cT A T pi1 pi2 j = AOk (A', T'), trans 1 A T A' T',
    (forall i k, (k < n)%N -> A' i k = if i == pi1 then A pi1 k + q * A pi2 k else A i k) &
    (size (A' pi1 j) < size (A pi1 j))%N].
Proof.
move=> H1 H2 N Hj Nz L Z; rewrite /uref_atomic.
have P2 : (0 < size (A pi2 j))%N by rewrite size_poly_gt0.
have -> : (size (A pi1 j) == 0%N) || (size (A pi2 j) == 0%N) || (size (A pi1 j) < size (A pi2 j))%N = false.
  by move: (size (A pi1 j)) (size (A pi2 j)) L P2 => x y; lia.
set e := (_ - _)%N; set c := - _.
set A' := foldl _ _ _; set T' := omap _ _.
have EA i k : (k < n)%N -> A' i k = if i == pi1 then A pi1 k + (c *: 'X^e) * A pi2 k else A i k.
  move=> Hk; rewrite /A' (foldl_row (fun x y => x + 'X^e * (c *: y))) // /upd.
  have -> : (j < k < j.+1 + (n - j.+1))%N = (j < k)%N by lia.
  rewrite [pi2 == pi1]eq_sym (negbTE N) eqxx; case: (i =P pi1) => [_|] //=.
  have EX x : 'X^e * (c *: x) = (c *: 'X^e) * x :> P by rewrite -scalerAl -scalerAr.
  rewrite !EX; case: (ltngtP j k) => [L1|L1|->] //.
  by rewrite Z // mulr0 addr0.
exists A', T', (c *: 'X^e); split=> //.
  apply: (@trans_add _ _ _ _ pi1 pi2 (c *: 'X^e)) => // B i k Hk.
  rewrite (foldl_row (fun x y => x + 'X^e * (c *: y))) // add0n leq0n Hk /= andbT.
  by case: (i =P pi1) => //= _; rewrite -scalerAl -scalerAr.
rewrite EA // eqxx; have N1 : A pi1 j != 0 by rewrite -size_poly_gt0; apply: leq_trans L.
have Nc : c != 0.
  by rewrite /c oppr_eq0 mulf_neq0 ?invr_eq0 ?lead_coef_eq0.
have -> : A pi1 j + c *: 'X^e * A pi2 j = A pi1 j - (- c) *: ('X^e * A pi2 j).
  by rewrite scaleNr opprK scalerAl.
have Sz : size ('X^e * A pi2 j) = size (A pi1 j).
  rewrite size_monicM ?monicXn // size_polyXn /= /e; move: (size (A pi1 j)) (size (A pi2 j)) L P2 => x y; lia.
have Lc : lead_coef ('X^e * A pi2 j) = lead_coef (A pi2 j) by rewrite lead_coef_monicM ?monicXn.
set D := A pi1 j - _; rewrite ltnNge; apply/negP => C.
have Nc' : - c != 0 by rewrite oppr_eq0.
have Lt : (size D <= size (A pi1 j))%N.
  by apply: leq_trans (size_add _ _) _; rewrite size_opp (size_scale _ Nc') Sz maxnn.
have Es : size D = size (A pi1 j) by apply/eqP; rewrite eqn_leq Lt C.
have : lead_coef D = 0.
  rewrite /lead_coef Es /D coefB coefZ -{2}Sz -[X in - c * X]/(lead_coef _) Lc /c opprK.
  by rewrite -mulrA mulVf ?lead_coef_eq0 // mulr1 subrr.
move/eqP; rewrite lead_coef_eq0 -size_poly_eq0 Es; apply/negP; by rewrite size_poly_eq0.
Qed.

(** nmod_poly_mat_hermite.c:115-196 *)
Lemma foldl_mix (u v p q : P) A pi ii a c : pi != ii ->
  foldl (fun (M : fmat P) jj =>
      let t := M pi jj in
      let M := upd M pi (upd (M pi) jj (u * t + v * M ii jj)) in
      upd M ii (upd (M ii) jj (p * M ii jj - q * t))) A (iota a c) =2
  (fun i k => if (a <= k < a + c)%N then
                if i == pi then u * A pi k + v * A ii k
                else if i == ii then p * A ii k - q * A pi k else A i k
              else A i k).
Proof.
move=> N i k; elim: c i k => [|c IH] i k.
  by rewrite /=; have -> : (a <= k < a + 0)%N = false by lia.
rewrite -[c.+1]addn1 iotaD foldl_cat /=; set M := foldl _ _ _ in IH *.
have N' : (ii == pi) = false by rewrite eq_sym (negbTE N).
rewrite {1}/upd; case: (i =P ii) => [->|Ni].
  rewrite {1}/upd; case: (k =P a + c)%N => [->|Nk].
    rewrite /upd N' !IH !eqxx N'.
    have -> : (a <= a + c < a + c)%N = false by lia.
    by have -> : (a <= a + c < a + (c + 1))%N by lia.
  rewrite /upd N' IH N' eqxx.
  by have -> : (a <= k < a + (c + 1))%N = (a <= k < a + c)%N by lia.
rewrite {1}/upd; case: (i =P pi) => [->|Nj].
  rewrite /upd; case: (k =P a + c)%N => [->|Nk].
    rewrite !IH.
    have -> : (a <= a + c < a + c)%N = false by lia.
    by have -> : (a <= a + c < a + (c + 1))%N by lia.
  rewrite IH eqxx.
  by have -> : (a <= k < a + (c + 1))%N = (a <= k < a + c)%N by lia.
rewrite IH; move/eqP/negbTE: Ni => ->; move/eqP/negbTE: Nj => ->.
by rewrite !if_same.
Qed.

Lemma xgcd_collisionP xgcd A T pi ii j : xgcd_spec xgcd ->
  (pi < m)%N -> (ii < m)%N -> pi != ii -> (j < n)%N -> A pi j != 0 -> A ii j != 0 ->
  (forall k, (k < j)%N -> A pi k = 0) -> (forall k, (k < j)%N -> A ii k = 0) ->
  exists u v p q, let '(A', T') := xgcd_collision xgcd n cT A T pi ii j in
  [/\ [/\ u * p + v * q = 1, p != 0 & A pi j = p * A' pi j], trans 1 A T A' T',
      (forall i k, (k < n)%N -> A' i k = if i == pi then u * A pi k + v * A ii k
                else if i == ii then p * A ii k - q * A pi k else A i k),
      A' ii j = 0 & A' pi j \is monic].
Proof.
move=> XS H1 H2 N Hj Np Ni Zp Zi; have N' : (ii == pi) = false by rewrite eq_sym (negbTE N).
rewrite /xgcd_collision; case: (A pi j =P 1) => [E1|_].
  exists 1, 0, 1, (A ii j); set A1 := foldl _ _ _; set A' := upd _ _ _; set T' := omap _ _.
  have EA i k : (k < n)%N -> A' i k = if i == ii then A ii k + (- A ii j) * A pi k else A i k.
    move=> Hk; rewrite /A' /upd; case: (i =P ii) => [_|Nii] /=.
      case: (k =P j) => [->|Nk]; first by rewrite E1 mulr1 subrr.
      rewrite /A1 (foldl_row (fun x y => x - A ii j * y)); last by rewrite eq_sym.
      rewrite eqxx /=; case: ifP => C; first by rewrite mulNr.
      by rewrite Zp ?mulr0 ?addr0 //; lia.
    rewrite /A1 (foldl_row (fun x y => x - A ii j * y)); last by rewrite eq_sym.
    by move/eqP/negbTE: Nii => ->.
  split.
  - by rewrite mulr1 mul0r addr0 oner_eq0 EA // (negbTE N) E1 mulr1.
  - apply: (@trans_add _ _ _ _ ii pi (- A ii j)) => //; first by rewrite eq_sym.
    move=> B i k Hk; rewrite (foldl_row (fun x y => x - A ii j * y)); last by rewrite eq_sym.
    by rewrite add0n leq0n Hk /= andbT mulNr.
  - move=> i k Hk; rewrite EA //; case: (i =P pi) => [->|_].
      by rewrite (negbTE N) mul1r mul0r addr0.
    by case: ifP => // _; rewrite mul1r mulNr.
  - by rewrite EA // eqxx E1 mulr1 subrr.
  - by rewrite EA // (negbTE N) E1 monic1.
have := XS _ _ Np Ni; case: (xgcd _ _) => -[g u] v [Mg Dp Di Eg].
set p := A pi j %/ g; set q := A ii j %/ g.
have Ep : A pi j = p * g by rewrite divpK.
have Eq : A ii j = q * g by rewrite divpK.
have Ng : g != 0 by apply: monic_neq0.
have Bz : u * p + v * q = 1.
  by apply: (mulIf Ng); rewrite mulrDl -!mulrA -Ep -Eq mul1r.
exists u, v, p, q; set A2 := foldl _ _ _; set A' := upd _ _ _; set T' := omap _ _.
have EA i k : (k < n)%N -> A' i k = if i == pi then u * A pi k + v * A ii k
                else if i == ii then p * A ii k - q * A pi k else A i k.
  move=> Hk; rewrite /A' {1}/upd.
  have B : (j < k < j.+1 + (n - j.+1))%N = (j < k)%N by lia.
  case: (i =P ii) => [->|Nii] /=.
    rewrite N' /upd; case: (k =P j) => [->|Nk].
      by rewrite {1}Ep {1}Eq mulrCA mulrA subrr.
    rewrite /A2 foldl_mix // B N' eqxx /upd N' eqxx.
    have -> : (k == j) = false by apply/eqP.
    by case: ifP => // C; rewrite Zi ?Zp ?mulr0 ?subrr //; lia.
  rewrite /A2 foldl_mix // B /upd N' eqxx; case: (i =P pi) => [_|Nj].
    case: (k =P j) => [->|Nk]; first by rewrite ltnn Eg.
    by case: ifP => // C; rewrite Zi ?Zp ?mulr0 ?addr0 //; lia.
  by move/eqP/negbTE: Nii => ->; rewrite ?if_same.
have Eg' : A' pi j = g by rewrite EA // eqxx.
split=> //.
- by split=> //; [rewrite divp_eq0 !negb_or Np Ng -leqNgt /= dvdp_leq|rewrite Eg'].
- have K : Ordinal H1 != Ordinal H2 by rewrite -val_eqE.
  apply: (trans_map _ (U := mixU (Ordinal H1) (Ordinal H2) u v (- q) p)).
  + by rewrite det_mixU // mulrN opprK Bz.
  + apply: lmul_mix => // [k Hk|k Hk|i k _ Hk /= /negbTE N1 /negbTE N2]; rewrite EA //= ?eqxx ?N' ?N1 ?N2 //.
    by rewrite mulNr addrC.
  + move=> B; apply: lmul_mix => // [k Hk|k Hk|i k _ Hk /= /negbTE N1 /negbTE N2]; rewrite foldl_mix //= add0n Hk ?eqxx ?N' ?N1 ?N2 //.
    by rewrite mulNr addrC.
- by rewrite EA // N' eqxx {1}Ep {1}Eq mulrCA mulrA subrr.
- by rewrite Eg'.
Qed.

(** nmod_poly_mat_hermite.c:210-237 *)
Lemma uref_reduceP A T i j ii : (i < m)%N -> (ii < m)%N -> ii != i -> (j < n)%N -> A i j != 0 ->
  (forall k, (k < j)%N -> A i k = 0) ->
  exists A' T' q, [/\ uref_reduce n cT A T i j ii = AOk (A', T'), trans 1 A T A' T',
    (forall a k, (k < n)%N -> A' a k = if a == ii then A ii k + q * A i k else A a k) &
    (size (A' ii j) < size (A i j))%N].
Proof.
move=> H1 H2 N Hj Nz Z; have N' : (i == ii) = false by rewrite eq_sym (negbTE N).
rewrite /uref_reduce; case: ifP => L; last first.
  exists A, T, 0; split=> //; first exact: trans_refl.
    by move=> a k _; rewrite mul0r addr0; case: eqP => // ->.
  by rewrite ltnNge L.
rewrite (negbTE Nz); set q := - _; set A' := foldl _ _ _; set T' := omap _ _.
have EA a k : (k < n)%N -> A' a k = if a == ii then A ii k + q * A i k else A a k.
  move=> Hk; rewrite /A' (foldl_row (fun x y => x + q * y)) // /upd N' eqxx.
  case: (a =P ii) => [_|] //=; case: ifP => C.
    by have -> : (k == j) = false by lia.
  case: (k =P j) => [->|Nk]; last by rewrite Z ?mulr0 ?addr0 //; lia.
  by rewrite {2}(divp_eq (A ii j) (A i j)) /q mulNr addrAC subrr add0r.
exists A', T', q; split=> //.
  apply: (@trans_add _ _ _ _ ii i q) => // B a k Hk.
  by rewrite (foldl_row (fun x y => x + q * y)) // add0n leq0n Hk /= andbT.
rewrite EA // eqxx {1}(divp_eq (A ii j) (A i j)) /q mulNr addrAC subrr add0r.
by rewrite ltn_modp.
Qed.

(** nmod_poly_mat_hermite.c:250-264 *)
Lemma foldl_row1 (f : P -> P) A (i1 : nat) a c :
  foldl (fun M jj => upd M i1 (upd (M i1) jj (f (M i1 jj)))) A (iota a c) =2
  (fun i j => if (i == i1) && (a <= j < a + c)%N then f (A i1 j) else A i j).
Proof.
move=> i j; have := @foldl_row F (fun x _ => f x) A i1 i1.+1 a c _ i j; apply.
by rewrite neq_ltn ltnSn.
Qed.

Lemma uref_normalizeP A T i j : (i < m)%N -> (j < n)%N -> A i j != 0 ->
  (forall k, (k < j)%N -> A i k = 0) ->
  exists A' T' (c : F), [/\ uref_normalize_pivot n cT A T i j = AOk (A', T'), c != 0,
    trans c%:P A T A' T', (forall a k, (k < n)%N -> A' a k = if a == i then c *: A i k else A a k) &
    A' i j \is monic].
Proof.
move=> H Hj Nz Z; rewrite /uref_normalize_pivot; case: ifP => M.
  exists A, T, 1; split=> //; first by rewrite oner_eq0.
    exact: trans_refl.
  by move=> a k _; rewrite scale1r; case: eqP => // ->.
rewrite (negbTE Nz); set c := _^-1.
have Nc : c != 0 by rewrite invr_eq0 lead_coef_eq0.
set A' := foldl _ _ _; set T' := omap _ _.
have EA a k : (k < n)%N -> A' a k = if a == i then c *: A i k else A a k.
  move=> Hk; rewrite /A' (foldl_row1 (fun x => c *: x)).
  have -> : (j <= k < j + (n - j))%N = (j <= k)%N by lia.
  case: (a =P i) => [->|] //=; case: leqP => // L.
  by rewrite !Z ?scaler0.
exists A', T', c; split=> //.
  apply: (trans_map _ (U := diag_mx (\row_a (if a == Ordinal H then c%:P else 1)))); first by rewrite det_scaleU.
    by apply: lmul_scale => [k Hk|a k _ Hk /= /negbTE Na]; rewrite EA //= ?eqxx ?Na // mul_polyC.
  move=> B; apply: lmul_scale => [k Hk|a k _ Hk /= /negbTE Na]; rewrite (foldl_row1 (fun x => c *: x)) /= ?Na //.
  by rewrite eqxx add0n Hk mul_polyC.
by rewrite EA // eqxx monicE lead_coefZ mulVf ?lead_coef_eq0.
Qed.

(** the reductions above a pivot *)
Lemma reduce_aboveP A T i j : (i < m)%N -> (j < n)%N -> A i j != 0 ->
  (forall k, (k < j)%N -> A i k = 0) ->
  exists A' T' (q : nat -> P), [/\ uref_reduce_above n cT A T i j = AOk (A', T'), trans 1 A T A' T',
    (forall a k, (k < n)%N -> A' a k = if (a < i)%N then A a k + q a * A i k else A a k) &
    forall a, (a < i)%N -> (size (A' a j) < size (A i j))%N].
Proof.
move=> H Hj Nz Z.
have K t : (t <= i)%N -> exists A' T' (q : nat -> P),
  [/\ foldl (fun st ii => abind st (fun x => uref_reduce n cT x.1 x.2 i j ii)) (AOk (A, T)) (iota 0 t) = AOk (A', T'),
    trans 1 A T A' T',
    (forall a k, (k < n)%N -> A' a k = if (a < t)%N then A a k + q a * A i k else A a k) &
    forall a, (a < t)%N -> (size (A' a j) < size (A i j))%N].
  elim: t => [|t IH] Ht; first by exists A, T, (fun _ => 0); split=> //; exact: trans_refl.
  have [|A1 [T1 [q [E1 Tr EA Sz]]]] := IH; first by lia.
  have Ei k : (k < n)%N -> A1 i k = A i k.
    by move=> Hk; rewrite EA //; have -> : (i < t)%N = false by lia.
  have [||||||A2 [T2 [q2 [E2 Tr2 EA2 Sz2]]]] := @uref_reduceP A1 T1 i j t; rewrite ?Ei //; try lia.
    by move=> k Hk; rewrite Ei ?Z //; lia.
  exists A2, T2, (upd q t q2); split.
  - by rewrite -addn1 iotaD foldl_cat E1 /= add0n E2.
  - by rewrite -[1](mulr1 1); apply: trans_comp Tr Tr2.
  - move=> a k Hk; rewrite EA2 // /upd; case: (a =P t) => [->|Na].
      by rewrite ltnSn Ei // EA // ltnn.
    rewrite EA //; have -> // : (a < t.+1)%N = (a < t)%N by lia.
  - move=> a Ha; case: (a =P t) => [->|Na]; first by rewrite -(Ei j Hj).
    by rewrite EA2 //; move/eqP/negbTE: (Na) => ->; apply: Sz; lia.
exact: K.
Qed.
End Ops.
