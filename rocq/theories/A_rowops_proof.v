(** Elementary row operations as left multiplications by matrices of known determinant. *)
From mathcomp Require Import all_ssreflect all_algebra perm zify.
From Verif Require Import A_base SpecA SpecLU A_rot_model A_rot_proof A_wpopov_model.
Set Implicit Arguments.
Unset Strict Implicit.
Unset Printing Implicit Defensive.
Import GRing.Theory.
Local Open Scope ring_scope.

Section Ops.
Variable R : comRingType.
Implicit Types A B : fmat R.

(** A' is U A on m rows and c columns *)
Definition lmul m c (U : 'M[R]_m) A A' : Prop := mx_of m c A' = U *m mx_of m c A.

Lemma lmul1 m c A A' : feq m c A A' -> lmul c (1%:M : 'M_m) A A'.
Proof. by move=> H; rewrite /lmul mul1mx; apply: mx_of_feq => i j Hi Hj; rewrite H. Qed.

Lemma lmul_comp m c (U V : 'M_m) A B C : lmul c U A B -> lmul c V B C -> lmul c (V *m U) A C.
Proof. by rewrite /lmul => E1 ->; rewrite E1 mulmxA. Qed.

(** row i1 += u * row i2 *)
Definition addU m (i1 i2 : 'I_m) (u : R) : 'M[R]_m := 1%:M + u *: delta_mx i1 i2.

Lemma lmul_add m c (i1 i2 : 'I_m) u A A' :
  (forall j, (j < c)%N -> A' i1 j = A i1 j + u * A i2 j) ->
  (forall i j, (i < m)%N -> (j < c)%N -> i != i1 -> A' i j = A i j) ->
  lmul c (addU i1 i2 u) A A'.
Proof.
move=> H1 H2; rewrite /lmul mulmxDl mul1mx -scalemxAl; apply/matrixP=> i j; rewrite !mxE.
rewrite (bigD1 i2) //= big1 => [|k Nk]; last by rewrite !mxE (negbTE Nk) andbF mul0r.
rewrite !mxE eqxx andbT addr0; case: (i =P i1) => [->|/eqP Ni] /=; first by rewrite H1 // mul1r.
by rewrite H2 // mul0r mulr0 addr0.
Qed.

Lemma det_addU m (i1 i2 : 'I_m) u : i1 != i2 -> \det (addU i1 i2 u) = 1.
Proof.
have K (a b : 'I_m) : (b < a)%N -> \det (addU a b u) = 1.
  move=> L; rewrite det_trig.
    apply: big1 => i _; rewrite !mxE eqxx.
    have -> : (i == a) && (i == b) = false.
      by apply/negP => /andP[/eqP Ea /eqP Eb]; move: L; rewrite -Ea -Eb ltnn.
    by rewrite mulr0 addr0.
  apply/is_trig_mxP=> i j H; rewrite !mxE.
  have -> : (i == j) = false by rewrite -val_eqE /=; lia.
  have -> : (i == a) && (j == b) = false.
    by apply/negP => /andP[/eqP Ea /eqP Eb]; move: L H; rewrite Ea Eb; lia.
  by rewrite mulr0 addr0.
move=> N; have [L|L] : (i2 < i1)%N \/ (i1 < i2)%N by move: N; rewrite -val_eqE /=; lia.
  exact: K.
rewrite -det_tr; suff -> : (addU i1 i2 u)^T = addU i2 i1 u by exact: K.
by apply/matrixP=> i j; rewrite !mxE eq_sym [(j == i1) && _]andbC.
Qed.

(** row exchange *)
Lemma lmul_swap m c (i1 i2 : 'I_m) A A' :
  (forall j, (j < c)%N -> A' i1 j = A i2 j) -> (forall j, (j < c)%N -> A' i2 j = A i1 j) ->
  (forall i j, (i < m)%N -> (j < c)%N -> i != i1 -> i != i2 -> A' i j = A i j) ->
  lmul c (perm_mx (tperm i1 i2)) A A'.
Proof.
move=> H1 H2 H3; rewrite /lmul -row_permE; apply/matrixP=> i j; rewrite !mxE.
case: tpermP => [->|->|/eqP N1 /eqP N2]; [by rewrite H1|by rewrite H2|by rewrite H3].
Qed.

Lemma det_swap m (i1 i2 : 'I_m) : i1 != i2 -> \det (perm_mx (tperm i1 i2) : 'M[R]_m) = -1.
Proof. by move=> N; rewrite det_perm odd_tperm N expr1. Qed.

(** rotation of the rows i..i+d: some matrix of determinant (-1)^d, the same for all matrices *)
Lemma lmul_rot m i d : (i + d < m)%N ->
  exists2 U : 'M[R]_m, \det U = (-1) ^+ odd d &
    forall c A A', (forall k j, (k < m)%N -> (j < c)%N -> A' k j = rot_up A i (i + d) k j) ->
      lmul c U A A'.
Proof.
elim: d => [|d IH] H.
  exists 1%:M; first by rewrite det1.
  move=> c A A' E; apply: lmul1 => k j Hk Hj; rewrite E // addn0 rot_upE //.
  case: eqP => [->|_] //.
  by have -> : (i <= k < i)%N = false by lia.
have [|U dU HU] := IH; first by lia.
have Ha : (i + d < m)%N by lia.
pose a := Ordinal Ha; pose b := Ordinal H.
exists (perm_mx (tperm a b) *m U).
  rewrite det_mulmx det_swap; last by rewrite -val_eqE /=; lia.
  by rewrite dU /=; case: (odd d); rewrite ?expr1 ?expr0 ?mulr1 // mulrN1 opprK.
move=> c A A' E; apply: lmul_comp (HU c A (rot_up A i (i + d)) _) _ => //.
have EA k j : (k < m)%N -> (j < c)%N -> A' k j = rot_up A i (i + d.+1) k j by exact: E.
have h1 : (i <= i + d.+1)%N by lia.
have h2 : (i <= i + d)%N by lia.
apply: lmul_swap.
- move=> j Hj; rewrite EA //= !rot_upE //.
  have -> : (i + d == i + d.+1)%N = false by lia.
  have -> : (i <= i + d < i + d.+1)%N by lia.
  have -> : (i <= i + d.+1 < i + d)%N = false by lia.
  have -> : (i + d.+1 == i + d)%N = false by lia.
  by rewrite addnS.
- by move=> j Hj; rewrite EA //= !rot_upE // !eqxx.
- move=> k j Hk Hj /= N1 N2; rewrite EA // !rot_upE //.
  rewrite (negbTE N1) (negbTE N2).
  have -> // : (i <= k < i + d.+1)%N = (i <= k < i + d)%N by lia.
Qed.
End Ops.

Section Unimod.
Variable F : fieldType.
Lemma unimodular1 m : unimodular (1%:M : 'M[{poly F}]_m).
Proof. by exists 1%:M; rewrite !mulmx1. Qed.
Lemma unimodularM m (U V : 'M[{poly F}]_m) : unimodular U -> unimodular V -> unimodular (U *m V).
Proof.
case=> U' [E1 E2] [V' [E3 E4]]; exists (V' *m U'); split.
  by rewrite mulmxA -(mulmxA U) E3 mulmx1.
by rewrite mulmxA -(mulmxA V') E2 mulmx1.
Qed.
Lemma unimodular_det m (U : 'M[{poly F}]_m) (c : F) : c != 0 -> \det U = c%:P -> unimodular U.
Proof.
move=> Nc E; have Uu : U \in unitmx by rewrite unitmxE E poly_unitE size_polyC Nc coefC eqxx unitfE.
by exists (invmx U); rewrite mulmxV // mulVmx.
Qed.
Lemma unimodular_sign m (U : 'M[{poly F}]_m) (b : bool) : \det U = (-1) ^+ b -> unimodular U.
Proof.
move=> E; apply: (@unimodular_det _ _ ((-1) ^+ b)); first by rewrite signr_eq0.
by rewrite E; case: b {E}; rewrite ?expr1 ?expr0 // polyCN.
Qed.
End Unimod.

Section Swap.
Variable T : Type.
Lemma swap_rowsE (v : nat -> T) a b k :
  swap_rows v a b k = if k == a then v b else if k == b then v a else v k.
Proof.
rewrite /swap_rows; case: (a =P b) => [->|N].
  by case: (k =P b) => [->|].
rewrite /upd; case: (k =P b) => [->|_] //.
by case: (b =P a) => // E; case: N.
Qed.
End Swap.

(** sums over permuted rows *)
Lemma sum_perm n (p : nat -> nat) (f : nat -> nat) : is_perm n p ->
  (\sum_(i < n) f (p i) = \sum_(i < n) f i)%N.
Proof.
case=> [Hp Ip].
pose q (i : 'I_n) : 'I_n := Ordinal (Hp i (ltn_ord i)).
have qI : injective q by move=> a b /(congr1 val) /= /Ip E; apply: val_inj; exact: E.
by rewrite [RHS](reindex_inj qI).
Qed.

(** the row operations of the model *)
Section Model.
Variable F : fieldType.
Implicit Types A : fmat {poly F}.

Lemma foldl_row (f : {poly F} -> {poly F} -> {poly F}) A (i1 i2 : nat) a c : i1 != i2 ->
  foldl (fun M jj => upd M i1 (upd (M i1) jj (f (M i1 jj) (M i2 jj)))) A (iota a c) =2
  (fun i j => if (i == i1) && (a <= j < a + c)%N then f (A i1 j) (A i2 j) else A i j).
Proof.
move=> N i j; elim: c i j => [|c IH] i j.
  rewrite /=; have -> : (a <= j < a + 0)%N = false by lia.
  by rewrite andbF.
rewrite -[c.+1]addn1 iotaD foldl_cat /=; set M := foldl _ _ _ in IH *.
have E1 : (i1 == i1) = true by rewrite eqxx.
have E2 : (i2 == i1) = false by rewrite eq_sym (negbTE N).
rewrite /upd; case: (i =P i1) => [->|Ni] /=; last by rewrite IH; case: eqP.
rewrite !IH E1 E2 /=; case: (j =P a + c)%N => [->|Nj].
  have -> : (a <= a + c < a + c)%N = false by lia.
  by have -> : (a <= a + c < a + (c + 1))%N by lia.
by have -> // : (a <= j < a + (c + 1))%N = (a <= j < a + c)%N by lia.
Qed.

Lemma addmul_rowE c A i1 i2 cst e : i1 != i2 ->
  addmul_row c A i1 i2 cst e =2
  (fun i j => if (i == i1) && (j < c)%N then A i1 j + (cst *: 'X^e) * A i2 j else A i j).
Proof.
move=> N i j; rewrite /addmul_row (foldl_row (fun x y => x + 'X^e * (cst *: y))) // add0n /=.
by rewrite -scalerAl -scalerAr.
Qed.
End Model.
