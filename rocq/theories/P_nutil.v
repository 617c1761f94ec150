(** Property C65: the basic operations on matrices of polynomials (ntl-extras). *)
From Coq Require Import ZArith.
From mathcomp Require Import all_ssreflect all_algebra zify.
From Verif Require Import A_base A_mul_model N_multi_model N_multi_proof N_shift_proof N_pmat_model N_trs_model N_trs_proof.
From Verif Require Import N_util_model N_util_proof.
Set Implicit Arguments.
Unset Strict Implicit.
Unset Printing Implicit Defensive.
Import GRing.Theory.
Local Open Scope ring_scope.

Section C65.
Variable F : fieldType.
Local Notation P := {poly F}.
Implicit Types (a b c x : pmat F) (al bl : bool) (p : P).

(** the coefficient of p of index z, zero when z is negative *)
Definition zcoef p (z : Z) : F := if Z.leb 0 z then p`_(Z.to_nat z) else 0.

(** c is the m x n matrix whose entry (i, j) has the coefficients f i j 0, f i j 1, .. *)
Definition coefs_are c (m n : nat) (f : nat -> nat -> nat -> F) : Prop :=
  [/\ nr c = m, nc c = n & forall i j k, (i < m)%N -> (j < n)%N -> (ent c i j)`_k = f i j k].

Lemma coefs_ewise al (g : nat -> nat -> P -> P) x a f :
  (forall i j k, (g i j (ent a i j))`_k = f i j k) -> coefs_are (ewise al g x a) (nr a) (nc a) f.
Proof. by move=> H; have [Hr Hc He] := ewiseE al g x a; split=> // i j k Hi Hj; rewrite He. Qed.

Lemma lshiftE p n k : (lshift p n)`_k = zcoef p (Z.of_nat k - n).
Proof.
have H m : (p * 'X^m)`_k = zcoef p (Z.of_nat k - Z.of_nat m).
  rewrite coefMXn /zcoef; case: ltnP => C; first by have -> : Z.leb 0 (Z.of_nat k - Z.of_nat m) = false by lia.
  have -> : Z.leb 0 (Z.of_nat k - Z.of_nat m) by lia.
  by congr nth; lia.
case: n => [|q|q]; first exact: (H 0%N).
  by rewrite [LHS](H (Pos.to_nat q)) positive_nat_Z.
rewrite /= coef_poly /zcoef.
have -> : Z.leb 0 (Z.of_nat k - Z.neg q) by lia.
have -> : Z.to_nat (Z.of_nat k - Z.neg q) = (Pos.to_nat q + k)%N by lia.
case: ltnP => // C; rewrite nth_default //; move: (size p) C => s; lia.
Qed.
Lemma rshiftE p n k : (rshift p n)`_k = zcoef p (Z.of_nat k + n).
Proof.
have E : rshift p n = lshift p (- n).
  case: n => [|q|q] //; rewrite /= expr0 mulr1; apply/polyP=> i; rewrite coef_poly subn0 add0n.
  by case: ltnP => // C; rewrite nth_default.
by rewrite E lshiftE; congr (zcoef p _); lia.
Qed.
Lemma zreverseE p hi k : (zreverse p hi)`_k = if Z.leb (Z.of_nat k) hi then zcoef p (hi - Z.of_nat k) else 0.
Proof.
case: (Z.leb_spec0 0 hi) => C.
  have -> : zreverse p hi = \poly_(k < (Z.to_nat hi).+1) p`_(Z.to_nat hi - k) by case: hi C => // q; lia.
  rewrite coef_poly /zcoef ltnS (_ : (k <= Z.to_nat hi)%N = Z.leb (Z.of_nat k) hi); last by lia.
  case: ifP => // C2; have -> : Z.leb 0 (hi - Z.of_nat k) by lia.
  by congr nth; lia.
have -> : Z.leb (Z.of_nat k) hi = false by lia.
by case: hi C => [|q|q] //=; rewrite ?coef0 //; lia.
Qed.

(** the output has the dimensions of the input and its entries are obtained coefficient by coefficient, whatever the
    output contains before and also when it is the input (al) *)
Theorem C65_entrywise al x a (n : nat) (z : Z) (hi : nat -> Z) (s : F) (q : P) :
  [/\ coefs_are (pm_truncate al x a n) (nr a) (nc a) (fun i j k => if (k < n)%N then (ent a i j)`_k else 0),
      coefs_are (pm_lshift al x a z) (nr a) (nc a) (fun i j k => zcoef (ent a i j) (Z.of_nat k - z)),
      coefs_are (pm_rshift al x a z) (nr a) (nc a) (fun i j k => zcoef (ent a i j) (Z.of_nat k + z)),
      coefs_are (pm_negate al x a) (nr a) (nc a) (fun i j k => - (ent a i j)`_k) &
      coefs_are (pm_mul_scalar al x a s) (nr a) (nc a) (fun i j k => s * (ent a i j)`_k)] /\
  [/\ coefs_are (pm_reverse al x a z) (nr a) (nc a)
        (fun i j k => if Z.leb (Z.of_nat k) z then zcoef (ent a i j) (z - Z.of_nat k) else 0),
      coefs_are (row_reverse al x a hi) (nr a) (nc a)
        (fun i j k => if Z.leb (Z.of_nat k) (hi i) then zcoef (ent a i j) (hi i - Z.of_nat k) else 0),
      coefs_are (col_reverse al x a hi) (nr a) (nc a)
        (fun i j k => if Z.leb (Z.of_nat k) (hi j) then zcoef (ent a i j) (hi j - Z.of_nat k) else 0) &
      is_pmat (pm_mul_poly al x a q) (nr a) (nc a) (fun i j => ent a i j * q)].
Proof.
split; split; try exact: ewiseE; apply: coefs_ewise => i j k.
- exact: ptrunc_coef.
- exact: lshiftE.
- exact: rshiftE.
- exact: coefN.
- exact: coefZ.
- exact: zreverseE.
- exact: zreverseE.
- exact: zreverseE.
Qed.

(** sums and differences; the output may be one of the operands, or both when they are the same matrix *)
Theorem C65_add_sub al bl x a b : nr a = nr b -> nc a = nc b -> (al && bl -> a = b) ->
  (exists c, pm_add_to al bl x a b = AOk c /\ is_pmat c (nr a) (nc a) (fun i j => ent a i j + ent b i j)) /\
  (exists c, pm_sub_to al bl x a b = AOk c /\ is_pmat c (nr a) (nc a) (fun i j => ent a i j - ent b i j)).
Proof.
move=> Er Ec E; have E' : al -> bl -> forall i j, ent a i j = ent b i j by move=> A B i j; rewrite E // A B.
by split; apply: ewise2E.
Qed.
Theorem C65_add_sub_constant al x a (b : cmat F) : nr a = cr b -> nc a = cc b ->
  [/\ exists c, pm_addc al x a b = AOk c /\ is_pmat c (nr a) (nc a) (fun i j => ent a i j + (cent b i j)%:P),
      exists c, pm_subc al x a b = AOk c /\ is_pmat c (nr a) (nc a) (fun i j => ent a i j - (cent b i j)%:P) &
      exists c, pm_csub al x b a = AOk c /\ is_pmat c (nr a) (nc a) (fun i j => (cent b i j)%:P - ent a i j)].
Proof.
move=> Er Ec; rewrite /pm_addc /pm_subc /pm_csub Er Ec !eqxx /= -Er -Ec.
by split; eexists; (split; first by []); apply: ewiseE.
Qed.

(** products by constant matrices *)
Theorem C65_constant_products al x a (b : cmat F) :
  (nc a = cr b -> exists c, pm_mulc al x a b = AOk c /\
     is_pmat c (nr a) (cc b) (fun i j => \sum_(k < nc a) ent a i k * (cent b k j)%:P)) /\
  (cc b = nr a -> exists c, pm_cmul al x b a = AOk c /\
     is_pmat c (cr b) (nc a) (fun i j => \sum_(k < cc b) (cent b i k)%:P * ent a k j)).
Proof. by split=> E; [apply: pm_mulcE|apply: pm_cmulE]. Qed.

(** operands whose dimensions do not agree are rejected *)
Theorem C65_rejected al bl x a b (m : cmat F) k :
  [/\ (nr a, nc a) <> (nr b, nc b) -> pm_add_to al bl x a b = AUB /\ pm_sub_to al bl x a b = AUB,
      (nr a, nc a) <> (cr m, cc m) ->
        [/\ pm_addc al x a m = AUB, pm_subc al x a m = AUB, pm_csub al x m a = AUB & pm_set_coeff a k m = AUB],
      nc a <> cr m -> pm_mulc al x a m = AUB &
      cc m <> nr a -> pm_cmul al x m a = AUB].
Proof.
split=> [N|N|/eqP N|/eqP N].
- have C : (nr a != nr b) || (nc a != nc b) by rewrite -negb_and; apply/negP=> /andP[/eqP A /eqP B]; apply: N; rewrite A B.
  by rewrite /pm_add_to /pm_sub_to /ewise2 C.
- have C : (nr a != cr m) || (nc a != cc m) by rewrite -negb_and; apply/negP=> /andP[/eqP A /eqP B]; apply: N; rewrite A B.
  by rewrite /pm_addc /pm_subc /pm_csub /pm_set_coeff C [cr m == _]eq_sym [cc m == _]eq_sym C.
- by rewrite /pm_mulc N.
- by rewrite /pm_cmul N.
Qed.

(** coefficients of a matrix seen as a polynomial with matrix coefficients *)
Theorem C65_coefficients a k (m : cmat F) :
  [/\ cr (get_coeff a k) = nr a, cc (get_coeff a k) = nc a &
      forall i j, (i < nr a)%N -> (j < nc a)%N -> cent (get_coeff a k) i j = (ent a i j)`_k] /\
  (nr a = cr m -> nc a = cc m -> exists c, pm_set_coeff a k m = AOk c /\
     coefs_are c (nr a) (nc a) (fun i j l => if l == k then cent m i j else (ent a i j)`_l)).
Proof.
split; first by split=> // i j Hi Hj /=; rewrite (mat_loop (fun i j => (ent a i j)`_k)) Hi Hj.
move=> Er Ec; rewrite /pm_set_coeff Er Ec !eqxx /= -Er -Ec; eexists; split; first by [].
split=> // i j l Hi Hj /=; rewrite winE; last by move=> u v M M' ->.
by rewrite !add0n Hi Hj set_coeffE.
Qed.

(** transposition, in place or not, and mirror image of a vector *)
Theorem C65_transpose x a (n : nat) (v : nat -> P) :
  [/\ is_pmat (transpose x a) (nc a) (nr a) (fun i j => ent a j i),
      is_pmat (transpose_alias a) (nc a) (nr a) (fun i j => ent a j i) &
      forall i, (i < n)%N -> mirror n v i = v (n - 1 - i)%N].
Proof. by split; [apply: transposeE|apply: transpose_aliasE|move=> i Hi; apply: mirrorE]. Qed.

(** identity, zero, and cleared windows, which are intersected with the matrix *)
Theorem C65_constructors x n ro co nrows ncols :
  [/\ is_pmat (pm_ident x n) n n (fun i j => if i == j then 1 else 0),
      is_pmat (ident_mat F n) n n (fun i j => if i == j then 1 else 0),
      is_pmat (pm_clear x) (nr x) (nc x) (fun _ _ => 0) &
      is_pmat (clear_window x ro co nrows ncols) (nr x) (nc x)
        (fun i j => if (ro <= i < ro + nrows)%N && (co <= j < co + ncols)%N then 0 else ent x i j)].
Proof.
split; [exact: pm_identE|exact: ident_matE|exact: pm_clearE|].
split=> // i j Hi Hj /=; rewrite winE //; congr (if _ then _ else _).
by congr (_ && _); lia.
Qed.

(** the tests *)
Theorem C65_tests a n :
  [/\ pm_is_zero a <-> (forall i j, (i < nr a)%N -> (j < nc a)%N -> ent a i j = 0),
      pm_is_constant a <-> (forall i j, (i < nr a)%N -> (j < nc a)%N -> exists e : F, ent a i j = e%:P),
      pm_is_ident_dim a n <-> is_pmat a n n (fun i j => if i == j then 1 else 0) &
      pm_is_ident a <-> exists m, is_pmat a m m (fun i j => if i == j then 1 else 0)].
Proof.
have T i j : is_ident_test a i j <-> ent a i j = if i == j then 1 else 0.
  rewrite /is_ident_test; case: (i =P j) => E /=; last by case: eqP.
  by case: eqP.
split.
- split=> [/all_loop H i j Hi Hj|H]; first exact/eqP/H.
  by apply/all_loop=> i j Hi Hj; rewrite H.
- split=> [/all_loop H i j Hi Hj|H].
    by exists (ent a i j)`_0; apply: size1_polyC; rewrite leqNgt; apply: H.
  by apply/all_loop=> i j Hi Hj; have [e ->] := H i j Hi Hj; rewrite -leqNgt size_polyC; case: eqP.
- rewrite /pm_is_ident_dim; case: ifP => [C|/norP[/negPn/eqP A /negPn/eqP B]].
    by split=> // -[A B _]; move: C; rewrite A B eqxx.
  split=> [/all_loop H|[_ _ H]]; first by split=> // i j Hi Hj; apply/T/H.
  by apply/all_loop=> i j Hi Hj; apply/T; rewrite H.
- rewrite /pm_is_ident; case: eqP => /= C; last by split=> // -[m [A B _]]; case: C; rewrite A B.
  split=> [/all_loop H|[m [A B H]]]; first by exists (nr a); split=> // i j Hi Hj; apply/T/H.
  by apply/all_loop=> i j Hi Hj; apply/T; rewrite H // -A.
Qed.

(** shifts of a row or of a column leave the other entries unchanged *)
Theorem C65_shift_row_col al x a r (z : Z) :
  ((r < nr a)%N ->
    (exists c, shift_row (fun p => lshift p z) al x a r = AOk c /\ coefs_are c (nr a) (nc a)
      (fun i j k => if i == r then zcoef (ent a i j) (Z.of_nat k - z) else (ent a i j)`_k)) /\
    (exists c, shift_row (fun p => rshift p z) al x a r = AOk c /\ coefs_are c (nr a) (nc a)
      (fun i j k => if i == r then zcoef (ent a i j) (Z.of_nat k + z) else (ent a i j)`_k))) /\
  ((r < nc a)%N ->
    (exists c, shift_col (fun p => lshift p z) al x a r = AOk c /\ coefs_are c (nr a) (nc a)
      (fun i j k => if j == r then zcoef (ent a i j) (Z.of_nat k - z) else (ent a i j)`_k)) /\
    (exists c, shift_col (fun p => rshift p z) al x a r = AOk c /\ coefs_are c (nr a) (nc a)
      (fun i j k => if j == r then zcoef (ent a i j) (Z.of_nat k + z) else (ent a i j)`_k))).
Proof.
split=> Hr; split.
- have [c [-> [A B H]]] := shift_rowE (fun p => lshift p z) al x Hr; exists c; split=> //; split=> // i j k Hi Hj.
  by rewrite H //; case: eqP => // _; apply: lshiftE.
- have [c [-> [A B H]]] := shift_rowE (fun p => rshift p z) al x Hr; exists c; split=> //; split=> // i j k Hi Hj.
  by rewrite H //; case: eqP => // _; apply: rshiftE.
- have [c [-> [A B H]]] := shift_colE (fun p => lshift p z) al x Hr; exists c; split=> //; split=> // i j k Hi Hj.
  by rewrite H //; case: eqP => // _; apply: lshiftE.
- have [c [-> [A B H]]] := shift_colE (fun p => rshift p z) al x Hr; exists c; split=> //; split=> // i j k Hi Hj.
  by rewrite H //; case: eqP => // _; apply: rshiftE.
Qed.

(** truncation of a row or of a column, in place *)
Theorem C65_trunc_row_col_partial x a r n :
  ((r < nr a)%N -> exists c, trunc_row true x a r n = AOk c /\ is_pmat c (nr a) (nc a)
     (fun i j => if i == r then ptrunc n (ent a i j) else ent a i j)) /\
  ((r < nc a)%N -> exists c, trunc_col true x a r n = AOk c /\ is_pmat c (nr a) (nc a)
     (fun i j => if j == r then ptrunc n (ent a i j) else ent a i j)).
Proof.
split=> Hr; rewrite /trunc_row /trunc_col.
  rewrite [(nr a <= r)%N]leqNgt Hr andbF /=; (eexists; split; first by []); split=> // i j Hi Hj /=.
  rewrite winE; last by move=> u v M M' ->.
  by rewrite add0n; congr (if _ then _ else _); lia.
rewrite [(nc a <= r)%N]leqNgt Hr andbF /=; (eexists; split; first by []); split=> // i j Hi Hj /=.
rewrite winE; last by move=> u v M M' ->.
by rewrite add0n; congr (if _ then _ else _); lia.
Qed.

(** the version that returns the result truncates the row of the input but loses all the other rows: they are zero *)
Theorem C65_trunc_row_refuted a r n : (r < nr a)%N ->
  exists c, trunc_row false (new_pmat F) a r n = AOk c /\ is_pmat c (nr a) (nc a)
     (fun i j => if i == r then ptrunc n (ent a i j) else 0).
Proof.
move=> Hr; rewrite /trunc_row [(nr a <= r)%N]leqNgt Hr andbF /=; (eexists; split; first by []); split=> // i j Hi Hj /=.
rewrite winE // add0n Hj /= andbT (_ : (r <= i < r + 1)%N = (i == r)); last by lia.
by case: ifP => // _; case: ifP.
Qed.
Theorem C65_trunc_col_refuted a r n : (r < nc a)%N ->
  exists c, trunc_col false (new_pmat F) a r n = AOk c /\ is_pmat c (nr a) (nc a)
     (fun i j => if j == r then ptrunc n (ent a i j) else 0).
Proof.
move=> Hr; rewrite /trunc_col [(nc a <= r)%N]leqNgt Hr andbF /=; (eexists; split; first by []); split=> // i j Hi Hj /=.
rewrite winE // add0n Hi /= (_ : (r <= j < r + 1)%N = (j == r)); last by lia.
by case: ifP => // _; case: ifP.
Qed.
End C65.

(** the rows that are lost are not zero in general *)
Example C65_trunc_row_met (F : fieldType) :
  exists c, trunc_row false (new_pmat F) (Pmat 2 1 (fun _ _ => 'X)) 0 1 = AOk c /\ ent c 1%N 0%N <> 'X.
Proof.
have [c [-> [_ _ H]]] := @C65_trunc_row_refuted F (Pmat 2 1 (fun _ _ => 'X)) 0 1 isT.
exists c; split=> //; rewrite H //=; apply/eqP; by rewrite eq_sym polyX_eq0.
Qed.
Example C65_met (F : fieldType) :
  let a := Pmat 2 3 (fun i j => 'X^(i + j) : {poly F}) in let m := Cmat 3 2 (fun i j => i%:R + j%:R : F) in
  [/\ nc a = cr m, (1 < nr a)%N & exists c, pm_mulc true a a m = AOk c /\ nc c = 2%N].
Proof.
move=> a m; split=> //; have [c [-> [_ Hc _]]] := (C65_constant_products true a a m).1 erefl; by exists c.
Qed.

Print Assumptions C65_entrywise.
Print Assumptions C65_add_sub.
Print Assumptions C65_add_sub_constant.
Print Assumptions C65_constant_products.
Print Assumptions C65_rejected.
Print Assumptions C65_coefficients.
Print Assumptions C65_transpose.
Print Assumptions C65_constructors.
Print Assumptions C65_tests.
Print Assumptions C65_shift_row_col.
Print Assumptions C65_trunc_row_col_partial.
Print Assumptions C65_trunc_row_refuted.
Print Assumptions C65_trunc_col_refuted.
