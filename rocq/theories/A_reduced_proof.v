(** Row degrees, leading matrices and reduced forms. *)
From mathcomp Require Import all_ssreflect all_algebra zify.
From Verif Require Import A_base SpecA SpecForms A_forms_model A_forms_proof A_forms2_proof.
Set Implicit Arguments.
Unset Strict Implicit.
Unset Printing Implicit Defensive.
Import Order.TTheory GRing.Theory Num.Theory.
Local Open Scope ring_scope.

Section Red.
Variable F : fieldType.
Implicit Types (A B : fmat {poly F}) (s : nat -> int).

Lemma is_rdegP s m n B (i : 'I_m) t :
  is_rdeg (fun j : 'I_n => s j) (row i (mx_of m n B)) t <-> vdeg (B i) s n t.
Proof.
have E k : row i (mx_of m n B) 0 k = B i k by rewrite !mxE.
split=> -[H1 [j H2 H3]].
  rewrite E in H2 H3; split=> [k Hk|]; last by exists j => //; split.
  by have := H1 (Ordinal Hk); rewrite E.
case: H3 => H3 H4; split=> [k|]; first by rewrite E => Nk; exact: H1.
by exists (Ordinal H2); rewrite E.
Qed.

Lemma vdeg_uniq v s n t t' : @vdeg F v s n t -> vdeg v s n t' -> t = t'.
Proof.
move=> [H1 [j Hj [Nj Ej]]] [H1' [j' Hj' [Nj' Ej']]].
by have := H1 j' Hj' Nj'; have := H1' j Hj Nj; lia.
Qed.

(** degree convention for a zero vector *)
Definition zdeg (shift : option (nat -> int)) n : int :=
  if shift is Some s then min_shift s n - 1 else -1.

Lemma vec_degreeP v shift n :
  (zvec v n /\ vec_degree v shift n = (zdeg shift n, 0%N)) \/
  (exists2 t, @vdeg F v (shiftf shift) n t & vec_degree v shift n = (t, 1%N)).
Proof.
case: shift => [s|] /=.
  have [[Z ->]|[D R]] := vec_max_shiftedP v s n.
    by left; split=> //; have -> : (min_shift s n <= min_shift s n - 1) = false by lia.
  by right; exists (vec_max_shifted v s n) => //; rewrite R.
have [[Z ->]|[D R]] := vec_maxP v n; first by left.
by right; exists (vec_max v n) => //; rewrite R.
Qed.

Lemma vec_degree_zeroP v shift n :
  (zvec v n /\ vec_degree_zero v shift n = (zdeg shift n + 1, 0%N)) \/
  (exists2 t, @vdeg F v (shiftf shift) n t & vec_degree_zero v shift n = (t, 1%N)).
Proof.
case: shift => [s|] /=.
  have [[Z ->]|[D R]] := vec_max_shiftedP v s n.
    left; split=> //; have -> : (min_shift s n <= min_shift s n - 1) = false by lia.
    by rewrite addrNK.
  by right; exists (vec_max_shifted v s n) => //; rewrite R.
have [[Z ->]|[D R]] := vec_maxP v n; first by left.
by right; exists (vec_max v n) => //; rewrite R.
Qed.

Lemma sum_nz m n B (f : nat -> nat) :
  (forall i : 'I_m, zvec (B i) n /\ f i = 0%N \/ (exists t s, @vdeg F (B i) s n t) /\ f i = 1%N) ->
  (\sum_(i < m) f i)%N = #|[set i : 'I_m | row i (mx_of m n B) != 0]|.
Proof.
move=> H; rewrite -sum1_card [RHS]big_mkcond /=; apply: eq_bigr => i _; rewrite inE.
case: (H i) => [[/(row_zeroP n B i) -> ->]|[[t [s [_ [j Hj [Nj _]]]]] ->]]; first by rewrite eqxx.
case: eqP => // /(row_zeroP n B i) Z.
by rewrite Z // eqxx in Nj.
Qed.

Lemma leading_row m n B (s : option (nat -> int)) (lead : fmat F) :
  (forall i j, (i < m)%N -> (j < n)%N ->
     let t := (vec_degree (B i) s n).1 in
     lead i j = if shiftf s j <= t then (B i j)`_`|t - shiftf s j|%N else 0) ->
  leading_matrix_of (shiftf s) (mx_of m n B) (mx_of m n lead).
Proof.
move=> H i; split.
  move/row_zeroP=> Z; apply/rowP=> j; rewrite !mxE H // (_ : B i j = 0) ?coef0 ?if_same //.
  exact: Z.
move=> t /is_rdegP D j; rewrite !mxE H //.
have [[Z _]|[t' D' ->]] := vec_degreeP (B i) s n.
  by case: D => _ [k Hk [Nk _]]; rewrite Z // eqxx in Nk.
by rewrite (vdeg_uniq D D').
Qed.

Lemma leading_matrixP m n A shift o :
  let L := leading_matrix m n A shift o in
  if row_wise o then leading_matrix_of (shiftf shift) (mx_of m n A) (mx_of m n L)
  else leading_matrix_of (shiftf shift) (mx_of m n A)^T (mx_of m n L)^T.
Proof.
rewrite /leading_matrix; case: (row_wise o) => /=.
  by apply: leading_row => i j Hi Hj /=; case: shift => [s|] //=; rewrite subr0.
rewrite -!mx_of_tr; apply: leading_row => i j Hi Hj /=; rewrite /ftr /fcol.
by case: shift => [s|] //=; rewrite subr0.
Qed.

Lemma row_zero_or_deg s m n (M : 'M[{poly F}]_(m, n)) i :
  row i M = 0 \/ exists t, is_rdeg (fun j : 'I_n => s j) (row i M) t.
Proof.
have [B <-] := mx_of_exists M.
have [[Z _]|[t D _]] := vec_degreeP (B i) (Some s) n; first by left; apply/row_zeroP.
by right; exists t; apply/is_rdegP.
Qed.

Lemma leading_uniq s m n (M : 'M[{poly F}]_(m, n)) L L' :
  leading_matrix_of s M L -> leading_matrix_of s M L' -> L = L'.
Proof.
move=> H H'; apply/row_matrixP=> i; have [H1 H2] := H i; have [H1' H2'] := H' i.
case: (row_zero_or_deg s M i) => [Z|[t D]]; first by rewrite H1 ?H1'.
by apply/rowP=> j; rewrite !mxE (H2 t) // (H2' t).
Qed.

Lemma is_reducedP m n A shift o :
  is_reduced m n A shift o <->
  oriented (fun up => @reduced_form F (shiftf shift)) o (mx_of m n A).
Proof.
have H := leading_matrixP m n A shift o.
have rf p q (L : 'M[F]_(p, q)) : row_free L <-> p == \rank L by rewrite /row_free eq_sym.
have E : oriented (fun up => @reduced_form F (shiftf shift)) o (mx_of m n A) <->
  if row_wise o then reduced_form (shiftf shift) (mx_of m n A)
  else reduced_form (shiftf shift) (mx_of m n A)^T by move: o {H}; case.
rewrite E /is_reduced; case: (row_wise o) H => H; split.
- by move/rf=> R; exists (mx_of m n (leading_matrix m n A shift o)).
- by case=> L HL; rewrite (leading_uniq HL H) => /rf.
- rewrite -mxrank_tr => /rf R.
  by exists (mx_of m n (leading_matrix m n A shift o))^T.
- by case=> L HL; rewrite (leading_uniq HL H) => /rf; rewrite mxrank_tr.
Qed.

(** a matrix in weak Popov form is reduced *)
Lemma weak_popov_reduced up s m n (M : 'M[{poly F}]_(m, n)) :
  weak_popov_form up s M -> reduced_form s M.
Proof.
case=> piv inj Hp.
pose rd i := sdeg (s (piv i)) (M i (piv i)).
pose L : 'M[F]_(m, n) := \matrix_(i, j) if s j <= rd i then (M i j)`_`|rd i - s j|%N else 0.
have ME i j : row i M 0 j = M i j by rewrite mxE.
have Dg i : is_rdeg (fun j : 'I_n => s j) (row i M) (rd i).
  have [N U _] := Hp i; rewrite ME in N; split.
    by move=> j Nj; have := U j Nj; rewrite !ME.
  by exists (piv i); rewrite ME.
exists L.
  move=> i; split.
    by have [N _ _] := Hp i => Z; rewrite Z mxE eqxx in N.
  move=> t D j; have -> : t = rd i.
    have [H1 [k Hk Ek]] := D; have [H1' [k' Hk' Ek']] := Dg i.
    have := H1 _ Hk'; have := H1' _ Hk; rewrite Ek Ek'; lia.
  by rewrite mxE.
(* pivots of L *)
have Lp i : L i (piv i) != 0.
  have [N _ _] := Hp i; rewrite ME -size_poly_gt0 in N.
  rewrite mxE /rd /sdeg ifT; last by lia.
  have -> : absz ((size (M i (piv i)))%:Z - 1 + s (piv i) - s (piv i))%R = (size (M i (piv i))).-1 by lia.
  by rewrite -/(lead_coef _) lead_coef_eq0 -size_poly_gt0.
have L0 i k : before up k (piv i) -> L i k = 0.
  move=> Bk; have [_ _ H] := Hp i; have := H k Bk; rewrite !ME -/(rd i) mxE => Hk.
  case: ifP => // C; case: (eqVneq (M i k) 0) => [->|N]; first by rewrite coef0.
  have := Hk N; rewrite /sdeg => Hk'.
  rewrite nth_default //; move: (rd i) (s k) (size _) C Hk' => a b c; lia.
rewrite -kermx_eq0; apply/eqP/row_matrixP=> r; rewrite row0.
apply/eqP; apply: contraT => NZ.
set w := row r (kermx L) in NZ.
have wL : w *m L = 0 by apply/sub_kermxP; exact: row_sub.
have [i0 Ni0] : exists i, w 0 i != 0.
  apply/existsP; apply: contraNT NZ; rewrite negb_exists => /forallP H.
  by apply/eqP/rowP=> j; rewrite [RHS]mxE; apply/eqP; have := H j; rewrite negbK.
pose key (i : 'I_m) : nat := if up then (n - piv i)%N else piv i.
case: (@arg_maxnP _ i0 (fun i => w 0 i != 0) key Ni0) => i Ni Hmax.
have := congr1 (fun X : 'rV_n => X 0 (piv i)) wL; rewrite mxE [RHS]mxE (bigD1 i) //= big1.
  by rewrite addr0 => /eqP; rewrite mulf_eq0 (negbTE Ni) (negbTE (Lp i)).
move=> i' NE; case: (eqVneq (w 0 i') 0) => [->|N]; first by rewrite mul0r.
rewrite L0 ?mulr0 //; have := Hmax i' N; rewrite /key /before.
have : (piv i' : nat) != piv i by apply: contraNneq NE => /val_inj/inj ->.
by case: (up); have := ltn_ord (piv i); have := ltn_ord (piv i'); lia.
Qed.
End Red.
