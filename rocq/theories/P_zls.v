(** C26, C48: the divide-and-conquer kernel, and its interface for all orientations. *)
From mathcomp Require Import all_ssreflect all_algebra fraction zify.
From Verif Require Import A_base SpecA SpecForms SpecKernel A_frac_proof A_forms_model A_forms_proof A_kernel_model
  A_kernel_abs A_kernel_proof A_zls_abs A_zls_model A_zls_proof A_zls2_proof.
Set Implicit Arguments.
Unset Strict Implicit.
Unset Printing Implicit Defensive.
Import Order.TTheory GRing.Theory Num.Theory.
Local Open Scope ring_scope.

Section P.
Variable F : fieldType.
Implicit Types (A : fmat {poly F}).
Local Notation prank M := (\rank (map_mx (@FracField.tofrac [idomainType of {poly F}]) M)).

(** the recursion ends, without undefined behaviour, on a basis of the kernel in s-ordered
    weak Popov form with the announced pivot indices and s-degrees *)
Theorem C26_kernel_zls v36 modn m n ker0 piv0 (s : nat -> int) A : modn \in [char F] ->
  exists r fuel0, [/\ forall fuel, (fuel0 <= fuel)%N -> zls fuel v36 modn m n ker0 piv0 s A = AOk r,
    minimal_kernel_basis (fun i : 'I_m => s i) (mx_of m n A)
      (mx_of (kr_nullity r) m (kr_ker r)) (kr_pivind r) (kr_shift r) &
    kr_nullity r = (m - prank (mx_of m n A))%N].
Proof.
move=> Hc; have [r [f [E H]]] := zls_correct v36 Hc m n s A ker0 piv0.
by exists r, f; split=> //; [exact/mkbP|case: H => /kernel_basis_rows].
Qed.

(** hence the two kernel functions agree on the nullity, the pivots and the degrees *)
Lemma mkb_unique m n k1 k2 s (A : 'M[{poly F}]_(m, n)) (M1 : 'M_(k1, m)) (M2 : 'M_(k2, m)) p1 p2 t1 t2 :
  mkb s A M1 p1 t1 -> mkb s A M2 p2 t2 -> k1 = k2 /\ forall i, (i < k1)%N -> p1 i = p2 i /\ t1 i = t2 i.
Proof.
move=> /mkb_kb[q1 E1 K1] /mkb_kb[q2 E2 K2].
have Ek : k1 = k2.
  by case: K1 => /kernel_basis_rows e1 _ _; case: K2 => /kernel_basis_rows e2 _ _; rewrite e1 e2.
split=> //; subst k2.
have sub (q q' : 'I_k1 -> 'I_m) (Q Q' : 'M_(k1, m)) u u' : kb s A Q q u -> kb s A Q' q' u' ->
    forall a, exists2 b, q' b = q a & u' b <= u a.
  move=> KQ KQ' a; have [_ V _] := KQ; apply: kb_pivot KQ' _ (V a).
  by rewrite -row_mul (kbA KQ) row0.
have [_ _ I1] := K1; have [_ _ I2] := K2.
have id1 : forall a, q2 a = q1 a.
  have /fin_all_exists[f Ef] : forall a, exists b, q2 b = q1 a.
    by move=> a; have [b Eb _] := sub _ _ _ _ _ _ K1 K2 a; exists b.
  have fI : incr f.
    move=> a b ab; have := I1 _ _ ab; rewrite -!Ef; case: (ltngtP (f a) (f b)) => // [/I2|/val_inj ->]; lia.
  have le1 : forall a : 'I_k1, (a <= f a)%N.
    move=> [a Ha] /=; elim: a Ha => // a IH Ha; have Ha' := ltnW Ha.
    by have := IH Ha'; have := fI (Ordinal Ha') (Ordinal Ha) (ltnSn a); rewrite /=; lia.
  have le2 : forall c (a : 'I_k1), (a + c).+1 = k1 -> (f a <= a)%N.
    elim=> [|c IH] a Ea; first by have := ltn_ord (f a); lia.
    have Hb : (a.+1 < k1)%N by lia.
    have := IH (Ordinal Hb); have := fI a (Ordinal Hb) (ltnSn a); rewrite /=; lia.
  move=> a; rewrite -(Ef a); congr q2; apply/val_inj/eqP; rewrite eqn_leq le1 /=.
  by apply: (le2 (k1 - a.+1)%N); have := ltn_ord a; lia.
move=> i Hi; rewrite (E1 (Ordinal Hi)) (E2 (Ordinal Hi)) id1; split=> //.
have [b Eb Lb] := sub _ _ _ _ _ _ K1 K2 (Ordinal Hi); rewrite -id1 in Eb.
have [c Ec Lc] := sub _ _ _ _ _ _ K2 K1 (Ordinal Hi); rewrite id1 in Ec.
rewrite (incr_inj I2 Eb) in Lb; rewrite (incr_inj I1 Ec) in Lc.
by apply/eqP; rewrite eq_le; apply/andP; split.
Qed.

Theorem C26_agrees_via_approx v36 modn m n ker0 piv0 ker1 piv1 (s : nat -> int) A : modn \in [char F] ->
  exists r r' fuel0, [/\ kernel_via_approx v36 modn m n ker1 piv1 s A = AOk r',
    (forall fuel, (fuel0 <= fuel)%N -> zls fuel v36 modn m n ker0 piv0 s A = AOk r) &
    kr_nullity r = kr_nullity r' /\
    forall i, (i < kr_nullity r)%N -> kr_pivind r i = kr_pivind r' i /\ kr_shift r i = kr_shift r' i].
Proof.
move=> Hc; have [r [f [E H]]] := zls_correct v36 Hc m n s A ker0 piv0.
have [r' [E' H']] := via_approx_correct v36 m n ker1 piv1 s A Hc.
by exists r, r', f; split=> //; exact: mkb_unique H H'.
Qed.

(** *** mirrored matrices *)
Definition Jm n : 'M[{poly F}]_n := \matrix_(i, j) (j == rev_ord i)%:R.

Lemma mulJ m n (M : 'M[{poly F}]_(m, n)) : Jm m *m M = \matrix_(i, j) M (rev_ord i) j.
Proof.
apply/matrixP=> i j; rewrite !mxE (bigD1 (rev_ord i)) //= big1 ?addr0.
  by rewrite !mxE eqxx mul1r.
by move=> l Nl; rewrite !mxE (negbTE Nl) mul0r.
Qed.

Lemma mulmJ m n (M : 'M[{poly F}]_(m, n)) : M *m Jm n = \matrix_(i, j) M i (rev_ord j).
Proof.
apply/matrixP=> i j; rewrite !mxE (bigD1 (rev_ord j)) //= big1 ?addr0.
  by rewrite !mxE rev_ordK eqxx mulr1.
move=> l Nl; rewrite !mxE; case: eqP => [E|]; last by rewrite mulr0.
by rewrite E rev_ordK eqxx in Nl.
Qed.

Lemma JJ n : Jm n *m Jm n = 1%:M.
Proof. by rewrite mulJ; apply/matrixP=> i j; rewrite !mxE rev_ordK eq_sym. Qed.

Lemma kernel_basis_mirror m n k (A : 'M[{poly F}]_(m, n)) (K : 'M_(k, m)) :
  kernel_basis (Jm m *m A) K -> kernel_basis A (Jm k *m K *m Jm m).
Proof.
case=> H1 [H2 H3]; have KA : K *m (Jm m *m A) = 0.
  by apply/row_matrixP=> i; rewrite row_mul H1 row0.
split; first by move=> i; rewrite -row_mul -!mulmxA KA mulmx0 row0.
split=> [v vA|w H].
  have [|w Ew] := H2 (v *m Jm m); first by rewrite -mulmxA [Jm m *m _]mulmxA JJ mul1mx.
  exists (w *m Jm k); rewrite -!mulmxA [Jm k *m (Jm k *m _)]mulmxA JJ mul1mx mulmxA -Ew.
  by rewrite -mulmxA JJ mulmx1.
have : w *m Jm k = 0.
  by apply: H3; have := congr1 (fun M => M *m Jm m) H; rewrite mul0mx -!mulmxA JJ mulmx1 mulmxA.
by move=> /(congr1 (fun M => M *m Jm k)); rewrite mul0mx -mulmxA JJ mulmx1.
Qed.

Lemma mirror_pivindP c k (p : nat -> nat) i : (i < k)%N ->
  mirror_pivind c k p i = (c - 1 - p (k - 1 - i))%N.
Proof.
rewrite /mirror_pivind; set q := foldl _ _ _.
have H h : (h <= k %/ 2)%N -> forall i, (i < k)%N ->
   foldl (fun p i => let tmp := (c - 1 - p i)%N in
      upd (upd p i (c - 1 - p (k - 1 - i)%N)%N) (k - 1 - i)%N tmp) p (iota 0 h) i =
   if (i < h)%N || (k - 1 - i < h)%N then (c - 1 - p (k - 1 - i))%N else p i.
  elim: h => [|h IH] Hh i1 Hi; first by rewrite !ltn0.
  rewrite foldl_iota_rcons add0n /upd; cbv zeta; rewrite !IH; [|lia..].
  case: (i1 =P (k - 1 - h)%N) => [->|N1].
    have -> : (k - 1 - (k - 1 - h) = h)%N by lia.
    by rewrite ltnn ltnSn orbT ifF //; lia.
  case: (i1 =P h) => [->|N2]; last by congr (if _ then _ else _); lia.
  rewrite ltnSn /= ifF //; lia.
move=> Hi; have {}H := H _ (leqnn _); rewrite -/q in H; case: ifP => O; last by rewrite H // ifT //; lia.
rewrite /upd; case: eqP => [->|N]; last by rewrite H // ifT //; lia.
rewrite H; last by lia.
by rewrite ifF; [congr (_ - _ - p _)%N; lia|lia].
Qed.

Lemma pivot_lower m (s : nat -> int) (v : 'rV[{poly F}]_m) j :
  is_pivot (fun i : 'I_m => s i) v j <-> pivot_at false s v j.
Proof. by split=> [[h1 [h2 h3]]|[h1 h2 h3]]. Qed.

(** *** the kernel functions for both kinds of pivots *)
Lemma kernel_leftP up v36 modn m n ker0 piv0 (s : nat -> int) A : modn \in [char F] ->
  exists r fuel0,
    (forall fuel, (fuel0 <= fuel)%N -> kernel_left fuel v36 modn up m n ker0 piv0 s A = AOk r) /\
    left_kernel_basis up s (mx_of m n A) (mx_of (kr_nullity r) m (kr_ker r)) (kr_pivind r) (kr_shift r).
Proof.
move=> Hc; case: up => /=.
  have [r [f [E]]] := zls_correct v36 Hc m n (mirror m s) (mirror m A) ker0 piv0.
  move=> /mkbP[h1 h2 h3 h4]; set k := kr_nullity r in h1 h2 h3 h4 *.
  exists (KerRes k (fun i => if (i < k)%N then mirror m (mirror k (kr_ker r) i) else mirror k (kr_ker r) i)
            (mirror_pivind m k (kr_pivind r)) (mirror k (kr_shift r))), f; split.
    by move=> fuel Hf; rewrite E.
  rewrite /=; set M := mx_of k m _ in h1 h2 h3 h4.
  have JA : mx_of m n (mirror m A) = Jm m *m mx_of m n A.
    rewrite mulJ; apply/matrixP=> i j; rewrite !mxE /mirror ltn_ord; congr (A _ _); rewrite /=; lia.
  rewrite JA in h1; have := kernel_basis_mirror h1; rewrite mulmJ mulJ.
  set M' := \matrix_(i, j) _; have -> : M' = mx_of k m
      (fun i => if (i < k)%N then mirror m (mirror k (kr_ker r) i) else mirror k (kr_ker r) i).
    apply/matrixP=> i j; rewrite !mxE /mirror !ltn_ord /=; congr (kr_ker r _ _); lia.
  set M2 := mx_of k m _ => KB.
  have rE (i : 'I_k) j : M2 i j = M (rev_ord i) (rev_ord j).
    rewrite !mxE /mirror !ltn_ord /=; congr (kr_ker r _ _); lia.
  have sE (j : 'I_m) : mirror m s j = s (rev_ord j).
    by rewrite /mirror ltn_ord /=; congr s; lia.
  have rE0 (i : 'I_k) j : row i M2 0 j = row (rev_ord i) M 0 (rev_ord j) by rewrite [LHS]mxE rE [RHS]mxE.
  have rvk (i : 'I_k) : (k - 1 - i)%N = rev_ord i by rewrite /=; lia.
  split=> //.
  - move=> i; have [j Ej [p1 [p2 p3]]] := h2 (rev_ord i).
    exists (rev_ord j); first by rewrite mirror_pivindP // rvk Ej /=; lia.
    split.
    + by rewrite rE0 rev_ordK.
    + by move=> l; rewrite !rE0 rev_ordK => /p2; rewrite !sE !rev_ordK.
    + move=> l; rewrite /before !rE0 rev_ordK => lj /p3; rewrite !sE !rev_ordK; apply.
      by move: lj (ltn_ord l) (ltn_ord j); rewrite /=; lia.
  - move=> i i' ii'; rewrite !mirror_pivindP // !rvk.
    have [j Ej _] := h2 (rev_ord i); have [j' Ej' _] := h2 (rev_ord i').
    have := h3 (rev_ord i') (rev_ord i); rewrite Ej Ej' /=.
    by move: (ltn_ord j) (ltn_ord j') (ltn_ord i) (ltn_ord i'); lia.
  - move=> i; have -> : mirror k (kr_shift r) i = kr_shift r (rev_ord i) by rewrite /mirror ltn_ord rvk.
    have [b1 [j b2 b3]] := h4 (rev_ord i); split.
      by move=> l; rewrite rE0 => /b1; rewrite sE rev_ordK.
    by exists (rev_ord j); rewrite rE0 rev_ordK // -sE.
have [r [f [E]]] := zls_correct v36 Hc m n s A ker0 piv0.
move=> /mkbP[h1 h2 h3 h4]; exists r, f; split=> //; split=> //.
by move=> i; have [j Ej /pivot_lower P] := h2 i; exists j.
Qed.

Lemma row_degrees0P m n A : row_degrees0 (mx_of m n A) (row_degree_zero m n A None).1.
Proof.
move=> i; rewrite /row_degree_zero /vec_degree_zero /=.
have [[Z E]|[[U [j Hj [Nj Ej]]] P]] := vec_maxP (A i) n; [left|right].
  by split; [apply/rowP=> j; rewrite !mxE Z|rewrite E].
rewrite P /=; split; first by move=> l; rewrite !mxE => N; exact: U.
by exists (Ordinal Hj); rewrite !mxE.
Qed.

(** nmod_poly_mat_kernel: the four orientations, with or without an input shift *)
Theorem C48_kernel v36 modn form o m n ker0 piv0 shift A : modn \in [char F] -> (form <= 3)%N ->
  exists r fuel0 s,
    (forall fuel, (fuel0 <= fuel)%N -> kernel_main fuel v36 modn form o m n ker0 piv0 shift A = AOk (Some r)) /\
    let k := kr_nullity r in
    match o with
    | ROW_LOWER | ROW_UPPER =>
        left_kernel_basis (if o is ROW_UPPER then true else false) s (mx_of m n A) (mx_of k m (kr_ker r))
          (kr_pivind r) (kr_shift r) /\
        k = (m - prank (mx_of m n A))%N /\
        if shift is Some s' then s = s' else row_degrees0 (mx_of m n A) s
    | COL_LOWER | COL_UPPER =>
        left_kernel_basis (if o is COL_LOWER then true else false) s (mx_of m n A)^T (mx_of n k (kr_ker r))^T
          (kr_pivind r) (kr_shift r) /\
        k = (n - prank (mx_of m n A))%N /\
        if shift is Some s' then s = s' else row_degrees0 (mx_of m n A)^T s
    end.
Proof.
move=> Hc Hf; have form3 : (3 < form)%N = false by lia.
have sh : exists s, s = match shift, o with
             | Some s, _ => s
             | None, (ROW_LOWER | ROW_UPPER) => (row_degree_zero m n A None).1
             | None, _ => (column_degree_zero m n A None).1
             end by eexists.
have [s Es] := sh; clear sh.
have trE : (mx_of m n A)^T = mx_of n m (ftr A) by rewrite mx_of_tr.
have dcol : row_degrees0 (mx_of n m (ftr A)) (column_degree_zero m n A None).1.
  exact: (@row_degrees0P n m (ftr A)).
have rkT : prank (mx_of n m (ftr A)) = prank (mx_of m n A).
  by rewrite -trE -map_trmx mxrank_tr.
have H up m' n' ker0' A' := kernel_leftP up v36 m' n' ker0' piv0 s A' Hc.
case: o Es => Es.
- have [r [f [E K]]] := H false n m fzero (ftr A); exists (KerRes (kr_nullity r) (ftr (kr_ker r)) (kr_pivind r) (kr_shift r)), f, s.
  split; first by move=> fuel Hfu; rewrite /kernel_main form3 -Es E.
  rewrite /= mx_of_tr trmxK trE; split=> //; split; first by case: K => /kernel_basis_rows; rewrite rkT.
  by rewrite Es; case: shift {Es}.
- have [r [f [E K]]] := H true n m fzero (ftr A); exists (KerRes (kr_nullity r) (ftr (kr_ker r)) (kr_pivind r) (kr_shift r)), f, s.
  split; first by move=> fuel Hfu; rewrite /kernel_main form3 -Es E.
  rewrite /= mx_of_tr trmxK trE; split=> //; split; first by case: K => /kernel_basis_rows; rewrite rkT.
  by rewrite Es; case: shift {Es}.
- have [r [f [E K]]] := H true m n ker0 A; exists r, f, s.
  split; first by move=> fuel Hfu; rewrite /kernel_main form3 -Es E.
  split=> //; split; first by case: K => /kernel_basis_rows.
  by rewrite Es; case: shift {Es} => //; exact: row_degrees0P.
- have [r [f [E K]]] := H false m n ker0 A; exists r, f, s.
  split; first by move=> fuel Hfu; rewrite /kernel_main form3 -Es E.
  split=> //; split; first by case: K => /kernel_basis_rows.
  by rewrite Es; case: shift {Es} => //; exact: row_degrees0P.
Qed.

(** the other forms are refused *)
Theorem C48_kernel_throws fuel v36 modn form o m n ker0 piv0 shift A : (3 < form)%N ->
  kernel_main fuel v36 modn form o m n ker0 piv0 shift A = AOk None.
Proof. by rewrite /kernel_main => ->. Qed.
End P.

(** the hypotheses of C26 and C48 hold for the 2 x 1 matrix (X, X^2) over F_7, whose kernel is
    not zero *)
Example C26_hypotheses_met : 7%N \in [char 'F_7] /\
  exists2 v : 'rV[{poly 'F_7}]_2, v != 0 & v *m mx_of 2 1 (fun i _ => 'X^i.+1) = 0.
Proof.
split; first by rewrite char_Fp.
exists (\row_j (if val j == 0%N then 'X else -1)).
  by apply/eqP=> /rowP/(_ 1); rewrite !mxE /= => /eqP; rewrite oppr_eq0 oner_eq0.
apply/rowP=> j; rewrite !mxE !big_ord_recl big_ord0 !mxE /= addr0 expr1 expr2 mulN1r.
exact: subrr.
Qed.

Print Assumptions C26_kernel_zls.
Print Assumptions C26_agrees_via_approx.
Print Assumptions C48_kernel.
Print Assumptions C48_kernel_throws.
