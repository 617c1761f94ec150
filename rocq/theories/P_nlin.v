(** C87: joining and collapsing columns, partial linearization (ntl-extras). *)
From Coq Require Import ZArith.
From mathcomp Require Import all_ssreflect all_algebra zify.
From Verif Require Import A_base N_pmat_model N_trs_proof N_util_model N_forms_model P_ntrs N_pmb_model N_zls2_proof P_nzls N_lin_model N_lin_proof.
Set Implicit Arguments.
Unset Strict Implicit.
Unset Printing Implicit Defensive.
Import Order.TTheory GRing.Theory Num.Theory.
Local Open Scope ring_scope.

Section P.
Variable F : fieldType.
Implicit Types (a b x pm : pmat F).

(** *** joining and collapsing *)
Theorem C87_join a b : nr a = nr b -> exists2 c, horizontal_join a b = Ret c &
  [/\ nr c = nr a, nc c = (nc a + nc b)%N, forall i j, (j < nc a)%N -> ent c i j = ent a i j & forall i j, (j < nc b)%N -> ent c i (nc a + j)%N = ent b i j].
Proof.
move=> E; rewrite /horizontal_join E eqxx /=; eexists; first by [].
by split=> //= i j Hj; [rewrite Hj|rewrite ltnNge leq_addr addKn].
Qed.
Lemma small_poly d (p : {poly F}) : (size p <= d)%N -> \poly_(i < d) p`_i = p.
Proof. by move=> H; apply/polyP=> i; rewrite coef_poly; case: ltnP => // Hi; rewrite nth_default // (leq_trans H). Qed.
Theorem C87_collapse a d s r : (0 < s)%N -> nc a = (r * s)%N -> entries_below d a -> exists2 c, collapse_consecutive_columns a d s = Ret c &
  is_pmat c (nr a) r (fun i j => \sum_(k < s) 'X^(k * d) * ent a i (j * s + k)%N).
Proof.
move=> s0 E B; rewrite /collapse_consecutive_columns E mulnK // eqxx orbF (gtn_eqF s0); eexists; first by [].
split=> // i j Hi Hj; cbn [ent]; rewrite (poly_blocks (fun k l => (ent a i (j * s + k)%N)`_l)); apply: eq_bigr => k _; congr (_ * _).
by apply: small_poly; apply: B => //; rewrite E; have := ltn_ord k; nia.
Qed.
Theorem C87_collapse_step a d s r : (0 < s)%N -> nc a = (r * s)%N -> entries_below d a -> exists2 c, collapse_nonconsecutive_columns a d s = Ret c &
  is_pmat c (nr a) s (fun i j => \sum_(k < r) 'X^(k * d) * ent a i (j + k * s)%N).
Proof.
move=> s0 E B; rewrite /collapse_nonconsecutive_columns E mulnK // eqxx orbF (gtn_eqF s0); eexists; first by [].
split=> // i j Hi Hj; cbn [ent]; rewrite (poly_blocks (fun k l => (ent a i (j + k * s)%N)`_l)); apply: eq_bigr => k _; congr (_ * _).
by apply: small_poly; apply: B => //; rewrite E; have := ltn_ord k; nia.
Qed.
(** the documentation does not ask for entries of degree less than d: the coefficients of degree d and above are lost *)
Theorem C87_collapse_refuted : let a := Pmat 1 1 (fun _ _ => 'X : {poly F}) in
  (exists2 c, collapse_consecutive_columns a 1 1 = Ret c & ent c 0%N 0%N <> \sum_(k < 1) 'X^(k * 1) * ent a 0%N (0 * 1 + k)%N) /\
  (exists2 c, collapse_nonconsecutive_columns a 1 1 = Ret c & ent c 0%N 0%N <> \sum_(k < 1) 'X^(k * 1) * ent a 0%N (0 + k * 1)%N).
Proof.
have N : \poly_(n < 1) ('X : {poly F})`_(n %% 1) <> \sum_(k < 1) 'X^(k * 1) * 'X.
  move/(congr1 (fun p : {poly F} => p`_1)); rewrite coef_poly /= big_ord1 mul1r coefX eqxx => /eqP.
  by rewrite eq_sym oner_eq0.
by split; eexists.
Qed.

(** *** partial linearization. The column j has t j / (pd j + 1) + 1 columns, from the column [first j] on *)
Definition width (pd t : nat -> nat) (j : nat) : nat := (t j %/ (pd j).+1).+1.
Definition first (w : nat -> nat) (j : nat) : nat := (\sum_(l < j) w l)%N.
(** the columns of l expand the columns of pm without their o first coefficients, by steps of pd j + 1 *)
Definition expands (w pd : nat -> nat) (o : nat) pm (l : pmat F) : Prop :=
  [/\ nr l = nr pm, nc l = first w (nc pm) & forall i j, (i < nr pm)%N -> (j < nc pm)%N -> forall n,
    (\sum_(k < w j) 'X^(k * (pd j).+1) * ent l i (first w j + k)%N)`_n = (ent pm i j)`_(o + n)].
(** all columns of the expansions have degree at most pd j *)
Definition low_degree (w pd : nat -> nat) pm (l : pmat F) : Prop :=
  forall i j k, (i < nr pm)%N -> (j < nc pm)%N -> (k < w j)%N -> (size (ent l i (first w j + k)%N) <= (pd j).+1)%N.

Lemma coef_drop (p : {poly F}) o n : (\poly_(i < size p - o) p`_(o + i))`_n = p`_(o + n).
Proof.
rewrite coef_poly; case: ltnP => // H.
by rewrite nth_default // -leq_subLR.
Qed.
Lemma first_cols cnt w j : cnt =1 w -> lin_cols cnt j = first w j.
Proof. by move=> E; apply: eq_bigr => l _; rewrite E. Qed.
(** what the products need *)
Lemma fill_run cnt w pd o pm : cnt =1 w -> (forall j, (0 < w j)%N) ->
  (forall i j, (i < nr pm)%N -> (j < nc pm)%N -> (o + (w j).-1 * (pd j).+1 <= size (ent pm i j))%N) ->
  exists2 l, lin_fill cnt pd o pm = Ret l & [/\ expands w pd o pm l,
    forall i j k, (i < nr pm)%N -> (j < nc pm)%N -> (k < w j)%N -> ent l i (first w j + k)%N != 0 ->
      (o + k * (pd j).+1 + size (ent l i (first w j + k)%N) <= size (ent pm i j))%N
  & forall i j k, (i < nr pm)%N -> (j < nc pm)%N -> (k < w j)%N -> (k.+1 < w j)%N || (size (ent pm i j) <= o + w j * (pd j).+1)%N ->
      (size (ent l i (first w j + k)%N) <= (pd j).+1)%N].
Proof.
move=> E W B; have [||l -> [H1 H2 H3]] := @lin_fillP F cnt pd o pm.
- by move=> j _; rewrite E.
- by move=> i j Hi Hj; rewrite /lin_reached E; exact: B.
exists l => //; split.
- split=> //; first by rewrite H2 (first_cols _ E).
  by move=> i j Hi Hj n; have [H _ _] := H3 i j Hi Hj; rewrite -coef_drop -H E (first_cols _ E).
- by move=> i j k Hi Hj Hk; have [_ H _] := H3 i j Hi Hj; rewrite -(first_cols _ E); apply: H; rewrite E.
by move=> i j k Hi Hj Hk; have [_ _ H] := H3 i j Hi Hj; rewrite -(first_cols _ E) -E; apply: H; rewrite E.
Qed.
Lemma width_gt pd t j : (t j < width pd t j * (pd j).+1)%N.
Proof. by rewrite /width mulSn {1}(divn_eq (t j) (pd j).+1) addnC ltn_add2r ltn_pmod. Qed.

Theorem C87_linearization pd t pm : (forall i j, (i < nr pm)%N -> (j < nc pm)%N -> (t j %/ (pd j).+1 * (pd j).+1 <= size (ent pm i j) <= (t j).+1)%N) ->
  exists2 l, column_partial_linearization pm pd (fun j => (t j)%:Z) = Ret l & expands (width pd t) pd 0 pm l /\ low_degree (width pd t) pd pm l.
Proof.
move=> B; rewrite /column_partial_linearization ifF; last by apply/negbTE/hasPn=> j _; lia.
have [|||l -> [H1 _ H3]] := @fill_run (fun j => lin_count (t j)%:Z (pd j)) (width pd t) pd 0 pm.
- by move=> j; exact: lin_countE.
- by [].
- by move=> i j Hi Hj; case/andP: (B i j Hi Hj).
exists l => //; split=> // i j k Hi Hj Hk; apply: H3 => //; case/andP: (B i j Hi Hj) => _ H.
by rewrite (leq_trans H) ?orbT // width_gt.
Qed.
Theorem C87_linearization_from pd t o pm :
  (forall i j, (i < nr pm)%N -> (j < nc pm)%N -> (o + (t j - o) %/ (pd j).+1 * (pd j).+1 <= size (ent pm i j) <= (t j).+1)%N) -> (forall j, (j < nc pm)%N -> (o <= t j)%N) ->
  exists2 l, column_partial_linearization_dinf pm pd (fun j => (t j)%:Z) o = Ret l &
    expands (width pd (fun j => t j - o)%N) pd o pm l /\ low_degree (width pd (fun j => t j - o)%N) pd pm l.
Proof.
move=> B Ho; rewrite /column_partial_linearization_dinf; set w := width _ _.
have [|||l -> [H1 _ H3]] := @fill_run (dinf_count pd (fun j => (t j)%:Z) o) w pd o pm.
- by move=> j; rewrite /dinf_count /w /width -lin_countE; congr (lin_count _ _); case: ltrP => H; lia.
- by [].
- by move=> i j Hi Hj; case/andP: (B i j Hi Hj).
exists l => //; split=> // i j k Hi Hj Hk; apply: H3 => //; case/andP: (B i j Hi Hj) => _ H; apply/orP; right; apply: (leq_trans H).
by have := width_gt pd (fun j => t j - o)%N j; rewrite -/w; have := Ho j Hj; move: (w j * _)%N => u; lia.
Qed.
(** an error of NTL as soon as one entry is shorter than the columns of its expansion before the last one; so a column of degree pd j + 1
    cannot be linearized when it has a zero entry *)
Theorem C87_short_entry_refuted pd t pm i j : (i < nr pm)%N -> (j < nc pm)%N -> (size (ent pm i j) < t j %/ (pd j).+1 * (pd j).+1)%N ->
  column_partial_linearization pm pd (fun j => (t j)%:Z) = Undef.
Proof.
move=> Hi Hj S; rewrite /column_partial_linearization; case: ifP => // _; rewrite /lin_fill ifT //.
apply/hasP; exists j; first by rewrite mem_iota.
by apply/hasP; exists i; rewrite ?mem_iota //= /lin_reached lin_countE S.
Qed.
(** undefined behaviour when the last column is zero and the target degree is its degree, -1 *)
Theorem C87_zero_column_refuted pd (td : nat -> int) pm n : (0 < nr pm)%N -> nc pm = n.+1 -> td n = -1 ->
  column_partial_linearization pm pd td = Undef.
Proof.
move=> Hi E T; rewrite /column_partial_linearization; case: ifP => // _; rewrite /lin_fill ifT //.
apply/hasP; exists n; first by rewrite mem_iota E /=.
apply/hasP; exists 0%N; rewrite ?mem_iota //=.
have C : lin_count (td n) (pd n) = 0%N by rewrite T /lin_count (_ : - (-1 + 1) = 0 :> int) // div0z.
by rewrite E lin_colsS C addn0 leqnn orbT.
Qed.

(** *** products *)
Lemma compressE (old : {poly F}) (len : int) (cp : nat -> {poly F}) cnt pd : 0 <= len -> (forall k, (k < cnt)%N -> cp k != 0 -> (k * pd.+1 + size (cp k))%N%:Z <= len) ->
  compress old len cp cnt pd = Ret (\poly_(n < `|len|%N) old`_n + \sum_(k < cnt) 'X^(k * pd.+1) * cp k).
Proof.
move=> H0 H; rewrite /compress ltNge H0 /= ifF //; apply/negbTE/hasPn=> k; rewrite mem_iota /= add0n => Hk.
by rewrite negb_and negbK -leNgt; case: (eqVneq (cp k) 0) => //= N; exact: H.
Qed.
Lemma all_entriesP m n (f : nat -> nat -> fout {poly F}) (Q : nat -> nat -> {poly F} -> Prop) :
  (forall i j, (i < m)%N -> (j < n)%N -> exists2 p, f i j = Ret p & Q i j p) ->
  exists2 c, all_entries m n f = Ret c & [/\ nr c = m, nc c = n & forall i j, (i < m)%N -> (j < n)%N -> Q i j (ent c i j)].
Proof.
move=> H; rewrite /all_entries ifT; last first.
  apply/allP=> i; rewrite mem_iota /= add0n => Hi; apply/allP=> j; rewrite mem_iota /= add0n => Hj.
  by have [p ->] := H i j Hi Hj.
by eexists; first by []; split=> // i j Hi Hj /=; have [p ->] := H i j Hi Hj.
Qed.

(** the core of both products: the expansion of the product a times the matrix b without its o first coefficients *)
Lemma product_run w pd o a b l cp i j (D T : nat) : nc a = nr b -> expands w (fun _ => pd) o b l ->
  (forall i j k, (i < nr b)%N -> (j < nc b)%N -> (k < w j)%N -> ent l i (first w j + k)%N != 0 ->
      (o + k * pd.+1 + size (ent l i (first w j + k)%N) <= size (ent b i j))%N) ->
  (forall i j, (i < nr a)%N -> (j < nc l)%N -> ent cp i j = \sum_(k < nc a) ent a i k * ent l k j) ->
  (i < nr a)%N -> (j < nc b)%N -> (forall k, (k < nc a)%N -> (size (ent a i k) <= D)%N) -> (forall k, (k < nr b)%N -> (size (ent b k j) <= T.+1)%N) ->
  (forall k, (k < w j)%N -> ent cp i (first w j + k)%N != 0 -> (o + k * pd.+1 + size (ent cp i (first w j + k)%N) <= D + T)%N) /\
  \sum_(k < w j) 'X^(k * pd.+1) * ent cp i (first w j + k)%N = \sum_(k < nc a) ent a i k * \poly_(n < size (ent b k j) - o) (ent b k j)`_(o + n).
Proof.
move=> E [X1 X2 X3] S C Hi Hj HD HT.
have In k : (k < w j)%N -> (first w j + k < nc l)%N by rewrite X2; exact: (@lin_cols_lt w _ j k Hj).
split=> [k Hk Nz|].
  have Sl m : (m < nc a)%N -> ent a i m * ent l m (first w j + k)%N != 0 -> (o + k * pd.+1 + size (ent a i m * ent l m (first w j + k)%N)%R <= D + T)%N.
    move=> Hm; rewrite mulf_eq0 negb_or => /andP[N1 N2]; rewrite size_mul //.
    have Hb : (m < nr b)%N by rewrite -E.
    have := HD m Hm; have := HT m Hb; have := S m j k Hb Hj Hk N2.
    have : (0 < size (ent l m (first w j + k)%N))%N by rewrite size_poly_gt0.
    have : (0 < size (ent a i m))%N by rewrite size_poly_gt0.
    by move: (size _) (size _) (size _) (k * _)%N => s1 s2 s3 s4; lia.
  have /hasP[m] : has (fun m : 'I_(nc a) => ent a i m * ent l m (first w j + k)%N != 0) (enum 'I_(nc a)).
    apply: contraNT Nz => /hasPn H; rewrite C ?In //; apply/eqP; apply: big1 => m _; apply/eqP; rewrite -[_ == _]negbK; apply: H; exact: mem_enum.
  move=> _ /(Sl _ (ltn_ord m)) H0.
  suff : (size (ent cp i (first w j + k)%N) <= D + T - (o + k * pd.+1))%N by move: H0; move: (size _) (size _) (k * _)%N; lia.
  rewrite C ?In //; apply/leq_sizeP=> n Hn; rewrite coef_sum; apply: big1 => m' _; case: (eqVneq (ent a i m' * ent l m' (first w j + k)%N) 0) => [->|N]; first by rewrite coef0.
  rewrite nth_default //; have := Sl _ (ltn_ord m') N; move: Hn; clear; move: (k * _)%N (size _) => u v; lia.
transitivity (\sum_(m < nc a) ent a i m * \sum_(k < w j) 'X^(k * pd.+1) * ent l m (first w j + k)%N).
  under eq_bigr => k _ do rewrite C ?In // mulr_sumr.
  rewrite exchange_big /=; apply: eq_bigr => m _; rewrite mulr_sumr; apply: eq_bigr => k _; by rewrite mulrCA.
apply: eq_bigr => m _; congr (_ * _); apply/polyP=> n; rewrite coef_drop; apply: X3 => //; by rewrite -E.
Qed.

Section Products.
Variable mul : pmat F -> pmat F -> fout (pmat F).
Hypothesis MR : mul_right mul.

Lemma multiply_run x a b pd t : nc a = nr b ->
  (forall i j, (i < nr b)%N -> (j < nc b)%N -> (t j %/ pd.+1 * pd.+1 <= size (ent b i j) <= (t j).+1)%N) ->
  exists2 c, right_parlin_multiply mul x a b pd (fun j => (t j)%:Z) = Ret c &
    [/\ nr c = nr a, nc c = nc b & forall i j, (i < nr a)%N -> (j < nc b)%N ->
      exists2 n, (t j <= n)%N & ent c i j = \poly_(k < n) (kept x (nc b) i j)`_k + pprod a b i j].
Proof.
move=> E B; rewrite /right_parlin_multiply /column_partial_linearization ifF; last by apply/negbTE/hasPn=> j _; lia.
set cnt := fun j => lin_count _ pd; pose w := width (fun _ => pd) t.
have Ew : cnt =1 w by move=> j; exact: lin_countE.
have [||l -> [H1 H2 _]] := @fill_run cnt w (fun _ => pd) 0 b Ew; rewrite //.
  by move=> i j Hi Hj; case/andP: (B i j Hi Hj).
rewrite /=; have [|cp -> [C1 C2 C3]] := MR (a := a) (b := l); first by case: H1 => ->.
rewrite /=; apply: (all_entriesP (Q := fun i j c => exists2 n, (t j <= n)%N & c = \poly_(k < n) (kept x (nc b) i j)`_k + pprod a b i j)) => i j Hi Hj.
have [D -> HD] := line_deg_bound (ent a i) (nc a).
have [|P1 P2] := product_run (D := D) (T := t j) E H1 H2 C3 Hi Hj HD.
  by move=> k Hk; case/andP: (B k j Hk Hj).
rewrite (first_cols _ Ew) (_ : lin_count _ _ = w j); last exact: lin_countE.
rewrite compressE.
- eexists; first by []; exists `|(D%:Z - 1 + (t j)%:Z + 1)%R|%N; first lia; congr (_ + _).
  by rewrite P2 /pprod; apply: eq_bigr => k _; congr (_ * _); apply/polyP=> n; rewrite coef_drop.
- lia.
by move=> k Hk N; have := P1 k Hk N; rewrite add0n; lia.
Qed.
(** the result is the product when c is a new matrix, or a matrix with another number of columns, or zero *)
Theorem C87_multiply x a b pd t : nc a = nr b -> (nc x = nc b -> zero_mat x) ->
  (forall i j, (i < nr b)%N -> (j < nc b)%N -> (t j %/ pd.+1 * pd.+1 <= size (ent b i j) <= (t j).+1)%N) ->
  exists2 c, right_parlin_multiply mul x a b pd (fun j => (t j)%:Z) = Ret c & is_pmat c (nr a) (nc b) (pprod a b).
Proof.
move=> E X B; have [c -> [H1 H2 H3]] := multiply_run x E B; exists c => //; split=> // i j Hi Hj; have [n _ ->] := H3 i j Hi Hj.
have -> : kept x (nc b) i j = 0 by rewrite /kept; case: eqP => //= Ex; case: ifP => // Hx; apply: (X Ex); rewrite // Ex.
by rewrite (_ : \poly_(k < n) _ = 0) ?add0r //; apply/polyP=> k; rewrite coef_poly !coef0 if_same.
Qed.
(** otherwise the previous entries of c are added to the product *)
Theorem C87_multiply_stale_refuted x a b pd t : nc a = nr b -> nr x = nr a -> nc x = nc b ->
  (forall i j, (i < nr a)%N -> (j < nc b)%N -> (size (ent x i j) <= t j)%N) ->
  (forall i j, (i < nr b)%N -> (j < nc b)%N -> (t j %/ pd.+1 * pd.+1 <= size (ent b i j) <= (t j).+1)%N) ->
  exists2 c, right_parlin_multiply mul x a b pd (fun j => (t j)%:Z) = Ret c &
    is_pmat c (nr a) (nc b) (fun i j => ent x i j + pprod a b i j).
Proof.
move=> E X1 X2 X B; have [c -> [H1 H2 H3]] := multiply_run x E B; exists c => //; split=> // i j Hi Hj; have [n Hn ->] := H3 i j Hi Hj.
by rewrite /kept X1 X2 eqxx Hi /= small_poly // (leq_trans (X i j Hi Hj)).
Qed.

(** the middle product: o is the number of coefficients of b that do not count *)
Theorem C87_middle_product x a b pd t dA dB : nc a = nr b -> ~ zero_mat a -> entries_below dA.+1 a -> (nc x = nc b -> zero_mat x) ->
  let o := (dA.+1 - plen a)%N in
  (forall i j, (i < nr b)%N -> (j < nc b)%N -> (o + (t j - o) %/ pd.+1 * pd.+1 <= size (ent b i j) <= (t j).+1)%N) ->
  (forall j, (j < nc b)%N -> (o <= t j)%N) ->
  exists2 c, right_parlin_middle_product mul x a b pd (fun j => (t j)%:Z) dA dB = Ret c &
    is_pmat c (nr a) (nc b) (fun i j => \poly_(k < dB.+1) (pprod a b i j)`_(dA + k)).
Proof.
move=> E NZ Ba X o B Ho.
have p0 : (0 < plen a)%N by rewrite lt0n; apply/eqP=> /zero_plen.
have p1 : (plen a <= dA.+1)%N by apply/plenP.
rewrite /right_parlin_middle_product -/o ltnNge p1 /= /column_partial_linearization_dinf.
set cnt := dinf_count _ _ _; pose w := width (fun _ => pd) (fun j => t j - o)%N.
have Ew : cnt =1 w.
  move=> j; rewrite /cnt /dinf_count /w /width -lin_countE; congr (lin_count _ pd); case: ltrP => H; lia.
have [||l -> [H1 H2 _]] := @fill_run cnt w (fun _ => pd) o b Ew; rewrite //.
  by move=> i j Hi Hj; case/andP: (B i j Hi Hj).
rewrite /=; have [|cp -> [C1 C2 C3]] := MR (a := a) (b := l); first by case: H1 => ->.
rewrite /=; apply: (all_entriesP (Q := fun i j c => c = \poly_(k < dB.+1) (pprod a b i j)`_(dA + k))) => i j Hi Hj.
have [D -> HD] := line_deg_bound (ent a i) (nc a).
have [|P1 P2] := product_run (D := D) (T := t j) E H1 H2 C3 Hi Hj HD.
  by move=> k Hk; case/andP: (B k j Hk Hj).
rewrite (first_cols _ Ew) Ew compressE; first last.
- by move=> k Hk N; have := P1 k Hk N; have := Ho j Hj; move: (k * _)%N => u; lia.
- by have := Ho j Hj; lia.
rewrite /=; case Ep: (plen a) p0 => [//|d] _; eexists; first by [].
have -> : kept x (nc b) i j = 0 by rewrite /kept; case: eqP => //= Ex; case: ifP => // Hx; apply: (X Ex); rewrite // Ex.
rewrite (_ : \poly_(n < _) (0 : {poly F})`_n = 0) ?add0r; last by apply/polyP=> k; rewrite coef_poly !coef0 if_same.
apply/polyP=> k; rewrite !coef_poly; case: ltnP => // Hk; rewrite P2 /pprod !coef_sum; apply: eq_bigr => m _.
have Sm : (size (ent a i m) <= d.+1)%N by rewrite -Ep plen_size.
have Eo : (dA = o + d)%N by rewrite /o Ep; move: p1; rewrite Ep; lia.
rewrite !coefM (_ : (dA + k).+1 = (d + k).+1 + o)%N; last by rewrite Eo; lia.
rewrite big_split_ord /= [X in _ = _ + X]big1 ?addr0; last by move=> r _; rewrite nth_default ?mul0r //; apply: leq_trans Sm _; lia.
by apply: eq_bigr => r _; rewrite coef_drop; congr (_ * _`_ _); rewrite Eo; have := ltn_ord r; lia.
Qed.
(** an error of NTL when one entry of b is too short, in particular when it is zero and dA is at least the degree of a plus one *)
Theorem C87_middle_short_entry_refuted x a b pd t dA dB i j : (i < nr b)%N -> (j < nc b)%N ->
  let o := (dA.+1 - plen a)%N in (size (ent b i j) < o + (t j - o) %/ pd.+1 * pd.+1)%N ->
  right_parlin_middle_product mul x a b pd (fun j => (t j)%:Z) dA dB = Undef.
Proof.
move=> Hi Hj o S; rewrite /right_parlin_middle_product -/o; case: ifP => // _.
rewrite /column_partial_linearization_dinf /lin_fill ifT //; apply/hasP; exists j; first by rewrite mem_iota.
apply/hasP; exists i; rewrite ?mem_iota //= /lin_reached /dinf_count.
rewrite (_ : (if 0 < _ then _ else _) = (t j - o)%N%:Z) ?lin_countE ?S //.
by case: ltrP => H; lia.
Qed.
End Products.

(** 2 x 2 matrices meet the hypotheses: a with the entries X, b with the entries X^3 + i + j, linearized by 2 columns of degree 1 *)
Example C87_met : let a := Pmat 2 2 (fun _ _ => 'X : {poly F}) in let b := Pmat 2 2 (fun i j => 'X^3 + ((i + j)%:R)%:P : {poly F}) in
  [/\ forall i j, (i < nr b)%N -> (j < nc b)%N -> (3 %/ 2 * 2 <= size (ent b i j) <= 4)%N, ~ zero_mat a, entries_below 3 a,
      exists2 c, right_parlin_multiply (@plain_mul F) (new_pmat F) a b 1 (fun _ => 3%:Z) = Ret c & is_pmat c 2 2 (pprod a b)
    & exists2 c, right_parlin_middle_product (@plain_mul F) (new_pmat F) a b 1 (fun _ => 3%:Z) 2 1 = Ret c &
        is_pmat c 2 2 (fun i j => \poly_(k < 2) (pprod a b i j)`_(2 + k))].
Proof.
move=> a b.
have S i j : size (ent b i j) = 4%N by rewrite /= size_addl size_polyXn // (leq_ltn_trans (size_polyC_leq1 _)).
have N : ~ zero_mat a by move=> /(_ 0%N 0%N isT isT) /= /eqP; rewrite polyX_eq0.
have B : entries_below 3 a by move=> i j _ _; rewrite /= size_polyX.
have MR : mul_right (@plain_mul F) by move=> u v E; eexists.
have L : plen a = 2%N.
  apply/eqP; rewrite eqn_leq; apply/andP; split; first by apply/plenP=> i j _ _; rewrite /= size_polyX.
  by have := @plen_size F a 0 0 isT isT; rewrite /= size_polyX.
split=> //.
- by move=> i j _ _; rewrite S.
- by apply: (@C87_multiply (@plain_mul F) MR (new_pmat F) a b 1 (fun _ => 3%N)) => // i j _ _; rewrite S.
by apply: (@C87_middle_product (@plain_mul F) MR (new_pmat F) a b 1 (fun _ => 3%N) 2 1) => // [i j _ _|j _]; rewrite L // S.
Qed.
(** a column (X^2, 0) with the linearization degree 0 and its own degree as the target *)
Example C87_short_entry_met : column_partial_linearization (Pmat 2 1 (fun i _ => if i == 0%N then 'X^2 else 0 : {poly F})) (fun _ => 0%N) (fun _ => 2%:Z) = Undef.
Proof. by apply: (@C87_short_entry_refuted (fun _ => 0%N) (fun _ => 2%N) _ 1 0); rewrite //= size_poly0. Qed.
End P.
Print Assumptions C87_join.
Print Assumptions C87_collapse.
Print Assumptions C87_collapse_step.
Print Assumptions C87_collapse_refuted.
Print Assumptions C87_linearization.
Print Assumptions C87_linearization_from.
Print Assumptions C87_short_entry_refuted.
Print Assumptions C87_zero_column_refuted.
Print Assumptions C87_multiply.
Print Assumptions C87_multiply_stale_refuted.
Print Assumptions C87_middle_product.
Print Assumptions C87_middle_short_entry_refuted.
