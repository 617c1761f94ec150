(** Echelon forms: shape invariants, rank from leading columns, and the two column by column
    algorithms. *)
From mathcomp Require Import all_ssreflect all_algebra perm fraction zify.
From Verif Require Import A_base SpecA SpecForms SpecLU SpecWP SpecHermite A_forms_proof A_rot_model A_rot_proof A_wpopov_model.
From Verif Require Import A_frac_proof A_reduced_proof A_rowops_proof A_wpopov_proof A_wpopov2_proof A_hermite_model A_hermite_ops_proof.
Set Implicit Arguments.
Unset Strict Implicit.
Unset Printing Implicit Defensive.
Import Order.TTheory GRing.Theory Num.Theory.
Local Open Scope ring_scope.

(** ** Rank of rows with distinct leading columns *)
Section Lead.
Variable F : fieldType.
Local Notation P := {poly F}.
Implicit Types B : fmat P.

(** j is the leading column of v among the c first ones; j >= c if these entries are zero *)
Definition lead c (v : nat -> P) (j : nat) : Prop :=
  ((j < c)%N -> v j != 0) /\ forall k, (k < c)%N -> (k < j)%N -> v k = 0.

Lemma lead_sub c c' v j : (c' <= c)%N -> lead c v j -> lead c' v j.
Proof. by move=> L [H1 H2]; split=> [H|k Hk Hkj]; [apply: H1|apply: H2 => //]; lia. Qed.

Lemma lead_fpiv c (v : nat -> P) j (D : nat) : (forall k, (k < c)%N -> (size (v k) <= D)%N) -> (j < c)%N -> lead c v j ->
  fpiv true c (fun k => - (k * D)%N%:Z) v j.
Proof.
move=> HD Hj [H1 H2]; split=> //; first exact: H1.
  move=> k Hk Nk; case: (ltnP k j) => L; first by rewrite H2 ?eqxx in Nk.
  have := HD k Hk; have : (0 < size (v j))%N by rewrite size_poly_gt0 H1.
  have : (j * D <= k * D)%N by rewrite leq_mul2r L orbT.
  rewrite /pdeg; case: (ltngtP k j) L => // [L _|-> _] //.
  have : ((j.+1) * D <= k * D)%N by rewrite leq_mul2r L orbT.
  move: (size (v k)) (size (v j)); rewrite mulSn; move: (k * D)%N (j * D)%N => x y a b; lia.
by move=> k Hk L Nk; rewrite H2 ?eqxx in Nk.
Qed.

Local Notation mf := (map_mx (@FracField.tofrac [idomainType of P])).

Lemma lead_rank p c B (g : nat -> nat) :
  (forall i, (i < p)%N -> lead c (B i) (g i)) ->
  (forall i i', (i < p)%N -> (i' < p)%N -> (g i < c)%N -> g i = g i' -> i = i') ->
  \rank (top p c B) = (\sum_(i < p) (g i < c))%N.
Proof.
move=> HL HI.
pose S := [set i : 'I_p | (g i < c)%N]; pose k := #|S|.
pose f (a : 'I_k) : 'I_p := enum_val a.
have fS a : (g (f a) < c)%N by have := enum_valP a; rewrite inE.
pose N := \matrix_(a < k) row (f a) (top p c B).
have EN : (top p c B :=: N)%MS.
  apply/eqmxP/andP; split; apply/row_subP=> i.
    case: (ltnP (g i) c) => C.
      have Si : i \in S by rewrite inE.
      have -> : row i (top p c B) = row (enum_rank_in Si i) N by rewrite rowK /f enum_rankK_in.
      exact: row_sub.
    have -> : row i (top p c B) = 0.
      apply/rowP=> j; rewrite !mxE; have [_ ->] := HL i (ltn_ord i); rewrite ?rmorph0 //.
      exact: leq_trans C.
    exact: sub0mx.
  by rewrite rowK row_sub.
have -> : (\sum_(i < p) (g i < c) = k)%N.
  by rewrite /k -sum1_card [RHS]big_mkcond /=; apply: eq_bigr => i _; rewrite inE; case: ltnP.
rewrite EN.
pose B' : fmat P := fun a => if insub a is Some x then B (f x) else fun _ => 0.
have B'E (a : 'I_k) : B' a = B (f a) by rewrite /B' insubT // => Ha; congr (B (f _)); apply: val_inj.
pose D := (\sum_(a < k) \sum_(j < c) size (B' a j))%N.
have HD (a : 'I_k) j : (j < c)%N -> (size (B' a j) <= D)%N.
  move=> Hj; rewrite /D (bigD1 a) //= (bigD1 (Ordinal Hj)) //= -addnA; exact: leq_addr.
have -> : N = top k c B'.
  by apply/matrixP=> a j; rewrite !mxE B'E.
pose g' a := if insub a is Some x then g (f x) else 0%N.
have g'E (a : 'I_k) : g' a = g (f a) by rewrite /g' insubT // => Ha; congr (g (f _)); apply: val_inj.
apply: (@top_rank _ true (fun k => - (k * D)%N%:Z) k c B' g') => [i Hi|i i' Hi Hi'].
  have := lead_fpiv (HD (Ordinal Hi)) (fS (Ordinal Hi)); rewrite -(g'E (Ordinal Hi)) /=; apply.
  by rewrite (B'E (Ordinal Hi)) (g'E (Ordinal Hi)); apply: HL.
rewrite (g'E (Ordinal Hi)) (g'E (Ordinal Hi')) => /HI E.
have /val_inj/enum_val_inj/(congr1 val) := E (ltn_ord _) (ltn_ord _) (fS _); exact.
Qed.
End Lead.

(** ** Echelon shape *)
Section Shape.
Variable F : fieldType.
Local Notation P := {poly F}.
Variables m n cT : nat.
Implicit Types (A B : fmat P) (T : option (fmat P)) (pv : nat -> nat).

(** the rk first rows are nonzero with increasing leading columns pv *)
Definition pivs A rk pv : Prop :=
  (forall i, (i < rk)%N -> [/\ (pv i < n)%N, A i (pv i) != 0 & forall k, (k < pv i)%N -> A i k = 0]) /\
  (forall i i', (i < i' < rk)%N -> (pv i < pv i')%N).

(** rows lo..m-1 vanish on the j first columns *)
Definition zrows A lo j : Prop := forall i k, (lo <= i < m)%N -> (k < j)%N -> A i k = 0.

Lemma pivs_ext A A' rk pv : (forall i k, (i < rk)%N -> (k < n)%N -> A' i k = A i k) ->
  pivs A rk pv -> pivs A' rk pv.
Proof.
move=> E [H1 H2]; split=> // i Hi; have [h1 h2 h3] := H1 i Hi; split=> //; first by rewrite E.
by move=> k Hk; rewrite E ?h3 //; apply: ltn_trans h1.
Qed.

Lemma pivs_pv A rk pv pv' : (forall i, (i < rk)%N -> pv' i = pv i) -> pivs A rk pv -> pivs A rk pv'.
Proof.
move=> E [H1 H2]; split=> [i Hi|i i' Hi]; first by rewrite E //; apply: H1.
by rewrite !E; try lia; apply: H2.
Qed.

Lemma pivs_inj A rk pv i i' : pivs A rk pv -> (i < rk)%N -> (i' < rk)%N -> pv i = pv i' -> i = i'.
Proof.
move=> [_ H] Hi Hi' E; have := H i i'; have := H i' i; lia.
Qed.

Lemma pivs_uref A rk pv : (rk <= m)%N -> pivs A rk pv -> zrows A rk n -> uref_with (mx_of m n A) rk pv.
Proof.
move=> L [H1 H2] Z; split=> //.
  move=> i Hi; have [h1 h2 h3] := H1 i Hi; exists (Ordinal h1) => //; split; first by rewrite !mxE.
  by move=> k /= Hk; rewrite !mxE h3.
by move=> i Hi; apply/rowP=> k; rewrite !mxE Z // Hi ltn_ord.
Qed.

(** conversely *)
Lemma uref_pivs A rk pv : uref_with (mx_of m n A) rk pv ->
  [/\ (rk <= m)%N, pivs A rk pv & zrows A rk n].
Proof.
case=> L H1 H2 H3; split=> //.
  split=> // i Hi; have Him : (i < m)%N by apply: leq_trans L.
  have [j Ej [N Z]] := H1 (Ordinal Him) Hi.
  have Ej' : pv i = j by rewrite -Ej.
  rewrite !mxE /= in N; split; rewrite ?Ej' //.
  move=> k Hk; have Hkn : (k < n)%N by apply: ltn_trans (ltn_ord j).
  by have := Z (Ordinal Hkn) Hk; rewrite !mxE.
move=> i k /andP[Hi Him] Hk.
by have /rowP/(_ (Ordinal Hk)) := H3 (Ordinal Him) Hi; rewrite !mxE.
Qed.

Lemma pivs_rank A rk pv p : (rk <= m)%N -> (p <= n)%N -> pivs A rk pv -> zrows A rk n ->
  \rank (top m p A) = #|[set i : 'I_rk | (pv i < p)%N]|.
Proof.
move=> L Hp [H1 H2] Z.
rewrite (@lead_rank _ m p A (fun i => if (i < rk)%N then pv i else n)).
- rewrite -sum1_card [RHS]big_mkcond /=.
  rewrite -(big_mkord xpredT (fun i => ((if (i < rk)%N then pv i else n) < p)%N : nat)).
  rewrite (@big_cat_nat _ _ _ rk) //= [X in (_ + X)%N]big_nat_cond [X in (_ + X)%N]big1 ?addn0.
    rewrite big_mkord; apply: eq_bigr => i _; rewrite inE ltn_ord; by case: ifP.
  move=> i /andP[/andP[Hi _] _]; have -> : (i < rk)%N = false by lia.
  by have -> : (n < p)%N = false by lia.
- move=> i Hi; case: ifP => C; last first.
    by split=> [|k Hk _]; [lia|apply: Z; lia].
  by have [h1 h2 h3] := H1 i C; split=> // k _ Hk; apply: h3.
- move=> i i' Hi Hi'; case: ifP => C; last by lia.
  case: ifP => C' _ E; last by have [] := H1 i C; lia.
  by have := H2 i i'; have := H2 i' i; lia.
Qed.

(** a left multiplication of nonzero determinant does not change ranks of leading columns *)
Lemma trans_top k A T A' T' p : k != 0 -> (p <= n)%N -> trans m n cT k A T A' T' ->
  \rank (top m p A') = \rank (top m p A).
Proof.
move=> Nk Hp [U dU [H _]].
rewrite (@top_lmul _ m p U A A') ?dU //.
move: H; rewrite /lmul => /matrixP H; apply/matrixP=> i j.
have Hj : (j < n)%N by apply: leq_trans Hp.
have := H i (Ordinal Hj); rewrite !mxE /= => ->.
by apply: eq_bigr => a _; rewrite !mxE.
Qed.

Lemma leading_top i j (M : fmat P) : prank (leading_block i j M) = \rank (top i j M) :> nat.
Proof. by rewrite /prank /top; congr (\rank (map_mx _ _)); apply/matrixP=> a b; rewrite !mxE. Qed.

Lemma trans_crp k A T A' T' rk pv : k != 0 -> (rk <= m)%N -> trans m n cT k A T A' T' ->
  pivs A' rk pv -> zrows A' rk n -> column_rank_profile m n A rk pv /\ prank (mx_of m n A) = rk.
Proof.
move=> Nk L Tr Pv Z.
have K p : (p <= n)%N -> prank (leading_block m p A) = #|[set i : 'I_rk | (pv i < p)%N]|.
  by move=> Hp; rewrite leading_top -(trans_top Nk Hp Tr) (pivs_rank L Hp Pv Z).
split=> //; have := K n (leqnn _).
have -> : leading_block m n A = mx_of m n A by apply/matrixP=> a b; rewrite !mxE.
move=> ->; rewrite -[RHS](card_ord rk) -cardsT; apply: eq_card => i; rewrite !inE.
by have [] := Pv.1 i (ltn_ord i).
Qed.

Lemma first_nzP A j lo : (lo <= m)%N ->
  [/\ (lo <= first_nz m A j lo <= m)%N, (forall i, (lo <= i < first_nz m A j lo)%N -> A i j = 0) &
      ((first_nz m A j lo < m)%N -> A (first_nz m A j lo) j != 0)].
Proof.
move=> L; rewrite /first_nz; set a := fun i => _.
have Hs : (find a (iota lo (m - lo)) <= m - lo)%N by rewrite -{2}(size_iota lo (m - lo)) find_size.
split; first by lia.
  move=> i Hi; have := @before_find _ 0%N a (iota lo (m - lo)) (i - lo)%N.
  have -> : (i - lo < find a (iota lo (m - lo)))%N by lia.
  move=> /(_ isT); rewrite nth_iota; last by lia.
  have -> : (lo + (i - lo) = i)%N by lia.
  by rewrite /a => /negbFE/eqP.
move=> H; have : has a (iota lo (m - lo)) by rewrite has_find size_iota; lia.
move/(nth_find 0%N); rewrite nth_iota //; lia.
Qed.
End Shape.

(** ** The matrix rank profile from rows of a triangular transformation *)
Section Low.
Variable F : fieldType.
Local Notation P := {poly F}.
Variables m n : nat.
Variable M : fmat P.

(** v is a combination of the t first rows of M *)
Definition lspan t (v : nat -> P) : Prop :=
  exists2 w : nat -> P, (forall l, (t <= l)%N -> w l = 0) & forall c, (c < n)%N -> v c = \sum_(l < m) w l * M l c.

(** v is a combination of the k + 1 first rows of M, with a nonzero coefficient for row k *)
Definition lowrow k (v : nat -> P) : Prop :=
  exists w : nat -> P, [/\ w k != 0, (forall l, (k < l)%N -> w l = 0) &
    forall c, (c < n)%N -> v c = \sum_(l < m) w l * M l c].

Lemma lowrow_id k : (k < m)%N -> lowrow k (M k).
Proof.
move=> H; exists (fun l => (l == k)%:R); split; first by rewrite eqxx oner_eq0.
  by move=> l Hl; have -> : (l == k) = false by lia.
move=> c _; rewrite (bigD1 (Ordinal H)) //= eqxx mul1r big1 ?addr0 // => i Ni.
by have -> : (i == k :> nat) = false; [move: Ni; rewrite -val_eqE /=; lia|rewrite mul0r].
Qed.

Lemma lowrow_lspan k v : lowrow k v -> lspan k.+1 v.
Proof. by case=> w [_ H1 H2]; exists w. Qed.

Lemma lspan_mono t t' v : (t <= t')%N -> lspan t v -> lspan t' v.
Proof. by move=> L [w H1 H2]; exists w => // l Hl; apply: H1; lia. Qed.

Lemma lspan_ext t v v' : (forall c, (c < n)%N -> v' c = v c) -> lspan t v -> lspan t v'.
Proof. by move=> E [w H1 H2]; exists w => // c Hc; rewrite E // H2. Qed.

Lemma lowrow_ext k v v' : (forall c, (c < n)%N -> v' c = v c) -> lowrow k v -> lowrow k v'.
Proof. by move=> E [w [H0 H1 H2]]; exists w; split=> // c Hc; rewrite E // H2. Qed.

Lemma lspan_comb t v v' (a b : P) : lspan t v -> lspan t v' -> lspan t (fun c => a * v c + b * v' c).
Proof.
case=> w H1 H2 [w' H1' H2']; exists (fun l => a * w l + b * w' l).
  by move=> l Hl; rewrite H1 // H1' // !mulr0 addr0.
move=> c Hc; rewrite H2 // H2' // !mulr_sumr -big_split /=; apply: eq_bigr => l _.
by rewrite mulrDl !mulrA.
Qed.

Lemma lowrow_comb k v v' (a b : P) : a != 0 -> lowrow k v -> lspan k v' ->
  lowrow k (fun c => a * v c + b * v' c).
Proof.
move=> Na [w [H0 H1 H2]] [w' H1' H2']; exists (fun l => a * w l + b * w' l); split.
- by rewrite H1' // mulr0 addr0 mulf_neq0.
- by move=> l Hl; rewrite H1 // H1' ?mulr0 ?addr0 //; lia.
move=> c Hc; rewrite H2 // H2' // !mulr_sumr -big_split /=; apply: eq_bigr => l _.
by rewrite mulrDl !mulrA.
Qed.

Lemma low_mrp (mrp : nat -> int) (g : nat -> nat) :
  (forall k, (k < m)%N -> exists2 b, lowrow k b & lead n b (g k)) ->
  (forall k, (k < m)%N -> (g k < n)%N /\ mrp k = (g k)%:Z \/ (n <= g k)%N /\ mrp k = -1) ->
  (forall k k', (k < m)%N -> (k' < m)%N -> (g k < n)%N -> g k = g k' -> k = k') ->
  matrix_rank_profile m n M mrp.
Proof.
move=> HB Hm HI.
have HB' (k : 'I_m) : exists w : nat -> P, [/\ w k != 0, (forall l, (k < l)%N -> w l = 0) &
   lead n (fun c => \sum_(l < m) w l * M l c) (g k)].
  have [b [w [H0 H1 H2]] [L1 L2]] := HB k (ltn_ord k); exists w; split=> //; split=> [C|c Hc C].
    by rewrite -H2 ?L1.
  by rewrite -H2 ?L2.
have [w Hw] := fin_all_exists HB'.
pose L : fmat P := fun k l => if insub k is Some x then w x l else 0.
have LE (k : 'I_m) l : L k l = w k l by rewrite /L insubT // => Hk; congr (w _ l); apply: val_inj.
pose B : fmat P := fun k c => \sum_(l < m) L k l * M l c.
split=> [k Hk|i j Hi Hj].
  by case: (Hm k Hk) => -[h1 h2]; [right; exists (g k)|left].
rewrite leading_top.
have -> : #|[set k : 'I_i | (0 <= mrp k) && (mrp k < j%:Z)]| = (\sum_(k < i) (g k < j))%N.
  rewrite -sum1_card big_mkcond /=; apply: eq_bigr => k _; rewrite inE.
  have Hk : (k < m)%N by apply: leq_trans Hi.
  case: (Hm k Hk) => -[h1 ->]; first by rewrite /= ltz_nat; case: ltnP.
  by have -> : (g k < j)%N = false by lia.
have E : (top i j B :=: top i j M)%MS.
  apply: (@top_lmul _ i j (mx_of i i L)).
    rewrite det_trig.
      apply/prodf_neq0=> k _; rewrite mxE; have Hk : (k < m)%N by apply: leq_trans Hi.
      by rewrite (LE (Ordinal Hk)); have [] := Hw (Ordinal Hk).
    apply/is_trig_mxP=> a b Hab; rewrite mxE; have Ha : (a < m)%N by apply: leq_trans Hi.
    by rewrite (LE (Ordinal Ha)); have [_ ->] := Hw (Ordinal Ha).
  apply/matrixP=> a c; rewrite !mxE /B.
  have Ha : (a < m)%N by apply: leq_trans Hi.
  rewrite -(big_mkord xpredT (fun l => L a l * M l c)) (@big_cat_nat _ _ _ i) //=.
  rewrite [X in _ + X]big_nat_cond [X in _ + X]big1 ?addr0.
    by rewrite big_mkord; apply: eq_bigr => l _; rewrite !mxE.
  move=> l /andP[/andP[Hl _] _]; rewrite (LE (Ordinal Ha)).
  have Hal : (Ordinal Ha < l)%N by exact: leq_trans (ltn_ord a) Hl.
  by have [_ Hz _] := Hw (Ordinal Ha); rewrite Hz // mul0r.
rewrite -E; apply: lead_rank => [k Hk|k k' Hk Hk' C].
  have Hkm : (k < m)%N by lia.
  have [_ _ H] := Hw (Ordinal Hkm); apply: lead_sub Hj _.
  case: H => L1 L2; split=> [C|c Hc C]; rewrite /B.
    have := L1 C; congr (_ != _); apply: eq_bigr => l _; by rewrite (LE (Ordinal Hkm)).
  rewrite -[RHS](L2 c) //; apply: eq_bigr => l _; by rewrite (LE (Ordinal Hkm)).
by apply: HI; lia.
Qed.
End Low.
